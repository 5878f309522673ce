(** Proofs: marking equation, inhibitor/reset nets, witnesses against false properties. *)
From stdpp Require Import gmap.
From Coq Require Import ZArith Lia.
From Verif Require Import Model_Petri Spec_Petri Proofs_Petri Proofs_Petri2.
Local Open Scope Z_scope.

Lemma distinct_identified {L} (pn : petri_net L) t :
  distinct_ids pn -> In t (n_trans pn) -> identified pn t.
Proof.
  unfold distinct_ids, identified. intros Hnd Hin u Hu E.
  induction (n_trans pn) as [|x l IH]; [destruct Hin|].
  cbn [map] in Hnd. inversion Hnd as [|? ? Hni Hnd']; subst.
  destruct Hin as [->|Hin], Hu as [->|Hu]; auto.
  - exfalso. apply Hni. rewrite <- E. apply in_map, Hu.
  - exfalso. apply Hni. rewrite E. apply in_map, Hin.
Qed.

Lemma zsum_ext {A} (f g : A -> Z) l : (forall x, In x l -> f x = g x) -> zsum f l = zsum g l.
Proof.
  induction l as [|x l IH]; intros H; cbn [zsum]; [reflexivity|].
  rewrite (H x) by (left; reflexivity). rewrite IH; [reflexivity|]. intros; apply H; right; assumption.
Qed.

Lemma zsum_add {A} (f g : A -> Z) l : zsum (fun x => f x + g x) l = zsum f l + zsum g l.
Proof. induction l as [|x l IH]; cbn [zsum]; [reflexivity|]. rewrite IH. lia. Qed.

Lemma zsum_zero {A} (l : list A) : zsum (fun _ => 0) l = 0.
Proof. induction l as [|x l IH]; cbn [zsum]; lia. Qed.

Lemma zsum_select {L} (ts : list (transition L)) t (f : transition L -> Z) :
  List.NoDup (map t_id ts) -> In t ts ->
  zsum (fun u => (if Nat.eqb (t_id t) (t_id u) then 1 else 0) * f u) ts = f t.
Proof.
  induction ts as [|x l IH]; intros Hnd Hin; [destruct Hin|].
  cbn [map] in Hnd. inversion Hnd as [|? ? Hni Hnd']; subst. cbn [zsum].
  destruct Hin as [->|Hin].
  - rewrite Nat.eqb_refl. rewrite (zsum_ext _ (fun _ => 0)).
    + rewrite zsum_zero. lia.
    + intros u Hu. destruct (Nat.eqb_spec (t_id t) (t_id u)) as [E|]; [|lia].
      exfalso. apply Hni. rewrite E. apply in_map, Hu.
  - destruct (Nat.eqb_spec (t_id t) (t_id x)) as [E|].
    + exfalso. apply Hni. rewrite <- E. apply in_map, Hin.
    + rewrite IH by assumption. lia.
Qed.

Lemma effect_parikh {L} (pn : petri_net L) ts p (C : transition L -> nat -> Z) :
  distinct_ids pn -> (forall t, In t ts -> In t (n_trans pn)) ->
  (forall t, In t (n_trans pn) -> C t p = weight (t_out t) p - weight (t_in t) p) ->
  effect ts p = zsum (fun u => firings ts u * C u p) (n_trans pn).
Proof.
  intros Hd. induction ts as [|t ts IH]; intros Hin HC; cbn [effect].
  - unfold firings. cbn. rewrite zsum_zero. reflexivity.
  - rewrite IH; [|intros; apply Hin; right; assumption|exact HC].
    rewrite (zsum_ext (fun u => firings (t :: ts) u * C u p)
               (fun u => (if Nat.eqb (t_id t) (t_id u) then 1 else 0) * C u p + firings ts u * C u p)).
    + rewrite zsum_add, zsum_select; [|exact Hd|apply Hin; left; reflexivity].
      rewrite HC by (apply Hin; left; reflexivity). reflexivity.
    + intros u Hu. unfold firings. cbn [List.filter]. destruct (Nat.eqb (t_id t) (t_id u)); cbn [length]; lia.
Qed.

Lemma marking_equation_lemma {L} (pn : petri_net L) m ts m' p :
  distinct_ids pn -> unit_weights pn -> run pn m ts m' ->
  tokens m' p = tokens m p + zsum (fun u => firings ts u * incidence u p) (n_trans pn).
Proof.
  intros Hd Hu Hr. rewrite (run_effect _ _ _ _ p Hr). f_equal. apply effect_parikh; [exact Hd|apply (run_in _ _ _ _ Hr)|].
  intros t Ht. unfold incidence. rewrite !count_arcs_weight; [reflexivity| |]; intros q w Hq; eapply Hu; eauto.
Qed.

Lemma marking_equation_exec {L} (pn : petri_net L) m ts m' p :
  distinct_ids pn -> unit_weights pn -> simple_net pn -> proper m ->
  (forall t, In t ts -> In t (n_trans pn)) ->
  execute_seq pn ts m = Some m' ->
  tokens m' p = tokens m p + zsum (fun u => firings ts u * incidence u p) (n_trans pn).
Proof.
  intros Hd Hu Hs Hm Hin H. apply marking_equation_lemma; [exact Hd|exact Hu|].
  apply execute_seq_run; [| |exact Hm|exact H].
  - intros t Ht. apply distinct_identified; auto.
  - intros t Ht. apply Hs, Hin, Ht.
Qed.

Lemma execute_monotone {L} (pn : petri_net L) ts m m' k :
  distinct_ids pn -> simple_net pn -> (forall t, In t ts -> In t (n_trans pn)) -> proper m -> proper k ->
  execute_seq pn ts m = Some m' -> execute_seq pn ts (m_add m k) = Some (m_add m' k).
Proof.
  intros Hd Hs Hin Hm Hk H.
  assert (Hid : forall t, In t ts -> identified pn t) by (intros; apply distinct_identified; auto).
  assert (Hst : forall t, In t ts -> simple_trans t) by auto.
  pose proof (proj1 (execute_seq_run pn ts m m' Hid Hst Hm) H) as H0.
  destruct (run_monotone pn ts m m' k (m_add m k) H0 Hk) as (n' & Hp & Hsum & Hr).
  - apply proper_m_add; assumption.
  - intros p. apply tokens_m_add.
  - apply execute_seq_run; [assumption|assumption|apply proper_m_add; assumption|].
    replace (m_add m' k) with n'; [exact Hr|].
    apply proper_ext; [exact Hp|apply proper_m_add; [exact (run_proper pn m ts m' Hm H0)|exact Hk]|].
    intros p. rewrite Hsum, tokens_m_add. reflexivity.
Qed.

(** Marking algebra as one statement. *)
Lemma marking_algebra_lemma m n k : proper m -> proper n -> proper k ->
  m_eqb (m_add m n) (m_add n m) = true /\
  m_eqb (m_add (m_add m n) k) (m_add m (m_add n k)) = true /\
  m_eqb (m_add m ∅) m = true /\
  m_eqb (m_sub (m_add m n) n) m = true /\
  (m_eqb m n = true <-> forall p, tokens m p = tokens n p) /\
  (m_leb m n = true <-> forall p, tokens m p <= tokens n p) /\
  (m_leb m n = true <-> exists d, proper d /\ m_eqb n (m_add m d) = true) /\
  m_leb m m = true /\
  (m_leb m n = true -> m_leb n m = true -> m_eqb m n = true) /\
  (m_leb m n = true -> m_leb n k = true -> m_leb m k = true) /\
  (m_leb n m = true -> m_eqb (m_add (m_sub m n) n) m = true).
Proof.
  intros Hm Hn Hk.
  pose proof proper_m_add as HA. pose proof proper_empty as HE.
  assert (Hsub : proper (m_sub (m_add m n) n)).
  { apply proper_m_sub; auto. intros p. rewrite tokens_m_add. pose proof (proper_nonneg m p Hm). lia. }
  split; [|split; [|split; [|split; [|split; [|split; [|split; [|split; [|split; [|split]]]]]]]]].
  - apply m_eqb_iff; auto. intros p. rewrite !tokens_m_add. lia.
  - apply m_eqb_iff; auto. intros p. rewrite !tokens_m_add. lia.
  - apply m_eqb_iff; auto.
  - apply m_eqb_iff; auto. intros p. rewrite tokens_m_sub, tokens_m_add. lia.
  - apply m_eqb_iff; auto.
  - apply m_leb_iff; auto.
  - rewrite m_leb_iff by auto. split.
    + intros H. exists (m_sub n m). assert (Hp : proper (m_sub n m)) by (apply proper_m_sub; auto).
      split; [exact Hp|]. apply m_eqb_iff; auto. intros p. rewrite tokens_m_add, tokens_m_sub. lia.
    + intros (d & Hd & E) p. rewrite (proj1 (m_eqb_iff _ _ Hn (HA _ _ Hm Hd)) E p), tokens_m_add.
      pose proof (proper_nonneg d p Hd). lia.
  - apply m_leb_iff; auto. intros; lia.
  - rewrite !m_leb_iff, m_eqb_iff by auto. intros H1 H2 p. specialize (H1 p). specialize (H2 p). lia.
  - rewrite !m_leb_iff by auto. intros H1 H2 p. specialize (H1 p). specialize (H2 p). lia.
  - rewrite m_leb_iff by auto. intros H. assert (proper (m_sub m n)) by (apply proper_m_sub; auto).
    apply m_eqb_iff; auto. intros p. rewrite tokens_m_add, tokens_m_sub. lia.
Qed.

(** Inhibitor / reset. *)
Lemma ir_enabled_iff t pn m :
  (forall u, In u pn -> ir_id u = ir_id t -> u = t) -> proper m ->
  ir_is_enabled t pn m = true <-> In t pn /\ ir_enabled_at t m.
Proof.
  intros Hid Hm. unfold ir_is_enabled.
  destruct (existsb (fun u => Nat.eqb (ir_id u) (ir_id t)) pn) eqn:E; cbn [negb].
  - apply existsb_exists in E as (u & Hu & Eu). apply Nat.eqb_eq in Eu.
    rewrite (Hid u Hu Eu) in Hu. rewrite forallb_forall. unfold ir_enabled_at. split.
    + intros H. split; [exact Hu|]. split.
      * intros p w Hin. specialize (H _ Hin). cbn in H. change mget with tokens in H.
        destruct (Z.ltb_spec (tokens m p) w); [discriminate|lia].
      * intros p w Hin. specialize (H _ Hin). cbn in H. change mget with tokens in H.
        pose proof (proper_nonneg m p Hm).
        destruct (Z.gtb_spec (tokens m p) 0); [discriminate|lia].
    + intros (_ & H1 & H2) [[p w] k] Hin. destruct k; change mget with tokens.
      * specialize (H1 _ _ Hin). destruct (Z.ltb_spec (tokens m p) w); [lia|reflexivity].
      * specialize (H2 _ _ Hin). rewrite H2. reflexivity.
      * reflexivity.
  - split; [discriminate|]. intros [H _]. exfalso.
    assert (existsb (fun u => Nat.eqb (ir_id u) (ir_id t)) pn = true); [|congruence].
    apply existsb_exists. exists t. rewrite Nat.eqb_refl. auto.
Qed.

Lemma ir_left_fold t m p : ir_simple t -> ir_left t m p (tokens (fold_left ir_consume (ir_in t) m) p).
Proof.
  intros (Hnd & _). unfold ir_left. repeat split.
  - intros w Hin. rewrite (ir_consume_tokens _ _ _ _ _ Hnd Hin). reflexivity.
  - intros w Hin. rewrite (ir_consume_tokens _ _ _ _ _ Hnd Hin). reflexivity.
  - intros w Hin. rewrite (ir_consume_tokens _ _ _ _ _ Hnd Hin). reflexivity.
  - intros H. unfold tokens. rewrite ir_consume_other; [reflexivity|].
    intros Hin. apply in_map_iff in Hin as ([[q w] k] & E & Hin). cbn in E. subst q. apply (H w k Hin).
Qed.

Lemma ir_left_det t m p v v' : ir_left t m p v -> ir_left t m p v' -> v = v'.
Proof.
  intros (A1 & A2 & A3 & A4) (B1 & B2 & B3 & B4).
  destruct (in_dec Nat.eq_dec p (map (fun a : nat * Z * arc_kind => a.1.1) (ir_in t))) as [Hin|Hni].
  - apply in_map_iff in Hin as ([[q w] k] & E & Hin). cbn in E. subst q. destruct k.
    + rewrite (A1 w Hin), (B1 w Hin). reflexivity.
    + rewrite (A3 w Hin), (B3 w Hin). reflexivity.
    + rewrite (A2 w Hin), (B2 w Hin). reflexivity.
  - assert (H : forall w k, ~ In (p, w, k) (ir_in t)).
    { intros w k Hin. apply Hni. apply in_map_iff. exists (p, w, k). auto. }
    rewrite (A4 H), (B4 H). reflexivity.
Qed.

Lemma ir_execute_lemma t pn m :
  (forall u, In u pn -> ir_id u = ir_id t -> u = t) -> ir_simple t -> proper m ->
  (ir_execute t pn m = None <-> ~ (In t pn /\ ir_enabled_at t m)) /\
  (forall m', ir_execute t pn m = Some m' ->
     proper m' /\ forall p v, ir_left t m p v -> tokens m' p = v + weight (ir_out t) p).
Proof.
  intros Hid Hs Hm. unfold ir_execute. pose proof (ir_enabled_iff t pn m Hid Hm) as HE.
  destruct (ir_is_enabled t pn m) eqn:Een; cbn [negb].
  - destruct (proj1 HE eq_refl) as [Hin [He1 He2]]. split.
    + split; [discriminate|]. intros H. exfalso. apply H, HE. reflexivity.
    + intros m' [= <-]. split.
      * apply proper_fold_produce; [|apply Hs]. apply ir_consume_proper; [apply Hs|exact Hm|exact He1].
      * intros p v Hv. rewrite tokens_fold_produce.
        rewrite (ir_left_det _ _ _ _ _ Hv (ir_left_fold t m p Hs)). reflexivity.
  - split; [|discriminate]. split; [|reflexivity]. intros _ H. apply HE in H. discriminate.
Qed.

(** Witness: two parallel unit arcs from a place with one token. *)
Definition par_t : transition (option nat) := Trans 0 (Some 7%nat) [(0%nat, 1); (0%nat, 1)] [(1%nat, 1)].
Definition par_net : petri_net (option nat) := Net [0%nat; 1%nat] [par_t].

Lemma parallel_negative :
  exists (pn : petri_net (option nat)) t m m' p,
    proper m /\ In t (n_trans pn) /\ (forall q w, In (q, w) (t_in t) -> 0 < w) /\
    execute t pn m = Some m' /\ tokens m' p < 0.
Proof.
  exists par_net, par_t, {[ 0%nat := 1 ]}.
  eexists. exists 0%nat. split; [apply proper_singleton; lia|]. split; [left; reflexivity|].
  split; [cbn; intros q w [[= <- <-]|[[= <- <-]|[]]]; lia|].
  split; [vm_compute; reflexivity|]. vm_compute. reflexivity.
Qed.

Lemma sub_marking_wrong :
  exists sub m, proper sub /\ proper m /\ (forall p, tokens sub p <= tokens m p) /\ is_sub_marking sub m = false.
Proof.
  exists {[ 0%nat := 1 ]}, {[ 0%nat := 2 ]}.
  split; [apply proper_singleton; lia|]. split; [apply proper_singleton; lia|]. split.
  - intros p. rewrite !tokens_singleton. destruct (Nat.eqb 0 p); lia.
  - vm_compute. reflexivity.
Qed.

Lemma sub_marking_wrong2 :
  exists sub m, proper sub /\ proper m /\ (exists p, tokens m p < tokens sub p) /\ is_sub_marking sub m = true.
Proof.
  exists {[ 0%nat := 2 ]}, {[ 0%nat := 1 ]}.
  split; [apply proper_singleton; lia|]. split; [apply proper_singleton; lia|]. split.
  - exists 0%nat. vm_compute. reflexivity.
  - vm_compute. reflexivity.
Qed.

(** What the function does decide: on the places of [sub], [m] is present with at most [sub]. *)
Lemma sub_marking_actual sub m : proper sub ->
  is_sub_marking sub m = true <->
  (forall p, 0 < tokens sub p -> exists v, m !! p = Some v /\ v <= tokens sub p).
Proof.
  intros Hs. unfold is_sub_marking. rewrite forallb_forall. split.
  - intros H p Hp. destruct (sub !! p) as [v|] eqn:E.
    + assert (Hin : In (p, v) (map_to_list sub)) by (apply elem_of_list_In, elem_of_map_to_list, E).
      specialize (H _ Hin). cbn in H. unfold tokens. rewrite E. destruct (m !! p) as [w|]; [|discriminate].
      exists w. split; [reflexivity|]. destruct (Z.gtb_spec w v); [discriminate|lia].
    + unfold tokens in Hp. rewrite E in Hp. lia.
  - intros H [p v] Hin. apply elem_of_list_In, elem_of_map_to_list in Hin. cbn.
    pose proof (Hs _ _ Hin). specialize (H p). unfold tokens in H. rewrite Hin in H.
    destruct H as (w & -> & Hw); [lia|]. destruct (Z.gtb_spec w v); [lia|reflexivity].
Qed.

(** Weighted arcs: the incidence matrix is not the net effect. *)
Definition w_t : transition (option nat) := Trans 0 (Some 7%nat) [(0%nat, 2)] [(1%nat, 3)].
Definition w_net : petri_net (option nat) := Net [0%nat; 1%nat] [w_t].
Lemma incidence_weights_wrong :
  exists (pn : petri_net (option nat)) m ts m' p,
    distinct_ids pn /\ simple_net pn /\ proper m /\ run pn m ts m' /\
    tokens m' p <> tokens m p + zsum (fun u => firings ts u * incidence u p) (n_trans pn).
Proof.
  exists w_net, {[ 0%nat := 2 ]}, [w_t], {[ 1%nat := 3 ]}, 1%nat.
  split; [repeat constructor; auto|]. split.
  { intros t [<-|[]]. repeat split; cbn; repeat constructor; auto; intros p w [[= <- <-]|[]]; lia. }
  split; [apply proper_singleton; lia|]. split.
  - econstructor; [|constructor]. repeat split.
    + left. reflexivity.
    + intros p. rewrite tokens_singleton. cbn. destruct p; lia.
    + apply proper_singleton. lia.
    + intros p. rewrite !tokens_singleton. cbn. destruct p as [|[|p]]; lia.
  - vm_compute. discriminate.
Qed.
