(** Proofs about Petri-net semantics (no property statements here: see Props_Petri.v). *)
From stdpp Require Import gmap.
From Coq Require Import ZArith Lia.
From Verif Require Import Model_Petri Spec_Petri.
Local Open Scope Z_scope.

Lemma mget_tokens m p : mget m p = tokens m p.
Proof. unfold mget, tokens. destruct (m !! p); reflexivity. Qed.

Lemma tokens_insert m p v q : tokens (<[p := v]> m) q = if Nat.eqb p q then v else tokens m q.
Proof.
  unfold tokens. destruct (Nat.eqb_spec p q) as [->|Hne].
  - rewrite lookup_insert. reflexivity.
  - rewrite lookup_insert_ne by assumption. reflexivity.
Qed.

Lemma tokens_delete m p q : tokens (delete p m) q = if Nat.eqb p q then 0 else tokens m q.
Proof.
  unfold tokens. destruct (Nat.eqb_spec p q) as [->|Hne].
  - rewrite lookup_delete. reflexivity.
  - rewrite lookup_delete_ne by assumption. reflexivity.
Qed.

Lemma tokens_empty p : tokens ∅ p = 0.
Proof. unfold tokens. rewrite lookup_empty. reflexivity. Qed.

Lemma proper_nonneg m p : proper m -> 0 <= tokens m p.
Proof. intros H. unfold tokens. destruct (m !! p) as [v|] eqn:E; [|lia]. specialize (H _ _ E). lia. Qed.

Lemma proper_ext m n : proper m -> proper n -> (forall p, tokens m p = tokens n p) -> m = n.
Proof.
  intros Hm Hn H. apply map_eq. intros p. specialize (H p). unfold tokens in H.
  destruct (m !! p) as [v|] eqn:Em, (n !! p) as [w|] eqn:En; try congruence.
  - specialize (Hm _ _ Em). lia.
  - specialize (Hn _ _ En). lia.
Qed.

Lemma proper_insert m p v : proper m -> 0 < v -> proper (<[p := v]> m).
Proof.
  intros Hm Hv q w. destruct (decide (p = q)) as [->|Hne].
  - rewrite lookup_insert. intros [= <-]. exact Hv.
  - rewrite lookup_insert_ne by assumption. apply Hm.
Qed.

Lemma proper_delete m p : proper m -> proper (delete p m).
Proof.
  intros Hm q w. destruct (decide (p = q)) as [->|Hne].
  - rewrite lookup_delete. discriminate.
  - rewrite lookup_delete_ne by assumption. apply Hm.
Qed.

Lemma proper_empty : proper ∅.
Proof. intros p v H. rewrite lookup_empty in H. discriminate. Qed.

Lemma proper_singleton p v : 0 < v -> proper {[ p := v ]}.
Proof. intros. apply proper_insert; [apply proper_empty|assumption]. Qed.

Lemma tokens_singleton p v q : tokens {[ p := v ]} q = if Nat.eqb p q then v else 0.
Proof.
  change ({[ p := v ]} : marking) with (<[ p := v ]> (∅ : marking)).
  rewrite tokens_insert, tokens_empty. reflexivity.
Qed.

(** consume / produce *)
Lemma tokens_consume m a q :
  tokens (consume m a) q = tokens m q - (if Nat.eqb a.1 q then a.2 else 0).
Proof.
  unfold consume. change mget with tokens. destruct a as [p w]; cbn [fst snd].
  destruct (Z.eqb_spec (tokens m p - w) 0) as [E|E];
    rewrite ?tokens_delete, ?tokens_insert; destruct (Nat.eqb_spec p q) as [->|]; lia.
Qed.

Lemma tokens_produce m a q :
  tokens (produce m a) q = tokens m q + (if Nat.eqb a.1 q then a.2 else 0).
Proof.
  unfold produce. change mget with tokens. rewrite tokens_insert.
  destruct (Nat.eqb_spec a.1 q) as [<-|]; lia.
Qed.

Lemma tokens_fold_consume arcs m q :
  tokens (fold_left consume arcs m) q = tokens m q - weight arcs q.
Proof.
  revert m. induction arcs as [|[p w] arcs IH]; intros m; cbn [fold_left weight].
  - lia.
  - rewrite IH, tokens_consume. cbn [fst snd]. lia.
Qed.

Lemma tokens_fold_produce arcs m q :
  tokens (fold_left produce arcs m) q = tokens m q + weight arcs q.
Proof.
  revert m. induction arcs as [|[p w] arcs IH]; intros m; cbn [fold_left weight].
  - lia.
  - rewrite IH, tokens_produce. cbn [fst snd]. lia.
Qed.

Lemma proper_consume m a : proper m -> a.2 <= tokens m a.1 -> proper (consume m a).
Proof.
  intros Hm Ha. unfold consume. change mget with tokens.
  destruct (Z.eqb_spec (tokens m a.1 - a.2) 0).
  - apply proper_delete, Hm.
  - apply proper_insert; [exact Hm | lia].
Qed.

Lemma proper_produce m a : proper m -> 0 < a.2 -> proper (produce m a).
Proof.
  intros Hm Ha. unfold produce. change mget with tokens. apply proper_insert; [exact Hm|].
  pose proof (proper_nonneg m a.1 Hm). lia.
Qed.

Lemma proper_fold_produce arcs m :
  proper m -> (forall p w, In (p, w) arcs -> 0 < w) -> proper (fold_left produce arcs m).
Proof.
  revert m. induction arcs as [|[p w] arcs IH]; intros m Hm Ha; cbn [fold_left]; [exact Hm|].
  apply IH.
  - apply proper_produce; [exact Hm|]. apply (Ha p w). left. reflexivity.
  - intros q v Hq. apply (Ha q v). right. exact Hq.
Qed.

(** An arc-by-arc bound is enough when there are no parallel arcs. *)
Lemma proper_fold_consume arcs m :
  List.NoDup (map fst arcs) -> proper m ->
  (forall p w, In (p, w) arcs -> w <= tokens m p) ->
  proper (fold_left consume arcs m).
Proof.
  revert m. induction arcs as [|[p w] arcs IH]; intros m Hnd Hm Ha; cbn [fold_left]; [exact Hm|].
  cbn [map fst] in Hnd. inversion Hnd as [|? ? Hni Hnd']; subst.
  apply IH; [exact Hnd'| |].
  - apply proper_consume; [exact Hm|]. apply (Ha p w). left. reflexivity.
  - intros q v Hq. rewrite tokens_consume. cbn [fst snd].
    destruct (Nat.eqb_spec p q) as [->|].
    + exfalso. apply Hni. apply in_map_iff. exists (q, v). split; [reflexivity|exact Hq].
    + rewrite Z.sub_0_r. apply Ha. right. exact Hq.
Qed.

Lemma weight_nonneg arcs p : (forall q w, In (q, w) arcs -> 0 < w) -> 0 <= weight arcs p.
Proof.
  induction arcs as [|[q w] arcs IH]; intros H; cbn [weight]; [lia|].
  assert (0 < w) by (apply (H q w); left; reflexivity).
  assert (0 <= weight arcs p) by (apply IH; intros; eapply H; right; eassumption).
  destruct (Nat.eqb q p); lia.
Qed.

Lemma weight_notin arcs p : ~ In p (map fst arcs) -> weight arcs p = 0.
Proof.
  induction arcs as [|[q w] arcs IH]; intros H; cbn [weight]; [reflexivity|].
  cbn [map fst In] in H. destruct (Nat.eqb_spec q p) as [->|]; [tauto|]. rewrite IH by tauto. lia.
Qed.

Lemma weight_in arcs p w : List.NoDup (map fst arcs) -> In (p, w) arcs -> weight arcs p = w.
Proof.
  induction arcs as [|[q v] arcs IH]; intros Hnd Hin; [destruct Hin|].
  cbn [map fst] in Hnd. inversion Hnd as [|? ? Hni Hnd']; subst. cbn [weight].
  destruct Hin as [[= -> ->]|Hin].
  - rewrite Nat.eqb_refl, weight_notin by exact Hni. lia.
  - destruct (Nat.eqb_spec q p) as [->|].
    + exfalso. apply Hni. apply in_map_iff. exists (p, w). auto.
    + rewrite IH by assumption. lia.
Qed.

Lemma forallb_arcs m arcs :
  forallb (fun a : nat * Z => negb (mget m a.1 <? a.2)) arcs = true <->
  forall p w, In (p, w) arcs -> w <= tokens m p.
Proof.
  rewrite forallb_forall. split.
  - intros H p w Hin. specialize (H _ Hin). cbn in H. change mget with tokens in H.
    destruct (Z.ltb_spec (tokens m p) w); [discriminate|lia].
  - intros H [p w] Hin. cbn. change mget with tokens. specialize (H _ _ Hin).
    destruct (Z.ltb_spec (tokens m p) w); [lia|reflexivity].
Qed.

Lemma enabled_arcs_iff arcs m :
  simple_arcs arcs -> proper m ->
  ((forall p w, In (p, w) arcs -> w <= tokens m p) <-> (forall p, weight arcs p <= tokens m p)).
Proof.
  intros [Hnd Hpos] Hm. split.
  - intros H p. destruct (in_dec Nat.eq_dec p (map fst arcs)) as [Hi|Hi].
    + apply in_map_iff in Hi as [[q w] [<- Hi]]. cbn.
      rewrite (weight_in _ _ _ Hnd Hi). apply H, Hi.
    + rewrite weight_notin by exact Hi. apply proper_nonneg, Hm.
  - intros H p w Hi. rewrite <- (weight_in _ _ _ Hnd Hi). apply H.
Qed.

Section WithL.
  Context {L : Type}.
  Implicit Types (t : transition L) (pn : petri_net L) (m : marking).

  (** Python identity: a transition of the net with the same id is the same object. *)
  Definition identified pn t : Prop :=
    forall u, In u (n_trans pn) -> t_id u = t_id t -> u = t.

  Lemma trans_in_iff pn t : identified pn t -> trans_in t pn = true <-> In t (n_trans pn).
  Proof.
    intros Hid. unfold trans_in. rewrite existsb_exists. split.
    - intros [u [Hu E]]. apply Nat.eqb_eq in E. rewrite <- (Hid u Hu E). exact Hu.
    - intros H. exists t. split; [exact H|apply Nat.eqb_refl].
  Qed.

  Lemma in_trans_in pn t : In t (n_trans pn) -> trans_in t pn = true.
  Proof. intros H. unfold trans_in. apply existsb_exists. exists t. rewrite Nat.eqb_refl. auto. Qed.

  Lemma is_enabled_iff pn t m :
    identified pn t -> simple_trans t -> proper m ->
    is_enabled t pn m = true <-> In t (n_trans pn) /\ enabled_at t m.
  Proof.
    intros Hid [Hin _] Hm. unfold is_enabled, enabled_at.
    rewrite <- (enabled_arcs_iff _ _ Hin Hm), <- forallb_arcs.
    pose proof (trans_in_iff pn t Hid) as HT.
    destruct (trans_in t pn); cbn [negb].
    - split; [intros H; split; [apply HT; reflexivity|exact H]|tauto].
    - split; [discriminate|]. intros [H _]. apply HT in H. discriminate.
  Qed.

  Lemma fired_marking t m p :
    tokens (fold_left produce (t_out t) (fold_left consume (t_in t) m)) p
    = tokens m p - weight (t_in t) p + weight (t_out t) p.
  Proof. rewrite tokens_fold_produce, tokens_fold_consume. reflexivity. Qed.

  Lemma fired_proper t m :
    simple_trans t -> proper m -> enabled_at t m ->
    proper (fold_left produce (t_out t) (fold_left consume (t_in t) m)).
  Proof.
    intros [Hi Ho] Hm He. apply proper_fold_produce; [|apply Ho].
    apply proper_fold_consume; [apply Hi|exact Hm|].
    apply (proj2 (enabled_arcs_iff _ _ Hi Hm)). exact He.
  Qed.

  Lemma execute_some pn t m m' :
    identified pn t -> simple_trans t -> proper m ->
    execute t pn m = Some m' <-> fires pn t m m'.
  Proof.
    intros Hid Hs Hm. unfold execute.
    pose proof (is_enabled_iff pn t m Hid Hs Hm) as HE.
    destruct (is_enabled t pn m); cbn [negb].
    - destruct (proj1 HE eq_refl) as [Hin He]. split.
      + intros [= <-]. repeat split; [exact Hin|exact He|apply fired_proper; assumption|].
        intros p. apply fired_marking.
      + intros (_ & _ & Hp & Ht). f_equal. apply proper_ext; [apply fired_proper; assumption|exact Hp|].
        intros p. rewrite fired_marking, Ht. reflexivity.
    - split; [discriminate|]. intros (Hin & He & _). destruct HE as [_ HE].
      discriminate HE. split; assumption.
  Qed.

  Lemma execute_none pn t m :
    identified pn t -> simple_trans t -> proper m ->
    execute t pn m = None <-> (~ In t (n_trans pn) \/ exists p, tokens m p < weight (t_in t) p).
  Proof.
    intros Hid Hs Hm. unfold execute.
    pose proof (is_enabled_iff pn t m Hid Hs Hm) as HE.
    destruct (is_enabled t pn m) eqn:Een; cbn [negb].
    - destruct (proj1 HE eq_refl) as [Hin He]. split; [discriminate|].
      intros [H|[p Hp]]; [contradiction|]. specialize (He p). lia.
    - split; [intros _|reflexivity].
      pose proof (trans_in_iff pn t Hid) as HT.
      unfold is_enabled in Een. destruct (trans_in t pn); cbn [negb] in Een.
      + right. destruct Hs as [[Hnd Hpos] _].
        assert (Hex : exists a, In a (t_in t) /\ tokens m a.1 < a.2).
        { clear -Een. induction (t_in t) as [|a l IH]; [discriminate|].
          cbn [forallb] in Een. change mget with tokens in Een.
          destruct (Z.ltb_spec (tokens m a.1) a.2).
          - exists a. split; [left; reflexivity|assumption].
          - destruct (IH Een) as [b [Hb Hlt]]. exists b. split; [right; exact Hb|exact Hlt]. }
        destruct Hex as [[p w] [Hin Hlt]]. exists p. rewrite (weight_in _ _ _ Hnd Hin). exact Hlt.
      + left. intros H. apply HT in H. discriminate.
  Qed.

  Lemma weak_consume_eq m a : a.2 <= tokens m a.1 -> weak_consume m a = consume m a.
  Proof.
    intros H. unfold weak_consume, consume. change mget with tokens.
    destruct (Z.leb_spec (tokens m a.1 - a.2) 0), (Z.eqb_spec (tokens m a.1 - a.2) 0); try reflexivity; lia.
  Qed.

  Lemma weak_fold_eq arcs m :
    List.NoDup (map fst arcs) -> (forall p w, In (p, w) arcs -> w <= tokens m p) ->
    fold_left weak_consume arcs m = fold_left consume arcs m.
  Proof.
    revert m. induction arcs as [|[p w] arcs IH]; intros m Hnd Ha; cbn [fold_left]; [reflexivity|].
    cbn [map fst] in Hnd. inversion Hnd as [|? ? Hni Hnd']; subst.
    rewrite weak_consume_eq by (apply (Ha p w); left; reflexivity).
    apply IH; [exact Hnd'|]. intros q v Hq. rewrite tokens_consume. cbn [fst snd].
    destruct (Nat.eqb_spec p q) as [->|].
    - exfalso. apply Hni. apply in_map_iff. exists (q, v). auto.
    - rewrite Z.sub_0_r. apply Ha. right. exact Hq.
  Qed.

  Lemma weak_execute_fires pn t m :
    simple_trans t -> proper m -> In t (n_trans pn) -> enabled_at t m ->
    fires pn t m (weak_execute t m).
  Proof.
    intros Hs Hm Hin He. unfold weak_execute. rewrite weak_fold_eq.
    - repeat split; [exact Hin|exact He|apply fired_proper; assumption|]. intros p. apply fired_marking.
    - apply Hs.
    - apply (proj2 (enabled_arcs_iff _ _ (proj1 Hs) Hm)). exact He.
  Qed.

  Lemma fires_det pn t m m1 m2 : fires pn t m m1 -> fires pn t m m2 -> m1 = m2.
  Proof.
    intros (_ & _ & Hp1 & H1) (_ & _ & Hp2 & H2). apply proper_ext; [exact Hp1|exact Hp2|].
    intros p. rewrite H1, H2. reflexivity.
  Qed.

  Lemma run_proper pn m ts m' : proper m -> run pn m ts m' -> proper m'.
  Proof. intros Hm H. induction H as [|m t m1 ts m2 Hf Hr IH]; [exact Hm|]. apply IH, Hf. Qed.

  Lemma run_app pn m ts1 m1 ts2 m2 : run pn m ts1 m1 -> run pn m1 ts2 m2 -> run pn m (ts1 ++ ts2) m2.
  Proof.
    intros H1 H2. induction H1 as [|m t ma ts mb Hf Hr IH]; [exact H2|].
    cbn [app]. econstructor; [exact Hf|]. apply IH, H2.
  Qed.

  Lemma run_app_inv pn m ts1 ts2 m2 : run pn m (ts1 ++ ts2) m2 -> exists m1, run pn m ts1 m1 /\ run pn m1 ts2 m2.
  Proof.
    revert m. induction ts1 as [|t ts1 IH]; intros m H; cbn [app] in H.
    - exists m. split; [constructor|exact H].
    - inversion H; subst. edestruct IH as [mm [Ha Hb]]; [eassumption|].
      exists mm. split; [|exact Hb]. econstructor; eassumption.
  Qed.

  Lemma run_det pn m ts m1 m2 : run pn m ts m1 -> run pn m ts m2 -> m1 = m2.
  Proof.
    intros H1. revert m2. induction H1 as [|m t ma ts mb Hf Hr IH]; intros m2 H2; inversion H2; subst.
    - reflexivity.
    - apply IH. match goal with H : fires _ _ _ _ |- _ => rewrite (fires_det _ _ _ _ _ Hf H) end. assumption.
  Qed.

  Lemma run_in pn m ts m' : run pn m ts m' -> forall t, In t ts -> In t (n_trans pn).
  Proof.
    intros H. induction H as [|m t m1 ts m2 Hf Hr IH]; intros u Hu; [destruct Hu|].
    destruct Hu as [<-|Hu]; [apply Hf|apply IH, Hu].
  Qed.

  Lemma execute_seq_run pn ts m m' :
    (forall t, In t ts -> identified pn t) -> (forall t, In t ts -> simple_trans t) -> proper m ->
    execute_seq pn ts m = Some m' <-> run pn m ts m'.
  Proof.
    revert m. induction ts as [|t ts IH]; intros m Hid Hs Hm; cbn [execute_seq].
    - split; [intros [= <-]; constructor|]. intros H. inversion H. reflexivity.
    - pose proof (execute_some pn t m) as HE.
      assert (Ht : In t (t :: ts)) by (left; reflexivity).
      destruct (execute t pn m) as [m1|] eqn:E.
      + assert (Hf : fires pn t m m1) by (apply HE; auto).
        rewrite IH; [|intros; apply Hid; right; assumption|intros; apply Hs; right; assumption|apply Hf].
        split; [intros H; econstructor; eassumption|].
        intros H. inversion H; subst.
        match goal with H1 : fires _ _ _ ?mm, H2 : run _ ?mm _ _ |- _ => rewrite (fires_det _ _ _ _ _ Hf H1); exact H2 end.
      + split; [discriminate|]. intros H. inversion H; subst.
        match goal with H1 : fires _ _ _ _ |- _ => apply HE in H1; auto; discriminate end.
  Qed.

  (** Marking equation. *)
  Fixpoint effect (ts : list (transition L)) (p : nat) : Z :=
    match ts with [] => 0 | t :: r => weight (t_out t) p - weight (t_in t) p + effect r p end.

  Lemma run_effect pn m ts m' p : run pn m ts m' -> tokens m' p = tokens m p + effect ts p.
  Proof.
    intros H. induction H as [m|m t m1 ts m2 Hf Hr IH]; cbn [effect]; [lia|].
    rewrite IH. destruct Hf as (_ & _ & _ & Hf). rewrite Hf. lia.
  Qed.

  (** Monotonicity. *)
  Lemma proper_sum_exists m k : proper m -> proper k -> exists n, proper n /\ is_sum m k n.
  Proof.
    intros Hm Hk.
    exists (union_with (fun a b => Some (a + b)) m k). split.
    - intros p v. rewrite lookup_union_with.
      destruct (m !! p) as [a|] eqn:Em, (k !! p) as [b|] eqn:Ek; cbn; intros [= <-].
      + specialize (Hm _ _ Em). specialize (Hk _ _ Ek). lia.
      + apply (Hm _ _ Em).
      + apply (Hk _ _ Ek).
    - intros p. unfold tokens. rewrite lookup_union_with.
      destruct (m !! p), (k !! p); cbn; lia.
  Qed.

  Lemma fires_monotone pn t m m' k n :
    fires pn t m m' -> proper k -> is_sum m k n -> exists n', is_sum m' k n' /\ fires pn t n n'.
  Proof.
    intros (Hin & He & Hp & Ht) Hk Hs.
    destruct (proper_sum_exists m' k Hp Hk) as [n' [Hn' Hs']].
    exists n'. split; [exact Hs'|]. repeat split; [exact Hin| |exact Hn'|].
    - intros p. rewrite Hs. specialize (He p). pose proof (proper_nonneg k p Hk). lia.
    - intros p. rewrite Hs', Hs, Ht. lia.
  Qed.

  Lemma run_monotone pn ts m m' k n :
    run pn m ts m' -> proper k -> proper n -> is_sum m k n ->
    exists n', proper n' /\ is_sum m' k n' /\ run pn n ts n'.
  Proof.
    intros H. revert n. induction H as [m|m t m1 ts m2 Hf Hr IH]; intros n Hk Hn Hs.
    - exists n. split; [exact Hn|]. split; [exact Hs|constructor].
    - destruct (fires_monotone _ _ _ _ _ _ Hf Hk Hs) as [n1 [Hs1 Hf1]].
      destruct (IH n1 Hk (proj1 (proj2 (proj2 Hf1))) Hs1) as [n2 (Hp2 & Hs2 & Hr2)].
      exists n2. split; [exact Hp2|]. split; [exact Hs2|]. econstructor; eassumption.
  Qed.
End WithL.

(** Marking algebra. *)
Lemma mfold_add_tokens l m q :
  tokens (fold_left m_add_item l m) q = tokens m q + weight l q.
Proof. exact (tokens_fold_produce l m q). Qed.

Lemma weight_map_to_list (n : marking) q : weight (map_to_list n) q = tokens n q.
Proof.
  destruct (n !! q) as [v|] eqn:E.
  - rewrite (weight_in _ q v).
    + unfold tokens. rewrite E. reflexivity.
    + apply NoDup_ListNoDup. apply (NoDup_fst_map_to_list n).
    + apply elem_of_list_In. apply elem_of_map_to_list. exact E.
  - rewrite weight_notin.
    + unfold tokens. rewrite E. reflexivity.
    + intros H. apply in_map_iff in H as [[p w] [<- H]]. apply elem_of_list_In, elem_of_map_to_list in H.
      cbn in E. congruence.
Qed.

Lemma tokens_m_add m n q : tokens (m_add m n) q = tokens m q + tokens n q.
Proof. unfold m_add. rewrite mfold_add_tokens, weight_map_to_list. reflexivity. Qed.

Lemma tokens_m_sub m n q : tokens (m_sub m n) q = tokens m q - tokens n q.
Proof.
  unfold m_sub. change m_sub_item with consume.
  rewrite tokens_fold_consume, weight_map_to_list. reflexivity.
Qed.

Lemma proper_m_add m n : proper m -> proper n -> proper (m_add m n).
Proof.
  intros Hm Hn. apply (proper_fold_produce (map_to_list n) m Hm).
  intros p w H. apply elem_of_list_In, elem_of_map_to_list in H. apply (Hn _ _ H).
Qed.

Lemma proper_m_sub m n : proper m -> proper n -> (forall p, tokens n p <= tokens m p) -> proper (m_sub m n).
Proof.
  intros Hm Hn H. unfold m_sub. change m_sub_item with consume.
  apply proper_fold_consume; [apply NoDup_ListNoDup, NoDup_fst_map_to_list|exact Hm|].
  intros p w Hin. apply elem_of_list_In, elem_of_map_to_list in Hin.
  specialize (H p). unfold tokens at 1 in H. rewrite Hin in H. exact H.
Qed.

Lemma m_leb_iff m n : proper m -> proper n ->
  m_leb m n = true <-> forall p, tokens m p <= tokens n p.
Proof.
  intros Hm Hn. unfold m_leb. rewrite forallb_forall. split.
  - intros H p. unfold tokens at 1. destruct (m !! p) as [v|] eqn:E.
    + assert (Hin : In (p, v) (map_to_list m)) by (apply elem_of_list_In, elem_of_map_to_list, E).
      specialize (H _ Hin). cbn in H. unfold tokens. destruct (n !! p) as [w|]; [|discriminate].
      destruct (Z.ltb_spec w v); [discriminate|lia].
    + apply proper_nonneg, Hn.
  - intros H [p v] Hin. apply elem_of_list_In, elem_of_map_to_list in Hin. cbn.
    specialize (H p). unfold tokens in H. rewrite Hin in H. pose proof (Hm _ _ Hin).
    destruct (n !! p) as [w|]; [|lia]. destruct (Z.ltb_spec w v); [lia|reflexivity].
Qed.

Lemma m_eqb_iff m n : proper m -> proper n ->
  m_eqb m n = true <-> forall p, tokens m p = tokens n p.
Proof.
  intros Hm Hn. unfold m_eqb. rewrite bool_decide_eq_true. split; [intros -> ; reflexivity|].
  apply proper_ext; assumption.
Qed.

(** Unit weights: the code's incidence matrix is the net effect. *)
Lemma count_arcs_weight arcs p : (forall q w, In (q, w) arcs -> w = 1) -> count_arcs p arcs = weight arcs p.
Proof.
  unfold count_arcs. induction arcs as [|[q w] arcs IH]; intros H; cbn [List.filter weight]; [reflexivity|].
  assert (Hw : w = 1) by (apply (H q w); left; reflexivity). subst w.
  assert (IH' : Z.of_nat (length (List.filter (fun a : nat * Z => Nat.eqb a.1 p) arcs)) = weight arcs p)
    by (apply IH; intros; eapply H; right; eassumption).
  cbn [fst]. destruct (Nat.eqb q p); cbn [length]; lia.
Qed.

(** Inhibitor / reset. *)
Definition ir_weight (t : ir_transition) (k : arc_kind) (p : nat) (w : Z) : Prop := In (p, w, k) (ir_in t).

Lemma ir_consume_other arcs m q :
  ~ In q (map (fun a : nat * Z * arc_kind => a.1.1) arcs) ->
  fold_left ir_consume arcs m !! q = m !! q.
Proof.
  revert m. induction arcs as [|[[p w] k] arcs IH]; intros m H; cbn [fold_left]; [reflexivity|].
  cbn [map fst In] in H. rewrite IH by tauto.
  destruct k; cbn [ir_consume]; try reflexivity.
  - destruct (_ =? 0); [rewrite lookup_delete_ne by tauto|rewrite lookup_insert_ne by tauto]; reflexivity.
  - rewrite lookup_delete_ne by tauto. reflexivity.
Qed.

Lemma ir_consume_tokens arcs m p w k :
  List.NoDup (map (fun a : nat * Z * arc_kind => a.1.1) arcs) -> In (p, w, k) arcs ->
  tokens (fold_left ir_consume arcs m) p =
  match k with Normal => tokens m p - w | Inhibitor => tokens m p | Reset => 0 end.
Proof.
  revert m. induction arcs as [|[[q v] l] arcs IH]; intros m Hnd Hin; [destruct Hin|].
  cbn [map fst] in Hnd. inversion Hnd as [|? ? Hni Hnd']; subst. cbn [fold_left].
  destruct Hin as [[= -> -> ->]|Hin].
  - unfold tokens at 1. rewrite ir_consume_other by exact Hni. fold (tokens (ir_consume m (p, w, k)) p).
    destruct k; cbn [ir_consume].
    + pose proof (tokens_consume m (p, w) p) as HH. cbn [fst snd] in HH. rewrite Nat.eqb_refl in HH. exact HH.
    + reflexivity.
    + rewrite tokens_delete, Nat.eqb_refl. reflexivity.
  - assert (Hne : q <> p).
    { intros ->. apply Hni. apply in_map_iff. exists (p, w, k). auto. }
    rewrite (IH (ir_consume m (q, v, l)) Hnd' Hin).
    assert (E : tokens (ir_consume m (q, v, l)) p = tokens m p).
    { unfold tokens. pose proof (ir_consume_other [(q, v, l)] m p) as Ho. cbn [fold_left map fst In] in Ho.
      rewrite Ho by tauto. reflexivity. }
    rewrite E. reflexivity.
Qed.

Lemma ir_consume_proper arcs m :
  List.NoDup (map (fun a : nat * Z * arc_kind => a.1.1) arcs) -> proper m ->
  (forall p w, In (p, w, Normal) arcs -> w <= tokens m p) ->
  proper (fold_left ir_consume arcs m).
Proof.
  revert m. induction arcs as [|[[q v] l] arcs IH]; intros m Hnd Hm Ha; cbn [fold_left]; [exact Hm|].
  cbn [map fst] in Hnd. inversion Hnd as [|? ? Hni Hnd']; subst.
  apply IH; [exact Hnd'| |].
  - destruct l; cbn [ir_consume]; [|exact Hm|apply proper_delete, Hm].
    apply (proper_consume m (q, v)); [exact Hm|]. apply Ha. left. reflexivity.
  - intros p w Hp. assert (Hne : q <> p).
    { intros ->. apply Hni. apply in_map_iff. exists (p, w, Normal). auto. }
    assert (E : tokens (ir_consume m (q, v, l)) p = tokens m p).
    { unfold tokens. pose proof (ir_consume_other [(q, v, l)] m p) as Ho. cbn [fold_left map fst In] in Ho.
      rewrite Ho by tauto. reflexivity. }
    rewrite E. apply Ha. right. exact Hp.
Qed.
