From Coq Require Import List Arith Bool Lia Permutation.
Import ListNotations.
From Verif Require Import Model_Dict Proofs_Dict Model_Dfg Spec_Dfg Proofs_Dfg Model_Stream Spec_Stream.
Local Arguments keqb {K Key} : simpl never.

Lemma mem_in {A} {K : Key A} (x : A) l : mem x l = true <-> In x l.
Proof. apply existsb_keqb. Qed.
Lemma mem_false {A} {K : Key A} (x : A) l : mem x l = false <-> ~ In x l.
Proof. rewrite <- mem_in. destruct (mem x l); split; congruence. Qed.

(** * Footprints, one case *)
Definition step1 (fp : footprints) (s : option nat * option nat) (a : nat) : option nat * option nat :=
  let '(p, d) := s in
  let d := match p with None => Some 0 | Some _ => d end in
  if mem a (fp_acts fp) then
    (Some a, match p with
             | None => if mem a (fp_starts fp) then d else option_map (fun n => n + 1) d
             | Some q => if mem (q, a) (fp_pairs fp) then d else option_map (fun n => n + 1) d
             end)
  else (p, option_map (fun n => n + 1) d).
Definition F fp t := fold_left (step1 fp) t (None, None).
Lemma dev_incr_get d c c' : d_get (dev_incr d c) c' = if Nat.eqb c c' then option_map (fun n => n + 1) (d_get d c) else d_get d c'.
Proof.
  unfold dev_incr. destruct (d_get d c) eqn:E.
  - rewrite d_get_set. change (keqb c c') with (Nat.eqb c c'). destruct (Nat.eqb c c'); auto.
  - destruct (Nat.eqb_spec c c') as [->|]; auto.
Qed.
Lemma case_trace_snoc evs e c : case_trace (evs ++ [e]) c = case_trace evs c ++
  match e_case e, e_act e with Some c', Some a => if Nat.eqb c' c then [a] else [] | _, _ => [] end.
Proof.
  unfold case_trace. assert (E : forall l, cases_acts (l ++ [e]) = cases_acts l ++ match e_case e, e_act e with Some c', Some a => [(c', a)] | _, _ => [] end).
  { induction l as [|[[c0|] [a0|]] l IH]; cbn; rewrite ?IH; auto. destruct e as [[?|] [?|]]; auto. }
  rewrite E, filter_app, map_app. destruct e as [[c'|] [a|]]; cbn; auto. destruct (Nat.eqb c' c); auto.
Qed.
Lemma fp_run_case fp evs c : (d_get (f_case (fp_run fp evs)) c, d_get (f_dev (fp_run fp evs)) c) = F fp (case_trace evs c).
Proof.
  induction evs as [|e evs IH] using rev_ind; [reflexivity|]. unfold fp_run. rewrite fold_left_app. cbn [fold_left]. fold (fp_run fp evs).
  set (s := fp_run fp evs) in *. unfold fp_process. rewrite case_trace_snoc. destruct e as [[c'|] [a|]]; cbn [e_case e_act]; try (rewrite app_nil_r; exact IH).
  unfold F. rewrite fold_left_app. fold (F fp (case_trace evs c)). rewrite <- IH. destruct (Nat.eqb_spec c' c) as [->|Hc]; cbn [fold_left].
  - unfold verify_footprints, step1. destruct (mem a (fp_acts fp)) eqn:Ea; cbn [f_case f_dev].
    + rewrite d_get_set_same. f_equal. destruct (d_get (f_case s) c) as [p|].
      * destruct (mem (p, a) (fp_pairs fp)); auto. rewrite dev_incr_get, Nat.eqb_refl. auto.
      * destruct (mem a (fp_starts fp)); [apply d_get_set_same|]. rewrite dev_incr_get, Nat.eqb_refl, d_get_set_same. auto.
    + f_equal. rewrite dev_incr_get, Nat.eqb_refl. destruct (d_get (f_case s) c); auto. rewrite d_get_set_same. auto.
  - unfold verify_footprints. assert (X : forall (d : dict nat nat) v, d_get (d_set d c' v) c = d_get d c) by (intros; apply d_get_set_other; auto).
    assert (Y : forall d : dict nat nat, d_get (dev_incr d c') c = d_get d c) by (intros; rewrite dev_incr_get; destruct (Nat.eqb_spec c' c); congruence).
    destruct (mem a (fp_acts fp)); cbn [f_case f_dev]; destruct (d_get (f_case s) c') as [p|];
      repeat match goal with |- context [if ?b then _ else _] => destruct b end; rewrite ?X, ?Y, ?X; auto.
Qed.

Lemma nth_error_snoc {A} (t : list A) a i : nth_error (t ++ [a]) i = if Nat.ltb i (length t) then nth_error t i else if Nat.eqb i (length t) then Some a else None.
Proof.
  destruct (Nat.ltb_spec i (length t)); [apply nth_error_app1; auto|]. rewrite nth_error_app2 by lia.
  destruct (Nat.eqb_spec i (length t)) as [->|]; [rewrite Nat.sub_diag; auto|]. destruct (i - length t) as [|[|k]] eqn:E; auto; lia.
Qed.
Lemma nth_lt {A} (t : list A) i a : nth_error t i = Some a -> i < length t.
Proof. intros H. apply nth_error_Some. congruence. Qed.
Lemma known_snoc fp t a i b : known fp (t ++ [a]) i b <-> known fp t i b \/ (i = length t /\ b = a /\ In a (fp_acts fp)).
Proof.
  unfold known. rewrite nth_error_snoc. destruct (Nat.ltb_spec i (length t)).
  - split; [auto|]. intros [?|(-> & _)]; auto. lia.
  - assert (nth_error t i = None) as -> by (apply nth_error_None; auto). destruct (Nat.eqb_spec i (length t)) as [->|].
    + split; [intros [[= ->] ?]; auto|intros [[? _]|(_ & -> & ?)]; [discriminate|auto]].
    + split; [intros [? _]; discriminate|intros [[? _]|(? & _)]; [discriminate|congruence]].
Qed.
Definition any_known fp t := exists i b, known fp t i b.
Lemma prev_spec fp t :
  match fst (F fp t) with Some a => last_known fp t a | None => ~ any_known fp t end.
Proof.
  induction t as [|a t IH] using rev_ind; [intros (i & b & H & _); destruct i; discriminate|].
  unfold F. rewrite fold_left_app. cbn [fold_left]. fold (F fp t). destruct (F fp t) as [p d]. cbn [fst] in IH. unfold step1.
  destruct (mem a (fp_acts fp)) eqn:Ea; cbn [fst].
  - apply mem_in in Ea. exists (length t). split; [apply known_snoc; auto|]. intros j b Hj. rewrite known_snoc.
    intros [[H _]|(? & _)]; [apply nth_lt in H|]; lia.
  - apply mem_false in Ea. destruct p as [p|].
    + destruct IH as (i & H1 & H2). exists i. split; [apply known_snoc; auto|]. intros j b Hj. rewrite known_snoc. intros [?|(_ & _ & ?)]; [eapply H2; eauto|auto].
    + intros (i & b & H). apply IH. rewrite known_snoc in H. destruct H as [?|(_ & _ & ?)]; [exists i, b; auto|tauto].
Qed.
Lemma exactly_snoc n (P Q : nat -> Prop) L (b : bool) :
  exactly n P -> (forall i, P i -> i < L) -> (forall i, Q i <-> P i \/ (i = L /\ b = true)) -> exactly (n + if b then 1 else 0) Q.
Proof.
  intros (l & H1 & H2 & H3) HL HQ. exists (l ++ if b then [L] else []). split; [|split].
  - destruct b; [|rewrite app_nil_r; auto]. apply NoDup_app_intro; auto; [repeat constructor; auto|]. intros x Hx [<-|[]]. apply H3, HL in Hx. lia.
  - rewrite app_length. destruct b; cbn; lia.
  - intros x. rewrite in_app_iff, H3, HQ. destruct b; cbn; intuition.
Qed.
Lemma deviating_snoc_lt fp t a i : i < length t -> deviating fp (t ++ [a]) i <-> deviating fp t i.
Proof.
  intros Hi. unfold deviating. rewrite nth_error_snoc. destruct (Nat.ltb_spec i (length t)); [|lia].
  assert (K : forall j b, j < length t -> known fp (t ++ [a]) j b <-> known fp t j b).
  { intros j b Hj. rewrite known_snoc. split; [intros [?|(? & _)]; [auto|lia]|auto]. }
  split; intros (x & Hx & [H1|[(H1 & H2)|(j & p & H1 & H2 & H3 & H4)]]); exists x; split; auto; right.
  - left. split; auto. intros j b Hj. rewrite <- K by lia. auto.
  - right. exists j, p. split; auto. split; [apply K; auto; lia|]. split; auto. intros k b Hk. rewrite <- K by lia. auto.
  - left. split; auto. intros j b Hj. rewrite K by lia. auto.
  - right. exists j, p. split; auto. split; [apply K; auto; lia|]. split; auto. intros k b Hk. rewrite K by lia. auto.
Qed.
Lemma deviating_snoc_eq fp t a : deviating fp (t ++ [a]) (length t) <->
  ~ In a (fp_acts fp) \/ (~ any_known fp t /\ ~ In a (fp_starts fp)) \/ (exists p, last_known fp t p /\ ~ In (p, a) (fp_pairs fp)).
Proof.
  unfold deviating. rewrite nth_error_snoc, Nat.ltb_irrefl, Nat.eqb_refl.
  assert (K : forall j b, j < length t -> known fp (t ++ [a]) j b <-> known fp t j b).
  { intros j b Hj. rewrite known_snoc. split; [intros [?|(? & _)]; [auto|lia]|auto]. }
  assert (KL : forall j b, known fp t j b -> j < length t) by (intros j b [Hk _]; apply nth_lt in Hk; auto).
  split.
  - intros (x & [= <-] & [H1|[(H1 & H2)|(j & p & H1 & H2 & H3 & H4)]]); auto.
    + right. left. split; auto. intros (j & b & Hk). apply (H1 j b (KL _ _ Hk)). apply K; eauto.
    + right. right. exists p. split; auto. exists j. split; [apply K; auto|]. intros k b Hk Hkn. apply (H3 k b); [split; eauto|]. apply K; eauto.
  - intros [H1|[(H1 & H2)|(p & (j & H1 & H2) & H3)]]; exists a; split; auto; right.
    + left. split; auto. intros j b Hj Hk. apply K in Hk; auto. apply H1. exists j, b. auto.
    + right. exists j, p. split; [eauto|]. split; [apply K; eauto|]. split; auto. intros k b Hk Hkn. apply K in Hkn; [|lia]. apply (H2 k b); auto. lia.
Qed.
Definition counted fp t i := deviating fp t i /\ exists j b, j <= i /\ known fp t j b.
Lemma dev_spec fp t :
  match fst (F fp t) with
  | None => snd (F fp t) = match t with [] => None | _ => Some 1 end
  | Some p => exists n, snd (F fp t) = Some n /\ exactly n (counted fp t)
  end.
Proof.
  induction t as [|a t IH] using rev_ind; [reflexivity|]. assert (P := prev_spec fp t).
  unfold F. rewrite fold_left_app. cbn [fold_left]. fold (F fp t). destruct (F fp t) as [p d]. cbn [fst snd] in *. unfold step1.
  assert (C1 : forall i, counted fp t i -> i < length t) by (intros i ((x & Hx & _) & _); apply nth_lt in Hx; auto).
  assert (C2 : forall (b : bool), (b = true <-> counted fp (t ++ [a]) (length t)) -> forall i, counted fp (t ++ [a]) i <-> counted fp t i \/ (i = length t /\ b = true)).
  { intros b Hb i. destruct (Nat.lt_trichotomy i (length t)) as [L|[->|L]].
    - unfold counted. rewrite deviating_snoc_lt by auto. split.
      + intros (H1 & j & b' & H2 & H3). left. split; auto. exists j, b'. split; auto. rewrite known_snoc in H3. destruct H3 as [?|(? & _)]; auto. lia.
      + intros [(H1 & j & b' & H2 & H3)|[? _]]; [|lia]. split; auto. exists j, b'. split; auto. rewrite known_snoc. auto.
    - rewrite Hb. split; auto. intros [H|[_ H]]; auto. apply C1 in H. lia.
    - split.
      + intros ((x & Hx & _) & _). apply nth_lt in Hx. rewrite app_length in Hx. cbn in Hx. lia.
      + intros [H|[? _]]; [apply C1 in H|]; lia. }
  assert (U : forall q r, last_known fp t q -> last_known fp t r -> q = r).
  { intros q r (i & H1 & H2) (j & G1 & G2). destruct (Nat.lt_trichotomy i j) as [L|[->|L]].
    - exfalso. apply (H2 j r L G1). - destruct H1, G1. congruence. - exfalso. apply (G2 i q L H1). }
  assert (NA : forall q, last_known fp t q -> any_known fp t) by (intros q (i & H1 & _); exists i, q; auto).
  destruct (mem a (fp_acts fp)) eqn:Ea; cbn [fst snd].
  - apply mem_in in Ea. assert (KA : exists j b, j <= length t /\ known fp (t ++ [a]) j b) by (exists (length t), a; split; auto; apply known_snoc; auto).
    destruct p as [p|].
    + destruct IH as (n & -> & IH). exists (n + if negb (mem (p, a) (fp_pairs fp)) then 1 else 0). split; [destruct (mem (p, a) (fp_pairs fp)); cbn; auto|].
      eapply exactly_snoc; [exact IH|exact C1|]. apply C2. unfold counted. rewrite deviating_snoc_eq, negb_true_iff, mem_false. split.
      * intros H. split; auto. right. right. exists p. auto.
      * intros [[H|[[H _]|(q & Hq & H)]] _]; [tauto|exfalso; apply H; eauto|]. rewrite (U p q P Hq). auto.
    + exists (0 + if negb (mem a (fp_starts fp)) then 1 else 0). split; [destruct (mem a (fp_starts fp)); cbn; auto|].
      eapply exactly_snoc; [|exact C1|].
      * apply exactly_0. intros i (_ & j & b & _ & Hk). apply P. exists j, b. auto.
      * apply C2. unfold counted. rewrite deviating_snoc_eq, negb_true_iff, mem_false. split.
        -- intros H. split; auto.
        -- intros [[H|[[_ H]|(q & Hq & H)]] _]; [tauto|auto|]. exfalso. apply P. eauto.
  - apply mem_false in Ea. destruct p as [p|].
    + destruct IH as (n & -> & IH). exists (n + 1). split; auto.
      eapply (exactly_snoc n _ _ (length t) true); [exact IH|exact C1|]. apply C2. unfold counted. rewrite deviating_snoc_eq. split; auto. intros _. split; auto.
      destruct P as (j & H1 & _). exists j, p. split; [destruct H1 as [H1 _]; apply nth_lt in H1; lia|]. apply known_snoc. auto.
    + cbn. destruct t; auto.
Qed.

Theorem fp_deviations fp evs c p : last_known fp (case_trace evs c) p ->
  exists n, d_get (f_dev (fp_run fp evs)) c = Some n /\
    exactly n (fun i => deviating fp (case_trace evs c) i /\ exists j b, j <= i /\ known fp (case_trace evs c) j b).
Proof.
  intros H. assert (D := dev_spec fp (case_trace evs c)). assert (P := prev_spec fp (case_trace evs c)). rewrite <- fp_run_case in *. cbn [fst snd] in *.
  destruct (d_get (f_case (fp_run fp evs)) c); auto. exfalso. apply P. destruct H as (i & H & _). exists i, p. auto.
Qed.
Lemma last_known_ex fp t : any_known fp t -> exists p, last_known fp t p.
Proof. intros H. assert (P := prev_spec fp t). destruct (fst (F fp t)); eauto. tauto. Qed.
Lemma last_known_unique fp t q r : last_known fp t q -> last_known fp t r -> q = r.
Proof.
  intros (i & H1 & H2) (j & G1 & G2). destruct (Nat.lt_trichotomy i j) as [L|[->|L]].
  - exfalso. apply (H2 j r L G1). - destruct H1, G1. congruence. - exfalso. apply (G2 i q L H1).
Qed.
Theorem fp_status fp evs c p : last_known fp (case_trace evs c) p ->
  exists n, d_get (f_dev (fp_run fp evs)) c = Some n /\
    get_status (fp_run fp evs) c = Some (Nat.eqb n 0) /\ fst (terminate fp (fp_run fp evs) c) = Some (Nat.eqb n 0 && mem p (fp_ends fp)).
Proof.
  intros H. assert (D := dev_spec fp (case_trace evs c)). assert (P := prev_spec fp (case_trace evs c)). rewrite <- fp_run_case in *. cbn [fst snd] in *.
  unfold get_status, terminate. destruct (d_get (f_case (fp_run fp evs)) c) as [q|].
  2:{ exfalso. apply P. destruct H as (i & H & _). exists i, p. auto. }
  rewrite (last_known_unique _ _ _ _ H P). destruct D as (n & Dn & _). rewrite Dn. exists n. split; auto. split; auto. cbn [fst].
  destruct (mem q (fp_ends fp)) eqn:E.
  - rewrite Dn, andb_true_r. auto.
  - rewrite dev_incr_get, Nat.eqb_refl, Dn. cbn [option_map]. rewrite andb_false_r. f_equal. apply Nat.eqb_neq. lia.
Qed.

(** * Temporal profile: stream and batch *)
Section Temporal.
  Context {N : Type} {NN : Num N}.
  Variables (p : profile N) (zeta : N).
  Notation check := (check_pair p zeta).
  Lemma case_events_snoc (evs : list (sevent N)) e c : case_events (evs ++ [e]) c = case_events evs c ++
    match e with Some (c', e) => if Nat.eqb c' c then [e] else [] | None => [] end.
  Proof. unfold case_events. rewrite flat_map_app. cbn. rewrite app_nil_r. auto. Qed.
  (** deviations in the order in which the stream finds them *)
  Definition found (t : ttrace N) : list (deviation N) :=
    snd (fold_left (fun '(prev, ds) e => (prev ++ [e], ds ++ concat (map (fun ei => check ei e) prev))) t ([], [])).
  Lemma found_prev (t : ttrace N) : fst (fold_left (fun '(prev, ds) e => (prev ++ [e], ds ++ concat (map (fun ei => check ei e) prev))) t ([], @nil (deviation N))) = t.
  Proof.
    induction t as [|e t IH] using rev_ind; auto. rewrite fold_left_app. cbn [fold_left].
    destruct (fold_left _ t _) as [prev ds]. cbn [fst] in *. congruence.
  Qed.
  Lemma found_snoc t e : found (t ++ [e]) = found t ++ concat (map (fun ei => check ei e) t).
  Proof.
    unfold found. rewrite fold_left_app. cbn [fold_left]. assert (E := found_prev t). destruct (fold_left _ t _) as [prev ds]. cbn [fst snd] in *. subst. auto.
  Qed.
  Lemma check_trace_snoc t e : Permutation (check_trace p zeta (t ++ [e])) (check_trace p zeta t ++ concat (map (fun ei => check ei e) t)).
  Proof.
    induction t as [|ei t IH]; cbn [app check_trace map concat]; auto.
    rewrite map_app, concat_app. cbn [map concat]. rewrite app_nil_r, <- !app_assoc. apply Permutation_app_head.
    eapply perm_trans; [apply Permutation_app_head, IH|]. rewrite !app_assoc. apply Permutation_app_tail, Permutation_app_comm.
  Qed.
  Lemma found_batch t : Permutation (found t) (check_trace p zeta t).
  Proof.
    induction t as [|e t IH] using rev_ind; [constructor|]. rewrite found_snoc. eapply perm_trans; [apply Permutation_app_tail, IH|].
    apply Permutation_sym, check_trace_snoc.
  Qed.
  Lemma dev_fold c (ds : list (deviation N)) dd l : d_get dd c = Some l ->
    forall c', d_get (fold_left (fun dd dv => match d_get dd c with Some l => d_set dd c (l ++ [dv]) | None => dd end) ds dd) c' =
      if Nat.eqb c c' then Some (l ++ ds) else d_get dd c'.
  Proof.
    revert dd l. induction ds as [|dv ds IH]; intros dd l H c'; cbn [fold_left].
    - rewrite app_nil_r. destruct (Nat.eqb_spec c c') as [->|]; auto.
    - rewrite H. rewrite (IH _ (l ++ [dv]) (d_get_set_same _ _ _)). rewrite <- app_assoc. cbn [app].
      destruct (Nat.eqb_spec c c') as [->|]; auto. apply d_get_set_other. auto.
  Qed.
  Lemma dev_fold2 c e (prev : ttrace N) dd l : d_get dd c = Some l ->
    forall c', d_get (fold_left (fun dd ei => fold_left (fun dd dv => match d_get dd c with Some l => d_set dd c (l ++ [dv]) | None => dd end) (check ei e) dd) prev dd) c' =
      if Nat.eqb c c' then Some (l ++ concat (map (fun ei => check ei e) prev)) else d_get dd c'.
  Proof.
    revert dd l. induction prev as [|ei prev IH]; intros dd l H c'; cbn [fold_left map concat].
    - rewrite app_nil_r. destruct (Nat.eqb_spec c c') as [->|]; auto.
    - rewrite (IH _ (l ++ check ei e)); [rewrite <- app_assoc|rewrite (dev_fold c (check ei e) dd l H), Nat.eqb_refl; auto].
      destruct (Nat.eqb_spec c c') as [->|Hc]; auto. rewrite (dev_fold c (check ei e) dd l H). destruct (Nat.eqb_spec c c'); congruence.
  Qed.
  Lemma t_run_case evs c :
    let s := t_run p zeta evs in
    d_get (t_case s) c = match case_events evs c with [] => None | t => Some t end /\
    d_get (t_dev s) c = match case_events evs c with [] => None | t => Some (found t) end.
  Proof.
    cbn zeta. revert c. induction evs as [|e evs IH] using rev_ind; intros c; [split; reflexivity|].
    unfold t_run. rewrite fold_left_app. cbn [fold_left]. fold (t_run p zeta evs). set (s := t_run p zeta evs) in *.
    rewrite case_events_snoc. destruct e as [[c' e]|]; [|rewrite app_nil_r; apply IH].
    unfold t_process. destruct (IH c') as [I1 I2].
    assert (SN : forall (t : ttrace N) (x : tevent N) A (k : A) (f : ttrace N -> A), match t ++ [x] with [] => k | t' => f t' end = f (t ++ [x])) by (intros [|? ?]; auto).
    destruct (case_events evs c') as [|e0 t0] eqn:Et; rewrite I1.
    - rewrite d_get_set_same. cbn [fold_left t_case t_dev app].
      destruct (Nat.eqb_spec c' c) as [->|Hc].
      + rewrite Et. rewrite !d_get_set_same. split; reflexivity.
      + rewrite app_nil_r, !d_get_set_other by auto. apply IH.
    - rewrite I1. cbn [t_case t_dev]. rewrite (dev_fold2 c' e (e0 :: t0) (t_dev s) _ I2 c).
      destruct (Nat.eqb_spec c' c) as [->|Hc].
      + rewrite Et. rewrite d_get_set_same. cbn [app]. split; auto. f_equal. symmetry. apply (found_snoc (e0 :: t0) e).
      + rewrite app_nil_r, d_get_set_other by auto. apply IH.
  Qed.
  Lemma d_get_filter {V} (q : V -> bool) (d : dict nat V) c : NoDup (d_keys d) ->
    d_get (filter (fun kv => q (snd kv)) d) c = match d_get d c with Some v => if q v then Some v else None | None => None end.
  Proof.
    induction d as [|[k v] d IH]; intros Hn; cbn [filter snd d_get]; auto. inversion Hn as [|? ? H1 H2]; subst.
    destruct (keqb_spec k c) as [->|Hk].
    - destruct (q v); cbn [d_get]; [rewrite keqb_refl; auto|]. rewrite IH by auto.
      replace (d_get d c) with (@None V) by (symmetry; apply d_get_none; auto). auto.
    - destruct (q v); cbn [d_get]; [rewrite keqb_neq by auto|]; apply IH; auto.
  Qed.
  Lemma t_dev_nodup evs : NoDup (d_keys (t_dev (t_run p zeta evs))).
  Proof.
    induction evs as [|e evs IH] using rev_ind; [constructor|]. unfold t_run. rewrite fold_left_app. cbn [fold_left]. fold (t_run p zeta evs).
    destruct e as [[c e]|]; auto. unfold t_process.
    assert (G : forall ds dd, NoDup (d_keys dd) -> NoDup (d_keys (fold_left (fun (dd : dict nat (list (deviation N))) dv => match d_get dd c with Some l => d_set dd c (l ++ [dv]) | None => dd end) ds dd))).
    { induction ds as [|dv ds IHd]; intros dd Hd; cbn [fold_left]; auto. apply IHd. destruct (d_get dd c); auto. apply d_nodup_set. auto. }
    assert (G2 : forall prev dd, NoDup (d_keys dd) -> NoDup (d_keys (fold_left (fun dd ei => fold_left (fun (dd : dict nat (list (deviation N))) dv => match d_get dd c with Some l => d_set dd c (l ++ [dv]) | None => dd end) (check ei e) dd) prev dd))).
    { induction prev as [|x prev IHd]; intros dd Hd; cbn [fold_left]; auto. }
    destruct (d_get (t_case (t_run p zeta evs)) c); cbn [t_dev]; apply G2; auto. apply d_nodup_set. auto.
  Qed.
  Theorem stream_batch evs c :
    match d_get (t_result (t_run p zeta evs)) c with
    | Some ds => ds <> [] /\ Permutation ds (check_trace p zeta (case_events evs c))
    | None => check_trace p zeta (case_events evs c) = []
    end.
  Proof.
    unfold t_result. rewrite (d_get_filter (fun l => negb (length l =? 0))) by apply t_dev_nodup.
    destruct (t_run_case evs c) as [_ ->]. destruct (case_events evs c) as [|e0 t0]; [reflexivity|].
    assert (P := found_batch (e0 :: t0)). destruct (found (e0 :: t0)) as [|d ds] eqn:E; cbn [length Nat.eqb negb].
    - apply Permutation_nil. auto.
    - split; [discriminate|auto].
  Qed.
End Temporal.

(** the values of one case evolve independently of the other cases *)
Lemma step_local fp s e c :
  (d_get (f_case (fp_process fp s e)) c, d_get (f_dev (fp_process fp s e)) c) =
  match e_case e, e_act e with
  | Some c', Some a => if Nat.eqb c' c then step1 fp (d_get (f_case s) c, d_get (f_dev s) c) a else (d_get (f_case s) c, d_get (f_dev s) c)
  | _, _ => (d_get (f_case s) c, d_get (f_dev s) c)
  end.
Proof.
  unfold fp_process. destruct e as [[c'|] [a|]]; cbn [e_case e_act]; auto. destruct (Nat.eqb_spec c' c) as [->|Hc].
  - unfold verify_footprints, step1. destruct (mem a (fp_acts fp)) eqn:Ea; cbn [f_case f_dev].
    + rewrite d_get_set_same. f_equal. destruct (d_get (f_case s) c) as [p|].
      * destruct (mem (p, a) (fp_pairs fp)); auto. rewrite dev_incr_get, Nat.eqb_refl. auto.
      * destruct (mem a (fp_starts fp)); [apply d_get_set_same|]. rewrite dev_incr_get, Nat.eqb_refl, d_get_set_same. auto.
    + f_equal. rewrite dev_incr_get, Nat.eqb_refl. destruct (d_get (f_case s) c); auto. rewrite d_get_set_same. auto.
  - unfold verify_footprints. assert (X : forall (d : dict nat nat) v, d_get (d_set d c' v) c = d_get d c) by (intros; apply d_get_set_other; auto).
    assert (Y : forall d : dict nat nat, d_get (dev_incr d c') c = d_get d c) by (intros; rewrite dev_incr_get; destruct (Nat.eqb_spec c' c); congruence).
    destruct (mem a (fp_acts fp)); cbn [f_case f_dev]; destruct (d_get (f_case s) c') as [p|];
      repeat match goal with |- context [if ?b then _ else _] => destruct b end; rewrite ?X, ?Y, ?X; auto.
Qed.
Lemma run_local fp evs s s' c : d_get (f_case s) c = d_get (f_case s') c -> d_get (f_dev s) c = d_get (f_dev s') c ->
  d_get (f_case (fold_left (fp_process fp) evs s)) c = d_get (f_case (fold_left (fp_process fp) evs s')) c /\
  d_get (f_dev (fold_left (fp_process fp) evs s)) c = d_get (f_dev (fold_left (fp_process fp) evs s')) c.
Proof.
  revert s s'. induction evs as [|e evs IH]; intros s s' H1 H2; cbn; auto.
  assert (G : (d_get (f_case (fp_process fp s e)) c, d_get (f_dev (fp_process fp s e)) c) = (d_get (f_case (fp_process fp s' e)) c, d_get (f_dev (fp_process fp s' e)) c)).
  { rewrite !step_local, H1, H2. reflexivity. }
  injection G as G1 G2. apply IH; auto.
Qed.
Lemma same_answers fp s s' c : d_get (f_case s) c = d_get (f_case s') c -> d_get (f_dev s) c = d_get (f_dev s') c ->
  get_status s c = get_status s' c /\ fst (terminate fp s c) = fst (terminate fp s' c).
Proof.
  intros H1 H2. unfold get_status, terminate. rewrite H1, H2. split; auto. destruct (d_get (f_case s') c); cbn; auto.
  destruct (mem n (fp_ends fp)); [rewrite H2; auto|]. rewrite !dev_incr_get, Nat.eqb_refl, H2. auto.
Qed.
Lemma terminate_get fp s c c' : d_get (f_case s) c <> None ->
  d_get (f_case (snd (terminate fp s c))) c' = (if Nat.eqb c c' then None else d_get (f_case s) c') /\
  d_get (f_dev (snd (terminate fp s c))) c' = (if Nat.eqb c c' then None else d_get (f_dev s) c').
Proof.
  intros H. unfold terminate. destruct (d_get (f_case s) c) as [p|]; [|congruence]. cbn [snd f_case f_dev]. rewrite !d_get_del.
  change (keqb c c') with (Nat.eqb c c'). rewrite ?(Nat.eqb_sym c' c). destruct (Nat.eqb_spec c c') as [|N]; auto. split; auto. destruct (mem p (fp_ends fp)); auto.
  rewrite dev_incr_get. destruct (Nat.eqb_spec c c'); congruence.
Qed.
