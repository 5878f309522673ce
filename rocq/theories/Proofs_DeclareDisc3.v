(** Proofs about the discovery of DECLARE models: the columns of the table, the selection of the rules. *)
From Coq Require Import List Arith Bool ZArith QArith Lia.
Import ListNotations.
From Verif Require Import Model_Dict Proofs_Dict Model_Dfg Spec_Dfg Proofs_Dfg Model_Declare Spec_Declare Proofs_Declare Props_Declare Model_DeclareDisc Spec_DeclareDisc
  Proofs_DeclareDisc Proofs_DeclareDisc2.
Local Open Scope nat_scope.
Local Arguments keqb {K Key} : simpl never.
Local Arguments Nat.ltb : simpl never.
Local Arguments mem : simpl never.

Lemma computed_in allowed T l : needs T = l -> forallb (in_t allowed) l = true <-> computed allowed T.
Proof.
  intros <-. unfold computed. rewrite forallb_forall. split; intros H S HS; apply in_t_in; auto.
Qed.
Lemma unary_in T acts c : In c (unary_cols T acts) -> ~ binary T -> fst c = T /\ over acts T (snd c).
Proof. intros H B. apply in_map_iff in H. destruct H as (a & <- & H). cbn. repeat split; auto; tauto. Qed.
Lemma in_unary T acts k : over acts T k -> ~ binary T -> In (T, k) (unary_cols T acts).
Proof. destruct k as [a b]. intros (H1 & H2 & _ & H4) B. cbn in *. rewrite H4 by auto. apply in_map_iff. eauto. Qed.
Lemma binary_in T acts c : In c (binary_cols T acts) -> binary T -> fst c = T /\ over acts T (snd c).
Proof.
  intros H B. apply in_flat_map in H. destruct H as (a & Ha & H). apply in_flat_map in H. destruct H as (b & Hb & H). destruct (Nat.eqb_spec b a); [destruct H|]. destruct H as [<-|[]]. cbn. repeat split; auto; tauto.
Qed.
Lemma in_binary T acts k : over acts T k -> binary T -> In (T, k) (binary_cols T acts).
Proof.
  destruct k as [a b]. intros (H1 & H2 & H3 & _) B. cbn in *. apply in_flat_map. exists a. split; auto. apply in_flat_map. exists b. split; auto. destruct (Nat.eqb_spec b a); [exfalso; apply H3; auto|]. left. auto.
Qed.
Lemma d_get_map {V} (f : col -> V) cs c : d_get (map (fun c => (c, f c)) cs) c = if existsb (keqb c) cs then Some (f c) else None.
Proof.
  induction cs as [|x cs IH]; cbn [map d_get existsb]; auto. rewrite (keqb_sym x c). destruct (keqb_spec c x) as [->|N]; auto.
Qed.
Lemma existsb_in (cs : list col) c : existsb (keqb c) cs = true <-> In c cs.
Proof. rewrite existsb_exists. split; [intros (x & H & E); apply keqb_true in E; subst; auto|]. intros H. exists c. split; auto. apply keqb_refl. Qed.

Lemma map_zero {A} (f : A -> Z) l : (forall x, In x l -> f x = 0%Z) -> map f l = repeat 0%Z (length l).
Proof. induction l as [|x l IH]; intros H; cbn; auto. rewrite (H x) by (left; auto). f_equal. apply IH. intros y Hy. apply H. right. auto. Qed.
Section T.
  Variable allowed : list template.
  Variable acts : list nat.
  Variable ts : list trace.
  Variable rs : list row.
  Hypothesis ts_acts : forall t, In t ts -> forall x, In x t -> In x acts.
  Hypothesis ts_rs : Forall2 (fun t r => row_of allowed acts t = Some r) ts rs.
  Definition C (c : col) : list Z := map (fun t => val (fst c) t (snd c)) ts.
  Definition fine (c : col) : Prop := computed allowed (fst c) /\ over acts (fst c) (snd c).
  Definition W (tb : table) : Prop := NoDup (d_keys tb) /\ forall c v, d_get tb c = Some v -> fine c /\ v = C c.
  Definition grows (tb tb' : table) : Prop := forall c v, d_get tb c = Some v -> d_get tb' c = Some v.
  Definition comp (T : template) (tb : table) : Prop := forall k, over acts T k -> d_get tb (T, k) = Some (C (T, k)).
  Lemma grows_refl tb : grows tb tb. Proof. intros c v; auto. Qed.
  Lemma grows_trans x y z : grows x y -> grows y z -> grows x z. Proof. intros H1 H2 c v H. auto. Qed.
  Lemma grows_comp T x y : comp T x -> grows x y -> comp T y. Proof. intros H G k O. apply G, H, O. Qed.

  Lemma row_val : forall t r, In (t, r) (combine ts rs) -> forall T k, base T = true -> In T allowed -> over acts T k ->
    match d_get r (T, k) with Some v => v | None => 0%Z end = val T t k.
  Proof.
    intros t r H T k HB HA HO. assert (E : row_of allowed acts t = Some r /\ In t ts).
    { split; [|eapply in_combine_l; eauto]. revert H. generalize ts_rs. clear. intros F. induction F as [|t0 r0 ts0 rs0 E0 _ IH]; cbn; [intros []|]. intros [[= <- <-]|G]; auto. }
    destruct E as [E It]. destruct (row_ok allowed acts t r (ts_acts t It) E) as [R1 R2]. destruct (d_get r (T, k)) as [v|] eqn:Ev; [apply R1 in Ev; apply Ev|].
    destruct (Z.eq_dec (val T t k) 0) as [Z|Z]; auto. apply R2 in Z; auto. congruence.
  Qed.
  Lemma column_val T k : base T = true -> In T allowed -> over acts T k -> map (fun r => match d_get r (T, k) with Some v => v | None => 0%Z end) rs = C (T, k).
  Proof.
    intros HB HA HO. pose proof (fun t r H => row_val t r H T k HB HA HO) as R. unfold C. cbn [fst snd]. revert R. generalize ts_rs. clear. intros F. induction F as [|t r ts rs _ _ IH]; intros R; auto. cbn [map]. f_equal; [apply R; left; auto|]. apply IH. intros t' r' H. apply R. right. auto.
  Qed.
  Lemma columns_fine c : In c (columns rs) -> base (fst c) = true /\ In (fst c) allowed /\ over acts (fst c) (snd c).
  Proof.
    intros H. unfold columns in H. apply (proj1 (dedup_in _ _)) in H. apply in_flat_map in H. destruct H as (r & Hr & Hc).
    assert (E : exists t, In t ts /\ row_of allowed acts t = Some r).
    { revert Hr. generalize ts_rs. clear. intros F. induction F as [|t r' ts rs H _ IH]; intros []; [subst; exists t; split; [left|]; auto|]. destruct IH as (t' & H1 & H2); auto. exists t'. split; [right|]; auto. }
    destruct E as (t & It & E). destruct (row_ok allowed acts t r (ts_acts t It) E) as [R1 _]. destruct c as [T k].
    destruct (d_get r (T, k)) as [v|] eqn:Ev; [apply R1 in Ev; cbn; tauto|]. apply (proj1 (d_get_none r (T, k))) in Ev. exfalso. apply Ev. exact Hc.
  Qed.
  Lemma table_get c : d_get (to_table rs) c = if existsb (keqb c) (columns rs) then Some (map (fun r => match d_get r c with Some v => v | None => 0%Z end) rs) else None.
  Proof. unfold to_table. apply (d_get_map (fun c => map (fun r => match d_get r c with Some v => v | None => 0%Z end) rs)). Qed.
  Lemma table_W : W (to_table rs).
  Proof.
    split; [unfold to_table, d_keys; rewrite map_map, map_id; apply dedup_nodup|]. intros [T k] v H. rewrite table_get in H. destruct (existsb _ _) eqn:E; [|discriminate]. inversion H. apply existsb_in in E. apply columns_fine in E. cbn [fst snd] in E. destruct E as (E1 & E2 & E3).
    split; [split; cbn [fst snd]; auto; apply base_computed; auto|apply column_val; auto].
  Qed.
  Lemma always T k : ts <> [] -> (T = EXISTENCE \/ T = INIT) -> In T allowed -> over acts T k -> d_get (to_table rs) (T, k) = Some (C (T, k)).
  Proof.
    intros Hts HT HA HO. assert (HB : base T = true) by (destruct HT as [->| ->]; auto). rewrite table_get, column_val; auto.
    assert (E : In (T, k) (columns rs)); [|apply existsb_in in E; rewrite E; auto]. unfold columns. apply dedup_in, in_flat_map.
    inversion ts_rs as [|t r ts' rs' Er _ E1 E2]; [congruence|]. exists r. split; [left; auto|].
    assert (It : In t ts) by (rewrite <- E1; left; auto). destruct (row_ok allowed acts t r (ts_acts t It) Er) as [_ R2]. apply d_get_keys. rewrite R2; auto; [discriminate|].
    apply val_activated. destruct k as [a b]. destruct HT as [->| ->]; cbn; auto.
  Qed.
  Lemma W_length tb c v : W tb -> In (c, v) tb -> length v = length ts.
  Proof. intros [Hn HW] H. apply d_in_get in H; auto. apply HW in H. destruct H as [_ ->]. apply map_length. Qed.
  Lemma set_W tb c : W tb -> fine c -> W (d_set tb c (C c)) /\ grows tb (d_set tb c (C c)).
  Proof.
    intros [Hn HW] HF. split; [split; [apply d_nodup_set; auto|]|].
    - intros c' v H. rewrite d_get_set in H. destruct (keqb_spec c c') as [->|N]; [inversion H; auto|]. apply HW; auto.
    - intros c' v H. rewrite d_get_set. destruct (keqb_spec c c') as [->|N]; auto. apply HW in H. destruct H as [_ ->]. auto.
  Qed.
  Lemma assign_ok f cs : forall tb tb', (forall tb c v, W tb -> In c cs -> f tb c = Some v -> fine c /\ v = C c) -> W tb -> assign f cs tb = Some tb' ->
    W tb' /\ grows tb tb' /\ forall c, In c cs -> d_get tb' c = Some (C c).
  Proof.
    induction cs as [|c cs IH]; intros tb tb' Hf HW E; cbn [assign] in E; [inversion E; subst; split; [auto|split; [apply grows_refl|intros ? []]]|].
    destruct (f tb c) as [v|] eqn:Ef; [|discriminate]. destruct (Hf tb c v HW (or_introl eq_refl) Ef) as [HF ->]. destruct (set_W tb c HW HF) as [HW' HG].
    destruct (IH _ _ (fun tb c v H1 H2 => Hf tb c v H1 (or_intror H2)) HW' E) as (H1 & H2 & H3). split; auto. split; [eapply grows_trans; eauto|]. intros c' [<-|H]; auto. apply H2, d_get_set_same.
  Qed.
  Lemma assign_def f cs : forall tb, (forall tb c v, W tb -> In c cs -> f tb c = Some v -> fine c /\ v = C c) -> W tb -> (forall tb' c, W tb' -> grows tb tb' -> In c cs -> f tb' c <> None) -> exists tb', assign f cs tb = Some tb'.
  Proof.
    induction cs as [|c cs IH]; intros tb Hf HW HD; cbn [assign]; [eauto|]. destruct (f tb c) as [v|] eqn:Ef; [|exfalso; eapply (HD tb c); eauto using grows_refl; left; auto].
    destruct (Hf tb c v HW (or_introl eq_refl) Ef) as [HF ->]. destruct (set_W tb c HW HF) as [HW' HG]. apply IH; auto.
    - intros tb1 c1 v1 H1 H2. apply Hf; auto. right. auto.
    - intros tb1 c1 H1 H2 H3. apply HD; auto; [eapply grows_trans; eauto|right; auto].
  Qed.
  (** what each step does *)
  Definition step_ok (step : table -> option table) (T : template) : Prop :=
    forall tb tb', W tb -> grows (to_table rs) tb -> step tb = Some tb' -> W tb' /\ grows tb tb' /\ (computed allowed T -> comp T tb').
  Definition step_def (step : table -> option table) (pre : table -> Prop) : Prop :=
    forall tb, W tb -> grows (to_table rs) tb -> pre tb -> exists tb', step tb = Some tb'.
  Lemma neg_ok cs S T' tb c v : (forall c, In c cs -> fst c = T' /\ over acts T' (snd c)) -> computed allowed T' -> (forall t k, val T' t k = (-1 * val S t k)%Z) ->
    W tb -> In c cs -> option_map (map (Z.mul (-1))) (d_get tb (S, snd c)) = Some v -> fine c /\ v = C c.
  Proof.
    intros Hc HT Hv HW I E. destruct (Hc c I) as [F O]. destruct (d_get tb (S, snd c)) as [u|] eqn:Eu; [|discriminate]. inversion E. subst v. apply HW in Eu. destruct Eu as [_ ->].
    split; [split; rewrite F; auto|]. unfold C. cbn [fst snd]. rewrite map_map. apply map_ext. intros t. rewrite F, Hv. auto.
  Qed.
  Lemma min_ok cs R P g T' tb c v : (forall c, In c cs -> fst c = T' /\ over acts T' (snd c)) -> computed allowed T' -> (forall t k, val T' t k = Z.min (val R t k) (val P t (g k))) ->
    W tb -> In c cs -> lift2 minimum (d_get tb (R, snd c)) (d_get tb (P, g (snd c))) = Some v -> fine c /\ v = C c.
  Proof.
    intros Hc HT Hv HW I E. destruct (Hc c I) as [F O]. destruct (d_get tb (R, snd c)) as [u|] eqn:Eu; [|discriminate]. destruct (d_get tb (P, g (snd c))) as [w|] eqn:Ew; [|discriminate]. inversion E. subst v. apply HW in Eu. destruct Eu as [_ ->]. apply HW in Ew. destruct Ew as [_ ->].
    split; [split; rewrite F; auto|]. unfold C. cbn [fst snd]. rewrite F. clear -Hv. induction ts as [|t l IH]; cbn; auto. rewrite Hv. f_equal. apply IH.
  Qed.
  Lemma absence_ok : step_ok (absence_2 allowed acts) ABSENCE.
  Proof.
    intros tb tb' HW HG E. unfold absence_2 in E. destruct (in_t allowed ABSENCE && in_t allowed EXISTENCE) eqn:Ea.
    - assert (HT : computed allowed ABSENCE). { apply (computed_in allowed ABSENCE _ eq_refl). cbn [forallb needs]. rewrite andb_true_r. auto. }
      apply assign_ok in E; auto; [|intros ? ? ? H1 H2 H3; eapply (neg_ok _ EXISTENCE ABSENCE); [intros ? X; exact (unary_in ABSENCE acts _ X (fun f => f))|exact HT|reflexivity|exact H1|exact H2|exact H3]]. destruct E as (H1 & H2 & H3). split; [exact H1|split; [exact H2|]]. intros _ k O. apply H3, in_unary; auto.
    - inversion E; subst. split; [exact HW|split; [apply grows_refl|]]. intros HT. exfalso. apply (proj2 (computed_in allowed ABSENCE _ eq_refl)) in HT. cbn [forallb needs] in HT. rewrite andb_true_r in HT. congruence.
  Qed.
  Lemma fill_ok T all : base T = true -> (forall c, In c all -> fst c = T /\ over acts T (snd c)) -> (forall k, over acts T k -> In (T, k) all) -> step_ok (fill_2 allowed (columns rs) T all) T.
  Proof.
    intros HB Hall Hin tb tb' HW HG E. unfold fill_2 in E. destruct (in_t allowed T) eqn:Ea.
    - apply in_t_in in Ea. apply assign_ok in E; auto.
      + destruct E as (H1 & H2 & H3). split; [exact H1|split; [exact H2|]]. intros _ k O. destruct (existsb (keqb ((T, k) : col)) (columns rs)) eqn:Ec.
        * apply H2, HG. rewrite table_get, Ec, column_val; auto.
        * apply H3, filter_In. rewrite Ec. auto.
      + intros tb0 c v HW0 I Ez. apply filter_In in I. destruct I as [I N]. destruct (Hall c I) as [F O]. destruct c as [T0 k]. cbn [fst snd] in *. subst T0.
        split; [split; cbn; auto; apply base_computed; auto|]. unfold zeros in Ez. destruct tb0 as [|[c0 v0] tb0]; [discriminate|]. inversion Ez; subst v. rewrite (W_length _ c0 v0 HW0) by (left; auto).
        rewrite <- (column_val T k) by auto. apply negb_true_iff in N.
        assert (Z : forall r, In r rs -> match d_get r (T, k) with Some v => v | None => 0%Z end = 0%Z).
        { intros r Hr. destruct (d_get r (T, k)) as [w|] eqn:Ew; auto. exfalso. assert (X : existsb (keqb ((T, k) : col)) (columns rs) = true); [|congruence]. apply existsb_in. unfold columns. apply dedup_in, in_flat_map. exists r. split; auto. apply d_get_keys. congruence. }
        assert (L : length ts = length rs) by (clear -ts_rs; generalize ts_rs; clear; intros F; induction F; cbn; auto). rewrite L. symmetry. apply map_zero. exact Z.
    - inversion E; subst. split; [exact HW|split; [apply grows_refl|]]. intros HT. exfalso. apply (proj1 (base_computed allowed T HB)) in HT. apply in_t_in in HT. congruence.
  Qed.
  Lemma succession_ok T R P : binary T -> needs T = [T; R; P] -> (forall t k, val T t k = Z.min (val R t k) (val P t k)) -> step_ok (succession_2 T R P allowed acts) T.
  Proof.
    intros B Hn Hv tb tb' HW HG E. unfold succession_2 in E. destruct (in_t allowed T && in_t allowed R && in_t allowed P) eqn:Ea.
    - assert (HT : computed allowed T). { apply (computed_in allowed T _ Hn). cbn [forallb needs]. rewrite andb_true_r, andb_assoc. auto. }
      apply assign_ok in E; auto; [|intros ? ? ? H1 H2 H3; eapply (min_ok _ R P (fun k => k) T); [intros ? X; exact (binary_in T acts _ X B)|exact HT|exact Hv|exact H1|exact H2|exact H3]]. destruct E as (H1 & H2 & H3). split; [exact H1|split; [exact H2|]]. intros _ k O. apply H3, in_binary; auto.
    - inversion E; subst. split; [exact HW|split; [apply grows_refl|]]. intros HT. exfalso. apply (proj2 (computed_in allowed T _ Hn)) in HT. cbn [forallb needs] in HT. rewrite andb_true_r, andb_assoc in HT. congruence.
  Qed.
  Lemma coexistence_ok : step_ok (coexistence_2 allowed acts) COEXISTENCE.
  Proof.
    intros tb tb' HW HG E. unfold coexistence_2 in E. destruct (in_t allowed COEXISTENCE && in_t allowed RESPONDED_EXISTENCE) eqn:Ea.
    - assert (HT : computed allowed COEXISTENCE). { apply (computed_in allowed COEXISTENCE _ eq_refl). cbn [forallb needs]. rewrite andb_true_r. auto. }
      apply assign_ok in E; auto; [|intros ? ? ? H1 H2 H3; eapply (min_ok _ RESPONDED_EXISTENCE RESPONDED_EXISTENCE (fun k => (snd k, fst k)) COEXISTENCE); [intros ? X; exact (binary_in COEXISTENCE acts _ X I)|exact HT|reflexivity|exact H1|exact H2|exact H3]].
      destruct E as (H1 & H2 & H3). split; [exact H1|split; [exact H2|]]. intros _ k O. apply H3, in_binary; cbn; auto.
    - inversion E; subst. split; [exact HW|split; [apply grows_refl|]]. intros HT. exfalso. apply (proj2 (computed_in allowed COEXISTENCE _ eq_refl)) in HT. cbn [forallb needs] in HT. rewrite andb_true_r in HT. congruence.
  Qed.
  Lemma negated_ok T S need : binary T -> needs T = need -> (forall t k, val T t k = (-1 * val S t k)%Z) -> step_ok (negated_2 T S need allowed acts) T.
  Proof.
    intros B Hn Hv tb tb' HW HG E. unfold negated_2 in E. destruct (forallb (in_t allowed) need) eqn:Ea.
    - assert (HT : computed allowed T) by (apply (computed_in allowed T _ Hn); auto).
      apply assign_ok in E; auto; [|intros ? ? ? H1 H2 H3; eapply (neg_ok _ S T); [intros ? X; exact (binary_in T acts _ X B)|exact HT|exact Hv|exact H1|exact H2|exact H3]]. destruct E as (H1 & H2 & H3). split; [exact H1|split; [exact H2|]]. intros _ k O. apply H3, in_binary; auto.
    - inversion E; subst. split; [exact HW|split; [apply grows_refl|]]. intros HT. exfalso. apply (proj2 (computed_in allowed T _ eq_refl)) in HT. congruence.
  Qed.
End T.
