(** Cycle time and overlap of cases. *)
From Coq Require Import List Arith ZArith QArith Bool Lia Permutation Sorted.
Import ListNotations.
From Verif Require Import Model_Dict Model_Lev Model_Interval Spec_Interval Spec_Dfg Proofs_Dict Proofs_Dfg Proofs_Lev Proofs_Interval1.
Local Open Scope Z_scope.

Lemma exactly_add {X} n m (P Q : X -> Prop) : (forall x, P x -> Q x -> False) -> exactly n P -> exactly m Q -> exactly (n + m) (fun x => P x \/ Q x).
Proof.
  intros H (l & N1 & <- & E1) (k & N2 & <- & E2). exists (l ++ k). split; [|split; [apply app_length|]].
  - apply NoDup_app_intro; auto. intros x Hx Hy. apply (H x); [apply E1|apply E2]; auto.
  - intros x. rewrite in_app_iff, E1, E2. tauto.
Qed.
Lemma exactly_range a b : exactly (Z.to_nat (b - a)) (fun x => a <= x < b).
Proof.
  exists (map (fun i => a + Z.of_nat i) (seq 0 (Z.to_nat (b - a)))). split; [|split; [rewrite map_length, seq_length; auto|]].
  - apply FinFun.Injective_map_NoDup; [|apply seq_NoDup]. intros i j H. lia.
  - intros x. rewrite in_map_iff. split; [intros (i & <- & Hi); apply in_seq in Hi; lia|]. intros H. exists (Z.to_nat (x - a)). split; [lia|apply in_seq; lia].
Qed.

Record ct_inv (pre : list (Z * Z)) (s : Z * Z * Z) : Prop := {
  ci_last : last_period pre (fst (fst s));
  ci_max : (exists x, In (x, snd (fst s)) pre) /\ forall x y, In (x, y) pre -> y <= snd (fst s);
  ci_count : 0 <= snd s /\ exactly (Z.to_nat (snd s)) (fun t => busy pre t /\ t < fst (fst s));
  ci_full : fst (fst s) <= snd (fst s) /\ forall t, fst (fst s) <= t < snd (fst s) -> busy pre t }.
Lemma ct_step_inv pre s a b : a <= b -> (forall x y, In (x, y) pre -> x <= a) -> ct_inv pre s -> ct_inv (pre ++ [(a, b)]) (ct_step s (a, b)).
Proof.
  intros Hab Hs [((b0 & Hst) & HL2 & HL3) ((xm & Hxm) & Hmax) (Hp & Hc) (Hle & Hfull)]. destruct s as [[st et] p]. cbn [fst snd] in *. unfold ct_step.
  assert (Hin : forall x y, In (x, y) (pre ++ [(a, b)]) <-> In (x, y) pre \/ (x = a /\ y = b)).
  { intros x y. rewrite in_app_iff. cbn. split; [intros [?|[[= <- <-]|[]]]; auto|intros [?|[-> ->]]; auto]. }
  assert (Hbusy : forall t, busy (pre ++ [(a, b)]) t <-> busy pre t \/ a <= t < b).
  { intros t. unfold busy. split; [intros (x & y & H & H'); apply Hin in H as [H|[-> ->]]; eauto|intros [(x & y & H & H')|H]; [exists x, y|exists a, b]; rewrite Hin; auto]. }
  pose proof (Hs _ _ Hst) as Hsa. destruct (Z.ltb_spec et a) as [Hlt|Hge]; constructor; cbn [fst snd].
  - split; [exists b; apply Hin; auto|]. split.
    + intros x y H Hx. apply Hin in H as [H|[-> _]]; [specialize (Hmax _ _ H); lia|lia].
    + intros s' y H Hx. apply Hin in H as [H|[-> _]]; [specialize (Hs _ _ H); lia|lia].
  - replace (Z.max et b) with b by lia. split; [exists a; apply Hin; auto|]. intros x y H. apply Hin in H as [H|[_ ->]]; [specialize (Hmax _ _ H); lia|lia].
  - split; [lia|]. replace (Z.to_nat (p + (et - st))) with (Z.to_nat p + Z.to_nat (et - st))%nat by lia.
    assert (Hd : forall t, busy pre t /\ t < st -> st <= t < et -> False) by (intros t [_ A] B; lia).
    pose proof (exactly_add _ _ _ _ Hd Hc (exactly_range st et)) as HA. eapply exactly_ext; [|exact HA]. intros t. cbv beta. rewrite Hbusy. split.
    + intros [[H H']|H]; [split; [auto|lia]|]. split; [auto|lia].
    + intros [[H|H] H']; [|lia]. destruct (Z.lt_ge_cases t st); [auto|]. right. split; auto. destruct H as (x & y & H & H2). specialize (Hmax _ _ H). lia.
  - split; [lia|]. intros t Ht. apply Hbusy. right. lia.
  - split; [exists b0; apply Hin; auto|]. split.
    + intros x y H Hx. apply Hin in H as [H|[-> _]]; [eauto|lia].
    + assert (G : forall s' y, In (s', y) pre -> st < s' -> exists a' b', In (a', b') (pre ++ [(a, b)]) /\ a' < s' /\ s' <= b').
      { intros s' y H Hx. destruct (HL3 _ _ H Hx) as (a' & b' & H1 & H2). exists a', b'. rewrite Hin. auto. }
      intros s' y H Hx. apply Hin in H as [H|[-> ->]]; [eauto|]. destruct (Z.lt_ge_cases xm a) as [Hl|Hg].
      * exists xm, et. rewrite Hin. auto.
      * assert (xm = a) by (specialize (Hs _ _ Hxm); lia). subst xm. eauto.
  - split; [|intros x y H; apply Hin in H as [H|[_ ->]]; [specialize (Hmax _ _ H); lia|lia]]. destruct (Z.max_spec et b) as [[_ ->]|[_ ->]]; [exists a|exists xm]; apply Hin; auto.
  - split; auto. eapply exactly_ext; [|exact Hc]. intros t. cbv beta. rewrite Hbusy. split; [tauto|]. intros [[H|H] H']; [auto|lia].
  - split; [lia|]. intros t Ht. apply Hbusy. destruct (Z.lt_ge_cases t et); [left; apply Hfull; lia|right; lia].
Qed.
Lemma ct_fold r : forall pre s, StronglySorted (fun x y : Z * Z => fst x <= fst y) r -> (forall x y, In (x, y) r -> x <= y) -> (forall x y u v, In (x, y) pre -> In (u, v) r -> x <= u) ->
  ct_inv pre s -> ct_inv (pre ++ r) (fold_left ct_step r s).
Proof.
  induction r as [|[a b] r IH]; intros pre s Hs Hf Hp Hi; [rewrite app_nil_r; auto|]. cbn [fold_left]. inversion Hs as [|? ? Hs' HF]; subst. rewrite Forall_forall in HF.
  replace (pre ++ (a, b) :: r) with ((pre ++ [(a, b)]) ++ r) by (rewrite <- app_assoc; reflexivity). apply IH; auto.
  - intros; apply Hf; right; auto.
  - intros x y u v H H'. apply in_app_iff in H as [H|[[= <- <-]|[]]]; [apply (Hp x y u v H); right; auto|]. apply (HF (u, v)); auto.
  - apply ct_step_inv; auto; [apply Hf; left; auto|]. intros x y H. apply (Hp x y a b H). left; auto.
Qed.
Lemma sorted2_perm (l : list (Z * Z)) : Permutation l (sorted_by fst (sorted_by snd l)).
Proof. etransitivity; apply sorted_by_perm. Qed.
Theorem cycle_time_ok events n : events <> [] -> (forall a b, In (a, b) events -> a <= b) -> (0 < n)%nat ->
  exists p st, cycle_time events n = Some (inject_Z (Z.of_nat p) / inject_Z (Z.of_nat n))%Q /\ last_period events st /\ exactly p (fun t => busy events t /\ t < st).
Proof.
  intros Hne Hf Hn. pose proof (sorted2_perm events) as HP. unfold cycle_time. pose proof (sorted_by_sorted fst (sorted_by snd events)) as Hs.
  destruct (sorted_by fst (sorted_by snd events)) as [|[a b] r] eqn:E; [apply Permutation_sym, Permutation_nil in HP; congruence|].
  assert (Hin : forall x y, In (x, y) events <-> In (x, y) ((a, b) :: r)) by (intros; split; apply Permutation_in; auto; symmetry; auto).
  inversion Hs as [|? ? Hs' HF]; subst. rewrite Forall_forall in HF.
  assert (Hi : ct_inv ([(a, b)] ++ r) (fold_left ct_step r (a, b, 0))).
  { assert (Hab : a <= b) by (apply Hf, Hin; left; auto). apply ct_fold; auto.
    - intros x y H. apply Hf, Hin. right; auto.
    - intros x y u v Hx Hu. destruct Hx as [Hx|[]]. injection Hx as <- <-. apply (HF (u, v)); auto.
    - constructor; cbn [fst snd].
      + split; [exists b; left; auto|]. split; [intros x y [[= <- <-]|[]]; lia|intros x y [[= <- <-]|[]]; lia].
      + split; [exists a; left; auto|]. intros x y [[= <- <-]|[]]. lia.
      + split; [lia|]. apply exactly_0. intros t [(x & y & Hx & Hy) Ht]. destruct Hx as [Hx|[]]. injection Hx as <- <-. lia.
      + split; auto. intros t Ht. exists a, b. split; [left; auto|auto]. }
  destruct (fold_left ct_step r (a, b, 0)) as [[st et] p]. destruct Hi as [(H1 & H2 & H3) _ (Hp & Hc) _]. cbn [fst snd app] in *. destruct n as [|n]; [lia|]. exists (Z.to_nat p), st.
  split; [rewrite Z2Nat.id by auto; reflexivity|]. split; [split; [|split]|].
  - destruct H1 as (y & H1). exists y. apply Hin. auto.
  - intros x y H. apply Hin in H. eauto.
  - intros x y H Hx. apply Hin in H. destruct (H3 x y H Hx) as (u & v & H' & H''). exists u, v. rewrite Hin. auto.
  - eapply exactly_ext; [|exact Hc]. intros t. cbv beta. unfold busy. split; intros [(x & y & H & H') H'']; (split; [exists x, y; split; [apply Hin; auto|auto]|auto]).
Qed.

(** * Overlap *)
Lemma case_point_span t p : case_point t = Some p <-> t <> [] /\ span t p.
Proof.
  assert (Mn : forall r a, (exists e, (e = a \/ exists x, In x r /\ ie_start x = e) /\ fold_left (fun m x => Z.min m (ie_start x)) r a = e) /\ fold_left (fun m x => Z.min m (ie_start x)) r a <= a /\ forall x, In x r -> fold_left (fun m x => Z.min m (ie_start x)) r a <= ie_start x).
  { induction r as [|e r IH]; intros a; cbn [fold_left]; [split; [exists a; auto|]; split; [lia|intros x []]|]. destruct (IH (Z.min a (ie_start e))) as ((v & Hv & E) & H2 & H3). split; [|split; [lia|intros x [->|Hx]; [lia|auto]]].
    exists v. split; auto. destruct Hv as [->|(x & Hx & <-)]; [|right; exists x; split; [right|]; auto]. destruct (Z.min_spec a (ie_start e)) as [[_ ->]|[_ ->]]; [auto|right; exists e; split; [left|]; auto]. }
  assert (Mx : forall r a, (exists e, (e = a \/ exists x, In x r /\ ie_end x = e) /\ fold_left (fun m x => Z.max m (ie_end x)) r a = e) /\ a <= fold_left (fun m x => Z.max m (ie_end x)) r a /\ forall x, In x r -> ie_end x <= fold_left (fun m x => Z.max m (ie_end x)) r a).
  { induction r as [|e r IH]; intros a; cbn [fold_left]; [split; [exists a; auto|]; split; [lia|intros x []]|]. destruct (IH (Z.max a (ie_end e))) as ((v & Hv & E) & H2 & H3). split; [|split; [lia|intros x [->|Hx]; [lia|auto]]].
    exists v. split; auto. destruct Hv as [->|(x & Hx & <-)]; [|right; exists x; split; [right|]; auto]. destruct (Z.max_spec a (ie_end e)) as [[_ ->]|[_ ->]]; [right; exists e; split; [left|]; auto|auto]. }
  assert (S : t <> [] -> exists q, case_point t = Some q /\ span t q).
  { destruct t as [|e r]; [congruence|]. intros _. eexists. split; [reflexivity|]. destruct (Mn r (ie_start e)) as ((v & Hv & E) & H2 & H3), (Mx r (ie_end e)) as ((w & Hw & E') & G2 & G3). unfold span. cbn [fst snd]. split; [|split; [|split]].
    - rewrite E. destruct Hv as [->|(x & Hx & <-)]; [exists e; split; [left|]; auto|exists x; split; [right|]; auto].
    - intros x [->|Hx]; auto.
    - rewrite E'. destruct Hw as [->|(x & Hx & <-)]; [exists e; split; [left|]; auto|exists x; split; [right|]; auto].
    - intros x [->|Hx]; auto. }
  split.
  - intros H. assert (t <> []) by (intros ->; discriminate). split; auto. destruct (S H0) as (q & E & Hq). congruence.
  - intros [H Hp]. destruct (S H) as (q & E & Hq). rewrite E. f_equal. destruct p as [a b], q as [c d]. destruct Hp as ((x & Hx & E1) & M1 & (y & Hy & E2) & M2), Hq as ((x' & Hx' & E1') & M1' & (y' & Hy' & E2') & M2').
    cbn [fst snd] in *. f_equal; [pose proof (M1 x' Hx'); pose proof (M1' x Hx); lia|pose proof (M2 y' Hy'); pose proof (M2' y Hy); lia].
Qed.
Lemma points_of_spans l : (forall t, In t l -> t <> []) -> exists ps, points_of l = Some ps /\ Forall2 span l ps.
Proof.
  induction l as [|t l IH]; intros H; [exists []; split; auto|]. destruct IH as (ps & E & HF); [intros; apply H; right; auto|].
  destruct (case_point t) as [p|] eqn:Ep; [|destruct t; [exfalso; apply (H []); [left|]; auto|discriminate]]. exists (p :: ps). cbn. rewrite Ep, E. split; auto. constructor; auto. apply case_point_span in Ep. tauto.
Qed.
Lemma overlap_ok eps points : (forall p, In p points -> fst p - eps < snd p + eps) ->
  exists ns, overlap eps points = Some ns /\ Forall2 (fun p n => exactly n (fun q => In q points /\ near eps p q)) points ns.
Proof.
  intros H. unfold overlap. set (g := fun x : Z * Z => (fst x - eps, snd x + eps)). assert (Hg : forall x y, g x = g y -> x = y). { intros [a b] [c d] [= ? ?]. cbn in *. f_equal; lia. }
  destruct (existsb (fun p => snd p <=? fst p) (map g points)) eqn:Ex.
  { exfalso. apply existsb_exists in Ex as (p & Hp & Hq). apply in_map_iff in Hp as (x & <- & Hx). apply Z.leb_le in Hq. specialize (H x Hx). cbn in Hq. lia. }
  eexists. split; [reflexivity|]. rewrite map_map. set (tree := dedup (sorted_by fst (sorted_by snd (map g points)))).
  assert (Hin : forall x, In x tree <-> In x (map g points)). { intros x. unfold tree. rewrite dedup_in. split; apply Permutation_in; [symmetry|]; apply sorted2_perm. }
  assert (Hnd : NoDup tree) by apply dedup_nodup. assert (G : forall l, (forall p, In p l -> In p points) -> Forall2 (fun p n => exactly n (fun q => In q points /\ near eps p q)) l (map (fun x => length (tree_overlap tree (g x))) l)).
  { induction l as [|p l IH]; intros Hl; constructor; [|apply IH; intros; apply Hl; right; auto]. pose proof (H p (Hl p (or_introl eq_refl))) as Hp. unfold tree_overlap. destruct (Z.leb_spec (snd (g p)) (fst (g p))) as [Hc|_]; [cbn in Hc; lia|].
    set (h := fun x : Z * Z => (fst x + eps, snd x - eps)). assert (gh : forall x, g (h x) = x) by (intros [a b]; unfold g, h; cbn; f_equal; lia).
    eapply (exactly_image _ (fun x => In x (map g points) /\ (fst x <? snd (g p)) && (fst (g p) <? snd x) = true) _ h).
    - intros x y _ _ E. rewrite <- (gh x), <- (gh y), E. auto.
    - intros q. unfold near. split.
      + intros (Hq & N1 & N2). exists (g q). split; [|destruct q; unfold g, h; cbn; f_equal; lia]. split; [apply in_map; auto|]. rewrite andb_true_iff, !Z.ltb_lt. unfold g. cbn. lia.
      + intros (x & [Hx Hb] & <-). apply in_map_iff in Hx as (y & <- & Hy). replace (h (g y)) with y by (destruct y; unfold g, h; cbn; f_equal; lia). rewrite andb_true_iff, !Z.ltb_lt in Hb. unfold g in Hb. cbn in Hb. unfold near; split; [auto|lia].
    - exists (filter (fun q => (fst q <? snd (g p)) && (fst (g p) <? snd q)) tree). split; [apply NoDup_filter; auto|]. split; auto. intros x. rewrite filter_In, Hin. tauto. }
  apply G. auto.
Qed.
