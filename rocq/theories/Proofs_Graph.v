From Coq Require Import List Arith Bool Lia Permutation.
Import ListNotations.
From Verif Require Import Model_Dict Proofs_Dict Model_Dfg Spec_Dfg Proofs_Dfg Model_Graph Spec_Graph.
Local Arguments keqb {K Key} : simpl never.

Lemma smem_in x s : smem x s = true <-> In x s.
Proof. unfold smem. rewrite existsb_exists. split; [intros (y & H & E); apply Nat.eqb_eq in E; subst; auto|intros H; exists x; rewrite Nat.eqb_refl; auto]. Qed.
Lemma smem_false x s : smem x s = false <-> ~ In x s.
Proof. rewrite <- smem_in. destruct (smem x s); split; congruence. Qed.
Lemma sadd_in s x y : In y (sadd s x) <-> In y s \/ y = x.
Proof.
  unfold sadd. destruct (smem x s) eqn:E; [apply smem_in in E; split; [auto|intros [H| ->]; auto]|]. rewrite in_app_iff. cbn. split; intros [H|H]; auto. destruct H as [H|[]]; auto.
Qed.
Lemma sadd_nodup s x : NoDup s -> NoDup (sadd s x).
Proof.
  unfold sadd. destruct (smem x s) eqn:E; auto. intros H. apply smem_false in E. apply NoDup_app_intro; auto; [repeat constructor; auto|]. intros y Hy [->|[]]; auto.
Qed.
Lemma sadd_len s x : length s <= length (sadd s x).
Proof. unfold sadd. destruct (smem x s); auto. rewrite app_length. lia. Qed.
Lemma sunion_in t : forall s x, In x (sunion s t) <-> In x s \/ In x t.
Proof.
  induction t as [|y t IH]; intros s x; cbn; [tauto|]. change (In x (sunion (sadd s y) t) <-> In x s \/ y = x \/ In x t). rewrite IH, sadd_in. intuition.
Qed.
Lemma sunion_nodup t : forall s, NoDup s -> NoDup (sunion s t).
Proof. induction t as [|y t IH]; intros s H; auto. cbn. apply (IH (sadd s y)). apply sadd_nodup; auto. Qed.
Lemma sdiff_in s t x : In x (sdiff s t) <-> In x s /\ ~ In x t.
Proof. unfold sdiff. rewrite filter_In, negb_true_iff, smem_false. tauto. Qed.
Lemma subset_in s t : subset s t = true <-> incl s t.
Proof. unfold subset. rewrite forallb_forall. split; intros H x Hx; [apply smem_in|apply smem_in]; auto. Qed.
Lemma set_eqb_in s t : set_eqb s t = true <-> forall x, In x s <-> In x t.
Proof. unfold set_eqb. rewrite andb_true_iff, !subset_in. split; [intros [H1 H2] x; split; auto|intros H; split; intros x; apply H]. Qed.

(** ** Paths *)
Lemma path_trans E x y z : path E x y -> path E y z -> path E x z.
Proof. induction 1; auto. intros H1. econstructor; eauto. Qed.
Lemma path_edge E x y : In (x, y) E -> path E x y.
Proof. intros H. econstructor; [eauto|constructor]. Qed.
Lemma path_flip E x y : path E x y -> path (flip E) y x.
Proof.
  induction 1; [constructor|]. eapply path_trans; eauto. apply path_edge. unfold flip. apply in_map_iff. exists (x, y). auto.
Qed.
Lemma flip_flip E : flip (flip E) = E.
Proof. unfold flip. rewrite map_map. erewrite map_ext; [apply map_id|]. intros [a b]; auto. Qed.
Lemma path_flip_iff E x y : path (flip E) y x <-> path E x y.
Proof. split; [intros H; apply path_flip in H; rewrite flip_flip in H; auto|apply path_flip]. Qed.
Lemma path_mono E E' x y : incl E E' -> path E x y -> path E' x y.
Proof. intros H. induction 1; [constructor|]. econstructor; eauto. Qed.
Lemma path1_path E x y : path1 E x y -> path E x y.
Proof. intros (z & H1 & H2). econstructor; eauto. Qed.
Lemma path_path1 E x y : path E x y <-> x = y \/ path1 E x y.
Proof. split; [intros H; inversion H; subst; [auto|right; unfold path1; eauto]|]. intros [->|H]; [constructor|apply path1_path; auto]. Qed.
Lemma path1_snoc E x y z : path E x y -> In (y, z) E -> path1 E x z.
Proof.
  intros H G. inversion H as [|? ? ? H1 H2]; subst; [exists z; split; auto; constructor|]. eexists. split; [eauto|]. eapply path_trans; eauto. apply path_edge; auto.
Qed.
Lemma flip_in E x y : In (x, y) (flip E) <-> In (y, x) E.
Proof. unfold flip. rewrite in_map_iff. split; [intros ([a b] & [= <- <-] & H); auto|intros H; exists (y, x); auto]. Qed.
Lemma path1_flip E x y : path1 (flip E) x y <-> path1 E y x.
Proof.
  split.
  - intros (z & H1 & H2). apply (proj1 (flip_in _ _ _)) in H1. eapply path1_snoc; [|exact H1]. apply path_flip_iff. auto.
  - intros (z & H1 & H2). eapply path1_snoc; [|apply flip_in; exact H1]. apply path_flip_iff. auto.
Qed.
Lemma path_last E x y : path E x y -> x = y \/ exists z, path E x z /\ In (z, y) E.
Proof. induction 1 as [|x y z H1 H2 IH]; auto. right. destruct IH as [->|(w & H3 & H4)]; [exists x; split; auto; constructor|]. exists w. split; auto. econstructor; eauto. Qed.

(** ** Descendants *)
Definition pass1 s (e : edge) := if smem (fst e) s then sadd s (snd e) else s.
Lemma pass_incl E : forall s, incl s (pass E s).
Proof.
  induction E as [|e E IH]; intros s x H; auto. cbn. apply IH. destruct (smem (fst e) s); auto. apply sadd_in. auto.
Qed.
Lemma pass_nodup E : forall s, NoDup s -> NoDup (pass E s).
Proof. induction E as [|e E IH]; intros s H; auto. cbn. apply IH. destruct (smem (fst e) s); auto. apply sadd_nodup; auto. Qed.
Lemma pass_in E : forall s x y, In (x, y) E -> In x s -> In y (pass E s).
Proof.
  induction E as [|e E IH]; intros s x y He Hx; [destruct He|]; destruct He as [->|H]; cbn [pass fold_left fst snd].
  - assert (M : smem x s = true) by (apply smem_in; auto). rewrite M. apply (pass_incl E). apply sadd_in. auto.
  - apply (IH _ x); auto. destruct (smem (fst e) s); auto. apply sadd_in. auto.
Qed.
Lemma pass_sound E v : forall E' s, incl E' E -> (forall x, In x s -> path E v x) -> forall x, In x (pass E' s) -> path E v x.
Proof.
  induction E' as [|e E' IH]; intros s HE Hs x Hx; cbn in Hx; auto. eapply IH; [| |exact Hx]; [intros y Hy; apply HE; right; auto|].
  intros y Hy. destruct (smem (fst e) s) eqn:M; auto. apply sadd_in in Hy. destruct Hy as [Hy| ->]; auto. eapply path_trans; [apply Hs, smem_in; eauto|]. apply path_edge, HE. left. destruct e; auto.
Qed.
Lemma pass_bound E : forall s V, incl s V -> incl (map snd E) V -> incl (pass E s) V.
Proof.
  induction E as [|e E IH]; intros s V H1 H2; auto. cbn. apply IH; [|intros x Hx; apply H2; right; auto]. destruct (smem (fst e) s); auto. intros x Hx. apply sadd_in in Hx. destruct Hx as [Hx| ->]; auto. apply H2. left; auto.
Qed.
Lemma pass_eq E s : NoDup s -> length (pass E s) = length s -> incl (pass E s) s.
Proof. intros H L. apply NoDup_length_incl; auto; [lia|apply pass_incl]. Qed.
Definition closed E s := forall x y : nat, In (x, y) E -> In x s -> In y s.
Lemma iter_props E v n : let s := Nat.iter n (pass E) [v] in NoDup s /\ In v s /\ (forall x, In x s -> path E v x) /\ incl s (v :: map snd E) /\ (closed E s \/ n < length s).
Proof.
  induction n as [|n (H1 & H2 & H3 & H4 & H5)]; cbn [Nat.iter nat_rect].
  - repeat split; auto; [repeat constructor; auto|left; auto|intros x [->|[]]; constructor|intros x [->|[]]; left; auto].
  - set (s := Nat.iter n (pass E) [v]) in *. change (nat_rect _ _ _ n) with s. repeat split.
    + apply pass_nodup; auto.
    + apply pass_incl; auto.
    + apply (pass_sound E v E s); auto. apply incl_refl.
    + apply pass_bound; auto. intros x Hx; right; auto.
    + destruct (Nat.eq_dec (length (pass E s)) (length s)) as [L|L].
      * left. pose proof (pass_eq E s H1 L) as Q. intros x y He Hx. apply (pass_in _ _ x); auto.
      * right. assert (length s <= length (pass E s)) by (apply NoDup_incl_length; auto; apply pass_incl). destruct H5 as [C|]; [|lia]. exfalso. apply L.
        apply Nat.le_antisymm; auto. apply NoDup_incl_length; [apply pass_nodup; auto|].
        clear - C. assert (G : forall E' s', incl E' E -> incl s' s -> incl (pass E' s') s).
        { induction E' as [|e E' IH]; intros s' He Hs; auto. cbn. apply IH; [intros z Hz; apply He; right; auto|]. destruct (smem (fst e) s') eqn:M; auto. intros z Hz. apply sadd_in in Hz. destruct Hz as [Hz| ->]; auto.
          apply (C (fst e)); [apply He; left; destruct e; auto|]. apply Hs, smem_in; auto. }
        apply G; apply incl_refl.
Qed.
Lemma closed_path E s x y : closed E s -> path E x y -> In x s -> In y s.
Proof. intros C. induction 1; auto. intros Hx. apply IHpath. eapply C; eauto. Qed.
Theorem descendants_spec E v x : In x (descendants E v) <-> x <> v /\ path E v x.
Proof.
  unfold descendants. rewrite filter_In, negb_true_iff, Nat.eqb_neq. destruct (iter_props E v (length E)) as (H1 & H2 & H3 & H4 & H5). cbn zeta in *. set (s := Nat.iter (length E) (pass E) [v]) in *.
  split; [intros [G1 G2]; auto|]. intros [G1 G2]. split; auto. apply (closed_path E s v x); auto. destruct H5 as [C|L]; auto.
  assert (L2 : length s <= S (length E)) by (apply (NoDup_incl_length H1) in H4; cbn in H4; rewrite map_length in H4; auto).
  assert (V : incl (v :: map snd E) s) by (apply NoDup_length_incl; auto; cbn [length]; rewrite map_length; unfold edge in *; lia).
  intros a b He _. apply V. right. apply in_map_iff. exists (a, b). auto.
Qed.
Theorem ancestors_spec E v x : In x (ancestors E v) <-> x <> v /\ path E x v.
Proof. unfold ancestors. rewrite descendants_spec, path_flip_iff. tauto. Qed.

(** ** get_successors *)
Section Succ.
  Variable ord : list nat -> list nat.
  Hypothesis Hord : forall l, Permutation (ord l) l.
  Variable E : list edge.
  Variable acts : list nat.

  Hypothesis HE : forall x y, In (x, y) E -> In x acts /\ In y acts.
  Lemma sget_set d x s y : sget (d_set d x s) y = if Nat.eqb x y then s else sget d y.
  Proof. unfold sget. rewrite d_get_set. change (keqb x y) with (Nat.eqb x y). destruct (Nat.eqb x y); auto. Qed.
  Lemma chg_set d x b y : chg (d_set d x b) y = if Nat.eqb x y then b else chg d y.
  Proof. unfold chg. rewrite d_get_set. change (keqb x y) with (Nat.eqb x y). destruct (Nat.eqb x y); auto. Qed.
  Lemma keys_set {V} (d : dict nat V) x v : In x (d_keys d) -> d_keys (d_set d x v) = d_keys d.
  Proof.
    induction d as [|[k w] d IH]; intros H; [destruct H|]. cbn [d_set]. change (keqb k x) with (Nat.eqb k x). destruct (Nat.eqb_spec k x) as [->|N]; auto. cbn. f_equal. apply IH. destruct H; [cbn in *; congruence|auto].
  Qed.
  (** what one round preserves *)
  Definition inv (st : sstate) : Prop :=
    d_keys (s_prev st) = acts /\ d_keys (s_curr st) = acts /\
    (forall x, NoDup (sget (s_curr st) x)) /\ (forall x, NoDup (sget (s_prev st) x)) /\
    (forall x y, In (x, y) E -> In y (sget (s_curr st) x)) /\
    (forall x y, In y (sget (s_curr st) x) -> path1 E x y) /\
    (forall x, incl (sget (s_prev st) x) (sget (s_curr st) x)) /\
    (forall x y z, In y (sget (s_prev st) x) -> In (y, z) E -> In z (sget (s_curr st) x)) /\
    (forall x, In x acts -> chg (s_changed st) x = false -> incl (sget (s_curr st) x) (sget (s_prev st) x)).
  Lemma sget_acts d x : d_keys d = acts -> ~ In x acts -> sget d x = [].
  Proof. intros K H. unfold sget. destruct (d_get d x) eqn:G; auto. exfalso. apply H. rewrite <- K. apply d_get_keys. congruence. Qed.
  Lemma init_get x (l : list nat) : sget (map (fun x => (x, [])) l) x = [].
  Proof. unfold sget. induction l as [|y l IH]; auto. cbn. change (keqb y x) with (Nat.eqb y x). destruct (Nat.eqb y x); auto. Qed.
  Lemma init_chg x (l : list nat) : In x l -> chg (map (fun x => (x, true)) l) x = true.
  Proof. unfold chg. induction l as [|y l IH]; intros H; [destruct H|]. cbn. change (keqb y x) with (Nat.eqb y x). destruct (Nat.eqb_spec y x); auto. apply IH. destruct H; auto; congruence. Qed.
  Lemma inv_init : inv (s_init E acts).
  Proof.
    unfold inv, s_init. cbn [s_prev s_curr s_changed].
    set (c0 := map (fun x : nat => (x, @nil nat)) acts).
    set (stp := fun (c : dict nat (list nat)) (e : edge) => d_set c (fst e) (sadd (sget c (fst e)) (snd e))).
    assert (K0 : d_keys c0 = acts) by (unfold c0, d_keys; rewrite map_map, map_id; auto).
    assert (G : forall E' c, incl E' E -> d_keys c = acts -> (forall x, NoDup (sget c x)) ->
       d_keys (fold_left stp E' c) = acts /\ (forall x, NoDup (sget (fold_left stp E' c) x)) /\ (forall x y, In y (sget (fold_left stp E' c) x) <-> In y (sget c x) \/ In (x, y) E')).
    { induction E' as [|[a b] E' IH]; intros c Hi K N; cbn [fold_left]; [repeat split; auto; intros [H|[]]; auto|].
      assert (Ka : In a acts) by (apply (HE a b), Hi; left; auto).
      destruct (IH (stp c (a, b))) as (I1 & I2 & I3).
      - intros z Hz. apply Hi. right; auto.
      - unfold stp. cbn [fst snd]. rewrite keys_set; auto. rewrite K. auto.
      - intros x. unfold stp. cbn [fst snd]. rewrite sget_set. destruct (Nat.eqb a x); auto. apply sadd_nodup; auto.
      - split; auto. split; auto. intros x y. rewrite I3. unfold stp. cbn [fst snd In]. rewrite sget_set. destruct (Nat.eqb_spec a x) as [->|N1].
        + rewrite sadd_in. split; [intros [[H| ->]|H]; auto|intros [H|[[= ->]|H]]; auto].
        + split; [intros [H|H]; auto|intros [H|[[= -> ->]|H]]; auto; congruence]. }
    destruct (G E c0 (incl_refl _) K0) as (G1 & G2 & G3); [intros x; unfold c0; rewrite init_get; constructor|].
    split; auto. split; auto. split; auto. split; [intros x; unfold c0; rewrite init_get; constructor|].
    split; [intros x y H; apply G3; auto|]. split; [intros x y H; apply G3 in H; unfold c0 in H; rewrite init_get in H; destruct H as [[]|H]; exists y; split; auto; constructor|].
    split; [intros x y; unfold c0; rewrite init_get; intros []|]. split; [intros x y z; unfold c0; rewrite init_get; intros []|].
    intros x Hx H. rewrite init_chg in H; [discriminate|auto].
  Qed.
  Lemma diff_in st x d : In (x, d) (s_diff st) <-> In x (d_keys (s_prev st)) /\ chg (s_changed st) x = true /\ d = sdiff (sget (s_curr st) x) (sget (s_prev st) x).
  Proof.
    unfold s_diff. rewrite in_map_iff. split; [intros (y & [= <- <-] & H); apply filter_In in H; tauto|]. intros (H1 & H2 & ->). exists x. split; auto. apply filter_In. auto.
  Qed.
  Lemma changed'_spec st x : In x acts -> inv st -> chg (s_changed' st) x = chg (s_changed st) x && negb (is_nil (sdiff (sget (s_curr st) x) (sget (s_prev st) x))).
  Proof.
    intros Hx (K & _). unfold s_changed'.
    assert (G : forall l c, (forall y d, In (y, d) l -> d = sdiff (sget (s_curr st) y) (sget (s_prev st) y)) ->
      chg (fold_left (fun c xd => if is_nil (snd xd) then d_set c (fst xd) false else c) l c) x = chg c x && negb (existsb (fun y => Nat.eqb y x) (map fst l) && is_nil (sdiff (sget (s_curr st) x) (sget (s_prev st) x)))).
    { induction l as [|[y d] l IH]; intros c Hl; cbn [fold_left map existsb fst snd]; [rewrite andb_true_r; auto|]. rewrite IH by (intros; apply Hl; right; auto).
      rewrite (Hl y d) by (left; auto). destruct (Nat.eqb_spec y x) as [->|N]; cbn [orb andb].
      - destruct (is_nil (sdiff _ _)) eqn:En; [rewrite chg_set, Nat.eqb_refl, !andb_false_r; auto|]. rewrite !andb_false_r. auto.
      - destruct (is_nil (sdiff (sget (s_curr st) y) (sget (s_prev st) y))); auto. rewrite chg_set. destruct (Nat.eqb_spec y x); [congruence|auto]. }
    rewrite G by (intros y d H; apply diff_in in H; tauto). destruct (chg (s_changed st) x) eqn:C; auto. f_equal. f_equal.
    assert (X : existsb (fun y => Nat.eqb y x) (map fst (s_diff st)) = true); [|rewrite X; auto].
    apply existsb_exists. exists x. rewrite Nat.eqb_refl. split; auto. apply in_map_iff. eexists (x, _). split; [reflexivity|]. apply diff_in. rewrite K. auto.
  Qed.
  (** the property of curr during the for loop of line 855 *)
  Definition good (base c : dict nat (list nat)) : Prop :=
    d_keys c = acts /\ (forall x, NoDup (sget c x)) /\ (forall x, incl (sget base x) (sget c x)) /\ (forall x y, In y (sget c x) -> path1 E x y).
  Lemma merge_good base x : In x acts -> forall d c, good base c -> (forall y, In y d -> In y (sget base x)) ->
    let c' := fold_left (fun c y => d_set c x (sunion (sget c x) (sget c y))) d c in
    good base c' /\ (forall z, incl (sget c z) (sget c' z)) /\ (forall z, z <> x -> sget c' z = sget c z) /\ (forall y, In y d -> incl (sget base y) (sget c' x)).
  Proof.
    intros Hx. induction d as [|y d IH]; intros c G Hd; cbn [fold_left].
    - repeat split; try apply G; auto; intros; try apply incl_refl. contradiction.
    - assert (G' : good base (d_set c x (sunion (sget c x) (sget c y)))).
      { destruct G as (G1 & G2 & G3 & G4). split; [rewrite keys_set; auto; rewrite G1; auto|]. split; [intros z; rewrite sget_set; destruct (Nat.eqb x z); auto; apply sunion_nodup; auto|].
        split; [intros z w Hw; rewrite sget_set; destruct (Nat.eqb_spec x z) as [->|]; [apply sunion_in; left|]; apply G3; auto|].
        intros z w. rewrite sget_set. destruct (Nat.eqb_spec x z) as [->|]; auto. rewrite sunion_in. intros [H|H]; auto. apply G4 in H.
        assert (P : path1 E z y) by (apply G4, G3, Hd; left; auto). destruct P as (u & P1 & P2). exists u. split; auto. eapply path_trans; eauto. apply path1_path; auto. }
      destruct (IH _ G') as (I1 & I2 & I3 & I4); [intros w Hw; apply Hd; right; auto|]. split; auto. split; [|split].
      + intros z w Hw. apply I2. rewrite sget_set. destruct (Nat.eqb_spec x z) as [->|]; auto. apply sunion_in. auto.
      + intros z Hz. rewrite I3 by auto. rewrite sget_set. destruct (Nat.eqb_spec x z); [congruence|auto].
      + intros w [->|Hw]; auto. intros v Hv. apply I2. rewrite sget_set, Nat.eqb_refl. apply sunion_in. right. apply G. auto.
  Qed.
  Lemma round_inv st : inv st -> inv (s_round ord st) /\ (forall x, incl (sget (s_curr st) x) (sget (s_curr (s_round ord st)) x)).
  Proof.
    intros I. pose proof I as (K1 & K2 & N1 & N2 & I1 & I2 & I3 & I4 & I5).
    assert (G0 : good (s_curr st) (s_curr st)) by (repeat split; auto; intros ? ? H; auto).
    assert (L : forall l c, (forall x d, In (x, d) l -> In x acts /\ d = sdiff (sget (s_curr st) x) (sget (s_prev st) x)) -> good (s_curr st) c ->
       let c' := fold_left (fun c xd => if chg (s_changed' st) (fst xd) then s_merge ord (fst xd) c (snd xd) else c) l c in
       good (s_curr st) c' /\ (forall z, incl (sget c z) (sget c' z)) /\ (forall z, chg (s_changed' st) z = false -> sget c' z = sget c z) /\
       (forall x d y, In (x, d) l -> chg (s_changed' st) x = true -> In y d -> incl (sget (s_curr st) y) (sget c' x))).
    { induction l as [|[x d] l IH]; intros c Hl G; cbn [fold_left fst snd].
      - repeat split; try apply G; auto; intros; try apply incl_refl. contradiction.
      - destruct (Hl x d (or_introl eq_refl)) as [Hx Hd]. set (c1 := if chg (s_changed' st) x then s_merge ord x c d else c).
        assert (M : good (s_curr st) c1 /\ (forall z, incl (sget c z) (sget c1 z)) /\ (forall z, chg (s_changed' st) z = false -> sget c1 z = sget c z) /\ (chg (s_changed' st) x = true -> forall y, In y d -> incl (sget (s_curr st) y) (sget c1 x))).
        { unfold c1. destruct (chg (s_changed' st) x) eqn:C; [|repeat split; auto; try apply G; intros; try apply incl_refl; discriminate].
          destruct (merge_good (s_curr st) x Hx (ord d) c G) as (M1 & M2 & M3 & M4).
          - intros y Hy. apply (Permutation_in _ (Hord d)) in Hy. rewrite Hd in Hy. apply sdiff_in in Hy. tauto.
          - split; auto. split; auto. split; [intros z Hz; apply M3; congruence|]. intros _ y Hy. apply M4. apply (Permutation_in y (Permutation_sym (Hord d))). auto. }
        destruct M as (M1 & M2 & M3 & M4). destruct (IH c1) as (J1 & J2 & J3 & J4); [intros; apply Hl; right; auto|auto|].
        split; auto. split; [intros z w Hw; apply J2, M2; auto|]. split; [intros z Hz; rewrite J3, M3; auto|].
        intros x' d' y [[= <- <-]|Hin] C Hy; [intros w Hw; apply J2; apply (M4 C y); auto|eapply J4; eauto]. }
    destruct (L (s_diff st) (s_curr st)) as (L1 & L2 & L3 & L4); [intros x d H; apply diff_in in H; rewrite K1 in H; tauto|auto|].
    change (fold_left _ (s_diff st) (s_curr st)) with (s_curr (s_round ord st)) in *. split; [|auto].
    destruct L1 as (G1 & G2 & G3 & G4). unfold inv. change (s_prev (s_round ord st)) with (s_curr st). change (s_changed (s_round ord st)) with (s_changed' st).
    split; auto. split; auto. split; auto. split; auto. split; [intros x y H; apply L2; auto|]. split; auto. split; auto. split.
    - intros x y z Hy Hz. destruct (in_dec Nat.eq_dec x acts) as [Hx|Hx]; [|rewrite (sget_acts _ x K2 Hx) in Hy; destruct Hy].
      destruct (in_dec Nat.eq_dec y (sget (s_prev st) x)) as [Hp|Hp]; [apply L2; eapply I4; eauto|].
      assert (Hd : In y (sdiff (sget (s_curr st) x) (sget (s_prev st) x))) by (apply sdiff_in; auto).
      assert (C : chg (s_changed st) x = true) by (destruct (chg (s_changed st) x) eqn:C; auto; exfalso; apply Hp, (I5 x Hx C); auto).
      assert (C' : chg (s_changed' st) x = true) by (rewrite changed'_spec, C by auto; destruct (sdiff _ _); [destruct Hd|auto]).
      apply (L4 x (sdiff (sget (s_curr st) x) (sget (s_prev st) x)) y); auto. apply diff_in. rewrite K1. auto.
    - intros x Hx C. rewrite L3 by auto. apply incl_refl.
  Qed.
  Definition total_size (c : dict nat (list nat)) := list_sum (map (fun x => length (sget c x)) acts).
  Lemma size_bound c : d_keys c = acts -> (forall x, NoDup (sget c x)) -> (forall x y, In y (sget c x) -> path1 E x y) -> total_size c <= length acts * length acts.
  Proof.
    intros K N P. unfold total_size. assert (B : forall x, length (sget c x) <= length acts).
    { intros x. apply NoDup_incl_length; auto. intros y Hy. apply P in Hy. destruct Hy as (z & H1 & H2). apply path_last in H2. destruct H2 as [->|(w & _ & H2)]; [apply HE in H1; tauto|apply HE in H2; tauto]. }
    assert (G : forall l, list_sum (map (fun x => length (sget c x)) l) <= length l * length acts).
    { induction l as [|x l IH]; auto. unfold list_sum in *. cbn [map fold_right length]. specialize (B x). lia. } apply G.
  Qed.
  Lemma size_mono c c' : (forall x, incl (sget c x) (sget c' x)) -> (forall x, NoDup (sget c x)) -> total_size c <= total_size c' /\ (forall x y, In x acts -> In y (sget c' x) -> ~ In y (sget c x) -> total_size c < total_size c').
  Proof.
    intros H N. assert (Hx : forall x, length (sget c x) <= length (sget c' x)) by (intros x; apply NoDup_incl_length; auto). unfold total_size. split.
    - clear - Hx. induction acts as [|x l IH]; auto. unfold list_sum in *. cbn [map fold_right]. specialize (Hx x). lia.
    - intros x y Ix Iy Ny. assert (L : length (sget c x) < length (sget c' x)).
      { destruct (Nat.eq_dec (length (sget c x)) (length (sget c' x))) as [L|L]; [|specialize (Hx x); lia]. exfalso. apply Ny. apply (NoDup_length_incl (N x)) in Iy; auto. lia. }
      clear - Hx L Ix. induction acts as [|z l IH]; [destruct Ix|]. unfold list_sum in *. cbn [map fold_right]. destruct Ix as [->|Ix].
      + assert (fold_right Nat.add 0 (map (fun x => length (sget c x)) l) <= fold_right Nat.add 0 (map (fun x => length (sget c' x)) l)); [|lia].
        clear - Hx. induction l as [|w l IH]; auto. cbn [map fold_right]. specialize (Hx w). lia.
      + specialize (IH Ix). specialize (Hx z). lia.
  Qed.
  Lemma loop_ok fuel : forall st, inv st -> length acts * length acts < fuel + total_size (s_prev st) ->
    exists r, s_loop ord fuel st = Some r /\ forall x y, In x acts -> In y (sget r x) <-> path1 E x y.
  Proof.
    induction fuel as [|fuel IH]; intros st I F.
    - exfalso. pose proof I as (K1 & K2 & N1 & N2 & I1 & I2 & I3 & I4 & I5). pose proof (size_bound (s_prev st) K1 N2) as B. assert (total_size (s_prev st) <= length acts * length acts); [|lia]. apply B. intros x y Hy. apply I2, I3. auto.
    - cbn [s_loop]. destruct (round_inv st I) as [I' Inc]. destruct (sthing_diff st) eqn:D.
      + apply IH; auto. change (s_prev (s_round ord st)) with (s_curr st). unfold sthing_diff in D. apply existsb_exists in D. destruct D as ([x d] & H & Hd). apply diff_in in H. destruct H as (Hx & _ & ->).
        pose proof I as (K1 & K2 & N1 & N2 & I1 & I2 & I3 & I4 & I5). rewrite K1 in Hx. cbn [snd] in Hd. destruct (sdiff (sget (s_curr st) x) (sget (s_prev st) x)) as [|y r] eqn:Ed; [discriminate|].
        assert (Hy : In y (sdiff (sget (s_curr st) x) (sget (s_prev st) x))) by (rewrite Ed; left; auto). apply sdiff_in in Hy.
        destruct (size_mono _ _ I3 N2) as [_ M]. specialize (M x y Hx (proj1 Hy) (proj2 Hy)). lia.
      + eexists. split; [reflexivity|]. intros x y Hx. pose proof I as (K1 & K2 & N1 & N2 & I1 & I2 & I3 & I4 & I5).
        assert (C : forall x, In x acts -> incl (sget (s_curr st) x) (sget (s_prev st) x)).
        { intros z Hz w Hw. destruct (chg (s_changed st) z) eqn:Cz; [|apply I5; auto]. destruct (in_dec Nat.eq_dec w (sget (s_prev st) z)); auto. exfalso.
          assert (X : sthing_diff st = true); [|congruence]. apply existsb_exists. eexists (z, _). split; [apply diff_in; rewrite K1; split; [auto|split; [auto|reflexivity]]|]. cbn [snd].
          assert (In w (sdiff (sget (s_curr st) z) (sget (s_prev st) z))) by (apply sdiff_in; auto). destruct (sdiff _ _); [contradiction|auto]. }
        split.
        * destruct I' as (_ & _ & _ & _ & _ & J & _). apply J.
        * intros (z & Hz & Hp). apply Inc.
          assert (G : forall z, In z (sget (s_curr st) x) -> path E z y -> In y (sget (s_curr st) x)).
          { intros z0 Hz0 P. induction P as [|a b c Hab P IHP]; auto. apply IHP; auto. apply (I4 x a); auto. apply C; auto. }
          apply (G z); auto.
  Qed.
  Theorem get_successors_spec fuel : length acts * length acts < fuel -> exists r, get_successors ord fuel E acts = Some r /\ forall x y, In x acts -> In y (sget r x) <-> path1 E x y.
  Proof. intros F. apply loop_ok; [apply inv_init|]. lia. Qed.
End Succ.
Theorem get_predecessors_spec ord E acts fuel : (forall l, Permutation (ord l) l) -> (forall x y, In (x, y) E -> In x acts /\ In y acts) -> length acts * length acts < fuel ->
  exists r, get_predecessors ord fuel E acts = Some r /\ forall x y, In x acts -> In y (sget r x) <-> path1 E y x.
Proof.
  intros Ho HE F. unfold get_predecessors. destruct (get_successors_spec ord Ho (flip E) acts) with (fuel := fuel) as (r & H1 & H2); auto.
  - intros x y H. apply (proj1 (flip_in _ _ _)) in H. apply HE in H. tauto.
  - exists r. split; auto. intros x y Hx. rewrite H2, path1_flip; auto. tauto.
Qed.
