(** The selection of the simulated traces. *)
From Coq Require Import List Arith QArith Qround Bool Permutation Lia Lqa ZArith.
From Verif Require Import Spec_DfgPlay Model_DfgPlay Proofs_DfgPlay1 Proofs_DfgPlay2.
Import ListNotations.
Open Scope nat_scope.

Lemma pairs_nth t a b : In (a, b) (pairs t) <-> exists i, nth_error t i = Some a /\ nth_error t (S i) = Some b.
Proof.
  unfold pairs. induction t as [|x t IH]; [cbn; split; [easy|intros ([|i] & H & _); discriminate]|]. destruct t as [|y t].
  - cbn. split; [easy|]. intros ([|i] & _ & H); cbn in H; [discriminate|destruct i; discriminate].
  - change (combine (x :: y :: t) (tl (x :: y :: t))) with ((x, y) :: combine (y :: t) (tl (y :: t))). split.
    + intros [E|H]; [injection E as -> ->; exists 0; auto|]. apply IH in H as (i & H). exists (S i). exact H.
    + intros ([|i] & H1 & H2); [left; cbn in *; congruence|]. right. apply IH. exists i. auto.
Qed.
Lemma pmem_in x l : pmem x l = true <-> In x l.
Proof.
  unfold pmem. rewrite existsb_exists. split.
  - intros (y & Hy & E). apply andb_true_iff in E as [E1 E2]. apply Nat.eqb_eq in E1, E2. destruct x, y. cbn in *. subst. exact Hy.
  - intros H. exists x. rewrite !Nat.eqb_refl. auto.
Qed.
Lemma mem_in x l : mem x l = true <-> In x l.
Proof. unfold mem. rewrite existsb_exists. split; [intros (y & Hy & E); apply Nat.eqb_eq in E; now subst|intros H; exists x; rewrite Nat.eqb_refl; auto]. Qed.

Section S.
  Variable c : settings.
  Variable dfg : edges.
  Variables sa ea : freqs.
  (** a sublist in the same order *)
  Inductive sub : list partial -> list partial -> Prop :=
  | sub_nil l : sub [] l
  | sub_keep x k l : sub k l -> sub (x :: k) (x :: l)
  | sub_skip x k l : sub k l -> sub k (x :: l).
  Lemma sub_in k l : sub k l -> incl k l.
  Proof. induction 1; intros y Hy; [destruct Hy|destruct Hy; [left; auto|right; auto]|right; auto]. Qed.
  Lemma sub_nodup k l : sub k l -> NoDup (map fst l) -> NoDup (map fst k).
  Proof.
    induction 1 as [l|x k l H IH|x k l H IH]; cbn [map]; intros N; [constructor| |]; inversion N; subst; auto. constructor; auto. intros Q. apply in_map_iff in Q as (y & E & Q). apply (sub_in _ _ H) in Q. apply H2. rewrite <- E. now apply in_map.
  Qed.
  Lemma select_sub ys : forall ssa sea sdfg final overall brk mo f i, select c dfg sa ea ys ssa sea sdfg final overall brk mo = (f, i) -> exists k, sub k ys /\ f = final ++ k.
  Proof.
    assert (Z : forall ys final f (i i' : bool), (final, i) = (f, i') -> exists k, sub k ys /\ f = final ++ k) by (intros ys' final f i i' E; injection E as <- _; exists []; rewrite app_nil_r; split; [constructor|auto]).
    induction ys as [|[tr p] ys IH]; intros ssa sea sdfg final overall brk mo f i H; cbn [select] in H; [exact (Z _ _ _ _ _ H)|].
    repeat match type of H with (if ?b then _ else _) = _ => destruct b end; try exact (Z _ _ _ _ _ H).
    - apply IH in H as (k & K & ->). exists k. split; auto. now constructor.
    - injection H as <- _. exists [(tr, p)]. split; auto. repeat constructor.
    - apply IH in H as (k & K & ->). exists ((tr, p) :: k). split; [now constructor|]. rewrite <- app_assoc. reflexivity.
  Qed.
  Lemma select_len ys : forall ssa sea sdfg final overall brk mo f i, select c dfg sa ea ys ssa sea sdfg final overall brk mo = (f, i) -> length final <= max_no_variants c -> length f <= max_no_variants c.
  Proof.
    induction ys as [|[tr p] ys IH]; intros ssa sea sdfg final overall brk mo f i H L; cbn [select] in H; [injection H as <- _; auto|].
    destruct (_ && brk); [injection H as <- _; auto|]. destruct (max_no_variants c <=? length final) eqn:M; [injection H as <- _; auto|]. apply Nat.leb_gt in M.
    assert (L' : length (final ++ [(tr, p)]) <= max_no_variants c) by (rewrite app_length; cbn; lia).
    repeat match type of H with (if ?b then _ else _) = _ => destruct b end; try (injection H as <- _; assumption).
    - apply IH in H; auto.
    - apply IH in H; auto.
  Qed.
  Lemma occ_pos p : (0 < p)%Q -> 1 <= max_no_variants c -> (1 <= var_occ c p)%Z.
  Proof.
    intros H M. unfold var_occ. destruct (Z_lt_le_dec 0 (Qceiling (p * inject_Z (Z.of_nat (max_no_variants c))))) as [G|G]; [lia|]. exfalso.
    pose proof (Qle_ceiling (p * inject_Z (Z.of_nat (max_no_variants c)))) as Q1. assert (Q2 : (inject_Z (Qceiling (p * inject_Z (Z.of_nat (max_no_variants c)))) <= inject_Z 0)%Q) by (rewrite <- Zle_Qle; exact G).
    assert (Q3 : (0 < p * inject_Z (Z.of_nat (max_no_variants c)))%Q). { apply Qmult_lt_0_compat; auto. change 0%Q with (inject_Z 0). rewrite <- Zlt_Qlt. lia. }
    change (inject_Z 0) with 0%Q in Q2. lra.
  Qed.
  (** ** what the simulated traces cover *)
  Definition hs (f : list partial) := map (fun x => hd 0 (fst x)) f.
  Definition ls (f : list partial) := map (fun x => last (fst x) 0) f.
  Definition ps (f : list partial) := flat_map (fun x => pairs (fst x)) f.
  Definition cov (f : list partial) (t : list nat) : Prop := In (hd 0 t) (hs f) /\ In (last t 0) (ls f) /\ incl (pairs t) (ps f).
  Definition okT (t : list nat) : Prop := In (hd 0 t) (map fst sa) /\ In (last t 0) (map fst ea) /\ incl (pairs t) (map fst dfg).
  Lemma cov_app f k t : cov f t -> cov (f ++ k) t.
  Proof.
    unfold cov, hs, ls, ps. rewrite !map_app, flat_map_app. intros (H1 & H2 & H3). split; [|split]; [apply in_app_iff; auto..|]. intros x Hx. apply in_app_iff. auto.
  Qed.
  Lemma cov_self f x : cov (f ++ [x]) (fst x).
  Proof.
    unfold cov, hs, ls, ps. rewrite !map_app, flat_map_app. cbn. rewrite app_nil_r. split; [|split]; [apply in_app_iff; right; left; auto..|]. intros y Hy. apply in_app_iff. auto.
  Qed.
  Hypothesis HM : 1 <= max_no_variants c.
  Hypothesis HO : (min_variant_occ c <= 1)%Z.
  Lemma select_covers ys : (forall x, In x ys -> (0 < snd x)%Q) -> forall ssa sea sdfg final overall brk mo f,
    select c dfg sa ea ys ssa sea sdfg final overall brk mo = (f, false) ->
    incl ssa (hs final) -> incl sea (ls final) -> incl sdfg (ps final) -> (brk = true -> forall t, okT t -> cov final t) ->
    forall x, In x ys -> okT (fst x) -> cov f (fst x).
  Proof.
    induction ys as [|[tr p] ys IH]; intros HP ssa sea sdfg final overall brk mo f H I1 I2 I3 I4 x Hx Ox; [destruct Hx|]. pose proof H as H0. cbn [select] in H.
    destruct (interrupt_when_complete c && brk) eqn:B; [injection H as <-; apply andb_true_iff in B as [_ B]; auto|].
    destruct (max_no_variants c <=? length final); [discriminate|]. destruct (negb (Qle_bool overall (min_weighted_probability c))); [discriminate|].
    destruct (add_if_new c && negb _) eqn:A in H.
    - apply andb_true_iff in A as [_ A]. apply negb_true_iff, orb_false_iff in A as [A A3]. apply orb_false_iff in A as [A1 A2]. apply negb_false_iff, mem_in in A1. apply negb_false_iff, mem_in in A2.
      destruct Hx as [<- |Hx]; [|eapply IH; eauto; intros; apply HP; right; auto]. destruct (select_sub _ _ _ _ _ _ _ _ _ _ H) as (k & _ & ->). apply cov_app. cbn [fst]. split; [|split]; auto.
      intros y Hy. apply I3. destruct (pmem y sdfg) eqn:Py; [now apply pmem_in|]. assert (Z : existsb (fun x => negb (pmem x sdfg)) (pairs tr) = true) by (apply existsb_exists; exists y; rewrite Py; auto). congruence.
    - assert (P1 : (1 <= var_occ c p)%Z) by (apply occ_pos; auto; apply (HP (tr, p)); left; auto). replace (var_occ c p <? min_variant_occ c)%Z with false in H by (symmetry; apply Z.ltb_ge; lia). cbn [andb] in H.
      assert (J1 : incl (hd 0 tr :: ssa) (hs (final ++ [(tr, p)]))) by (unfold hs; rewrite map_app; cbn; intros y [<- |Hy]; apply in_app_iff; [right; left; auto|left; apply I1; auto]).
      assert (J2 : incl (last tr 0 :: sea) (ls (final ++ [(tr, p)]))) by (unfold ls; rewrite map_app; cbn [map fst]; intros y [<- |Hy]; apply in_app_iff; [right; left; auto|left; apply I2; auto]).
      assert (J3 : incl (pairs tr ++ sdfg) (ps (final ++ [(tr, p)]))) by (unfold ps; rewrite flat_map_app; cbn; rewrite app_nil_r; intros y Hy; apply in_app_iff in Hy; apply in_app_iff; destruct Hy; [right; auto|left; apply I3; auto]).
      set (b' := forallb _ sa && forallb _ ea && forallb _ dfg) in H.
      assert (J4 : b' = true -> forall t, okT t -> cov (final ++ [(tr, p)]) t).
      { unfold b'. intros Q. apply andb_true_iff in Q as [Q Q3]. apply andb_true_iff in Q as [Q1 Q2]. rewrite forallb_forall in Q1, Q2, Q3. intros t (O1 & O2 & O3). split; [|split].
        - apply J1. apply in_map_iff in O1 as (e & E & O1). rewrite <- E. apply mem_in. auto.
        - apply J2. apply in_map_iff in O2 as (e & E & O2). rewrite <- E. apply mem_in. auto.
        - intros y Hy. apply J3. apply O3, in_map_iff in Hy as (e & E & Hy). rewrite <- E. apply pmem_in. auto. }
      destruct (interrupt_when_complete c && b') eqn:B'.
      + injection H as <-. apply andb_true_iff in B' as [_ B']. auto.
      + destruct Hx as [<- |Hx]; [|eapply IH; eauto; intros; apply HP; right; auto]. destruct (select_sub _ _ _ _ _ _ _ _ _ _ H) as (k & _ & ->). apply cov_app, cov_self.
  Qed.
  (** ** nothing is left out *)
  Hypothesis H1 : interrupt_when_complete c = false.
  Hypothesis H2 : add_if_new c = false.
  Lemma select_all ys : (forall x, In x ys -> (0 < snd x)%Q) -> forall ssa sea sdfg final overall brk mo,
    length final + length ys <= max_no_variants c -> (overall + sum_of snd ys <= min_weighted_probability c)%Q -> select c dfg sa ea ys ssa sea sdfg final overall brk mo = (final ++ ys, false).
  Proof.
    induction ys as [|[tr p] ys IH]; intros HP ssa sea sdfg final overall brk mo L Q; cbn [select]; [rewrite app_nil_r; auto|]. rewrite H1, H2. cbn [andb].
    assert (S : forall l : list partial, (forall x, In x l -> (0 < snd x)%Q) -> (0 <= sum_of snd l)%Q). { clear. induction l as [|x l IH]; intros H; [cbn; lra|]. cbn. change (fold_right _ 0%Q l) with (sum_of snd l). specialize (IH ltac:(intros; apply H; right; auto)). specialize (H x (or_introl eq_refl)). lra. }
    pose proof (HP (tr, p) (or_introl eq_refl)) as P0. cbn [snd] in P0. cbn in Q. change (fold_right _ 0%Q ys) with (sum_of snd ys) in Q. specialize (S ys ltac:(intros; apply HP; right; auto)). cbn [length] in L.
    replace (max_no_variants c <=? length final) with false by (symmetry; apply Nat.leb_gt; lia). replace (Qle_bool overall (min_weighted_probability c)) with true by (symmetry; apply Qle_bool_iff; lra). cbn [negb].
    pose proof (occ_pos p P0 HM) as P1. replace (var_occ c p <? min_variant_occ c)%Z with false by (symmetry; apply Z.ltb_ge; lia). cbn [andb].
    rewrite IH; [rewrite <- app_assoc; reflexivity|intros; apply HP; right; auto|rewrite app_length; cbn; lia|lra].
  Qed.
End S.
