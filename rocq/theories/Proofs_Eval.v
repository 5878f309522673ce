(** Proofs for the evaluation measures. *)
From Coq Require Import ZArith QArith Qminmax Reals Lra Lia Lqa List Permutation Morphisms.
From Verif Require Import Model_Petri Spec_Petri Model_Align Model_Dict Proofs_Dict Model_Eval Spec_Eval.
Import ListNotations.

(** ---- alignment based fitness ---- *)
Lemma ev_fold l : forall s,
  let s' := fold_left ev_step l s in
  s_fit s' = (s_fit s + length (filter (fun a => Qeq_bool (al_fitness a) 1) (present l)))%nat /\
  (s_fitness s' == s_fitness s + Qsum (map al_fitness (present l)))%Q /\
  s_bwc s' = (s_bwc s + Zsum (map al_bwc (present l)))%Z /\
  s_cost s' = (s_cost s + Zsum (map al_cost (present l)))%Z.
Proof.
  induction l as [|[a|] l IH]; intros s; cbn [fold_left present flat_map app].
  - cbn. repeat split; try lia. ring.
  - destruct (IH (ev_step s (Some a))) as (A & B & C & D). fold (present l). cbv zeta in *.
    rewrite A, B, C, D. cbn [ev_step s_fit s_fitness s_bwc s_cost filter map Qsum Zsum].
    repeat split; try lia; [|ring]. destruct (Qeq_bool (al_fitness a) 1); cbn [length]; lia.
  - apply IH.
Qed.

Lemma Zsum_perm l l' : Permutation l l' -> Zsum l = Zsum l'.
Proof. induction 1; cbn; lia. Qed.
Lemma Qsum_perm l l' : Permutation l l' -> (Qsum l == Qsum l')%Q.
Proof. induction 1; cbn; try (rewrite ?IHPermutation; ring). rewrite IHPermutation1. exact IHPermutation2. Qed.
Lemma Qsum_range l : (forall x, In x l -> 0 <= x <= 1)%Q -> (0 <= Qsum l <= inject_Z (Z.of_nat (length l)))%Q.
Proof.
  induction l as [|x l IH]; intros H; [split; apply Qle_refl|].
  destruct (H x (or_introl eq_refl)). destruct IH as [A B]; [intros; apply H; right; assumption|].
  cbn [Qsum length]. rewrite Nat2Z.inj_succ. unfold Z.succ. rewrite inject_Z_plus. change (inject_Z 1) with 1%Q. lra.
Qed.
Lemma Qsum_full l : (forall x, In x l -> 0 <= x <= 1)%Q ->
  ((Qsum l == inject_Z (Z.of_nat (length l)))%Q <-> forall x, In x l -> (x == 1)%Q).
Proof.
  induction l as [|x l IH]; intros H; [cbn; split; [intros _ x []|reflexivity]|].
  assert (Hl : forall y, In y l -> (0 <= y <= 1)%Q) by (intros; apply H; right; assumption).
  destruct (H x (or_introl eq_refl)). destruct (Qsum_range l Hl).
  cbn [Qsum length]. rewrite Nat2Z.inj_succ. unfold Z.succ. rewrite inject_Z_plus. change (inject_Z 1) with 1%Q. split.
  - intros E y [<-|Hy]; [lra|]. apply IH; [assumption| |assumption]. lra.
  - intros E. rewrite (E x (or_introl eq_refl)). assert (Qsum l == inject_Z (Z.of_nat (length l)))%Q by (apply IH; auto; intros; apply E; right; assumption).
    lra.
Qed.
Lemma Zsum_nonneg {A} (f : A -> Z) l : (forall x, In x l -> 0 <= f x)%Z -> (0 <= Zsum (map f l))%Z.
Proof.
  induction l as [|x l IH]; intros H; cbn; [lia|]. pose proof (H x (or_introl eq_refl)).
  assert (0 <= Zsum (map f l))%Z by (apply IH; intros; apply H; right; assumption). lia.
Qed.
Lemma Zsum_le {A} (f g : A -> Z) l : (forall x, In x l -> f x <= g x)%Z -> (Zsum (map f l) <= Zsum (map g l))%Z.
Proof.
  induction l as [|x l IH]; intros H; cbn; [lia|]. pose proof (H x (or_introl eq_refl)).
  assert (Zsum (map f l) <= Zsum (map g l))%Z by (apply IH; intros; apply H; right; assumption). lia.
Qed.
Lemma Zsum_zero {A} (f : A -> Z) l : (forall x, In x l -> 0 <= f x)%Z ->
  (Zsum (map f l) = 0%Z <-> forall x, In x l -> f x = 0%Z).
Proof.
  induction l as [|x l IH]; intros H; cbn; [split; [intros _ x []|reflexivity]|].
  pose proof (H x (or_introl eq_refl)). assert (Hl : forall y, In y l -> (0 <= f y)%Z) by (intros; apply H; right; assumption).
  pose proof (Zsum_nonneg f l Hl). split.
  - intros E y [<-|Hy]; [lia|]. apply IH; [assumption|lia|assumption].
  - intros E. rewrite (E x (or_introl eq_refl)). cbn. apply IH; auto.
Qed.
Lemma filter_le {A} (f : A -> bool) l : (length (filter f l) <= length l)%nat.
Proof. induction l as [|x l IH]; cbn; [lia|]. destruct (f x); cbn; lia. Qed.
Lemma filter_full {A} (f : A -> bool) l : length (filter f l) = length l <-> forall x, In x l -> f x = true.
Proof.
  induction l as [|x l IH]; cbn; [split; [intros _ x []|reflexivity]|].
  pose proof (filter_le f l) as Hle. split.
  - intros E y [<-|Hy]; destruct (f x) eqn:Ex; cbn in E; try lia; auto. apply IH; [lia|assumption].
  - intros E. rewrite (E x (or_introl eq_refl)). cbn. f_equal. apply IH. auto.
Qed.
Lemma Qdiv_one a b : (0 < b)%Q -> ((a / b == 1)%Q <-> (a == b)%Q).
Proof.
  intros Hb. split; intros E.
  - rewrite <- (Qmult_1_l b), <- E. field. lra.
  - rewrite E. field. lra.
Qed.
Lemma Qdiv_range a b : (0 < b)%Q -> (0 <= a <= b)%Q -> (0 <= a / b <= 1)%Q.
Proof.
  intros Hb [H0 H1]. split; [apply Qle_shift_div_l; [assumption|lra]|apply Qle_shift_div_r; [assumption|lra]].
Qed.
Lemma Zpos_Q z : (0 < z)%Z -> (0 < inject_Z z)%Q.
Proof. intros H. change 0%Q with (inject_Z 0). rewrite <- Zlt_Qlt. exact H. Qed.
Lemma Zle_Q a b : (a <= b)%Z -> (inject_Z a <= inject_Z b)%Q.
Proof. intros H. rewrite <- Zle_Qle. exact H. Qed.

Lemma present_perm l l' : Permutation l l' -> Permutation (present l) (present l').
Proof. intros H. unfold present. rewrite !flat_map_concat_map. induction H; cbn; auto.
  - apply Permutation_app_head. assumption.
  - rewrite !app_assoc. apply Permutation_app_tail. apply Permutation_app_comm.
  - etransitivity; eassumption.
Qed.

(** ---- generalization ---- *)
Lemma occ_count k l : occ k l = count_occ Nat.eq_dec l k.
Proof.
  induction l as [|x l IH]; [reflexivity|]. rewrite occ_cons, IH. cbn [count_occ keqb key_nat].
  destruct (Nat.eqb_spec x k), (Nat.eq_dec x k); subst; try contradiction; reflexivity.
Qed.
Lemma occ_map_of acts : occ_map acts = c_of (concat acts).
Proof.
  unfold occ_map, c_of. generalize (@nil (nat * nat)) as d. induction acts as [|tr acts IH]; intros d; [reflexivity|].
  cbn [fold_left concat]. rewrite fold_left_app. apply IH.
Qed.
Lemma fold_Rsum (f : nat -> R) l : forall s, fold_left (fun s t => (s + f t)%R) l s = (s + Rsum (map f l))%R.
Proof. induction l as [|x l IH]; intros s; cbn; [ring|]. rewrite IH. ring. Qed.
Lemma fold_Rsum_if (b : nat -> bool) l : forall s,
  fold_left (fun s t => if b t then s else (s + 1)%R) l s = (s + Rsum (map (fun t => if b t then 0 else 1) l))%R.
Proof. induction l as [|x l IH]; intros s; cbn; [ring|]. destruct (b x); rewrite IH; ring. Qed.
Lemma Rsum_perm l l' : Permutation l l' -> Rsum l = Rsum l'.
Proof. induction 1; cbn; try (rewrite ?IHPermutation; ring). congruence. Qed.
Lemma Rsum_plus {A} (f g : A -> R) l : Rsum (map (fun x => (f x + g x)%R) l) = (Rsum (map f l) + Rsum (map g l))%R.
Proof. induction l; cbn; [ring|]. rewrite IHl. ring. Qed.
Lemma Rsum_le {A} (f g : A -> R) l : (forall x, In x l -> (f x <= g x)%R) -> (Rsum (map f l) <= Rsum (map g l))%R.
Proof.
  induction l as [|x l IH]; intros H; cbn; [Lra.lra|]. pose proof (H x (or_introl eq_refl)).
  assert (Rsum (map f l) <= Rsum (map g l))%R by (apply IH; intros; apply H; right; assumption). Lra.lra.
Qed.
Lemma Rsum_app l l' : Rsum (l ++ l') = (Rsum l + Rsum l')%R.
Proof. induction l; cbn; [ring|]. rewrite IHl. ring. Qed.
Lemma Rsum_const {A} (l : list A) : Rsum (map (fun _ => 1%R) l) = INR (length l).
Proof. induction l; [reflexivity|]. cbn [map Rsum]. rewrite IHl. cbn [length]. rewrite S_INR. ring. Qed.
Lemma Rsum_full {A} (f : A -> R) l : (forall x, In x l -> (f x <= 1)%R) ->
  (Rsum (map f l) = INR (length l) <-> forall x, In x l -> f x = 1%R).
Proof.
  intros H. rewrite <- Rsum_const. induction l as [|x l IH]; cbn; [split; [intros _ x []|reflexivity]|].
  pose proof (H x (or_introl eq_refl)). assert (Hl : forall y, In y l -> (f y <= 1)%R) by (intros; apply H; right; assumption).
  pose proof (Rsum_le f (fun _ => 1%R) l Hl). specialize (IH Hl). split.
  - intros E y [<-|Hy]; [Lra.lra|]. apply IH; [Lra.lra|assumption].
  - intros E. rewrite (E x (or_introl eq_refl)). f_equal. apply IH. auto.
Qed.

Definition term (n : nat) : R := (1 / sqrt (INR (Nat.max 1 n)))%R.
Lemma sqrt_ge1 n : (1 <= n)%nat -> (1 <= sqrt (INR n))%R.
Proof. intros H. rewrite <- sqrt_1 at 1. apply sqrt_le_1_alt. apply (le_INR 1 n H). Qed.
Lemma term_range n : (0 < term n <= 1)%R.
Proof.
  unfold term. assert (1 <= sqrt (INR (Nat.max 1 n)))%R by (apply sqrt_ge1; lia). unfold Rdiv. rewrite Rmult_1_l. split.
  - apply Rinv_0_lt_compat. Lra.lra.
  - assert (E : (/ sqrt (INR (Nat.max 1 n)) <= / 1)%R) by (apply Rinv_le_contravar; Lra.lra). rewrite Rinv_1 in E. exact E.
Qed.
Lemma term_one n : term n = 1%R <-> (n <= 1)%nat.
Proof.
  split.
  - intros E. destruct (Nat.le_gt_cases n 1) as [H|H]; [exact H|exfalso].
    assert (Hs : (1 < sqrt (INR (Nat.max 1 n)))%R). { rewrite <- sqrt_1 at 1. apply sqrt_lt_1_alt. split; [Lra.lra|]. apply (lt_INR 1). lia. }
    unfold term, Rdiv in E. rewrite Rmult_1_l in E. assert (/ sqrt (INR (Nat.max 1 n)) < / 1)%R by (apply Rinv_lt_contravar; Lra.lra). Lra.lra.
  - intros H. unfold term. replace (Nat.max 1 n) with 1%nat by lia. cbn [INR]. rewrite sqrt_1. field.
Qed.
Lemma term_mono n m : (n <= m)%nat -> (term m <= term n)%R.
Proof.
  intros H. unfold term, Rdiv. rewrite !Rmult_1_l. assert (1 <= sqrt (INR (Nat.max 1 n)))%R by (apply sqrt_ge1; lia).
  apply Rinv_le_contravar; [Lra.lra|]. apply sqrt_le_1_alt, le_INR. lia.
Qed.

Lemma generalization_eq ts acts : NoDup ts -> ts <> [] -> (forall t, In t (concat acts) -> In t ts) ->
  generalization ts acts = generalization_spec ts acts.
Proof.
  intros Hn Hne Hin. unfold generalization, generalization_spec. rewrite occ_map_of.
  destruct (Nat.ltb_spec 0 (length ts)) as [_|Hl]; [|destruct ts; [contradiction|cbn in Hl; lia]].
  f_equal. f_equal. rewrite fold_Rsum_if, (fold_Rsum (fun t => 1 / sqrt (INR (c_get (c_of (concat acts)) t)))%R), Rplus_0_l.
  set (L := concat acts) in *. set (m := c_of L).
  assert (E1 : Rsum (map (fun t => (1 / sqrt (INR (c_get m t)))%R) (d_keys m)) =
               Rsum (map (fun t => if d_mem m t then term (occ t L) else 0%R) ts)).
  { assert (P : Permutation (d_keys m) (filter (d_mem m) ts)).
    { apply NoDup_Permutation; [apply c_of_nodup|apply NoDup_filter, Hn|]. intros x. rewrite filter_In, d_mem_in.
      unfold m. rewrite c_of_keys. split; [intros H; split; [apply Hin, H|exact H]|tauto]. }
    rewrite (Rsum_perm _ _ (Permutation_map _ P)).
    assert (Q : forall l, Rsum (map (fun t => if d_mem m t then term (occ t L) else 0%R) l) =
        Rsum (map (fun t => (1 / sqrt (INR (c_get m t)))%R) (filter (d_mem m) l))).
    { induction l as [|x l IH]; [reflexivity|]. cbn [map Rsum filter]. destruct (d_mem m x) eqn:Ex.
      - cbn [map Rsum]. rewrite IH. f_equal. unfold term, m. rewrite c_get_of. apply d_mem_in in Ex. unfold m in Ex.
        rewrite c_of_keys in Ex. apply (proj2 (occ_pos x L)) in Ex. replace (Nat.max 1 (occ x L)) with (occ x L) by lia. reflexivity.
      - rewrite IH. ring. }
    symmetry. apply Q. }
  rewrite E1, <- Rsum_plus. f_equal. apply map_ext. intros t. unfold fired. fold L. rewrite <- occ_count.
  destruct (d_mem m t) eqn:Ex; [unfold term; ring|].
  assert (occ t L = 0%nat) as ->.
  { destruct (occ t L) eqn:Eo; [reflexivity|]. assert (In t (d_keys m)). { unfold m. rewrite c_of_keys. apply occ_pos. lia. }
    apply d_mem_in in H. congruence. }
  cbn [Nat.max INR]. rewrite sqrt_1. field.
Qed.

(** ---- simplicity ---- *)
Lemma ls_cons a b : list_sum (a :: b) = (a + list_sum b)%nat.
Proof. reflexivity. Qed.
Lemma degree_sum {L} (pn : petri_net L) : closed_net pn ->
  list_sum (map (degree_place pn) (n_places pn)) = arc_count pn.
Proof.
  intros [Hn Hc]. unfold degree_place, arc_count.
  assert (forall ts, (forall t a, In t ts -> In a (t_in t ++ t_out t) -> In (fst a) (n_places pn)) ->
    list_sum (map (fun p => length (flat_map (fun t => filter (fun a => Nat.eqb (fst a) p) (t_in t ++ t_out t)) ts)) (n_places pn)) =
    list_sum (map (fun t : transition L => length (t_in t) + length (t_out t))%nat ts)) as H; [|apply H, Hc].
  assert (Z0 : forall l : list nat, list_sum (map (fun _ => 0%nat) l) = 0%nat) by (induction l; auto).
  assert (Hadd : forall (F G : nat -> nat) l, list_sum (map (fun p => (F p + G p)%nat) l) = (list_sum (map F l) + list_sum (map G l))%nat).
  { induction l as [|x l IH]; [reflexivity|]. cbn [map]. rewrite !ls_cons, IH. lia. }
  induction ts as [|t ts IH]; intros H.
  - cbn. apply Z0.
  - rewrite (map_ext _ (fun p => (length (filter (fun a => Nat.eqb (fst a) p) (t_in t ++ t_out t)) +
       length (flat_map (fun t => filter (fun a => Nat.eqb (fst a) p) (t_in t ++ t_out t)) ts))%nat)).
    2: { intros p. cbn [flat_map]. apply app_length. }
    rewrite Hadd, IH by (intros; eapply H; [right|]; eassumption). cbn [map].
    change (list_sum ((length (t_in t) + length (t_out t))%nat :: ?x)) with (length (t_in t) + length (t_out t) + list_sum x)%nat.
    f_equal.
    rewrite <- app_length. specialize (H t). pose proof (fun a => H a (or_introl eq_refl)) as Ha. clear -Ha Hn Z0 Hadd.
    generalize dependent (t_in t ++ t_out t). intros l. induction l as [|a l IH]; intros Ha; [apply Z0|].
    rewrite (map_ext _ (fun p => ((if Nat.eqb (fst a) p then 1 else 0) + length (filter (fun a => Nat.eqb (fst a) p) l))%nat)).
    2: { intros p. cbn [filter]. destruct (Nat.eqb (fst a) p); reflexivity. }
    rewrite Hadd, IH by (intros; apply Ha; right; assumption). cbn [length].
    assert (In (fst a) (n_places pn)) as Hin by (apply Ha; left; reflexivity).
    assert (E : forall l, NoDup l -> In (fst a) l -> list_sum (map (fun p => if Nat.eqb (fst a) p then 1%nat else 0%nat) l) = 1%nat).
    { clear. induction l as [|x l IH]; intros Hn []; inversion Hn as [|? ? Hx Hl]; subst.
      - cbn [map]. rewrite ls_cons, Nat.eqb_refl.
        assert (forall l0, ~ In (fst a) l0 -> list_sum (map (fun p => if Nat.eqb (fst a) p then 1%nat else 0%nat) l0) = 0%nat) as G; [|rewrite (G _ Hx); reflexivity].
        clear. induction l0 as [|y l0 IH]; intros H; [reflexivity|]. cbn. destruct (Nat.eqb_spec (fst a) y); [exfalso; apply H; left; auto|].
        apply IH. intros X. apply H. right. exact X.
      - cbn. destruct (Nat.eqb_spec (fst a) x) as [E|_]; [exfalso; apply Hx; rewrite <- E; assumption|]. cbn. apply IH; assumption. }
    rewrite (E _ Hn Hin). reflexivity.
Qed.
