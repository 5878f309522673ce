(** Proofs for C111: transport plans. *)
From Coq Require Import List Arith QArith Lqa Lia Permutation.
From Verif Require Import Spec_Emd.
Import ListNotations.
Open Scope Q_scope.

Lemma total_ext {X} (l : list X) f g : (forall x, In x l -> f x == g x) -> total l f == total l g.
Proof. induction l as [|x l IH]; intros H; cbn; [reflexivity|]. rewrite (H x) by (left; auto). rewrite IH by (intros; apply H; right; auto). reflexivity. Qed.
Lemma total_nonneg {X} (l : list X) f : (forall x, In x l -> 0 <= f x) -> 0 <= total l f.
Proof. induction l as [|x l IH]; intros H; cbn; [lra|]. pose proof (H x (or_introl eq_refl)). specialize (IH (fun y Hy => H y (or_intror Hy))). fold (total l f). lra. Qed.
Lemma total_le {X} (l : list X) f g : (forall x, In x l -> f x <= g x) -> total l f <= total l g.
Proof. induction l as [|x l IH]; intros H; cbn; [lra|]. pose proof (H x (or_introl eq_refl)). specialize (IH (fun y Hy => H y (or_intror Hy))). fold (total l f) (total l g). lra. Qed.
Lemma total_zero {X} (l : list X) f : (forall x, In x l -> f x == 0) -> total l f == 0.
Proof. induction l as [|x l IH]; intros H; cbn; [reflexivity|]. fold (total l f). rewrite (H x) by (left; auto). rewrite IH by (intros; apply H; right; auto). reflexivity. Qed.
Lemma total_zero_inv {X} (l : list X) f : (forall x, In x l -> 0 <= f x) -> total l f == 0 -> forall x, In x l -> f x == 0.
Proof.
  induction l as [|y l IH]; intros H E x I; [destruct I|]. cbn in E. fold (total l f) in E. pose proof (H y (or_introl eq_refl)). pose proof (total_nonneg l f (fun z Hz => H z (or_intror Hz))).
  destruct I as [<-|I]; [lra|]. apply IH; auto; [intros; apply H; right; auto|lra].
Qed.
Lemma total_single {X} (l : list X) f a : NoDup l -> In a l -> (forall x, In x l -> x <> a -> f x == 0) -> total l f == f a.
Proof.
  intros N. induction N as [|x l Hx N IH]; intros I H; [destruct I|]. cbn. fold (total l f). destruct I as [<-|I].
  - rewrite (total_zero l f); [lra|]. intros y Hy. apply H; [right; auto|intros ->; auto].
  - rewrite (H x) by (try (left; reflexivity); intros ->; auto). rewrite IH; auto; [lra|]. intros y Hy. apply H. right; auto.
Qed.
Lemma total_perm {X} (l k : list X) f : Permutation l k -> total l f == total k f.
Proof.
  intros P. induction P as [|x l k P IH|x y l|l k m P IH P' IH'].
  - reflexivity.
  - cbn. fold (total l f) (total k f). rewrite IH. reflexivity.
  - cbn. rewrite !Qplus_assoc, (Qplus_comm (f y) (f x)). reflexivity.
  - rewrite IH. exact IH'.
Qed.
Lemma total_app {X} (l k : list X) f : total (l ++ k) f == total l f + total k f.
Proof. induction l as [|x l IH]; [cbn [app]; cbn; rewrite Qplus_0_l; reflexivity|]. cbn. fold (total (l ++ k) f) (total l f). rewrite IH. apply Qplus_assoc. Qed.
Lemma total_map {X Y} (g : X -> Y) (l : list X) f : total (map g l) f = total l (fun x => f (g x)).
Proof. induction l as [|x l IH]; cbn; auto. fold (total (map g l) f). rewrite IH. auto. Qed.
Lemma total_nth (h : list Q) : forall s, total (seq s (length h)) (fun i => at_ h (i - s)) == total h (fun x => x).
Proof.
  induction h as [|x h IH]; intros s; cbn [length seq]; [reflexivity|]. cbn [total fold_right]. fold (total (seq (S s) (length h)) (fun i => at_ (x :: h) (i - s))) (total h (fun x => x)). rewrite <- (IH (S s)), Nat.sub_diag. cbn [at_ nth].
  rewrite (total_ext (seq (S s) (length h)) (fun i => at_ (x :: h) (i - s)) (fun i => at_ h (i - S s))); [reflexivity|]. intros i Hi. apply in_seq in Hi. replace (i - s)%nat with (S (i - S s)) by lia. reflexivity.
Qed.

Section emd.
Context (h1 h2 : list Q) (d : list (list Q)) (n : nat) (L1 : length h1 = n) (L2 : length h2 = n).
Context (N1 : forall i, 0 <= at_ h1 i) (S1 : total h1 (fun x => x) == 1).
Context (D : forall i j, (i < n)%nat -> (j < n)%nat -> 0 <= cell d i j <= 1 /\ (cell d i j == 0 <-> i = j)).
Lemma in_n i : In i (seq 0 n) <-> (i < n)%nat.
Proof. rewrite in_seq. lia. Qed.
Lemma cost_bounds f : plan h1 h2 f -> 0 <= cost h1 h2 d f <= 1.
Proof.
  intros (P & R & _). unfold cost. rewrite L1, L2 in *. split.
  - apply total_nonneg. intros i Hi. apply total_nonneg. intros j Hj. apply in_n in Hi, Hj. pose proof (P i j). destruct (D i j Hi Hj) as [B _]. nra.
  - rewrite <- S1, <- (total_nth h1 0), L1. apply total_le. intros i Hi. apply in_n in Hi. rewrite Nat.sub_0_r, <- (R i Hi). apply total_le. intros j Hj. apply in_n in Hj. pose proof (P i j). destruct (D i j Hi Hj) as [B _]. nra.
Qed.
Lemma emd_zero v : emd h1 h2 d v -> 0 <= v <= 1 /\ (v == 0 <-> forall i, (i < n)%nat -> at_ h1 i == at_ h2 i).
Proof.
  intros [(f & Pf & Cf) M]. pose proof (cost_bounds f Pf) as B. split; [lra|]. split.
  - intros Z i Hi. destruct Pf as (P & R & C). rewrite L1, L2 in *. assert (F : forall a b, (a < n)%nat -> (b < n)%nat -> a <> b -> f a b == 0).
    { intros a b Ha Hb Nab. assert (Z' : cost h1 h2 d f == 0) by lra. unfold cost in Z'. rewrite L1, L2 in Z'.
      assert (G : forall x y, In x (seq 0 n) -> In y (seq 0 n) -> 0 <= f x y * cell d x y) by (intros x y Hx Hy; apply in_n in Hx, Hy; pose proof (P x y); destruct (D x y Hx Hy) as [B' _]; nra).
      pose proof (total_zero_inv _ _ (fun x Hx => total_nonneg _ _ (fun y Hy => G x y Hx Hy)) Z' a (proj2 (in_n a) Ha)) as Za. cbn beta in Za.
      pose proof (total_zero_inv _ _ (fun y Hy => G a y (proj2 (in_n a) Ha) Hy) Za b (proj2 (in_n b) Hb)) as Zb. cbn beta in Zb. apply Qmult_integral in Zb as [Zb|Zb]; auto. apply (D a b Ha Hb) in Zb. congruence. }
    rewrite <- (R i Hi), <- (C i Hi). rewrite (total_single (seq 0 n) (f i) i); [|apply seq_NoDup|apply in_n; auto|intros j Hj Nj; apply in_n in Hj; apply F; auto].
    rewrite (total_single (seq 0 n) (fun j => f j i) i); [reflexivity|apply seq_NoDup|apply in_n; auto|intros j Hj Nj; apply in_n in Hj; apply F; auto].
  - intros E. set (g := fun i j => if Nat.eq_dec i j then at_ h1 i else 0). assert (Pg : plan h1 h2 g).
    { split; [intros i j; unfold g; destruct (Nat.eq_dec i j); [apply N1|lra]|]. rewrite L1, L2. split.
      - intros i Hi. rewrite (total_single (seq 0 n) (g i) i); [unfold g; destruct (Nat.eq_dec i i); [reflexivity|congruence]|apply seq_NoDup|apply in_n; auto|intros j _ Nj; unfold g; destruct (Nat.eq_dec i j); [congruence|reflexivity]].
      - intros j Hj. rewrite (total_single (seq 0 n) (fun i => g i j) j); [unfold g; destruct (Nat.eq_dec j j); [apply E; auto|congruence]|apply seq_NoDup|apply in_n; auto|intros i _ Ni; unfold g; destruct (Nat.eq_dec i j); [congruence|reflexivity]]. }
    assert (Z : cost h1 h2 d g == 0). { unfold cost. rewrite L1, L2. apply total_zero. intros i Hi. apply total_zero. intros j Hj. apply in_n in Hi, Hj. unfold g. destruct (Nat.eq_dec i j) as [->|]; [|lra]. destruct (D j j Hi Hi) as [_ B']. rewrite (proj2 B' eq_refl). lra. }
    specialize (M g Pg). lra.
Qed.
End emd.
