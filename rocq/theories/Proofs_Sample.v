(** Proofs for C110. *)
From Coq Require Import List Arith ZArith Bool Permutation Sorting.Sorted Lia.
From Verif Require Import Model_Sample.
Import ListNotations.

Lemma point_lt m n i : 0 < m <= n -> i < m -> i * n / m + n / (2 * m) < n.
Proof.
  intros M I. pose proof (Nat.mul_div_le (i * n) m ltac:(lia)) as H1. pose proof (Nat.mul_div_le n (2 * m) ltac:(lia)) as H2. pose proof (Nat.mul_le_mono_r i (m - 1) n ltac:(lia)) as H3.
  set (a := i * n / m) in *. set (b := n / (2 * m)) in *. assert (m * (a + b) < m * n); [|nia]. assert ((m - 1) * n = m * n - n) by (rewrite Nat.mul_sub_distr_r; lia). assert (n <= m * n) by nia. lia.
Qed.
Lemma point_step m n i j : 0 < m <= n -> i < j -> i * n / m + n / (2 * m) < j * n / m + n / (2 * m).
Proof.
  intros M L. assert (i * n / m < j * n / m); [|lia]. apply Nat.lt_le_trans with (S i * n / m); [|apply Nat.div_le_mono; [lia|apply Nat.mul_le_mono_r; lia]].
  cbn [Nat.mul]. replace (n + i * n) with (i * n + (n - m) + 1 * m) by lia. rewrite Nat.div_add by lia. pose proof (Nat.div_le_mono (i * n) (i * n + (n - m)) m ltac:(lia) ltac:(lia)). lia.
Qed.
Lemma picked {X} m (l : list X) : 0 < m <= length l -> length (pick_chosen_points_list m l) = m /\ exists f, (forall i j, i < j < m -> f i < f j) /\ (forall i, i < m -> nth_error (pick_chosen_points_list m l) i = nth_error l (f i) /\ f i < length l).
Proof.
  intros M. set (f := fun i => i * length l / m + length l / (2 * m)). assert (FL : forall i, i < m -> f i < length l) by (intros; apply point_lt; auto).
  assert (G : forall k s, s + k <= m -> let r := flat_map (fun i => match nth_error l i with Some x => [x] | None => [] end) (map f (seq s k)) in length r = k /\ forall i, i < k -> nth_error r i = nth_error l (f (s + i))).
  { induction k as [|k IH]; intros s L; cbn; [split; [auto|intros; lia]|]. destruct (nth_error l (f s)) as [x|] eqn:E; [|exfalso; apply nth_error_None in E; specialize (FL s ltac:(lia)); lia]. cbn. destruct (IH (S s) ltac:(lia)) as [I1 I2]. split; [rewrite I1; auto|].
    intros [|i] Li; cbn; [rewrite Nat.add_0_r; auto|]. rewrite I2 by lia. do 2 f_equal. lia. }
  destruct (G m 0 ltac:(lia)) as [G1 G2]. split; [exact G1|]. exists f. split; [intros i j H; apply point_step; auto; lia|]. intros i Hi. split; [apply (G2 i Hi)|auto].
Qed.

Section p.
Context {A : Type}.
Implicit Types (df l : list (row A)).
Lemma isin_iff (l : list nat) c : isin l c = true <-> In c l.
Proof. unfold isin. rewrite existsb_exists. split; [intros (x & H & E); apply Nat.eqb_eq in E; congruence|intros H; exists c; split; auto; apply Nat.eqb_refl]. Qed.
Lemma unique_in (l : list nat) : forall seen a, In a (unique seen l) <-> In a l /\ ~ In a seen.
Proof.
  induction l as [|b l IH]; intros seen a; cbn; [tauto|]. destruct (isin seen b) eqn:E.
  - apply isin_iff in E. rewrite IH. intuition (subst; tauto).
  - assert (N : ~ In b seen) by (rewrite <- isin_iff; congruence). cbn. rewrite IH. cbn. destruct (Nat.eq_dec a b) as [->|]; intuition congruence.
Qed.
Lemma unique_NoDup (l : list nat) : forall seen, NoDup (unique seen l).
Proof. induction l as [|b l IH]; intros seen; cbn; [constructor|]. destruct (isin seen b); auto. constructor; auto. rewrite unique_in. cbn. tauto. Qed.

(** ** sorting *)
Definition le (a b : row A) : Prop := key_le a b = true.
Lemma le_iff a b : le a b <-> case a < case b \/ case a = case b /\ (ts a <= ts b)%Z.
Proof. unfold le, key_le. rewrite orb_true_iff, andb_true_iff, Nat.ltb_lt, Nat.eqb_eq, Z.leb_le. tauto. Qed.
Lemma insert_perm x l : Permutation (insert x l) (x :: l).
Proof. induction l as [|y l IH]; cbn; auto. destruct (key_le x y); auto. rewrite IH. apply perm_swap. Qed.
Lemma sort_perm l : Permutation (sort_values l) l.
Proof. induction l as [|y l IH]; cbn; auto. rewrite insert_perm. auto. Qed.
Lemma insert_SS x l : StronglySorted le l -> StronglySorted le (insert x l).
Proof.
  intros S. induction S as [|y s S IHs F]; cbn; [constructor; constructor|]. destruct (key_le x y) eqn:E.
  - constructor; [constructor; auto|]. constructor; auto. eapply Forall_impl; [|exact F]. intros z Hz. apply le_iff in E. apply le_iff in Hz. apply le_iff. lia.
  - assert (le y x). { apply le_iff. destruct (lt_eq_lt_dec (case y) (case x)) as [[L|L]|L]; auto; [|exfalso; assert (le x y) by (apply le_iff; auto); unfold le in *; congruence]. right. split; auto. destruct (Z.le_gt_cases (ts y) (ts x)); auto. exfalso. assert (le x y) by (apply le_iff; right; split; [auto|lia]). unfold le in *; congruence. }
    constructor; auto. rewrite Forall_forall in F |- *. intros z Hz. rewrite insert_perm in Hz. destruct Hz as [<-|Hz]; auto.
Qed.
Lemma sort_SS l : StronglySorted le (sort_values l).
Proof. induction l; cbn; [constructor|apply insert_SS; auto]. Qed.
Lemma insert_first x l : Forall (le x) l -> insert x l = x :: l.
Proof. intros F. destruct F as [|y l H F]; cbn; auto. unfold le in H. rewrite H. auto. Qed.
Lemma group_insert x l c : StronglySorted le l -> group (insert x l) c = if case x =? c then insert x (group l c) else group l c.
Proof.
  unfold group. intros S. induction S as [|y l S IH F]; cbn [insert filter]; [destruct (case x =? c); auto|]. destruct (key_le x y) eqn:E.
  - cbn [filter]. destruct (case x =? c) eqn:X; auto. destruct (case y =? c) eqn:Y; [cbn; rewrite E; auto|]. symmetry. apply insert_first. apply Forall_forall. intros z Hz. apply filter_In in Hz as [Hz _]. rewrite Forall_forall in F. specialize (F z Hz). apply le_iff in F. apply le_iff in E. apply le_iff. lia.
  - cbn [filter]. rewrite IH. destruct (case y =? c) eqn:Y, (case x =? c) eqn:X; auto. cbn. rewrite E. auto.
Qed.
Lemma group_sort l c : group (sort_values l) c = sort_values (group l c).
Proof.
  induction l as [|x l IH]; cbn [sort_values fold_right]; auto. fold (sort_values l). rewrite group_insert by apply sort_SS. rewrite IH. change (group (x :: l) c) with (if case x =? c then x :: group l c else group l c). destruct (case x =? c); auto.
Qed.
Lemma sort_id l : StronglySorted le l -> sort_values l = l.
Proof. intros S. induction S as [|x l S IH F]; cbn; auto. fold (sort_values l). rewrite IH. apply insert_first. auto. Qed.
Lemma group_app l k c : group (l ++ k) c = group l c ++ group k c.
Proof. apply filter_app. Qed.
Lemma group_none l c : (forall r, In r l -> case r <> c) -> group l c = [].
Proof. unfold group. induction l as [|x l IH]; intros H; cbn; auto. destruct (Nat.eqb_spec (case x) c); [exfalso; apply (H x); auto; left; auto|]. apply IH. intros; apply H; right; auto. Qed.
Lemma group_flat (f : nat -> list (row A)) cs c : NoDup cs -> (forall d r, In r (f d) -> case r = d) -> group (flat_map f cs) c = if isin cs c then f c else [].
Proof.
  intros N W. induction N as [|d cs H N IH]; cbn [flat_map]; [reflexivity|]. rewrite group_app, IH. cbn [isin existsb]. fold (isin cs c). destruct (Nat.eqb_spec c d) as [->|Q].
  - replace (isin cs d) with false by (destruct (isin cs d) eqn:E; auto; apply isin_iff in E; tauto). rewrite app_nil_r. cbn. unfold group. assert (G : forall l, (forall r, In r l -> case r = d) -> filter (fun r => case r =? d) l = l); [|apply G; apply W].
    induction l as [|x l IHl]; intros Hl; cbn; auto. rewrite (Hl x) by (left; auto). rewrite Nat.eqb_refl. f_equal. apply IHl. intros; apply Hl; right; auto.
  - cbn. rewrite group_none; auto. intros r Hr E. apply W in Hr. congruence.
Qed.
Lemma last_cons (g : list (row A)) : forall x y, last (y :: g) x = last g y.
Proof. induction g as [|z g IH]; intros x y; auto. change (last (z :: g) x = last (z :: g) y). rewrite !IH. auto. Qed.
Lemma last_in (x : row A) g : In (last g x) (x :: g).
Proof. revert x. induction g as [|y g IH]; intros x; [left; auto|]. rewrite last_cons. right. apply IH. Qed.
Lemma last_max (x : row A) g : StronglySorted le (x :: g) -> forall r, In r (x :: g) -> le r (last g x).
Proof.
  revert x. induction g as [|y g IH]; intros x S r H.
  - destruct H as [<-|[]]. apply le_iff. cbn. lia.
  - inversion S as [|? ? S' F]; subst. pose proof (last_cons g x y) as E.
    rewrite E. destruct H as [<-|H]; [|apply IH; auto]. rewrite Forall_forall in F. apply F. apply last_in.
Qed.
Lemma artificial_group (s e : A) df c r g : sort_values (group df c) = r :: g ->
  group (insert_artificial_start_end s e df) c = Row c (ts r - 1) s :: (r :: g) ++ [Row c (ts (last g r) + 1) e].
Proof.
  intros E. unfold insert_artificial_start_end. rewrite group_sort, !group_app. set (cs := unique [] (map case (sort_values df))).
  assert (C : isin cs c = true). { apply isin_iff, unique_in. split; [|auto]. apply in_map_iff. exists r. assert (H : In r (group df c)) by (rewrite <- sort_perm, E; left; auto). apply filter_In in H as [H1 H2]. apply Nat.eqb_eq in H2. split; auto. rewrite sort_perm. auto. }
  assert (N : NoDup cs) by apply unique_NoDup. pose proof (group_sort df c) as G. rewrite E in G.
  rewrite (group_flat _ cs c N), (group_flat _ cs c N), C, G.
  2, 3: intros d x H; destruct (group (sort_values df) d); [destruct H|destruct H as [<-|[]]; auto].
  cbn [app]. pose proof (sort_SS (group df c)) as S. rewrite E in S. assert (W : forall x, In x (r :: g) -> case x = c). { intros x H. rewrite <- E, sort_perm in H. apply filter_In in H as [_ H]. apply Nat.eqb_eq in H. auto. }
  change (r :: g ++ [Row c (ts (last g r) + 1) e]) with ((r :: g) ++ [Row c (ts (last g r) + 1) e]). apply sort_id. constructor.
  - assert (K : forall l b, StronglySorted le l -> (forall x, In x l -> le x b) -> StronglySorted le (l ++ [b])). { clear. intros l b S. induction S as [|x l S IH F]; intros H; cbn; constructor; [constructor|constructor|apply IH; intros; apply H; right; auto|]. apply Forall_app. split; auto. constructor; auto. apply H. left. auto. }
    apply K; auto. intros x Hx. pose proof (last_max r g S x Hx) as M. apply le_iff in M. apply le_iff. cbn. rewrite (W x Hx), (W _ (last_in r g)) in *. lia.
  - apply Forall_forall. intros x Hx. apply le_iff. cbn. apply in_app_or in Hx as [Hx|[<-|[]]].
    + right. rewrite (W x Hx). split; auto. destruct Hx as [<-|Hx]; [lia|]. inversion S as [|? ? S' F]; subst. rewrite Forall_forall in F. specialize (F x Hx). apply le_iff in F. rewrite (W x), (W r) in F; [lia|left; auto|right; auto].
    + right. cbn. split; auto. pose proof (last_max r g S r (or_introl eq_refl)) as M. apply le_iff in M. rewrite (W _ (last_in r g)), (W r) in M; [lia|left; auto].
Qed.

(** ** prefixes *)
Lemma first_events_firstn {X} n (t : list X) : first_events n t = firstn n t.
Proof. revert t. induction n as [|n IH]; intros [|x t]; cbn; auto. rewrite IH. auto. Qed.
Definition keep (n : nat) (p : row A * nat) : bool := Z.leb (Z.of_nat (snd p)) (Z.of_nat n - 1).
Lemma cum_group n c df : forall seen, group (map fst (filter (keep n) (cumcount seen df))) c = firstn (n - length (filter (Nat.eqb c) seen)) (group df c).
Proof.
  induction df as [|r df IH]; intros seen; cbn [cumcount filter map]; [unfold group; cbn; rewrite firstn_nil; auto|]. unfold group at 2. cbn [filter]. fold (group df c).
  assert (K : keep n (r, length (filter (Nat.eqb (case r)) seen)) = (length (filter (Nat.eqb (case r)) seen) <? n)).
  { unfold keep. cbn [snd]. destruct (Z.leb_spec (Z.of_nat (length (filter (Nat.eqb (case r)) seen))) (Z.of_nat n - 1)), (Nat.ltb_spec (length (filter (Nat.eqb (case r)) seen)) n); auto; lia. }
  rewrite K. specialize (IH (case r :: seen)). cbn [filter] in IH. destruct (Nat.eqb_spec (case r) c) as [<-|N].
  - rewrite Nat.eqb_refl in IH. cbn [length] in IH. destruct (Nat.ltb_spec (length (filter (Nat.eqb (case r)) seen)) n) as [L|L].
    + cbn [map fst]. unfold group at 1. cbn [filter]. rewrite Nat.eqb_refl. fold (group (map fst (filter (keep n) (cumcount (case r :: seen) df))) (case r)). rewrite IH. replace (n - length (filter (Nat.eqb (case r)) seen)) with (S (n - S (length (filter (Nat.eqb (case r)) seen)))) by lia. auto.
    + rewrite IH. replace (n - S (length (filter (Nat.eqb (case r)) seen))) with 0 by lia. replace (n - length (filter (Nat.eqb (case r)) seen)) with 0 by lia. auto.
  - replace (c =? case r) with false in IH by (symmetry; apply Nat.eqb_neq; auto). destruct (length (filter (Nat.eqb (case r)) seen) <? n); [|exact IH]. cbn [map fst]. unfold group at 1. cbn [filter]. replace (case r =? c) with false by (symmetry; apply Nat.eqb_neq; auto). exact IH.
Qed.
End p.
