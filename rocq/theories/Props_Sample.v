(** C110: samples, splits, prefixes and artificial events. *)
From Coq Require Import List Arith ZArith Bool Permutation Sorting.Sorted Lia.
From Verif Require Import Model_Sample Spec_Sample Proofs_Sample.
Import ListNotations.

(** ** samples *)
(** [m] different positions of a list with at least [m] elements, in their order *)
Theorem C110_points {X} (m : nat) (l : list X) : 0 < m <= length l -> length (pick_chosen_points_list m l) = m /\
  exists f, (forall i j, i < j < m -> f i < f j) /\ forall i, i < m -> nth_error (pick_chosen_points_list m l) i = nth_error l (f i) /\ f i < length l.
Proof. apply picked. Qed.
Print Assumptions C110_points.
(** evenly spread: the distance between neighbours is the quotient or one more *)
Theorem C110_spread (m n i p q : nat) : 0 < m -> nth_error (pick_chosen_points m n) i = Some p -> nth_error (pick_chosen_points m n) (S i) = Some q -> p + n / m <= q <= p + n / m + 1.
Proof.
  intros M Hp Hq. unfold pick_chosen_points in *. rewrite nth_error_map in Hp, Hq. destruct (nth_error (seq 0 m) i) as [a|] eqn:E; [|discriminate]. destruct (nth_error (seq 0 m) (S i)) as [b|] eqn:F; [|discriminate].
  assert (Ha : i < m) by (rewrite <- (seq_length m 0); apply nth_error_Some; congruence). assert (Hb : S i < m) by (rewrite <- (seq_length m 0); apply nth_error_Some; congruence).
  rewrite (nth_error_nth' _ 0), seq_nth in E by (rewrite ?seq_length; lia). rewrite (nth_error_nth' _ 0), seq_nth in F by (rewrite ?seq_length; lia). injection E as <-. injection F as <-. cbn [option_map] in Hp, Hq. injection Hp as <-. injection Hq as <-. rewrite ?Nat.add_0_l. change (0 + i) with i. change (0 + S i) with (S i).
  change (i * n / m + n / (2 * m) + n / m <= S i * n / m + n / (2 * m) <= i * n / m + n / (2 * m) + n / m + 1). generalize (n / (2 * m)) as w. intros w.
  pose proof (Nat.div_mod (i * n) m ltac:(lia)) as D1. pose proof (Nat.mod_upper_bound (i * n) m ltac:(lia)). pose proof (Nat.div_mod (S i * n) m ltac:(lia)) as D2. pose proof (Nat.mod_upper_bound (S i * n) m ltac:(lia)). pose proof (Nat.div_mod n m ltac:(lia)) as D3. pose proof (Nat.mod_upper_bound n m ltac:(lia)).
  set (x := i * n / m) in *. set (y := S i * n / m) in *. set (z := n / m) in *. assert (Q : S i * n = i * n + n) by lia. set (u := i * n) in *. set (v := S i * n) in *. clearbody u v x y z.
  assert (x + z <= y) by (destruct (le_gt_dec (x + z) y) as [?|G]; [auto|]; exfalso; assert (K : m * (y + 1) <= m * (x + z)) by (apply Nat.mul_le_mono_l; lia); rewrite !Nat.mul_add_distr_l in K; lia).
  assert (y <= x + z + 1) by (destruct (le_gt_dec y (x + z + 1)) as [?|G]; [auto|]; exfalso; assert (K : m * (x + z + 2) <= m * y) by (apply Nat.mul_le_mono_l; lia); rewrite !Nat.mul_add_distr_l in K; lia).
  lia.
Qed.
Print Assumptions C110_spread.

(** whole cases, as many as wanted if there are enough, the rows in their order *)
Theorem C110_sample {A} (k : nat) (shuffled : list nat) (df : list (row A)) : Permutation shuffled (case_ids df) -> exists cs,
  NoDup cs /\ incl cs (map case df) /\ length cs = Nat.min k (length (case_ids df)) /\ sample_dataframe k shuffled df = filter (fun r => existsb (Nat.eqb (case r)) cs) df.
Proof.
  intros P. set (cs := pick_chosen_points_list (Nat.min k (length shuffled)) shuffled). exists cs. assert (N : NoDup shuffled) by (eapply Permutation_NoDup; [symmetry; exact P|apply unique_NoDup]).
  assert (L : length shuffled = length (case_ids df)) by (apply Permutation_length; auto). destruct (Nat.eq_dec (Nat.min k (length shuffled)) 0) as [Z|Z].
  - unfold cs. rewrite <- L, Z. split; [constructor|]. split; [intros x []|]. split; [reflexivity|]. unfold sample_dataframe. rewrite Z. reflexivity.
  - destruct (picked (Nat.min k (length shuffled)) shuffled ltac:(lia)) as (L1 & f & F1 & F2). fold cs in L1, F2. split; [|split; [|split; [rewrite L1, L; auto|reflexivity]]].
    + apply NoDup_nth_error. intros i j Hi E. rewrite L1 in Hi. assert (Hj : j < length cs) by (apply nth_error_Some; rewrite <- E; apply nth_error_Some; lia). rewrite L1 in Hj.
      destruct (F2 i Hi) as [A1 A2], (F2 j Hj) as [B1 B2]. rewrite A1, B1 in E. rewrite NoDup_nth_error in N. apply N in E; auto. destruct (lt_eq_lt_dec i j) as [[Q|Q]|Q]; auto; exfalso; [pose proof (F1 i j)|pose proof (F1 j i)]; lia.
    + intros c Hc. apply In_nth_error in Hc as (i & Hi). assert (Li : i < length cs) by (apply nth_error_Some; congruence). rewrite L1 in Li. destruct (F2 i Li) as [A1 _]. assert (In c shuffled) by (eapply nth_error_In; rewrite <- A1; eauto). rewrite P in H. apply unique_in in H. tauto.
Qed.
Print Assumptions C110_sample.

(** ** splits *)
(** every trace in exactly one part; the training log has the integer part of the share and one more trace *)
Theorem C110_split {X} (num den : nat) (log shuffled train test : list X) : Permutation shuffled log -> split num den shuffled = (train, test) ->
  Permutation (train ++ test) log /\ length train = Nat.min (length log) (length log * num / den + 1).
Proof.
  intros P E. unfold split in E. injection E as <- <-. rewrite firstn_skipn, firstn_length, (Permutation_length P), Nat.min_comm. auto.
Qed.
Print Assumptions C110_split.
(** for dataframes: whole cases, every row in exactly one part, in the order of the dataframe; exactly the cases whose draw succeeds are in the training part *)
Theorem C110_split_dataframe {A} (draw : nat -> bool) (df train test : list (row A)) : split_train_test draw df = (train, test) ->
  train = filter (fun r => draw (case r)) df /\ test = filter (fun r => negb (draw (case r))) df.
Proof.
  intros E. unfold split_train_test in E. injection E as <- <-. assert (G : forall d : nat -> bool, filter (fun r => isin (filter d (case_ids df)) (case r)) df = filter (fun r => d (case r)) df).
  { intros d. apply filter_ext_in. intros r H. destruct (isin (filter d (case_ids df)) (case r)) eqn:E.
    - apply isin_iff, filter_In in E as [_ E]. auto.
    - destruct (d (case r)) eqn:D; auto. assert (isin (filter d (case_ids df)) (case r) = true); [|congruence]. apply isin_iff, filter_In. split; auto. apply unique_in. split; [apply in_map; auto|auto]. }
  split; [apply G|apply (G (fun c => negb (draw c)))].
Qed.
Print Assumptions C110_split_dataframe.

(** ** prefixes *)
Theorem C110_prefixes {X} (log : list (list X)) (n : nat) : get_prefixes_from_log log n = map (firstn n) log.
Proof. unfold get_prefixes_from_log. apply map_ext. intros t. destruct (Nat.leb_spec (length t) n); [rewrite firstn_all2; auto|apply first_events_firstn]. Qed.
Print Assumptions C110_prefixes.
(** a dataframe: the first rows of every case, and nothing else *)
Theorem C110_prefixes_dataframe {A} (df : list (row A)) (n c : nat) : of_case (get_prefixes_from_df df n) c = firstn n (of_case df c).
Proof. pose proof (cum_group n c df []) as H. cbn [filter length] in H. rewrite Nat.sub_0_r in H. exact H. Qed.
Print Assumptions C110_prefixes_dataframe.

(** ** artificial events *)
Lemma sort_by_time {A} (df : list (row A)) c : by_time (of_case df c) (sort_values (of_case df c)).
Proof.
  assert (W : forall x, In x (of_case df c) -> case x = c) by (intros x H; apply filter_In in H as [_ H]; apply Nat.eqb_eq in H; auto). revert W. generalize (of_case df c). clear df. intros k W. split; [symmetry; apply sort_perm|]. split.
  - pose proof (sort_SS k) as S. assert (W' : forall x, In x (sort_values k) -> case x = c) by (intros x H; apply W; rewrite <- sort_perm; auto). clear W. induction S as [|x l S IH F]; intros i j a b L Hi Hj; [destruct i; discriminate|]. destruct j as [|j]; [lia|]. cbn in Hj. destruct i as [|i]; cbn in Hi.
    + injection Hi as <-. apply nth_error_In in Hj. rewrite Forall_forall in F. specialize (F b Hj). apply le_iff in F. rewrite (W' x), (W' b) in F; [lia|right; auto|left; auto].
    + apply (IH (fun x H => W' x (or_intror H)) i j); auto; lia.
  - intros z. induction k as [|x k IH]; auto. cbn [sort_values fold_right]. fold (sort_values k). cbn [filter]. rewrite <- IH by (intros; apply W; right; auto). assert (W' : forall y, In y (sort_values k) -> case y = c) by (intros y H; apply W; right; rewrite <- sort_perm; auto).
    assert (Wx : case x = c) by (apply W; left; auto). revert W'. generalize (sort_values k). clear - Wx. intros l W. induction l as [|y l IH]; cbn [insert]; auto. destruct (key_le x y) eqn:E; auto. cbn [filter]. rewrite IH by (intros; apply W; right; auto).
    destruct (Z.eqb_spec (ts x) z) as [Q|Q], (Z.eqb_spec (ts y) z) as [R|R]; auto. exfalso. assert (le x y); [|unfold le in *; congruence]. apply le_iff. right. rewrite (W y) by (left; auto). split; [auto|lia].
Qed.
(** every case gets a start and an end; in between are its rows in the order of time; the times are just before the first and just after the last row; no case is added *)
Theorem C110_artificial_dataframe {A} (s e : A) (df : list (row A)) (c : nat) :
  (of_case df c = [] -> of_case (insert_artificial_start_end s e df) c = []) /\
  (of_case df c <> [] -> exists l f z, by_time (of_case df c) l /\ hd_error l = Some f /\ nth_error l (length l - 1) = Some z /\
    of_case (insert_artificial_start_end s e df) c = Row c (ts f - 1) s :: l ++ [Row c (ts z + 1) e]).
Proof.
  change (of_case df c) with (group df c). change (of_case (insert_artificial_start_end s e df) c) with (group (insert_artificial_start_end s e df) c). split.
  - intros E. unfold insert_artificial_start_end. rewrite group_sort, !group_app, group_sort, E. assert (N : isin (unique [] (map case (sort_values df))) c = false).
    { destruct (isin _ c) eqn:I; auto. apply isin_iff, unique_in in I as [I _]. apply in_map_iff in I as (r & Q & I). rewrite sort_perm in I. assert (H : In r (group df c)) by (apply filter_In; split; auto; apply Nat.eqb_eq; auto). rewrite E in H. destruct H. }
    rewrite !group_flat, N; auto; try apply unique_NoDup; intros d x H; destruct (group (sort_values df) d); [destruct H|destruct H as [<-|[]]; auto|destruct H|destruct H as [<-|[]]; auto].
  - intros NE. destruct (sort_values (group df c)) as [|r g] eqn:E; [exfalso; apply NE; apply Permutation_nil; rewrite <- E; apply sort_perm|]. exists (r :: g), r, (last g r). split; [rewrite <- E; apply (sort_by_time df c)|]. split; [reflexivity|]. split; [|apply artificial_group; auto].
    clear. cbn [length]. replace (S (length g) - 1) with (length g) by lia. revert r. induction g as [|y g IH]; intros r; [reflexivity|]. rewrite last_cons. cbn [length nth_error]. apply IH.
Qed.
Print Assumptions C110_artificial_dataframe.
(** the rows of the result are grouped by case, in the order of the case identifiers *)
Theorem C110_artificial_grouped {A} (s e : A) (df : list (row A)) i j a b : i < j -> nth_error (insert_artificial_start_end s e df) i = Some a -> nth_error (insert_artificial_start_end s e df) j = Some b -> case a <= case b.
Proof.
  unfold insert_artificial_start_end. generalize (flat_map (fun c => match group (sort_values df) c with r :: _ => [Row c (ts r - 1) s] | [] => [] end) (unique [] (map case (sort_values df))) ++ sort_values df ++ flat_map (fun c => match group (sort_values df) c with r :: g => [Row c (ts (last g r) + 1) e] | [] => [] end) (unique [] (map case (sort_values df)))). intros k L Hi Hj.
  pose proof (sort_SS k) as S. revert i j L Hi Hj. induction S as [|x l S IH F]; intros i j L Hi Hj; [destruct i; discriminate|]. destruct j as [|j]; [lia|]. cbn in Hj. destruct i as [|i]; cbn in Hi; [|apply (IH i j); auto; lia].
  injection Hi as <-. apply nth_error_In in Hj. rewrite Forall_forall in F. specialize (F b Hj). apply le_iff in F. lia.
Qed.
Print Assumptions C110_artificial_grouped.
(** the same for a trace of an event log, which stays in its order *)
Theorem C110_artificial_trace {A} (s e : A) (t : list (Z * A)) : insert_artificial_trace s e t =
  (option_map (fun r => (fst r - 1)%Z) (nth_error t 0), s) :: map (fun r => (Some (fst r), snd r)) t ++ [(option_map (fun r => (fst r + 1)%Z) (nth_error t (length t - 1)), e)].
Proof.
  unfold insert_artificial_trace. f_equal. do 3 f_equal. destruct t as [|x t] using rev_ind; auto. rewrite rev_app_distr, app_length. cbn [rev app length]. replace (length t + 1 - 1) with (length t) by lia. rewrite nth_error_app2, Nat.sub_diag by lia. auto.
Qed.
Print Assumptions C110_artificial_trace.

(** ** concrete cases *)
Definition ex : list (row nat) := [Row 2 10%Z 1; Row 1 20%Z 2; Row 2 5%Z 3; Row 1 20%Z 4; Row 1 30%Z 5].
Example C110_example : insert_artificial_start_end 100 200 ex =
  [Row 1 19%Z 100; Row 1 20%Z 2; Row 1 20%Z 4; Row 1 30%Z 5; Row 1 31%Z 200; Row 2 4%Z 100; Row 2 5%Z 3; Row 2 10%Z 1; Row 2 11%Z 200] /\
  get_prefixes_from_df ex 2 = [Row 2 10%Z 1; Row 1 20%Z 2; Row 2 5%Z 3; Row 1 20%Z 4] /\ Permutation [1; 2] (case_ids ex) /\ sample_dataframe 1 [1; 2] ex = [Row 2 10%Z 1; Row 2 5%Z 3] /\ pick_chosen_points 4 10 = [1; 3; 6; 8].
Proof. split; [vm_compute; reflexivity|]. split; [vm_compute; reflexivity|]. split; [apply perm_swap|]. split; vm_compute; reflexivity. Qed.
(** ** findings *)
(** 80 per cent of five traces: nothing is left for the test log *)
Theorem C110_split_refuted : exists log : list nat, length log = 5 /\ snd (split 8 10 log) = [] /\ fst (split 0 10 log) <> [].
Proof. exists [1; 2; 3; 4; 5]. split; [reflexivity|]. split; [reflexivity|discriminate]. Qed.
Print Assumptions C110_split_refuted.
