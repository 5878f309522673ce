(** C49: the filters on dataframes agree with the filters on event logs: filtering the dataframe and converting the result gives the
    log obtained by converting the dataframe and filtering the log ([Some]: without exception). *)
From Coq Require Import List Arith Bool ZArith Lia Permutation.
Import ListNotations.
From Verif Require Import Model_Dict Proofs_Dict Model_Tree Model_Filter Spec_Filter Proofs_Filter Model_FilterDf Spec_FilterDf
  Proofs_FilterDf Proofs_FilterDf2 Proofs_FilterDf3 Proofs_FilterDf4.
Local Open Scope nat_scope.

(** The conversion: the cases are the case identifiers of the rows, each once, with the events of its rows in order. *)
Theorem C49_conversion : forall d, NoDup (map c_attrs (log_of d)) /\ (forall c, In c (log_of d) <-> exists i, (exists r, In r d /\ r_case r = i) /\ c_attrs c = [(0, i)] /\
  exists rs, Selected (fun r => r_case r = i) d rs /\ c_events c = map r_event rs).
Proof.
  intros d. split.
  - rewrite log_map, map_map. pose proof (dedup_nodup (map r_case d)) as N. induction N as [|i l H N IH]; cbn; constructor; auto. rewrite in_map_iff. intros (j & E & I). assert (j = i) by congruence. subst. auto.
  - intros c. rewrite in_log. split.
    + intros (i & I & ->). apply in_map_iff in I. destruct I as (r & E & I). exists i. split; [eauto|]. split; auto. exists (rows_of i d). split; auto. apply selected_filter. intros x _. apply Z.eqb_eq.
    + intros (i & (r & I & E) & A & rs & S & Ev). exists i. split; [apply in_map_iff; eauto|]. destruct c as [ca ce]. cbn in *. unfold case_of, evs. subst ca ce. f_equal. f_equal.
      eapply selected_unique; [exact S|]. apply selected_filter. intros x _. apply Z.eqb_eq.
Qed.
Theorem C49_start_activities : forall positive key values d, complete key d ->
  start_activities positive key values (log_of d) = Some (log_of (start_df positive key values d)).
Proof. apply start_df_ok. Qed.
Theorem C49_end_activities : forall positive key values d, complete key d ->
  end_activities positive key values (log_of d) = Some (log_of (end_df positive key values d)).
Proof. apply end_df_ok. Qed.
Theorem C49_attribute_values : forall positive key values d,
  attribute_values positive key values (log_of d) = Some (log_of (attribute_values_df positive key values d)).
Proof. apply attribute_values_df_ok. Qed.
Theorem C49_numeric : forall key lo hi d, numeric true 0 key [] lo hi (log_of d) = Some (log_of (numeric_df true key lo hi d)).
Proof. apply numeric_pos_ok. Qed.
Theorem C49_eventually_follows : forall positive key ts v w vs d, exists r, eventually_follows_df positive key (v :: w :: vs) d = Some r /\
  eventually_follows positive key ts (v :: w :: vs) None (log_of d) = Some (log_of r).
Proof. apply eventually_df_ok. Qed.
Theorem C49_A_next_B_next_C : forall positive key A B C d, contiguous d -> once key B d -> once key C d ->
  A_next_B_next_C positive key A B C (log_of d) = Some (log_of (A_next_B_next_C_df positive key A B C d)).
Proof. apply abc_df_ok. Qed.
Theorem C49_four_eyes : forall positive key res A B d, complete res d ->
  (forall r s x y, In r d -> In s d -> r_case r = r_case s -> col key r = Some B -> col key s = Some B -> col res r = Some x -> col res s = Some y -> x = y) ->
  four_eyes positive key res A B (log_of d) = Some (log_of (four_eyes_df positive key res A B d)).
Proof.
  intros positive key res A B d C U. apply four_eyes_df_ok; auto. intros i x y P1 P2. apply performs_row in P1, P2. destruct P1 as (n & r & E1 & C1 & V1 & X1), P2 as (m & s & E2 & C2 & V2 & X2).
  apply (U r s); auto; [eapply nth_error_In; eauto|eapply nth_error_In; eauto|congruence].
Qed.
Theorem C49_different_persons : forall positive key res A d, complete res d ->
  different_persons positive key res A (log_of d) = Some (log_of (different_persons_df positive key res A d)).
Proof. apply persons_df_ok. Qed.
Theorem C49_paths : forall positive key ts wanted d, complete key d -> chronological ts d ->
  exists r, paths positive key wanted (log_of d) = Some r /\ Permutation r (log_of (paths_df positive key ts wanted d)).
Proof. apply paths_df_ok. Qed.
Theorem C49_rework : forall positive key a m d, complete key d -> rework positive key a m (log_of d) = Some (log_of (rework_df positive key a m d)).
Proof. apply rework_df_ok. Qed.
Theorem C49_repetitions : forall key v m M d, 1 <= m -> repetitions key v m M (log_of d) = Some (log_of (repetitions_df key v m M d)).
Proof. apply repetitions_df_ok. Qed.
Theorem C49_case_size : forall m M d, case_size m M (log_of d) = Some (log_of (case_size_df m M d)).
Proof. apply case_size_df_ok. Qed.
Theorem C49_case_performance : forall ts lo hi d, complete ts d -> case_performance ts lo hi (log_of d) = Some (log_of (case_performance_df ts lo hi d)).
Proof. apply case_performance_df_ok. Qed.
Theorem C49_traces_contained : forall ts dt1 dt2 d, complete ts d -> traces_contained ts dt1 dt2 (log_of d) = Some (log_of (traces_contained_df ts dt1 dt2 d)).
Proof. apply contained_df_ok. Qed.
Theorem C49_traces_intersecting : forall ts dt1 dt2 d, complete ts d -> (dt1 <= dt2)%Z -> chronological ts d ->
  (forall r, In r d -> col ts r <> Some dt1 /\ col ts r <> Some dt2) ->
  traces_intersecting ts dt1 dt2 (log_of d) = Some (log_of (traces_intersecting_df ts dt1 dt2 d)).
Proof. apply intersecting_df_ok. Qed.
Theorem C49_attribute_in_timeframe : forall key v ts dt1 dt2 d, complete ts d ->
  attribute_in_timeframe key v ts dt1 dt2 (log_of d) = Some (log_of (attribute_in_timeframe_df key v ts dt1 dt2 d)).
Proof. apply timeframe_df_ok. Qed.
Theorem C49_variants : forall positive key admitted d, complete key d -> exists r, variants_filter positive key admitted (log_of d) = Some r /\
  Permutation r (log_of (variants_filter_df positive key admitted d)).
Proof. apply variants_df_ok. Qed.
(** A dataframe cannot represent a case without events. *)
Theorem C49_prefixes : forall key a first strict d, exists r, Selected (fun c => c_events c <> []) (prefixes key a first strict (log_of d)) r /\
  Permutation r (log_of (prefixes_df key a first strict d)).
Proof.
  intros. exists (filter nonempty (prefixes key a first strict (log_of d))). split; [|symmetry; apply prefixes_df_ok].
  apply selected_filter. intros c _. unfold nonempty. destruct (c_events c); split; congruence.
Qed.
Theorem C49_suffixes : forall key a first strict d, exists r, Selected (fun c => c_events c <> []) (suffixes key a first strict (log_of d)) r /\
  Permutation r (log_of (suffixes_df key a first strict d)).
Proof.
  intros. exists (filter nonempty (suffixes key a first strict (log_of d))). split; [|symmetry; apply suffixes_df_ok].
  apply selected_filter. intros c _. unfold nonempty. destruct (c_events c); split; congruence.
Qed.
Theorem C49_between : forall key act1 act2 es, act1 <> act2 -> (forall e, In e es -> exists v, value key e v) ->
  option_map (fun segs => [segs]) (between_df key act1 act2 es) = between key act1 act2 [Case [] es].
Proof. intros key act1 act2 es N H. rewrite between_df_ok by auto. unfold between. cbn. destruct (between_loop _ _ _ _ _ _); reflexivity. Qed.

(** ---- where the two disagree.  Rows: case, activity (attribute 0), timestamp (1), resource (2). *)
Definition rw (c a t r : Z) : row := Row c [(0, a); (1, t); (2, r)].
Local Notation "'rw'' c a t r" := (rw c%Z a%Z t%Z r%Z) (at level 10, c, a, t, r at next level).
(** A B C B: the dataframe filter only looks at the last B and the last C of a case. *)
Theorem C49_A_next_B_next_C_refuted : exists key A B C d r, complete key d /\ contiguous d /\ A_next_B_next_C true key A B C (log_of d) = Some r /\ r <> [] /\
  A_next_B_next_C_df true key A B C d = [].
Proof.
  exists 0, 1%Z, 2%Z, 3%Z, [rw' 1 1 0 0; rw' 1 2 1 0; rw' 1 3 2 0; rw' 1 2 3 0]. eexists. repeat apply conj; [| |reflexivity|discriminate|reflexivity].
  - intros r I. cbn in I. repeat destruct I as [<-|I]; try tauto; eexists; reflexivity.
  - intros i j k r s t L1 L2 E1 E2 E3 E. apply nth_error_In in E1, E2. cbn in E1, E2. repeat destruct E1 as [<-|E1]; try tauto; repeat destruct E2 as [<-|E2]; try tauto; reflexivity.
Qed.
(** A by 7, B by 7, B by 8: the same person executed A and B, but only the last B is compared. *)
Theorem C49_four_eyes_refuted : exists key res A B d, complete key d /\ complete res d /\ four_eyes true key res A B (log_of d) = Some [] /\ four_eyes_df true key res A B d <> [].
Proof.
  exists 0, 2, 1%Z, 2%Z, [rw' 1 1 0 7; rw' 1 2 1 7; rw' 1 2 2 8]. repeat apply conj; [| |reflexivity|discriminate]; intros r I; cbn in I; repeat destruct I as [<-|I]; try tauto; eexists; reflexivity.
Qed.
(** The performance of a path is also measured between the last event of a case and the first event of the next one. *)
Theorem C49_path_performance_refuted : exists key ts a b lo hi d, complete key d /\ complete ts d /\ chronological ts d /\
  path_performance true key ts (a, b) lo hi (log_of d) = Some [] /\ path_performance_df true key ts (a, b) lo hi d <> [].
Proof.
  exists 0, 1, 1%Z, 2%Z, 0%Z, 10%Z, [rw' 1 1 0 0; rw' 2 2 5 0]. repeat apply conj; [| | |reflexivity|discriminate].
  - intros r I; cbn in I; repeat destruct I as [<-|I]; try tauto; eexists; reflexivity.
  - intros r I; cbn in I; repeat destruct I as [<-|I]; try tauto; eexists; reflexivity.
  - intros [|[|i]] [|[|j]] r s x y L E1 E2 C; cbn in E1, E2; try lia; try discriminate; try (destruct i; discriminate); try (destruct j; discriminate). injection E1 as <-. injection E2 as <-. discriminate C.
Qed.
(** The bounds of the interval are excluded in the dataframe filter and included in the log filter. *)
Theorem C49_traces_intersecting_refuted : exists ts dt1 dt2 d r, (dt1 < dt2)%Z /\ complete ts d /\ traces_intersecting ts dt1 dt2 (log_of d) = Some r /\ r <> [] /\ traces_intersecting_df ts dt1 dt2 d = [].
Proof.
  exists 1, 5%Z, 9%Z, [rw' 1 1 5 0; rw' 1 1 9 0]. eexists. repeat apply conj; [lia| |reflexivity|discriminate|reflexivity].
  intros r I; cbn in I; repeat destruct I as [<-|I]; try tauto; eexists; reflexivity.
Qed.
(** With the lower bound 0, the dataframe filter drops the cases without the value. *)
Theorem C49_repetitions_refuted : exists key v M d r, complete key d /\ repetitions key v 0 M (log_of d) = Some r /\ r <> [] /\ repetitions_df key v 0 M d = [].
Proof.
  exists 0, 5%Z, 3, [rw' 1 1 0 0]. eexists. repeat apply conj; [|reflexivity|discriminate|reflexivity].
  intros r I; cbn in I; repeat destruct I as [<-|I]; try tauto; eexists; reflexivity.
Qed.
(** Negative mode of the numeric filter: a case with a value inside and one outside the interval. *)
Theorem C49_numeric_refuted : exists key lo hi d r, complete key d /\ numeric false 0 key [] lo hi (log_of d) = Some r /\ r <> [] /\ numeric_df false key lo hi d = [].
Proof.
  exists 0, 0%Z, 10%Z, [rw' 1 5 0 0; rw' 1 50 0 0]. eexists. repeat apply conj; [|reflexivity|discriminate|reflexivity].
  intros r I; cbn in I; repeat destruct I as [<-|I]; try tauto; eexists; reflexivity.
Qed.
(** Equal activities: the event closing a stretch is moved to the next stretch. *)
Theorem C49_between_refuted : exists key act es segs segs', between_df key act act es = Some segs /\ between key act act [Case [] es] = Some [segs'] /\ segs <> segs'.
Proof. exists 0, [1%Z], (map r_event [rw' 1 1 0 0; rw' 1 1 1 0; rw' 1 1 2 0]). do 2 eexists. repeat apply conj; [reflexivity|reflexivity|discriminate]. Qed.

(** A dataframe satisfying all the hypotheses. *)
Definition ex_df : df := [rw' 2 1 0 7; rw' 2 2 5 8; rw' 2 3 6 7; rw' 1 1 1 9; rw' 1 3 2 9; rw' 1 1 4 9].
Example ex_df_complete : complete 0 ex_df /\ complete 1 ex_df /\ complete 2 ex_df.
Proof. repeat apply conj; intros r I; cbn in I; repeat destruct I as [<-|I]; try tauto; eexists; reflexivity. Qed.
Example ex_df_contiguous : contiguous ex_df.
Proof.
  intros i j k r s t L1 L2 E1 E2 E3 E. unfold ex_df in *.
  do 6 (destruct i as [|i]; [cbn in E1; injection E1 as <-; do 6 (destruct j as [|j]; [cbn in E2; try (exfalso; lia); injection E2 as <-; try reflexivity; do 6 (destruct k as [|k]; [cbn in E3; try (exfalso; lia); injection E3 as <-; discriminate E|]); destruct k; discriminate E3|]); destruct j; discriminate E2|]).
  destruct i; discriminate E1.
Qed.
Example ex_df_chronological : chronological 1 ex_df.
Proof.
  intros i j r s a b L E1 E2 E A B. unfold ex_df in *.
  do 6 (destruct i as [|i]; [cbn in E1; injection E1 as <-; do 6 (destruct j as [|j]; [cbn in E2; try (exfalso; lia); injection E2 as <-; try discriminate E; cbn in A, B; injection A as <-; injection B as <-; lia|]); destruct j; discriminate E2|]).
  destruct i; discriminate E1.
Qed.
Example ex_df_start : map r_case (end_df true 0 [1%Z] ex_df) = [1; 1; 1]%Z. Proof. reflexivity. Qed.
Example ex_df_follows : option_map (map r_case) (eventually_follows_df true 0 [1; 2; 3]%Z ex_df) = Some [2; 2; 2]%Z. Proof. reflexivity. Qed.
Example ex_df_paths : map r_case (paths_df false 0 1 [(1, 2)]%Z ex_df) = [1; 1; 1]%Z. Proof. reflexivity. Qed.
Example ex_df_prefix : map r_event (prefixes_df 0 3 true true ex_df) = map r_event [rw' 2 1 0 7; rw' 2 2 5 8; rw' 1 1 1 9]. Proof. reflexivity. Qed.
Example ex_df_rework : map r_case (rework_df true 0 1 2 ex_df) = [1; 1; 1]%Z. Proof. reflexivity. Qed.
Example ex_df_abc : map r_case (A_next_B_next_C_df true 0 1 2 3 ex_df) = [2; 2; 2]%Z. Proof. reflexivity. Qed.
Example ex_df_once : once 0 2 ex_df /\ once 0 3 ex_df.
Proof.
  split; intros i j r s E1 E2 E A B; unfold ex_df in *;
  do 6 (destruct i as [|i]; [cbn in E1; injection E1 as <-; try discriminate A; do 6 (destruct j as [|j]; [cbn in E2; injection E2 as <-; try reflexivity; try discriminate E; discriminate B|]); destruct j; discriminate E2|]);
  destruct i; discriminate E1.
Qed.
Print Assumptions C49_conversion.
Print Assumptions C49_start_activities.
Print Assumptions C49_end_activities.
Print Assumptions C49_attribute_values.
Print Assumptions C49_numeric.
Print Assumptions C49_eventually_follows.
Print Assumptions C49_A_next_B_next_C.
Print Assumptions C49_four_eyes.
Print Assumptions C49_different_persons.
Print Assumptions C49_paths.
Print Assumptions C49_rework.
Print Assumptions C49_repetitions.
Print Assumptions C49_case_size.
Print Assumptions C49_case_performance.
Print Assumptions C49_traces_contained.
Print Assumptions C49_traces_intersecting.
Print Assumptions C49_attribute_in_timeframe.
Print Assumptions C49_variants.
Print Assumptions C49_prefixes.
Print Assumptions C49_suffixes.
Print Assumptions C49_between.
Print Assumptions C49_A_next_B_next_C_refuted.
Print Assumptions C49_four_eyes_refuted.
Print Assumptions C49_path_performance_refuted.
Print Assumptions C49_traces_intersecting_refuted.
Print Assumptions C49_repetitions_refuted.
Print Assumptions C49_numeric_refuted.
Print Assumptions C49_between_refuted.
