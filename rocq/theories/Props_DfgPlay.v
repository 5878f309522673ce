(** C105: the playout of directly-follows graphs. *)
From Coq Require Import List Arith QArith Qround Bool Permutation Lia Lqa ZArith.
From Verif Require Import Spec_DfgPlay Model_DfgPlay Proofs_DfgPlay1 Proofs_DfgPlay2 Proofs_DfgPlay3.
Import ListNotations.
Open Scope nat_scope.

(** the enumeration gives every trace of the graph in which no activity comes more often than allowed, exactly once, with its probability, and nothing else *)
Theorem C105_traces (dfg : list (nat * nat * nat)) (sa ea : list (nat * nat)) (max : nat) (ys : list (list nat * Q)) :
  proper_dfg dfg sa ea -> complete_dfg dfg sa ea -> 1 <= max -> get_traces dfg sa ea max ys ->
  NoDup (map fst ys) /\ (forall t p, In (t, p) ys -> (p == chance dfg sa ea t)%Q) /\ (forall t, In t (map fst ys) <-> is_trace dfg sa ea t /\ few max t).
Proof. intros HP HC HM. apply yields; auto. Qed.
Print Assumptions C105_traces.

(** the enumeration ends: the number of rounds is bounded, whichever partial trace is taken among equally probable ones, and no round raises an exception *)
Theorem C105_ends (dfg : list (nat * nat * nat)) (sa ea : list (nat * nat)) (max : nat) :
  proper_dfg dfg sa ea -> complete_dfg dfg sa ea -> 1 <= max ->
  (exists n, forall k s, rounds dfg ea max k (first_partials sa, []) s -> k <= n) /\
  (forall k s, rounds dfg ea max k (first_partials sa, []) s -> fst s <> [] -> exists s', round dfg ea max s s') /\
  exists ys, get_traces dfg sa ea max ys.
Proof. intros HP HC HM. split; [apply bounded; auto|]. split; [intros k s; apply never_stuck; auto|apply gives_traces; auto]. Qed.
Print Assumptions C105_ends.

(** the probability of a given trace *)
Theorem C105_trace_probability (dfg : list (nat * nat * nat)) (sa ea : list (nat * nat)) (t : list nat) :
  proper_dfg dfg sa ea ->
  (get_trace_probability t dfg sa ea == chance dfg sa ea t)%Q /\ ((0 < get_trace_probability t dfg sa ea)%Q <-> is_trace dfg sa ea t).
Proof.
  intros HP. pose proof (trace_probability dfg sa ea HP t) as E. split; auto. rewrite E. apply chance_pos; auto.
Qed.
Print Assumptions C105_trace_probability.

(** the probabilities of any different traces add up to at most 1 *)
Theorem C105_total_probability (dfg : list (nat * nat * nat)) (sa ea : list (nat * nat)) (L : list (list nat)) :
  proper_dfg dfg sa ea -> NoDup L -> (sum_of (fun t => get_trace_probability t dfg sa ea) L <= 1)%Q.
Proof.
  intros HP N. pose proof (chances_total dfg sa ea HP L N) as T. eapply Qle_trans; [|exact T]. clear T N. induction L as [|t L IH]; [apply Qle_refl|]. cbn. apply Qplus_le_compat; [|exact IH]. rewrite (trace_probability dfg sa ea HP t). apply Qle_refl.
Qed.
Print Assumptions C105_total_probability.

Lemma sum_snd dfg sa ea (ys : list (list nat * Q)) : (forall t p, In (t, p) ys -> (p == chance dfg sa ea t)%Q) -> (sum_of snd ys == sum_of (chance dfg sa ea) (map fst ys))%Q.
Proof.
  induction ys as [|[t p] ys IH]; intros H; [reflexivity|]. cbn. change (fold_right _ 0%Q ys) with (sum_of snd ys). change (fold_right _ 0%Q (map fst ys)) with (sum_of (chance dfg sa ea) (map fst ys)).
  rewrite IH by (intros; apply H; right; auto). rewrite (H t p) by (left; auto). reflexivity.
Qed.
Lemma all_pos dfg sa ea max ys : proper_dfg dfg sa ea -> complete_dfg dfg sa ea -> 1 <= max -> get_traces dfg sa ea max ys -> forall x, In x ys -> (0 < snd x)%Q.
Proof.
  intros HP HC HM H [t p] Hx. destruct (C105_traces _ _ _ _ _ HP HC HM H) as (_ & A & B). cbn [snd]. rewrite (A t p Hx). apply chance_pos; auto. apply B. apply (in_map fst) in Hx. exact Hx.
Qed.
(** whatever the settings, the playout returns different traces of the graph, each with its probability, at most as many as asked for, the most probable first *)
Theorem C105_playout (c : settings) (dfg : list (nat * nat * nat)) (sa ea : list (nat * nat)) (max : nat) (result : list (list nat * Q)) (interrupted : bool) :
  proper_dfg dfg sa ea -> complete_dfg dfg sa ea -> 1 <= max -> playout c dfg sa ea max result interrupted ->
  NoDup (map fst result) /\ length result <= max_no_variants c /\
  (forall t p, In (t, p) result -> is_trace dfg sa ea t /\ few max t /\ (p == chance dfg sa ea t)%Q) /\
  (forall i j x y, i < j -> nth_error result i = Some x -> nth_error result j = Some y -> (chance dfg sa ea (fst y) <= chance dfg sa ea (fst x))%Q).
Proof.
  intros HP HC HM (ys & final & G & S & P & O). destruct (C105_traces _ _ _ _ _ HP HC HM G) as (N & A & B). destruct (select_sub _ _ _ _ _ _ _ _ _ _ _ _ _ _ S) as (k & K & E). cbn in E. subst k.
  assert (I : incl result ys) by (intros x Hx; apply (sub_in _ _ K); rewrite P; auto). split; [|split; [|split]].
  - eapply Permutation_NoDup; [apply Permutation_map, P|]. eapply sub_nodup; eauto.
  - pose proof (Permutation_length P) as Q. pose proof (select_len _ _ _ _ _ _ _ _ _ _ _ _ _ _ S ltac:(cbn; lia)) as Q2. unfold partial in *. lia.
  - intros t p Hx. apply I in Hx. pose proof (A _ _ Hx). apply (in_map fst) in Hx. apply B in Hx as [Q1 Q2]. auto.
  - intros i j [t p] [u q] L Hi Hj. specialize (O i j _ _ L Hi Hj). cbn [fst snd] in *. apply nth_error_In in Hi, Hj. rewrite <- (A _ _ (I _ Hi)), <- (A _ _ (I _ Hj)). exact O.
Qed.
Print Assumptions C105_playout.

(** with return_variants each trace gets the smallest whole number that is at least its share of max_no_variants; at least one *)
Theorem C105_variant_counts (c : settings) (dfg : list (nat * nat * nat)) (sa ea : list (nat * nat)) (max : nat) (result : list (list nat * Q)) (interrupted : bool) (t : list nat) (n : Z) :
  proper_dfg dfg sa ea -> complete_dfg dfg sa ea -> 1 <= max -> playout c dfg sa ea max result interrupted -> In (t, n) (as_variants c result) ->
  In t (map fst result) /\ (1 <= n)%Z /\ (inject_Z n - 1 < chance dfg sa ea t * inject_Z (Z.of_nat (max_no_variants c)))%Q /\ (chance dfg sa ea t * inject_Z (Z.of_nat (max_no_variants c)) <= inject_Z n)%Q.
Proof.
  intros HP HC HM H Hn. pose proof H as H0. apply C105_playout in H as (N & L & A & _); auto. unfold as_variants in Hn. apply in_map_iff in Hn as ([u p] & E & Hu). cbn [fst snd] in E. injection E as -> <-. destruct (A t p Hu) as (A1 & A2 & A3).
  assert (M : 1 <= max_no_variants c) by (destruct result; [destruct Hu|cbn in L; lia]). apply (in_map fst) in Hu as Hu'. split; [exact Hu'|]. split; [apply occ_pos; auto; rewrite A3; apply chance_pos; auto|]. rewrite <- A3. unfold var_occ. split; [|apply Qle_ceiling].
  pose proof (Qceiling_lt (p * inject_Z (Z.of_nat (max_no_variants c)))) as Q. unfold Zminus in Q. rewrite inject_Z_plus in Q. exact Q.
Qed.
Print Assumptions C105_variant_counts.

(** with the default settings, and if there are not more allowed traces than asked for, all of them are simulated and the playout is not interrupted *)
Theorem C105_playout_complete (c : settings) (dfg : list (nat * nat * nat)) (sa ea : list (nat * nat)) (max : nat) (result : list (list nat * Q)) (interrupted : bool) (all : list (list nat)) :
  proper_dfg dfg sa ea -> complete_dfg dfg sa ea -> 1 <= max -> playout c dfg sa ea max result interrupted ->
  interrupt_when_complete c = false -> add_if_new c = false -> (min_variant_occ c <= 1)%Z -> (1 <= min_weighted_probability c)%Q -> 1 <= max_no_variants c ->
  (forall t, is_trace dfg sa ea t -> few max t -> In t all) -> length all <= max_no_variants c ->
  interrupted = false /\ forall t, is_trace dfg sa ea t -> few max t -> In t (map fst result).
Proof.
  intros HP HC HM (ys & final & G & S & P & O) F1 F2 F3 F4 F5 AL LL. destruct (C105_traces _ _ _ _ _ HP HC HM G) as (N & A & B).
  assert (L : length ys <= length all). { unfold partial in *. rewrite <- (map_length fst ys). apply NoDup_incl_length; auto. intros t Ht. apply B in Ht as [Q1 Q2]. auto. }
  rewrite (select_all c dfg sa ea F5 F3 F1 F2 ys (all_pos _ _ _ _ _ HP HC HM G)) in S.
  - injection S as <- <-. split; auto. intros t H1 H2. eapply Permutation_in; [apply Permutation_map, P|]. apply B. auto.
  - cbn [length Nat.add]. unfold partial in *. lia.
  - rewrite Qplus_0_l. rewrite (sum_snd dfg sa ea ys A). eapply Qle_trans; [apply chances_total; auto|auto].
Qed.
Print Assumptions C105_playout_complete.

(** if the playout is not interrupted by the number of traces or the overall probability, the simulated traces have every start activity, end activity and edge that any
    allowed trace has, also when only traces that take something new are kept or the playout stops as soon as the graph is covered *)
Theorem C105_playout_covers (c : settings) (dfg : list (nat * nat * nat)) (sa ea : list (nat * nat)) (max : nat) (result : list (list nat * Q)) :
  proper_dfg dfg sa ea -> complete_dfg dfg sa ea -> 1 <= max -> playout c dfg sa ea max result false ->
  (min_variant_occ c <= 1)%Z -> 1 <= max_no_variants c ->
  forall t, is_trace dfg sa ea t -> few max t -> covered (map fst result) t.
Proof.
  intros HP HC HM (ys & final & G & S & P & O) F3 F5 t T F. destruct (C105_traces _ _ _ _ _ HP HC HM G) as (N & A & B). assert (Ht : In t (map fst ys)) by (apply B; auto). apply in_map_iff in Ht as (x & <- & Hx).
  assert (C : cov final (fst x)).
  { apply (select_covers c dfg sa ea F5 F3 ys (all_pos _ _ _ _ _ HP HC HM G) [] [] [] [] 0%Q false 0%Z final S); [easy|easy|easy|discriminate|exact Hx|]. destruct T as (_ & T1 & T2 & T3). split; [|split]; auto. intros [a b] Hy. apply pairs_nth in Hy as (i & Hi & Hj). eapply T3; eauto. }
  destruct C as (C1 & C2 & C3). assert (M : forall y, In y final -> In (fst y) (map fst result)) by (intros y Hy; apply in_map; rewrite <- P; auto). split; [|split].
  - unfold hs in C1. apply in_map_iff in C1 as (y & E & Hy). exists (fst y). auto.
  - unfold ls in C2. apply in_map_iff in C2 as (y & E & Hy). exists (fst y). auto.
  - intros i a b Hi Hj. assert (Q : In (a, b) (pairs (fst x))) by (apply pairs_nth; eauto). apply C3 in Q. unfold ps in Q. apply in_flat_map in Q as (y & Hy & Q). apply pairs_nth in Q as (j & Q1 & Q2). exists (fst y), j. auto.
Qed.
Print Assumptions C105_playout_covers.

(** ** a concrete case: 1, then 2 any number of times, then 3 *)
Definition ex_dfg : list (nat * nat * nat) := [(1, 2, 3); (1, 3, 1); (2, 2, 1); (2, 3, 3)].
Definition ex_sa := [(1, 4)].
Definition ex_ea := [(3, 4)].
Example C105_example : proper_dfg ex_dfg ex_sa ex_ea /\ complete_dfg ex_dfg ex_sa ex_ea.
Proof.
  split.
  - unfold proper_dfg. cbn. repeat split; try (repeat constructor; cbn; intuition congruence); [intros e n H|intros a n H]; intuition; match goal with H : (_, _) = (_, _) |- _ => injection H as <- <-; lia end.
  - unfold complete_dfg. cbn. intros a. tauto.
Qed.
Example C105_example_traces : is_trace ex_dfg ex_sa ex_ea [1; 2; 2; 3] /\ ~ is_trace ex_dfg ex_sa ex_ea [1; 2] /\ (chance ex_dfg ex_sa ex_ea [1; 2; 2; 3]%nat == 9 # 64)%Q /\ (get_trace_probability [1; 3]%nat ex_dfg ex_sa ex_ea == 1 # 4)%Q.
Proof.
  split; [|split; [|split]].
  - apply (C105_trace_probability _ _ _ _ (proj1 C105_example)). vm_compute. reflexivity.
  - intros H. apply (C105_trace_probability _ _ _ _ (proj1 C105_example)) in H. vm_compute in H. discriminate.
  - vm_compute. reflexivity.
  - vm_compute. reflexivity.
Qed.
(** with at most one occurrence of each activity the enumeration gives [1;2;3] and [1;3] *)
Example C105_example_enumeration : exists p q, get_traces ex_dfg ex_sa ex_ea 1 [([1; 2; 3], p); ([1; 3], q)] /\ (p == 9 # 16)%Q /\ (q == 1 # 4)%Q.
Proof.
  eexists _, _. split; [exists 4; eapply (rounds_S _ _ _ 3); [eapply (rounds_S _ _ _ 2); [eapply (rounds_S _ _ _ 1); [eapply (rounds_S _ _ _ 0); [apply rounds_0|]|]|]|]|].
  - eexists _, _, _. split; [apply Permutation_refl|]. split; [intros y []|]. split; reflexivity.
  - eexists _, _, _. split; [apply Permutation_refl|]. split; [intros y [<- |[]]; vm_compute; discriminate|]. split; reflexivity.
  - eexists _, _, _. split; [apply Permutation_refl|]. split; [intros y [<- |[]]; vm_compute; discriminate|]. split; reflexivity.
  - eexists _, _, _. split; [apply Permutation_refl|]. split; [intros y []|]. split; reflexivity.
  - split; reflexivity.
Qed.
(** ** findings *)
(** a start activity without successor that is no end activity (a filtered graph can have one): the enumeration raises a KeyError *)
Theorem C105_dead_end_refuted : exists dfg sa ea s, proper_dfg dfg sa ea /\ rounds dfg ea 1 0 (first_partials sa, []) s /\ fst s <> [] /\ ~ exists s', round dfg ea 1 s s'.
Proof.
  exists [], [(1, 1)], [(2, 1)]. eexists. split; [|split; [apply rounds_0|]].
  - split; [|split; [|split; [|split]]]; [constructor|repeat constructor; intros []|repeat constructor; intros []|intros e n []|intros a n [[H|[]]|[H|[]]]; injection H as <- <-; auto].
  - split; [discriminate|]. intros (s' & x & rest & r & P & _ & T & _). cbn in P. assert (E : rest = []) by (apply Permutation_length in P; cbn in P; destruct rest; cbn in P; [auto|lia]). subst rest. apply Permutation_length_1 in P. subst x. cbn in T. discriminate.
Qed.
Print Assumptions C105_dead_end_refuted.
