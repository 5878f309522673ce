(** C26, C27, C40, C44, C45: directly-follows graphs and minimum self distances. *)
From Coq Require Import List Arith Bool Lia ZArith.
Import ListNotations.
From Verif Require Import Model_Dict Model_Dfg Spec_Dfg Proofs_Dict Proofs_Dfg.

(** C27: every count is the number of positions it speaks about ... *)
Theorem C27_edge_counts : forall w l a b,
  exactly (c_get (native w false l) (a, b)) (fun p => at_pos l (fst p) (snd p) a /\ at_pos l (fst p) (snd p + w) b).
Proof. exact native_counts. Qed.
Print Assumptions C27_edge_counts.
Theorem C27_edge_counts_once_per_case : forall w l a b,
  exactly (c_get (native w true l) (a, b)) (fun j => exists i, at_pos l j i a /\ at_pos l j (i + w) b).
Proof. exact native_once. Qed.
Print Assumptions C27_edge_counts_once_per_case.
Theorem C27_start_end_counts : forall l a,
  exactly (c_get (get_start_activities l) a) (fun p => snd p = 0 /\ at_pos l (fst p) (snd p) a) /\
  exactly (c_get (get_end_activities l) a) (fun p => last_pos l (fst p) (snd p) /\ at_pos l (fst p) (snd p) a).
Proof. intros l a. split; [apply start_counts|apply end_counts]. Qed.
Print Assumptions C27_start_end_counts.
(** ... and they are conserved at every activity. *)
Theorem C27_conservation : forall l a n, exactly n (fun p => at_pos l (fst p) (snd p) a) ->
  c_get (get_start_activities l) a + total (fun k => Nat.eqb (snd k) a) (native 1 false l) = n /\
  c_get (get_end_activities l) a + total (fun k => Nat.eqb (fst k) a) (native 1 false l) = n.
Proof.
  intros l a n H. rewrite conserve_in, conserve_out. assert (E := exactly_unique _ _ _ H (occ_log_exactly l a)). auto.
Qed.
Print Assumptions C27_conservation.
Theorem C27_total : forall l, total (fun _ => true) (native 1 false l) + length (filter (fun t => negb (Nat.eqb (length t) 0)) l) = length (concat l).
Proof. exact conserve_total. Qed.
Print Assumptions C27_total.

(** C26 *)
Theorem C26_live_equals_batch : forall evs,
  let '(dfg, acts, starts, ends) := live evs in
  same_dict dfg (native 1 false (grouped evs)) /\
  same_dict acts (c_of (concat (grouped evs))) /\
  same_dict starts (get_start_activities (grouped evs)) /\
  same_dict ends (get_end_activities (grouped evs)).
Proof. exact live_batch. Qed.
Print Assumptions C26_live_equals_batch.
Theorem C26_interleaving_irrelevant : forall evs evs', (forall c, case_trace evs c = case_trace evs' c) ->
  let '(dfg, acts, starts, ends) := live evs in let '(dfg', acts', starts', ends') := live evs' in
  same_dict dfg dfg' /\ same_dict acts acts' /\ same_dict starts starts' /\ same_dict ends ends'.
Proof. exact interleaving. Qed.
Print Assumptions C26_interleaving_irrelevant.

(** C45: the DFG of the variants, and of the compressed log, is the DFG of the log. *)
Theorem C45_dfg_of_variants : forall l,
  let g := discover_dfg_uvcl (get_variants l) in
  (forall k, c_get (graph g) k = c_get (native 1 false l) k) /\
  (forall a, c_get (start_acts g) a = c_get (get_start_activities l) a) /\
  (forall a, c_get (end_acts g) a = c_get (get_end_activities l) a).
Proof. intros l. cbn zeta. split; [apply uvcl_graph|]. split; intros a; apply uvcl_start_end. Qed.
Print Assumptions C45_dfg_of_variants.
Theorem C45_dfg_of_compressed : forall l,
  graph (discover_dfg l) = native 1 false l /\ start_acts (discover_dfg l) = get_start_activities l /\ end_acts (discover_dfg l) = get_end_activities l.
Proof. exact discover_dfg_eq. Qed.
Print Assumptions C45_dfg_of_compressed.

(** C44: the documentation of get_vertex_frequencies promises the number of occurrences; for the log
    consisting of one trace <1,2> activity 2 gets 0 and activity 1 gets 2. *)
Theorem C44_vertex_frequencies_refuted : exists l a n,
  exactly n (fun p => at_pos l (fst p) (snd p) a) /\ c_get (get_vertex_frequencies (discover_dfg l)) a <> n.
Proof.
  exists [[1; 2]], 2, 1. split; [|vm_compute; lia]. exists [(0, 1)]. split; [repeat constructor; auto|]. split; auto.
  intros [[|[|j]] i]; cbn; split.
  - intros [[= <-]|[]]. exists [1; 2]. auto.
  - intros (t & [= <-] & E). destruct i as [|[|i]]; cbn in E; [discriminate|auto|destruct i; discriminate].
  - intros [?|[]]; discriminate.
  - intros (t & ? & _). discriminate.
  - intros [?|[]]; discriminate.
  - intros (t & E & _). destruct j; discriminate.
Qed.
Print Assumptions C44_vertex_frequencies_refuted.

(** What is computed: the number of occurrences, plus the cases that start with the activity, minus the cases
    that end with it. *)
Theorem C44_vertex_frequencies_actual : forall l a n, exactly n (fun p => at_pos l (fst p) (snd p) a) ->
  c_get (get_vertex_frequencies (discover_dfg l)) a + c_get (get_end_activities l) a = n + c_get (get_start_activities l) a.
Proof.
  intros l a n H. assert (E := exactly_unique _ _ _ H (occ_log_exactly l a)). subst n. rewrite <- (conserve_out l a).
  unfold get_vertex_frequencies. destruct (discover_dfg_eq l) as (-> & E2 & _). rewrite E2.
  assert (G : forall {K} {EK : Key K} (f : K -> nat) (d : @counter K) (c : @counter nat),
     c_get (fold_left (fun c kn => c_add c (f (fst kn)) (snd kn)) d c) a = c_get c a + total (fun k => Nat.eqb (f k) a) d).
  { intros K EK f d. induction d as [|[k m] d IH]; intros c; [cbn; lia|]. cbn [fold_left]. rewrite IH, c_get_add. unfold total. cbn [filter fst snd].
    change (keqb (f k) a) with (Nat.eqb (f k) a). destruct (Nat.eqb (f k) a); cbn [map snd]; unfold list_sum; cbn [fold_right]; lia. }
  rewrite (G nat _ (fun x => x)), (G (nat * nat)%type _ fst).
  assert (Z0 : forall vs (c : @counter nat), c_get c a = 0 -> c_get (fold_left (fun c v => d_set c v 0) vs c) a = 0).
  { induction vs as [|v vs IH]; intros c Hc; [exact Hc|]. cbn [fold_left]. apply IH. unfold c_get in *. rewrite d_get_set.
    destruct (keqb_spec v a); auto. }
  rewrite Z0 by reflexivity.
  assert (T : forall d : @counter nat, NoDup (d_keys d) -> total (fun k => Nat.eqb k a) d = c_get d a).
  { clear. induction d as [|[k m] d IH]; intros Hn; [reflexivity|]. inversion Hn as [|? ? Hk Hn']; subst. unfold total in *. cbn [filter fst snd].
    unfold c_get. cbn [d_get]. change (keqb k a) with (Nat.eqb k a). destruct (Nat.eqb_spec k a) as [->|Hne].
    - cbn [map snd]. match goal with |- list_sum (m :: ?x) = _ => change (list_sum (m :: x)) with (m + list_sum x) end. rewrite IH by exact Hn'. unfold c_get. destruct (d_get d a) eqn:Eg; [|lia]. exfalso. apply Hk. apply (d_get_keys d a). congruence.
    - apply IH, Hn'. }
  rewrite T; [lia|]. rewrite starts_eq. apply c_of_nodup.
Qed.
Print Assumptions C44_vertex_frequencies_actual.
(** so it is right exactly for the activities that start as many cases as they end. *)
Theorem C44_vertex_frequencies_scope : forall l a n, exactly n (fun p => at_pos l (fst p) (snd p) a) ->
  (c_get (get_vertex_frequencies (discover_dfg l)) a = n <-> c_get (get_start_activities l) a = c_get (get_end_activities l) a).
Proof. intros l a n H. pose proof (C44_vertex_frequencies_actual l a n H). lia. Qed.
Print Assumptions C44_vertex_frequencies_scope.

(** C40 *)
Theorem C40_minimum_self_distance : forall l a m, d_get (msd l) a = Some m <->
  (exists t i j, In t l /\ next_occurrence t a i j /\ m = j - i - 1) /\
  (forall t i j, In t l -> next_occurrence t a i j -> m <= j - i - 1).
Proof. exact msd_spec. Qed.
Print Assumptions C40_minimum_self_distance.
Theorem C40_witnesses : forall l a,
  (forall ws, d_get (msd_witnesses l (msd l)) a = Some ws ->
    exists m, d_get (msd l) a = Some m /\ 0 < m /\ forall b, In b ws <->
      exists t i j k, In t l /\ next_occurrence t a i j /\ j - i - 1 = m /\ i < k < j /\ nth_error t k = Some b) /\
  (forall m, d_get (msd l) a = Some m -> 0 < m -> exists ws, d_get (msd_witnesses l (msd l)) a = Some ws).
Proof. intros l a. split; [apply witnesses_spec|apply witnesses_dom]. Qed.
Print Assumptions C40_witnesses.
(** Finding: the variant of util/compression subtracts the other way round and reports negative distances. *)
Theorem C40_compressed_refuted : exists l a m, d_get (msd_compressed l) a = Some m /\ (m < 0)%Z.
Proof. exists [[1; 2; 1]], 1, (-3)%Z. split; [vm_compute; reflexivity|lia]. Qed.
Print Assumptions C40_compressed_refuted.

(** Concrete cases *)
Definition ex_log : log := [[1; 2; 3; 1]; []; [1; 2; 1; 2]; [3]].
Example ex_native : native 1 false ex_log = [((1, 2), 3); ((2, 3), 1); ((3, 1), 1); ((2, 1), 1)]. Proof. reflexivity. Qed.
Example ex_starts : get_start_activities ex_log = [(1, 2); (3, 1)] /\ get_end_activities ex_log = [(1, 1); (2, 1); (3, 1)]. Proof. split; reflexivity. Qed.
Example ex_msd : msd ex_log = [(1, 1); (2, 1)] /\ msd_witnesses ex_log (msd ex_log) = [(1, [2]); (2, [1])]. Proof. split; vm_compute; reflexivity. Qed.
Example ex_live : live [Event (Some 7) (Some 1); Event (Some 8) (Some 1); Event None (Some 4); Event (Some 7) (Some 2); Event (Some 8) (Some 3)]
  = ([((1, 2), 1); ((1, 3), 1)], [(1, 2); (2, 1); (3, 1)], [(1, 2)], [(2, 1); (3, 1)]).
Proof. reflexivity. Qed.
Example ex_once : c_get (native 1 true ex_log) (1, 2) = 2. Proof. reflexivity. Qed.
