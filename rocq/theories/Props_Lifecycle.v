(** C108: lifecycle and interval logs, lead and cycle time. *)
From Coq Require Import List Arith ZArith Bool Permutation Sorting.Sorted Lia.
From Verif Require Import Model_Lifecycle Spec_Lifecycle Proofs_Lifecycle1 Proofs_Lifecycle2 Proofs_Lifecycle3.
Import ListNotations.
Open Scope Z_scope.

(** there is one event for every completion, with the start that it takes first in, first out; they come in the order of their starts, and those that start
    at the same time in the order of their completions in the trace *)
Theorem C108_to_interval {A} (l : list (event A)) : exists m out, fifo l m /\ Forall2 (made l m) (completions l) out /\
  Permutation (to_interval l) out /\ sorted_start (to_interval l) /\ forall z, filter (fun i => st i =? z) (to_interval l) = filter (fun i => st i =? z) out.
Proof.
  destruct (run_inv l) as (m & _ & F & _ & M). exists m, (collect l). split; [exact F|]. split; [exact M|]. split; [apply sort_perm|]. split; [|apply sort_stable].
  intros i j a b L Hi Hj. apply (proj1 (SS_nth _ _) (sort_SS (collect l)) i j a b L Hi Hj).
Qed.
Print Assumptions C108_to_interval.
(** the rule leaves no choice *)
Theorem C108_one_matching {A} (l : list (event A)) (m m' : nat -> option nat) : fifo l m -> fifo l m' -> forall p, m p = m' p.
Proof. apply unique_fifo. Qed.
Print Assumptions C108_one_matching.

(** the other direction: a start and a completion for every event, in the order of time, of the event they come from, and start before completion *)
Theorem C108_to_lifecycle {A} (t : list (interval A)) : exists r, map snd r = to_lifecycle t /\ NoDup r /\
  (forall i e, In (i, e) r <-> exists x, nth_error t i = Some x /\ (e = start_event x \/ e = complete_event x)) /\
  forall p q a b, (p < q)%nat -> nth_error r p = Some a -> nth_error r q = Some b -> before a b.
Proof.
  exists (sort_entries (entries t)). split; [reflexivity|]. split; [eapply Permutation_NoDup; [symmetry; apply sort_entries_perm|apply NoDup_entries]|]. split.
  - intros i e. assert (Q : In (i, e) (sort_entries (entries t)) <-> In (i, e) (entries t)) by (split; apply Permutation_in; [|symmetry]; apply sort_entries_perm). rewrite Q. clear Q. etransitivity; [apply in_entries|]. split; [intros (j & x & H & [Q|Q]); injection Q as -> ->; eauto|intros (x & H & [-> | ->]); exists i, x; auto].
  - intros p q a b. apply SS_before.
Qed.
Print Assumptions C108_to_lifecycle.
Theorem C108_length {A} (t : list (interval A)) : length (to_lifecycle t) = (2 * length t)%nat.
Proof.
  unfold to_lifecycle. rewrite map_length. transitivity (length (entries t)); [apply Permutation_length, sort_entries_perm|]. rewrite entries_two. assert (G : forall s, length (flat_map two (combine (seq s (length t)) t)) = (2 * length t)%nat); [|apply G]. induction t as [|x t IH]; intros s; [reflexivity|]. cbn [length seq combine flat_map]. rewrite app_length, IH. cbn. lia.
Qed.
Print Assumptions C108_length.

(** there and back *)
Theorem C108_round_trip {A} (t : list (interval A)) : (forall x, In x t -> st x <= et x) -> sorted_start t -> no_overtaking t ->
  Permutation (to_interval (to_lifecycle t)) (map mark t) /\ sorted_start (to_interval (to_lifecycle t)) /\
  ((forall i j a b, (i < j)%nat -> nth_error t i = Some a -> nth_error t j = Some b -> st a < st b) -> to_interval (to_lifecycle t) = map mark t).
Proof.
  intros E S N. pose proof (back t E S N) as P. split; [exact P|]. split; [intros i j a b L Hi Hj; apply (proj1 (SS_nth _ _) (sort_SS (collect (to_lifecycle t))) i j a b L Hi Hj)|].
  intros D. apply SS_unique; auto; [apply sort_SS|]. apply SS_nth. intros i j a b L Hi Hj. rewrite nth_error_map in Hi, Hj. destruct (nth_error t i) as [x|] eqn:X; [|discriminate]. destruct (nth_error t j) as [y|] eqn:Y; [|discriminate].
  injection Hi as <-. injection Hj as <-. cbn. apply (D i j); auto.
Qed.
Print Assumptions C108_round_trip.

(** lead time is the working time from the first start to the last end so far, cycle time the part of it in which an event is running, wasted time the rest; the wasted
    time of an event is the working time between the end of everything before it and its start *)
Theorem C108_lead_cycle {A} (work : Z -> Z -> Z) (working : Z -> bool) (t : list (interval A)) (f : interval A) (n : nat) (r : times) :
  (forall a b, a <= b -> work a b = seconds working a b) ->
  (forall x, In x t -> st x <= et x) -> sorted_start t -> (forall i j a b, (i < j)%nat -> nth_error t i = Some a -> nth_error t j = Some b -> et a <> st b) ->
  nth_error t 0 = Some f -> 0 < st f -> nth_error (lead_cycle work t) n = Some r ->
  let seen := firstn (S n) t in
  (exists i, In i seen /\ et i = max_et r) /\ (forall i, In i seen -> et i <= max_et r) /\
  lead r = seconds working (st f) (max_et r) /\
  cycle r = seconds (fun x => working x && running seen x) (st f) (max_et r) /\
  wasted r = seconds (fun x => working x && negb (running seen x)) (st f) (max_et r).
Proof.
  intros W E S D H P Hr seen. destruct t as [|f' t]; [discriminate|]. cbn in H. injection H as ->. unfold lead_cycle in Hr. apply scan_nth in Hr. unfold seen. clear seen. cbn [firstn] in *.
  assert (I : forall k x, nth_error (f :: firstn n t) k = Some x -> nth_error (f :: t) k = Some x).
  { intros [|k] x; cbn; auto. revert k t Hr E S D. clear. induction n as [|n IH]; intros k t Hr E S D H; [destruct k; discriminate|]. destruct t as [|y t]; [destruct k; discriminate|]. destruct k as [|k]; cbn in *; auto.
    clear - H. revert k t H. induction n as [|n IH]; intros k t H; [destruct k; discriminate|]. destruct t as [|y t]; [destruct k; discriminate|]. destruct k; cbn in *; auto. }
  destruct (good_run work working W f (firstn n t)) as [G1 G2 G3 G4 G5]; auto.
  - intros x Hx. apply E. apply In_nth_error in Hx as (k & Hk). apply I in Hk. eapply nth_error_In; eauto.
  - intros i j a b L Hi Hj. apply (S i j a b L); auto.
  - intros i j a b L Hi Hj. apply (D i j a b L); auto.
  - unfold run in *. rewrite <- Hr in *. split; [exact G1|]. split; [exact G2|]. auto.
Qed.
Print Assumptions C108_lead_cycle.
Theorem C108_wasted {A} (work : Z -> Z -> Z) (t : list (interval A)) (n : nat) (i : interval A) (r r' : times) :
  nth_error (lead_cycle work t) n = Some r -> nth_error (lead_cycle work t) (S n) = Some r' -> nth_error t (S n) = Some i ->
  this_wasted r' = (if (0 <? max_et r) && (max_et r <? st i) then work (max_et r) (st i) else 0) /\ wasted r' = wasted r + this_wasted r'.
Proof.
  unfold lead_cycle. generalize (Times 0 0 0 0 0). revert t. induction n as [|n IH]; intros [|x [|y t]] s H1 H2 H3; try discriminate.
  - cbn [scan nth_error] in *. injection H1 as <-. injection H2 as <-. injection H3 as <-. split; reflexivity.
  - cbn [nth_error] in H3. apply (IH (y :: t) (lead_step work s x)); auto.
Qed.
Print Assumptions C108_wasted.
(** cycle and wasted time are the lead time *)
Theorem C108_sum {A} (work : Z -> Z -> Z) (t : list (interval A)) (r : times) : In r (lead_cycle work t) -> lead r = cycle r + wasted r.
Proof.
  unfold lead_cycle. assert (G : forall s, lead s = cycle s + wasted s -> In r (scan work s t) -> lead r = cycle r + wasted r); [|apply G; reflexivity].
  induction t as [|x t IH]; intros s Q []; [subst r|apply (IH (lead_step work s x)); auto]; unfold lead_step; cbn [lead cycle wasted]; lia.
Qed.
Print Assumptions C108_sum.

(** ** concrete cases *)
Definition ex : list (interval Z) := [Interval 1 10 20 7 None; Interval 1 15 20 8 None; Interval 2 30 40 9 None].
Example C108_example : (forall x, In x ex -> st x <= et x) /\ sorted_start ex /\ no_overtaking ex /\ to_interval (to_lifecycle ex) = map mark ex /\
  map (fun r => (cycle r, lead r, wasted r)) (lead_cycle (seconds (fun _ => true)) ex) = [(10, 10, 0); (10, 10, 0); (20, 30, 10)].
Proof.
  split; [intros x [<- |[<- |[<- |[]]]]; cbn; lia|]. split; [|split; [|split; vm_compute; reflexivity]]; intros i j a b L Hi Hj; destruct i as [|[|[|i]]], j as [|[|[|j]]]; cbn in Hi, Hj; try (destruct i; discriminate); try (destruct j; discriminate); try lia;
    injection Hi as <-; injection Hj as <-; cbn; lia.
Qed.
Example C108_example_fifo : to_interval [Event 1 10 Start 100; Event 1 11 Start 101; Event 1 12 Complete 102; Event 2 13 Complete 103; Event 1 14 Complete 104; Event 1 15 Complete 105] =
  [Interval 1 10 12 102 (Some 100); Interval 1 11 14 104 (Some 101); Interval 2 13 13 103 None; Interval 1 15 15 105 None].
Proof. vm_compute. reflexivity. Qed.

(** ** findings *)
(** an event that runs during another of the same activity takes its start: the durations change *)
Theorem C108_overtaking_refuted : exists t : list (interval Z), (forall x, In x t -> st x <= et x) /\ sorted_start t /\ map (fun i => (st i, et i)) (to_interval (to_lifecycle t)) <> map (fun i => (st i, et i)) t.
Proof.
  exists [Interval 1 0 10 1 None; Interval 1 2 3 2 None]. split; [intros x [<- |[<- |[]]]; cbn; lia|]. split; [|vm_compute; discriminate].
  intros i j a b L Hi Hj; destruct i as [|[|i]], j as [|[|j]]; cbn in Hi, Hj; try (destruct i; discriminate); try (destruct j; discriminate); try lia; injection Hi as <-; injection Hj as <-; cbn; lia.
Qed.
Print Assumptions C108_overtaking_refuted.
(** an event that starts exactly when everything before it has ended does not count at all *)
Theorem C108_touching_refuted : exists (t : list (interval Z)) r, (forall x, In x t -> 0 < st x < et x) /\ sorted_start t /\
  nth_error (lead_cycle (seconds (fun _ => true)) t) 1 = Some r /\ lead r = 10 /\ cycle r = 10 /\ max_et r = 110 /\ seconds (fun x => running t x) 1 (max_et r) = 109.
Proof.
  exists [Interval 1 1 11 1 None; Interval 2 11 110 2 None]. eexists. split; [intros x [<- |[<- |[]]]; cbn; lia|]. split; [|vm_compute; auto 10].
  intros i j a b L Hi Hj; destruct i as [|[|i]], j as [|[|j]]; cbn in Hi, Hj; try (destruct i; discriminate); try (destruct j; discriminate); try lia; injection Hi as <-; injection Hj as <-; cbn; lia.
Qed.
Print Assumptions C108_touching_refuted.
