(** C28, C29: the live event stream and the thread-safe dictionary. *)
From Coq Require Import List Arith Lia Permutation Bool.
Import ListNotations.
From Verif Require Import Model_Live Proofs_Live.

(** C28.  For every schedule in which start() comes before stop(): when stop() has returned, every
    accepted event has been received exactly once by every observer; before that, at most once. *)
Theorem C28_exactly_once : forall (event observer : Type) n (obs : list observer) (s : st event observer),
  reach_started n obs s -> stop s = Stopped ->
  Permutation (processed s) (flat_map (fun e => map (fun o => (e, o)) obs) (accepted s)).
Proof. intros. apply (at_stop n); auto. Qed.
Print Assumptions C28_exactly_once.
Theorem C28_at_most_once : forall (event observer : Type) n (obs : list observer) (s : st event observer),
  reach_started n obs s -> exists rest, Permutation (processed s ++ rest) (flat_map (fun e => map (fun o => (e, o)) obs) (accepted s)).
Proof. intros. apply (at_most n); auto. Qed.
Print Assumptions C28_at_most_once.
(** No schedule blocks: after stop() has been called, if no more events are appended, every schedule is finite
    and can only end with stop() returned and the mail man thread finished. *)
Theorem C28_stop_terminates : forall (event observer : Type) n (obs : list observer) (s : st event observer),
  0 < n -> reach_started n obs s -> stop s <> NotCalled ->
  Acc (fun b a => int_step n obs a b) s /\
  ((forall s', ~ int_step n obs s s') -> stop s = Stopped /\ man s = Returned).
Proof.
  intros event observer n obs s Hn H Hc. split; [apply terminates; auto|]. intros Hq.
  destruct (stop s) eqn:S; try congruence.
  1-3: exfalso; destruct (progress n obs s Hn H) as (s' & Hs); try congruence; [intros [X _]; congruence|apply (Hq s' Hs)].
  split; auto. destruct (man s) eqn:M; auto; exfalso; (destruct (progress n obs s Hn H) as (s' & Hs); [congruence|intros [_ X]; congruence|apply (Hq s' Hs)]).
Qed.
Print Assumptions C28_stop_terminates.
Theorem C28_mail_man_never_dies : forall (event observer : Type) n (obs : list observer) (s : st event observer),
  reach_started n obs s -> man s <> Crashed.
Proof. intros. apply (no_crash n obs); auto. Qed.
Print Assumptions C28_mail_man_never_dies.
(** With a pool of one thread the events are received in the order in which they were appended ... *)
Theorem C28_order_one_thread : forall (event observer : Type) (obs : list observer) (s : st event observer),
  reach_started 1 obs s -> exists rest, processed s ++ rest = flat_map (fun e => map (fun o => (e, o)) obs) (accepted s).
Proof. intros. apply (in_order 1); auto. Qed.
Print Assumptions C28_order_one_thread.

Definition put (q r p : list (nat * nat)) (d : list nat) (m : mailman) (a : list nat) : st nat nat :=
  St d Active m NotCalled [] q r false p a.
Lemma run2 : reach_started 2 [0] (put [] [] [(8, 0); (7, 0)] [] Ready [7; 8]).
Proof.
  assert (R0 : reach_started 2 [0] (put [] [] [] [] Ready [])).
  { apply rs_start; auto. apply (reach_env 2 [0] (init : st nat nat)); [constructor|]. apply (step_start (init : st nat nat)); [split; discriminate|auto]. }
  assert (R1 : reach_started 2 [0] (put [] [] [] [7] Ready [7])) by (apply (rs_env _ _ _ _ R0), (step_append 7 (put [] [] [] [] Ready [])); split; discriminate).
  assert (R2 : reach_started 2 [0] (put [] [] [] [7; 8] Ready [7; 8])) by (apply (rs_env _ _ _ _ R1), (step_append 8 (put [] [] [] [7] Ready [7])); split; discriminate).
  assert (R3 : reach_started 2 [0] (put [(7, 0)] [] [] [8] Ready [7; 8])) by (apply (rs_int _ _ _ _ R2), (step_deliver 2 [0] (put [] [] [] [7; 8] Ready [7; 8])); [split; discriminate|auto]).
  assert (R4 : reach_started 2 [0] (put [(7, 0); (8, 0)] [] [] [] Ready [7; 8])) by (apply (rs_int _ _ _ _ R3), (step_deliver 2 [0] (put [(7, 0)] [] [] [8] Ready [7; 8])); [split; discriminate|auto]).
  assert (R5 : reach_started 2 [0] (put [(8, 0)] [(7, 0)] [] [] Ready [7; 8])) by (apply (rs_int _ _ _ _ R4), (step_take 2 [0] (put [(7, 0); (8, 0)] [] [] [] Ready [7; 8])); cbn; auto).
  assert (R6 : reach_started 2 [0] (put [] [(7, 0); (8, 0)] [] [] Ready [7; 8])) by (apply (rs_int _ _ _ _ R5), (step_take 2 [0] (put [(8, 0)] [(7, 0)] [] [] Ready [7; 8])); cbn; auto).
  assert (R7 : reach_started 2 [0] (put [] [(7, 0)] [(8, 0)] [] Ready [7; 8])) by (apply (rs_int _ _ _ _ R6), (step_receive 2 [0] (put [] [(7, 0); (8, 0)] [] [] Ready [7; 8]) (8, 0) [(7, 0)] []); auto).
  apply (rs_int _ _ _ _ R7), (step_receive 2 [0] (put [] [(7, 0)] [(8, 0)] [] Ready [7; 8]) (7, 0) [] []); auto.
Qed.
(** ... but with two threads (the default is six) two events of the same case may be received in the wrong order. *)
Theorem C28_order_refuted : exists (s : st nat nat), reach_started 2 [0] s /\ accepted s = [7; 8] /\ processed s = [(8, 0); (7, 0)].
Proof. eexists. split; [apply run2|]. split; reflexivity. Qed.
Print Assumptions C28_order_refuted.
(** stop() before start() with an event in the stream waits for ever. *)
Theorem C28_stop_before_start_refuted : exists (s : st nat nat), reach 6 [0] s /\ stop s = Blocked /\ forall s', ~ int_step 6 [0] s s'.
Proof.
  exists (St [7] Inactive NotStarted Blocked [Stopper] [] [] false [] [7]).
  assert (R1 : reach 6 [0] (St [7] Inactive NotStarted NotCalled [] [] [] false [] [7])) by (apply (reach_env _ _ init _ (reach_init 6 [0])), (step_append 7 init); split; discriminate).
  assert (R2 : reach 6 [0] (St [7] Inactive NotStarted Checking [] [] [] false [] [7])) by (apply (reach_env _ _ _ _ R1), (step_call (St [7] Inactive NotStarted NotCalled [] [] [] false [] [7])); auto).
  split; [apply (reach_int _ _ _ _ R2), (step_check 6 [0] (St [7] Inactive NotStarted Checking [] [] [] false [] [7])); [split; discriminate|auto]|].
  split; auto. intros s' Hs. inversion Hs as [s0 [L L'] M|s0 [L L'] E|s0 E Q R|s0 t q E L|s0 t r1 r2 E]; subst; cbn in *; try discriminate. destruct r1; discriminate.
Qed.
Print Assumptions C28_stop_before_start_refuted.
(** ... and a stream that is stopped before it is started kills its mail man, who keeps the lock. *)
Theorem C28_start_after_stop_refuted : exists (s : st nat nat), reach 6 [0] s /\ man s = Crashed /\ ~ lock_free s.
Proof.
  exists (St [] Active Crashed Stopped [] [] [] true [] [7]).
  assert (R1 : reach 6 [0] (St [] Inactive NotStarted Checking [] [] [] false [] [] : st nat nat)) by (apply (reach_env _ _ init _ (reach_init 6 [0])), (step_call init); auto).
  assert (R2 : reach 6 [0] (St [] Inactive NotStarted Shutting [] [] [] true [] [] : st nat nat)) by (apply (reach_int _ _ _ _ R1), (step_check 6 [0] (St [] Inactive NotStarted Checking [] [] [] false [] [])); [split; discriminate|auto]).
  assert (R3 : reach 6 [0] (St [] Inactive NotStarted Stopped [] [] [] true [] [] : st nat nat)) by (apply (reach_int _ _ _ _ R2), (step_finish 6 [0] (St [] Inactive NotStarted Shutting [] [] [] true [] [])); auto).
  assert (R4 : reach 6 [0] (St [7] Inactive NotStarted Stopped [] [] [] true [] [7] : st nat nat)) by (apply (reach_env _ _ _ _ R3), (step_append 7 (St [] Inactive NotStarted Stopped [] [] [] true [] [])); split; discriminate).
  assert (R5 : reach 6 [0] (St [7] Active Ready Stopped [] [] [] true [] [7] : st nat nat)) by (apply (reach_env _ _ _ _ R4), (step_start (St [7] Inactive NotStarted Stopped [] [] [] true [] [7])); [split; discriminate|auto]).
  split; [apply (reach_int _ _ _ _ R5), (step_deliver 6 [0] (St [7] Active Ready Stopped [] [] [] true [] [7])); [split; discriminate|auto]|].
  split; auto. intros [_ H]. apply H. reflexivity.
Qed.
Print Assumptions C28_start_after_stop_refuted.

(** C29: a call by a thread that does not hold the lock returns, with the lock released ... *)
Theorem C29_dictionary_calls_return : forall m, m <> Values -> m <> IterValues -> run_lock (tsd_code m) false = Some false.
Proof. intros [] ? ?; try reflexivity; congruence. Qed.
Print Assumptions C29_dictionary_calls_return.
(** ... except for values() and itervalues(), which always block on themselves. *)
Theorem C29_values_deadlock_refuted : run_lock (tsd_code Values) false = None /\ run_lock (tsd_code IterValues) false = None.
Proof. split; reflexivity. Qed.
Print Assumptions C29_values_deadlock_refuted.

(** The run above, continued to the end: the hypotheses of C28 are met. *)
Example run2_stopped : exists s : st nat nat, reach_started 2 [0] s /\ stop s = Stopped /\ man s = Returned /\ processed s = [(8, 0); (7, 0)].
Proof.
  set (mk := fun a m x w c => St (event := nat) (observer := nat) [] a m x w [] [] c [(8, 0); (7, 0)] [7; 8]).
  assert (R0 : reach_started 2 [0] (mk Active Ready NotCalled [] false)) by exact run2.
  assert (R1 : reach_started 2 [0] (mk Active Waiting NotCalled [MailMan] false)) by (apply (rs_int _ _ _ _ R0), (step_deliver 2 [0] (mk Active Ready NotCalled [] false)); [split; discriminate|auto]).
  assert (R2 : reach_started 2 [0] (mk Active Waiting Checking [MailMan] false)) by (apply (rs_env _ _ _ _ R1), (step_call (mk Active Waiting NotCalled [MailMan] false)); auto).
  assert (R3 : reach_started 2 [0] (mk Active Waiting Shutting [MailMan] true)) by (apply (rs_int _ _ _ _ R2), (step_check 2 [0] (mk Active Waiting Checking [MailMan] false)); [split; discriminate|auto]).
  assert (R4 : reach_started 2 [0] (mk Finished Ready Stopped [] true)) by (apply (rs_int _ _ _ _ R3), (step_finish 2 [0] (mk Active Waiting Shutting [MailMan] true)); auto).
  exists (mk Finished Returned Stopped [] true). split; [|auto].
  apply (rs_int _ _ _ _ R4), (step_deliver 2 [0] (mk Finished Ready Stopped [] true)); [split; discriminate|auto].
Qed.
