(** C50: the cut detection of the Inductive Miner.  [ord]: the iteration order of the Python sets. *)
From Coq Require Import List Arith Bool ZArith Lia Permutation.
Import ListNotations.
From Verif Require Import Model_Dict Model_Dfg Model_Graph Model_Tree Model_IM Spec_Graph Spec_IMCut.
From Verif Require Import Proofs_Dict Proofs_Graph Proofs_IM1 Proofs_IMCut Proofs_IMCut2 Proofs_IMCut3.
Local Open Scope nat_scope.

Theorem C50_choice : forall ord, (forall l, Permutation (ord l) l) -> forall g gs, xor_holds ord g = Some gs ->
  choice_cut g gs /\ forall hs, choice_cut g hs -> finer gs hs.
Proof.
  intros ord O g gs H. split; [eapply xor_sound; eauto|]. intros hs C. destruct (xor_complete ord O g hs C) as (gs' & E & F). assert (gs' = gs) by congruence. subst. auto.
Qed.
Theorem C50_choice_found : forall ord, (forall l, Permutation (ord l) l) -> forall g hs, choice_cut g hs -> xor_holds ord g <> None.
Proof. intros ord O g hs C. destruct (xor_complete ord O g hs C) as (gs & E & F). congruence. Qed.
Theorem C50_sequence : forall ord, (forall l, Permutation (ord l) l) -> forall g gs, seq_holds ord g = Some gs ->
  sequence_cut g gs /\ forall hs, sequence_cut g hs -> finer gs hs.
Proof.
  intros ord O g gs H. split; [eapply seq_sound; eauto|]. intros hs C. destruct (seq_complete ord O g hs C) as (gs' & E & F). assert (gs' = gs) by congruence. subst. auto.
Qed.
Theorem C50_sequence_found : forall ord, (forall l, Permutation (ord l) l) -> forall g hs, sequence_cut g hs -> seq_holds ord g <> None /\ strict_holds ord g <> None.
Proof.
  intros ord O g hs C. destruct (seq_complete ord O g hs C) as (gs & E & F). destruct (strict_complete ord O g hs C) as (gs' & E'). split; congruence.
Qed.
(** The strict variant joins some groups of the sequence cut, and what remains is a sequence cut. *)
Theorem C50_strict_sequence : forall ord, (forall l, Permutation (ord l) l) -> forall g gs, strict_holds ord g = Some gs ->
  sequence_cut g gs /\ exists cs, seq_holds ord g = Some cs /\ finer cs gs.
Proof. intros. apply strict_sound; auto. Qed.
Theorem C50_concurrency : forall g gs, par_holds g = Some gs -> concurrency_cut g gs.
Proof. apply par_sound. Qed.
Theorem C50_concurrency_found : forall g hs, concurrency_cut g hs -> (forall h, In h hs -> indivisible g h) ->
  exists gs, par_holds g = Some gs /\ forall a b, together gs a b <-> together hs a b.
Proof. intros g hs C I. destruct (par_complete g hs C I) as (gs & E & F1 & F2). exists gs. split; auto. intros a b. split; auto. Qed.
Theorem C50_loop : forall ord, (forall l, Permutation (ord l) l) -> forall g gs, NoDup (d_keys (start_acts g)) -> d_keys (start_acts g) <> [] -> loop_holds ord g = Some gs ->
  loop_cut_def g gs /\ forall hs, loop_cut_def g hs -> finer gs hs.
Proof.
  intros ord O g gs N Ns H. split; [eapply loop_sound; eauto|]. intros hs C. destruct (loop_complete ord O g N hs Ns C) as (gs' & E & F). assert (gs' = gs) by congruence. subst. auto.
Qed.
Theorem C50_loop_found : forall ord, (forall l, Permutation (ord l) l) -> forall g hs, NoDup (d_keys (start_acts g)) -> d_keys (start_acts g) <> [] ->
  loop_cut_def g hs -> loop_holds ord g <> None.
Proof. intros ord O g hs N Ns C. destruct (loop_complete ord O g N hs Ns C) as (gs & E & F). congruence. Qed.
(** What is handed to the projection: a cut of the kind that the operator says, and none of the kinds before it exists. *)
Theorem C50_find_cut : forall ord strict, (forall l, Permutation (ord l) l) -> forall g o gs, NoDup (d_keys (start_acts g)) -> d_keys (start_acts g) <> [] ->
  find_cut ord strict g = Some (o, gs) ->
  match o with
  | Xor => choice_cut g gs
  | Sequence => sequence_cut g gs /\ ~ exists hs, choice_cut g hs
  | Parallel => concurrency_cut g gs /\ (~ exists hs, choice_cut g hs) /\ ~ exists hs, sequence_cut g hs
  | Loop => loop_cut_def g gs /\ (~ exists hs, choice_cut g hs) /\ ~ exists hs, sequence_cut g hs
  | _ => False
  end.
Proof.
  intros ord strict O g o gs N Ns. unfold find_cut.
  assert (X : xor_holds ord g = None -> ~ exists hs, choice_cut g hs). { intros E (hs & C). apply (C50_choice_found ord O g hs C). auto. }
  assert (S : (if strict then strict_holds ord g else seq_holds ord g) = None -> ~ exists hs, sequence_cut g hs).
  { intros E (hs & C). destruct (C50_sequence_found ord O g hs C). destruct strict; auto. }
  destruct (xor_holds ord g) eqn:E1; [intros [= <- <-]; eapply xor_sound; eauto|].
  destruct (if strict then strict_holds ord g else seq_holds ord g) eqn:E2.
  { intros [= <- <-]. split; auto. destruct strict; [eapply strict_sound; eauto|eapply seq_sound; eauto]. }
  destruct (par_holds g) eqn:E3; [intros [= <- <-]; split; auto; apply par_sound; auto|].
  destruct (loop_holds ord g) eqn:E4; [|discriminate]. intros [= <- <-]. split; auto. eapply loop_sound; eauto.
Qed.
Theorem C50_no_cut : forall ord strict, (forall l, Permutation (ord l) l) -> forall g, NoDup (d_keys (start_acts g)) -> d_keys (start_acts g) <> [] ->
  find_cut ord strict g = None -> ~ exists hs, choice_cut g hs \/ sequence_cut g hs \/ loop_cut_def g hs \/ (concurrency_cut g hs /\ forall h, In h hs -> indivisible g h).
Proof.
  intros ord strict O g N Ns H (hs & C). unfold find_cut in H.
  destruct (xor_holds ord g) eqn:E1; [discriminate|]. destruct (if strict then strict_holds ord g else seq_holds ord g) eqn:E2; [discriminate|].
  destruct (par_holds g) eqn:E3; [discriminate|]. destruct (loop_holds ord g) eqn:E4; [discriminate|]. destruct C as [C|[C|[C|[C I]]]].
  - apply (C50_choice_found ord O g hs C). auto.
  - destruct (C50_sequence_found ord O g hs C). destruct strict; auto.
  - apply (C50_loop_found ord O g hs N Ns C). auto.
  - destruct (C50_concurrency_found g hs C I) as (gs & E & _). congruence.
Qed.

(** ** Finding: concurrency cuts whose groups can be divided, but not into groups with both a start and an end activity, may be missed.
    A directly-follows graph with start activities 1 and 3, end activities 2 and 4, and edges between all pairs has the cut {1,2}, {3,4}. *)
Definition all_pairs (l : list nat) : @counter (nat * nat) := map (fun p => (p, 1)) (filter (fun p => negb (Nat.eqb (fst p) (snd p))) (list_prod l l)).
Definition dfg_all : dfg := Dfg (all_pairs [1; 2; 3; 4]) [(1, 1); (3, 1)] [(2, 1); (4, 1)].
Theorem C50_concurrency_refuted : exists g hs, concurrency_cut g hs /\ par_holds g = None /\ find_cut (fun l => l) true g = None.
Proof.
  exists dfg_all, [[1; 2]; [3; 4]]. split; [|split; vm_compute; reflexivity]. split; [|split].
  - split; [|split; [|split; [repeat constructor; discriminate|auto]]].
    + repeat constructor; cbn; intuition congruence.
    + intros a. rewrite activity_vertex. change (In a [1; 2; 3; 4] <-> In a (get_vertices dfg_all)). vm_compute. tauto.
  - intros i j a b Nij (c & Ec & Ha) (d & Ed & Hb). unfold edge_of.
    destruct i as [|[|i]]; cbn in Ec; [injection Ec as <-|injection Ec as <-|destruct i; discriminate]; (destruct j as [|[|j]]; cbn in Ed; [injection Ed as <-|injection Ed as <-|destruct j; discriminate]); try congruence;
      destruct Ha as [<-|[<-|[]]], Hb as [<-|[<-|[]]]; vm_compute; tauto.
  - intros c [<-|[<-|[]]]; (split; [|]); unfold starts, ends.
    + exists 1. vm_compute; tauto. + exists 2. vm_compute; tauto.
    + exists 3. vm_compute; tauto. + exists 4. vm_compute; tauto.
Qed.

(** ** Cases that meet the hypotheses *)
(** <1,2>, <3,4>; <1,2,3>; <1,2>, <2,1>; <1,2>, <1,2,3,1,2> *)
Example C50_ex_choice : xor_holds (fun l => l) (Dfg [((1, 2), 1); ((3, 4), 1)] [(1, 1); (3, 1)] [(2, 1); (4, 1)]) = Some [[1; 2]; [3; 4]].
Proof. vm_compute. reflexivity. Qed.
Example C50_ex_sequence : seq_holds (fun l => l) (Dfg [((1, 2), 1); ((2, 3), 1)] [(1, 1)] [(3, 1)]) = Some [[1]; [2]; [3]].
Proof. vm_compute. reflexivity. Qed.
Example C50_ex_concurrency : par_holds (Dfg [((1, 2), 1); ((2, 1), 1)] [(1, 1); (2, 1)] [(2, 1); (1, 1)]) = Some [[1]; [2]].
Proof. vm_compute. reflexivity. Qed.
Example C50_ex_loop : loop_holds (fun l => l) (Dfg [((1, 2), 3); ((2, 3), 1); ((3, 1), 1)] [(1, 2)] [(2, 2)]) = Some [[1; 2]; [3]].
Proof. vm_compute. reflexivity. Qed.
Example C50_ex_find : option_map fst (find_cut (fun l => l) true (Dfg [((1, 2), 3); ((2, 3), 1); ((3, 1), 1)] [(1, 2)] [(2, 2)])) = Some Loop.
Proof. vm_compute. reflexivity. Qed.
Print Assumptions C50_choice.
Print Assumptions C50_choice_found.
Print Assumptions C50_sequence.
Print Assumptions C50_sequence_found.
Print Assumptions C50_strict_sequence.
Print Assumptions C50_concurrency.
Print Assumptions C50_concurrency_found.
Print Assumptions C50_loop.
Print Assumptions C50_loop_found.
Print Assumptions C50_find_cut.
Print Assumptions C50_no_cut.
Print Assumptions C50_concurrency_refuted.
