(** The cuts of a directly-follows graph that the Inductive Miner looks for. *)
From Coq Require Import List Arith.
Import ListNotations.
From Verif Require Import Model_Dict Model_Dfg Model_Graph Spec_Graph.

Definition edge_of (g : dfg) (a b : nat) : Prop := In (a, b) (d_keys (graph g)).
Definition starts (g : dfg) (a : nat) : Prop := In a (d_keys (start_acts g)).
Definition ends (g : dfg) (a : nat) : Prop := In a (d_keys (end_acts g)).
Definition activity_of (g : dfg) (a : nat) : Prop := (exists b, edge_of g a b \/ edge_of g b a) \/ starts g a \/ ends g a.
Definition reaches (g : dfg) (a b : nat) : Prop := path (d_keys (graph g)) a b.

(** At least two nonempty, disjoint groups that cover the activities. *)
Definition cut_of (g : dfg) (gs : list (list nat)) : Prop :=
  NoDup (concat gs) /\ (forall a, In a (concat gs) <-> activity_of g a) /\ Forall (fun c => c <> []) gs /\ 2 <= length gs.
Definition at_group (gs : list (list nat)) (i a : nat) : Prop := exists c, nth_error gs i = Some c /\ In a c.
Definition together (gs : list (list nat)) (a b : nat) : Prop := exists c, In c gs /\ In a c /\ In b c.
Definition finer (gs hs : list (list nat)) : Prop := forall a b, together gs a b -> together hs a b.

(** Exclusive choice: no edges between different groups. *)
Definition choice_cut (g : dfg) (gs : list (list nat)) : Prop := cut_of g gs /\
  forall i j a b, i <> j -> at_group gs i a -> at_group gs j b -> ~ edge_of g a b.
(** Sequence: from an activity one gets to those of the later groups, and not back. *)
Definition sequence_cut (g : dfg) (gs : list (list nat)) : Prop := cut_of g gs /\
  forall i j a b, i < j -> at_group gs i a -> at_group gs j b -> reaches g a b /\ ~ reaches g b a.
(** Concurrency: edges (in both directions) between any two activities of different groups, and a start and an end activity in each group. *)
Definition concurrency_cut (g : dfg) (gs : list (list nat)) : Prop := cut_of g gs /\
  (forall i j a b, i <> j -> at_group gs i a -> at_group gs j b -> edge_of g a b) /\
  (forall c, In c gs -> (exists a, In a c /\ starts g a) /\ (exists a, In a c /\ ends g a)).
(** Loop: the first group is the body, the others are redo parts. *)
Record loop_cut_def (g : dfg) (gs : list (list nat)) : Prop := {
  lc_cut : cut_of g gs;
  lc_start : forall a, starts g a -> at_group gs 0 a;
  lc_end : forall a, ends g a -> at_group gs 0 a;
  lc_apart : forall i j a b, i <> 0 -> j <> 0 -> i <> j -> at_group gs i a -> at_group gs j b -> ~ edge_of g a b;
  lc_leave : forall i a b, i <> 0 -> at_group gs 0 a -> at_group gs i b -> edge_of g a b -> ends g a;
  lc_return : forall i a b, i <> 0 -> at_group gs i a -> at_group gs 0 b -> edge_of g a b -> starts g b;
  lc_all_starts : forall i a b b', i <> 0 -> at_group gs i a -> starts g b -> starts g b' -> edge_of g a b -> edge_of g a b';
  lc_all_ends : forall i a b b', i <> 0 -> at_group gs i a -> ends g b -> ends g b' -> edge_of g b a -> edge_of g b' a }.

(** A group that cannot be divided further by a concurrency cut, whatever its start and end activities. *)
Definition indivisible (g : dfg) (c : list nat) : Prop := forall p q, p <> [] -> q <> [] -> (forall a, In a c <-> In a p \/ In a q) ->
  exists a b, In a p /\ In b q /\ ~ (edge_of g a b /\ edge_of g b a).
