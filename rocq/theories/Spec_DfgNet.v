(** Specification: the traces of a directly-follows graph. *)
From Coq Require Import List.
Import ListNotations.

(** [ends_from edges ea a w]: after activity [a], the activities [w] follow edges of the graph and the last
    activity is an end activity. *)
Inductive ends_from (edges : list (nat * nat)) (ea : list nat) : nat -> list nat -> Prop :=
| ef_end a : In a ea -> ends_from edges ea a []
| ef_step a b w : In (a, b) edges -> ends_from edges ea b w -> ends_from edges ea a (b :: w).

(** A trace of the graph begins with a start activity, follows edges, stops at an end activity. *)
Inductive dfg_trace (edges : list (nat * nat)) (sa ea : list nat) : list nat -> Prop :=
| dt a w : In a sa -> ends_from edges ea a w -> dfg_trace edges sa ea (a :: w).

(** [a] occurs in an edge. *)
Definition in_edge (edges : list (nat * nat)) (a : nat) : Prop :=
  exists b, In (a, b) edges \/ In (b, a) edges.
