(** Paths in a graph given by its edges. *)
From Coq Require Import List Arith.
Import ListNotations.
From Verif Require Import Model_Graph.

Inductive path (E : list edge) : nat -> nat -> Prop :=
| path_refl x : path E x x
| path_step x y z : In (x, y) E -> path E y z -> path E x z.
(** a path with at least one edge *)
Definition path1 (E : list edge) (x z : nat) : Prop := exists y, In (x, y) E /\ path E y z.
