(** What the Inductive Miner promises. *)
From Coq Require Import List.
Import ListNotations.
From Verif Require Import Model_Tree Spec_Tree.

(** The activities at the visible leaves of a tree, from left to right. *)
Fixpoint leaves (t : tree nat) : list nat :=
  match t with
  | Leaf (Some a) => [a]
  | Leaf None => []
  | Node _ cs => concat (map leaves cs)
  end.
