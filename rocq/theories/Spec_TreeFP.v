(** What the footprints of a process tree should be, in terms of its language only. *)
From Coq Require Import List.
Import ListNotations.
From Verif Require Import Model_Tree Spec_Tree.

(** [a] is directly followed by [b] in some trace of the language [L]. *)
Definition follows (L : list nat -> Prop) (a b : nat) : Prop := exists w1 w2, L (w1 ++ a :: b :: w2).
Definition begins (L : list nat -> Prop) (a : nat) : Prop := exists w, L (a :: w).
Definition finishes (L : list nat -> Prop) (a : nat) : Prop := exists w, L (w ++ [a]).
Definition occurs (L : list nat -> Prop) (a : nat) : Prop := exists w, L w /\ In a w.
Definition always (L : list nat -> Prop) (a : nat) : Prop := forall w, L w -> In a w.

(** The trees for which the footprints are exact: sequence, choice, parallel, and loops with one
    redo child. *)
Definition fp_shape (t : tree nat) : Prop :=
  match t with
  | Leaf _ => True
  | Node (Sequence | Xor | Parallel) cs => cs <> []
  | Node Loop cs => length cs = 2
  | Node _ _ => False
  end.
Definition fp_tree (t : tree nat) : Prop := everywhere fp_shape t.

(** The labels of the visible leaves from left to right. *)
Fixpoint leaf_labels (t : tree nat) : list nat :=
  match t with
  | Leaf None => []
  | Leaf (Some a) => [a]
  | Node _ cs => concat (map leaf_labels cs)
  end.
(** No two leaves have the same label and every operator node has a visible leaf below it. *)
Definition unique_labels (t : tree nat) : Prop :=
  NoDup (leaf_labels t) /\ everywhere (fun u => match u with Leaf _ => True | Node _ _ => leaf_labels u <> [] end) t.
