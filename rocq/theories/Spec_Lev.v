(** What an edit distance is. *)
From Coq Require Import List.
Import ListNotations.

(** One insertion, deletion or substitution of a character. *)
Inductive edit1 : list nat -> list nat -> Prop :=
| e_ins l x r : edit1 (l ++ r) (l ++ x :: r)
| e_del l x r : edit1 (l ++ x :: r) (l ++ r)
| e_sub l x y r : edit1 (l ++ x :: r) (l ++ y :: r).

(** [edits n a b]: [n] edit operations turn [a] into [b]. *)
Inductive edits : nat -> list nat -> list nat -> Prop :=
| ed_0 a : edits 0 a a
| ed_S n a b c : edit1 a b -> edits n b c -> edits (S n) a c.

Definition edit_distance (a b : list nat) (n : nat) : Prop :=
  edits n a b /\ forall k, edits k a b -> n <= k.
