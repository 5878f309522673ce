(** The trees whose printed form can be read back. *)
From Coq Require Import String Ascii List.
Import ListNotations.
From Verif Require Import Model_Tree Spec_Tree Model_Parse.

(** Labels without quote, carriage return and newline (any other character is fine: spaces,
    commas, parentheses, operator symbols, "tau", the empty label). *)
Definition label_ok (l : text) : Prop := forall c, In c l -> c <> "'"%char /\ c <> "013"%char /\ c <> "010"%char.
Definition node_ok (t : tree text) : Prop :=
  match t with
  | Leaf None => True
  | Leaf (Some l) => label_ok l
  | Node _ cs => cs <> []
  end.
Definition printable (t : tree text) : Prop := everywhere node_ok t /\ forall l, t <> Leaf (Some l).
