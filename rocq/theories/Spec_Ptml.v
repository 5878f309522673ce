(** Process trees that can be saved and loaded. *)
From Coq Require Import List.
Import ListNotations.
From Verif Require Import Model_Tree Spec_Tree.
(** No interleaving operator, and every loop has a do and a redo child. *)
Definition writable {A} (t : tree A) : Prop :=
  everywhere (fun u => match u with Node Interleaving _ => False | Node Loop cs => length cs = 2 | _ => True end) t.
