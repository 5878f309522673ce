(** Vocabulary for the shape of POWL models, independent of the code. *)
From Coq Require Import List Arith.
Import ListNotations.
From Verif Require Import Model_Powl.

(** The nesting depth. *)
Fixpoint depth (t : powl) : nat :=
  S match t with
    | PLeaf _ => 0
    | PXor cs => list_max (map depth cs)
    | PLoop d r => Nat.max (depth d) (depth r)
    | PPo cs _ => list_max (map depth cs)
    end.
(** Every choice has at least two alternatives, as the constructor demands. *)
Inductive real_choices : powl -> Prop :=
| rc_leaf l : real_choices (PLeaf l)
| rc_xor cs : 2 <= length cs -> Forall real_choices cs -> real_choices (PXor cs)
| rc_loop d r : real_choices d -> real_choices r -> real_choices (PLoop d r)
| rc_po cs e : Forall real_choices cs -> real_choices (PPo cs e).
Definition is_choice (t : powl) : Prop := match t with PXor _ => True | _ => False end.
(** No alternative of a choice is a choice. *)
Inductive flat_choices : powl -> Prop :=
| fc_leaf l : flat_choices (PLeaf l)
| fc_xor cs : Forall (fun c => ~ is_choice c) cs -> Forall flat_choices cs -> flat_choices (PXor cs)
| fc_loop d r : flat_choices d -> flat_choices r -> flat_choices (PLoop d r)
| fc_po cs e : Forall flat_choices cs -> flat_choices (PPo cs e).
