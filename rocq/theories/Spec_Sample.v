(** Rows of a case, orders. *)
From Coq Require Import List Arith ZArith Bool Permutation.
From Verif Require Import Model_Sample.
Import ListNotations.

Section spec.
Context {A : Type}.
Definition of_case (df : list (row A)) (c : nat) : list (row A) := filter (fun r => case r =? c) df.
(** [l] has the rows of [k] in the order of time; rows with the same time stay in their order *)
Definition by_time (k l : list (row A)) : Prop :=
  Permutation k l /\ (forall i j a b, i < j -> nth_error l i = Some a -> nth_error l j = Some b -> (ts a <= ts b)%Z) /\ forall z, filter (fun r => (ts r =? z)%Z) l = filter (fun r => (ts r =? z)%Z) k.
End spec.
