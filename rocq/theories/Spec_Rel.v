(** Order-theoretic vocabulary for relations on the indices below [n], independent of the code. *)
From Coq Require Import Bool Relation_Operators.

(** [on n e]: the relation of a matrix, restricted to the nodes. *)
Definition on (n : nat) (e : nat -> nat -> bool) (i j : nat) : Prop := i < n /\ j < n /\ e i j = true.
Definition closure (n : nat) (e : nat -> nat -> bool) : nat -> nat -> Prop := clos_trans nat (on n e).
Definition strict_order (n : nat) (e : nat -> nat -> bool) : Prop :=
  (forall i, ~ on n e i i) /\ (forall i j k, on n e i j -> on n e j k -> on n e i k).
(** the matrix [e] without the edge from [a] to [b] *)
Definition without (e : nat -> nat -> bool) (a b : nat) : nat -> nat -> bool :=
  fun i j => if andb (Nat.eqb i a) (Nat.eqb j b) then false else e i j.
