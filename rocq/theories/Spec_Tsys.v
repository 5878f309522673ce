(** Views of traces and transition systems. *)
From Coq Require Import List Arith Permutation.
Import ListNotations.
From Verif Require Import Model_Dfg Model_Tsys.

(** The view of the trace at position i: the (at most w) next or last activities. *)
Definition view_at (d : direction) (w : nat) (t : trace) (i : nat) (u : trace) : Prop :=
  exists pre post, t = pre ++ u ++ post /\
    match d with
    | Forward => length pre = i /\ length u = Nat.min w (length t - i)
    | Backward => length (pre ++ u) = i /\ length u = Nat.min w i
    end.
(** Two views with the same abstraction. *)
Definition same_view (k : view_kind) (u v : trace) : Prop :=
  match k with
  | Sequence => u = v
  | Multiset => Permutation u v
  | Set_ => forall a, In a u <-> In a v
  end.
(** A state (identity s) whose name is the abstraction of the view of t at i. *)
Definition shows (k : view_kind) (d : direction) (w : nat) (ts : tsys) (t : trace) (i s : nat) : Prop :=
  exists name u, In (s, name) (ts_states ts) /\ view_at d w t i u /\ same_view k name u.
