(** Dataframes. *)
From Coq Require Import List ZArith.
Import ListNotations.
From Verif Require Import Model_Dict Model_Filter Model_FilterDf.
(** The column has no missing value. *)
Definition complete (key : nat) (d : df) : Prop := forall r, In r d -> exists v, col key r = Some v.
(** The rows of a case are next to each other. *)
Definition contiguous (d : df) : Prop := forall i j k r s t, i < j -> j < k -> nth_error d i = Some r -> nth_error d j = Some s -> nth_error d k = Some t ->
  r_case r = r_case t -> r_case s = r_case r.
(** The value occurs at most once per case. *)
Definition once (key : nat) (v : Z) (d : df) : Prop := forall i j r s, nth_error d i = Some r -> nth_error d j = Some s -> r_case r = r_case s ->
  col key r = Some v -> col key s = Some v -> i = j.
(** The timestamps do not decrease within a case. *)
Definition chronological (ts : nat) (d : df) : Prop := forall i j r s a b, i < j -> nth_error d i = Some r -> nth_error d j = Some s -> r_case r = r_case s ->
  col ts r = Some a -> col ts s = Some b -> (a <= b)%Z.
