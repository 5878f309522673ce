(** What a batch is. *)
From Coq Require Import List ZArith.
From Verif Require Import Model_Batches.
Import ListNotations.
Open Scope Z_scope.

(** the interval reaches from the first start to the last end of its events, which are different *)
Definition spans (b : iv) : Prop :=
  NoDup (evs b) /\ (exists e, In e (evs b) /\ st e = lo b) /\ (exists e, In e (evs b) /\ et e = hi b) /\ forall e, In e (evs b) -> lo b <= st e /\ et e <= hi b.
(** the time between two events is at most [d] *)
Definition close (d : Z) (e f : ev) : Prop := st f - et e <= d /\ st e - et f <= d.
Definition earlier (a b : ev) : Prop := st a < st b \/ st a = st b /\ (et a < et b \/ et a = et b /\ (case a <= case b)%nat).
(** the events in the order of start, end and case *)
Definition in_order (l : list ev) : Prop := forall i j a b, (i < j)%nat -> nth_error l i = Some a -> nth_error l j = Some b -> earlier a b.
Definition same_start (l : list ev) : Prop := forall e f, In e l -> In f l -> st e = st f.
Definition same_end (l : list ev) : Prop := forall e f, In e l -> In f l -> et e = et f.
(** each event ends when the next one starts *)
Definition one_by_one (l : list ev) : Prop := forall i a b, nth_error l i = Some a -> nth_error l (S i) = Some b -> et a = st b.
