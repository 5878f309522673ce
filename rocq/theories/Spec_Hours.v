(** Business time. *)
From Coq Require Import List ZArith.
Import ListNotations.
Local Open Scope Z_scope.
(** The tick [x] (counted from a Monday 00:00, [u] ticks per second) lies between second [b] and second [e] of its week. *)
Definition within (u b e x : Z) : Prop := b * u <= x mod (7 * 24 * 60 * 60 * u) < e * u.
(** Exactly [n] ticks of the interval from [t1] to [t2] satisfy [P]. *)
Definition measures (P : Z -> Prop) (t1 t2 n : Z) : Prop :=
  exists l, NoDup l /\ (forall x, In x l <-> t1 <= x < t2 /\ P x) /\ n = Z.of_nat (length l).
(** Slots of one week, given by their first and last second. *)
Definition weekly (slots : list (Z * Z)) : Prop := forall b e, In (b, e) slots -> 0 <= b <= e /\ e <= 7 * 24 * 60 * 60.
