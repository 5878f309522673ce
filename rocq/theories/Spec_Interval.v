(** Intervals of time, independent of the code. *)
From Coq Require Import List Arith ZArith.
Import ListNotations.
From Verif Require Import Model_Interval.
Local Open Scope Z_scope.

(** Event [i] of trace [k]. *)
Definition event_at (l : ilog) (k i : nat) (e : iev) : Prop := exists t, nth_error l k = Some t /\ nth_error t i = Some e.
Definition forward (e : iev) : Prop := ie_start e <= ie_end e.
(** The two events share an instant; more than an instant if [strict]. *)
Definition share (strict : bool) (e1 e2 : iev) : Prop :=
  if strict then exists x y, x < y /\ ie_start e1 <= x /\ y <= ie_end e1 /\ ie_start e2 <= x /\ y <= ie_end e2
  else exists x, ie_start e1 <= x <= ie_end e1 /\ ie_start e2 <= x <= ie_end e2.
(** In the trace: by start, events that start together in the order of the trace. *)
Definition earlier (i j : nat) (e1 e2 : iev) : Prop := ie_start e1 < ie_start e2 \/ (ie_start e1 = ie_start e2 /\ (i < j)%nat).

(** Some event is running at the instant. *)
Definition busy (events : list (Z * Z)) (x : Z) : Prop := exists a b, In (a, b) events /\ a <= x < b.
(** [st] begins the last period without interruption. *)
Definition last_period (events : list (Z * Z)) (st : Z) : Prop :=
  (exists b, In (st, b) events) /\ (forall a b, In (a, b) events -> a < st -> b < st) /\
  (forall s b, In (s, b) events -> st < s -> exists a b', In (a, b') events /\ a < s /\ s <= b').

(** The span of a case. *)
Definition span (t : itrace) (p : Z * Z) : Prop :=
  (exists e, In e t /\ ie_start e = fst p) /\ (forall e, In e t -> fst p <= ie_start e) /\
  (exists e, In e t /\ ie_end e = snd p) /\ (forall e, In e t -> ie_end e <= snd p).
(** Two spans are closer than twice epsilon. *)
Definition near (eps : Z) (p q : Z * Z) : Prop := fst q - eps < snd p + eps /\ fst p - eps < snd q + eps.
