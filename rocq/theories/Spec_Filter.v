(** What the filters promise, said of the events of a case and their attribute values. *)
From Coq Require Import List ZArith.
Import ListNotations.
From Verif Require Import Model_Dict Model_Filter.
From Verif Require Spec_Dfg.

(** [r] is the list of the elements of [l] satisfying [P], unmodified and in the same order. *)
Inductive Selected {X} (P : X -> Prop) : list X -> list X -> Prop :=
| sel_nil : Selected P [] []
| sel_keep x l r : P x -> Selected P l r -> Selected P (x :: l) (x :: r)
| sel_drop x l r : ~ P x -> Selected P l r -> Selected P (x :: l) r.
(** [l] is split into [p] and [n]: each element goes to exactly one of them, in order. *)
Inductive Splits {X} : list X -> list X -> list X -> Prop :=
| spl_nil : Splits [] [] []
| spl_left x l p n : Splits l p n -> Splits (x :: l) (x :: p) n
| spl_right x l p n : Splits l p n -> Splits (x :: l) p (x :: n).
(** The condition itself or its negation. *)
Definition polar (positive : bool) (P : Prop) : Prop := if positive then P else ~ P.

(** The event has the value at the attribute; the case has the value at the attribute. *)
Definition value (key : nat) (e : event) (v : Z) : Prop := d_get e key = Some v.
(** Every event of every case has the attribute. *)
Definition everywhere (key : nat) (l : flog) : Prop := forall c e, In c l -> In e (c_events c) -> exists v, value key e v.
(** The values of the case at the attribute are [vs]: its variant, for the activity attribute. *)
Definition trace_is (key : nat) (c : case) (vs : list Z) : Prop := Forall2 (value key) (c_events c) vs.
(** In a list of events: the values occur in this order, with any events before, between and after. *)
Inductive Eventually (key : nat) : list Z -> list event -> Prop :=
| ev_nil es : Eventually key [] es
| ev_hit v vs e es : value key e v -> Eventually key vs es -> Eventually key (v :: vs) (e :: es)
| ev_skip vs e es : Eventually key vs es -> Eventually key vs (e :: es).
(** Two / three events in direct succession. *)
Definition adjacent (es : list event) (e1 e2 : event) : Prop := exists p s, es = p ++ e1 :: e2 :: s.
Definition adjacent3 (es : list event) (e1 e2 e3 : event) : Prop := exists p s, es = p ++ e1 :: e2 :: e3 :: s.
(** The resource executed the activity in the case. *)
Definition performs (key res : nat) (c : case) (a r : Z) : Prop := exists e, In e (c_events c) /\ value key e a /\ value res e r.
Definition first_is (c : case) (e : event) : Prop := exists es, c_events c = e :: es.
Definition last_is (c : case) (e : event) : Prop := exists es, c_events c = es ++ [e].
(** The value occurs n times in the case. *)
Definition occurs (key : nat) (c : case) (v : Z) (n : nat) : Prop :=
  Spec_Dfg.exactly n (fun i => exists e, nth_error (c_events c) i = Some e /\ value key e v).
(** n cases of the log have this variant. *)
Definition variant_count (key : nat) (l : flog) (vs : list Z) (n : nat) : Prop :=
  Spec_Dfg.exactly n (fun i => exists c, nth_error l i = Some c /\ trace_is key c vs).
