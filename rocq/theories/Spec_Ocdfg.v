(** Directly-follows relations per object. *)
From Coq Require Import List Arith ZArith.
Import ListNotations.
From Verif Require Import Model_Ocel Spec_Ocel.
(** no event is related twice to the same object *)
Definition related_once (o : ocel) : Prop := NoDup (map (fun r => (or_event r, or_object r)) (o_rels o)).
(** [e2] is the next event of the object [b] after [e1], in the order of the events of the log *)
Definition next_event (o : ocel) (b e1 e2 : nat) : Prop :=
  exists pre x mid y post, o_events o = pre ++ x :: mid ++ y :: post /\ oe_id x = e1 /\ oe_id y = e2 /\
    related o e1 b /\ related o e2 b /\ forall z, In z mid -> ~ related o (oe_id z) b.
Definition has_activity (o : ocel) (e a : nat) : Prop := exists x, In x (o_events o) /\ oe_id x = e /\ oe_act x = a.
Definition has_type (o : ocel) (b ot : nat) : Prop := exists x, In x (o_objects o) /\ oo_id x = b /\ oo_type x = ot.
Definition happens_at (o : ocel) (e : nat) (t : Z) : Prop := exists x, In x (o_events o) /\ oe_id x = e /\ oe_time x = t.
