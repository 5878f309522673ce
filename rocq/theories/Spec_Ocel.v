(** What an object-centric event log says, independent of the code that works on it. *)
From Coq Require Import List Arith ZArith Relations.
Import ListNotations.
From Verif Require Import Model_Ocel Spec_Filter Spec_Dfg.

Definition is_event (o : ocel) (e : nat) : Prop := exists x, In x (o_events o) /\ oe_id x = e.
Definition is_object (o : ocel) (b : nat) : Prop := exists x, In x (o_objects o) /\ oo_id x = b.
Definition related (o : ocel) (e b : nat) : Prop := exists r, In r (o_rels o) /\ or_event r = e /\ or_object r = b.
(** Every identifier used in a table is an identifier of an event or object. *)
Definition referential (o : ocel) : Prop :=
  (forall e b, related o e b -> is_event o e /\ is_object o b) /\
  (forall e f, In (e, f) (o_e2e o) -> is_event o e /\ is_event o f) /\
  (forall a b, In (a, b) (o_o2o o) -> is_object o a /\ is_object o b) /\
  (forall c, In c (o_changes o) -> is_object o (oc_object c)).
(** Identifiers are unique, and a relation repeats the activity of its event and the type of its object. *)
Definition well_formed (o : ocel) : Prop :=
  referential o /\ NoDup (map oe_id (o_events o)) /\ NoDup (map oo_id (o_objects o)) /\
  (forall r e, In r (o_rels o) -> In e (o_events o) -> or_event r = oe_id e -> or_act r = oe_act e /\ or_time r = oe_time e) /\
  (forall r b, In r (o_rels o) -> In b (o_objects o) -> or_object r = oo_id b -> or_type r = oo_type b).

(** [o'] is the part of [o] with these events, objects and relations: rows are kept unmodified and in order, and the other
    tables keep what speaks only of the kept events and objects. *)
Record part (PE : oevent -> Prop) (PO : oobject -> Prop) (PR : orel -> Prop) (o o' : ocel) : Prop := Part {
  part_events : Selected PE (o_events o) (o_events o');
  part_objects : Selected PO (o_objects o) (o_objects o');
  part_rels : Selected PR (o_rels o) (o_rels o');
  part_e2e : Selected (fun p => is_event o' (fst p) /\ is_event o' (snd p)) (o_e2e o) (o_e2e o');
  part_o2o : Selected (fun p => is_object o' (fst p) /\ is_object o' (snd p)) (o_o2o o) (o_o2o o');
  part_changes : Selected (fun c => is_object o' (oc_object c)) (o_changes o) (o_changes o') }.
(** The part of the log given by its events: their relations, and the objects of these. *)
Definition part_by_events (P : oevent -> Prop) (o o' : ocel) : Prop :=
  part P (fun b => exists e, In e (o_events o) /\ P e /\ related o (oe_id e) (oo_id b))
    (fun r => exists e, In e (o_events o) /\ P e /\ oe_id e = or_event r) o o'.
(** The part of the log given by its objects: their relations, and the events of these. *)
Definition part_by_objects (P : oobject -> Prop) (o o' : ocel) : Prop :=
  part (fun e => exists b, In b (o_objects o) /\ P b /\ related o (oe_id e) (oo_id b)) P
    (fun r => exists b, In b (o_objects o) /\ P b /\ oo_id b = or_object r) o o'.
(** The part of the log given by its relations. *)
Definition part_by_relations (P : orel -> Prop) (o o' : ocel) : Prop :=
  part (fun e => exists r, In r (o_rels o) /\ P r /\ or_event r = oe_id e) (fun b => exists r, In r (o_rels o) /\ P r /\ or_object r = oo_id b) P o o'.

(** Two different objects take part in an event. *)
Definition meet (o : ocel) (a b : nat) : Prop := a <> b /\ exists e, related o e a /\ related o e b.
(** At most n meetings away. *)
Inductive within (o : ocel) : nat -> nat -> nat -> Prop :=
| within_refl n a : within o n a a
| within_step n a b c : within o n a b -> meet o b c -> within o (S n) a c.
(** In the same connected component. *)
Definition linked (o : ocel) : nat -> nat -> Prop := clos_refl_trans nat (meet o).

(** [e] is the first / last event of the object, in the order of the events of the log. *)
Definition first_event (o : ocel) (b e : nat) : Prop :=
  exists pre x post, o_events o = pre ++ x :: post /\ oe_id x = e /\ related o e b /\ forall y, In y pre -> ~ related o (oe_id y) b.
Definition last_event (o : ocel) (b e : nat) : Prop :=
  exists pre x post, o_events o = pre ++ x :: post /\ oe_id x = e /\ related o e b /\ forall y, In y post -> ~ related o (oe_id y) b.
(** The first / last row for an object, among the relations of a type. *)
Definition first_row (o : ocel) (ot : nat) (r : orel) : Prop :=
  exists pre post, o_rels o = pre ++ r :: post /\ or_type r = ot /\ forall s, In s pre -> or_type s = ot -> or_object s <> or_object r.
Definition last_row (o : ocel) (ot : nat) (r : orel) : Prop :=
  exists pre post, o_rels o = pre ++ r :: post /\ or_type r = ot /\ forall s, In s post -> or_type s = ot -> or_object s <> or_object r.
(** The number of relations of the event with objects of the type. *)
Definition type_count (o : ocel) (e ot n : nat) : Prop :=
  exactly n (fun i => exists r, nth_error (o_rels o) i = Some r /\ or_event r = e /\ or_type r = ot).
