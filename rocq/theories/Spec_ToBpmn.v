(** Accepting Petri nets with one start and one end place, as the conversion to BPMN supports them. *)
From Coq Require Import List.
Import ListNotations.
From Verif Require Import Model_Petri Spec_Petri Model_Bpmn.

(** Transitions are distinguished by their identity and arcs have weight one; the places are listed once; every transition has an input and an output place;
    all arcs, the start and the end place refer to places of the net. *)
Definition convertible (net : petri_net (option nat)) (i o : nat) : Prop :=
  distinct_ids net /\ unit_weights net /\ NoDup (n_places net) /\ In i (n_places net) /\ In o (n_places net) /\
  forall t, In t (n_trans net) -> t_in t <> [] /\ t_out t <> [] /\ forall p, In p (map fst (t_in t)) \/ In p (map fst (t_out t)) -> In p (n_places net).
(** Places on a path along the arcs of the net from place [i]. *)
Inductive on_path (net : petri_net (option nat)) (i : nat) : nat -> Prop :=
| op_start : on_path net i i
| op_step p t q : on_path net i p -> In t (n_trans net) -> In p (map fst (t_in t)) -> In q (map fst (t_out t)) -> on_path net i q.
(** Nodes of a diagram that can be reached from node [s] along the sequence flows. *)
Inductive arrives (d : diagram) (s : nat) : nat -> Prop :=
| ar_here : arrives d s s
| ar_flow x f y : arrives d s x -> In (f, (x, y)) (b_flows d) -> arrives d s y.
