(** Nets that can be saved and loaded. *)
From Coq Require Import List ZArith.
Import ListNotations.
From Verif Require Import Model_Dict Model_Parse Model_Pnml.
(** Distinct names of places and of transitions; arcs between them with positive weights; inhibitor and reset arcs lead from places to
    transitions; no arc from a transition to a place can be mistaken for an arc from a place to a transition; no empty labels. *)
Definition storable (net : p_net) : Prop :=
  NoDup (p_places net) /\ NoDup (map fst (p_trans net)) /\
  (forall a, In a (p_arcs net) -> In (a_place a) (p_places net) /\ In (a_trans a) (map fst (p_trans net)) /\ (1 <= a_weight a)%Z /\
     (to_trans a = false -> a_type a = Plain /\ ~ (In (a_trans a) (p_places net) /\ In (a_place a) (map fst (p_trans net))))) /\
  (forall t, In t (p_trans net) -> snd t <> Some []).
(** A marking of the net. *)
Definition marking_of (net : p_net) (m : p_marking) : Prop := NoDup (map fst m) /\ forall p n, In (p, n) m -> In p (p_places net) /\ (0 < n)%Z.
Definition has_arc (net : p_net) (ty : arc_type) : Prop := exists a, In a (p_arcs net) /\ a_type a = ty.
