(** The part of a marking on the places of a net. *)
From stdpp Require Import gmap.
From Coq Require Import ZArith List.
From Verif Require Import Model_Petri Spec_Petri.
(** m' is m without the tokens on places outside the net. *)
Definition part_of (net : petri_net (option nat)) (m m' : marking) : Prop :=
  forall p, (In p (n_places net) -> tokens m' p = tokens m p) /\ (~ In p (n_places net) -> tokens m' p = 0%Z).
(** Corresponding firing sequences: the same transitions, with the same labels. *)
Definition same_firings (ts us : list (transition (option nat))) : Prop := map t_id ts = map t_id us /\ map t_label ts = map t_label us.
(** Arcs and tokens are on places of the net. *)
Definition arcs_on_places (net : petri_net (option nat)) : Prop :=
  forall t p w, In t (n_trans net) -> In (p, w) (t_in t) \/ In (p, w) (t_out t) -> In p (n_places net).
Definition marks_places (net : petri_net (option nat)) (m : marking) : Prop := forall p v, m !! p = Some v -> In p (n_places net).
