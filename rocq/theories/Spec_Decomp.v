(** Components of a net. *)
From Coq Require Import List ZArith.
Import ListNotations.
From Verif Require Import Model_Petri Spec_Petri.
(** [us] is the part of the firing sequence [ts] that a component sees: the occurrences, in order, of the transitions that the component has. *)
Definition seen_by (comp : petri_net (option nat)) (ts us : list (transition (option nat))) : Prop :=
  (forall u, In u us -> In u (n_trans comp)) /\
  exists has : nat -> bool, (forall i, has i = true <-> In i (map t_id (n_trans comp))) /\ map t_id us = filter has (map t_id ts).
(** The activities of a net; the projection of a trace to them; no two transitions with the same activity. *)
Definition labelled (comp : petri_net (option nat)) (a : nat) : Prop := exists t, In t (n_trans comp) /\ t_label t = Some a.
Definition projected (comp : petri_net (option nat)) (w v : list nat) : Prop := exists has : nat -> bool, (forall a, has a = true <-> labelled comp a) /\ v = filter has w.
Definition unique_labels (net : petri_net (option nat)) : Prop := forall t u a, In t (n_trans net) -> In u (n_trans net) -> t_label t = Some a -> t_label u = Some a -> t = u.
