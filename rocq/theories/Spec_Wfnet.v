(** Workflow nets. *)
From Coq Require Import List Arith.
Import ListNotations.
From Verif Require Import Model_Petri Model_Wfnet.

(** Directed paths along the arcs of the net. *)
Definition arc_to {L} (net : petri_net L) (x y : node) : Prop := exists t w, In t (n_trans net) /\
  ((exists p, x = PNode p /\ y = TNode (t_id t) /\ In (p, w) (t_in t)) \/ (exists p, x = TNode (t_id t) /\ y = PNode p /\ In (p, w) (t_out t))).
Inductive leads {L} (net : petri_net L) : node -> node -> Prop :=
| leads_refl x : leads net x x
| leads_step x y z : arc_to net x y -> leads net y z -> leads net x z.
Definition is_node {L} (net : petri_net L) (x : node) : Prop :=
  (exists p, In p (n_places net) /\ x = PNode p) \/ (exists t, In t (n_trans net) /\ x = TNode (t_id t)).
(** The only place without incoming (outgoing) arcs. *)
Definition only_source {L} (net : petri_net L) (i : nat) : Prop :=
  In i (n_places net) /\ forall p, In p (n_places net) -> ((forall x, ~ arc_to net x (PNode p)) <-> p = i).
Definition only_sink {L} (net : petri_net L) (o : nat) : Prop :=
  In o (n_places net) /\ forall p, In p (n_places net) -> ((forall x, ~ arc_to net (PNode p) x) <-> p = o).
(** Every node lies on a path from the source to the sink. *)
Definition workflow_net {L} (net : petri_net L) : Prop := exists i o, only_source net i /\ only_sink net o /\
  forall x, is_node net x -> leads net (PNode i) x /\ leads net x (PNode o).
(** The places are listed once, the transitions have different identities, and arcs end at places of the net. *)
Definition well_built {L} (net : petri_net L) : Prop := NoDup (n_places net) /\ NoDup (map t_id (n_trans net)) /\
  forall t p w, In t (n_trans net) -> In (p, w) (t_in t) \/ In (p, w) (t_out t) -> In p (n_places net).
(** Connected when arcs can be followed in both directions. *)
Inductive linked {L} (net : petri_net L) : node -> node -> Prop :=
| linked_refl x : linked net x x
| linked_step x y z : arc_to net x y \/ arc_to net y x -> linked net y z -> linked net x z.
