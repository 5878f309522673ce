(** What a sound accepting net with one source and one sink is (van der Aalst's soundness plus
    safeness), in terms of Spec_Petri only. *)
From Coq Require Import List ZArith.
From Verif Require Import Model_Petri Spec_Petri Model_Tree.

(** [src] and [snk] are places of the net; all arcs end in places of the net; [src] has no incoming
    and [snk] no outgoing arc, every other place has both. *)
Definition flow_structure (pn : petri_net (option nat)) (src snk : nat) : Prop :=
  (forall t p, In t (n_trans pn) -> In p (map fst (t_in t)) -> In p (n_places pn) /\ p <> snk) /\
  (forall t p, In t (n_trans pn) -> In p (map fst (t_out t)) -> In p (n_places pn) /\ p <> src) /\
  (forall p, In p (n_places pn) -> p <> snk -> exists t, In t (n_trans pn) /\ In p (map fst (t_in t))) /\
  (forall p, In p (n_places pn) -> p <> src -> exists t, In t (n_trans pn) /\ In p (map fst (t_out t))).
Definition safe (pn : petri_net (option nat)) (im : marking) : Prop :=
  forall m p, reachable pn im m -> (tokens m p <= 1)%Z.
Definition option_to_complete (pn : petri_net (option nat)) (im fm : marking) : Prop :=
  forall m, reachable pn im m -> reachable pn m fm.
Definition proper_completion (pn : petri_net (option nat)) (im fm : marking) (snk : nat) : Prop :=
  forall m, reachable pn im m -> (1 <= tokens m snk)%Z -> m = fm.
Definition no_dead_transitions (pn : petri_net (option nat)) (im : marking) : Prop :=
  forall t, In t (n_trans pn) -> exists m m', reachable pn im m /\ fires pn t m m'.

(** OR operators have at least two children. *)
Definition or_has_two (t : tree nat) : Prop :=
  match t with Node Or cs => 2 <= length cs | _ => True end.
