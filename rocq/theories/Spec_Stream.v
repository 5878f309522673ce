From Coq Require Import List Arith.
Import ListNotations.
From Verif Require Import Model_Dict Model_Dfg Spec_Dfg Model_Stream.

(** The i-th event of the trace of a case deviates from the footprints. *)
Definition known (fp : footprints) (t : trace) (i a : nat) : Prop := nth_error t i = Some a /\ In a (fp_acts fp).
Definition deviating (fp : footprints) (t : trace) (i : nat) : Prop :=
  exists a, nth_error t i = Some a /\
   ( (* unknown activity *)
     ~ In a (fp_acts fp)
     (* first known activity of the case, but not a start activity *)
   \/ ((forall j b, j < i -> ~ known fp t j b) /\ ~ In a (fp_starts fp))
     (* follows the previous known activity, but not according to the footprints *)
   \/ (exists j p, j < i /\ known fp t j p /\ (forall k b, j < k < i -> ~ known fp t k b) /\ ~ In (p, a) (fp_pairs fp))).
(** The last known activity of the case. *)
Definition last_known (fp : footprints) (t : trace) (a : nat) : Prop :=
  exists i, known fp t i a /\ forall j b, i < j -> ~ known fp t j b.

(** The events of a case in a stream. *)
Definition case_events {N} (evs : list (sevent N)) (c : nat) : list (tevent N) :=
  flat_map (fun e => match e with Some (c', e) => if Nat.eqb c' c then [e] else [] | None => [] end) evs.
