(** Specification of Petri-net behaviour, independent of the operational model
    (only the data types of Model_Petri are used). *)
From stdpp Require Import gmap.
From Coq Require Import ZArith.
From Verif Require Import Model_Petri.
Local Open Scope Z_scope.

(** Number of tokens of a place. *)
Definition tokens (m : marking) (p : nat) : Z := match m !! p with Some v => v | None => 0 end.

(** A proper marking: no zero or negative entries. *)
Definition proper (m : marking) : Prop := forall p v, m !! p = Some v -> 0 < v.

(** Total weight of the arcs in [arcs] attached to place [p]. *)
Fixpoint weight (arcs : list (nat * Z)) (p : nat) : Z :=
  match arcs with
  | [] => 0
  | (q, w) :: r => (if Nat.eqb q p then w else 0) + weight r p
  end.

(** No parallel arcs, positive weights. *)
Definition simple_arcs (arcs : list (nat * Z)) : Prop :=
  List.NoDup (map fst arcs) /\ forall p w, In (p, w) arcs -> 0 < w.
Definition simple_trans {L} (t : transition L) : Prop :=
  simple_arcs (t_in t) /\ simple_arcs (t_out t).
Definition simple_net {L} (pn : petri_net L) : Prop :=
  forall t, In t (n_trans pn) -> simple_trans t.

(** The textbook firing rule. *)
Definition enabled_at {L} (t : transition L) (m : marking) : Prop :=
  forall p, weight (t_in t) p <= tokens m p.
Definition fires {L} (pn : petri_net L) (t : transition L) (m m' : marking) : Prop :=
  In t (n_trans pn) /\ enabled_at t m /\ proper m' /\
  forall p, tokens m' p = tokens m p - weight (t_in t) p + weight (t_out t) p.

(** Firing sequences. *)
Inductive run {L} (pn : petri_net L) : marking -> list (transition L) -> marking -> Prop :=
| run_nil m : run pn m [] m
| run_cons m t m1 ts m2 : fires pn t m m1 -> run pn m1 ts m2 -> run pn m (t :: ts) m2.

Definition reachable {L} (pn : petri_net L) (m m' : marking) : Prop := exists ts, run pn m ts m'.

(** Visible labels spelled by a firing sequence. *)
Fixpoint visible (ts : list (transition (option nat))) : list nat :=
  match ts with
  | [] => []
  | t :: r => match t_label t with Some a => a :: visible r | None => visible r end
  end.

(** The language of an accepting net. *)
Definition accepts (pn : petri_net (option nat)) (im fm : marking) (w : list nat) : Prop :=
  exists ts, run pn im ts fm /\ visible ts = w.

(** Multiset sum of markings, as a relation on token counts. *)
Definition is_sum (m n k : marking) : Prop := forall p, tokens k p = tokens m p + tokens n p.

(** Parikh image: how often transition [u] occurs in [ts] (by identity). *)
Definition firings {L} (ts : list (transition L)) (u : transition L) : Z :=
  Z.of_nat (length (List.filter (fun t => Nat.eqb (t_id t) (t_id u)) ts)).
Fixpoint zsum {A} (f : A -> Z) (l : list A) : Z :=
  match l with [] => 0 | x :: r => f x + zsum f r end.

(** All arc weights are 1. *)
Definition unit_weights {L} (pn : petri_net L) : Prop :=
  forall t, In t (n_trans pn) -> forall p w, In (p, w) (t_in t) \/ In (p, w) (t_out t) -> w = 1.

(** Transitions are identified by their id. *)
Definition distinct_ids {L} (pn : petri_net L) : Prop := List.NoDup (map t_id (n_trans pn)).

(** Inhibitor/reset nets: at most one input arc per place, positive weights. *)
Definition ir_simple (t : ir_transition) : Prop :=
  List.NoDup (map (fun a : nat * Z * arc_kind => a.1.1) (ir_in t)) /\
  (forall p w k, In (p, w, k) (ir_in t) -> 0 < w) /\
  List.NoDup (map fst (ir_out t)) /\ (forall p w, In (p, w) (ir_out t) -> 0 < w).
Definition ir_enabled_at (t : ir_transition) (m : marking) : Prop :=
  (forall p w, In (p, w, Normal) (ir_in t) -> w <= tokens m p) /\
  (forall p w, In (p, w, Inhibitor) (ir_in t) -> tokens m p = 0).
(** tokens left in [p] after the consumption phase *)
Definition ir_left (t : ir_transition) (m : marking) (p : nat) (v : Z) : Prop :=
  (forall w, In (p, w, Normal) (ir_in t) -> v = tokens m p - w) /\
  (forall w, In (p, w, Reset) (ir_in t) -> v = 0) /\
  (forall w, In (p, w, Inhibitor) (ir_in t) -> v = tokens m p) /\
  ((forall w k, ~ In (p, w, k) (ir_in t)) -> v = tokens m p).
