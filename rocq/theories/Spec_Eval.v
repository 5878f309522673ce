(** Specification of the evaluation measures, independent of the model. *)
From Coq Require Import ZArith QArith Reals List.
From Verif Require Import Model_Petri Spec_Petri.
Import ListNotations.

(** Sums. *)
Fixpoint Qsum (l : list Q) : Q := match l with [] => 0%Q | x :: r => (x + Qsum r)%Q end.
Fixpoint Rsum (l : list R) : R := match l with [] => 0%R | x :: r => (x + Rsum r)%R end.
Fixpoint Zsum (l : list Z) : Z := match l with [] => 0%Z | x :: r => (x + Zsum r)%Z end.

(** How often the transition [t] was fired over all the replayed traces. *)
Definition fired (t : nat) (acts : list (list nat)) : nat := count_occ Nat.eq_dec (concat acts) t.
(** 1 minus the mean over the transitions of the net of 1/sqrt(number of firings), a transition that
    never fired counting as fired once. *)
Definition generalization_spec (ts : list nat) (acts : list (list nat)) : R :=
  (1 - Rsum (map (fun t => 1 / sqrt (INR (Nat.max 1 (fired t acts)))) ts) / INR (length ts))%R.

(** Number of arcs of a net. *)
Definition arc_count {L} (pn : petri_net L) : nat :=
  list_sum (map (fun t => (length (t_in t) + length (t_out t))%nat) (n_trans pn)).
(** Every arc ends in a place of the net, places are listed once. *)
Definition closed_net {L} (pn : petri_net L) : Prop :=
  NoDup (n_places pn) /\
  forall t a, In t (n_trans pn) -> In a (t_in t ++ t_out t) -> In (fst a) (n_places pn).
