(** The relations of the Alpha algorithm and the pairs of sets that become places, from the textbook.
    Sets of activities are lists, whose order and repetitions do not matter. *)
From Coq Require Import List ZArith.
Import ListNotations.
From Verif Require Import Model_Petri.

Section Alpha.
  (** [df a b]: a is directly followed by b *)
  Context (df : nat -> nat -> Prop).
  Definition causal (a b : nat) : Prop := df a b /\ ~ df b a.
  (** # : never directly after each other *)
  Definition choice (a b : nat) : Prop := ~ df a b /\ ~ df b a.
  (** X_W: every activity of A causes every one of B; the activities of A, and those of B, are in choice *)
  Definition alpha_pair (A B : list nat) : Prop :=
    A <> [] /\ B <> [] /\
    (forall a b, In a A -> In b B -> causal a b) /\
    (forall a a', In a A -> In a' A -> choice a a') /\ (forall b b', In b B -> In b' B -> choice b b').
  (** Y_W: the maximal ones *)
  Definition maximal_pair (A B : list nat) : Prop :=
    alpha_pair A B /\
    forall A' B', alpha_pair A' B' -> incl A A' -> incl B B' -> incl A' A /\ incl B' B.
End Alpha.

(** The activities with an arc to, resp. from, the place [p]. *)
Definition preset (pn : petri_net (option nat)) (p : nat) (A : list nat) : Prop :=
  forall a, In a A <-> exists t, In t (n_trans pn) /\ t_label t = Some a /\ In p (map fst (t_out t)).
Definition postset (pn : petri_net (option nat)) (p : nat) (B : list nat) : Prop :=
  forall b, In b B <-> exists t, In t (n_trans pn) /\ t_label t = Some b /\ In p (map fst (t_in t)).
