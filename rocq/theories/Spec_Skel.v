(** What the constraints of a log skeleton mean. *)
From Coq Require Import List Arith QArith.
Import ListNotations.
From Verif Require Import Model_Dict Model_Dfg Model_Skel.
Local Open Scope nat_scope.

(** How often an activity occurs in a trace. *)
Notation count t a := (count_occ Nat.eq_dec t a).
Definition occurs (l : log) (a : nat) : Prop := exists t, In t l /\ In a t.
(** The relations of the log, over all its traces. *)
Definition equivalent (l : log) (a b : nat) : Prop :=
  a <> b /\ occurs l a /\ forall t, In t l -> In a t -> count t a = count t b.
Definition excludes (l : log) (a b : nat) : Prop :=
  a <> b /\ occurs l a /\ occurs l b /\ forall t, In t l -> ~ (In a t /\ In b t).
Definition always_next (l : log) (a b : nat) : Prop :=
  occurs l a /\ forall t i, In t l -> nth_error t i = Some a -> nth_error t (S i) = Some b.
Definition always_later (l : log) (a b : nat) : Prop :=
  occurs l a /\ forall t i, In t l -> nth_error t i = Some a -> exists j, i < j /\ nth_error t j = Some b.
Definition always_earlier (l : log) (a b : nat) : Prop :=
  occurs l a /\ forall t i, In t l -> nth_error t i = Some a -> exists j, j < i /\ nth_error t j = Some b.
(** A trace satisfies one constraint of a model. *)
Definition satisfies (t : trace) (m : skeleton) (k : kind) : Prop :=
  match k with
  | Kequivalence => forall a b, In (a, b) (sk_equivalence m) -> In a t -> a <> b /\ count t a = count t b
  | Kalways_after => forall a b, In (a, b) (sk_always_after m) -> In a t ->
      exists i j, i < j /\ nth_error t i = Some a /\ nth_error t j = Some b
  | Kalways_before => forall a b, In (a, b) (sk_always_before m) -> In a t ->
      exists i j, j < i /\ nth_error t i = Some a /\ nth_error t j = Some b
  | Knever_together => forall a b, In (a, b) (sk_never_together m) -> a <> b -> ~ (In a t /\ In b t)
  | Kdirectly_follows => forall a b, In (a, b) (sk_directly_follows m) -> In a t ->
      exists i, nth_error t i = Some a /\ nth_error t (S i) = Some b
  | Kactiv_freq => (forall a, In a t -> exists s, d_get (sk_activ_freq m) a = Some s /\ In (count t a) s) /\
                   (forall a s, In (a, s) (sk_activ_freq m) -> ~ In a t -> In 0 s)
  end.
(** The frequency sets of a model are not empty. *)
Definition proper_skel (m : skeleton) : Prop := forall a s, In (a, s) (sk_activ_freq m) -> s <> [].
(** No activity is repeated in a trace. *)
Definition no_repetitions (l : log) : Prop := forall t, In t l -> NoDup t.
