(** Which start belongs to which completion, and business time. *)
From Coq Require Import List Arith ZArith Bool.
From Verif Require Import Model_Lifecycle.
Import ListNotations.
Open Scope Z_scope.

Section spec.
Context {A : Type}.
(** the start at position [q] waits at position [p], where an event with this key is completed: no completion before [p] has taken it *)
Definition waits (l : list (event A)) (m : nat -> option nat) (k : nat) (p q : nat) : Prop :=
  (q < p)%nat /\ (exists s, nth_error l q = Some s /\ trans s = Start /\ key s = k) /\ forall p', (p' < p)%nat -> m p' <> Some q.
(** first in, first out: a completion takes the first start with its key that waits, and none only if none waits; nothing else takes a start *)
Definition fifo (l : list (event A)) (m : nat -> option nat) : Prop :=
  (forall p e, nth_error l p = Some e -> trans e = Complete ->
    match m p with Some q => waits l m (key e) p q /\ forall q', waits l m (key e) p q' -> (q <= q')%nat | None => forall q, ~ waits l m (key e) p q end) /\
  forall p q, m p = Some q -> exists e, nth_error l p = Some e /\ trans e = Complete.
(** what the completion at [p] becomes *)
Definition made (l : list (event A)) (m : nat -> option nat) (p : nat) (i : interval A) : Prop :=
  exists e, nth_error l p = Some e /\ ikey i = key e /\ et i = time e /\ irest i = rest e /\
    match m p with Some q => exists s, nth_error l q = Some s /\ st i = time s /\ istart i = Some (rest s) | None => st i = time e /\ istart i = None end.
(** the positions of the completions *)
Definition completions (l : list (event A)) : list nat :=
  filter (fun p => match nth_error l p with Some e => is_complete (trans e) | None => false end) (seq 0 (length l)).
Definition sorted_start (t : list (interval A)) : Prop := forall i j a b, (i < j)%nat -> nth_error t i = Some a -> nth_error t j = Some b -> st a <= st b.
(** an event at time [x] is running *)
Definition running (t : list (interval A)) (x : Z) : bool := existsb (fun i => (st i <=? x) && (x <? et i)) t.
End spec.
(** the number of seconds from [a] on and before [b] with a property *)
Definition seconds (f : Z -> bool) (a b : Z) : Z := Z.of_nat (length (filter f (map (fun i => a + Z.of_nat i) (seq 0 (Z.to_nat (b - a)))))).
Section lifecycle.
Context {A : Type}.
Definition start_event (x : interval A) : event A := Event (ikey x) (st x) Start (irest x).
Definition complete_event (x : interval A) : event A := Event (ikey x) (et x) Complete (irest x).
(** the order of the events of a lifecycle trace: time, then position of the event they come from, then start before completion *)
Definition before (a b : nat * event A) : Prop :=
  time (snd a) < time (snd b) \/ time (snd a) = time (snd b) /\ ((fst a < fst b)%nat \/ fst a = fst b /\ trans (snd a) = Start /\ trans (snd b) = Complete).
(** the event with the attributes of its start *)
Definition mark (x : interval A) : interval A := Interval (ikey x) (st x) (et x) (irest x) (Some (irest x)).
(** events of the same activity and instance end in the order in which they come *)
Definition no_overtaking (t : list (interval A)) : Prop :=
  forall i j a b, (i < j)%nat -> nth_error t i = Some a -> nth_error t j = Some b -> ikey a = ikey b -> et a <= et b.
End lifecycle.
