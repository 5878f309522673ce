(** Waiting times between directly following events. *)
From Coq Require Import List Arith ZArith QArith.
Import ListNotations.
Open Scope nat_scope.

(** an event: activity, start and (completion) timestamp *)
Definition event : Type := (nat * (Z * Z))%type.
Definition act (e : event) : nat := fst e.
Definition start (e : event) : Z := fst (snd e).
Definition stamp (e : event) : Z := snd (snd e).
(** [wait t i z]: in the trace, the event i+1 starts z after the event i; 0 if it starts before its end *)
Definition wait_at (t : list event) (i : nat) : list (nat * nat * Z) := match nth_error t i, nth_error t (S i) with Some e, Some f => [(act e, act f, Z.max 0 (start f - stamp e))] | _, _ => [] end.
(** all pairs of directly following events, with their waiting times *)
Definition pairs (log : list (list event)) : list (nat * nat * Z) := flat_map (fun t => flat_map (wait_at t) (seq 0 (length t))) log.
(** the waiting times of those pairs that have activities that satisfy p *)
Definition waits (p : nat -> nat -> bool) (log : list (list event)) : list Z := map snd (filter (fun x => p (fst (fst x)) (snd (fst x))) (pairs log)).
Definition between (a b : nat) : nat -> nat -> bool := fun x y => Nat.eqb x a && Nat.eqb y b.
Definition sum (l : list Z) : Z := fold_right Z.add 0%Z l.
Definition average (l : list Z) : Q := (inject_Z (sum l) / inject_Z (Z.of_nat (length l)))%Q.
(** the aggregation measures, and what they say of a list *)
Inductive measure := Mmin | Mmax | Msum | Mmean.
Definition describes (m : measure) (l : list Z) (q : Q) : Prop :=
  match m with
  | Mmin => exists z, In z l /\ q = inject_Z z /\ forall y, In y l -> (z <= y)%Z
  | Mmax => exists z, In z l /\ q = inject_Z z /\ forall y, In y l -> (y <= z)%Z
  | Msum => q = inject_Z (sum l)
  | Mmean => q = average l
  end.
(** the durations of the events of an activity *)
Definition durations (a : nat) (log : list (list event)) : list Z := map (fun e => (stamp e - start e)%Z) (filter (fun e => Nat.eqb (act e) a) (concat log)).
