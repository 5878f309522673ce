(** What the Heuristics Miner should find, in terms of the log. *)
From Coq Require Import List Arith Bool ZArith QArith.
Import ListNotations.
From Verif Require Import Model_Dict Model_Dfg Model_Heu.
Local Open Scope nat_scope.

(** how often a is directly followed by b; how often a b a occurs; how often a occurs *)
Fixpoint in_trace (t : trace) (a b : nat) : nat :=
  match t with
  | x :: ((y :: _) as r) => (if Nat.eqb x a && Nat.eqb y b then 1 else 0) + in_trace r a b
  | _ => 0
  end.
Fixpoint back_in_trace (t : trace) (a b : nat) : nat :=
  match t with
  | x :: ((y :: z :: _) as r) => (if Nat.eqb x a && Nat.eqb y b && Nat.eqb z a then 1 else 0) + back_in_trace r a b
  | _ => 0
  end.
Definition follows (l : log) (a b : nat) : nat := list_sum (map (fun t => in_trace t a b) l).
Definition back_and_forth (l : log) (a b : nat) : nat := list_sum (map (fun t => back_in_trace t a b) l).
Definition occurrences (l : log) (a : nat) : nat := count_occ Nat.eq_dec (concat l) a.

(** the most frequent directly-follows relation of an activity *)
Definition busiest (l : log) (a : nat) : nat := list_max (concat (map (fun b => [follows l a b; follows l b a]) (concat l))).
(** the count, when it is not noise: less than the given share of the most frequent relation of both activities *)
Definition noisy (P : params) (l : log) (a b : nat) : Prop :=
  (qn (follows l a b) < qn (busiest l a) * noise_t P)%Q /\ (qn (follows l a b) < qn (busiest l b) * noise_t P)%Q.
Definition counted_follows (P : params) (l : log) (a b c : nat) : Prop :=
  (noisy P l a b /\ c = 0) \/ (~ noisy P l a b /\ c = follows l a b).

(** the dependency measure, from the number of a b and b a *)
Definition dependency_of (a b c c' : nat) : Q :=
  if Nat.eqb a b then (qn c / (qn c + 1))%Q else ((qn c - qn c') / (qn c + qn c' + 1))%Q.
Definition dependent (P : params) (l : log) (a b : nat) : Prop :=
  exists c c', counted_follows P l a b c /\ counted_follows P l b a c' /\ 0 < c /\ (dep_t P <= dependency_of a b c c')%Q.
(** both activities, and the relation, are frequent *)
Definition frequent_pair (P : params) (l : log) (a b : nat) : Prop :=
  (0 < occurrences l a /\ min_act P <= occurrences l a) /\ (0 < occurrences l b /\ min_act P <= occurrences l b) /\
  exists c, counted_follows P l a b c /\ 0 < c /\ min_dfg P <= c.
Definition strong (P : params) (l : log) (a b : nat) : Prop := frequent_pair P l a b /\ dependent P l a b.
(** a has a strong relation *)
Definition has_strong (P : params) (l : log) (a : nat) : Prop := exists b, strong P l a b \/ strong P l b a.
(** a short loop a b a that does not come from strong relations *)
Definition short_loop (P : params) (l : log) (a b : nat) : Prop :=
  a <> b /\ has_strong P l a /\ 0 < back_and_forth l a b /\
  (loop_t P <= (qn (back_and_forth l a b) + qn (back_and_forth l b a)) / (qn (back_and_forth l a b) + qn (back_and_forth l b a) + 1))%Q /\
  frequent_pair P l a b /\ ~ dependent P l a b /\ ~ dependent P l b a.

(** the edges of a heuristics net from a to b, as seen from a (output_connections) and from b (input_connections) *)
Definition edges_out (ns : nodes) (a b : nat) : list edge :=
  match d_get ns a with Some n => match d_get (outputs n) b with Some es => es | None => [] end | None => [] end.
Definition edges_in (ns : nodes) (b a : nat) : list edge :=
  match d_get ns b with Some n => match d_get (inputs n) a with Some es => es | None => [] end | None => [] end.
