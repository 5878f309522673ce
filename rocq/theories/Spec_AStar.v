(** Specification for A*: the linear program, and what the solver and the heap must provide. *)
From stdpp Require Import gmap.
From Coq Require Import ZArith QArith.
From Verif Require Import Model_Petri Model_Align Spec_Petri Model_AStar.
Local Open Scope Q_scope.

Fixpoint qdot (c x : list Q) : Q :=
  match c, x with
  | a :: c', v :: x' => a * v + qdot c' x'
  | _, _ => 0
  end.

(** x >= 0 solves the state equation  m + A x = fin. *)
Definition feasible (pn : petri_net slabel) (fin m : marking) (x : list Q) : Prop :=
  length x = length (n_trans pn) /\ (forall v, In v x -> 0 <= v) /\
  forall p, In p (n_places pn) ->
    qdot (map (fun t => inject_Z (incidence t p)) (n_trans pn)) x == inject_Z (tokens fin p - tokens m p).

Definition lp_cost (pn : petri_net slabel) (cost : transition slabel -> Q) (x : list Q) : Q :=
  qdot (map cost (n_trans pn)) x.

(** The answer of an exact LP solver. *)
Definition lp_optimal (pn : petri_net slabel) (fin : marking) (cost : transition slabel -> Q)
           (lp : marking -> option (Q * list Q)) : Prop :=
  forall m, match lp m with
            | Some (h, x) => feasible pn fin m x /\ h == lp_cost pn cost x /\
                             forall y, feasible pn fin m y -> h <= lp_cost pn cost y
            | None => forall y, ~ feasible pn fin m y
            end.

(** No component of a solution lies within 0.001 below an integer (e.g. integral or half-integral
    solutions): then the tolerance of __trust_solution is harmless. *)
Definition lp_gap (lp : marking -> option (Q * list Q)) : Prop :=
  forall m h x, lp m = Some (h, x) ->
  forall v k, In v x -> v < inject_Z k -> v < inject_Z k - (1 # 1000).

(** Heaps: pop removes some element with minimal f. *)
Definition pops_min (n : anode) (rest h : list anode) : Prop :=
  Permutation h (n :: rest) /\ forall k, In k h -> a_f n <= a_f k.
Definition heap_ok (pop : list anode -> option (anode * list anode)) (pushpop : anode -> list anode -> anode * list anode) : Prop :=
  (forall h, match pop h with Some (n, r) => pops_min n r h | None => h = [] end) /\
  (forall n h, pops_min (pushpop n h).1 (pushpop n h).2 (n :: h)).

Fixpoint qrun_cost (cost : transition slabel -> Q) (ts : list (transition slabel)) : Q :=
  match ts with [] => 0 | t :: r => cost t + qrun_cost cost r end.
