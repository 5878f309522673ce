(** Removal of implicit places (pm4py.reduce_petri_net_implicit_places, also used by the ILP miner):
    pm4py/objects/petri_net/utils/murata.py. *)
From stdpp Require Import gmap.
From Coq Require Import ZArith List Arith Bool.
Import ListNotations.
From Verif Require Import Model_Petri Model_Graph Model_TreeNet.
Local Open Scope Z_scope.

(** A row of the integer program: the coefficients of the places (missing places have coefficient 0; the code assigns
    [constraint[places.index(p)] = ...], so it is assumed that no place occurs twice: no parallel arcs), the coefficient of the last
    variable, and the right-hand side. *)
Record row := CRow { c_coef : list (nat * Z); c_last : Z; c_rhs : Z }.
Fixpoint lhs (x : nat -> Z) (l : list (nat * Z)) : Z := match l with [] => 0 | (p, c) :: r => c * x p + lhs x r end.
Definition value (x : nat -> Z) (b : Z) (r : row) : Z := lhs x (c_coef r) + c_last r * b.
(** murata.py:108-113 with util/lp/variants/scipy_solver.py:30-40 (linprog with integrality; the variables are non-negative): the
    solver succeeds exactly when the program has a solution (the objective is bounded below).  The solver itself is not modelled. *)
Definition feasible (Aeq Aub : list row) : Prop := exists x b, (forall p, 0 <= x p) /\ 0 <= b /\
  (forall r, In r Aeq -> value x b r = c_rhs r) /\ (forall r, In r Aub -> value x b r <= c_rhs r).

Section Scan.
  Variable net : petri_net (option nat).
  Variable im : marking.
  (** the entries of the places that are not redundant, negated for the other places (or for the place itself, with the opposite sign) *)
  Definition signed (s : Z) (red : list nat) (pl : nat) (l : list (nat * Z)) : list (nat * Z) :=
    map (fun pw => (fst pw, if Nat.eqb (fst pw) pl then s * snd pw else - s * snd pw)) (filter (fun pw => negb (smem (fst pw) red)) l).
  (** murata.py:54-64 first constraint *)
  Definition eq_row (red : list nat) (pl : nat) : row := CRow (signed 1 red pl (map_to_list im)) (-1) 0.
  (** murata.py:66-80 second constraints, 82-95 third constraints, 97-107 fourth constraints, 109-113 fifth constraint *)
  Definition ub_rows (red : list nat) (pl : nat) : list row :=
    map (fun t => CRow (signed 1 red pl (t_in t)) (-1) 0) (n_trans net) ++
    map (fun t => CRow (signed (-1) red pl (t_out t)) 0 0) (n_trans net) ++
    map (fun p => CRow [(p, -1)] 0 (if Nat.eqb p pl then -1 else 0)) (filter (fun p => negb (smem p red)) (n_places net)) ++
    [CRow [] (-1) 0].
  (** murata.py:46-121: the loop over the places; the rows are never reset, so those of the earlier places stay *)
  Inductive scan : list nat -> list row -> list row -> list nat -> list nat -> Prop :=
  | scan_done Aeq Aub red : scan [] Aeq Aub red red
  | scan_redundant pl rest Aeq Aub red red' :
      feasible (Aeq ++ [eq_row red pl]) (Aub ++ ub_rows red pl) ->
      scan rest (Aeq ++ [eq_row red pl]) (Aub ++ ub_rows red pl) (red ++ [pl]) red' -> scan (pl :: rest) Aeq Aub red red'
  | scan_kept pl rest Aeq Aub red red' :
      ~ feasible (Aeq ++ [eq_row red pl]) (Aub ++ ub_rows red pl) ->
      scan rest (Aeq ++ [eq_row red pl]) (Aub ++ ub_rows red pl) red red' -> scan (pl :: rest) Aeq Aub red red'.
End Scan.
(** murata.py:123-129: the redundant places that are not in the final marking are removed from the net and the initial marking *)
Definition removed (fm : marking) (red : list nat) : list nat := filter (fun p => bool_decide (fm !! p = None)) red.
Definition remove_all (net : petri_net (option nat)) (ps : list nat) : petri_net (option nat) := fold_left remove_place ps net.
Definition unmark (im : marking) (ps : list nat) : marking := fold_left (fun m p => delete p m) ps im.
(** murata.py:24-131 apply_reduction; [order] is sorted(net.places, key = name) *)
Definition murata (order : list nat) (net : petri_net (option nat)) (im fm : marking) (net' : petri_net (option nat)) (im' : marking) : Prop :=
  exists red, scan net im order [] [] [] red /\ net' = remove_all net (removed fm red) /\ im' = unmark im (removed fm red).
