(** Model of pm4py/objects/powl/BinaryRelation.py.
    Nodes are identified with their index (the nodes of a BinaryRelation are distinct objects);
    the adjacency matrix is a function from two indices to bool, [n] is the number of nodes. *)
From Coq Require Import List Arith Bool.
Import ListNotations.

Definition rel := nat -> nat -> bool.
(** BinaryRelation.py:55, 64: assignment to self._edges[i][j]. *)
Definition set_edge (e : rel) (i j : nat) (b : bool) : rel :=
  fun x y => if Nat.eqb x i && Nat.eqb y j then b else e x y.
(** itertools.product(range(n), range(n), range(n)). *)
Definition triples (n : nat) : list (nat * nat * nat) :=
  flat_map (fun i => flat_map (fun j => map (fun k => (i, j, k)) (seq 0 n)) (seq 0 n)) (seq 0 n).

(** BinaryRelation.py:125-129: one execution of the for loop; returns the matrix and [changed]. *)
Definition close_visit (s : rel * bool) (x : nat * nat * nat) : rel * bool :=
  let '(e, changed) := s in
  let '(i, j, k) := x in
  if negb (Nat.eqb i j) && negb (Nat.eqb j k) && e i j && e j k && negb (e i k)
  then (set_edge e i k true, true) else (e, changed).
Definition close_pass (n : nat) (e : rel) : rel * bool := fold_left close_visit (triples n) (e, false).
(** BinaryRelation.py:120-129 [add_transitive_edges]; the while loop runs at most [fuel] times,
    None = still running. *)
Fixpoint add_transitive_edges (fuel : nat) (n : nat) (e : rel) : option rel :=
  match fuel with
  | 0 => None
  | S fuel => let '(e', changed) := close_pass n e in
              if changed then add_transitive_edges fuel n e' else Some e'
  end.

(** BinaryRelation.py:150-155 [is_irreflexive], 157-162 [is_transitive], 131-132. *)
Definition is_irreflexive (n : nat) (e : rel) : bool := forallb (fun i => negb (e i i)) (seq 0 n).
Definition is_transitive (n : nat) (e : rel) : bool :=
  forallb (fun x => let '(i, j, k) := x in negb (e i j && e j k && negb (e i k))) (triples n).
Definition is_strict_partial_order (n : nat) (e : rel) : bool := is_irreflexive n e && is_transitive n e.

(** BinaryRelation.py:109-118 [get_transitive_reduction]; None = the ValueError. *)
Definition reduce_visit (e res : rel) (x : nat * nat * nat) : rel :=
  let '(i, j, k) := x in
  if negb (Nat.eqb i j) && negb (Nat.eqb j k) && e i j && e j k && res i k then set_edge res i k false else res.
Definition get_transitive_reduction (n : nat) (e : rel) : option rel :=
  if is_irreflexive n e then Some (fold_left (reduce_visit e) (triples n) e) else None.

(** BinaryRelation.py:66-81 [remove_edge_without_violating_transitivity]. *)
Definition cut_visit (s : rel * bool) (x : nat * nat * nat) : rel * bool :=
  let '(e, changed) := s in
  let '(i, j, k) := x in
  if negb (Nat.eqb i j) && negb (Nat.eqb j k) && e i j && e j k && negb (e i k)
  then (set_edge e j k false, true) else (e, changed).
Fixpoint cut_loop (fuel : nat) (n : nat) (e : rel) : option rel :=
  match fuel with
  | 0 => None
  | S fuel => let '(e', changed) := fold_left cut_visit (triples n) (e, false) in
              if changed then cut_loop fuel n e' else Some e'
  end.
Definition remove_edge_keep_transitive (fuel n : nat) (e : rel) (i j : nat) : option rel :=
  cut_loop fuel n (set_edge e i j false).

(** BinaryRelation.py:134-140 [get_start_nodes], 142-148 [get_end_nodes]: a set, here the list of the
    remaining indices; discard removes every occurrence. *)
Definition discard (x : nat) (l : list nat) : list nat := filter (fun y => negb (Nat.eqb y x)) l.
Definition pairs (n : nat) : list (nat * nat) := flat_map (fun i => map (fun j => (i, j)) (seq 0 n)) (seq 0 n).
Definition get_start_nodes (n : nat) (e : rel) : list nat :=
  fold_left (fun res ij => if e (fst ij) (snd ij) then discard (snd ij) res else res) (pairs n) (seq 0 n).
Definition get_end_nodes (n : nat) (e : rel) : list nat :=
  fold_left (fun res ij => if e (fst ij) (snd ij) then discard (fst ij) res else res) (pairs n) (seq 0 n).
