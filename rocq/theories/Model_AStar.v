(** Model of the A* alignment search with the state-equation heuristic.
    Modelled files: pm4py/algo/conformance/alignments/petri_net/variants/state_equation_a_star.py
    (__search), pm4py/objects/petri_net/utils/align_utils.py (__derive_heuristic, __trust_solution,
    __compute_exact_heuristic_new_version, SearchTuple).

    Simplifications
    - floating point numbers are exact rationals;
    - the LP solver and the binary heap are parameters; the theorems state what they require of them. *)
From stdpp Require Import gmap.
From Coq Require Import ZArith QArith Qminmax.
From Verif Require Import Model_Petri Model_Align.
Local Open Scope Q_scope.

(** align_utils.py:283-334 [SearchTuple]; [f] is g + h; the chain of parents is kept as the list of
    transitions, last one first. *)
Record anode := ANode { a_g : Q; a_h : Q; a_m : marking; a_path : list (transition slabel);
                        a_x : list Q; a_trust : bool }.
Definition a_f (n : anode) : Q := a_g n + a_h n.

(** solver.py:35, sys.maxsize. *)
Definition MAX_ALLOWED_HEURISTICS : Q := inject_Z (10 ^ 15).
Definition SYS_MAXSIZE : Q := inject_Z (2 ^ 63 - 1).

(** incidence_matrix.py:21-35: column of a transition (position in the list of transitions). *)
Fixpoint t_index {L} (t : transition L) (l : list (transition L)) : nat :=
  match l with
  | [] => 0
  | u :: r => if Nat.eqb (t_id u) (t_id t) then 0 else S (t_index t r)
  end.

(** align_utils.py:226-229 [__derive_heuristic]. *)
Definition derive_heuristic (pn : petri_net slabel) (cost : transition slabel -> Q)
           (x : list Q) (t : transition slabel) (h : Q) : Q * list Q :=
  (Qmax 0 (h - cost t), alter (fun v => v - 1) (t_index t (n_trans pn)) x).

(** align_utils.py:240-244 [__trust_solution]. *)
Definition trust_solution (x : list Q) : bool := forallb (fun v => Qle_bool (-1 # 1000) v) x.

(** align_utils.py:247-279 [__compute_exact_heuristic_new_version]: [lp m] is the answer of the LP
    solver for "minimise cost_vec * x subject to A x = fin - m, x >= 0". *)
Definition exact_heuristic (pn : petri_net slabel) (lp : marking -> option (Q * list Q)) (m : marking) : Q * list Q :=
  match lp m with
  | Some hx => hx
  | None => (SYS_MAXSIZE, replicate (length (n_trans pn)) 0)
  end.

(** Outcomes: an alignment, an empty queue (None), the time limit (None), or IndexError from
    heappop on an empty heap (state_equation_a_star.py:466). *)
Inductive aresult := AFound (n : anode) | AExhausted | AError | AInterrupted.

Section Search.
  Context (pn : petri_net slabel) (fin : marking) (cost : transition slabel -> Q)
          (lp : marking -> option (Q * list Q))
          (pop : list anode -> option (anode * list anode))           (* heapq.heappop *)
          (pushpop : anode -> list anode -> anode * list anode).      (* heapq.heappushpop *)

  (** state_equation_a_star.py:524-541: push the successors. *)
  Definition astar_push (closed : list marking) (curr : anode) (open : list anode) (t : transition slabel) : list anode :=
    let nm := add_markings (a_m curr) (add_marking t) in
    if bool_decide (nm ∈ closed) then open
    else let '(h, x) := derive_heuristic pn cost (a_x curr) t (a_h curr) in
         ANode (a_g curr + cost t) h nm (t :: a_path curr) x (trust_solution x) :: open.

  (** state_equation_a_star.py:448-541: the main loop. [cur = None]: head of the outer loop;
      [cur = Some c]: head of the inner [while not curr.trust]. *)
  Fixpoint astar_loop (fuel : nat) (closed : list marking) (cur : option anode) (open : list anode) : aresult :=
    match fuel with
    | O => AInterrupted
    | S fuel' =>
      match cur with
      | None => match pop open with
                | None => AExhausted
                | Some (c, rest) => astar_loop fuel' closed (Some c) rest
                end
      | Some c =>
          if negb (a_trust c) then
            if bool_decide (a_m c ∈ closed) then
              match pop open with
              | None => AError
              | Some (c', rest) => astar_loop fuel' closed (Some c') rest
              end
            else
              let '(h, x) := exact_heuristic pn lp (a_m c) in
              let '(c', rest) := pushpop (ANode (a_g c) h (a_m c) (a_path c) x true) open in
              astar_loop fuel' closed (Some c') rest
          else if negb (Qle_bool (a_h c) MAX_ALLOWED_HEURISTICS) then astar_loop fuel' closed None open
          else if bool_decide (a_m c ∈ closed) then astar_loop fuel' closed None open
          else if negb (Qle_bool (1 # 100) (a_h c)) && bool_decide (a_m c = fin) then AFound c
          else let closed' := a_m c :: closed in
               astar_loop fuel' closed' None
                 (fold_left (astar_push closed' c) (search_enabled pn (a_m c)) open)
      end
    end.

  (** state_equation_a_star.py:405-446: initial state. *)
  Definition astar_search (fuel : nat) (ini : marking) : aresult :=
    let '(h, x) := exact_heuristic pn lp ini in
    astar_loop fuel [] None [ANode 0 h ini [] x true].
End Search.

(** A concrete heap used by the examples: any element with the smallest f (the first of them). *)
Fixpoint min_pop (h : list anode) : option (anode * list anode) :=
  match h with
  | [] => None
  | n :: r => match min_pop r with
              | None => Some (n, [])
              | Some (k, r') => if Qle_bool (a_f n) (a_f k) then Some (n, r) else Some (k, n :: r')
              end
  end.
Definition min_pushpop (n : anode) (h : list anode) : anode * list anode :=
  match min_pop (n :: h) with Some r => r | None => (n, h) end.

(** state_equation_a_star.py: [apply] with the default costs. *)
Definition astar_apply (lp : petri_net slabel -> marking -> marking -> option (Q * list Q)) pop pushpop
           (fuel : nat) (trace : list nat) (pn : petri_net (option nat)) (im fm : marking) : aresult :=
  let '(tn, tim, tfm) := construct_trace_net trace in
  let '(sn, sim, sfm) := construct tn tim tfm pn im fm in
  astar_search sn sfm (fun t => inject_Z (std_cost (t_label t))) (lp sn sfm) pop pushpop fuel sim.
Definition a_alignment_of (n : anode) : list slabel := map t_label (rev (a_path n)).
