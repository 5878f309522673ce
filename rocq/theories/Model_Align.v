(** Model of the synchronous product and of the Dijkstra alignment search.
    Modelled files: pm4py/objects/petri_net/utils/synchronous_product.py, align_utils.py,
    petri_utils.py (decorate functions), pm4py/algo/conformance/alignments/petri_net/
    variants/dijkstra_no_heuristics.py, algorithm.py. *)
From stdpp Require Import gmap.
From Coq Require Import ZArith QArith Cantor.
From Verif Require Import Model_Petri.
Local Open Scope Z_scope.

(** One component of a label of the product: the skip symbol '>>' (align_utils.py:28) or the
    label of the original transition ([None] = silent).
    Simplification: '>>' is assumed not to be an activity name. *)
Inductive mlab := Skip | Lab (l : option nat).
Definition slabel := (mlab * mlab)%type.
Global Instance mlab_eq_dec : EqDecision mlab.
Proof. solve_decision. Defined.

(** synchronous_product.py:159-165: copies of the places (p, skip) and (skip, p); the two
    copies are fresh objects, here even and odd numbers. *)
Definition p1_map (p : nat) : nat := (2 * p)%nat.
Definition p2_map (p : nat) : nat := (2 * p + 1)%nat.

(** add_arc_from_to is called without a weight (synchronous_product.py:54-60,169-171):
    every arc of the product gets weight 1. *)
Definition copy_arcs (f : nat -> nat) (arcs : list (nat * Z)) : list (nat * Z) :=
  map (fun a => (f a.1, 1)) arcs.

(** synchronous_product.py:147-173 [__copy_into], upper and lower. *)
Definition copy_upper (t : transition (option nat)) : transition slabel :=
  Trans (3 * t_id t)%nat (Lab (t_label t), Skip) (copy_arcs p1_map (t_in t)) (copy_arcs p1_map (t_out t)).
Definition copy_lower (t : transition (option nat)) : transition slabel :=
  Trans (3 * t_id t + 1)%nat (Skip, Lab (t_label t)) (copy_arcs p2_map (t_in t)) (copy_arcs p2_map (t_out t)).
(** synchronous_product.py:46-60. *)
Definition sync_trans (t1 t2 : transition (option nat)) : transition slabel :=
  Trans (3 * Cantor.to_nat (t_id t1, t_id t2) + 2)%nat (Lab (t_label t1), Lab (t_label t2))
        (copy_arcs p1_map (t_in t1) ++ copy_arcs p2_map (t_in t2))
        (copy_arcs p1_map (t_out t1) ++ copy_arcs p2_map (t_out t2)).

(** synchronous_product.py:43-60: all pairs with equal labels. *)
Definition sync_transitions (l1 l2 : list (transition (option nat))) : list (transition slabel) :=
  flat_map (fun t1 => flat_map (fun t2 =>
     if bool_decide (t_label t1 = t_label t2) then [sync_trans t1 t2] else []) l2) l1.

(** synchronous_product.py:62-71: the two markings side by side. *)
Definition copy_marking (f : nat -> nat) (acc m : marking) : marking :=
  fold_left (fun acc kv => <[f kv.1 := kv.2]> acc) (map_to_list m) acc.
Definition sync_marking (m1 m2 : marking) : marking :=
  copy_marking p2_map (copy_marking p1_map ∅ m1) m2.

(** synchronous_product.py:22-76 [construct] (and 79-144 [construct_cost_aware], same net). *)
Definition construct (pn1 : petri_net (option nat)) (im1 fm1 : marking)
                     (pn2 : petri_net (option nat)) (im2 fm2 : marking)
  : petri_net slabel * marking * marking :=
  (Net (map p1_map (n_places pn1) ++ map p2_map (n_places pn2))
       (map copy_upper (n_trans pn1) ++ map copy_lower (n_trans pn2)
          ++ sync_transitions (n_trans pn1) (n_trans pn2)),
   sync_marking im1 im2, sync_marking fm1 fm2).

(** align_utils.py:232-237. *)
Definition is_model_move (l : slabel) : bool :=
  bool_decide (l.1 = Skip) && negb (bool_decide (l.2 = Skip)).
Definition is_log_move (l : slabel) : bool :=
  negb (bool_decide (l.1 = Skip)) && bool_decide (l.2 = Skip).

(** align_utils.py:28-31,112-132 [construct_standard_cost_function]; the defaults of
    dijkstra_no_heuristics.py:117-133 give the same costs. *)
Definition STD_MODEL_LOG_MOVE_COST : Z := 10000.
Definition STD_TAU_COST : Z := 1.
Definition STD_SYNC_COST : Z := 0.
Definition std_cost (l : slabel) : Z :=
  let is_skip x := bool_decide (x = Skip) in
  let is_none x := bool_decide (x = Lab None) in
  if (is_skip l.1 || is_skip l.2) && (negb (is_none l.1) && negb (is_none l.2))
  then STD_MODEL_LOG_MOVE_COST
  else if is_skip l.1 && is_none l.2 then STD_TAU_COST else STD_SYNC_COST.

(** petri_utils.py:358-381 [decorate_transitions_prepostset]. *)
Definition sub_marking {L} (t : transition L) : marking :=
  fold_left (fun acc a => <[a.1 := a.2]> acc) (t_in t) ∅.
Definition add_marking {L} (t : transition L) : marking :=
  fold_left (fun acc a => match acc !! a.1 with
                          | Some v => <[a.1 := a.2 + v]> acc
                          | None => <[a.1 := a.2]> acc
                          end) (t_out t)
            (fold_left (fun acc a => <[a.1 := - a.2]> acc) (t_in t) ∅).

(** align_utils.py:191-199 [add_markings]. *)
Definition add_markings (curr add : marking) : marking :=
  fold_left (fun m kv => let v := mget m kv.1 + kv.2 in
                         if v =? 0 then delete kv.1 m else <[kv.1 := v]> m)
            (map_to_list add) curr.

(** dijkstra_no_heuristics.py:328,351-358: transitions with empty preset, plus those associated
    (petri_utils.py:341-355) with a marked place whose sub_marking is covered, minus those that
    are both a log and a model move.
    Simplification: the set is the sub-list of the transitions of the net that belong to it. *)
Definition search_enabled (pn : petri_net slabel) (m : marking) : list (transition slabel) :=
  List.filter (fun t =>
    (match t_in t with
     | [] => true
     | _ => existsb (fun kv => match sub_marking t !! kv.1 with Some _ => true | None => false end)
                    (map_to_list m)
            && m_leb (sub_marking t) m
     end)
    && negb (is_log_move (t_label t) && is_model_move (t_label t))) (n_trans pn).

(** align_utils.py:338-352 [DijkstraSearchTuple]; the chain of parents [p]/[t] is kept as the
    list of transitions, last one first. *)
Record dnode := DNode { d_g : Z; d_m : marking; d_path : list (transition slabel); d_l : nat }.
Definition dnode_lt (a b : dnode) : bool :=
  if d_g a <? d_g b then true
  else if d_g b <? d_g a then false
  else Nat.ltb (d_l b) (d_l a).

(** heapq.heappop: removes a smallest element (w.r.t. __lt__).
    Simplification: among several smallest elements the first in list order is taken. *)
Fixpoint heap_pop (h : list dnode) : option (dnode * list dnode) :=
  match h with
  | [] => None
  | x :: r => match heap_pop r with
              | None => Some (x, [])
              | Some (y, r') => if dnode_lt y x then Some (y, x :: r') else Some (x, r)
              end
  end.

(** Result of a search: [SFound] = __reconstruct_alignment of the node; both [SExhausted] (queue
    empty) and [SInterrupted] (time limit = fuel) make the code return None. *)
Inductive sresult := SFound (n : dnode) | SExhausted | SInterrupted.

(** dijkstra_no_heuristics.py:360-371: push the successors that are not closed. *)
Definition push_succ (cost : transition slabel -> Z) (closed : list marking) (curr : dnode)
                     (open : list dnode) (t : transition slabel) : list dnode :=
  let nm := add_markings (d_m curr) (add_marking t) in
  if bool_decide (nm ∈ closed) then open
  else DNode (d_g curr + cost t) nm (t :: d_path curr) (S (d_l curr)) :: open.

(** dijkstra_no_heuristics.py:330-371: the main loop. *)
Fixpoint dijkstra_loop (fuel : nat) (pn : petri_net slabel) (fin : marking)
         (cost : transition slabel -> Z) (closed : list marking) (open : list dnode) : sresult :=
  match open with
  | [] => SExhausted
  | _ =>
    match fuel with
    | O => SInterrupted
    | S fuel' =>
      match heap_pop open with
      | None => SExhausted
      | Some (curr, rest) =>
          if bool_decide (d_m curr ∈ closed) then dijkstra_loop fuel' pn fin cost closed rest
          else if bool_decide (d_m curr = fin) then SFound curr
          else let closed' := d_m curr :: closed in
               dijkstra_loop fuel' pn fin cost closed'
                 (fold_left (push_succ cost closed' curr) (search_enabled pn (d_m curr)) rest)
      end
    end
  end.

(** dijkstra_no_heuristics.py:312-371 [__search]. *)
Definition dijkstra_search (fuel : nat) (pn : petri_net slabel) (ini fin : marking)
           (cost : transition slabel -> Z) : sresult :=
  dijkstra_loop fuel pn fin cost [] [DNode 0 ini [] 0].

(** align_utils.py:208-223 [__reconstruct_alignment]. *)
Definition alignment_of (n : dnode) : list slabel := map t_label (rev (d_path n)).

(** dijkstra_no_heuristics.py:83-145, 245-309 [apply] with the default costs: (alignment, cost). *)
Definition align_result (r : sresult) : option (list slabel * Z) :=
  match r with SFound n => Some (alignment_of n, d_g n) | _ => None end.
Definition dijkstra_apply (fuel : nat) (trace : list nat) (pn : petri_net (option nat)) (im fm : marking)
  : sresult :=
  let '(tn, tim, tfm) := construct_trace_net trace in
  let '(sn, sim, sfm) := construct tn tim tfm pn im fm in
  dijkstra_search fuel sn sim sfm (fun t => std_cost (t_label t)).

(** dijkstra_no_heuristics.py:60-80 [get_best_worst_cost]: cost of aligning the empty trace. *)
Definition best_worst_cost (fuel : nat) (pn : petri_net (option nat)) (im fm : marking) : option Z :=
  option_map snd (align_result (dijkstra_apply fuel [] pn im fm)).

(** algorithm.py:148-161: fitness of a trace ([cost] = cost of the alignment, [bwc] = best worst cost). *)
Definition trace_fitness (trace : list nat) (cost bwc : Z) : Q :=
  let ltrace_bwc := STD_MODEL_LOG_MOVE_COST * Z.of_nat (length trace) + bwc in
  let num := cost / STD_MODEL_LOG_MOVE_COST in
  let den := ltrace_bwc / STD_MODEL_LOG_MOVE_COST in
  if den >? 0 then (1 - inject_Z num / inject_Z den)%Q else 0%Q.
