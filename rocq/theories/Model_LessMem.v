(** Model of the default alignment search used when no LP solver is installed:
    pm4py/algo/conformance/alignments/petri_net/variants/dijkstra_less_memory.py. *)
From stdpp Require Import gmap.
From Coq Require Import ZArith.
From Verif Require Import Model_Petri Model_Align Model_Lev.
Local Open Scope Z_scope.

Notation ptrans := (transition (option nat)) (only parsing).

(** dijkstra_less_memory.py:253-256: the dictionaries {place: weight} of the input and of the output
    arcs; of parallel arcs the last one is kept.
    Simplification: places, transitions and labels are not renumbered (244-251). *)
Definition arc_dict (arcs : list (nat * Z)) : marking :=
  fold_left (fun acc a => <[a.1 := a.2]> acc) arcs ∅.

(** dijkstra_less_memory.py:354-375 [__dict_leq]. *)
Definition dict_leq (d1 d2 : marking) : bool :=
  forallb (fun kv => match d2 !! kv.1 with
                     | None => false
                     | Some v => negb (v <? kv.2)
                     end) (map_to_list d1).

(** dijkstra_less_memory.py:378-409 [__fire_trans]: consumption (lines 395-402) ... *)
Definition fire_pre (m preset : marking) : marking :=
  map_imap (fun k v => match preset !! k with
                       | Some w => if 0 <? v - w then Some (v - w) else None
                       | None => Some v
                       end) m.
(** ... and production (lines 403-408). *)
Definition fire_trans (m preset postset : marking) : marking :=
  fold_left (fun ret kv => match ret !! kv.1 with
                           | None => <[kv.1 := kv.2]> ret
                           | Some v => <[kv.1 := v + kv.2]> ret
                           end) (map_to_list postset) (fire_pre m preset).

(** dijkstra_less_memory.py:412-460: a marking is encoded as the sorted tuple of its places with multiplicity.
    Simplification: the marking itself is used; the encoding is injective on markings without zero entries
    (lines 397-399 never store one). *)

(** dijkstra_less_memory.py:60-62. *)
Inductive mtype := MSync | MLog | MModel.
Definition type_code (ty : mtype) : nat := match ty with MSync => 0 | MLog => 1 | MModel => 2 end.
Global Instance mtype_eq_dec : EqDecision mtype.
Proof. solve_decision. Defined.

(** dijkstra_less_memory.py:578-589: a search state.  The chain of parent states is kept as the list of their
    (type, position in the trace, transition), last one first; [l_pos] is the position itself, the code
    stores its opposite. *)
Record lnode := LNode {
  l_cost : Z; l_pos : nat; l_ty : mtype; l_len : nat; l_cnt : nat;
  l_path : list (mtype * nat * option ptrans);
  l_m : marking }.

(** Comparison of the tuples by heapq: cost, opposite of the position, type, length, counter (all counters differ). *)
Definition lnode_lt (a b : lnode) : bool :=
  if l_cost a <? l_cost b then true else if l_cost b <? l_cost a then false
  else if Nat.ltb (l_pos b) (l_pos a) then true else if Nat.ltb (l_pos a) (l_pos b) then false
  else if Nat.ltb (type_code (l_ty a)) (type_code (l_ty b)) then true
  else if Nat.ltb (type_code (l_ty b)) (type_code (l_ty a)) then false
  else if Nat.ltb (l_len a) (l_len b) then true else if Nat.ltb (l_len b) (l_len a) then false
  else Nat.ltb (l_cnt a) (l_cnt b).

(** heapq.heappop. *)
Fixpoint lheap_pop (h : list lnode) : option (lnode * list lnode) :=
  match h with
  | [] => None
  | x :: r => match lheap_pop r with
              | None => Some (x, [])
              | Some (y, r') => if lnode_lt y x then Some (y, x :: r') else Some (x, r)
              end
  end.

(** The closed dictionary, marking -> position; the newest entry for a marking comes first.
    dijkstra_less_memory.py:484-495 [__add_closed] is a cons; 463-481 [__check_closed]. *)
Definition closed_at (closed : list (marking * nat)) (m : marking) : option nat :=
  match List.find (fun e => bool_decide (e.1 = m)) closed with Some e => Some e.2 | None => None end.
Definition check_closed (closed : list (marking * nat)) (m : marking) (pos : nat) : bool :=
  match closed_at closed m with Some q => Nat.leb pos q | None => false end.

(** The three cost functions: model moves, log moves (by position), synchronous moves. *)
Record lcosts := LCosts { c_model : ptrans -> Z; c_log : nat -> Z; c_sync : Z }.

Section Loop.
  Context (pn : petri_net (option nat)) (fm : marking) (trace : list nat) (cs : lcosts).

  Definition next_marking (m : marking) (t : ptrans) : marking :=
    fire_trans m (arc_dict (t_in t)) (arc_dict (t_out t)).

  (** dijkstra_less_memory.py:616-617. *)
  Definition lm_enabled (m : marking) : list ptrans :=
    List.filter (fun t => dict_leq (arc_dict (t_in t)) m) (n_trans pn).

  (** dijkstra_less_memory.py:623-624. *)
  Definition is_sync (pos : nat) (t : ptrans) : bool :=
    match nth_error trace pos with
    | Some a => bool_decide (t_label t = Some a)
    | None => false
    end.

  (** What a round threads through its loops: open set, this_closed, dummy_count. *)
  Definition lstate := (list lnode * list marking * nat)%type.

  (** dijkstra_less_memory.py:625-641: one synchronous successor. *)
  Definition sync_step (closed : list (marking * nat)) (curr : lnode) (s : lstate) (t : ptrans) : lstate :=
    let '(open, this, cnt) := s in
    let nm := next_marking (l_m curr) t in
    let pos := S (l_pos curr) in
    let ns := LNode (l_cost curr + c_sync cs) pos MSync (S (l_len curr)) (S cnt)
                    ((MSync, pos, Some t) :: l_path curr) nm in
    (if check_closed closed nm pos then open else ns :: open, nm :: this, S cnt).

  (** dijkstra_less_memory.py:647-661: one move on the model. *)
  Definition model_step (closed : list (marking * nat)) (curr : lnode) (s : lstate) (t : ptrans) : lstate :=
    let '(open, this, cnt) := s in
    let nm := next_marking (l_m curr) t in
    let ns := LNode (l_cost curr + c_model cs t) (l_pos curr) MModel (S (l_len curr)) (S cnt)
                    ((MModel, l_pos curr, Some t) :: l_path curr) nm in
    if negb (bool_decide (nm ∈ this)) && negb (bool_decide (l_m curr = nm))
    then (if check_closed closed nm (l_pos curr) then open else ns :: open, nm :: this, S cnt)
    else (open, this, S cnt).

  (** dijkstra_less_memory.py:663-676: the move on the log, only if the last move is not a move on the model. *)
  Definition log_step (closed : list (marking * nat)) (curr : lnode) (s : lstate) : lstate :=
    let '(open, this, cnt) := s in
    if Nat.ltb (l_pos curr) (length trace) && negb (bool_decide (l_ty curr = MModel))
    then let pos := S (l_pos curr) in
         let ns := LNode (l_cost curr + c_log cs (l_pos curr)) pos MLog (S (l_len curr)) (S cnt)
                         ((MLog, pos, None) :: l_path curr) (l_m curr) in
         (if check_closed closed (l_m curr) pos then open else ns :: open, this, S cnt)
    else s.

  (** dijkstra_less_memory.py:616-676: expansion of the current state: the enabled transitions that can be
      executed in sync are scheduled first and removed, the others are sorted by cost. *)
  Definition expand (closed : list (marking * nat)) (curr : lnode) (open : list lnode) (cnt : nat) : list lnode * nat :=
    let en := lm_enabled (l_m curr) in
    let s1 := fold_left (sync_step closed curr) (List.filter (is_sync (l_pos curr)) en) (open, [], cnt) in
    let s2 := fold_left (model_step closed curr)
                (sorted_by (c_model cs) (List.filter (fun t => negb (is_sync (l_pos curr) t)) en)) s1 in
    let '(open', _, cnt') := log_step closed curr s2 in (open', cnt').

  (** Outcome: the final state, queue empty, time limit ([fuel]); the last two make the code return None. *)
  Inductive lresult := LFound (n : lnode) | LExhausted | LInterrupted.

  (** dijkstra_less_memory.py:597-676: the main loop. *)
  Fixpoint lm_loop (fuel : nat) (closed : list (marking * nat)) (open : list lnode) (cnt : nat) : lresult :=
    match open with
    | [] => LExhausted
    | _ =>
      match fuel with
      | O => LInterrupted
      | S fuel' =>
        match lheap_pop open with
        | None => LExhausted
        | Some (curr, rest) =>
            if check_closed closed (l_m curr) (l_pos curr) then lm_loop fuel' closed rest cnt
            else let closed' := (l_m curr, l_pos curr) :: closed in
                 if bool_decide (l_m curr = fm) && Nat.eqb (l_pos curr) (length trace) then LFound curr
                 else let '(open', cnt') := expand closed' curr rest cnt in lm_loop fuel' closed' open' cnt'
        end
      end
    end.

  (** dijkstra_less_memory.py:591-593. *)
  Definition lm_search (fuel : nat) (im : marking) : lresult :=
    lm_loop fuel [] [LNode 0 0 MSync 0 0 [] im] 0.

  (** dijkstra_less_memory.py:719-736 [__reconstruct_alignment]: one pair per state of the chain. *)
  Definition move_of (e : mtype * nat * option ptrans) : slabel :=
    let '(ty, pos, t) := e in
    (match ty with
     | MSync | MLog => match nth_error trace (pos - 1) with Some a => Lab (Some a) | None => Skip end
     | MModel => Skip
     end,
     match ty with
     | MSync | MModel => match t with Some t => Lab (t_label t) | None => Skip end
     | MLog => Skip
     end).
  Definition lm_alignment (n : lnode) : list slabel := map move_of (rev (l_path n)).
End Loop.

(** dijkstra_less_memory.py:218-242: the default cost of a transition; a silent transition costs 0 if no
    transition enabled in its activation marking has a label that occurs in the trace, 1 otherwise. *)
Definition std_model_cost (pn : petri_net (option nat)) (trace : list nat) (t : ptrans) : Z :=
  match t_label t with
  | Some _ => STD_MODEL_LOG_MOVE_COST
  | None =>
      let vis := List.filter (fun u => match t_label u with
                                       | Some a => existsb (Nat.eqb a) trace
                                       | None => false
                                       end) (enabled_transitions pn (arc_dict (t_in t))) in
      match vis with [] => 0 | _ => STD_TAU_COST end
  end.

(** dijkstra_less_memory.py:299-301,344 and 317-351 [apply] with default parameters. *)
Definition std_costs (pn : petri_net (option nat)) (trace : list nat) : lcosts :=
  LCosts (std_model_cost pn trace) (fun _ => STD_MODEL_LOG_MOVE_COST) STD_SYNC_COST.
Definition lm_apply (fuel : nat) (trace : list nat) (pn : petri_net (option nat)) (im fm : marking) : lresult :=
  lm_search pn fm trace (std_costs pn trace) fuel im.

(** dijkstra_less_memory.py:73-100 [get_best_worst_cost]. *)
Definition lm_best_worst_cost (fuel : nat) (pn : petri_net (option nat)) (im fm : marking) : option Z :=
  match lm_apply fuel [] pn im fm with LFound n => Some (l_cost n) | _ => None end.
