(** Model of the ETConformance precision.
    Modelled files: pm4py/algo/evaluation/precision/utils.py, variants/align_etconformance.py,
    variants/etconformance_token.py (aggregation) and
    pm4py/objects/petri_net/utils/align_utils.py:430-469. *)
From stdpp Require Import gmap.
From Coq Require Import ZArith QArith List.
From Verif Require Import Model_Petri Model_Align Model_Dict.
Import ListNotations.
Local Open Scope Z_scope.

Notation pnet := (petri_net (option nat)) (only parsing).
Notation ptrans := (transition (option nat)) (only parsing).

(** ---- Visible transitions eventually enabled (align_utils.py:430-469) ---- *)
(** The transitions, the dictionary transition -> marking and the visited pairs.
    [ee_queue] = the part of [all_enabled_transitions] from index [i] on.
    Simplifications: the sort by (name, id) is the order of the list of transitions of the net (any
    order); the visited strings repr([t, marking]) are the pairs themselves (distinct names). *)
Record ee_state := EE {
  ee_queue : list ptrans;
  ee_dict : dict nat marking;
  ee_visible : list ptrans;
  ee_visited : list (nat * marking)
}.

(** align_utils.py:456-465: body of the loop for the transition [t] whose marking in the dictionary is [m]. *)
Definition ee_visit (pn : pnet) (st : ee_state) (t : ptrans) (m : marking) : ee_state :=
  let visited' := (t_id t, m) :: ee_visited st in
  match t_label t with
  | Some _ => EE (ee_queue st) (ee_dict st) (t :: ee_visible st) visited'
  | None =>
      match execute t pn m with
      | None => EE (ee_queue st) (ee_dict st) (ee_visible st) visited'
      | Some m' =>
          let new := enabled_transitions pn m' in
          EE (ee_queue st ++ new) (fold_left (fun d t2 => d_set d (t_id t2) m') new (ee_dict st))
             (ee_visible st) visited'
      end
  end.

(** align_utils.py:451-467: the while loop ([None] = out of fuel). *)
Fixpoint ee_loop (fuel : nat) (pn : pnet) (st : ee_state) : option (list ptrans) :=
  match ee_queue st with
  | [] => Some (ee_visible st)
  | t :: q =>
      match fuel with
      | O => None
      | S fuel' =>
          let st1 := EE q (ee_dict st) (ee_visible st) (ee_visited st) in
          let m := match d_get (ee_dict st) (t_id t) with Some m => m | None => ∅ end in
          ee_loop fuel' pn (if bool_decide ((t_id t, m) ∈ ee_visited st) then st1 else ee_visit pn st1 t m)
      end
  end.

(** align_utils.py:430-469 [get_visible_transitions_eventually_enabled_by_marking]. *)
Definition visible_eventually_enabled (fuel : nat) (pn : pnet) (m : marking) : option (list ptrans) :=
  let q := enabled_transitions pn m in
  ee_loop fuel pn (EE q (fold_left (fun d t => d_set d (t_id t) m) q []) [] []).

(** align_etconformance.py:101-103, 126: the set of the labels. *)
Definition labels_of (ts : list ptrans) : list nat :=
  dedup (flat_map (fun t => match t_label t with Some a => [a] | None => [] end) ts).

(** ---- Search of the markings reached by a prefix (utils.py:28-103) ---- *)
(** utils.py:79-87: transitions associated with a marked place whose sub_marking is covered, without log
    moves and visible model moves (a transition without input place is never considered). *)
Definition prefix_enabled (pn : petri_net slabel) (m : marking) : list (transition slabel) :=
  List.filter (fun t =>
    existsb (fun kv => match sub_marking t !! kv.1 with Some _ => true | None => false end) (map_to_list m)
    && m_leb (sub_marking t) m
    && negb (is_log_move (t_label t)
             || (is_model_move (t_label t) && negb (bool_decide ((t_label t).2 = Lab None))))) (n_trans pn).

(** utils.py:49-103: the loop.  [ret]/[opt] = [ret_markings] and [optimal_cost] (set together).
    The heap nodes are [dnode] with f = g; SearchTuple.__lt__ compares f only (h = 0, trust = True), so
    the depth field is always 0. [None] = out of fuel. *)
Definition prefix_push (cost : transition slabel -> Z) (closed : list marking) (curr : dnode)
                       (open : list dnode) (t : transition slabel) : list dnode :=
  let nm := add_markings (d_m curr) (add_marking t) in
  if bool_decide (nm ∈ closed) then open
  else DNode (d_g curr + cost t) nm (t :: d_path curr) 0 :: open.
Fixpoint prefix_loop (fuel : nat) (pn : petri_net slabel) (stop : marking) (cost : transition slabel -> Z)
         (closed : list marking) (open : list dnode) (ret : option (list marking * Z))
  : option (option (list marking)) :=
  match open with
  | [] => Some (option_map fst ret)
  | _ =>
    match fuel with
    | O => None
    | S fuel' =>
      match heap_pop open with
      | None => Some (option_map fst ret)
      | Some (curr, rest) =>
          if match ret with Some (_, c) => c <? d_g curr | None => false end
          then Some (option_map fst ret)
          else if bool_decide (d_m curr ∈ closed) then prefix_loop fuel' pn stop cost closed rest ret
          else if m_leb stop (d_m curr)
          then prefix_loop fuel' pn stop cost (d_m curr :: closed) rest
                 (Some (d_m curr :: match ret with Some (ms, _) => ms | None => [] end, d_g curr))
          else let closed' := d_m curr :: closed in
               prefix_loop fuel' pn stop cost closed'
                 (fold_left (prefix_push cost closed' curr) (prefix_enabled pn (d_m curr)) rest) ret
      end
    end
  end.

(** align_etconformance.py:296-309 [__align_trace_stop_marking]: the stop marking is the part of the final
    marking of the product that belongs to the trace net. *)
Definition stop_marking (sfm : marking) : marking :=
  fold_left (fun acc kv => if Nat.even kv.1 then <[kv.1 := kv.2]> acc else acc) (map_to_list sfm) ∅.
Definition prefix_markings (fuel : nat) (prefix : list nat) (pn : pnet) (im fm : marking)
  : option (option (list marking)) :=
  let '(tn, tim, tfm) := construct_trace_net prefix in
  let '(sn, sim, sfm) := construct tn tim tfm pn im fm in
  prefix_loop fuel sn (stop_marking sfm) (fun t => std_cost (t_label t)) [] [DNode 0 sim [] 0] None.

(** align_etconformance.py:138-186, 230-246: back to markings of the original net. *)
Definition original_marking (sm : marking) : marking :=
  fold_left (fun acc kv => if Nat.even kv.1 then acc else <[(kv.1 / 2)%nat := kv.2]> acc) (map_to_list sm) ∅.

(** align_etconformance.py:89-103: the labels activated after a prefix; inner [None]: the prefix cannot be
    replayed, outer [None]: out of fuel. *)
Fixpoint union_labels (fuel : nat) (pn : pnet) (ms : list marking) : option (list nat) :=
  match ms with
  | [] => Some []
  | m :: r =>
      match visible_eventually_enabled fuel pn m, union_labels fuel pn r with
      | Some ts, Some ls => Some (dedup (labels_of ts ++ ls))
      | _, _ => None
      end
  end.
Definition align_activated (fuel : nat) (pn : pnet) (im fm : marking) (prefix : list nat)
  : option (option (list nat)) :=
  match prefix_markings fuel prefix pn im fm with
  | None => None
  | Some None => Some None
  | Some (Some ms) => option_map Some (union_labels fuel pn (map original_marking ms))
  end.

(** ---- Prefixes of the log (utils.py:106-134) ---- *)
(** Simplification: the key is the list of activities instead of the joined string, see [join_sep] below. *)
Definition add_prefix (st : dict (list nat) (list nat) * dict (list nat) nat) (pa : list nat * nat)
  : dict (list nat) (list nat) * dict (list nat) nat :=
  let old := match d_get st.1 pa.1 with Some s => s | None => [] end in
  (d_set st.1 pa.1 (if existsb (Nat.eqb pa.2) old then old else old ++ [pa.2]), c_add st.2 pa.1 1).
Definition trace_prefixes (tr : list nat) : list (list nat * nat) :=
  map (fun i => (firstn i tr, nth i tr 0%nat)) (seq 1 (length tr - 1)).
Definition log_prefixes (log : list (list nat)) : dict (list nat) (list nat) * dict (list nat) nat :=
  fold_left (fun st tr => fold_left add_prefix (trace_prefixes tr) st) log ([], []).

(** utils.py:127, 151: sep.join(prefix) and prefix.split(sep) on strings (lists of characters). *)
Fixpoint join_sep (sep : nat) (l : list (list nat)) : list nat :=
  match l with
  | [] => []
  | [x] => x
  | x :: r => x ++ sep :: join_sep sep r
  end.
Fixpoint split_sep (sep : nat) (s : list nat) : list (list nat) :=
  match s with
  | [] => [[]]
  | c :: r => if Nat.eqb c sep then [] :: split_sep sep r
              else match split_sep sep r with
                   | x :: l => (c :: x) :: l
                   | [] => [[c]]
                   end
  end.

(** ---- Aggregation (align_etconformance.py:92-135, etconformance_token.py:116-136) ---- *)
(** [act w] = the labels activated after the prefix [w] ([None]: the prefix is not counted), [init] = the
    labels enabled in the initial marking, [n] = len(log). *)
Definition escaping (ls seen : list nat) : list nat :=
  List.filter (fun a => negb (existsb (Nat.eqb a) seen)) ls.
Definition start_activities (log : list (list nat)) : list nat :=
  dedup (flat_map (fun tr => match tr with [] => [] | a :: _ => [a] end) log).
Definition precision_sums (act : list nat -> option (list nat)) (init : list nat) (n : nat)
                          (log : list (list nat)) : nat * nat :=
  let '(prefixes, cnt) := log_prefixes log in
  fold_left (fun s kv =>
      match act kv.1 with
      | None => s
      | Some ls => (s.1 + length ls * c_get cnt kv.1, s.2 + length (escaping ls kv.2) * c_get cnt kv.1)%nat
      end) prefixes
    ((n * length init)%nat, (n * length (escaping init (start_activities log)))%nat).
Definition precision_value (s : nat * nat) : Q :=
  if Nat.ltb 0 s.1 then (1 - inject_Z (Z.of_nat s.2) / inject_Z (Z.of_nat s.1))%Q else 1%Q.
Definition precision_of (act : list nat -> option (list nat)) (init : list nat) (n : nat)
                        (log : list (list nat)) : Q := precision_value (precision_sums act init n log).

(** len(log): number of cases for an event log, number of rows for a data frame. *)
Definition len_event_log (log : list (list nat)) : nat := length log.
Definition len_dataframe (log : list (list nat)) : nat := list_sum (map (@length nat) log).

(** align_etconformance.py:46-135 [apply] for event logs; [None] = out of fuel.
    Simplification: the soundness check at line 79 is a precondition. *)
Definition align_precision (fuel : nat) (pn : pnet) (im fm : marking) (log : list (list nat)) : option Q :=
  match visible_eventually_enabled fuel pn im with
  | None => None
  | Some ts =>
      if forallb (fun w => match align_activated fuel pn im fm w with Some _ => true | None => false end)
                 (d_keys (log_prefixes log).1)
      then Some (precision_of (fun w => match align_activated fuel pn im fm w with Some r => r | None => None end)
                              (labels_of ts) (len_event_log log) log)
      else None
  end.
