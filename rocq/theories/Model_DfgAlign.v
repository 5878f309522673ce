(** Model of the alignment of traces with directly-follows graphs:
    pm4py/algo/conformance/alignments/dfg/variants/classic.py (da), with the default cost functions
    (synchronous moves cost 0, log and model moves cost [K] = STD_MODEL_LOG_MOVE_COST = 10000).

    Simplifications: node objects (activities and the two random names of the start and end node) are the
    type [node]; h = 0 always, so the field g equals f and is not kept; [closed] is a function, None = -1; the
    heap is the list of its elements and heappop any function that removes a state with the smallest f
    (Python takes the smallest tuple (f, -index, ...)); the set outgoing_nodes is enumerated in an arbitrary
    order.  The loop has fuel; theorems state that it is not exhausted. *)
From Coq Require Import List Arith Bool QArith.
Import ListNotations.
From Verif Require Import Model_Dict.
Local Open Scope nat_scope.

Inductive node := NStart | NEnd | NAct (a : nat).
Definition node_eqb (x y : node) : bool :=
  match x, y with
  | NStart, NStart => true | NEnd, NEnd => true
  | NAct a, NAct b => Nat.eqb a b
  | _, _ => false
  end.

(** da 51-60, 388: a state of the search. *)
Inductive ast := AState (f : nat) (idx : nat) (visited : nat) (real : nat) (nd : node) (lm mm : bool) (prev : option ast).
Definition a_f (s : ast) := let '(AState f _ _ _ _ _ _ _) := s in f.
Definition a_idx (s : ast) := let '(AState _ i _ _ _ _ _ _) := s in i.
Definition a_visited (s : ast) := let '(AState _ _ v _ _ _ _ _) := s in v.
Definition a_real (s : ast) := let '(AState _ _ _ r _ _ _ _) := s in r.
Definition a_node (s : ast) := let '(AState _ _ _ _ n _ _ _) := s in n.
Definition a_lm (s : ast) := let '(AState _ _ _ _ _ l _ _) := s in l.
Definition a_mm (s : ast) := let '(AState _ _ _ _ _ _ m _) := s in m.
Definition a_prev (s : ast) := let '(AState _ _ _ _ _ _ _ p) := s in p.

Inductive outcome := Found (s : ast) | Exhausted | OutOfFuel.

Section Search.
  Context (K : nat) (edges : list (nat * nat)) (sa ea : list nat) (trace : list nat).
  Context (pop : list ast -> option (ast * list ast)).
  Context (nord : list node -> list node).

  (** da 336-337 activities_model *)
  Definition model_acts : list nat := dedup (map fst edges ++ map snd edges ++ sa ++ ea).
  Definition in_model (a : nat) : bool := existsb (Nat.eqb a) model_acts.

  (** da 365-372 outgoing_nodes *)
  Definition outgoing (n : node) : list node :=
    match n with
    | NStart => map NAct (dedup sa)
    | NEnd => []
    | NAct a => map NAct (dedup (map snd (filter (fun e => Nat.eqb (fst e) a) edges)))
                ++ (if existsb (Nat.eqb a) ea then [NEnd] else [])
    end.

  (** da 354-360 internal_log_move_cost_function *)
  Definition log_cost (a : nat) : nat := if in_model a then K else 0.

  Definition closed_at (closed : node -> option nat) (n : node) (i : nat) : bool :=
    match closed n with None => false | Some c => Nat.leb i c end.
  Definition close (closed : node -> option nat) (n : node) (i : nat) : node -> option nat :=
    fun x => if node_eqb x n then Some i else closed x.

  (** da 401-464: the successors of a state, in the order of their creation; [nv] = num_visited. *)
  Definition successors (nv : nat) (s : ast) : list ast :=
    let i := a_idx s in
    let cur := nth_error trace i in
    let moves :=
      match a_node s with
      | NEnd => []
      | n =>
        let out := nord (outgoing n) in
        if match cur with Some a => negb (in_model a) | None => false end then []
        else
          let can_sync := match cur with Some a => existsb (node_eqb (NAct a)) out | None => false end in
          match cur with
          | Some a => if can_sync then [AState (a_f s) (i + 1) nv (a_real s) (NAct a) false false (Some s)] else []
          | None => []
          end
          ++ concat (map (fun m =>
               match m with
               | NEnd => [AState (a_f s) i nv (a_real s) NEnd false false (Some s)]
               | _ => if can_sync then [] else [AState (a_f s + K) i nv (a_real s + K) m false true (Some s)]
               end) out)
      end in
    moves ++
    match cur with
    | Some a => if a_mm s then [] else [AState (a_f s + log_cost a) (i + 1) nv (a_real s + K) (a_node s) true false (Some s)]
    | None => []
    end.

  (** da 381-464: the loop. *)
  Fixpoint search (fuel : nat) (open : list ast) (closed : node -> option nat) (nv : nat) : outcome :=
    match fuel with
    | O => OutOfFuel
    | S fuel' =>
      match pop open with
      | None => Exhausted
      | Some (s, open') =>
        if closed_at closed (a_node s) (a_idx s) then search fuel' open' closed (nv + 1)
        else
          let closed' := close closed (a_node s) (a_idx s) in
          if node_eqb (a_node s) NEnd && negb (Nat.ltb (a_idx s) (length trace)) then Found s
          else search fuel' (filter (fun c => negb (closed_at closed' (a_node c) (a_idx c))) (successors (nv + 1) s) ++ open') closed' (nv + 1)
      end
    end.
  Definition start_state : ast := AState 0 0 0 0 NStart false false None.
  Definition align_dfg (fuel : nat) : outcome := search fuel [start_state] (fun _ => None) 0.
End Search.

(** da 467-505 [__return_alignment]: the moves; None = ">>".  The final state itself is not visited, and
    states that have not consumed an event (pl < 0) are skipped. *)
Fixpoint back_moves (trace : list nat) (s : ast) : list (option nat * option node) :=
  let '(AState _ _ _ _ _ _ _ p) := s in
  match p with
  | None => []
  | Some s' =>
    back_moves trace s' ++
    (let '(AState _ i _ _ n lm mm _) := s' in
     match i with
     | O => []
     | S pl => [(if mm then None else nth_error trace pl, if lm then None else Some n)]
     end)
  end.

(** da 100-161 [apply_log]: cost, bwc and fitness of every trace, with the dictionary align_dict of the traces
    already aligned; [None]: TypeError, because an alignment was not found (None["cost"]).
    Simplified: the remaining entries of the result (alignment, visited states, ...) are left out here. *)
Section Log.
  Context (K : nat) (edges : list (nat * nat)) (sa ea : list nat).
  Context (pop : list ast -> option (ast * list ast)) (nord : list node -> list node) (fuel : nat).
  Definition al_cost (t : list nat) : option nat :=
    match align_dfg K edges sa ea t pop nord fuel with Found s => Some (a_real s) | _ => None end.
  Definition al_result (empty_cost : nat) (t : list nat) (cost : nat) : nat * nat * Q :=
    let bwc := empty_cost + list_sum (map (fun _ => K) t) in
    (cost, bwc, 1 - inject_Z (Z.of_nat cost) / inject_Z (Z.of_nat bwc))%Q.
  Fixpoint align_traces (empty_cost : nat) (traces : list (list nat)) (align_dict : dict (list nat) (nat * nat * Q))
    : option (list (nat * nat * Q)) :=
    match traces with
    | [] => Some []
    | t :: rest =>
      match d_get align_dict t with
      | Some r => match align_traces empty_cost rest align_dict with Some rs => Some (r :: rs) | None => None end
      | None =>
        match al_cost t with
        | None => None
        | Some c =>
          let r := al_result empty_cost t c in
          match align_traces empty_cost rest (d_set align_dict t r) with Some rs => Some (r :: rs) | None => None end
        end
      end
    end.
  Definition align_dfg_log (traces : list (list nat)) : option (list (nat * nat * Q)) :=
    match al_cost [] with None => None | Some e => align_traces e traces [] end.
End Log.
