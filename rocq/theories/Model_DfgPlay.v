(** Model of the playout of directly-follows graphs, algo/simulation/playout/dfg/variants/classic.py (cl).

    Simplifications: probabilities are exact rationals (the code adds logarithms of floats and takes exp); dicts are lists of entries with distinct keys; the heap
    gives an entry with the highest probability, and among these any one (the code: the smallest trace); the time limit is left out. *)
From Coq Require Import List Arith QArith Qround Bool Permutation.
Import ListNotations.
Open Scope nat_scope.

Definition edges := list (nat * nat * nat).
Definition freqs := list (nat * nat).
Definition sum_values {K} (l : list (K * nat)) : nat := list_sum (map snd l).
(** cl 71-78: node_transition_probabilities[source] before the normalisation; the end is None *)
Definition row (dfg : edges) (ea : freqs) (s : nat) : list (option nat * nat) :=
  map (fun e => (Some (snd (fst e)), snd e)) (filter (fun e => Nat.eqb (fst (fst e)) s) dfg) ++ map (fun e => (None, snd e)) (filter (fun e => Nat.eqb (fst e) s) ea).
Definition ratio (c total : nat) : Q := inject_Z (Z.of_nat c) / inject_Z (Z.of_nat total).
(** cl 79-89: shares *)
Definition normalised {K} (l : list (K * nat)) : list (K * Q) := map (fun x => (fst x, ratio (snd x) (sum_values l))) l.
(** cl 137: node_transition_probabilities[source]; None: KeyError *)
Definition transitions_of (dfg : edges) (ea : freqs) (s : nat) : option (list (option nat * Q)) :=
  match row dfg ea s with [] => None | r => Some (normalised r) end.

(** cl 129-145 [get_traces]: one round of the loop; [ys]: the traces yielded so far *)
Definition partial := (list nat * Q)%type.
Definition may_use (max : nat) (t : list nat) (a : nat) : bool := count_occ Nat.eq_dec t a <? max.
Definition extensions (max : nat) (x : partial) (r : list (option nat * Q)) : list partial :=
  flat_map (fun y => match fst y with Some a => if may_use max (fst x) a then [(fst x ++ [a], snd x * snd y)%Q] else [] | None => [] end) r.
Definition yielded (max : nat) (x : partial) (r : list (option nat * Q)) : list partial :=
  flat_map (fun y => match fst y with Some _ => [] | None => if 0 <? max then [(fst x, snd x * snd y)%Q] else [] end) r.
(** cl 126 *)
Definition first_partials (sa : freqs) : list partial := map (fun x => ([fst x], snd x)) (normalised sa).
Definition round (dfg : edges) (ea : freqs) (max : nat) (s s' : list partial * list partial) : Prop :=
  exists x rest r, Permutation (fst s) (x :: rest) /\ (forall y, In y rest -> snd y <= snd x)%Q /\ transitions_of dfg ea (last (fst x) 0) = Some r /\
    s' = (extensions max x r ++ rest, snd s ++ yielded max x r).
Inductive rounds (dfg : edges) (ea : freqs) (max : nat) : nat -> list partial * list partial -> list partial * list partial -> Prop :=
| rounds_0 s : rounds dfg ea max 0 s s
| rounds_S k s1 s2 s3 : rounds dfg ea max k s1 s2 -> round dfg ea max s2 s3 -> rounds dfg ea max (S k) s1 s3.
(** cl 94-145: the traces, when the iterator is exhausted *)
Definition get_traces (dfg : edges) (sa ea : freqs) (max : nat) (ys : list partial) : Prop :=
  exists k, rounds dfg ea max k (first_partials sa, []) ([], ys).

(** cl 285-332 [get_trace_probability]; any exception gives 0 *)
Definition lookup (o : option nat) (r : list (option nat * Q)) : option Q :=
  match find (fun y => match fst y, o with Some a, Some b => Nat.eqb a b | None, None => true | _, _ => false end) r with Some y => Some (snd y) | None => None end.
Fixpoint follow (dfg : edges) (ea : freqs) (t : list nat) : option Q :=
  match t with
  | [] => Some 1%Q
  | a :: r =>
    match transitions_of dfg ea a with
    | None => None
    | Some row => match lookup (match r with [] => None | b :: _ => Some b end) row, follow dfg ea r with Some p, Some q => Some (p * q)%Q | _, _ => None end
    end
  end.
Definition get_trace_probability (t : list nat) (dfg : edges) (sa ea : freqs) : Q :=
  match t with
  | [] => 0%Q
  | a :: _ => match find (fun x => Nat.eqb (fst x) a) (normalised sa), follow dfg ea t with Some x, Some q => (snd x * q)%Q | _, _ => 0%Q end
  end.

(** cl 201-252 [apply]: the loop over the traces with the parameters max_no_variants, min_weighted_probability, interrupt_simulation_when_dfg_complete,
    add_trace_if_takes_new_els_to_dfg, min_variant_occ *)
Record settings := Settings { max_no_variants : nat; min_weighted_probability : Q; interrupt_when_complete : bool; add_if_new : bool; min_variant_occ : Z }.
Definition pairs (t : list nat) : list (nat * nat) := combine t (tl t).
Definition mem (x : nat) (l : list nat) : bool := existsb (Nat.eqb x) l.
Definition pmem (x : nat * nat) (l : list (nat * nat)) : bool := existsb (fun y => Nat.eqb (fst x) (fst y) && Nat.eqb (snd x) (snd y)) l.
Definition var_occ (c : settings) (p : Q) : Z := Qceiling (p * inject_Z (Z.of_nat (max_no_variants c))).
(** state: start activities, end activities and pairs seen; final traces; overall probability; break condition; max_occ.  Result: final traces and [interrupted]. *)
Fixpoint select (c : settings) (dfg : edges) (sa ea : freqs) (ys : list partial) (ssa sea : list nat) (sdfg : list (nat * nat)) (final : list partial) (overall : Q) (brk : bool) (max_occ : Z) : list partial * bool :=
  match ys with
  | [] => (final, false)
  | (tr, p) :: ys' =>
    if interrupt_when_complete c && brk then (final, false)
    else if max_no_variants c <=? length final then (final, true)
    else if negb (Qle_bool overall (min_weighted_probability c)) then (final, true)
    else
      let overall' := (overall + p)%Q in
      let adds := negb (mem (hd 0 tr) ssa) || negb (mem (last tr 0) sea) || existsb (fun x => negb (pmem x sdfg)) (pairs tr) in
      if add_if_new c && negb adds then select c dfg sa ea ys' ssa sea sdfg final overall' brk max_occ
      else
        let ssa' := hd 0 tr :: ssa in
        let sea' := last tr 0 :: sea in
        let sdfg' := pairs tr ++ sdfg in
        let brk' := forallb (fun x => mem (fst x) ssa') sa && forallb (fun x => mem (fst x) sea') ea && forallb (fun x => pmem (fst x) sdfg') dfg in
        let max_occ' := Z.max max_occ (var_occ c p) in
        if (var_occ c p <? min_variant_occ c)%Z && (min_variant_occ c <=? max_occ')%Z then (final, false)
        else if interrupt_when_complete c && brk' then (final ++ [(tr, p)], false)
        else select c dfg sa ea ys' ssa' sea' sdfg' (final ++ [(tr, p)]) overall' brk' max_occ'
  end.
(** cl 254-282: the traces ordered by decreasing probability (the order among equally probable traces is left open); return_variants: each with its number of occurrences *)
Definition sorted_traces (l : list partial) : Prop := forall i j x y, i < j -> nth_error l i = Some x -> nth_error l j = Some y -> (snd y <= snd x)%Q.
Definition playout (c : settings) (dfg : edges) (sa ea : freqs) (max : nat) (result : list partial) (interrupted : bool) : Prop :=
  exists ys final, get_traces dfg sa ea max ys /\ select c dfg sa ea ys [] [] [] [] 0%Q false 0%Z = (final, interrupted) /\ Permutation final result /\ sorted_traces result.
Definition as_variants (c : settings) (result : list partial) : list (list nat * Z) := map (fun x => (fst x, var_occ c (snd x))) result.
