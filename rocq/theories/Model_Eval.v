(** Model of the evaluation measures of a log against a net.
    rf = pm4py/algo/evaluation/replay_fitness/variants/alignment_based.py,
    al = pm4py/algo/conformance/alignments/petri_net/algorithm.py,
    ge = pm4py/algo/evaluation/generalization/variants/token_based.py,
    si = pm4py/algo/evaluation/simplicity/variants/arc_degree.py. *)
From Coq Require Import ZArith QArith Reals List.
From Verif Require Import Model_Petri Model_Align Model_Dict.
Import ListNotations.

(** al 152-166: the entries "fitness", "bwc" and "cost" of an aligned trace. *)
Record aligned := Aligned { al_fitness : Q; al_bwc : Z; al_cost : Z }.

(** al 148-166: the entry of a trace whose alignment costs [cost], [bwc] = best worst cost of the net. *)
Definition aligned_of (trace : list nat) (cost bwc : Z) : aligned :=
  Aligned (trace_fitness trace cost bwc) (STD_MODEL_LOG_MOVE_COST * Z.of_nat (length trace) + bwc)%Z cost.

(** rf 36-83 [evaluate]: percentage of fitting traces, average trace fitness, log fitness.
    [None] entries are traces that could not be aligned.  Simplification: floats are rationals; the test
    tr["fitness"] == 1.0 is equality of rationals. *)
Record sums := Sums { s_fit : nat; s_fitness : Q; s_bwc : Z; s_cost : Z }.
Definition present (l : list (option aligned)) : list aligned :=
  flat_map (fun o => match o with Some a => [a] | None => [] end) l.
Definition ev_step (s : sums) (o : option aligned) : sums :=
  match o with
  | None => s
  | Some tr => Sums (if Qeq_bool (al_fitness tr) 1 then S (s_fit s) else s_fit s)
                    (s_fitness s + al_fitness tr)%Q (s_bwc s + al_bwc tr)%Z (s_cost s + al_cost tr)%Z
  end.
Definition evaluate_alignments (l : list (option aligned)) : Q * Q * Q :=
  let n := length (present l) in
  let s := fold_left ev_step l (Sums 0 0 0 0) in
  if Nat.ltb 0 n then
    let qn := inject_Z (Z.of_nat n) in
    ((inject_Z 100 * inject_Z (Z.of_nat (s_fit s)) / qn)%Q, (s_fitness s / qn)%Q,
     (1 - (if (0 <? s_bwc s)%Z then inject_Z (s_cost s) / inject_Z (s_bwc s) else 0))%Q)
  else (0%Q, 0%Q, 0%Q).

(** ge 33-48 [get_generalization]: [acts] = the activated transitions of each replayed trace, [ts] = the
    transitions of the net (both by identifier).  Simplification: floats are reals. *)
Definition occ_map (acts : list (list nat)) : counter := 
  fold_left (fun d tr => fold_left (fun d t => c_add d t 1) tr d) acts [].
Definition generalization (ts : list nat) (acts : list (list nat)) : R :=
  let m := occ_map acts in
  let s1 := fold_left (fun s t => (s + 1 / sqrt (INR (c_get m t)))%R) (d_keys m) 0%R in
  let s2 := fold_left (fun s t => if d_mem m t then s else (s + 1)%R) ts s1 in
  if Nat.ltb 0 (length ts) then (1 - s2 / INR (length ts))%R else 1%R.

(** si 28-72 [apply]: k = 2 by default.  The arcs of a place are those of the transitions of the net that
    name it (objects keep in_arcs / out_arcs); [places] without duplicates. *)
Definition degree_place {L} (pn : petri_net L) (p : nat) : nat :=
  length (flat_map (fun t => List.filter (fun a => Nat.eqb (fst a) p) (t_in t ++ t_out t)) (n_trans pn)).
Definition degree_trans {L} (t : transition L) : nat := length (t_in t) + length (t_out t).
Definition simplicity {L} (k : Q) (pn : petri_net L) : Q :=
  let degs := map (degree_place pn) (n_places pn) ++ map degree_trans (n_trans pn) in
  let mean := match degs with
              | [] => 0%Q
              | _ => (inject_Z (Z.of_nat (list_sum degs)) / inject_Z (Z.of_nat (length degs)))%Q
              end in
  (1 / (1 + Qminmax.Qmax (mean - k) 0))%Q.
