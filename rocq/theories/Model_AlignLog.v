(** Model of alignments of a log: pm4py/algo/conformance/alignments/petri_net/algorithm.py
    apply_log, __get_variants_structure, __form_alignments. *)
From Coq Require Import List Arith.
Import ListNotations.

Section AlignLog.
  Context {C R : Type}.               (* cases; results of apply_trace *)
  Variable acts : C -> list nat.       (* the activity sequence of a case *)

  Fixpoint eqb_list (a b : list nat) : bool :=
    match a, b with
    | [], [] => true
    | x :: a', y :: b' => Nat.eqb x y && eqb_list a' b'
    | _, _ => false
    end.

  (** variants_idxs: a dictionary variant -> indexes of its cases, in insertion order. *)
  Definition vdict := list (list nat * list nat).

  Definition v_mem (v : list nat) (d : vdict) : bool := existsb (fun e => eqb_list (fst e) v) d.
  Fixpoint v_append (v : list nat) (i : nat) (d : vdict) : vdict :=
    match d with
    | [] => []
    | (w, l) :: r => if eqb_list w v then (w, l ++ [i]) :: r else (w, l) :: v_append v i r
    end.

  (** algorithm.py:321-347 [__get_variants_structure] (event log branch; the dataframe branch builds the
      same structure): the loop body. *)
  Definition vs_step (st : vdict * list C) (ic : nat * C) : vdict * list C :=
    let '(d, reps) := st in
    let '(i, c) := ic in
    if negb (v_mem (acts c) d) then (d ++ [(acts c, [i])], reps ++ [c])
    else (v_append (acts c) i d, reps).
  Definition variants_structure (log : list C) : vdict * list C :=
    fold_left vs_step (combine (seq 0 (length log)) log) ([], []).

  (** algorithm.py:360-371 [__form_alignments]: al_idx is a dictionary index -> result (association
      list, last write first); [None] = KeyError / IndexError. *)
  Fixpoint al_lookup (i : nat) (d : list (nat * R)) : option R :=
    match d with [] => None | (j, r) :: d' => if Nat.eqb i j then Some r else al_lookup i d' end.
  Definition al_set (i : nat) (r : R) (d : list (nat * R)) : list (nat * R) :=
    (i, r) :: filter (fun e => negb (Nat.eqb (fst e) i)) d.
  Fixpoint al_build (k : nat) (d : vdict) (res : list R) (acc : list (nat * R)) : option (list (nat * R)) :=
    match d with
    | [] => Some acc
    | (_, idxs) :: d' =>
        match nth_error res k with
        | None => match idxs with [] => al_build (S k) d' res acc | _ => None end
        | Some r => al_build (S k) d' res (fold_left (fun a i => al_set i r a) idxs acc)
        end
    end.
  Fixpoint opt_all {A} (l : list (option A)) : option (list A) :=
    match l with
    | [] => Some []
    | None :: _ => None
    | Some x :: r => match opt_all r with Some l' => Some (x :: l') | None => None end
    end.
  Definition form_alignments (d : vdict) (res : list R) : option (list R) :=
    match al_build 0 d res [] with
    | None => None
    | Some al => opt_all (map (fun i => al_lookup i al) (seq 0 (length al)))
    end.

  (** algorithm.py:170-232 [apply_log]: align one case per variant, redistribute. *)
  Definition apply_log (align : C -> R) (log : list C) : option (list R) :=
    let '(d, reps) := variants_structure log in form_alignments d (map align reps).
End AlignLog.
