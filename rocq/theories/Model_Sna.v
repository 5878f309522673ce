(** Social network metrics (pm4py.discover_handover_of_work_network, discover_working_together_network, discover_subcontracting_network):
    pm4py/algo/organizational_mining/sna/variants/log/{handover,working_together,subcontracting}.py and the same files in variants/pandas.

    A log is the list of its cases, each the list of the resources of its events.  Variants are counted with a Counter ([c_of]; in the
    pandas version in another order: [vs] is any order of them).  Resources are numbers; their positions in the sorted list of resources are
    not distinguished from the resources themselves.  The nested dictionary sum_i_to_j is a dictionary on pairs.  Floats are rationals.
    ZeroDivisionError is [None]. *)
From Coq Require Import List Arith ZArith QArith Bool.
Import ListNotations.
From Verif Require Import Model_Lev Model_Dict.

Definition conn := dict (nat * nat) Q.
Definition q_get (d : conn) (k : nat * nat) : Q := match d_get d k with Some v => v | None => 0%Q end.
Definition q_add (d : conn) (k : nat * nat) (v : Q) : conn := d_set d k (q_get d k + v)%Q.
Definition q_nat (n : nat) : Q := inject_Z (Z.of_nat n).
(** variants_filter.get_variants, case_statistics.get_variant_statistics: the variants with their numbers of cases *)
Definition variants (log : list (list nat)) : list (list nat * nat) := c_of log.

(** log/handover.py:75-86 (pandas/handover.py:80-91): the resources after position i; [k] = j - i - 1 *)
Fixpoint ho_after (beta occ : Q) (a k : nat) (rest : list nat) (st : conn * Q) : conn * Q :=
  match rest with
  | [] => st
  | b :: r => if Qeq_bool beta 0 then (q_add (fst st) (a, b) occ, snd st + occ)%Q
              else ho_after beta occ a (S k) r (q_add (fst st) (a, b) (occ * beta ^ Z.of_nat k), snd st + occ * beta ^ Z.of_nat k)%Q
  end.
(** 69-86: one variant *)
Fixpoint ho_trace (beta occ : Q) (rv : list nat) (st : conn * Q) : conn * Q :=
  match rv with
  | [] => st
  | a :: r => ho_trace beta occ r (ho_after beta occ a 0 r st)
  end.
(** 64-93 *)
Definition handover (beta : Q) (vs : list (list nat * nat)) : option conn :=
  let st := fold_left (fun st v => ho_trace beta (q_nat (snd v)) (fst v) st) vs ([], 0%Q) in
  match fst st with
  | [] => Some []
  | d => if Qeq_bool (snd st) 0 then None else Some (map (fun kv => (fst kv, snd kv / snd st)%Q) d)
  end.

(** working_together.py: one variant (log 66-78, pandas 67-78), a unit [w] per case *)
Fixpoint wt_pairs (l : list nat) (w : Q) (d : conn) : conn :=
  match l with
  | [] => d
  | a :: r => wt_pairs r w (fold_left (fun d b => q_add (q_add d (a, b) w) (b, a) w) r d)
  end.
(** float(variants_occ[rvj]) / float(len(log)); [len]: the number of cases (log), of events (pandas) *)
Definition working_together (len : nat) (vs : list (list nat * nat)) : conn :=
  fold_left (fun d v => wt_pairs (sorted_by Z.of_nat (dedup (fst v))) (q_nat (snd v) / q_nat len)%Q d) vs [].

(** subcontracting.py (log 71-86): one position i of a variant; the resources strictly between i and i + n are counted only when the
    resource at i has no entry yet *)
Definition sc_state := (list nat * conn)%type.
Definition sc_pos (n : nat) (occ : Q) (rv : list nat) (st : sc_state) (i : nat) : sc_state :=
  match nth_error rv i, nth_error rv (i + n) with
  | Some a, Some a' =>
    if Nat.eqb a a' then
      if existsb (Nat.eqb a) (fst st) then st
      else (a :: fst st, fold_left (fun d j => match nth_error rv j with Some b => q_add d (a, b) occ | None => d end) (seq (S i) (n - 1)) (snd st))
    else st
  | _, _ => st
  end.
(** 64-93 *)
Definition subcontracting (n : nat) (vs : list (list nat * nat)) : option conn :=
  let st := fold_left (fun st v => fold_left (sc_pos n (q_nat (snd v)) (fst v)) (seq 0 (length (fst v) - n)) st) vs ([], []) in
  let dividend := q_nat (list_sum (map snd vs)) in
  match snd st with
  | [] => Some []
  | d => if Qeq_bool dividend 0 then None else Some (map (fun kv => (fst kv, snd kv / dividend)%Q) d)
  end.
