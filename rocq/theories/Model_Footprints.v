(** Model of the footprints of event logs and of footprints conformance checking:
    algo/discovery/footprints/log/variants/entire_event_log.py (el), trace_by_trace.py (tt),
    algo/discovery/causal/variants/alpha.py (ca),
    algo/conformance/footprints/variants/log_extensive.py (le), trace_extensive.py (te), log_model.py (lm),
    algo/conformance/footprints/util/evaluation.py (ev).

    Sets are duplicate-free lists; floats are rationals; a log is the list of its traces (lists of activities). *)
From Coq Require Import List Arith Bool ZArith QArith.
Import ListNotations.
From Verif Require Import Model_Dict Model_Dfg Model_TreeFP.
Local Open Scope nat_scope.

Definition isin {K} {EK : Key K} (x : K) (l : list K) : bool := existsb (keqb x) l.
Definition union {K} {EK : Key K} (a b : list K) : list K := dedup (a ++ b).

Record log_fp := LFP {
  l_dfg : @counter (nat * nat); l_seq : list (nat * nat); l_par : list (nat * nat);
  l_start : list nat; l_end : list nat; l_acts : list nat; l_min : nat }.

(** ca 25-44 [apply] *)
Definition causal_alpha (g : @counter (nat * nat)) : list (nat * nat) :=
  filter (fun k => Nat.ltb 0 (c_get g k) && (negb (d_mem g (snd k, fst k)) || Nat.eqb (c_get g (snd k, fst k)) 0)) (d_keys g).
(** el 73, tt 73 *)
Definition parallel_pairs (g : @counter (nat * nat)) : list (nat * nat) :=
  filter (fun k => d_mem g (snd k, fst k)) (d_keys g).
(** el 47-83 [apply] *)
Definition log_footprints (l : log) : log_fp :=
  let g := native 1 false l in
  LFP g (causal_alpha g) (parallel_pairs g) (d_keys (get_start_activities l)) (d_keys (get_end_activities l))
    (dedup (concat l))
    (match l with [] => 0 | t :: r => fold_left Nat.min (map (@length nat) r) (length t) end).
(** tt 71-87: the footprints of a trace *)
Definition trace_footprints (t : trace) : log_fp :=
  let g := native 1 false [t] in
  LFP g (filter (fun k => negb (d_mem g (snd k, fst k))) (d_keys g)) (parallel_pairs g)
    (match t with [] => [] | a :: _ => [a] end) (match t with [] => [] | _ => [last t 0] end) (dedup t) (length t).

(** The footprints of a model; a key may be missing in the dictionary ([None]). *)
Record model_fp := MFP {
  m_seq : list (nat * nat); m_par : list (nat * nat); m_start : option (list nat); m_end : option (list nat);
  m_always : option (list nat); m_min : option nat }.
(** the dictionary of a process tree (footprints/tree/variants/bottomup.py:404-429) *)
Definition of_tree (fn : footprint * nat) : model_fp :=
  MFP (f_seq (fst fn)) (f_par (fst fn)) (Some (f_start (fst fn))) (Some (f_end (fst fn))) (Some (f_always (fst fn))) (Some (snd fn)).

Record conf := Conf {
  c_fp : list (nat * nat); c_start : list nat; c_end : list nat; c_always : list nat; c_min_fit : bool; c_fit : bool }.
Definition diff {K} {EK : Key K} (a b : list K) : list K := filter (fun x => negb (isin x b)) a.
Definition isnil {X} (l : list X) : bool := match l with [] => true | _ => false end.

(** le 42-85 [apply] *)
Definition conf_log (lf : log_fp) (mf : model_fp) : conf :=
  let fps := diff (union (l_seq lf) (l_par lf)) (union (m_seq mf) (m_par mf)) in
  let st := match m_start mf with Some s => diff (l_start lf) s | None => [] end in
  let en := match m_end mf with Some e => diff (l_end lf) e | None => [] end in
  let mi := match m_min mf with Some n => Nat.leb n (l_min lf) | None => true end in
  Conf fps st en [] mi (isnil fps && isnil st && isnil en && mi).
(** te 84-108: a trace *)
Definition conf_trace (always_executed : bool) (lf : log_fp) (mf : model_fp) : conf :=
  let fps := diff (union (l_seq lf) (l_par lf)) (union (m_seq mf) (m_par mf)) in
  let st := match m_start mf with Some s => diff (l_start lf) s | None => [] end in
  let en := match m_end mf with Some e => diff (l_end lf) e | None => [] end in
  let al := match m_always mf with Some a => if always_executed then diff a (l_acts lf) else [] | None => [] end in
  let mi := match m_min mf with Some n => Nat.leb n (l_min lf) | None => true end in
  Conf fps st en al mi (isnil fps && isnil st && isnil en && isnil al && mi).
(** te 51-113 [apply] on the trace-by-trace footprints of a log; equal traces are looked up in [conf_traces] *)
Fixpoint conf_traces (always_executed : bool) (mf : model_fp) (cache : dict trace conf) (l : log) : list conf :=
  match l with
  | [] => []
  | t :: r =>
    match d_get cache t with
    | Some c => c :: conf_traces always_executed mf cache r
    | None => let c := conf_trace always_executed (trace_footprints t) mf in
              c :: conf_traces always_executed mf (d_set cache t c) r
    end
  end.
Definition conf_log_traces (always_executed : bool) (mf : model_fp) (l : log) : list conf := conf_traces always_executed mf [] l.
(** lm 43-81 [apply_single] *)
Definition conf_simple (strict : bool) (lf : log_fp) (mf : model_fp) : list (nat * nat) :=
  if strict then union (diff (l_seq lf) (m_seq mf)) (diff (l_par lf) (m_par mf))
  else diff (union (l_seq lf) (l_par lf)) (union (m_seq mf) (m_par mf)).

(** ev 138-162 [flatten_fp], on a list *)
Definition flatten_fp (fs : list log_fp) : log_fp :=
  fold_left (fun r f =>
    LFP (fold_left (fun d kv => c_add d (fst kv) (snd kv)) (l_dfg f) (l_dfg r)) (union (l_seq r) (l_seq f)) (union (l_par r) (l_par f))
      (union (l_start r) (l_start f)) (union (l_end r) (l_end f)) [] 0) fs (LFP [] [] [] [] [] [] 0).
(** ev 165-187 [flatten_conf], on a list *)
Definition flatten_conf (cs : list conf) : conf :=
  fold_left (fun r c => Conf (union (c_fp r) (c_fp c)) (union (c_start r) (c_start c)) (union (c_end r) (c_end c)) [] true true)
    cs (Conf [] [] [] [] true true).

Definition qn (n : nat) : Q := inject_Z (Z.of_nat n).
(** ev 74-95: the log fitness (of flattened arguments) *)
Definition fp_fitness (lf : log_fp) (c : conf) : Q :=
  match l_dfg lf with
  | [] => 1
  | _ =>
    let sum_dfg := qn (list_sum (d_values (l_dfg lf))) in
    let sum_dev := qn (list_sum (map (c_get (l_dfg lf)) (c_fp c))) in
    let sp := (length (l_seq lf) + length (l_par lf))%nat in
    let se := (length (l_start lf) + length (l_end lf))%nat in
    (((1 - sum_dev / sum_dfg) * qn sp + (qn se - qn (length (c_start c)) - qn (length (c_end c)))) / qn (sp + se))%Q
  end.
(** ev 70-72: the percentage of fitting traces (ZeroDivisionError: None) *)
Definition perc_fit_traces (cs : list conf) : option Q :=
  match cs with [] => None | _ => Some (qn (length (filter c_fit cs)) / qn (length cs) * 100)%Q end.
(** ev 103-135 [fp_precision] *)
Definition fp_precision (lf : log_fp) (mf : model_fp) : Q :=
  match union (m_seq mf) (m_par mf) with
  | [] => 1
  | mc => (qn (length (filter (fun x => isin x mc) (union (l_seq lf) (l_par lf)))) / qn (length mc))%Q
  end.
