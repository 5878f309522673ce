(** Filters on event logs: pm4py/algo/filtering/log.
    Attribute keys are numbers, attribute values (activities, resources, numeric values, timestamps) are integers: the
    code only compares them for equality, and numeric values and timestamps also by order and difference.  An event is a
    dictionary from attribute keys to values; a case has attributes and events.  The copies of the log attributes
    (extensions, classifiers, ...) and the conversion of other log types (log_converter) are not modelled here.
    [None]: an exception (KeyError, IndexError). *)
From Coq Require Import List Arith Bool ZArith QArith.
Import ListNotations.
From Verif Require Import Model_Dict Model_Tree.
Local Open Scope nat_scope.

#[export] Instance key_Z : Key Z := {| keqb := Z.eqb; keqb_spec := Z.eqb_spec |}.

Definition event := dict nat Z.
Record case := Case { c_attrs : dict nat Z; c_events : list event }.
Definition flog := list case.
(** v in values (a list or a set) *)
Definition vmem {K} {EK : Key K} (v : K) (values : list K) : bool := existsb (keqb v) values.

(** [trace for trace in log if p(trace)], and the loops that append some of the cases to a new log *)
Fixpoint choose (p : case -> option bool) (l : flog) : option flog :=
  match l with
  | [] => Some []
  | c :: r => match p c with
              | None => None
              | Some b => match choose p r with Some r' => Some (if b then c :: r' else r') | None => None end
              end
  end.
(** any(f(x) for x in l), and the loops that stop at the first hit *)
Fixpoint any_opt {X} (f : X -> option bool) (l : list X) : option bool :=
  match l with
  | [] => Some false
  | x :: r => match f x with Some true => Some true | Some false => any_opt f r | None => None end
  end.
Definition bind {X Y} (o : option X) (f : X -> option Y) : option Y := match o with Some x => f x | None => None end.
(** trace[-1] *)
Definition last_event (es : list event) : option event := nth_error es (length es - 1).

(** start_activities/start_activities_filter.py:34-70 apply *)
Definition start_activities (positive : bool) (key : nat) (admitted : list Z) : flog -> option flog :=
  choose (fun c => match c_events c with
                   | [] => Some false
                   | e :: _ => bind (d_get e key) (fun v => Some (Bool.eqb (vmem v admitted) positive))
                   end).
(** end_activities/end_activities_filter.py:34-66 apply *)
Definition end_activities (positive : bool) (key : nat) (admitted : list Z) : flog -> option flog :=
  choose (fun c => match c_events c with
                   | [] => Some false
                   | _ => bind (last_event (c_events c)) (fun e => bind (d_get e key) (fun v => Some (Bool.eqb (vmem v admitted) positive)))
                   end).

(** attribute_key in trace[i] and trace[i][attribute_key] == value *)
Definition has (key : nat) (v : Z) (e : event) : bool := match d_get e key with Some w => Z.eqb w v | None => false end.
(** ltl/ltl_checker.py:96-97, 166-168: the indexes of the events with the value *)
Definition occurrences (key : nat) (es : list event) (v : Z) : list nat :=
  filter (fun i => match nth_error es i with Some e => has key v e | None => false end) (seq 0 (length es)).
(** itertools.product *)
Fixpoint product {X} (ls : list (list X)) : list (list X) :=
  match ls with
  | [] => [[]]
  | l :: r => flat_map (fun x => map (cons x) (product r)) l
  end.
(** ltl_checker.py:102-106 *)
Fixpoint increasing (c : list nat) : bool :=
  match c with
  | x :: ((y :: _) as r) => if y <=? x then false else increasing r
  | _ => true
  end.
(** ltl_checker.py:109-114: [n] iterations from index [i] on (the timestamps are those of trace[i] and trace[i+1]) *)
Fixpoint time_check (ts : nat) (es : list event) (bounds : list (Z * Z)) (n i : nat) : option bool :=
  match n with
  | O => Some true
  | S n =>
    bind (bind (nth_error es i) (fun e => d_get e ts)) (fun ti =>
    bind (bind (nth_error es (i + 1)) (fun e => d_get e ts)) (fun tj =>
    bind (nth_error bounds i) (fun b =>
    if (tj - ti <? fst b)%Z || (snd b <? tj - ti)%Z then Some false else time_check ts es bounds n (i + 1))))
  end.
(** ltl_checker.py:102-118: one combination.  [bounds] is None when ENABLE_TIMESTAMP is not set or the boundaries are empty. *)
Definition combination (ts : nat) (bounds : option (list (Z * Z))) (es : list event) (c : list nat) : option bool :=
  if increasing c
  then match bounds with Some b => time_check ts es b (length c - 1) 0 | None => Some true end
  else Some false.
(** ltl_checker.py:58-126 eventually_follows *)
Definition eventually_follows (positive : bool) (key ts : nat) (values : list Z) (bounds : option (list (Z * Z))) : flog -> option flog :=
  choose (fun c => bind (any_opt (combination ts bounds (c_events c)) (product (map (occurrences key (c_events c)) values)))
                     (fun good => Some (Bool.eqb good positive))).
(** ltl_checker.py:129-184 A_next_B_next_C *)
Definition A_next_B_next_C (positive : bool) (key : nat) (A B C : Z) : flog -> option flog :=
  choose (fun c =>
    let es := c_events c in
    Some (Bool.eqb (existsb (fun a => existsb (fun b => existsb (fun c => Nat.eqb b (a + 1) && Nat.eqb c (b + 1))
      (occurrences key es C)) (occurrences key es B)) (occurrences key es A)) positive)).
(** ltl_checker.py:224-227, 273-274: the set of the resources of the events with the value *)
Definition resources (key res : nat) (v : Z) (es : list event) : list Z :=
  dedup (flat_map (fun e => if has key v e then match d_get e res with Some r => [r] | None => [] end else []) es).
(** ltl_checker.py:187-237 four_eyes_principle *)
Definition four_eyes (positive : bool) (key res : nat) (A B : Z) : flog -> option flog :=
  choose (fun c =>
    let a := resources key res A (c_events c) in
    let b := resources key res B (c_events c) in
    let inter := filter (fun x => vmem x b) a in
    Some ((0 <? length a) && (0 <? length b) && if positive then Nat.eqb (length inter) 0 else 0 <? length inter)).
(** ltl_checker.py:240-281 attr_value_different_persons *)
Definition different_persons (positive : bool) (key res : nat) (A : Z) : flog -> option flog :=
  choose (fun c => Some (Bool.eqb (1 <? length (resources key res A (c_events c))) positive)).

(** paths/paths_filter.py:69-73: the pairs (trace[i], trace[i+1]) *)
Definition steps (es : list event) : list (event * event) := combine es (tl es).
(** paths_filter.py:38-76 apply *)
Definition paths (positive : bool) (key : nat) (wanted : list (Z * Z)) : flog -> option flog :=
  choose (fun c =>
    bind (any_opt (fun s => bind (d_get (fst s) key) (fun a => bind (d_get (snd s) key) (fun b => Some (vmem (a, b) wanted))))
      (steps (c_events c)))
    (fun found => Some ((found && positive) || (negb found && negb positive)))).
(** paths_filter.py:79-126 apply_performance *)
Definition path_performance (positive : bool) (key ts : nat) (path : Z * Z) (lo hi : Z) : flog -> option flog :=
  choose (fun c =>
    bind (any_opt (fun s => bind (d_get (fst s) key) (fun a => bind (d_get (snd s) key) (fun b =>
        if keqb (a, b) path
        then bind (d_get (snd s) ts) (fun t2 => bind (d_get (fst s) ts) (fun t1 => Some ((lo <=? t2 - t1)%Z && (t2 - t1 <=? hi)%Z)))
        else Some false)))
      (steps (c_events c)))
    (fun found => Some ((found && positive) || (negb found && negb positive)))).

(** rework/rework_filter.py:31-77 apply *)
Definition rework (positive : bool) (key : nat) (activity : Z) (min_occurrences : nat) : flog -> option flog :=
  choose (fun c => bind (map_opt (fun e => d_get e key) (c_events c)) (fun vs =>
    let count := c_of vs in
    Some (if positive then d_mem count activity && (min_occurrences <=? c_get count activity)
          else negb (d_mem count activity) || (c_get count activity <? min_occurrences)))).
(** attr_value_repetition/filter.py:32-74 apply *)
Definition repetitions (key : nat) (v : Z) (min_rep max_rep : nat) : flog -> option flog :=
  choose (fun c => let rep := length (filter (has key v) (c_events c)) in Some ((min_rep <=? rep) && (rep <=? max_rep))).
(** attributes/attributes_filter.py:214-263 apply *)
Definition attribute_values (positive : bool) (key : nat) (values : list Z) : flog -> option flog :=
  choose (fun c =>
    let found := existsb (fun e => match d_get e key with Some v => vmem v values | None => false end) (c_events c) in
    Some (((found && positive) || (negb found && negb positive)) && (0 <? length (c_events c)))).
(** attributes_filter.py:266-304 apply_trace_attribute *)
Definition trace_attribute (positive : bool) (key : nat) (values : list Z) : flog -> option flog :=
  choose (fun c =>
    Some (if positive then match d_get (c_attrs c) key with Some v => vmem v values | None => false end
          else match d_get (c_attrs c) key with Some v => negb (vmem v values) | None => true end)).
(** attributes_filter.py:48-119 apply_numeric; [filters]: the (key, value) pairs of STREAM_FILTER_KEY1/2, VALUE1/2.  The events of
    the stream carry the identifier of their case; [idk] is the attribute with the identifier. *)
Definition numeric (positive : bool) (idk key : nat) (filters : list (nat * Z)) (lo hi : Z) (l : flog) : option flog :=
  let good e := forallb (fun kv => has (fst kv) (snd kv) e) filters &&
    match d_get e key with
    | Some v => if positive then (lo <=? v)%Z && (v <=? hi)%Z else (v <? lo)%Z || (hi <? v)%Z
    | None => false
    end in
  bind (map_opt (fun c => bind (d_get (c_attrs c) idk) (fun i => Some (i, c))) l) (fun ics =>
  let ids := flat_map (fun ic => map (fun _ => fst ic) (filter good (c_events (snd ic)))) ics in
  choose (fun c => bind (d_get (c_attrs c) idk) (fun i => Some (vmem i ids))) l).

(** cases/case_filter.py:83-107 filter_on_case_size *)
Definition case_size (min_size : nat) (max_size : option nat) : flog -> option flog :=
  choose (fun c => let n := length (c_events c) in
    Some ((min_size <=? n) && match max_size with Some m => n <=? m | None => true end)).
(** case_filter.py:61-80 filter_on_ncases *)
Definition ncases (max_no : nat) (l : flog) : flog := firstn (Nat.min (length l) max_no) l.
(** the first and the last timestamp of a trace *)
Definition first_last (ts : nat) (es : list event) : option (Z * Z) :=
  bind (nth_error es 0) (fun e => bind (d_get e ts) (fun t1 =>
  bind (last_event es) (fun e' => bind (d_get e' ts) (fun t2 => Some (t1, t2))))).
(** case_filter.py:31-58, 110-133 filter_on_case_performance, satisfy_perf *)
Definition case_performance (ts : nat) (lo hi : Z) : flog -> option flog :=
  choose (fun c => match c_events c with
                   | [] => Some false
                   | es => bind (first_last ts es) (fun t => Some ((lo <=? snd t - fst t)%Z && (snd t - fst t <=? hi)%Z))
                   end).
(** timestamp/timestamp_filter.py:36-97 filter_on_trace_attribute, trace_attr_is_contained *)
Definition trace_attribute_time (key : nat) (dt1 dt2 : Z) : flog -> option flog :=
  choose (fun c => Some (match d_get (c_attrs c) key with Some v => (dt1 <=? v)%Z && (v <=? dt2)%Z | None => false end)).
(** timestamp_filter.py:100-158 is_contained, filter_traces_contained.  (The last timestamp is read only if the first one is not
    before dt1; both are read here.) *)
Definition traces_contained (ts : nat) (dt1 dt2 : Z) : flog -> option flog :=
  choose (fun c => match c_events c with
                   | [] => Some false
                   | es => bind (first_last ts es) (fun t => Some ((dt1 <=? fst t)%Z && (snd t <=? dt2)%Z))
                   end).
(** timestamp_filter.py:161-225 is_intersecting, filter_traces_intersecting *)
Definition traces_intersecting (ts : nat) (dt1 dt2 : Z) : flog -> option flog :=
  choose (fun c => match c_events c with
                   | [] => Some false
                   | es => bind (first_last ts es) (fun t => let '(a, b) := t in
                       Some (((dt1 <=? a)%Z && (a <=? dt2)%Z) || ((dt1 <=? b)%Z && (b <=? dt2)%Z)
                             || ((a <=? dt1)%Z && (dt1 <=? b)%Z) || ((a <=? dt2)%Z && (dt2 <=? b)%Z)))
                   end).
(** timestamp_filter.py:264-309 has_attribute_in_timeframe, filter_traces_attribute_in_timeframe *)
Definition attribute_in_timeframe (key : nat) (v : Z) (ts : nat) (dt1 dt2 : Z) : flog -> option flog :=
  choose (fun c => any_opt (fun e => if has key v e then bind (d_get e ts) (fun t => Some ((dt1 <=? t)%Z && (t <=? dt2)%Z)) else Some false)
                     (c_events c)).

(** ---- variants: util/variants_util.py:57-63 get_variant_from_trace, statistics/variants/log/get.py:67-92, 139-169, 194-219
    get_variants (a dictionary from variants to the lists of their traces) *)
Definition variant_of (key : nat) (c : case) : option (list Z) := map_opt (fun e => d_get e key) (c_events c).
Definition variants (key : nat) (l : flog) : option (dict (list Z) flog) :=
  bind (map_opt (fun c => bind (variant_of key c) (fun v => Some (v, c))) l) (fun vcs =>
  Some (fold_left (fun d vc => d_set d (fst vc) (match d_get d (fst vc) with Some cs => cs | None => [] end ++ [snd vc])) vcs [])).
(** variants/variants_filter.py:35-64 apply *)
Definition variants_filter (positive : bool) (key : nat) (admitted : list (list Z)) (l : flog) : option flog :=
  bind (variants key l) (fun d =>
  Some (flat_map (fun vc => if Bool.eqb (vmem (fst vc) admitted) positive then snd vc else []) d)).
(** statistics/variants/log/get.py:172-191 get_variants_sorted_by_count: by (count, variant), descending.  Tuples are compared
    lexicographically. *)
Fixpoint lex_leb (a b : list Z) : bool :=
  match a, b with
  | [], _ => true
  | _ :: _, [] => false
  | x :: a, y :: b => if (x <? y)%Z then true else if (y <? x)%Z then false else lex_leb a b
  end.
Definition count_geb (x y : list Z * nat) : bool :=
  if snd y <? snd x then true else if snd x <? snd y then false else lex_leb (fst y) (fst x).
Fixpoint insert_desc (x : list Z * nat) (l : list (list Z * nat)) : list (list Z * nat) :=
  match l with
  | [] => [x]
  | y :: r => if count_geb x y then x :: l else y :: insert_desc x r
  end.
Definition sorted_by_count (d : dict (list Z) flog) : list (list Z * nat) :=
  fold_right insert_desc [] (map (fun vc => (fst vc, length (snd vc))) d).
(** variants_filter.py:67-95 filter_variants_top_k *)
Definition top_k (key k : nat) (l : flog) : option flog :=
  bind (variants key l) (fun d =>
  let vc := sorted_by_count d in variants_filter true key (map fst (firstn (Nat.min k (length vc)) vc)) l).
Definition qnat (n : nat) : Q := inject_Z (Z.of_nat n).
(** variants_filter.py:98-128 filter_variants_by_coverage_percentage (the float product as an exact rational) *)
Definition by_min_coverage (key : nat) (p : Q) (l : flog) : option flog :=
  bind (variants key l) (fun d =>
  variants_filter true key (map fst (filter (fun vc => Qle_bool (p * qnat (length l)) (qnat (length (snd vc)))) d)) l).
(** variants_filter.py:131-161 filter_variants_by_maximum_coverage_percentage *)
Definition by_max_coverage (key : nat) (p : Q) (l : flog) : option flog :=
  bind (variants key l) (fun d =>
  variants_filter true key (map fst (filter (fun vc => Qle_bool (qnat (length (snd vc))) (p * qnat (length l))) d)) l).
(** variants_filter.py:192-231 filter_variants_variants_percentage: [added] = already_added_sum, [under] = shall_break_under
    (None for -1) *)
Fixpoint percentage_loop (p : Q) (total added : nat) (under : option nat) (d : dict (list Z) flog) (vc : list (list Z * nat)) : flog :=
  match vc with
  | [] => []
  | (v, n) :: r =>
    if match under with Some u => n <? u | None => false end then []
    else (match d_get d v with Some cs => cs | None => [] end) ++
         percentage_loop p total (added + n)
           (if Qle_bool p (qnat (added + n) / qnat total) then Some n else under) d r
  end.
(** variants_filter.py:164-189 filter_log_variants_percentage *)
Definition variants_percentage (key : nat) (p : Q) (l : flog) : option flog :=
  bind (variants key l) (fun d => Some (percentage_loop p (length l) 0 None d (sorted_by_count d))).

(** ---- prefixes/prefix_filter.py:31-79, suffixes/suffix_filter.py:31-79 apply *)
Definition cut_index (key : nat) (activity : Z) (first : bool) (es : list event) : option nat :=
  let idx := occurrences key es activity in if first then hd_error idx else hd_error (rev idx).
Definition prefixes (key : nat) (activity : Z) (first strict : bool) (l : flog) : flog :=
  flat_map (fun c => match cut_index key activity first (c_events c) with
                     | Some i => [Case (c_attrs c) (firstn (if strict then i else i + 1) (c_events c))]
                     | None => []
                     end) l.
Definition suffixes (key : nat) (activity : Z) (first strict : bool) (l : flog) : flog :=
  flat_map (fun c => match cut_index key activity first (c_events c) with
                     | Some i => [Case (c_attrs c) (skipn (if strict then i + 1 else i) (c_events c))]
                     | None => []
                     end) l.
(** between/between_filter.py:78-108 for one trace: [open] is filt_trace (None when act1 has not been encountered).  The result
    lists the events of the subtraces in order; the subtrace number rel_count (position in this list) goes into the case id.
    [same]: act1 == act2. *)
Fixpoint between_loop (is1 is2 : Z -> bool) (same : bool) (key : nat) (es : list event) (open : option (list event)) : option (list (list event)) :=
  match es with
  | [] => Some []
  | e :: r =>
    bind (d_get e key) (fun a =>
    match open with
    | None => if is1 a then between_loop is1 is2 same key r (Some [e]) else between_loop is1 is2 same key r None
    | Some t =>
      if is2 a
      then bind (between_loop is1 is2 same key r (if same then Some [e] else None)) (fun out => Some ((t ++ [e]) :: out))
      else between_loop is1 is2 same key r (Some (t ++ [e]))
    end)
  end.
(** between_filter.py:41-110 apply: for each trace its subtraces.  act1 and act2 as lists of activities. *)
Definition between (key : nat) (act1 act2 : list Z) (l : flog) : option (list (list (list event))) :=
  map_opt (fun c => between_loop (fun a => vmem a act1) (fun a => vmem a act2) (keqb act1 act2) key (c_events c) None) l.
