(** Filters on pandas dataframes: pm4py/algo/filtering/pandas.
    A dataframe is the list of its rows; a row has a case identifier and the event (the other columns).  The columns used
    by a filter are assumed to have no missing values (NaN) in the theorems; [col] is None for a missing value.
    String operations of pandas on activities (the concatenation with a comma in the path filters) are replaced by pairs. *)
From Coq Require Import List Arith Bool ZArith.
Import ListNotations.
From Verif Require Import Model_Dict Model_Tree Model_Filter.
Local Open Scope nat_scope.

Record row := Row { r_case : Z; r_event : event }.
Definition df := list row.
Definition col (key : nat) (r : row) : option Z := d_get (r_event r) key.

(** objects/conversion/log/variants/to_event_log.py:58-107: one case per identifier, in the order of the first rows, with
    the events of the case in the order of the rows.  The only case attribute kept here is the identifier (attribute 0). *)
Definition log_of (d : df) : flog :=
  map (fun ie => Case [(0, fst ie)] (snd ie))
    (fold_left (fun t r => d_set t (r_case r) (match d_get t (r_case r) with Some es => es | None => [] end ++ [r_event r])) d []).

(** df[i1.isin(ids)] / df[~i1.isin(ids)]; df[df[case_id].isin(ids)] *)
Definition keep (positive : bool) (ids : list Z) (d : df) : df := filter (fun r => Bool.eqb (vmem (r_case r) ids) positive) d.
(** groupby(case_id): dictionary from identifiers to the rows of the group (its order does not matter in the filters) *)
Definition groups (d : df) : dict Z (list row) :=
  fold_left (fun t r => d_set t (r_case r) (match d_get t (r_case r) with Some rs => rs | None => [] end ++ [r])) d [].
(** groupby(...).first() / .last(): the values of the first / last row of each group *)
Definition first_rows (d : df) : list row := flat_map (fun ir => match snd ir with r :: _ => [r] | [] => [] end) (groups d).
Definition last_rows (d : df) : list row := flat_map (fun ir => match rev (snd ir) with r :: _ => [r] | [] => [] end) (groups d).
(** df[df[key] == v], df[df[key].isin(values)] *)
Definition equal_to (key : nat) (v : Z) (d : df) : df := filter (fun r => has key v (r_event r)) d.
Definition is_in (key : nat) (values : list Z) (r : row) : bool := match col key r with Some v => vmem v values | None => false end.

(** start_activities/start_activities_filter.py:73-111 filter_df_on_start_activities *)
Definition start_df (positive : bool) (key : nat) (values : list Z) (d : df) : df :=
  keep positive (map r_case (filter (is_in key values) (first_rows d))) d.
(** end_activities/end_activities_filter.py:73-107 *)
Definition end_df (positive : bool) (key : nat) (values : list Z) (d : df) : df :=
  keep positive (map r_case (filter (is_in key values) (last_rows d))) d.
(** attributes/attributes_filter.py:200-235 filter_df_on_attribute_values *)
Definition attribute_values_df (positive : bool) (key : nat) (values : list Z) (d : df) : df :=
  keep positive (map r_case (filter (is_in key values) d)) d.
(** attributes_filter.py:74-130 apply_numeric (without the stream filters) *)
Definition numeric_df (positive : bool) (key : nat) (lo hi : Z) (d : df) : df :=
  keep positive (map r_case (filter (fun r => match col key r with Some v => (lo <=? v)%Z && (v <=? hi)%Z | None => false end) d)) d.

(** util/pandas_utils.py:70-95 insert_index: the rows with their position *)
Definition indexed (d : df) : list (nat * row) := combine (seq 0 (length d)) d.
Definition rows_with (key : nat) (v : Z) (d : df) : list (nat * row) := filter (fun ir => has key v (r_event (snd ir))) (indexed d).
(** merge on the case identifier (ltl_checker.py:86-95): a row of the join is represented by its case and the index of the last
    component; the rows with a non-positive index difference are dropped *)
Definition join_next (j : list (Z * nat)) (a : list (nat * row)) : list (Z * nat) :=
  flat_map (fun ci => map (fun ir => (fst ci, fst ir)) (filter (fun ir => Z.eqb (fst ci) (r_case (snd ir)) && (snd ci <? fst ir)) a)) j.
(** ltl/ltl_checker.py:44-113 eventually_follows, without timestamps (df_a[1] raises an IndexError with fewer than two values) *)
Definition eventually_follows_df (positive : bool) (key : nat) (values : list Z) (d : df) : option df :=
  match map (fun v => rows_with key v d) values with
  | a0 :: a1 :: rest =>
    Some (keep positive (map fst (fold_left join_next (a1 :: rest) (map (fun ir => (r_case (snd ir), fst ir)) a0))) d)
  | _ => None
  end.
(** the last of the indexed rows of a case: df_B.groupby(case).last() *)
Definition last_of (c : Z) (a : list (nat * row)) : option (nat * row) := hd_error (rev (filter (fun ir => Z.eqb (r_case (snd ir)) c) a)).
(** ltl_checker.py:116-174 A_next_B_next_C *)
Definition A_next_B_next_C_df (positive : bool) (key : nat) (A B C : Z) (d : df) : df :=
  keep positive (map (fun ir => r_case (snd ir)) (filter (fun ir =>
    match last_of (r_case (snd ir)) (rows_with key B d), last_of (r_case (snd ir)) (rows_with key C d) with
    | Some b, Some c => Nat.eqb (fst b) (fst ir + 1) && Nat.eqb (fst c) (fst b + 1)
    | _, _ => false
    end) (rows_with key A d))) d.
(** ltl_checker.py:217-219: the rows of df_A joined with the last row of df_B of the same case, whose resources are equal ([same])
    or different; the rows without partner or resource are dropped (dropna) *)
Definition joined_df (same : bool) (key res : nat) (A B : Z) (d : df) : list Z :=
  map (fun ir => r_case (snd ir)) (filter (fun ir =>
    match last_of (r_case (snd ir)) (rows_with key B d) with
    | Some b => match col res (snd ir), col res (snd b) with
                | Some x, Some y => Bool.eqb (Z.eqb x y) same
                | _, _ => false
                end
    | None => false
    end) (rows_with key A d)).
(** ltl_checker.py:177-231 four_eyes_principle *)
Definition four_eyes_df (positive : bool) (key res : nat) (A B : Z) (d : df) : df :=
  if positive then keep false (joined_df true key res A B d) (keep true (joined_df false key res A B d) d)
  else keep true (joined_df true key res A B d) d.
(** ltl_checker.py:234-282 attr_value_different_persons *)
Definition different_persons_df (positive : bool) (key res : nat) (A : Z) (d : df) : df :=
  keep positive (joined_df false key res A A d) d.

(** df.sort_values([case_id, timestamp]): stable, by case identifier and then timestamp *)
Definition row_leb (ts : nat) (r s : row) : bool :=
  if (r_case r <? r_case s)%Z then true else if (r_case s <? r_case r)%Z then false
  else match col ts r, col ts s with Some a, Some b => (a <=? b)%Z | _, _ => true end.
Fixpoint insert_row (ts : nat) (r : row) (d : df) : df :=
  match d with
  | [] => [r]
  | s :: q => if row_leb ts r s then r :: d else s :: insert_row ts r q
  end.
Definition sort_rows (ts : nat) (d : df) : df := fold_right (insert_row ts) [] d.
(** shift(-1) and concat: every row with the next one (the last row, without a next one, never satisfies the conditions) *)
Definition shifted (d : df) : list (row * row) := combine d (tl d).
(** paths/paths_filter.py:43-89 apply *)
Definition paths_df (positive : bool) (key ts : nat) (wanted : list (Z * Z)) (d : df) : df :=
  let d := sort_rows ts d in
  keep positive (map (fun rs => r_case (fst rs)) (filter (fun rs => Z.eqb (r_case (fst rs)) (r_case (snd rs)) &&
    match col key (fst rs), col key (snd rs) with Some a, Some b => vmem (a, b) wanted | _, _ => false end) (shifted d))) d.
(** paths_filter.py:92-145 apply_performance *)
Definition path_performance_df (positive : bool) (key ts : nat) (path : Z * Z) (lo hi : Z) (d : df) : df :=
  let d := sort_rows ts d in
  keep positive (map (fun rs => r_case (fst rs)) (filter (fun rs =>
    match col key (fst rs), col key (snd rs), col ts (fst rs), col ts (snd rs) with
    | Some a, Some b, Some t1, Some t2 => keqb (a, b) path && (lo <=? t2 - t1)%Z && (t2 - t1 <=? hi)%Z
    | _, _, _, _ => false
    end) (shifted d))) d.

(** groupby(case).cumcount(): the position of each row in its case *)
Definition cumcount (d : df) : list (nat * row) :=
  map (fun ir => (length (filter (fun s => Z.eqb (r_case s) (r_case (snd ir))) (firstn (fst ir) d)), snd ir)) (indexed d).
(** rework/rework_filter.py:34-82 (cumcount >= min_occurrences - 1) *)
Definition rework_df (positive : bool) (key : nat) (activity : Z) (min_occurrences : nat) (d : df) : df :=
  keep positive (map (fun nr => r_case (snd nr)) (filter (fun nr => min_occurrences <=? fst nr + 1) (cumcount (equal_to key activity d)))) d.
(** attr_value_repetition/filter.py:34-72 *)
Definition repetitions_df (key : nat) (v : Z) (min_rep max_rep : nat) (d : df) : df :=
  keep true (map fst (filter (fun ir => (min_rep <=? length (snd ir)) && (length (snd ir) <=? max_rep)) (groups (equal_to key v d)))) d.
(** cases/case_filter.py:63-89 filter_on_case_size: transform('size') gives each row the size of its case *)
Definition case_size_df (min_size : nat) (max_size : option nat) (d : df) : df :=
  let size r := length (filter (fun s => Z.eqb (r_case s) (r_case r)) d) in
  let d1 := filter (fun r => min_size <=? size r) d in
  match max_size with Some m => filter (fun r => size r <=? m) d1 | None => d1 end.
(** the identifiers of the cases with their first and last timestamp (cases/case_filter.py:117-121, timestamp_filter.py:63-67) *)
Definition extremes (ts : nat) (d : df) : list (Z * (Z * Z)) :=
  flat_map (fun ir => match snd ir with
                      | [] => []
                      | r :: _ => match rev (snd ir) with
                                  | s :: _ => match col ts r, col ts s with Some a, Some b => [(fst ir, (a, b))] | _, _ => [] end
                                  | [] => []
                                  end
                      end) (groups d).
(** case_filter.py:92-134 filter_on_case_performance (without business hours) *)
Definition case_performance_df (ts : nat) (lo hi : Z) (d : df) : df :=
  keep true (map fst (filter (fun x => let '(a, b) := snd x in (b - a <=? hi)%Z && (lo <=? b - a)%Z) (extremes ts d))) d.
(** timestamp/timestamp_filter.py:34-75 filter_traces_contained *)
Definition traces_contained_df (ts : nat) (dt1 dt2 : Z) (d : df) : df :=
  keep true (map fst (filter (fun x => let '(a, b) := snd x in (dt1 <=? a)%Z && (b <=? dt2)%Z) (extremes ts d))) d.
(** timestamp_filter.py:78-123 filter_traces_intersecting *)
Definition traces_intersecting_df (ts : nat) (dt1 dt2 : Z) (d : df) : df :=
  keep true (map fst (filter (fun x => let '(a, b) := snd x in (dt1 <? a)%Z && (a <? dt2)%Z) (extremes ts d) ++
                      filter (fun x => let '(a, b) := snd x in (dt1 <? b)%Z && (b <? dt2)%Z) (extremes ts d) ++
                      filter (fun x => let '(a, b) := snd x in (a <? dt1)%Z && (dt2 <? b)%Z) (extremes ts d))) d.
(** timestamp_filter.py:161-201 filter_traces_attribute_in_timeframe *)
Definition attribute_in_timeframe_df (key : nat) (v : Z) (ts : nat) (dt1 dt2 : Z) (d : df) : df :=
  keep true (map r_case (filter (fun r => match col ts r with Some t => (dt1 <=? t)%Z && (t <=? dt2)%Z | None => false end) (equal_to key v d))) d.
(** variants/variants_filter.py:36-74 apply, with statistics/traces/generic/pandas/case_statistics.py:206-235 get_variants_df *)
Definition variants_df (key : nat) (d : df) : list (Z * option (list Z)) := map (fun ir => (fst ir, map_opt (col key) (snd ir))) (groups d).
Definition variants_filter_df (positive : bool) (key : nat) (admitted : list (list Z)) (d : df) : df :=
  keep positive (map fst (filter (fun x => match snd x with Some v => vmem v admitted | None => false end) (variants_df key d))) d.
(** prefixes/prefix_filter.py:39-89, suffixes/suffix_filter.py:39-89 apply: the position of the first / last row with the activity in
    its case, and the comparison with the position of each row (false when the case has no such row: NaN).  The columns the filters add
    (the position and the temporary column) are not modelled. *)
Definition cut_position (key : nat) (activity : Z) (first : bool) (c : Z) (d : df) : option nat :=
  let ps := map fst (filter (fun nr => Z.eqb (r_case (snd nr)) c && has key activity (r_event (snd nr))) (cumcount d)) in
  if first then hd_error ps else hd_error (rev ps).
Definition prefixes_df (key : nat) (activity : Z) (first strict : bool) (d : df) : df :=
  map snd (filter (fun nr => match cut_position key activity first (r_case (snd nr)) d with
                             | Some p => if strict then fst nr <? p else fst nr <=? p
                             | None => false
                             end) (cumcount d)).
Definition suffixes_df (key : nat) (activity : Z) (first strict : bool) (d : df) : df :=
  map snd (filter (fun nr => match cut_position key activity first (r_case (snd nr)) d with
                             | Some p => if strict then p <? fst nr else p <=? fst nr
                             | None => false
                             end) (cumcount d)).
(** between/between_filter.py:64-99 for one case whose activities are [acts]: the number of the subcase each position is assigned to
    (None: the row is dropped).  [j], [rel], [occ]: j, rel_count, occ_A (None for -1); [res] in reverse order. *)
Fixpoint assign (from : nat) (v : nat) (res : list (option nat)) (j : nat) {struct j} : list (option nat) :=
  match j with
  | O => res
  | S j' => match res with
            | [] => []
            | x :: r => (if from <=? j' then Some v else x) :: assign from v r j'
            end
  end.
Fixpoint between_case (is1 is2 : Z -> bool) (same : bool) (acts : list Z) (j rel : nat) (occ : option nat) (res : list (option nat)) : list (option nat) :=
  match acts with
  | [] => res
  | a :: r =>
    match occ with
    | Some o => if is2 a then between_case is1 is2 same r (j + 1) (rel + 1) (if same then Some j else None) (assign o rel (None :: res) (j + 1))
                else between_case is1 is2 same r (j + 1) rel occ (None :: res)
    | None => between_case is1 is2 same r (j + 1) rel (if is1 a then Some j else None) (None :: res)
    end
  end.
(** the events of the subcases of one case, in order *)
Definition between_df (key : nat) (act1 act2 : list Z) (es : list event) : option (list (list event)) :=
  bind (map_opt (fun e => d_get e key) es) (fun acts =>
  let res := rev (between_case (fun a => vmem a act1) (fun a => vmem a act2) (keqb act1 act2) acts 0 0 None []) in
  let ids := dedup (flat_map (fun o => match o with Some n => [n] | None => [] end) res) in
  Some (map (fun n => flat_map (fun oe => match fst oe with Some m => if Nat.eqb m n then [snd oe] else [] | None => [] end) (combine res es)) ids)).
