(** Model of samples, splits, prefixes and artificial events: util/points_subset.py (ps), objects/log/util/dataframe_utils.py (du), objects/log/util/split_train_test.py
    (sp), objects/log/util/get_prefixes.py (gp), objects/log/util/artificial.py (ar), util/pandas_utils.py (pu) and ml.py.

    Simplifications: a dataframe is the list of its rows, with case, timestamp (in milliseconds; the log variant: in its own unit) and activity (or anything else);
    random.shuffle is any permutation that is given, the draws of random.random any decisions; a percentage is a fraction num/den. *)
From Coq Require Import List Arith ZArith Bool.
Import ListNotations.

(** ps 17-33, 36-60 *)
Definition pick_chosen_points (m n : nat) : list nat := map (fun i => i * n / m + n / (2 * m)) (seq 0 m).
Definition pick_chosen_points_list {X} (m : nat) (l : list X) : list X := flat_map (fun i => match nth_error l i with Some x => [x] | None => [] end) (pick_chosen_points m (length l)).

Section rows.
Context {A : Type}.
Record row := Row { case : nat; ts : Z; act : A }.
Implicit Types df : list row.
Definition isin (l : list nat) (c : nat) : bool := existsb (Nat.eqb c) l.
(** Series.unique *)
Fixpoint unique (seen l : list nat) : list nat := match l with [] => [] | a :: r => if isin seen a then unique seen r else a :: unique (a :: seen) r end.
Definition case_ids df : list nat := unique [] (map case df).
(** du 203-236 [sample_dataframe]; [shuffled]: the case identifiers after the shuffle *)
Definition sample_dataframe (max_no_cases : nat) (shuffled : list nat) df : list row :=
  let retain := pick_chosen_points_list (Nat.min max_no_cases (length shuffled)) shuffled in filter (fun r => isin retain (case r)) df.

(** sp 40-54 [split]; [shuffled]: the log in the order of the shuffled indexes *)
Definition split {X} (num den : nat) (shuffled : list X) : list X * list X := let stop := length shuffled * num / den + 1 in (firstn stop shuffled, skipn stop shuffled).
(** ml.py 54-65 [split_train_test] for dataframes; [draw c]: random.random() <= train_percentage for the case *)
Definition split_train_test (draw : nat -> bool) df : list row * list row :=
  let train := filter draw (case_ids df) in let test := filter (fun c => negb (draw c)) (case_ids df) in (filter (fun r => isin train (case r)) df, filter (fun r => isin test (case r)) df).

(** gp 42-52 [get_prefixes_from_log] *)
Fixpoint first_events {X} (n : nat) (t : list X) : list X := match n, t with S k, x :: r => x :: first_events k r | _, _ => [] end.
Definition get_prefixes_from_log {X} (log : list (list X)) (n : nat) : list (list X) := map (fun t => if length t <=? n then t else first_events n t) log.
(** pu 147 groupby.cumcount *)
Fixpoint cumcount (seen : list nat) df : list (row * nat) := match df with [] => [] | r :: d => (r, length (filter (Nat.eqb (case r)) seen)) :: cumcount (case r :: seen) d end.
(** ml.py 90-94, for length at least 1 (the code compares with length - 1) *)
Definition get_prefixes_from_df df (n : nat) : list row := map fst (filter (fun p => Z.leb (Z.of_nat (snd p)) (Z.of_nat n - 1)) (cumcount [] df)).

(** sort_values by case, timestamp and index: stable for the rows in their order *)
Definition key_le (a b : row) : bool := (case a <? case b) || ((case a =? case b) && (ts a <=? ts b)%Z).
Fixpoint insert (x : row) (l : list row) : list row := match l with [] => [x] | y :: r => if key_le x y then x :: l else y :: insert x r end.
Definition sort_values df : list row := fold_right insert [] df.
(** du 465-490 [insert_artificial_start_end]; groupby gives the cases in their order, first and last row each *)
Definition last_row (d : row) (l : list row) : row := last l d.
Definition group (df : list row) (c : nat) : list row := filter (fun r => case r =? c) df.
Definition insert_artificial_start_end (s e : A) df0 : list row :=
  let df := sort_values df0 in
  let cases := unique [] (map case df) in
  let start_df := flat_map (fun c => match group df c with r :: _ => [Row c (ts r - 1) s] | [] => [] end) cases in
  let end_df := flat_map (fun c => match group df c with r :: g => [Row c (ts (last g r) + 1) e] | [] => [] end) cases in
  sort_values (start_df ++ df ++ end_df).
(** ar 59-74, for a trace whose events have timestamps; one second before and after *)
Definition insert_artificial_trace (s e : A) (t : list (Z * A)) : list (option Z * A) :=
  (option_map (fun r => (fst r - 1)%Z) (hd_error t), s) :: map (fun r => (Some (fst r), snd r)) t ++ [(match rev t with r :: _ => Some (fst r + 1)%Z | [] => None end, e)].
End rows.
Arguments row : clear implicits.
