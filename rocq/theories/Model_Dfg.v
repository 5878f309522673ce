(** Directly-follows graphs: batch discovery, discovery from variants, live discovery, and the
    vertex frequency helper.  Activities are numbers; a log is a list of traces. *)
From Coq Require Import List Arith Bool.
Import ListNotations.
From Verif Require Import Model_Dict.

Definition trace := list nat.
Definition log := list trace.

(** algo/discovery/dfg/variants/native.py:61 (and :58):
    [(t[i - window], t[i]) for i in range(window, len(t))].  The indexes are in range. *)
Definition window_pairs (window : nat) (t : trace) : list (nat * nat) :=
  map (fun i => (nth (i - window) t 0, nth i t 0)) (seq window (length t - window)).

(** algo/discovery/dfg/variants/native.py:36-62 native; the branch of line 58 takes the set of the pairs of each trace. *)
Definition native (window : nat) (keep_once_per_case : bool) (l : log) : @counter (nat * nat) :=
  c_of (concat (map (fun t => if keep_once_per_case then dedup (window_pairs window t) else window_pairs window t) l)).

(** statistics/start_activities/log/get.py:36-69 (every event has the activity attribute) *)
Definition get_start_activities (l : log) : @counter nat :=
  fold_left (fun d t =>
    match t with
    | [] => d
    | a :: _ => let d := if d_mem d a then d else d_set d a 0 in d_set d a (c_get d a + 1)
    end) l [].
(** statistics/end_activities/log/get.py:36-69 *)
Definition get_end_activities (l : log) : @counter nat :=
  fold_left (fun d t =>
    match t with
    | [] => d
    | _ :: _ => let a := last t 0 in let d := if d_mem d a then d else d_set d a 0 in d_set d a (c_get d a + 1)
    end) l [].

(** objects/dfg/obj.py: the DFG object (graph, start activities, end activities) *)
Record dfg := Dfg { graph : @counter (nat * nat); start_acts : @counter nat; end_acts : @counter nat }.

(** util/compression/util.py:210-213 get_alphabet: sorted(set(...)).  The order only affects the order
    of insertion below; here first-occurrence order. *)
Definition get_alphabet (l : log) : list nat := dedup (concat l).
(** util/compression/util.py:216-218 get_variants *)
Definition get_variants (l : log) : @counter trace := c_of l.

(** util/compression/util.py:166-180 discover_dfg (univariate log) *)
Definition consecutive (t : trace) : list (nat * nat) := map (fun i => (nth i t 0, nth (i + 1) t 0)) (seq 0 (length t - 1)).
Definition discover_dfg (l : log) : dfg :=
  Dfg (fold_left (fun d k => c_add d k 1) (concat (map consecutive l)) [])
      (c_of (concat (map (fun t => match t with [] => [] | a :: _ => [a] end) l)))
      (c_of (concat (map (fun t => match t with [] => [] | _ => [nth (length t - 1) t 0] end) l))).

(** util/compression/util.py:183-193 discover_dfg_uvcl *)
Definition discover_dfg_uvcl (v : @counter trace) : dfg :=
  let g := fold_left (fun d tn => fold_left (fun d k => c_add d k (snd tn)) (consecutive (fst tn)) d) v [] in
  let se := fold_left (fun se a =>
     fold_left (fun '(s, e) '(t, n) =>
        match t with
        | [] => (s, e)
        | b :: _ =>
          (if Nat.eqb b a then c_add s a n else s,
           if Nat.eqb (nth (length t - 1) t 0) a then c_add e a n else e)
        end) v se) (get_alphabet (d_keys v)) ([], []) in
  Dfg g (fst se) (snd se).

(** objects/dfg/util.py:25-37 get_vertices (a set) *)
Definition get_vertices (g : dfg) : list nat :=
  dedup (concat (map (fun k => [fst k; snd k]) (d_keys (graph g))) ++ d_keys (start_acts g) ++ d_keys (end_acts g)).
(** objects/dfg/util.py:132-146 get_vertex_frequencies *)
Definition get_vertex_frequencies (g : dfg) : @counter nat :=
  let c := fold_left (fun c v => d_set c v 0) (get_vertices g) [] in
  let c := fold_left (fun c kn => c_add c (fst (fst kn)) (snd kn)) (graph g) c in
  fold_left (fun c kn => c_add c (fst kn) (snd kn)) (start_acts g) c.

(** Live DFG: streaming/algo/discovery/dfg/variants/frequency.py.  An event may lack its case or its
    activity.  Names are strings, so that the encodings str(...) / eval(str(...)) of lines 103-113 and 165
    are the identity; the four dictionaries behave as dictionaries. *)
Record event := Event { e_case : option nat; e_act : option nat }.
Record state := State { case_dict : dict nat nat; s_dfg : @counter (nat * nat); s_acts : @counter nat; s_start : @counter nat }.
Definition init : state := State [] [] [] [].
(** "if x not in d: d[x] = 1 else: d[x] = int(d[x]) + 1" *)
Definition incr {K} {EK : Key K} (d : @counter K) (k : K) : @counter K :=
  match d_get d k with None => d_set d k 1 | Some n => d_set d k (n + 1) end.
(** frequency.py:116-146 _process *)
Definition process (s : state) (e : event) : state :=
  match e_case e, e_act e with
  | Some c, Some a =>
    let '(dfg, start) :=
      match d_get (case_dict s) c with
      | None => (s_dfg s, incr (s_start s) a)
      | Some p => (incr (s_dfg s) (p, a), s_start s)
      end in
    State (d_set (case_dict s) c a) dfg (incr (s_acts s) a) start
  | _, _ => s
  end.
(** frequency.py:148-167 _current_result: dfg, activities, start activities, end activities *)
Definition current_result (s : state) :=
  (s_dfg s, s_acts s, s_start s, c_of (d_values (case_dict s))).
Definition live (evs : list event) := current_result (fold_left process evs init).

(** algo/discovery/minimum_self_distance/variants/log.py:51-63 *)
Definition indices (a : nat) (t : trace) : list nat := filter (fun i => Nat.eqb (nth i t 0) a) (seq 0 (length t)).
Fixpoint min_list (l : list nat) : option nat :=
  match l with
  | [] => None
  | x :: l => match min_list l with None => Some x | Some m => Some (Nat.min x m) end
  end.
(** t[i] - t[i - 1] - 1 for the indexes i > 0 *)
Definition gaps (t : list nat) : list nat := map (fun i => nth i t 0 - nth (i - 1) t 0 - 1) (seq 1 (length t - 1)).
Definition msd (l : log) : dict nat nat :=
  fold_left (fun d a =>
    if Nat.ltb 0 (length (filter (fun t => Nat.ltb 1 (length t)) (map (fun t => filter (fun e => Nat.eqb e a) t) l))) then
      let activity_indices := filter (fun t => Nat.ltb 1 (length t)) (map (indices a) l) in
      match min_list (concat (map gaps activity_indices)) with
      | Some m => d_set d a m
      | None => d
      end
    else d) (get_alphabet l) [].
(** algo/discovery/minimum_self_distance/utils.py:52-69 derive_msd_witnesses; a set is a list without order *)
Definition slice (t : list nat) (i j : nat) : list nat := firstn (j - i) (skipn i t).
Definition msd_witnesses (l : log) (msd : dict nat nat) : dict nat (list nat) :=
  fold_left (fun d a =>
    match d_get msd a with
    | Some m =>
      if Nat.ltb 0 m then
        d_set d a (concat (map (fun t =>
          if Nat.ltb 1 (length (filter (fun e => Nat.eqb e a) t)) then
            let ix := indices a t in
            concat (map (fun i => if Nat.eqb (nth (i + 1) ix 0 - nth i ix 0 - 1) m then slice t (nth i ix 0 + 1) (nth (i + 1) ix 0) else [])
                        (seq 0 (length ix - 1)))
          else []) l))
      else d
    | None => d
    end) (get_alphabet l) [].
(** util/compression/util.py:225-233 msd: the difference is taken the other way round (integers) *)
From Coq Require Import ZArith.
Fixpoint min_listz (l : list Z) : option Z :=
  match l with
  | [] => None
  | x :: l => match min_listz l with None => Some x | Some m => Some (Z.min x m) end
  end.
Definition gapsz (t : list nat) : list Z := map (fun i => (Z.of_nat (nth (i - 1) t 0%nat) - Z.of_nat (nth i t 0%nat) - 1)%Z) (seq 1 (length t - 1)).
Definition msd_compressed (l : log) : dict nat Z :=
  fold_left (fun d a =>
    let activity_indices := filter (fun t => Nat.ltb 1 (length t)) (map (indices a) l) in
    match min_listz (concat (map gapsz activity_indices)) with
    | Some m => d_set d a m
    | None => d
    end) (get_alphabet l) [].
