(** Log skeletons: discovery (algo/discovery/log_skeleton/trace_skel.py and variants/classic.py) and
    conformance checking (algo/conformance/log_skeleton/variants/classic.py).  Activities are numbers,
    Python sets are duplicate-free lists, floats are rationals. *)
From Coq Require Import List Arith Bool ZArith QArith.
Import ListNotations.
From Verif Require Import Model_Dict Model_Dfg Model_Lev.
Local Open Scope nat_scope.

Definition pairs := list (nat * nat).

(** trace_skel.py:112-126 activ_freq *)
Definition t_freq (t : trace) : @counter nat := c_of t.
(** trace_skel.py:20-41 equivalence *)
Definition t_equivalence (t : trace) : pairs :=
  let f := t_freq t in
  concat (map (fun x => concat (map (fun y =>
    if negb (Nat.eqb x y) && Nat.eqb (c_get f x) (c_get f y) then repeat (x, y) (c_get f x) else []) (d_keys f))) (d_keys f)).
(** trace_skel.py:44-58 after / 61-75 before: all (trace[i], trace[j]) with j > i / j < i *)
Definition t_rel (cmp : nat -> nat -> bool) (t : trace) : pairs :=
  concat (map (fun i => concat (map (fun j => if cmp i j then [(nth i t 0, nth j t 0)] else []) (seq 0 (length t)))) (seq 0 (length t))).
Definition t_after : trace -> pairs := t_rel (fun i j => Nat.ltb i j).
Definition t_before : trace -> pairs := t_rel (fun i j => Nat.ltb j i).
(** trace_skel.py:78-92 combos (a set) *)
Definition t_combos (t : trace) : pairs :=
  dedup (concat (map (fun x => concat (map (fun y => if negb (Nat.eqb x y) then [(x, y)] else []) t)) t)).
(** trace_skel.py:95-109 directly_follows *)
Definition t_df (t : trace) : pairs := map (fun i => (nth i t 0, nth (i + 1) t 0)) (seq 0 (length t - 1)).

(** collections.Counter: c += d and c -= d drop the counts that are not positive.  With natural numbers
    a negative result of -= is 0, hence dropped as well. *)
Definition c_keep_positive {K} (c : @counter K) : @counter K := filter (fun kn => Nat.ltb 0 (snd kn)) c.
Definition c_iadd {K} {EK : Key K} (c d : @counter K) : @counter K :=
  c_keep_positive (fold_left (fun c kn => c_add c (fst kn) (snd kn)) d c).
Definition c_isub {K} {EK : Key K} (c d : @counter K) : @counter K :=
  c_keep_positive (fold_left (fun c kn => d_set c (fst kn) (c_get c (fst kn) - snd kn)) d c).
(** "for k in rs: rs[k] = rs[k] * logs_traces[trace]" (e.g. classic.py:79-80) *)
Definition c_scale {K} (n : nat) (c : @counter K) : @counter K := map (fun kn => (fst kn, snd kn * n)) c.
(** "y >= all_activs[x[0]] * (1.0 - noise_threshold)" (e.g. classic.py:83) *)
Definition qnat (n : nat) : Q := inject_Z (Z.of_nat n).
Definition enough (noise : Q) (total y : nat) : bool := Qle_bool (qnat total * (1 - noise)) (qnat y).
Definition select (noise : Q) (all : @counter nat) (ret0 : @counter (nat * nat)) : pairs :=
  map fst (filter (fun kn => enough noise (c_get all (fst (fst kn))) (snd kn)) ret0).

(** classic.py:59-84 equivalence, 87-112 always_after, 115-140 always_before, 176-201 directly_follows:
    the same loop over the variants with another trace_skel function *)
Definition discover_rel (f : trace -> pairs) (v : @counter trace) (all : @counter nat) (noise : Q) : pairs :=
  select noise all (fold_left (fun ret0 tn => c_iadd ret0 (c_scale (snd tn) (c_of (f (fst tn))))) v []).
(** classic.py:143-173 never_together (len_log is not used) *)
Definition all_combos (all : @counter nat) : pairs :=
  concat (map (fun x => concat (map (fun y => if negb (Nat.eqb x y) then [(x, y)] else []) (d_keys all))) (d_keys all)).
Definition never_together (v : @counter trace) (all : @counter nat) (noise : Q) : pairs :=
  let ret0 := fold_left (fun c k => d_set c k (c_get all (fst k))) (all_combos all) [] in
  select noise all (fold_left (fun ret0 tn => c_isub ret0 (c_scale (snd tn) (c_of (t_combos (fst tn))))) v ret0).
(** classic.py:204-245 activ_freq.  First loop: for each activity the counter of its per-trace frequencies. *)
Definition freq_table (v : @counter trace) (all : @counter nat) : dict nat (@counter nat) :=
  fold_left (fun ret0 tn =>
    let rs := fold_left (fun rs act => if d_mem rs act then rs else d_set rs act 0) (d_keys all) (t_freq (fst tn)) in
    fold_left (fun ret0 an =>
      let c := match d_get ret0 (fst an) with Some c => c | None => [] end in
      d_set ret0 (fst an) (c_add c (snd an) (snd tn))) rs ret0) v [].
(** classic.py:237-243: the list is cut at the first prefix that covers the threshold *)
Fixpoint cut (threshold : Q) (added : nat) (l : list (nat * nat)) : list (nat * nat) :=
  match l with
  | [] => []
  | xy :: r => if Qle_bool threshold (qnat (added + snd xy)) then [xy] else xy :: cut threshold (added + snd xy) r
  end.
(** classic.py:235-244.  sorted(..., key=x[1], reverse=True) is stable. *)
Definition activ_freq (v : @counter trace) (all : @counter nat) (len_log : nat) (noise : Q) : dict nat (list nat) :=
  map (fun ac => (fst ac, map fst (cut ((1 - noise) * qnat len_log) 0 (sorted_by (fun x => (- Z.of_nat (snd x))%Z) (snd ac))))) (freq_table v all).

Record skeleton := Skel { sk_equivalence : pairs; sk_always_after : pairs; sk_always_before : pairs;
  sk_never_together : pairs; sk_directly_follows : pairs; sk_activ_freq : dict nat (list nat) }.
(** classic.py:248-289 apply.  For an event log len(log) is the number of traces; for a pandas dataframe
    (lines 277-280) it is the number of events. *)
Definition discover_skel_gen (len_log : nat) (noise : Q) (l : log) : skeleton :=
  let v := c_of l in let all := c_of (concat l) in
  Skel (discover_rel t_equivalence v all noise) (discover_rel t_after v all noise) (discover_rel t_before v all noise)
       (never_together v all noise) (discover_rel t_df v all noise) (activ_freq v all len_log noise).
Definition discover_skel (noise : Q) (l : log) : skeleton := discover_skel_gen (length l) noise l.
Definition discover_skel_df (noise : Q) (l : log) : skeleton := discover_skel_gen (length (concat l)) noise l.

(** Conformance checking.  The names of the constraints. *)
Inductive kind := Kequivalence | Kalways_after | Kalways_before | Knever_together | Kdirectly_follows | Kactiv_freq.
Definition kind_eqb (a b : kind) : bool :=
  match a, b with
  | Kequivalence, Kequivalence | Kalways_after, Kalways_after | Kalways_before, Kalways_before
  | Knever_together, Knever_together | Kdirectly_follows, Kdirectly_follows | Kactiv_freq, Kactiv_freq => true
  | _, _ => false
  end.
(** DEFAULT_CONSIDERED_CONSTRAINTS, classic.py:37-38 *)
Definition all_kinds : list kind := [Kequivalence; Kalways_after; Kalways_before; Knever_together; Kdirectly_follows; Kactiv_freq].
Definition memp (k : nat * nat) (l : pairs) : bool := existsb (fun y => keqb y k) l.
Definition memn (k : nat) (l : list nat) : bool := existsb (fun y => keqb y k) l.
Inductive deviation := DevPairs (k : kind) (ps : pairs) | DevFreq (act n : nat).
(** min(s) > 0; [None] is the ValueError of min on an empty set *)
Definition min_pos (s : list nat) : option bool :=
  match s with [] => None | x :: r => Some (Nat.ltb 0 (fold_left Nat.min r x)) end.
(** this_constraints = {x for x in model[...] if x[0] in trace} *)
Definition relevant (t : trace) (m : pairs) : pairs := filter (fun x => memn (fst x) t) (dedup m).
Record acc := Acc { a_devs : list deviation; a_dev : nat; a_conf : nat }.
(** conformance classic.py:218-224 (the last branch: set difference) and 211-217 (never_together: intersection) *)
Definition check_pairs (k : kind) (inter : bool) (t : trace) (m info : pairs) (s : acc) : acc :=
  let c := relevant t m in
  let bad := filter (fun x => Bool.eqb inter (memp x info)) c in
  Acc (if Nat.ltb 0 (length bad) then a_devs s ++ [DevPairs k bad] else a_devs s) (a_dev s + length bad) (a_conf s + length c).
(** conformance classic.py:196-210 (activ_freq) *)
Definition check_freq (t : trace) (m : dict nat (list nat)) (s : acc) : option acc :=
  let f := t_freq t in
  if existsb (fun am => match min_pos (snd am) with None => true | Some _ => false end) m then None else
  let missing := filter (fun am => match min_pos (snd am) with Some b => b | None => false end && negb (memn (fst am) t)) m in
  let conf := a_conf s + (length (filter (fun an => d_mem m (fst an)) f) + length (filter (fun an => negb (d_mem m (fst an))) f) + length missing) in
  let s := fold_left (fun s an =>
     match d_get m (fst an) with
     | Some c => if memn (snd an) c then s else Acc (a_devs s ++ [DevFreq (fst an) (snd an)]) (a_dev s + 1) (a_conf s)
     | None => Acc (a_devs s ++ [DevFreq (fst an) 0]) (a_dev s + 1) (a_conf s)
     end) f (Acc (a_devs s) (a_dev s) conf) in
  Some (fold_left (fun s am => Acc (a_devs s ++ [DevFreq (fst am) 0]) (a_dev s + 1) (a_conf s)) missing s).
(** conformance classic.py:156-231 apply_actlist.  [None]: the ValueError above.  The final sort of the
    deviations is left out. *)
Record result := Res { r_devs : list deviation; r_dev_total : nat; r_conf_total : nat; r_fitness : Q; r_fit : bool }.
Definition check_kind (t : trace) (m : skeleton) (s : acc) (k : kind) : option acc :=
  match k with
  | Kactiv_freq => check_freq t (sk_activ_freq m) s
  | Knever_together => Some (check_pairs k true t (sk_never_together m) (t_combos t) s)
  | Kequivalence => Some (check_pairs k false t (sk_equivalence m) (t_equivalence t) s)
  | Kalways_after => Some (check_pairs k false t (sk_always_after m) (t_after t) s)
  | Kalways_before => Some (check_pairs k false t (sk_always_before m) (t_before t) s)
  | Kdirectly_follows => Some (check_pairs k false t (sk_directly_follows m) (t_df t) s)
  end.
Definition apply_actlist (consid : list kind) (m : skeleton) (t : trace) : option result :=
  match fold_left (fun s k => match s with
                              | None => None
                              | Some s => if existsb (kind_eqb k) consid then check_kind t m s k else Some s
                              end) all_kinds (Some (Acc [] 0 0)) with
  | None => None
  | Some s => Some (Res (a_devs s) (a_dev s) (a_conf s)
                        (if Nat.ltb 0 (a_conf s) then 1 - qnat (a_dev s) / qnat (a_conf s) else 1)%Q
                        (Nat.eqb (length (a_devs s)) 0))
  end.

(** conformance classic.py:67-120 apply_log: each distinct trace is checked once.  grouped_traces / gtk:
    the distinct traces; inv_idxs[i]: the index of the i-th one. *)
Fixpoint index_of (t : trace) (l : list trace) : nat :=
  match l with [] => 0 | x :: r => if list_eqb x t then 0 else S (index_of t r) end.
(** one iteration of the loop of lines 104-110 *)
Definition lstep (st : list trace * dict nat nat) (it : nat * trace) : list trace * dict nat nat :=
  let '(gtk, inv) := st in
  let gtk := if existsb (fun x => list_eqb x (snd it)) gtk then gtk else gtk ++ [snd it] in
  (gtk, d_set inv (fst it) (index_of (snd it) gtk)).
Definition apply_log (consid : list kind) (m : skeleton) (l : log) : list (option result) :=
  let st := fold_left lstep (combine (seq 0 (length l)) l) ([], []) in
  let res0 := map (apply_actlist consid m) (fst st) in
  map (fun i => match d_get (snd st) i with Some j => nth j res0 None | None => None end) (seq 0 (length l)).
