(** Model of the Alpha Miner, pm4py/algo/discovery/alpha/variants/classic.py (cl), with the relations of
    alpha/data_structures/alpha_classic_abstraction.py (ab).

    Sets of activities are duplicate-free lists, compared by inclusion both ways.  Place objects are numbers: the source
    is 0, the sink 1, the place of the i-th internal pair i + 2; the transition of a label is numbered by the label. *)
From Coq Require Import List Arith Bool ZArith.
Import ListNotations.
From Verif Require Import Model_Petri Model_Dict Model_Dfg Model_Footprints.
Local Open Scope nat_scope.

Notation pair_sets := (list nat * list nat)%type (only parsing).
(** set.issubset and set.__eq__; equality of tuples of sets *)
Definition subset (a b : list nat) : bool := forallb (fun x => isin x b) a.
Definition set_eq (a b : list nat) : bool := subset a b && subset b a.
Definition pair_eq (p q : pair_sets) : bool := set_eq (fst p) (fst q) && set_eq (snd p) (snd q).
Definition pair_in (p : pair_sets) (l : list pair_sets) : bool := existsb (pair_eq p) l.

(** cl 225-228 [__initial_filter] *)
Definition initial_filter (par : list (nat * nat)) (p : nat * nat) : bool :=
  negb (isin (fst p, fst p) par || isin (snd p, snd p) par).
(** cl 231-235 [__pair_maximizer] *)
Definition pair_maximizer (pairs : list pair_sets) (p : pair_sets) : bool :=
  forallb (fun alt => negb (negb (pair_eq p alt) && subset (fst p) (fst alt) && subset (snd p) (snd alt))) pairs.
(** cl 238-243 [__check_is_unrelated]: True when some pair is related *)
Definition check_is_unrelated (par cau : list (nat * nat)) (s1 s2 : list nat) : bool :=
  existsb (fun p => isin p par || isin p cau) (list_prod s1 s2 ++ list_prod s2 s1).
(** cl 246-251 [__check_all_causal] *)
Definition check_all_causal (cau : list (nat * nat)) (s1 s2 : list nat) : bool :=
  forallb (fun p => isin p cau) (list_prod s1 s2).

(** cl 179-187: the body of the loops *)
Definition merge (par cau : list (nat * nat)) (t1 : pair_sets) (pairs : list pair_sets) (t2 : pair_sets) : list pair_sets :=
  let new := (union (fst t1) (fst t2), union (snd t1) (snd t2)) in
  if negb (pair_eq t1 t2) &&
     (subset (fst t1) (fst t2) || subset (snd t1) (snd t2)) &&
     negb (check_is_unrelated par cau (fst t1) (fst t2) || check_is_unrelated par cau (snd t1) (snd t2)) &&
     negb (pair_in new pairs) && check_all_causal cau (fst new) (snd new)
  then pairs ++ [new] else pairs.
(** cl 177-187: the inner loop; its range is computed before the list grows *)
Definition merge_with (par cau : list (nat * nat)) (pairs : list pair_sets) (i : nat) : list pair_sets :=
  match nth_error pairs i with
  | None => pairs
  | Some t1 => fold_left (merge par cau t1) (skipn i pairs) pairs
  end.
(** cl 172-187 *)
Definition alpha_pairs (par cau : list (nat * nat)) : list pair_sets :=
  let pairs := map (fun p => ([fst p], [snd p])) (filter (initial_filter par) cau) in
  fold_left (merge_with par cau) (seq 0 (length pairs)) pairs.
(** cl 188 *)
Definition internal_places (par cau : list (nat * nat)) : list pair_sets :=
  let pairs := alpha_pairs par cau in filter (pair_maximizer pairs) pairs.

(** cl 160-168 *)
Definition alpha_labels (g : @counter (nat * nat)) (sa ea : list nat) : list nat :=
  dedup (concat (map (fun e => [fst e; snd e]) (d_keys g)) ++ sa ++ ea).
(** cl 122-206 [apply_dfg_sa_ea]; the transition of a label has an arc from every place whose second component contains it,
    from the source if it is a start activity, and so on *)
Definition alpha_net (g : @counter (nat * nat)) (sa ea : list nat) : petri_net (option nat) * (nat * nat) :=
  let par := parallel_pairs g in
  let cau := causal_alpha g in
  let places := internal_places par cau in
  let idx := combine (seq 2 (length places)) places in
  (Net (0 :: 1 :: map fst idx)
     (map (fun a => Trans a (Some a)
        ((if isin a sa then [(0, 1%Z)] else []) ++ map (fun ip => (fst ip, 1%Z)) (filter (fun ip => isin a (snd (snd ip))) idx))
        ((if isin a ea then [(1, 1%Z)] else []) ++ map (fun ip => (fst ip, 1%Z)) (filter (fun ip => isin a (fst (snd ip))) idx)))
       (alpha_labels g sa ea)), (0, 1)).
(** cl 57-93 [apply] on a log *)
Definition alpha_log (l : log) : petri_net (option nat) * (nat * nat) :=
  let g := filter (fun kv => Nat.ltb 0 (snd kv)) (native 1 false l) in
  alpha_net g (d_keys (get_start_activities l)) (d_keys (get_end_activities l)).
