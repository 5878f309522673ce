(** Model of stochastic languages and of what the earth mover's distance is computed from: statistics/variants/log/get.py [get_language] (vg), pm4py/stats.py
    [get_stochastic_language] and algo/evaluation/earth_mover_distance/variants/pyemd.py (em).

    Simplifications: probabilities are rationals (the code: floats); a dictionary is the list of its items; the activities get their characters in the order of their
    first occurrences (the code: sorted); pyemd itself is an external library and not modelled. *)
From Coq Require Import List Arith Bool QArith.
From Verif Require Import Model_Lev Model_Encode.
Import ListNotations.
Open Scope nat_scope.

Definition language : Type := list (list nat * Q).
Fixpoint distinct (seen l : list (list nat)) : list (list nat) := match l with [] => [] | t :: r => if existsb (word_eqb t) seen then distinct seen r else t :: distinct (t :: seen) r end.
Definition occurrences (log : list (list nat)) (t : list nat) : nat := length (filter (word_eqb t) log).
Definition frac (a b : nat) : Q := (inject_Z (Z.of_nat a) / inject_Z (Z.of_nat b))%Q.
(** vg 57-64: the variants with their number of traces, divided by the sum *)
Definition get_language (log : list (list nat)) : language :=
  let vars := map (fun t => (t, occurrences log t)) (distinct [] log) in let s := fold_right (fun p n => snd p + n) 0 vars in map (fun p => (fst p, frac (snd p) s)) vars.

(** em 80-88: the activities of both languages and their characters *)
Definition all_activities (lang1 lang2 : language) : list nat := firsts [] (flat_map fst lang1 ++ flat_map fst lang2).
Definition acts_corresp (lang1 lang2 : language) : list (nat * nat) := from_log (all_activities lang1 lang2).
(** em 90-98: the dictionaries with encoded keys (different traces have different keys) *)
Definition encode (m : list (nat * nat)) (lang : language) : language := map (fun p => (encoded_trace m (fst p), snd p)) lang.
(** em 100-107: keys that are only in the other one are added with 0.0 *)
Definition add_missing (other enc : language) : language :=
  enc ++ map (fun p => (fst p, 0%Q)) (filter (fun p => negb (existsb (fun q => word_eqb (fst p) (fst q)) enc)) other).
(** em 113-114: sorted by key, descending; strings are compared like words *)
Fixpoint word_leb (a b : list nat) : bool := match a, b with [], _ => true | _ :: _, [] => false | x :: a', y :: b' => (x <? y) || ((x =? y) && word_leb a' b') end.
Fixpoint insert_key (x : list nat * Q) (l : language) : language := match l with [] => [x] | y :: r => if word_leb (fst y) (fst x) then x :: l else y :: insert_key x r end.
Definition sort_keys (l : language) : language := fold_right insert_key [] l.
Definition encode_two_languages (lang1 lang2 : language) : language * language :=
  let m := acts_corresp lang1 lang2 in
  let enc1 := encode m lang1 in let enc2 := encode m lang2 in
  let enc2' := add_missing enc1 enc2 in let enc1' := add_missing enc2' enc1 in (sort_keys enc1', sort_keys enc2').
(** em 29-43 [normalized_levensthein]; None: ZeroDivisionError *)
Definition normalized (a b : list nat) : option Q := match Nat.max (length a) (length b) with O => None | n => Some (frac (levenshtein_distance a b) n) end.
(** em 155-171: histograms and distance matrix *)
Fixpoint sequence {X} (l : list (option X)) : option (list X) := match l with [] => Some [] | Some x :: r => match sequence r with Some r' => Some (x :: r') | None => None end | None :: _ => None end.
Definition emd_input (lang1 lang2 : language) : option (list Q * list Q * list (list Q)) :=
  let e := encode_two_languages lang1 lang2 in
  match sequence (map (fun x => sequence (map (fun y => normalized (fst x) (fst y)) (snd e))) (fst e)) with
  | Some matrix => Some (map snd (fst e), map snd (snd e), matrix)
  | None => None
  end.
