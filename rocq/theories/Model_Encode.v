(** Model of the encodings of activities: objects/log/util/activities_to_alphabet.py (aa), util/regex.py (rx), objects/log/util/log_regex.py (lr).

    Simplifications: activities are numbers, a dataframe is its activity column, letters are the numbers 0..25 (A..Z), characters are code points (Python fails beyond
    0x10ffff); value_counts sorts stably, by the first occurrences. *)
From Coq Require Import List Arith Bool.
Import ListNotations.

(** aa 62-66: the letters of an index; [fuel] is at least the number of rounds *)
Fixpoint letters (fuel index : nat) (result : list nat) : list nat :=
  match fuel with
  | O => result
  | S k => let result := (index mod 26) :: result in if index <? 26 then result else letters k (index / 26 - 1) result
  end.
Definition code (index : nat) : list nat := letters (S index) index [].

(** aa 60: list(value_counts().to_dict()): the activities, by decreasing count *)
Definition count (col : list nat) (a : nat) : nat := length (filter (Nat.eqb a) col).
Fixpoint firsts (seen l : list nat) : list nat := match l with [] => [] | a :: r => if existsb (Nat.eqb a) seen then firsts seen r else a :: firsts (a :: seen) r end.
Fixpoint insert (f : nat -> nat) (x : nat) (l : list nat) : list nat := match l with [] => [x] | y :: r => if f y <=? f x then x :: l else y :: insert f x r end.
Definition value_counts (col : list nat) : list nat := fold_right (insert (count col)) [] (firsts [] col).
(** aa 61-67: remap_dict, and aa 70: the inverse *)
Definition remap_dict (col : list nat) : list (nat * list nat) := map (fun p => (fst p, code (snd p))) (combine (value_counts col) (seq 0 (length (value_counts col)))).
Definition inverse (d : list (nat * list nat)) : list (list nat * nat) := map (fun p => (snd p, fst p)) d.
Definition get {K V} (eqb : K -> K -> bool) (d : list (K * V)) (k : K) : option V := match find (fun p => eqb k (fst p)) d with Some p => Some (snd p) | None => None end.
Fixpoint word_eqb (a b : list nat) : bool := match a, b with [], [] => true | x :: a', y :: b' => (x =? y) && word_eqb a' b' | _, _ => false end.
(** aa 68-72 [apply]: the new column (map: None for missing), and the mapping back *)
Definition to_alphabet (col : list nat) : list (option (list nat)) * list (list nat * nat) := (map (get Nat.eqb (remap_dict col)) col, inverse (remap_dict col)).

(** rx 30-31: [ ] ( ) * + ^ ? CR LF space TAB $ quote ! # & % | . , ; - apostrophe backslash slash { } *)
Definition list_to_avoid : list nat := [91; 93; 40; 41; 42; 43; 94; 63; 13; 10; 32; 9; 36; 34; 33; 35; 38; 37; 124; 46; 44; 59; 45; 39; 92; 47; 123; 125; 36].
(** rx 33-34 *)
Fixpoint skip (fuel c : nat) : nat := match fuel with O => c | S k => if existsb (Nat.eqb c) list_to_avoid then skip k (S c) else c end.
Definition next_char (c : nat) : nat := skip (S (length list_to_avoid)) (S c).
(** rx 20-35 [get_new_char]: the shared object: mapping and count_char *)
Definition get_new_char (s : list (nat * nat) * nat) (a : nat) : list (nat * nat) * nat := let c := next_char (snd s) in ((a, c) :: fst s, c).
(** lr 126-160 [form_encoding_dictio_from_two_logs], the activities of the logs: those that have no code yet get one *)
Definition add_activity (s : list (nat * nat) * nat) (a : nat) : list (nat * nat) * nat := if existsb (fun p => Nat.eqb a (fst p)) (fst s) then s else get_new_char s a.
Definition from_two_logs (acts1 acts2 : list nat) : list (nat * nat) := fst (fold_left add_activity acts2 (fold_left add_activity acts1 ([], 0))).
(** lr 69-99 [form_encoding_dictio_from_log] *)
Definition from_log (acts : list nat) : list (nat * nat) := fst (fold_left get_new_char acts ([], 0)).
(** lr 25-48 [get_encoded_trace] *)
Definition encoded_trace (mapping : list (nat * nat)) (t : list nat) : list nat := flat_map (fun a => match get Nat.eqb mapping a with Some c => [c] | None => [] end) t.
