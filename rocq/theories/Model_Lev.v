(** Model of pm4py/util/string_distance.py (pure Python path; the optional external package
    stringdist is not modelled). Characters are numbers. *)
From Coq Require Import List Arith ZArith.
Import ListNotations.

(** string_distance.py:30-36: the inner loop; [cur] is the last entry of current_row, [prev] the
    remaining part of previous_row starting at position j; returns the entries after the first. *)
Fixpoint lev_inner (c1 : nat) (s2 : list nat) (prev : list nat) (cur : nat) : list nat :=
  match s2, prev with
  | c2 :: s2', p0 :: ((p1 :: _) as prev') =>
      let insertions := p1 + 1 in
      let deletions := cur + 1 in
      let substitutions := p0 + (if Nat.eqb c1 c2 then 0 else 1) in
      let v := Nat.min insertions (Nat.min deletions substitutions) in
      v :: lev_inner c1 s2' prev' v
  | _, _ => []
  end.

(** string_distance.py:29-38: the outer loop over s1. *)
Fixpoint lev_outer (i : nat) (s1 s2 : list nat) (prev : list nat) : list nat :=
  match s1 with
  | [] => prev
  | c1 :: s1' => lev_outer (S i) s1' s2 ((i + 1) :: lev_inner c1 s2 prev (i + 1))
  end.

(** string_distance.py:22-40 [levenshtein_distance] (the recursive call swaps the arguments once). *)
Definition lev_main (s1 s2 : list nat) : nat :=
  if Nat.eqb (length s2) 0 then length s1
  else last (lev_outer 0 s1 s2 (seq 0 (length s2 + 1))) 0.
Definition levenshtein_distance (s1 s2 : list nat) : nat :=
  if Nat.ltb (length s1) (length s2) then lev_main s2 s1 else lev_main s1 s2.

(** Python's sorted(l, key=...): stable sort by key. *)
Section Sort.
  Context {A : Type} (key : A -> Z).
  Fixpoint insert_by (x : A) (l : list A) : list A :=
    match l with
    | [] => [x]
    | y :: r => if (key x <=? key y)%Z then x :: l else y :: insert_by x r
    end.
  Fixpoint sorted_by (l : list A) : list A :=
    match l with [] => [] | x :: r => insert_by x (sorted_by r) end.
End Sort.

(** string_distance.py:50-88 [argmin_levenshtein]; [None] for min_edit_dist = sys.maxsize. *)
Definition absdiff (a b : nat) : nat := (a - b) + (b - a).
Fixpoint argmin_loop (stru : list nat) (l : list (list nat)) (best : option (list nat * nat)) : option (list nat * nat) :=
  match l with
  | [] => best
  | c :: r =>
      let diff := absdiff (length c) (length stru) in
      match best with
      | Some (_, d0) =>
          if Nat.leb d0 diff then best
          else let d := levenshtein_distance stru c in
               argmin_loop stru r (if Nat.ltb d d0 then Some (c, d) else best)
      | None => argmin_loop stru r (Some (c, levenshtein_distance stru c))
      end
  end.
Definition argmin_levenshtein (stru : list nat) (l : list (list nat)) : option (list nat) :=
  match argmin_loop stru (sorted_by (fun x => Z.of_nat (absdiff (length x) (length stru))) l) None with
  | Some (c, _) => Some c
  | None => None
  end.

(** string_distance.py:91-127 [argmax_levenshtein]. *)
Fixpoint argmax_loop (stru : list nat) (l : list (list nat)) (arg : option (list nat)) (mx : nat) : option (list nat) :=
  match l with
  | [] => arg
  | c :: r =>
      if Nat.leb (length c + length stru) mx then arg
      else let d := levenshtein_distance stru c in
           if Nat.ltb mx d then argmax_loop stru r (Some c) d else argmax_loop stru r arg mx
  end.
Definition argmax_levenshtein (stru : list nat) (l : list (list nat)) : option (list nat) :=
  argmax_loop stru (sorted_by (fun x => (- Z.of_nat (length x))%Z) l) None 0.
