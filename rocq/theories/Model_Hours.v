(** Business hours: pm4py/util/business_hours.py (soj_time_business_hours_diff, used for durations, waiting and sojourn times with
    business_hours=True).

    Times are integer numbers of ticks since a Monday 00:00 (time zones are dropped by the code as well); a second is [u] ticks (for Python
    datetimes 10^6).  Slots are in seconds since the start of the week.  Sums of floats are exact.  The work calendar is not used by the code. *)
From Coq Require Import List ZArith Bool.
Import ListNotations.
Local Open Scope Z_scope.

(** sorted(slots): lexicographic *)
Definition slot_le (a b : Z * Z) : bool := (fst a <? fst b) || ((fst a =? fst b) && (snd a <=? snd b)).
Fixpoint insert_slot (x : Z * Z) (l : list (Z * Z)) : list (Z * Z) :=
  match l with [] => [x] | y :: r => if slot_le x y then x :: l else y :: insert_slot x r end.
Definition sort_slots (l : list (Z * Z)) : list (Z * Z) := fold_right insert_slot [] l.
(** 75-81: the union of the slots; the list is kept with the last slot first *)
Definition unify_step (acc : list (Z * Z)) (s : Z * Z) : list (Z * Z) :=
  match acc with
  | (b, e) :: r => if (fst s - 1 <=? e) then (b, Z.max e (snd s)) :: r else s :: acc
  | [] => [s]
  end.
Definition unify (slots : list (Z * Z)) : list (Z * Z) := rev (fold_left unify_step (sort_slots slots) []).
(** 58-64 get_overlapping_time, in ticks *)
Definition overlap (b1 e1 b2 e2 : Z) : Z := Z.max 0 (Z.min e1 e2 - Z.max b1 b2).
Definition day : Z := 24 * 60 * 60.
Definition week : Z := 7 * day.
(** 89: the Monday 00:00 before datetime1 *)
Definition week_start (u t : Z) : Z := t / (week * u) * (week * u).
(** 92-100: a time given in seconds since the week start *)
Definition at_week (u ws s : Z) : Z := let d := s / day in ws + d * (day * u) + (s - day * d) * u.
(** 105-114: the following weeks, until one without overlap; [None]: out of fuel *)
Fixpoint more_weeks (fuel : nat) (u t1 t2 bs be : Z) : option Z :=
  match fuel with
  | O => None
  | S n => let bs := bs + week * u in let be := be + week * u in
           let o := overlap t1 t2 bs be in
           if o <=? 0 then Some 0 else option_map (Z.add o) (more_weeks n u t1 t2 bs be)
  end.
(** 87-116 get_seconds, in ticks *)
Definition get_ticks (fuel : nat) (u t1 t2 : Z) (slots : list (Z * Z)) : option Z :=
  let ws := week_start u t1 in
  fold_left (fun acc s =>
    match acc, more_weeks fuel u t1 t2 (at_week u ws (fst s)) (at_week u ws (snd s)) with
    | Some sum, Some m => Some (sum + overlap t1 t2 (at_week u ws (fst s)) (at_week u ws (snd s)) + m)
    | _, _ => None
    end) (unify slots) (Some 0).
