(** Model of the detection of batches, algo/discovery/batches/utils/detection.py (dt), for the events of one activity and resource.

    Simplifications: timestamps are integers (the code: floats); tuples that agree in both times are not less than each other (the code goes on comparing the sets of
    events by inclusion).  The heap operations are those of the standard library's heapq, written with swaps. *)
From Coq Require Import List Arith ZArith Bool.
Import ListNotations.
Open Scope Z_scope.

(** log.py 85-96: start, end, case *)
Record ev := Ev { st : Z; et : Z; case : nat }.
Definition ev_eqb (a b : ev) : bool := (st a =? st b) && (et a =? et b) && Nat.eqb (case a) (case b).
(** an interval with the set of its events *)
Record iv := Iv { lo : Z; hi : Z; evs : list ev }.
Definition lt (a b : iv) : bool := (lo a <? lo b) || ((lo a =? lo b) && (hi a <? hi b)).
(** set.union *)
Definition union (a b : list ev) : list ev := a ++ filter (fun e => negb (existsb (ev_eqb e) a)) b.
(** dt 31-32, 58-59 *)
Definition merge (a b : iv) : iv := Iv (Z.min (lo a) (lo b)) (Z.max (hi a) (hi b)) (union (evs a) (evs b)).

(** list.sort, stable *)
Fixpoint insert (x : iv) (l : list iv) : list iv := match l with [] => [x] | y :: r => if lt x y then x :: l else y :: insert x r end.
Definition sort (l : list iv) : list iv := fold_left (fun acc x => insert x acc) l [].

(** heapq *)
Definition upd {X} (l : list X) (i : nat) (v : X) : list X := firstn i l ++ match skipn i l with [] => [] | _ :: r => v :: r end.
Definition swap {X} (i j : nat) (l : list X) : list X :=
  match nth_error l i, nth_error l j with Some a, Some b => upd (upd l i b) j a | _, _ => l end.
Definition less (l : list iv) (i j : nat) : bool := match nth_error l i, nth_error l j with Some a, Some b => lt a b | _, _ => false end.
(** heapq._siftdown: the item at [pos] moves towards [start] while it is less than its parent *)
Fixpoint siftdown (fuel start pos : nat) (l : list iv) : list iv :=
  match fuel with
  | O => l
  | S k => if (start <? pos)%nat then let parent := Nat.div2 (pos - 1) in if less l pos parent then siftdown k start parent (swap pos parent l) else l else l
  end.
(** heapq._siftup: the smaller child moves up until a leaf is reached, then siftdown *)
Fixpoint to_leaf (fuel pos : nat) (l : list iv) : nat * list iv :=
  match fuel with
  | O => (pos, l)
  | S k =>
    let child := (2 * pos + 1)%nat in
    if (child <? length l)%nat then
      let child := if (child + 1 <? length l)%nat && negb (less l child (child + 1)%nat) then (child + 1)%nat else child in to_leaf k child (swap pos child l)
    else (pos, l)
  end.
Definition siftup (pos : nat) (l : list iv) : list iv := let r := to_leaf (length l) pos l in siftdown (length l) pos (fst r) (snd r).
Definition heapify (l : list iv) : list iv := fold_right siftup l (seq 0 (Nat.div2 (length l))).
Definition heappush (l : list iv) (x : iv) : list iv := siftdown (S (length l)) 0 (length l) (l ++ [x]).

(** dt 21-46 [__merge_overlapping_intervals]: the first neighbours that overlap are merged, the list is sorted, until there are none; None: out of fuel *)
Fixpoint first_overlap (l : list iv) : option (list iv * iv) :=
  match l with
  | a :: (b :: r) as k => if lo b <? hi a then Some (r, merge a b) else match first_overlap k with Some (r', m) => Some (a :: r', m) | None => None end
  | _ => None
  end.
Fixpoint merge_overlapping (fuel : nat) (l : list iv) : option (list iv) :=
  match fuel with
  | O => None
  | S k => match first_overlap l with Some (r, m) => merge_overlapping k (sort (r ++ [m])) | None => Some l end
  end.
(** dt 49-74 [__merge_near_intervals]: one pass from index [i]; the second component: continue_cycle *)
Fixpoint near_pass (fuel : nat) (d : Z) (i : nat) (l : list iv) (changed : bool) : option (list iv * bool) :=
  match fuel with
  | O => None
  | S k =>
    match nth_error l i, nth_error l (S i) with
    | Some a, Some b => if lo b - hi a <=? d then near_pass k d i (heappush (firstn i l ++ skipn (2 + i) l) (merge a b)) true else near_pass k d (S i) l changed
    | _, _ => Some (l, changed)
    end
  end.
Fixpoint merge_near (fuel : nat) (d : Z) (l : list iv) : option (list iv) :=
  match fuel with
  | O => None
  | S k => match near_pass (S (length l)) d 0 l false with Some (l', true) => merge_near k d l' | Some (l', false) => Some l' | None => None end
  end.
(** dt 130-134 *)
Definition intervals (d : Z) (events : list ev) : option (list iv) :=
  match merge_overlapping (S (length events)) (heapify (map (fun e => Iv (st e) (et e) [e]) events)) with
  | Some l => merge_near (S (length l)) d l
  | None => None
  end.

(** dt 77-116 [__check_batch_type] *)
Inductive batch_type := Simultaneous | BatchingStart | BatchingEnd | Sequential | Concurrent.
Definition ev_leb (a b : ev) : bool := (st a <? st b) || ((st a =? st b) && ((et a <? et b) || ((et a =? et b) && (case a <=? case b)%nat))).
Fixpoint insert_ev (x : ev) (l : list ev) : list ev := match l with [] => [x] | y :: r => if ev_leb x y then x :: l else y :: insert_ev x r end.
Definition sorted_events (l : list ev) : list ev := fold_right insert_ev [] l.
Definition minimum (l : list Z) : Z := match l with [] => 0 | x :: r => fold_left Z.min r x end.
Definition maximum (l : list Z) : Z := match l with [] => 0 | x :: r => fold_left Z.max r x end.
Fixpoint sequential (l : list ev) : bool := match l with a :: (b :: _) as k => (et a =? st b) && sequential k | _ => true end.
Definition check_type (b : iv) : batch_type :=
  let l := sorted_events (evs b) in
  if (minimum (map st l) =? maximum (map st l)) && (minimum (map et l) =? maximum (map et l)) then Simultaneous
  else if minimum (map st l) =? maximum (map st l) then BatchingStart
  else if minimum (map et l) =? maximum (map et l) then BatchingEnd
  else if sequential l then Sequential else Concurrent.
(** dt 119-140 [__detect_single]: the batches with at least [m] events, each with its type *)
Definition detect_single (d : Z) (m : nat) (events : list ev) : option (list (batch_type * iv)) :=
  match intervals d events with Some l => Some (map (fun b => (check_type b, b)) (filter (fun b => (m <=? length (evs b))%nat) l)) | None => None end.
