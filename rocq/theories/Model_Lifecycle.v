(** Model of objects/log/util/interval_lifecycle.py (il): conversion between lifecycle and interval logs, lead and cycle time.

    Simplifications: a trace at a time; the checks whether the log already has the wanted format and the attributes of log and trace are left out; timestamps are
    integers (seconds since 1970); the attributes of an event that are not interpreted are one value [rest]; the marks that [to_lifecycle] leaves in the events
    (@@custom_lif_id, @@origin_ev_idx) are only used in its sorting; durations and ratios are left out. *)
From Coq Require Import List Arith ZArith Bool.
Import ListNotations.
Open Scope Z_scope.

(** il 80: transition.lower(), complete if the attribute is missing; anything else is Other *)
Inductive transition := Start | Complete | Other.
Definition is_complete (t : transition) : bool := match t with Complete => true | _ => false end.

Section attributes.
Context {A : Type}.
(** an event of a lifecycle log; [key]: activity and instance (il 77-79) *)
Record event := Event { key : nat; time : Z; trans : transition; rest : A }.
(** an event of an interval log; [istart]: the attributes prefixed with @@startevent_ *)
Record interval := Interval { ikey : nat; st : Z; et : Z; irest : A; istart : option A }.

(** il 73-113: one event; [pend]: activities_start, a key that is missing has no events *)
Definition step (s : (nat -> list event) * list interval) (e : event) : (nat -> list event) * list interval :=
  let (pend, out) := s in
  let set l := fun k => if (k =? key e)%nat then l else pend k in
  match trans e with
  | Start => (set (pend (key e) ++ [e]), out)
  | Complete =>
    match pend (key e) with
    | [] => (pend, out ++ [Interval (key e) (time e) (time e) (rest e) None])
    | b :: r => (set r, out ++ [Interval (key e) (time b) (time e) (rest e) (Some (rest b))])
    end
  | Other => (pend, out)
  end.
Definition collect (l : list event) : list interval := snd (fold_left step l (fun _ => [], [])).
(** il 114 sorting.sort_timestamp_trace: stable *)
Fixpoint insert (x : interval) (l : list interval) : list interval := match l with [] => [x] | y :: r => if st x <=? st y then x :: l else y :: insert x r end.
Definition sort_start (l : list interval) : list interval := fold_right insert [] l.
(** il 37-118 [to_interval], one trace *)
Definition to_interval (l : list event) : list interval := sort_start (collect l).

(** il 156-171: the two events of an event, with the index *)
Definition entry : Type := nat * event.
Definition entries (t : list interval) : list entry :=
  flat_map (fun p => [(fst p, Event (ikey (snd p)) (st (snd p)) Start (irest (snd p))); (fst p, Event (ikey (snd p)) (et (snd p)) Complete (irest (snd p)))]) (combine (seq 0 (length t)) t).
(** il 172-173: sorted by timestamp, index and start before complete *)
Definition entry_lt (a b : entry) : bool :=
  (time (snd a) <? time (snd b)) || ((time (snd a) =? time (snd b)) && ((fst a <? fst b)%nat || ((fst a =? fst b)%nat && negb (is_complete (trans (snd a))) && is_complete (trans (snd b))))).
Fixpoint insert_entry (x : entry) (l : list entry) : list entry := match l with [] => [x] | y :: r => if entry_lt y x then y :: insert_entry x r else x :: l end.
Definition sort_entries (l : list entry) : list entry := fold_right insert_entry [] l.
(** il 121-177 [to_lifecycle], one trace *)
Definition to_lifecycle (t : list interval) : list event := map snd (sort_entries (entries t)).

(** il 180-262 [assign_lead_cycle_time], one trace; [work]: the seconds of BusinessHours (C92).  The state: lead, cycle and wasted time, max_et; what is stored for an
    event: cycle, lead, wasted and wasted by this event *)
Section lead.
Context (work : Z -> Z -> Z).
Record times := Times { lead : Z; cycle : Z; wasted : Z; this_wasted : Z; max_et : Z }.
Definition lead_step (s : times) (i : interval) : times :=
  let gap := if (0 <? max_et s) && (max_et s <? st i) then work (max_et s) (st i) else 0 in
  let own := if max_et s <? st i then work (st i) (et i) else if (st i <? max_et s) && (max_et s <? et i) then work (max_et s) (et i) else 0 in
  Times (lead s + gap + own) (cycle s + own) (wasted s + gap) gap (if max_et s <? et i then et i else max_et s).
Fixpoint scan (s : times) (t : list interval) : list times := match t with [] => [] | i :: r => let s' := lead_step s i in s' :: scan s' r end.
Definition lead_cycle (t : list interval) : list times := scan (Times 0 0 0 0 0) t.
End lead.
End attributes.
Arguments event : clear implicits.
Arguments interval : clear implicits.
Arguments entry : clear implicits.
