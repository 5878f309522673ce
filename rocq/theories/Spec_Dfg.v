(** Specification of directly-follows counts by positions in the log. *)
From Coq Require Import List Arith.
Import ListNotations.
From Verif Require Import Model_Dict Model_Dfg.

(** Exactly n elements satisfy P. *)
Definition exactly {X} (n : nat) (P : X -> Prop) : Prop :=
  exists l, NoDup l /\ length l = n /\ forall x, In x l <-> P x.
(** The event at position (j, i), event i of trace j, is an occurrence of a. *)
Definition at_pos (l : log) (j i a : nat) : Prop := exists t, nth_error l j = Some t /\ nth_error t i = Some a.
(** It is the first / last event of its trace. *)
Definition last_pos (l : log) (j i : nat) : Prop := exists t, nth_error l j = Some t /\ length t = S i.
(** The value of a counter under a predicate on keys. *)
Definition total {K} (P : K -> bool) (d : @counter K) : nat := list_sum (map snd (filter (fun kv => P (fst kv)) d)).
(** Two dictionaries with the same content. *)
Definition same_dict {K V} {EK : Key K} (d d' : dict K V) : Prop := forall k, d_get d k = d_get d' k.

(** The log of a stream: the events that have a case and an activity, grouped by case. *)
Fixpoint cases_acts (evs : list event) : list (nat * nat) :=
  match evs with
  | [] => []
  | Event (Some c) (Some a) :: r => (c, a) :: cases_acts r
  | _ :: r => cases_acts r
  end.
Definition case_trace (evs : list event) (c : nat) : trace := map snd (filter (fun ca => Nat.eqb (fst ca) c) (cases_acts evs)).
Definition grouped (evs : list event) : log := map (case_trace evs) (nodup Nat.eq_dec (map fst (cases_acts evs))).

(** Positions i < j of two consecutive occurrences of a in the trace. *)
Definition next_occurrence (t : trace) (a i j : nat) : Prop :=
  i < j /\ nth_error t i = Some a /\ nth_error t j = Some a /\ forall k, i < k < j -> nth_error t k <> Some a.
