(** Model of the conversions of a directly-follows graph (with its start and end activities) to an accepting
    Petri net: pm4py/objects/conversion/dfg/variants/to_petri_net_activity_defines_place.py (dp, the one used by
    pm4py.convert_to_petri_net) and to_petri_net_invisibles_no_duplicates.py (nd).

    Simplifications: the frequencies of the graph are dropped (the code only looks at the keys); place objects
    are numbers: in dp the source is 0, the sink 1 and the place of activity a is a + 2; in nd the places
    source_a and sink_a are 2a and 2a + 1.  Transition names become numbers. *)
From stdpp Require Import gmap.
From Coq Require Import ZArith.
From Verif Require Import Model_Petri Model_Dict.
Local Open Scope Z_scope.

(** objects/dfg/utils/dfg_utils.py:211-236 [get_activities_from_dfg] (order irrelevant here) *)
Definition dfg_activities (edges : list (nat * nat)) : list nat :=
  dedup (concat (map (fun e => [fst e; snd e]) edges)).

(** dfg_utils.py:59-82 [infer_start_activities] and 85-108 [infer_end_activities]: the defaults *)
Definition infer_start (edges : list (nat * nat)) : list nat :=
  List.filter (fun a => negb (existsb (Nat.eqb a) (map snd edges))) (dedup (map fst edges)).
Definition infer_end (edges : list (nat * nat)) : list nat :=
  List.filter (fun a => negb (existsb (Nat.eqb a) (map fst edges))) (dedup (map snd edges)).

(** A transition with one input and one output arc; [index] of dp 67, 75, 83, 93. *)
Definition link (i : nat) (s : option nat * nat * nat) : transition (option nat) :=
  Trans i (s.1.1) [(s.1.2, 1)] [(s.2, 1)].
Definition links (l : list (option nat * nat * nat)) : list (transition (option nat)) :=
  map (fun x => link (fst x) (snd x)) (combine (seq 1 (length l)) l).

(** dp 33-100 [apply] *)
Definition act_place (a : nat) : nat := (a + 2)%nat.
Definition defines_place (edges : list (nat * nat)) (sa ea : list nat)
  : petri_net (option nat) * marking * marking :=
  let acts := dfg_activities edges in
  let inside a := existsb (Nat.eqb a) acts in
  (Net (0%nat :: 1%nat :: map act_place acts)
     (links (map (fun a => (Some a, 0%nat, act_place a)) (List.filter inside sa)
             ++ map (fun a => (None, act_place a, 1%nat)) (List.filter inside ea)
             ++ map (fun e => (Some (snd e), act_place (fst e), act_place (snd e))) edges)),
   {[ 0%nat := 1 ]}, {[ 1%nat := 1 ]}).

(** nd 34-101 [apply]; [st] and [en] are the artificial start and end activities.  [None]: KeyError in nd 98
    or 99 (no start or no end activity). *)
Definition left_place (a : nat) : nat := (2 * a)%nat.
Definition right_place (a : nat) : nat := (2 * a + 1)%nat.
Definition no_duplicates (st en : nat) (edges : list (nat * nat)) (sa ea : list nat)
  : option (petri_net (option nat) * marking * marking) :=
  let enriched := dedup (edges ++ map (fun a => (st, a)) sa ++ map (fun a => (a, en)) ea) in
  let acts := dedup (map snd enriched ++ map fst enriched) in
  if existsb (Nat.eqb st) acts && existsb (Nat.eqb en) acts then
    Some (Net (concat (map (fun a => [left_place a; right_place a]) acts))
       (links (map (fun a => (if Nat.eqb a st || Nat.eqb a en then None else Some a, left_place a, right_place a)) acts
               ++ map (fun e => (None, right_place (fst e), left_place (snd e))) enriched)),
     {[ left_place st := 1 ]}, {[ right_place en := 1 ]})
  else None.
