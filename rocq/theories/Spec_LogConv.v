(** Event logs, streams of events and what belongs to a case. *)
From Coq Require Import List Bool Ascii.
From Verif Require Import Model_Dict Model_DfgFile Model_LogConv.
Import ListNotations.

(** [pat] does not occur in [s] *)
Definition free_of (pat s : text) : Prop := forall a b, s <> a ++ pat ++ b.
Definition begins_with (pat s : text) : Prop := exists b, s = pat ++ b.
(** two dictionaries with the same content *)
Definition same_dict {V} (d d' : dict text V) : Prop := forall k, d_get d k = d_get d' k.
Definition same_trace {V} (t t' : trace V) : Prop := same_dict (attributes t) (attributes t') /\ Forall2 same_dict (events t) (events t').

(** a log as other functions of the library make it: dictionaries have each key once, each trace has an identifier of its own under [name] and at least one event,
    no event attribute begins with the prefix and no trace attribute contains it *)
Record proper_log {V} (pref name : text) (log : list (trace V)) : Prop := {
  keys_once : forall t, In t log -> NoDup (map fst (attributes t)) /\ forall e, In e (events t) -> NoDup (map fst e);
  some_event : forall t, In t log -> events t <> [];
  identified : forall t, In t log -> exists id, In (name, id) (attributes t);
  distinct : forall i j t u id, nth_error log i = Some t -> nth_error log j = Some u -> In (name, id) (attributes t) -> In (name, id) (attributes u) -> i = j;
  event_names : forall t e k, In t log -> In e (events t) -> In k (map fst e) -> ~ begins_with pref k;
  trace_names : forall t k, In t log -> In k (map fst (attributes t)) -> free_of pref k }.

(** a stream: each event has each key once and a case identifier; what follows the prefix in a key does not contain it again *)
Record proper_stream {V} (pref glue : text) (s : list (event V)) : Prop := {
  s_keys_once : forall e, In e s -> NoDup (map fst e);
  s_identified : forall e, In e s -> In glue (map fst e);
  s_names : forall e k, In e s -> In (pref ++ k) (map fst e) -> free_of pref k }.

(** the events with a given case identifier *)
Definition of_case {V} {KV : Key V} (glue : text) (id : V) (s : list (event V)) : list (event V) :=
  filter (fun e => match d_get e glue with Some v => keqb v id | None => false end) s.
(** [e] without the attributes beginning with the prefix *)
Definition event_part {V} (pref : text) (e e' : event V) : Prop :=
  (forall k, begins_with pref k -> d_get e' k = None) /\ (forall k, ~ begins_with pref k -> d_get e' k = d_get e k).
(** the trace of a case: attributes from its first event, events in the order of the stream *)
Definition case_of {V} {KV : Key V} (pref glue : text) (s : list (event V)) (id : V) (t : trace V) : Prop :=
  (exists e r, of_case glue id s = e :: r /\ forall k, d_get (attributes t) k = d_get e (pref ++ k)) /\ Forall2 (event_part pref) (of_case glue id s) (events t).
(** each element once, in the order of their first occurrences *)
Fixpoint firsts {V} {KV : Key V} (l : list V) : list V := match l with [] => [] | x :: r => x :: filter (fun y => negb (keqb y x)) (firsts r) end.
Definition case_ids {V} (glue : text) (s : list (event V)) : list V := flat_map (fun e => match d_get e glue with Some v => [v] | None => [] end) s.
