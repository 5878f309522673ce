(** Model of the conversions between event logs, event streams and dataframes: objects/conversion/log/variants/to_event_log.py (tl), to_event_stream.py (ts),
    to_data_frame.py (td).

    Simplifications: attribute values have decidable equality and none of them is a missing value (NaN, NaT, None); pandas keeps the values as they are (the code: types
    of columns may change); log-level attributes, which are handed over unchanged, and the compression of equal values are left out. *)
From Coq Require Import List Arith Bool Ascii.
From Verif Require Import Model_Dict Model_DfgFile.
Import ListNotations.

Definition text := list ascii.
Definition event (V : Type) := dict text V.
Record trace (V : Type) := Trace { attributes : dict text V; events : list (event V) }.
Arguments Trace {V}. Arguments attributes {V}. Arguments events {V}.

(** str.startswith *)
Fixpoint starts (pat s : text) : bool := match pat, s with [] , _ => true | c :: p, d :: r => Ascii.eqb c d && starts p r | _, [] => false end.
(** str.replace(pat, ''), for a non-empty [pat]: after an occurrence, its length minus one characters are skipped *)
Fixpoint remove_all (pat : text) (skip : nat) (s : text) : text :=
  match s with
  | [] => []
  | c :: r => match skip with S k => remove_all pat k r | O => if starts pat s then remove_all pat (length pat - 1) r else c :: remove_all pat 0 r end
  end.

Section Conv.
  Context {V : Type} {KV : Key V}.
  (** tl 86-93: the attributes of the trace created for the first event of a case; [name]: concept:name *)
  Definition case_attributes (pref name : text) (id : V) (e : event V) : dict text V :=
    let a := fold_left (fun d kv => if starts pref (fst kv) then d_set d (remove_all pref 0 (fst kv)) (snd kv) else d) e [] in
    if d_mem a name then a else d_set a name id.
  (** tl 96-99 *)
  Definition without_case (pref : text) (e : event V) : event V := filter (fun kv => negb (starts pref (fst kv))) e.
  (** tl 81-101: one event of the stream *)
  Definition add_event (pref glue name : text) (traces : dict V (trace V)) (e : event V) : option (dict V (trace V)) :=
    match d_get e glue with
    | None => None (* KeyError *)
    | Some id =>
      let t := match d_get traces id with Some t => t | None => Trace (case_attributes pref name id e) [] end in
      Some (d_set traces id (Trace (attributes t) (events t ++ [without_case pref e])))
    end.
  Fixpoint add_events (pref glue name : text) (traces : dict V (trace V)) (s : list (event V)) : option (dict V (trace V)) :=
    match s with [] => Some traces | e :: r => match add_event pref glue name traces e with Some d => add_events pref glue name d r | None => None end end.
  (** tl 58-104 *)
  Definition to_event_log (pref glue name : text) (s : list (event V)) : option (list (trace V)) :=
    match add_events pref glue name [] s with Some d => Some (d_values d) | None => None end.

  (** ts 281-285: one event; [idx]: str(index) of the trace *)
  Definition new_event (pref glue : text) (include : bool) (idx : V) (a : dict text V) (e : event V) : event V :=
    if include then fold_left (fun d kv => d_set d (pref ++ fst kv) (snd kv)) a e else d_set e glue idx.
  (** ts 256-287: the stream, and the log after the conversion: without deep copy its events are the ones that are extended *)
  Definition to_event_stream (pref glue : text) (include deep : bool) (str : nat -> V) (log : list (trace V)) : list (event V) * list (trace V) :=
    let extended := map (fun it => Trace (attributes (snd it)) (map (new_event pref glue include (str (fst it)) (attributes (snd it))) (events (snd it)))) (combine (seq 0 (length log)) log) in
    (flat_map events extended, if deep then log else extended).

  (** td 63-65, pandas.DataFrame of a list of dicts: the columns in order of appearance; a missing attribute is a missing value *)
  Record dataframe := DataFrame { columns : list text; rows : list (list (option V)) }.
  Definition to_dataframe (s : list (event V)) : dataframe :=
    let c := dedup (flat_map d_keys s) in DataFrame c (map (fun e => map (d_get e) c) s).
  (** ts 188-193, 36-63: the records of a dataframe; with the post-processing missing values are dropped, without it they stay as attributes with the value [nan] *)
  Definition record_of (post : bool) (nan : V) (c : list text) (r : list (option V)) : event V :=
    flat_map (fun x => match snd x with Some v => [(fst x, v)] | None => if post then [] else [(fst x, nan)] end) (combine c r).
  Definition dataframe_to_stream (post : bool) (nan : V) (df : dataframe) : list (event V) := map (record_of post nan (columns df)) (rows df).
  (** td 55-65: a log goes through the stream, without deep copy *)
  Definition log_to_dataframe (pref glue : text) (str : nat -> V) (log : list (trace V)) : dataframe * list (trace V) :=
    let r := to_event_stream pref glue true false str log in (to_dataframe (fst r), snd r).
End Conv.
Arguments dataframe : clear implicits.
