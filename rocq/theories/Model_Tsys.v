(** Discovery of transition systems from views of the traces (pm4py.discover_transition_system):
    pm4py/algo/discovery/transition_system/variants/view_based.py. *)
From Coq Require Import List Arith Bool.
Import ListNotations.
From Verif Require Import Model_Dict Model_Dfg Model_Graph.

Inductive view_kind := Sequence | Multiset | Set_.
Inductive direction := Forward | Backward.

(** view_based.py:115-126 __apply_abstr: the name of a state is the list, the Counter or the set of the window.  A name is represented
    by the window; names are compared as lists, as Counters or as sets. *)
Definition same_name (k : view_kind) (u v : trace) : bool :=
  match k with
  | Sequence => list_eqb u v
  | Multiset => forallb (fun a => Nat.eqb (c_get (c_of u) a) (c_get (c_of v) a)) (u ++ v)
  | Set_ => forallb (fun a => smem a v) u && forallb (fun a => smem a u) v
  end.
(** view_based.py:98-112 __compute_view_sequence: trace[i:i+window] forward, trace[max(0,i-window):i] backward *)
Definition window (d : direction) (w : nat) (t : trace) (i : nat) : trace :=
  match d with
  | Forward => firstn w (skipn i t)
  | Backward => skipn (i - w) (firstn i t)
  end.
(** The steps (name of the source, activity, name of the target) of a trace; the last entry of the view sequence, with activity None,
    is the target of the last step only (view_based.py:72-73) *)
Definition steps (d : direction) (w : nat) (t : trace) : list (trace * nat * trace) :=
  map (fun ia => (window d w t (fst ia), snd ia, window d w t (S (fst ia)))) (combine (seq 0 (length t)) t).

(** objects/transition_system/obj.py: states and transitions are objects compared by identity.  A state is (identity, name);
    a transition is (name, source, target) with the identities of the states. *)
Record tsys := Tsys { ts_states : list (nat * trace); ts_trans : list (nat * nat * nat) }.
Definition trans_eqb (x y : nat * nat * nat) : bool := keqb x y.
Section Build.
  (** the order in which Python iterates over the set of states *)
  Variable ord : list (nat * trace) -> list (nat * trace).
  Variable kind : view_kind.
  (** view_based.py:74: {'state': s for s in states if s.name == name}: the last state with the name, if any *)
  Definition lookup (ts : tsys) (name : trace) : option nat :=
    match rev (filter (fun s => same_name kind (snd s) name) (ord (ts_states ts))) with s :: _ => Some (fst s) | [] => None end.
  (** view_based.py:72-95 __construct_state_path, one step (include_data is not modelled); the identity of a new state is the number of
      states created before *)
  Definition add_step (ts : tsys) (st : trace * nat * trace) : tsys :=
    let '(v1, a, v2) := st in
    let n := length (ts_states ts) in
    let (sf, new1) := match lookup ts v1 with Some s => (s, []) | None => (n, [(n, v1)]) end in
    let (st, new2) := match lookup ts v2 with Some s => (s, []) | None => (n + length new1, [(n + length new1, v2)]) end in
    Tsys (ts_states ts ++ new1 ++ new2) (if existsb (keqb (a, sf, st)) (ts_trans ts) then ts_trans ts else ts_trans ts ++ [(a, sf, st)]).
  (** view_based.py:50-69 apply *)
  Definition discover (d : direction) (w : nat) (l : log) : tsys := fold_left add_step (flat_map (steps d w) l) (Tsys [] []).
End Build.
