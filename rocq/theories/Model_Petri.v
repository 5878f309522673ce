(** Model of markings, Petri nets and their semantics.
    Modelled files: pm4py/objects/petri_net/obj.py, semantics.py,
    inhibitor_reset/semantics.py, utils/petri_utils.py, utils/incidence_matrix.py,
    utils/reachability_graph.py.

    Simplifications (global to this file)
    - Places and transitions are Python objects compared by identity; here they are
      natural numbers ([place], field [t_id]).
    - A Python set of arcs/transitions is a list; its order is arbitrary and every
      theorem quantifies over it.
    - A [Marking] (collections.Counter) is a finite map from places to integers that
      keeps the difference between "key absent" and "key present with value 0". *)
From stdpp Require Import gmap.
From Coq Require Import ZArith.
Local Open Scope Z_scope.

Notation place := nat (only parsing).

(** obj.py:22 [class Marking(Counter)]. *)
Notation marking := (gmap nat Z).

(** Counter.__getitem__/__missing__: a missing key reads as 0. *)
Definition mget (m : marking) (p : place) : Z := default 0 (m !! p).

(** obj.py:28-34 [Marking.__eq__]: same key set and same values: map equality. *)
Definition m_eqb (m n : marking) : bool := bool_decide (m = n).

(** obj.py:36-42 [Marking.__le__]: keys included and values bounded, key by key. *)
Definition m_leb (m n : marking) : bool :=
  forallb (fun kv => match n !! kv.1 with
                     | None => false
                     | Some v => negb (v <? kv.2)
                     end) (map_to_list m).

(** obj.py:46-47: [m[p[0]] = p[1]] for all items: copies the map, so [self] itself.
    obj.py:44-50 [Marking.__add__]. *)
Definition m_add_item (m : marking) (kv : nat * Z) : marking :=
  <[kv.1 := mget m kv.1 + kv.2]> m.
Definition m_add (m n : marking) : marking := fold_left m_add_item (map_to_list n) m.

(** obj.py:52-60 [Marking.__sub__]. *)
Definition m_sub_item (m : marking) (kv : nat * Z) : marking :=
  let v := mget m kv.1 - kv.2 in
  if v =? 0 then delete kv.1 m else <[kv.1 := v]> m.
Definition m_sub (m n : marking) : marking := fold_left m_sub_item (map_to_list n) m.

(** obj.py [PetriNet.Transition] with its [in_arcs]/[out_arcs]; an arc is the pair
    (place, weight).  [L] is the type of labels ([option nat] for ordinary nets, [None]
    being the silent label). *)
Record transition (L : Type) := Trans {
  t_id : nat;
  t_label : L;
  t_in : list (nat * Z);
  t_out : list (nat * Z)
}.
Arguments Trans {L}. Arguments t_id {L}. Arguments t_label {L}.
Arguments t_in {L}. Arguments t_out {L}.

(** obj.py [PetriNet]: the places and the transitions (arcs are kept in the transitions). *)
Record petri_net (L : Type) := Net { n_places : list nat; n_trans : list (transition L) }.
Arguments Net {L}. Arguments n_places {L}. Arguments n_trans {L}.

Section Sem.
  Context {L : Type}.
  Implicit Types (t : transition L) (pn : petri_net L) (m : marking).

  (** [t in pn.transitions]: membership by identity. *)
  Definition trans_in t pn : bool := existsb (fun u => Nat.eqb (t_id u) (t_id t)) (n_trans pn).

  (** semantics.py:138-145 [is_enabled] (and 29-49 [PetriNetSemantics.is_enabled]). *)
  Definition is_enabled t pn m : bool :=
    if negb (trans_in t pn) then false
    else forallb (fun a => negb (mget m a.1 <? a.2)) (t_in t).

  (** semantics.py:153-156: consume along one input arc, deleting a key that becomes 0. *)
  Definition consume m (a : nat * Z) : marking :=
    let v := mget m a.1 - a.2 in
    if v =? 0 then delete a.1 m else <[a.1 := v]> m.

  (** semantics.py:158-159: produce along one output arc. *)
  Definition produce m (a : nat * Z) : marking := <[a.1 := mget m a.1 + a.2]> m.

  (** semantics.py:148-161 [execute]. *)
  Definition execute t pn m : option marking :=
    if negb (is_enabled t pn m) then None
    else Some (fold_left produce (t_out t) (fold_left consume (t_in t) m)).

  (** semantics.py:167-169: consume in [weak_execute], deleting keys that become <= 0. *)
  Definition weak_consume m (a : nat * Z) : marking :=
    let v := mget m a.1 - a.2 in
    if v <=? 0 then delete a.1 m else <[a.1 := v]> m.

  (** semantics.py:164-172 [weak_execute]. *)
  Definition weak_execute t m : marking :=
    fold_left produce (t_out t) (fold_left weak_consume (t_in t) m).

  (** semantics.py:175-180 [enabled_transitions]. *)
  Definition enabled_transitions pn m : list (transition L) :=
    List.filter (fun t => is_enabled t pn m) (n_trans pn).

  (** semantics.py:52-72 [PetriNetSemantics.fire]: no check and no deletion of zero keys. *)
  Definition fire_consume m (a : nat * Z) : marking := <[a.1 := mget m a.1 - a.2]> m.
  Definition fire t m : marking :=
    fold_left produce (t_out t) (fold_left fire_consume (t_in t) m).

  (** Repeated [execute] (what a user of the API does to replay a sequence). *)
  Fixpoint execute_seq pn (ts : list (transition L)) m : option marking :=
    match ts with
    | [] => Some m
    | t :: ts' => match execute t pn m with
                  | None => None
                  | Some m' => execute_seq pn ts' m'
                  end
    end.
End Sem.

(** petri_utils.py:30-36 [is_sub_marking]. *)
Definition is_sub_marking (sub m : marking) : bool :=
  forallb (fun kv => match m !! kv.1 with
                     | None => false
                     | Some v => negb (v >? kv.2)
                     end) (map_to_list sub).

(** incidence_matrix.py:37-53: entry of row [p], column [t]: the number of arcs t->p minus the
    number of arcs p->t (weights are not used by the code).
    Simplification: entries are indexed by the objects instead of by their sorted positions;
    [p_index]/[t_index] are injective. *)
Definition count_arcs (p : nat) (arcs : list (nat * Z)) : Z :=
  Z.of_nat (length (List.filter (fun a : nat * Z => Nat.eqb a.1 p) arcs)).
Definition incidence {L} (t : transition L) (p : nat) : Z :=
  count_arcs p (t_out t) - count_arcs p (t_in t).

(** ---- Inhibitor / reset nets ---- *)
(** obj.py [ResetNet.ResetArc], [InhibitorNet.InhibitorArc], ordinary arcs. *)
Inductive arc_kind := Normal | Inhibitor | Reset.
Record ir_transition := IRTrans {
  ir_id : nat;
  ir_in : list (nat * Z * arc_kind);
  ir_out : list (nat * Z)
}.
Definition ir_net := list ir_transition.

(** inhibitor_reset/semantics.py:92-104 [is_enabled]. *)
Definition ir_is_enabled (t : ir_transition) (pn : ir_net) (m : marking) : bool :=
  if negb (existsb (fun u => Nat.eqb (ir_id u) (ir_id t)) pn) then false
  else forallb (fun a => match a with
                         | (p, w, Inhibitor) => negb (mget m p >? 0)
                         | (p, w, Reset) => true
                         | (p, w, Normal) => negb (mget m p <? w)
                         end) (ir_in t).

(** inhibitor_reset/semantics.py:112-121. *)
Definition ir_consume (m : marking) (a : nat * Z * arc_kind) : marking :=
  match a with
  | (p, w, Reset) => delete p m
  | (p, w, Inhibitor) => m
  | (p, w, Normal) => let v := mget m p - w in
                      if v =? 0 then delete p m else <[p := v]> m
  end.

(** inhibitor_reset/semantics.py:107-126 [execute]. *)
Definition ir_execute (t : ir_transition) (pn : ir_net) (m : marking) : option marking :=
  if negb (ir_is_enabled t pn m) then None
  else Some (fold_left produce (ir_out t) (fold_left ir_consume (ir_in t) m)).

(** ---- Trace nets ---- *)
(** petri_utils.py:198-228 [construct_trace_net]: places p_0..p_n are 0..n, transition i goes
    from place i to place i+1 and carries the i-th activity. [i] is the loop counter. *)
Fixpoint trace_net_trans (i : nat) (trace : list nat) : list (transition (option nat)) :=
  match trace with
  | [] => []
  | a :: tr => Trans i (Some a) [(i, 1)] [(S i, 1)] :: trace_net_trans (S i) tr
  end.
Definition construct_trace_net (trace : list nat) : petri_net (option nat) * marking * marking :=
  (Net (seq 0 (S (length trace))) (trace_net_trans 0 trace),
   {[ 0%nat := 1 ]}, {[ length trace := 1 ]}).

(** ---- Reachability graph ---- *)
(** reachability_graph.py:73-96 [marking_flow_petri]: state of the loop.
    [rs_inc] = keys of [incoming_transitions] in insertion order, [rs_out] =
    [outgoing_transitions] as a list of (marking, transition, next marking),
    [rs_active] = the stack [active] (top first).
    Simplifications: the transition sets stored in [incoming_transitions] and the optional
    [eventually_enabled] are dropped; the wall-clock check is the fuel of [flow_loop]. *)
Record flow_state (L : Type) := Flow {
  rs_inc : list marking;
  rs_out : list (marking * transition L * marking);
  rs_active : list marking
}.
Arguments Flow {L}. Arguments rs_inc {L}. Arguments rs_out {L}. Arguments rs_active {L}.

(** reachability_graph.py:87-94: body of the inner loop for one enabled transition. *)
Definition flow_visit {L} (m : marking) (st : flow_state L) (t : transition L) : flow_state L :=
  let nm := weak_execute t m in
  let out := rs_out st ++ [(m, t, nm)] in
  if bool_decide (nm ∈ rs_inc st) then Flow (rs_inc st) out (rs_active st)
  else if bool_decide (nm ∈ rs_active st) then Flow (rs_inc st ++ [nm]) out (rs_active st)
  else Flow (rs_inc st ++ [nm]) out (nm :: rs_active st).

(** reachability_graph.py:78-94: the while loop; [None] = interrupted. *)
Fixpoint flow_loop {L} (fuel : nat) (pn : petri_net L) (st : flow_state L) : option (flow_state L) :=
  match rs_active st with
  | [] => Some st
  | m :: rest =>
      match fuel with
      | O => None
      | S fuel' =>
          flow_loop fuel' pn
            (fold_left (flow_visit m) (enabled_transitions pn m)
                       (Flow (rs_inc st) (rs_out st) rest))
      end
  end.

(** reachability_graph.py:51-96, 99-136: states = keys of incoming_transitions,
    edges = outgoing_transitions. *)
Definition reachability_graph {L} (fuel : nat) (pn : petri_net L) (im : marking)
  : option (list marking * list (marking * transition L * marking)) :=
  match flow_loop fuel pn (Flow [im] [] [im]) with
  | None => None
  | Some st => Some (rs_inc st, rs_out st)
  end.
