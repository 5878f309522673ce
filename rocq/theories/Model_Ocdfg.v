(** Object-centric directly-follows graphs (pm4py.discover_ocdfg): pm4py/algo/discovery/ocel/ocdfg/variants/classic.py and
    pm4py/statistics/ocel/{edge_metrics,act_utils,act_ot_dependent}.py.
    Simplifications: the tables of Model_Ocel; a dictionary of dictionaries is a dictionary on pairs of keys; the keys of a pandas groupby
    are in order of first occurrence instead of sorted; a Python set is the list of its distinct elements; no business hours.  [None] is a
    KeyError. *)
From Coq Require Import List Arith Bool ZArith.
Import ListNotations.
From Verif Require Import Model_Lev Model_Dict Model_Dfg Model_Graph Model_IM Model_Ocel.
Local Open Scope nat_scope.

Definition triple := (nat * nat * nat)%type.
Definition oedges := dict (nat * (nat * nat)) (list triple).
Definition e_get (d : oedges) (k : nat * (nat * nat)) : list triple := match d_get d k with Some l => l | None => [] end.
(** edge_metrics.py:215-216, 219-220: the activity of an event, the type of an object *)
Definition act_of (o : ocel) (e : nat) : option nat := option_map oe_act (find (fun x => Nat.eqb (oe_id x) e) (o_events o)).
Definition type_of (o : ocel) (b : nat) : option nat := option_map oo_type (find (fun x => Nat.eqb (oo_id x) b) (o_objects o)).
Definition ed_state := option (dict nat nat * oedges).
(** edge_metrics.py:227-237: one object of an event *)
Definition ed_obj (o : ocel) (st : ed_state) (eb : nat * nat) : ed_state :=
  match st with
  | None => None
  | Some (h, d) =>
    match d_get h (snd eb) with
    | None => Some (d_set h (snd eb) (fst eb), d)
    | Some prev =>
      match type_of o (snd eb), act_of o prev, act_of o (fst eb) with
      | Some ot, Some a1, Some a2 => Some (d_set h (snd eb) (fst eb), d_set d (ot, (a1, a2)) (e_get d (ot, (a1, a2)) ++ [(prev, fst eb, snd eb)]))
      | _, _, _ => None
      end
    end
  end.
(** edge_metrics.py:184-239 find_associations_per_edge *)
Definition find_edges (o : ocel) : option oedges :=
  option_map snd (fold_left (fun st e => fold_left (ed_obj o) (map (fun b => (oe_id e, b)) (rel_obj o (oe_id e))) st) (o_events o) (Some ([], []))).
(** edge_metrics.py:112-181: the aggregations of one edge *)
Definition event_couples (l : list triple) : list (nat * nat) := dedup (map (fun x => (fst (fst x), snd (fst x))) l).
Definition edge_objects (l : list triple) : list nat := dedup (map snd l).
Definition edge_total (l : list triple) : list triple := dedup l.
(** edge_metrics.py:38-109 performance_calculation_ocel_aggregation, of one edge; [l]: its pairs of events *)
Definition time_of (o : ocel) (e : nat) : option Z := option_map oe_time (find (fun x => Nat.eqb (oe_id x) e) (o_events o)).
Fixpoint map_option {A B} (f : A -> option B) (l : list A) : option (list B) :=
  match l with
  | [] => Some []
  | x :: r => match f x, map_option f r with Some y, Some s => Some (y :: s) | _, _ => None end
  end.
Definition edge_times (o : ocel) (l : list (nat * nat)) : option (list Z) :=
  option_map (sorted_by (fun z => z)) (map_option (fun ee => match time_of o (fst ee), time_of o (snd ee) with Some s, Some t => Some (t - s)%Z | _, _ => None end) l).

(** act_utils.py:96-99: groupby(object_id).first(); .last() is the first row in the reversed table *)
Fixpoint first_rows (seen : list nat) (rels : list orel) : list orel :=
  match rels with
  | [] => []
  | r :: l => if smem (or_object r) seen then first_rows seen l else r :: first_rows (or_object r :: seen) l
  end.
(** act_utils.py:100-109: groupby(event_activity)[[event_id, object_id]].agg(list) *)
Definition associations (rels : list orel) : dict nat (list (nat * nat)) :=
  map (fun a => (a, map (fun r => (or_event r, or_object r)) (filter (fun r => Nat.eqb (or_act r) a) rels))) (dedup (map or_act rels)).
(** act_utils.py:112-145; act_ot_dependent.py:72-104 for one object type; classic.py:78-85 *)
Definition activities_indep (o : ocel) : dict nat (list (nat * nat)) := associations (o_rels o).
Definition of_type (ot : nat) (o : ocel) : list orel := filter (fun r => Nat.eqb (or_type r) ot) (o_rels o).
Definition activities_ot (ot : nat) (o : ocel) : dict nat (list (nat * nat)) := associations (of_type ot o).
Definition start_activities (ot : nat) (o : ocel) : dict nat (list (nat * nat)) := associations (first_rows [] (of_type ot o)).
Definition end_activities (ot : nat) (o : ocel) : dict nat (list (nat * nat)) := associations (first_rows [] (rev (of_type ot o))).
(** act_utils.py:34-55, act_ot_dependent.py:30-61 *)
Definition assoc_events (l : list (nat * nat)) : list nat := dedup (map fst l).
Definition assoc_objects (l : list (nat * nat)) : list nat := dedup (map snd l).
