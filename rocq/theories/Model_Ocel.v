(** Object-centric event logs: pm4py/objects/ocel/obj.py, objects/ocel/util/filtering_utils.py, flattening.py, explode.py,
    sampling.py, event_prefix_suffix_per_obj.py, algo/filtering/ocel, the filter_ocel functions of pm4py/filtering.py and
    algo/transformation/ocel/graphs.
    Simplifications: a dataframe is the list of its rows; identifiers, activities, object types and attribute values are
    numbers (the order of strings is the order of numbers), timestamps are integers; there are no missing values; a Python
    set of pairs is the list of its members, possibly with repetitions: only membership is used.  None is a KeyError. *)
From Coq Require Import List Arith Bool ZArith.
Import ListNotations.
From Verif Require Import Model_Dict Model_Dfg Model_Graph Model_IM.
Local Open Scope nat_scope.

(** obj.py:37-80: a row of the tables events (one more attribute column), objects, relations, object_changes *)
Record oevent := OEv { oe_id : nat; oe_act : nat; oe_time : Z; oe_att : nat }.
Record oobject := OOb { oo_id : nat; oo_type : nat; oo_att : nat }.
Record orel := ORel { or_event : nat; or_act : nat; or_time : Z; or_object : nat; or_type : nat; or_qual : nat }.
Record ochange := OCh { oc_object : nat; oc_field : nat }.
(** obj.py:68-80: the tables; e2e and o2o are pairs of identifiers (the qualifier is left out) *)
Record ocel := Ocel { o_events : list oevent; o_objects : list oobject; o_rels : list orel;
                      o_e2e : list (nat * nat); o_o2o : list (nat * nat); o_changes : list ochange }.

Definition both (s : list nat) (p : nat * nat) : bool := smem (fst p) s && smem (snd p) s.
(** filtering_utils.py:30-66 propagate_event_filtering *)
Definition propagate_events (o : ocel) : ocel :=
  let evs := map oe_id (o_events o) in
  let rels := filter (fun r => smem (or_event r) evs) (o_rels o) in
  let obs := map or_object rels in
  Ocel (o_events o) (filter (fun x => smem (oo_id x) obs) (o_objects o)) rels
       (filter (both evs) (o_e2e o)) (filter (both obs) (o_o2o o)) (filter (fun c => smem (oc_object c) obs) (o_changes o)).
(** filtering_utils.py:69-105 propagate_object_filtering *)
Definition propagate_objects (o : ocel) : ocel :=
  let obs := map oo_id (o_objects o) in
  let rels := filter (fun r => smem (or_object r) obs) (o_rels o) in
  let evs := map or_event rels in
  Ocel (filter (fun x => smem (oe_id x) evs) (o_events o)) (o_objects o) rels
       (filter (both evs) (o_e2e o)) (filter (both obs) (o_o2o o)) (filter (fun c => smem (oc_object c) obs) (o_changes o)).
(** filtering_utils.py:108-146 propagate_relations_filtering *)
Definition propagate_relations (o : ocel) : ocel :=
  let evs := filter (fun x => smem x (map oe_id (o_events o))) (map or_event (o_rels o)) in
  let obs := filter (fun x => smem x (map oo_id (o_objects o))) (map or_object (o_rels o)) in
  Ocel (filter (fun x => smem (oe_id x) evs) (o_events o)) (filter (fun x => smem (oo_id x) obs) (o_objects o))
       (filter (fun r => smem (or_object r) obs) (filter (fun r => smem (or_event r) evs) (o_rels o)))
       (filter (both evs) (o_e2e o)) (filter (both obs) (o_o2o o)) (filter (fun c => smem (oc_object c) obs) (o_changes o)).

(** ocel = copy(ocel); ocel.events = ocel.events[...] *)
Definition with_events (p : oevent -> bool) (o : ocel) : ocel :=
  Ocel (filter p (o_events o)) (o_objects o) (o_rels o) (o_e2e o) (o_o2o o) (o_changes o).
Definition with_objects (p : oobject -> bool) (o : ocel) : ocel :=
  Ocel (o_events o) (filter p (o_objects o)) (o_rels o) (o_e2e o) (o_o2o o) (o_changes o).
Definition with_rels (p : orel -> bool) (o : ocel) : ocel :=
  Ocel (o_events o) (o_objects o) (filter p (o_rels o)) (o_e2e o) (o_o2o o) (o_changes o).

(** algo/filtering/ocel/event_attributes.py:33-65; [col] is the column *)
Definition filter_event_attribute (col : oevent -> nat) (values : list nat) (positive : bool) (o : ocel) : ocel :=
  propagate_events (with_events (fun e => if positive then smem (col e) values else negb (smem (col e) values)) o).
(** event_attributes.py:68-100 *)
Definition filter_timestamp (lo hi : Z) (o : ocel) : ocel :=
  propagate_events (with_events (fun e => (oe_time e <=? hi)%Z) (with_events (fun e => (lo <=? oe_time e)%Z) o)).
(** filtering.py:1098-1121 filter_ocel_events *)
Definition filter_events (ids : list nat) (positive : bool) (o : ocel) : ocel :=
  propagate_events (with_events (fun e => if positive then smem (oe_id e) ids else negb (smem (oe_id e) ids)) o).
(** util/sampling.py:33-66: the events among the first of a shuffled list of their identifiers *)
Definition sample_events (shuffled : list nat) (num : nat) (o : ocel) : ocel :=
  propagate_events (with_events (fun e => smem (oe_id e) (firstn (Nat.min (length shuffled) num) shuffled)) o).
(** statistics/ocel/objects_ot_count.py:31-61: the types of the objects related to the event, counted *)
Definition ot_counts (o : ocel) (e : nat) : @counter nat := c_of (map or_type (filter (fun r => Nat.eqb (or_event r) e) (o_rels o))).
(** algo/filtering/ocel/objects_ot_count.py:72-91; events without relations are not in num_obj *)
Definition enough (mins : list (nat * nat)) (c : @counter nat) : bool :=
  forallb (fun kv => match d_get c (fst kv) with None => false | Some n => negb (n <? snd kv) end) mins.
Definition filter_per_type_count (mins : list (nat * nat)) (o : ocel) : ocel :=
  let evs := filter (fun e => enough mins (ot_counts o e)) (map or_event (o_rels o)) in
  propagate_events (with_events (fun e => smem (oe_id e) evs) o).
(** groupby(object_id).first()[event_id]: the event of the first row of each object *)
Fixpoint first_per_object (seen : list nat) (rels : list orel) : list nat :=
  match rels with
  | [] => []
  | r :: l => if smem (or_object r) seen then first_per_object seen l else or_event r :: first_per_object (or_object r :: seen) l
  end.
(** ot_endpoints.py:32-66, 69-103 *)
Definition filter_start_events (ot : nat) (o : ocel) : ocel :=
  let evs := first_per_object [] (filter (fun r => Nat.eqb (or_type r) ot) (o_rels o)) in
  propagate_events (with_events (fun e => smem (oe_id e) evs) o).
Definition filter_end_events (ot : nat) (o : ocel) : ocel :=
  let evs := first_per_object [] (rev (filter (fun r => Nat.eqb (or_type r) ot) (o_rels o))) in
  propagate_events (with_events (fun e => smem (oe_id e) evs) o).

(** algo/filtering/ocel/object_attributes.py:30-62; filtering.py:1041-1048 with the type column *)
Definition filter_object_attribute (col : oobject -> nat) (values : list nat) (positive : bool) (o : ocel) : ocel :=
  propagate_objects (with_objects (fun x => if positive then smem (col x) values else negb (smem (col x) values)) o).
(** util/sampling.py:69-105 *)
Definition sample_objects (shuffled : list nat) (num : nat) (o : ocel) : ocel :=
  propagate_objects (with_objects (fun x => smem (oo_id x) (firstn (Nat.min (length shuffled) num) shuffled)) o).
(** ocel.relations.groupby(event_id)[object_id].agg(list): the objects of an event *)
Definition rel_obj (o : ocel) (e : nat) : list nat := map or_object (filter (fun r => Nat.eqb (or_event r) e) (o_rels o)).
(** filtering.py:1073-1081: the graph of filter_ocel_objects *)
Definition neighbours (o : ocel) (x : nat) : list nat :=
  flat_map (fun e => if smem x (rel_obj o e) then filter (fun y => negb (Nat.eqb x y)) (rel_obj o e) else []) (map or_event (o_rels o)).
(** filtering.py:1082-1087: [n] iterations *)
Fixpoint expand (o : ocel) (n : nat) (ids : list nat) : option (list nat) :=
  match n with
  | O => Some ids
  | S n => if forallb (fun x => smem x (map oo_id (o_objects o))) ids then expand o n (ids ++ flat_map (neighbours o) ids) else None
  end.
(** filtering.py:1054-1095 filter_ocel_objects; a relation to an unknown object raises a KeyError if level > 1 *)
Definition filter_objects (ids : list nat) (positive : bool) (level : nat) (o : ocel) : option ocel :=
  if (1 <? level) && negb (forallb (fun r => smem (or_object r) (map oo_id (o_objects o))) (o_rels o)) then None
  else match expand o (level - 1) ids with
       | None => None
       | Some s => Some (propagate_objects (with_objects (fun x => if positive then smem (oo_id x) s else negb (smem (oo_id x) s)) o))
       end.
(** filtering.py:1022-1051 filter_ocel_object_types *)
Definition filter_object_types (types : list nat) (positive : bool) (level : nat) (o : ocel) : option ocel :=
  if Nat.eqb level 1 then Some (filter_object_attribute oo_type types positive o)
  else filter_objects (map oo_id (filter (fun x => smem (oo_type x) types) (o_objects o))) positive level o.

(** object_interaction_graph.py:39-52 *)
Definition less_pairs (l1 l2 : list nat) : list edge := flat_map (fun a => flat_map (fun b => if a <? b then [(a, b)] else []) l2) l1.
Definition interaction_graph (o : ocel) : list edge :=
  flat_map (fun e => less_pairs (rel_obj o e) (rel_obj o e)) (map or_event (o_rels o)).
(** filtering.py:1143-1151: the connected components; [ord] is the order in which the set of edges is iterated over. *)
Section Components.
  Variable ord : list edge -> list edge.
  Definition graph_nodes (E : list edge) : list nat := flat_map (fun ab => [fst ab; snd ab]) E.
  Definition conn_comp (o : ocel) : list (list nat) := let E := ord (interaction_graph o) in connected_components E (graph_nodes E).
  (** filtering.py:1124-1163 filter_ocel_cc_object *)
  Definition cc_object (x : nat) (o : ocel) : option ocel :=
    match find (smem x) (conn_comp o) with
    | Some c => filter_objects c true 1 o
    | None => filter_objects [x] true 1 o
    end.
  (** filtering.py:1166-1198 filter_ocel_cc_length *)
  Definition cc_length (lo hi : nat) (o : ocel) : option ocel :=
    filter_objects (concat (filter (fun c => (lo <=? length c) && (length c <=? hi)) (conn_comp o))) true 1 o.
  Definition touching (s : list nat) (cs : list (list nat)) : list nat := concat (filter (existsb (fun x => smem x s)) cs).
  (** filtering.py:1201-1239 filter_ocel_cc_otype *)
  Definition cc_otype (ot : nat) (positive : bool) (o : ocel) : option ocel :=
    filter_objects (touching (map oo_id (filter (fun x => if positive then Nat.eqb (oo_type x) ot else negb (Nat.eqb (oo_type x) ot)) (o_objects o))) (conn_comp o)) true 1 o.
  (** filtering.py:1242-1277 filter_ocel_cc_activity *)
  Definition cc_activity (a : nat) (o : ocel) : option ocel :=
    let evs := map oe_id (filter (fun e => Nat.eqb (oe_act e) a) (o_events o)) in
    filter_objects (touching (map or_object (filter (fun r => smem (or_event r) evs) (o_rels o))) (conn_comp o)) true 1 o.
End Components.

(** algo/filtering/ocel/activity_type_matching.py:33-82; strings are lists of characters (numbers); [act_name] and
    [type_name] are the names of activities and types; d is the dictionary from types to collections of activities. *)
Section Matching.
  Variables (act_name type_name : nat -> list nat) (sep : list nat).
  Definition joined (a t : nat) : list nat := act_name a ++ sep ++ type_name t.
  Definition smem_str (x : list nat) (l : list (list nat)) : bool := existsb (fun y => if list_eq_dec Nat.eq_dec x y then true else false) l.
  Definition filter_type_activities (d : list (nat * list nat)) (o : ocel) : ocel :=
    let inv := flat_map (fun ta => map (fun a => joined a (fst ta)) (snd ta)) d in
    propagate_relations (with_rels (fun r => smem_str (joined (or_act r) (or_type r)) inv) o).
End Matching.

(** util/flattening.py:33-76: pandas' inner merge keeps the order of the left table and, for one row of it, of the right
    table.  A row of the result: the event, and the object that is the case. *)
Record frow := FRow { fr_case : nat; fr_case_att : nat; fr_event : oevent }.
Definition flatten (ot : nat) (o : ocel) : list frow :=
  let objects := filter (fun x => Nat.eqb (oo_type x) ot) (o_objects o) in
  let rels := filter (fun r => Nat.eqb (or_type r) ot) (o_rels o) in
  let merged := flat_map (fun x => map (fun r => (x, or_event r)) (filter (fun r => Nat.eqb (or_object r) (oo_id x)) rels)) objects in
  flat_map (fun e => map (fun m => FRow (oo_id (fst m)) (oo_att (fst m)) e) (filter (fun m => Nat.eqb (snd m) (oe_id e)) merged)) (o_events o).

(** ev_rel_obj[ev]: KeyError for an event without relations *)
Definition get_rel_obj (o : ocel) (e : nat) : option (list nat) := match rel_obj o e with [] => None | l => Some l end.
(** object_cobirth_graph.py:45-64; [pairs] are the pairs added for an event, given the objects seen before and the new ones *)
Fixpoint life_graph (o : ocel) (pairs : list nat -> list nat -> list edge) (evs : list nat) (seen : list nat) : option (list edge) :=
  match evs with
  | [] => Some []
  | e :: l =>
      match get_rel_obj o e with
      | None => None
      | Some ro =>
          let old := filter (fun x => smem x seen) ro in
          let new := filter (fun x => negb (smem x old)) ro in
          match life_graph o pairs l (seen ++ new) with None => None | Some g => Some (pairs old new ++ g) end
      end
  end.
Definition cobirth_graph (o : ocel) : option (list edge) := life_graph o (fun _ new => less_pairs new new) (map oe_id (o_events o)) [].
(** object_codeath_graph.py:43-64 *)
Definition codeath_graph (o : ocel) : option (list edge) := life_graph o (fun _ new => less_pairs new new) (rev (map oe_id (o_events o))) [].
(** object_descendants_graph.py:45-62 *)
Definition descendants_graph (o : ocel) : option (list edge) := life_graph o (fun old new => list_prod old new) (map oe_id (o_events o)) [].
(** object_inheritance_graph.py:44-62: last_event_per_obj *)
Fixpoint last_events (o : ocel) (evs : list nat) (seen : list nat) (d : dict nat nat) : option (dict nat nat) :=
  match evs with
  | [] => Some d
  | e :: l =>
      match get_rel_obj o e with
      | None => None
      | Some ro =>
          let old := filter (fun x => smem x seen) ro in
          let new := filter (fun x => negb (smem x old)) ro in
          last_events o l (seen ++ new) (fold_left (fun d x => d_set d x e) new d)
      end
  end.
(** object_inheritance_graph.py:64-75 *)
Fixpoint inherit (o : ocel) (last : dict nat nat) (evs : list nat) (seen : list nat) : option (list edge) :=
  match evs with
  | [] => Some []
  | e :: l =>
      match get_rel_obj o e with
      | None => None
      | Some ro =>
          let old := filter (fun x => smem x seen) ro in
          let new := filter (fun x => negb (smem x old)) ro in
          let lst := filter (fun x => match d_get last x with Some e' => Nat.eqb e' e | None => false end) ro in
          match inherit o last l (seen ++ new) with
          | None => None
          | Some g => Some (flat_map (fun o2 => flat_map (fun o1 => if Nat.eqb o1 o2 then [] else [(o1, o2)]) lst) new ++ g)
          end
      end
  end.
Definition mem_edge (x : edge) (g : list edge) : bool := existsb (fun y => Nat.eqb (fst x) (fst y) && Nat.eqb (snd x) (snd y)) g.
(** object_inheritance_graph.py:77-83: both directions of an edge are removed (the set has no loops) *)
Definition inheritance_graph (o : ocel) : option (list edge) :=
  let evs := map oe_id (o_events o) in
  match last_events o (rev evs) [] [] with
  | None => None
  | Some last => match inherit o last evs [] with
                 | None => None
                 | Some g => Some (filter (fun ab => negb (mem_edge (snd ab, fst ab) g)) g)
                 end
  end.
