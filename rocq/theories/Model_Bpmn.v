(** Model of the conversion of BPMN diagrams to Petri nets,
    pm4py/objects/conversion/bpmn/variants/to_petri_net.py (tp), with the default use_id = False.

    Simplifications: nodes and sequence flows carry a number as identity (their id in the code); the sets of nodes and flows are lists, in any order; flows that are not sequence flows are left out, as the code does; inclusive gateways
    are not modelled (so the branch tp 234-252 that adds transitions between them is not either).  Transitions get their position as identity (uuid4 or
    names with the id in the code). *)
From Coq Require Import List Arith Bool ZArith.
Import ListNotations.
From Verif Require Import Model_Petri Model_Tree Model_TreeNet.

(** objects/bpmn/obj.py: the classes of nodes.  [Task None]: a task without name. [Other]: subprocesses, intermediate events, ..., which the conversion leaves out *)
Inductive kind := Task (name : option nat) | StartEvent | EndEvent | ExclusiveGateway | ParallelGateway | Other.
(** nodes with identity and kind, sequence flows with identity, source and target *)
Record diagram := Bpmn { b_nodes : list (nat * kind); b_flows : list (nat * (nat * nat)) }.

(** tp 94-105, 136-139, 120: the places *)
Definition source_place : nat := 0.
Definition sink_place : nat := 1.
Definition flow_place (f : nat) : nat := 2 + 3 * f.
Definition entry_place (n : nat) : nat := 3 + 3 * n.
Definition exiting_place (n : nat) : nat := 4 + 3 * n.

(** tp 112-123: source_count, target_count *)
Definition source_count (d : diagram) (n : nat) : nat := length (filter (fun f => Nat.eqb (fst (snd f)) n) (b_flows d)).
Definition target_count (d : diagram) (n : nat) : nat := length (filter (fun f => Nat.eqb (snd (snd f)) n) (b_flows d)).
Definition kind_of (d : diagram) (n : nat) : kind := match find (fun x => Nat.eqb (fst x) n) (b_nodes d) with Some x => snd x | None => Other end.
(** tp 149-151: the node is converted *)
Definition handled (k : kind) : bool := match k with Other => false | _ => true end.
(** tp 160-162 *)
Definition label_of (k : kind) : option nat := match k with Task name => name | _ => None end.
(** tp 168-184: nodes_exiting (nodes_entering) is a transition and not a place *)
Definition splits (d : diagram) (n : nat) : bool := match kind_of d n with ParallelGateway => 1 <? source_count d n | _ => false end.
Definition joins (d : diagram) (n : nat) : bool := match kind_of d n with ParallelGateway => 1 <? target_count d n | _ => false end.

(** tp 213: both ends have been converted *)
Definition connected (d : diagram) (f : nat * nat) : bool := handled (kind_of d (fst f)) && handled (kind_of d (snd f)).
(** tp 215-231: the places of the connected flows that leave (enter) a node *)
Definition out_places (d : diagram) (n : nat) : list nat := map (fun f => flow_place (fst f)) (filter (fun f => Nat.eqb (fst (snd f)) n && connected d (snd f)) (b_flows d)).
Definition in_places (d : diagram) (n : nat) : list nat := map (fun f => flow_place (fst f)) (filter (fun f => Nat.eqb (snd (snd f)) n && connected d (snd f)) (b_flows d)).

(** label, input places, output places *)
Definition step_of := (option nat * list nat * list nat)%type.
(** tp 146-204: the transitions of a node *)
Definition node_transitions (d : diagram) (n : nat) (k : kind) : list step_of :=
  if handled k then
    (label_of k, [entry_place n], [exiting_place n]) ::
    (if splits d n then [(None, [exiting_place n], out_places d n)] else []) ++
    (if joins d n then [(None, in_places d n, [entry_place n])] else []) ++
    match k with
    | StartEvent => [(None, [source_place], [entry_place n])]
    | EndEvent => [(None, [exiting_place n], [sink_place])]
    | _ => []
    end
  else [].
(** tp 206-231: the transitions of a flow, next to nodes whose end is a place *)
Definition flow_transitions (d : diagram) (i : nat) (f : nat * nat) : list step_of :=
  if connected d f then
    (if splits d (fst f) then [] else [(None, [exiting_place (fst f)], [flow_place i])]) ++
    (if joins d (snd f) then [] else [(None, [flow_place i], [entry_place (snd f)])])
  else [].
Definition all_transitions (d : diagram) : list step_of :=
  flat_map (fun x => node_transitions d (fst x) (snd x)) (b_nodes d) ++ flat_map (fun x => flow_transitions d (fst x) (snd x)) (b_flows d).
Definition enum {X} (l : list X) : list (nat * X) := combine (seq 0 (length l)) l.
Definition number (l : list step_of) : list (transition (option nat)) := map (fun x => let '(i, (l, a, b)) := x in mk_trans i l a b) (enum l).
(** tp 94-232: the net without reduction (enable_reduction = False or return_flow_trans_map = True), before the removal of isolated places *)
Definition raw_net (d : diagram) : petri_net (option nat) :=
  Net (source_place :: sink_place :: map (fun f => flow_place (fst f)) (b_flows d) ++
       flat_map (fun x => if handled (snd x) then [entry_place (fst x); exiting_place (fst x)] else []) (b_nodes d))
      (number (all_transitions d)).
(** tp 257-259: places without arcs are removed, except those of the initial and final marking *)
Definition isolated (pn : petri_net (option nat)) (p : nat) : bool := Nat.eqb (in_arcs pn p) 0 && Nat.eqb (out_arcs pn p) 0.
Definition tidy (pn : petri_net (option nat)) : petri_net (option nat) :=
  Net (filter (fun p => negb (isolated pn p) || Nat.eqb p source_place || Nat.eqb p sink_place) (n_places pn)) (n_trans pn).
(** tp 53-264 [apply]: with and without reduction; the initial (final) marking has one token in [source_place] ([sink_place]) *)
Definition to_petri_net (enable_reduction : bool) (d : diagram) (pn : petri_net (option nat)) : Prop :=
  if enable_reduction then exists pn1, simple_reduction (raw_net d) pn1 /\ pn = tidy pn1 else pn = tidy (raw_net d).
