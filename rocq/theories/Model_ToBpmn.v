(** Model of the conversion of accepting Petri nets to BPMN diagrams, objects/conversion/wf_net/variants/to_bpmn.py (tb), and of the
    reduction of exclusive gateways, objects/bpmn/util/reduction.py (br).

    Simplifications: the nodes of the diagram get a name that says what they were made for, coded as a number (uuid in the code); flows are numbered;
    sets are lists.  The names and directions of gateways are left out. *)
From Coq Require Import List Arith Bool ZArith.
Import ListNotations.
From Verif Require Import Model_Petri Model_Tree Model_TreeNet Model_Bpmn.

(** NPlace: gateway of a place; NIn, NOut: entering and exiting gateway of a transition; NTask: its task *)
Inductive name := NPlace (p : nat) | NIn (x : nat) | NOut (x : nat) | NTask (x : nat) | NStart | NEnd.
Definition code (n : name) : nat :=
  match n with NPlace p => 5 * p | NIn x => 5 * x + 1 | NOut x => 5 * x + 2 | NTask x => 5 * x + 3 | NStart => 4 | NEnd => 9 end.

Definition several {X} (l : list X) : bool := 1 <? length l.
Definition gateway (many : bool) : kind := if many then ParallelGateway else ExclusiveGateway.
(** tb 45-79: the nodes of a transition *)
Definition trans_nodes (t : transition (option nat)) : list (name * kind) :=
  match t_label t with
  | None => [(NIn (t_id t), gateway (several (t_in t) || several (t_out t)))]
  | Some a => [(NIn (t_id t), gateway (several (t_in t))); (NOut (t_id t), gateway (several (t_out t))); (NTask (t_id t), Task (Some a))]
  end.
(** tb 56-57, 77-78: exiting_dictio *)
Definition exit_name (t : transition (option nat)) : name := match t_label t with None => NIn (t_id t) | Some _ => NOut (t_id t) end.
(** tb 74-75: the flows from the entering gateway to the task and from the task to the exiting gateway *)
Definition task_flows (t : transition (option nat)) : list (name * name) :=
  match t_label t with None => [] | Some _ => [(NIn (t_id t), NTask (t_id t)); (NTask (t_id t), NOut (t_id t))] end.
(** tb 80-81: one flow per arc *)
Definition arc_flows (t : transition (option nat)) : list (name * name) :=
  map (fun a => (NPlace (fst a), NIn (t_id t))) (t_in t) ++ map (fun a => (exit_name t, NPlace (fst a))) (t_out t).
(** tb 39-90: the diagram before the reduction; [im], [fm]: the places of the markings *)
Definition named_nodes (net : petri_net (option nat)) : list (name * kind) :=
  map (fun p => (NPlace p, ExclusiveGateway)) (n_places net) ++ flat_map trans_nodes (n_trans net) ++ [(NStart, StartEvent); (NEnd, EndEvent)].
Definition named_flows (net : petri_net (option nat)) (im fm : list nat) : list (name * name) :=
  flat_map task_flows (n_trans net) ++ flat_map arc_flows (n_trans net) ++ map (fun p => (NStart, NPlace p)) im ++ map (fun p => (NPlace p, NEnd)) fm.
Definition raw_diagram (net : petri_net (option nat)) (im fm : list nat) : diagram :=
  Bpmn (map (fun x => (code (fst x), snd x)) (named_nodes net)) (enum (map (fun x => (code (fst x), code (snd x))) (named_flows net im fm))).

(** br 56-75: an exclusive gateway with one incoming and one outgoing flow *)
Definition ins_of (d : diagram) (n : nat) := filter (fun f => Nat.eqb (snd (snd f)) n) (b_flows d).
Definition outs_of (d : diagram) (n : nat) := filter (fun f => Nat.eqb (fst (snd f)) n) (b_flows d).
Definition superfluous_gateway (d : diagram) (g : nat) : Prop := In (g, ExclusiveGateway) (b_nodes d) /\ length (ins_of d g) = 1 /\ length (outs_of d g) = 1.
(** br 58-75: one round; the gateway and its two flows are replaced by a new flow *)
Definition xor_step (d d' : diagram) : Prop :=
  exists g f1 f2 a b f, superfluous_gateway d g /\ ins_of d g = [(f1, (a, g))] /\ outs_of d g = [(f2, (g, b))] /\ f1 <> f2 /\ ~ In f (map fst (b_flows d)) /\
    d' = Bpmn (filter (fun x => negb (Nat.eqb (fst x) g)) (b_nodes d)) (filter (fun x => negb (Nat.eqb (fst x) f1) && negb (Nat.eqb (fst x) f2)) (b_flows d) ++ [(f, (a, b))]).
(** br 20-77 [reduce_xor_gateways].  If the two flows of a gateway are one (a flow from the gateway to itself), the round removes the gateway, and
    adding the new flow adds the gateway again: the loop does not end. So a result has no superfluous gateway left, and the rounds before were all of the kind [xor_step]. *)
Definition reduce_xor (d d' : diagram) : Prop := star xor_step d d' /\ forall g, ~ superfluous_gateway d' g.
(** tb 17-101 [apply] *)
Definition to_bpmn (net : petri_net (option nat)) (im fm : list nat) (d : diagram) : Prop := reduce_xor (raw_diagram net im fm) d.
