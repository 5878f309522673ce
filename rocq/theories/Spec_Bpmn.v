(** The token game of BPMN diagrams with tasks, start and end events, exclusive and parallel gateways. *)
From Coq Require Import List Arith Bool Permutation.
Import ListNotations.
From Verif Require Import Model_Bpmn.

(** A token is waiting to begin, on a flow (given by its identity), or has arrived at an end event. *)
Inductive token := Begin | On (flow : nat) | Done.
Definition state := list token.

Definition incoming (d : diagram) (n : nat) : list nat := map fst (filter (fun f => Nat.eqb (snd (snd f)) n) (b_flows d)).
Definition outgoing (d : diagram) (n : nat) : list nat := map fst (filter (fun f => Nat.eqb (fst (snd f)) n) (b_flows d)).

(** The tokens that let node [n] start: a parallel gateway needs one on every incoming flow, any other node one on one of them; a start event also starts the process. *)
Definition enters (d : diagram) (n : nat) (k : kind) (ins : state) : Prop :=
  match k with
  | ParallelGateway => ins = map On (incoming d n) /\ ins <> []
  | _ => (exists f, In f (incoming d n) /\ ins = [On f]) \/ (k = StartEvent /\ ins = [Begin])
  end.
(** The tokens it produces: a parallel gateway one on every outgoing flow, any other node one on one of them; an end event may also end the process. *)
Definition leaves (d : diagram) (n : nat) (k : kind) (outs : state) : Prop :=
  match k with
  | ParallelGateway => outs = map On (outgoing d n) /\ outs <> []
  | _ => (exists f, In f (outgoing d n) /\ outs = [On f]) \/ (k = EndEvent /\ outs = [Done])
  end.
Definition shows (k : kind) : list nat := match k with Task (Some a) => [a] | _ => [] end.
Inductive steps (d : diagram) : state -> list nat -> state -> Prop :=
| s_none s s' : Permutation s s' -> steps d s [] s'
| s_node s w s1 n k ins outs rest s2 : steps d s w s1 -> In (n, k) (b_nodes d) -> enters d n k ins -> leaves d n k outs ->
    Permutation s1 (ins ++ rest) -> Permutation s2 (outs ++ rest) -> steps d s (w ++ shows k) s2.
(** The traces of complete executions. *)
Definition plays (d : diagram) (w : list nat) : Prop := steps d [Begin] w [Done].

(** Nodes and flows have distinct identities, every flow connects two nodes of the diagram, and all nodes are of kinds the token game knows. *)
Definition well_formed (d : diagram) : Prop :=
  NoDup (map fst (b_nodes d)) /\ NoDup (map fst (b_flows d)) /\ (forall n, ~ In (n, Other) (b_nodes d)) /\
  forall f s t, In (f, (s, t)) (b_flows d) -> In s (map fst (b_nodes d)) /\ In t (map fst (b_nodes d)).
