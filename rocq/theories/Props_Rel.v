(** C35, C36, C43: the order relations of POWL models. *)
From Coq Require Import List Arith Bool Lia Relation_Operators.
Import ListNotations.
From Verif Require Import Model_Rel Spec_Rel Proofs_Rel.

(** C35: the loop ends after at most n*n+1 rounds ... *)
Theorem C35_closure_terminates : forall n e, exists e', add_transitive_edges (n * n + 1) n e = Some e'.
Proof. exact closure_terminates. Qed.
Print Assumptions C35_closure_terminates.
(** ... and whenever it ends the result is the transitive closure. *)
Theorem C35_closure_correct : forall n e fuel e', add_transitive_edges fuel n e = Some e' ->
  forall i j, on n e' i j <-> closure n e i j.
Proof. exact closure_correct. Qed.
Print Assumptions C35_closure_correct.
Theorem C35_is_strict_partial_order : forall n e, is_strict_partial_order n e = true <-> strict_order n e.
Proof. exact strict_iff. Qed.
Print Assumptions C35_is_strict_partial_order.

(** C36 *)
Theorem C36_reduction : forall n e, strict_order n e -> exists r, get_transitive_reduction n e = Some r /\
  (forall i k, on n r i k -> on n e i k) /\ (forall i k, closure n r i k <-> on n e i k) /\
  (forall a b, on n r a b -> ~ closure n (without r a b) a b).
Proof.
  intros n e H. destruct (reduction_exists n e H) as (r & E). exists r. split; auto. apply reduction_correct; auto.
Qed.
Print Assumptions C36_reduction.
(** it is the least relation with that closure *)
Theorem C36_reduction_least : forall n e r s, strict_order n e -> get_transitive_reduction n e = Some r ->
  (forall i k, closure n s i k <-> on n e i k) -> forall i k, on n r i k -> on n s i k.
Proof. exact reduction_least. Qed.
Print Assumptions C36_reduction_least.

(** a chain 0 < 1 < 2 < 3 *)
Definition chain : rel := fun i j => Nat.ltb i j && Nat.ltb j 4.
Definition steps : rel := fun i j => Nat.eqb (S i) j && Nat.ltb j 4.
Example chain_order : is_strict_partial_order 4 chain = true /\ is_strict_partial_order 4 steps = false. Proof. split; reflexivity. Qed.
Example chain_reduction : exists r, get_transitive_reduction 4 chain = Some r /\ map (fun '(i, j) => r i j) (pairs 4) = map (fun '(i, j) => steps i j) (pairs 4).
Proof. eexists. split; [reflexivity|]. vm_compute. reflexivity. Qed.
Example chain_closure : exists e, add_transitive_edges 17 4 steps = Some e /\ map (fun '(i, j) => e i j) (pairs 4) = map (fun '(i, j) => chain i j) (pairs 4).
Proof. eexists. split; [vm_compute; reflexivity|]. vm_compute. reflexivity. Qed.
(** Finding: on an order that is not transitively closed (a path 0,1,2,3 plus the edge 0 to 3) the
    "reduction" keeps the redundant edge: only detours of length two are looked at. *)
Theorem C36_not_transitive_refuted : exists n e r a b, is_irreflexive n e = true /\ get_transitive_reduction n e = Some r /\
  on n r a b /\ closure n (without r a b) a b.
Proof.
  exists 4, (set_edge steps 0 3 true). eexists _, 0, 3. split; [reflexivity|]. split; [reflexivity|]. split; [vm_compute; auto 10|].
  apply t_trans with (y := 2); [apply t_trans with (y := 1); apply t_step|apply t_step]; vm_compute; repeat split; auto.
Qed.
Print Assumptions C36_not_transitive_refuted.

(** C43: removing an edge keeps a strict partial order; start and end nodes. *)
Theorem C43_remove_edge : forall n e a b, strict_order n e ->
  exists e', remove_edge_keep_transitive (n * n + 1) n e a b = Some e' /\ strict_order n e' /\ ~ on n e' a b /\
    forall i j, on n e' i j -> on n e i j.
Proof. exact remove_edge_correct. Qed.
Print Assumptions C43_remove_edge.
Theorem C43_start_end_nodes : forall n e x,
  (In x (get_start_nodes n e) <-> x < n /\ ~ exists i, on n e i x) /\
  (In x (get_end_nodes n e) <-> x < n /\ ~ exists j, on n e x j).
Proof. intros n e x. split; [apply start_nodes_correct|apply end_nodes_correct]. Qed.
Print Assumptions C43_start_end_nodes.
Example C43_example : strict_order 4 chain /\ get_start_nodes 4 chain = [0] /\ get_end_nodes 4 chain = [3].
Proof. split; [apply strict_iff; reflexivity|split; reflexivity]. Qed.
