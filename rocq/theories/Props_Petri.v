(** Property theorems C01-C09 (Petri nets). *)
From stdpp Require Import gmap.
From Coq Require Import ZArith Lia.
From Verif Require Import Model_Petri Spec_Petri Proofs_Petri Proofs_Petri2 Proofs_Petri3.
Local Open Scope Z_scope.
Local Ltac mdec := match goal with |- ?P => apply (bool_decide_eq_true_1 P) end; vm_compute; reflexivity.

(** C01 *)
Theorem C01_execute_fires : forall (L : Type) (pn : petri_net L) (t : transition L) (m : marking),
  (forall u, In u (n_trans pn) -> t_id u = t_id t -> u = t) -> simple_trans t -> proper m ->
  forall m', execute t pn m = Some m' <-> fires pn t m m'.
Proof. intros L pn t m Hid Hs Hm m'. exact (execute_some pn t m m' Hid Hs Hm). Qed.
Print Assumptions C01_execute_fires.

Theorem C01_execute_none : forall (L : Type) (pn : petri_net L) (t : transition L) (m : marking),
  (forall u, In u (n_trans pn) -> t_id u = t_id t -> u = t) -> simple_trans t -> proper m ->
  (execute t pn m = None <-> (~ In t (n_trans pn) \/ exists p, tokens m p < weight (t_in t) p)).
Proof. intros L pn t m Hid Hs Hm. exact (execute_none pn t m Hid Hs Hm). Qed.
Print Assumptions C01_execute_none.

Theorem C01_execute_seq_run : forall (L : Type) (pn : petri_net L) ts (m m' : marking),
  (forall t, In t ts -> forall u, In u (n_trans pn) -> t_id u = t_id t -> u = t) ->
  (forall t, In t ts -> simple_trans t) -> proper m ->
  (execute_seq pn ts m = Some m' <-> run pn m ts m').
Proof. intros L pn ts m m' Hid Hs Hm. exact (execute_seq_run pn ts m m' Hid Hs Hm). Qed.
Print Assumptions C01_execute_seq_run.

Theorem C01_weak_execute_fires : forall (L : Type) (pn : petri_net L) (t : transition L) (m : marking),
  simple_trans t -> proper m -> In t (n_trans pn) -> enabled_at t m -> fires pn t m (weak_execute t m).
Proof. intros L pn t m. exact (weak_execute_fires pn t m). Qed.
Print Assumptions C01_weak_execute_fires.

Example C01_example :
  let t := Trans 3 (Some 5%nat) [(0%nat, 2); (1%nat, 1)] [(1%nat, 4); (2%nat, 1)] : transition (option nat) in
  let pn := Net [0; 1; 2]%nat [t] in
  let m := <[0%nat := 3]> {[ 1%nat := 1 ]} : marking in
  simple_trans t /\ proper m /\ execute t pn m = Some (<[0%nat := 1]> (<[1%nat := 4]> {[ 2%nat := 1 ]})).
Proof.
  cbn zeta. split; [|split].
  - split; split; cbn.
    + repeat constructor; cbn; intuition lia.
    + intros p w [[= <- <-]|[[= <- <-]|[]]]; lia.
    + repeat constructor; cbn; intuition lia.
    + intros p w [[= <- <-]|[[= <- <-]|[]]]; lia.
  - apply proper_insert; [apply proper_singleton|]; lia.
  - mdec.
Qed.

(** C02: false of the code. *)
Theorem C02_parallel_arcs_negative_refuted :
  exists (pn : petri_net (option nat)) t m m' p,
    proper m /\ In t (n_trans pn) /\ (forall q w, In (q, w) (t_in t) -> 0 < w) /\
    execute t pn m = Some m' /\ tokens m' p < 0.
Proof. exact parallel_negative. Qed.
Print Assumptions C02_parallel_arcs_negative_refuted.

(** C02: true without parallel arcs, along every sequence of executions. *)
Theorem C02_no_negative_partial : forall (L : Type) (pn : petri_net L) ts (m m' : marking),
  (forall t, In t ts -> forall u, In u (n_trans pn) -> t_id u = t_id t -> u = t) ->
  (forall t, In t ts -> simple_trans t) -> proper m ->
  execute_seq pn ts m = Some m' -> proper m'.
Proof.
  exact (fun L pn ts m m' Hid Hs Hm H =>
    run_proper pn m ts m' Hm (proj1 (execute_seq_run pn ts m m' Hid Hs Hm) H)).
Qed.
Print Assumptions C02_no_negative_partial.

(** C03 *)
Theorem C03_marking_algebra : forall m n k : marking, proper m -> proper n -> proper k ->
  m_eqb (m_add m n) (m_add n m) = true /\
  m_eqb (m_add (m_add m n) k) (m_add m (m_add n k)) = true /\
  m_eqb (m_add m ∅) m = true /\
  m_eqb (m_sub (m_add m n) n) m = true /\
  (m_eqb m n = true <-> forall p, tokens m p = tokens n p) /\
  (m_leb m n = true <-> forall p, tokens m p <= tokens n p) /\
  (m_leb m n = true <-> exists d, proper d /\ m_eqb n (m_add m d) = true) /\
  m_leb m m = true /\
  (m_leb m n = true -> m_leb n m = true -> m_eqb m n = true) /\
  (m_leb m n = true -> m_leb n k = true -> m_leb m k = true) /\
  (m_leb n m = true -> m_eqb (m_add (m_sub m n) n) m = true).
Proof. exact marking_algebra_lemma. Qed.
Print Assumptions C03_marking_algebra.

Theorem C03_marking_add_sub_counts : forall (m n : marking) p,
  tokens (m_add m n) p = tokens m p + tokens n p /\ tokens (m_sub m n) p = tokens m p - tokens n p.
Proof. exact (fun m n p => conj (tokens_m_add m n p) (tokens_m_sub m n p)). Qed.
Print Assumptions C03_marking_add_sub_counts.

Example C03_example : proper (<[0%nat := 2]> {[ 1%nat := 1 ]}) /\
  m_leb {[ 1%nat := 1 ]} (<[0%nat := 2]> {[ 1%nat := 1 ]}) = true.
Proof. split; [apply proper_insert; [apply proper_singleton|]; lia|vm_compute; reflexivity]. Qed.

(** C04 *)
Theorem C04_marking_equation : forall (L : Type) (pn : petri_net L) (m : marking) ts m' p,
  distinct_ids pn -> unit_weights pn -> simple_net pn -> proper m ->
  (forall t, In t ts -> In t (n_trans pn)) ->
  execute_seq pn ts m = Some m' ->
  tokens m' p = tokens m p + zsum (fun u => firings ts u * incidence u p) (n_trans pn).
Proof. exact @marking_equation_exec. Qed.
Print Assumptions C04_marking_equation.

(** The matrix built by the code ignores arc weights. *)
Theorem C04_incidence_ignores_weights_refuted :
  exists (pn : petri_net (option nat)) m ts m' p,
    distinct_ids pn /\ simple_net pn /\ proper m /\ run pn m ts m' /\
    tokens m' p <> tokens m p + zsum (fun u => firings ts u * incidence u p) (n_trans pn).
Proof. exact incidence_weights_wrong. Qed.
Print Assumptions C04_incidence_ignores_weights_refuted.

Example C04_example :
  let t := Trans 0 (Some 5%nat) [(0%nat, 1)] [(1%nat, 1)] : transition (option nat) in
  let u := Trans 1 None [(1%nat, 1)] [(0%nat, 1)] : transition (option nat) in
  let pn := Net [0; 1]%nat [t; u] in
  distinct_ids pn /\ unit_weights pn /\ simple_net pn /\
  execute_seq pn [t; u; t] {[ 0%nat := 1 ]} = Some {[ 1%nat := 1 ]}.
Proof.
  cbn zeta. split; [|split; [|split]].
  - repeat constructor; cbn; intuition lia.
  - intros t Ht p w H. cbn in Ht. destruct Ht as [<-|[<-|[]]]; cbn in H; intuition congruence.
  - intros t Ht. cbn in Ht. destruct Ht as [<-|[<-|[]]]; split; split; cbn;
      try (repeat constructor; cbn; tauto); intros p w [[= <- <-]|[]]; lia.
  - mdec.
Qed.

(** C05 *)
Theorem C05_execute_monotone : forall (L : Type) (pn : petri_net L) ts (m m' k : marking),
  distinct_ids pn -> simple_net pn -> (forall t, In t ts -> In t (n_trans pn)) -> proper m -> proper k ->
  execute_seq pn ts m = Some m' -> execute_seq pn ts (m_add m k) = Some (m_add m' k).
Proof. exact @execute_monotone. Qed.
Print Assumptions C05_execute_monotone.
(** Hypotheses are met by C04_example with any proper extra marking. *)

(** C06 *)
Theorem C06_reachability_graph_exact : forall (L : Type) (pn : petri_net L) (im : marking),
  simple_net pn -> proper im ->
  forall fuel S E, reachability_graph fuel pn im = Some (S, E) ->
    List.NoDup S /\ (forall m, In m S <-> reachable pn im m) /\
    (forall m t m', In (m, t, m') E <-> reachable pn im m /\ fires pn t m m').
Proof. exact @reachability_graph_exact. Qed.
Print Assumptions C06_reachability_graph_exact.

Theorem C06_reachability_graph_terminates : forall (L : Type) (pn : petri_net L) (im : marking),
  simple_net pn -> proper im ->
  forall l : list marking, (forall m, reachable pn im m -> In m l) ->
  exists S E, reachability_graph (length l) pn im = Some (S, E).
Proof. exact @reachability_graph_terminates. Qed.
Print Assumptions C06_reachability_graph_terminates.

Example C06_example :
  let t := Trans 0 (Some 5%nat) [(0%nat, 1)] [(1%nat, 1)] : transition (option nat) in
  let u := Trans 1 None [(1%nat, 1)] [(0%nat, 1)] : transition (option nat) in
  let pn := Net [0; 1]%nat [t; u] in
  fmap fst (reachability_graph 5 pn {[ 0%nat := 1 ]}) = Some [ {[ 0%nat := 1 ]}; {[ 1%nat := 1 ]} ] /\
  fmap (fun r => length (snd r)) (reachability_graph 5 pn {[ 0%nat := 1 ]}) = Some 2%nat.
Proof. cbn zeta. split; [mdec|vm_compute; reflexivity]. Qed.

(** C07 *)
Theorem C07_inhibitor_reset : forall (t : ir_transition) (pn : ir_net) (m : marking),
  (forall u, In u pn -> ir_id u = ir_id t -> u = t) -> ir_simple t -> proper m ->
  (ir_execute t pn m = None <-> ~ (In t pn /\ ir_enabled_at t m)) /\
  (forall m', ir_execute t pn m = Some m' ->
     proper m' /\ forall p v, ir_left t m p v -> tokens m' p = v + weight (ir_out t) p).
Proof. exact ir_execute_lemma. Qed.
Print Assumptions C07_inhibitor_reset.

Example C07_example :
  let t := IRTrans 0 [(0%nat, 1, Normal); (1%nat, 1, Inhibitor); (2%nat, 1, Reset)] [(2%nat, 1)] in
  ir_simple t /\
  ir_execute t [t] (<[0%nat := 2]> {[ 2%nat := 5 ]}) = Some (<[0%nat := 1]> {[ 2%nat := 1 ]}) /\
  ir_execute t [t] (<[0%nat := 2]> {[ 1%nat := 1 ]}) = None.
Proof.
  cbn zeta. split; [|split; mdec].
  split; [|split; [|split]]; cbn.
  - repeat constructor; cbn; intuition lia.
  - intros p w k [[= <- <- <-]|[[= <- <- <-]|[[= <- <- <-]|[]]]]; lia.
  - repeat constructor; cbn; tauto.
  - intros p w [[= <- <-]|[]]; lia.
Qed.

(** C08 *)
Theorem C08_trace_net_language : forall trace w : list nat,
  let '(net, im, fm) := construct_trace_net trace in accepts net im fm w <-> w = trace.
Proof. exact trace_net_accepts. Qed.
Print Assumptions C08_trace_net_language.

Theorem C08_trace_net_unique_run : forall (trace : list nat) ts,
  let '(net, im, fm) := construct_trace_net trace in run net im ts fm <-> ts = n_trans net.
Proof. exact trace_net_run_unique. Qed.
Print Assumptions C08_trace_net_unique_run.

(** C09: false of the code (comparison reversed), in both directions. *)
Theorem C09_is_sub_marking_refuted :
  (exists sub m, proper sub /\ proper m /\ (forall p, tokens sub p <= tokens m p) /\ is_sub_marking sub m = false) /\
  (exists sub m, proper sub /\ proper m /\ (exists p, tokens m p < tokens sub p) /\ is_sub_marking sub m = true).
Proof. exact (conj sub_marking_wrong sub_marking_wrong2). Qed.
Print Assumptions C09_is_sub_marking_refuted.

Theorem C09_is_sub_marking_actual : forall sub m : marking, proper sub ->
  is_sub_marking sub m = true <->
  (forall p, 0 < tokens sub p -> exists v, m !! p = Some v /\ v <= tokens sub p).
Proof. exact sub_marking_actual. Qed.
Print Assumptions C09_is_sub_marking_actual.
