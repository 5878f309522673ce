(** Property theorems C10-C13, C15 (alignments, Dijkstra variant). *)
From stdpp Require Import gmap.
From Coq Require Import ZArith QArith Lia.
From Verif Require Import Model_Petri Spec_Petri Model_Align Spec_Align Proofs_Petri Proofs_Dijkstra Proofs_Sync.
Local Open Scope Z_scope.
Local Ltac mdec := match goal with |- ?P => apply (bool_decide_eq_true_1 P) end; vm_compute; reflexivity.

(** C10 *)
Theorem C10_sync_product_alignments :
  forall (pn : petri_net (option nat)) (im fm : marking) (trace : list nat) (g : list slabel),
  simple_net pn -> unit_weights pn -> proper im -> proper fm ->
  let '(tn, tim, tfm) := construct_trace_net trace in
  let '(sn, sim, sfm) := construct tn tim tfm pn im fm in
  (exists Ts, run sn sim Ts sfm /\ map t_label Ts = g) <-> is_alignment pn im fm trace g.
Proof. intros pn im fm trace g Hs Hu Hi Hf. exact (product_runs_alignments pn im fm trace Hs Hu Hi Hf g). Qed.
Print Assumptions C10_sync_product_alignments.

(** A net with a silent, a visible and a second visible transition used in the examples. *)
Definition ex_a : transition (option nat) := Trans 0 (Some 7%nat) [(0%nat, 1)] [(1%nat, 1)].
Definition ex_tau : transition (option nat) := Trans 1 None [(1%nat, 1)] [(2%nat, 1)].
Definition ex_b : transition (option nat) := Trans 2 (Some 8%nat) [(2%nat, 1)] [(3%nat, 1)].
Definition ex_net := Net [0; 1; 2; 3]%nat [ex_a; ex_tau; ex_b].
Definition ex_im : marking := {[ 0%nat := 1 ]}.
Definition ex_fm : marking := {[ 3%nat := 1 ]}.

Lemma ex_simple : simple_net ex_net.
Proof.
  intros t Ht. cbn in Ht. destruct Ht as [<-|[<-|[<-|[]]]]; split; split; cbn;
    try (repeat constructor; cbn; tauto); intros p w [[= <- <-]|[]]; lia.
Qed.
Lemma ex_unit : unit_weights ex_net.
Proof. intros t Ht p w H. cbn in Ht. destruct Ht as [<-|[<-|[<-|[]]]]; cbn in H; intuition congruence. Qed.

Example C10_example :
  simple_net ex_net /\ unit_weights ex_net /\ proper ex_im /\ proper ex_fm /\
  align_result (dijkstra_apply 100 [7; 9]%nat ex_net ex_im ex_fm) =
    Some ([(Lab (Some 7%nat), Lab (Some 7%nat)); (Skip, Lab None); (Skip, Lab (Some 8%nat)); (Lab (Some 9%nat), Skip)], 20001)
  /\ dijkstra_apply 100 [7; 9]%nat ex_net ex_im {[ 3%nat := 2 ]} = SExhausted.
Proof.
  split; [exact ex_simple|]. split; [exact ex_unit|]. split; [apply proper_singleton; lia|].
  split; [apply proper_singleton; lia|]. split; vm_compute; reflexivity.
Qed.

(** Why C10 needs unit weights: the product drops the weights (synchronous_product.py:54-60,169-171). *)
Definition exw_t : transition (option nat) := Trans 0 (Some 7%nat) [(0%nat, 2)] [(1%nat, 1)].
Definition exw_net := Net [0; 1]%nat [exw_t].

Lemma exw_no_run ts : ~ run exw_net {[ 0%nat := 1 ]} ts {[ 1%nat := 1 ]}.
Proof.
  intros H.
  remember ({[ 0%nat := 1 ]} : marking) as m0 eqn:E0. remember ({[ 1%nat := 1 ]} : marking) as m9 eqn:E9.
  destruct H as [m|m t m1 ts m2 Hf Hr].
  - rewrite E0 in E9. apply (f_equal (fun m => tokens m 0%nat)) in E9. vm_compute in E9. discriminate.
  - subst m. destruct Hf as (Ht & He & _). cbn in Ht. destruct Ht as [<-|[]]. specialize (He 0%nat).
    vm_compute in He. congruence.
Qed.

(** C11 *)
Theorem C11_dijkstra_valid : forall fuel pn im fm trace n,
  simple_net pn -> unit_weights pn -> proper im -> proper fm ->
  dijkstra_apply fuel trace pn im fm = SFound n ->
  is_alignment pn im fm trace (alignment_of n) /\ d_g n = align_cost (alignment_of n).
Proof.
  intros fuel pn im fm trace n Hs Hu Hi Hf E. pose proof (dijkstra_apply_correct pn im fm trace Hs Hu Hi Hf fuel) as H.
  rewrite E in H. destruct H as [[H _] H']. auto.
Qed.
Print Assumptions C11_dijkstra_valid.

(** any non-negative cost function on the transitions of the product *)
Theorem C11_dijkstra_valid_costs : forall fuel pn im fm trace cost n,
  simple_net pn -> unit_weights pn -> proper im -> proper fm -> (forall t, 0 <= cost t) ->
  let '(tn, tim, tfm) := construct_trace_net trace in
  let '(sn, sim, sfm) := construct tn tim tfm pn im fm in
  dijkstra_search fuel sn sim sfm cost = SFound n ->
  is_alignment pn im fm trace (alignment_of n) /\ run sn sim (rev (d_path n)) sfm /\
  d_g n = run_cost cost (rev (d_path n)).
Proof.
  intros fuel pn im fm trace cost n Hs Hu Hi Hf Hc.
  change (dijkstra_search fuel (snet pn trace) (sim im) (sfm fm trace) cost = SFound n ->
    is_alignment pn im fm trace (alignment_of n) /\ run (snet pn trace) (sim im) (rev (d_path n)) (sfm fm trace) /\
    d_g n = run_cost cost (rev (d_path n))).
  intros E.
  pose proof (dijkstra_search_sound (snet pn trace) (sim im) (sfm fm trace) cost
     (prod_simple _ _ _ (tn_simple trace) Hs)
     (sync_marking_proper _ _ (proper_singleton 0%nat 1 ltac:(lia)) Hi) (fun t _ => Hc t) fuel) as H.
  rewrite E in H. destruct H as (H1 & H2 & _). split; [|auto].
  apply (product_runs_alignments pn im fm trace Hs Hu Hi Hf). exists (rev (d_path n)). auto.
Qed.
Print Assumptions C11_dijkstra_valid_costs.

Theorem C11_weighted_nets_refuted : exists fuel pn im fm trace n,
  simple_net pn /\ proper im /\ proper fm /\ dijkstra_apply fuel trace pn im fm = SFound n /\
  ~ is_alignment pn im fm trace (alignment_of n).
Proof.
  exists 10%nat, exw_net, {[ 0%nat := 1 ]}, {[ 1%nat := 1 ]}, [7%nat].
  destruct (dijkstra_apply 10 [7%nat] exw_net {[0%nat := 1]} {[1%nat := 1]}) as [n| |] eqn:E;
    [|vm_compute in E; discriminate|vm_compute in E; discriminate].
  exists n. split; [|split; [apply proper_singleton; lia|split; [apply proper_singleton; lia|split; [reflexivity|]]]].
  - intros t Ht. cbn in Ht. destruct Ht as [<-|[]]. split; split; cbn;
      try (repeat constructor; cbn; tauto); intros p w [[= <- <-]|[]]; lia.
  - intros (_ & _ & ts & Hr & _). exact (exw_no_run ts Hr).
Qed.
Print Assumptions C11_weighted_nets_refuted.

(** C12 *)
Theorem C12_dijkstra_optimal : forall fuel pn im fm trace n,
  simple_net pn -> unit_weights pn -> proper im -> proper fm ->
  dijkstra_apply fuel trace pn im fm = SFound n ->
  forall g, is_alignment pn im fm trace g -> d_g n <= align_cost g.
Proof.
  intros fuel pn im fm trace n Hs Hu Hi Hf E g Hg. pose proof (dijkstra_apply_correct pn im fm trace Hs Hu Hi Hf fuel) as H.
  rewrite E in H. destruct H as [[_ H] H']. rewrite H'. apply H, Hg.
Qed.
Print Assumptions C12_dijkstra_optimal.

(** The search is optimal on every net (not only products), for every non-negative cost. *)
Theorem C12_search_optimal : forall fuel (pn : petri_net slabel) ini fin cost n,
  simple_net pn -> proper ini -> (forall t, In t (n_trans pn) -> 0 <= cost t) ->
  dijkstra_search fuel pn ini fin cost = SFound n ->
  run pn ini (rev (d_path n)) fin /\ d_g n = run_cost cost (rev (d_path n)) /\
  forall ts, run pn ini ts fin -> d_g n <= run_cost cost ts.
Proof.
  intros fuel pn ini fin cost n Hs Hi Hc E. pose proof (dijkstra_search_sound pn ini fin cost Hs Hi Hc fuel) as H.
  rewrite E in H. exact H.
Qed.
Print Assumptions C12_search_optimal.

(** C13 *)
Theorem C13_none_means_none : forall fuel pn im fm trace,
  simple_net pn -> unit_weights pn -> proper im -> proper fm ->
  dijkstra_apply fuel trace pn im fm = SExhausted -> forall g, ~ is_alignment pn im fm trace g.
Proof.
  intros fuel pn im fm trace Hs Hu Hi Hf E. pose proof (dijkstra_apply_correct pn im fm trace Hs Hu Hi Hf fuel) as H.
  rewrite E in H. exact H.
Qed.
Print Assumptions C13_none_means_none.

Theorem C13_terminates : forall pn im fm trace (l : list marking),
  simple_net pn -> unit_weights pn -> proper im -> proper fm ->
  (forall m, reachable pn im m -> In m l) ->
  exists fuel, dijkstra_apply fuel trace pn im fm <> SInterrupted.
Proof. intros pn im fm trace l Hs Hu Hi Hf. exact (dijkstra_apply_terminates pn im fm trace Hs Hu Hi l). Qed.
Print Assumptions C13_terminates.

(** C15 *)
Theorem C15_fitness : forall pn im fm trace fuel fuel' n bwc,
  simple_net pn -> unit_weights pn -> proper im -> proper fm ->
  dijkstra_apply fuel trace pn im fm = SFound n -> best_worst_cost fuel' pn im fm = Some bwc ->
  let f := trace_fitness trace (d_g n) bwc in
  (0 <= f <= 1)%Q /\
  (10000 <= 10000 * Z.of_nat (length trace) + bwc ->
     ((f == 1)%Q -> accepts pn im fm trace) /\
     (forall ts, run pn im ts fm -> visible ts = trace -> silent ts < 10000 -> (f == 1)%Q)).
Proof. exact fitness_correct. Qed.
Print Assumptions C15_fitness.

Example C15_example :
  match dijkstra_apply 100 [7; 8]%nat ex_net ex_im ex_fm, best_worst_cost 100 ex_net ex_im ex_fm with
  | SFound n, Some bwc => Qred (trace_fitness [7; 8]%nat (d_g n) bwc) = 1%Q /\ bwc = 20001
  | _, _ => False
  end /\
  match dijkstra_apply 100 [7; 9]%nat ex_net ex_im ex_fm, best_worst_cost 100 ex_net ex_im ex_fm with
  | SFound n, Some bwc => Qred (trace_fitness [7; 9]%nat (d_g n) bwc) = (1 # 2)%Q
  | _, _ => False
  end.
Proof. vm_compute. repeat split. Qed.

(** Corner case: an empty trace of a model that accepts it has fitness 0 (algorithm.py:158: the
    denominator is 0), although the trace fits perfectly. *)
Theorem C15_empty_trace_refuted : exists fuel pn im fm trace n bwc,
  simple_net pn /\ unit_weights pn /\ proper im /\ proper fm /\ accepts pn im fm trace /\
  dijkstra_apply fuel trace pn im fm = SFound n /\ best_worst_cost fuel pn im fm = Some bwc /\
  trace_fitness trace (d_g n) bwc = 0%Q.
Proof.
  exists 10%nat, ex_net, ex_im, ex_im, [], (DNode 0 (sync_marking {[0%nat := 1]} ex_im) [] 0), 0.
  split; [exact ex_simple|]. split; [exact ex_unit|]. split; [apply proper_singleton; lia|].
  split; [apply proper_singleton; lia|]. split; [exists []; split; [constructor|reflexivity]|].
  split; [reflexivity|]. split; reflexivity.
Qed.
Print Assumptions C15_empty_trace_refuted.
