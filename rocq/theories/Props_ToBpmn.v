(** C104: an accepting Petri net converted to BPMN (pm4py.convert_to_bpmn) has the traces of the net; the reduction of exclusive gateways keeps the traces of a diagram. *)
From stdpp Require Import gmap.
From Coq Require Import List Arith Lia Bool ZArith Permutation.
Import ListNotations.
From Verif Require Import Props_Reduce Model_Petri Spec_Petri Model_Tree Model_TreeNet Spec_TreeNet Proofs_Petri Proofs_Block Proofs_TreeNet2 Proofs_TreeNet3 Proofs_TreeNet4 Proofs_Reduce2
  Model_Bpmn Spec_Bpmn Proofs_Bpmn Props_Bpmn Model_ToBpmn Spec_ToBpmn Proofs_ToBpmn1 Proofs_ToBpmn2 Proofs_ToBpmn3.

Definition start (p : nat) : marking := {[ p := 1%Z ]}.
Lemma start_nats i p : nats (start i) p = cnt [i] p.
Proof. unfold nats, start. rewrite tokens_singleton. cbn [cnt]. destruct (Nat.eqb i p); reflexivity. Qed.
Lemma accepts_runs net i o w : unit_weights net -> accepts net (start i) (start o) w <-> runs (n_trans net) (cnt [i]) w (cnt [o]).
Proof.
  intros U. unfold accepts. rewrite (run_iff_aux net (unit_unit1 net U)); [|apply proper_singleton; lia|apply proper_singleton; lia]. split; intros H.
  - eapply runs_ext_r; [|apply start_nats]. eapply runs_ext_l; [exact H|apply start_nats].
  - eapply runs_ext_r; [|intros; symmetry; apply start_nats]. eapply runs_ext_l; [exact H|intros; symmetry; apply start_nats].
Qed.
Lemma arcs_in net i o : convertible net i o -> forall t p, In t (n_trans net) -> In p (pre t) \/ In p (post t) -> In p (n_places net).
Proof. intros (_ & _ & _ & _ & _ & H) t p Ht Hp. destruct (H t Ht) as (_ & _ & P). apply P. exact Hp. Qed.
Lemma arcs_ne net i o : convertible net i o -> forall t, In t (n_trans net) -> t_in t <> [] /\ t_out t <> [].
Proof. intros (_ & _ & _ & _ & _ & H) t Ht. destruct (H t Ht) as (A & B & _). auto. Qed.
Lemma raw_ok net i o : convertible net i o -> well_formed (raw_diagram net [i] [o]) /\ forall w, plays (raw_diagram net [i] [o]) w <-> accepts net (start i) (start o) w.
Proof.
  intros C. pose proof (arcs_in _ _ _ C) as A. pose proof (arcs_ne _ _ _ C) as B. destruct C as (H1 & H2 & H3 & H4 & H5 & _). split; [apply raw_wf; auto|].
  intros w. rewrite accepts_runs by auto. apply raw_plays; auto.
Qed.

(** The traces of the diagram are those of the net. *)
Theorem C104_language : forall net i o d, convertible net i o -> to_bpmn net [i] [o] d -> well_formed d /\ forall w, plays d w <-> accepts net (start i) (start o) w.
Proof.
  intros net i o d C H. destruct (raw_ok net i o C) as [W L]. destruct (reduce_xor_ok _ _ W H) as [W' L']. split; auto. intros w. rewrite <- L'. apply L.
Qed.
Print Assumptions C104_language.

(** The conversion yields a diagram if every place of the net is on a path from the start place. *)
Theorem C104_total : forall net i o, convertible net i o -> (forall p, In p (n_places net) -> on_path net i p) -> exists d, to_bpmn net [i] [o] d.
Proof.
  intros net i o C P. apply reduce_total with (s := code NStart); [apply raw_ok; auto|apply (name_node net i o), start_node|]. intros n k. apply raw_reach; auto.
Qed.
Print Assumptions C104_total.

(** The reduction of exclusive gateways keeps the traces of any diagram. *)
Theorem C104_reduction : forall d d', well_formed d -> reduce_xor d d' -> well_formed d' /\ forall w, plays d w <-> plays d' w.
Proof. apply reduce_xor_ok. Qed.
Print Assumptions C104_reduction.

(** It ends if every node can be reached from a start event ... *)
Theorem C104_reduction_ends : forall d s, well_formed d -> In (s, StartEvent) (b_nodes d) -> (forall n k, In (n, k) (b_nodes d) -> arrives d s n) -> exists d', reduce_xor d d'.
Proof. apply reduce_total. Qed.
Print Assumptions C104_reduction_ends.

(** ... but not in general: a gateway whose only flow leads to itself is removed and added again forever. *)
Theorem C104_reduction_ends_refuted : exists d, well_formed d /\ ~ exists d', reduce_xor d d'.
Proof.
  exists (Bpmn [(1, ExclusiveGateway)] [(0, (1, 1))]).
  assert (W : well_formed (Bpmn [(1, ExclusiveGateway)] [(0, (1, 1))])).
  { split; [repeat constructor; cbn; tauto|]. split; [repeat constructor; cbn; tauto|]. split; [intros n [E|[]]; discriminate|]. intros f s t [E|[]]. injection E as <- <- <-. cbn. auto. }
  split; [exact W|]. apply (loop_stuck _ 1 0 W); [left; auto|reflexivity|reflexivity].
Qed.
Print Assumptions C104_reduction_ends_refuted.

(** Converting the diagram back gives a net with the traces of the first. *)
Theorem C104_round_trip : forall net i o d enable_reduction back, convertible net i o -> to_bpmn net [i] [o] d -> to_petri_net enable_reduction d back ->
  forall w, accepts back im fm w <-> accepts net (start i) (start o) w.
Proof.
  intros net i o d r back C H HB w. destruct (C104_language net i o d C H) as [W L]. rewrite (C103_language d r back W HB w). apply L.
Qed.
Print Assumptions C104_round_trip.

(** start -> split silently -> a || b -> c joins -> end, with a silent repetition of b *)
Definition ex_net : petri_net (option nat) := Net [1; 2; 3; 4; 5; 6]
  [mk_trans 0 None [1] [2; 3]; mk_trans 1 (Some 1) [2] [4]; mk_trans 2 (Some 2) [3] [5]; mk_trans 3 None [5] [3]; mk_trans 4 (Some 3) [4; 5] [6]].
Example C104_ex : convertible ex_net 1 6 /\ (forall p, In p (n_places ex_net) -> on_path ex_net 1 p) /\ (exists d, to_bpmn ex_net [1] [6] d /\ plays d [2; 1; 2; 3]) /\
  length (b_nodes (raw_diagram ex_net [1] [6])) = 19 /\ length (b_flows (raw_diagram ex_net [1] [6])) = 20.
Proof.
  assert (C : convertible ex_net 1 6).
  { split; [unfold distinct_ids; cbn; repeat constructor; cbn; intuition discriminate|]. split; [|split; [repeat constructor; cbn; intuition discriminate|split; [cbn; tauto|split; [cbn; tauto|]]]].
    - intros t Ht p w H. cbn in Ht. repeat (destruct Ht as [<- |Ht]; [cbn in H; intuition congruence|]). destruct Ht.
    - intros t Ht. cbn in Ht. repeat (destruct Ht as [<- |Ht]; [cbn; split; [discriminate|split; [discriminate|]]; intros p; lia|]). destruct Ht. }
  assert (P : forall p, In p (n_places ex_net) -> on_path ex_net 1 p).
  { assert (P1 : on_path ex_net 1 1) by constructor.
    assert (St : forall p t q, on_path ex_net 1 p -> In t (n_trans ex_net) -> In p (pre t) -> In q (post t) -> on_path ex_net 1 q) by (intros; eapply op_step; eauto).
    assert (P2 : on_path ex_net 1 2) by (apply (St 1 (mk_trans 0 None [1] [2; 3]) 2); cbn; tauto).
    assert (P3 : on_path ex_net 1 3) by (apply (St 1 (mk_trans 0 None [1] [2; 3]) 3); cbn; tauto).
    assert (P4 : on_path ex_net 1 4) by (apply (St 2 (mk_trans 1 (Some 1) [2] [4]) 4); cbn; tauto).
    assert (P5 : on_path ex_net 1 5) by (apply (St 3 (mk_trans 2 (Some 2) [3] [5]) 5); cbn; tauto).
    assert (P6 : on_path ex_net 1 6) by (apply (St 4 (mk_trans 4 (Some 3) [4; 5] [6]) 6); cbn; tauto).
    intros p H. cbn in H. repeat (destruct H as [<- |H]; [assumption|]). destruct H. }
  split; [exact C|]. split; [exact P|]. split; [|split; vm_compute; reflexivity].
  destruct (C104_total ex_net 1 6 C P) as (d & Hd). exists d. split; [exact Hd|]. apply (C104_language _ _ _ _ C Hd). apply accepts_runs; [apply C|].
  assert (R : forall m w t, runs (n_trans ex_net) (cnt [1]) w m -> In t (n_trans ex_net) -> (forall p, cnt (pre t) p <= m p) -> runs (n_trans ex_net) (cnt [1]) (w ++ vis t) (after t m)).
  { intros m w t H Ht He. eapply r_snoc; [exact H|exact Ht|]. now apply fire_after. }
  assert (R0 := runs_refl (n_trans ex_net) (cnt [1])).
  assert (R1 := R _ _ (mk_trans 0 None [1] [2; 3]) R0 ltac:(cbn; tauto) ltac:(intros p; do 8 (destruct p as [|p]; [cbn; lia|]); cbn; lia)).
  assert (R2 := R _ _ (mk_trans 2 (Some 2) [3] [5]) R1 ltac:(cbn; tauto) ltac:(intros p; do 8 (destruct p as [|p]; [cbn; lia|]); cbn; lia)).
  assert (R3 := R _ _ (mk_trans 1 (Some 1) [2] [4]) R2 ltac:(cbn; tauto) ltac:(intros p; do 8 (destruct p as [|p]; [cbn; lia|]); cbn; lia)).
  assert (R4 := R _ _ (mk_trans 3 None [5] [3]) R3 ltac:(cbn; tauto) ltac:(intros p; do 8 (destruct p as [|p]; [cbn; lia|]); cbn; lia)).
  assert (R5 := R _ _ (mk_trans 2 (Some 2) [3] [5]) R4 ltac:(cbn; tauto) ltac:(intros p; do 8 (destruct p as [|p]; [cbn; lia|]); cbn; lia)).
  assert (R6 := R _ _ (mk_trans 4 (Some 3) [4; 5] [6]) R5 ltac:(cbn; tauto) ltac:(intros p; do 8 (destruct p as [|p]; [cbn; lia|]); cbn; lia)).
  eapply runs_ext_r; [exact R6|]. intros p. do 8 (destruct p as [|p]; [cbn; reflexivity|]). reflexivity.
Qed.
