(** C103: a BPMN diagram converted to a Petri net (pm4py.convert_to_petri_net) has the traces of the token game of the diagram. *)
From stdpp Require Import gmap.
From Coq Require Import List Arith Lia Bool ZArith Permutation.
Import ListNotations.
From Verif Require Import Props_Reduce Model_Petri Spec_Petri Model_Tree Model_TreeNet Spec_TreeNet Proofs_Petri Proofs_Block Proofs_TreeNet2 Proofs_TreeNet3 Proofs_TreeNet4 Proofs_Reduce2
  Model_Bpmn Spec_Bpmn Proofs_Bpmn.

Definition im : marking := {[ source_place := 1%Z ]}.
Definition fm : marking := {[ sink_place := 1%Z ]}.

Lemma accepts_trans (a b : petri_net (option nat)) i f w : n_trans a = n_trans b -> accepts a i f w -> accepts b i f w.
Proof.
  intros E (ts & H & V). exists ts. split; auto. clear V. induction H as [|m t m1 ts m2 (H1 & H2) H IH]; [constructor|]. econstructor; eauto. split; auto. now rewrite <- E.
Qed.
Lemma raw_ids d : distinct_ids (raw_net d).
Proof.
  unfold distinct_ids. cbn [raw_net n_trans]. unfold number, enum. rewrite map_map. generalize (all_transitions d) as l. intros l.
  replace (map _ (combine (seq 0 (length l)) l)) with (seq 0 (length l)); [apply List.seq_NoDup|].
  generalize 0. induction l as [|[[x a] b] l IH]; intros k; [reflexivity|]. cbn [length seq combine map mk_trans t_id]. f_equal. apply IH.
Qed.
Lemma raw_unit d t : In t (n_trans (raw_net d)) -> unit1 t.
Proof. cbn [raw_net n_trans]. intros H. apply numbered in H as (i & lab & a & b & _ & ->). apply unit1_mk. Qed.
Lemma raw_weights d : unit_weights (raw_net d).
Proof.
  intros t Ht p w H. destruct (raw_unit d t Ht) as [A B]. rewrite A, B in H. unfold arcs in H. rewrite !in_map_iff in H. destruct H as [(x & E & _)|(x & E & _)]; congruence.
Qed.
Lemma raw_ends d : well_formed d -> marked_ends (raw_net d) im fm.
Proof.
  intros WF p [H|H].
  - unfold im in H. rewrite tokens_singleton in H. destruct (Nat.eqb_spec source_place p) as [E0|E0]; [|lia]. subst p. left. unfold arcs_into. apply (count_occ_not_In Nat.eq_dec). intros Hi.
    apply in_map_iff in Hi as (a & Ea & Hi). apply in_concat in Hi as (l & Hl & Hi). apply in_map_iff in Hl as (t & <- & Ht). pose proof (net_role d WF t Ht) as R.
    assert (Hp : In source_place (post t)) by (rewrite <- Ea; apply in_map; auto). remember (t_label t, pre t, post t) as z eqn:Ez; destruct R as [n k ins Hn He|n k Hn|n k outs Hn He]; injection Ez as E1 E2 E3; rewrite <- E3 in Hp.
    + destruct Hp as [Hp|[]]. unfold entry_place, source_place in Hp. lia.
    + destruct Hp as [Hp|[]]. unfold exiting_place, source_place in Hp. lia.
    + apply in_map_iff in Hp as (x & Ex & Hx). destruct x; try (unfold place_of, flow_place, sink_place, source_place in Ex; lia).
      destruct k; cbn [leaves] in He; try (destruct He as [(f & _ & ->)|[_ ->]]; destruct Hx as [Hx|[]]; discriminate).
      destruct He as [-> _]. apply in_map_iff in Hx as (f & Hx & _). discriminate.
  - unfold fm in H. rewrite tokens_singleton in H. destruct (Nat.eqb_spec sink_place p) as [E0|E0]; [|lia]. subst p. right. unfold arcs_from. apply (count_occ_not_In Nat.eq_dec). intros Hi.
    apply in_map_iff in Hi as (a & Ea & Hi). apply in_concat in Hi as (l & Hl & Hi). apply in_map_iff in Hl as (t & <- & Ht). pose proof (net_role d WF t Ht) as R.
    assert (Hp : In sink_place (pre t)) by (rewrite <- Ea; apply in_map; auto). remember (t_label t, pre t, post t) as z eqn:Ez; destruct R as [n k ins Hn He|n k Hn|n k outs Hn He]; injection Ez as E1 E2 E3; rewrite <- E2 in Hp.
    + apply in_map_iff in Hp as (x & Ex & Hx). destruct x; try (unfold place_of, flow_place, sink_place, source_place in Ex; lia).
      destruct k; cbn [enters] in He; try (destruct He as [(f & _ & ->)|[_ ->]]; destruct Hx as [Hx|[]]; discriminate).
      destruct He as [-> _]. apply in_map_iff in Hx as (f & Hx & _). discriminate.
    + destruct Hp as [Hp|[]]. unfold entry_place, sink_place in Hp. lia.
    + destruct Hp as [Hp|[]]. unfold exiting_place, sink_place in Hp. lia.
Qed.
Lemma raw_reducible d : well_formed d -> reducible (raw_net d) im fm.
Proof.
  intros WF. split; [apply proper_singleton; lia|]. split; [apply proper_singleton; lia|]. split; [apply raw_ids|]. split; [apply raw_weights|]. right. apply raw_ends; auto.
Qed.
Lemma raw_language d w : well_formed d -> (accepts (raw_net d) im fm w <-> plays d w).
Proof.
  intros WF. rewrite <- (net_plays d WF w). unfold accepts. rewrite (run_iff_aux (raw_net d) (raw_unit d)); [|apply proper_singleton; lia|apply proper_singleton; lia].
  assert (Ei : forall p, nats im p = cnt [source_place] p) by (intros p; unfold nats, im; rewrite tokens_singleton; cbn [cnt]; destruct (Nat.eqb source_place p); reflexivity).
  assert (Ef : forall p, nats fm p = cnt [sink_place] p) by (intros p; unfold nats, fm; rewrite tokens_singleton; cbn [cnt]; destruct (Nat.eqb sink_place p); reflexivity).
  split; intros H.
  - eapply runs_ext_r; [|exact Ef]. eapply runs_ext_l; [exact H|]. auto.
  - eapply runs_ext_r; [|intros; symmetry; apply Ef]. eapply runs_ext_l; [exact H|]. auto.
Qed.

(** The accepting net, with or without reduction and whatever the order in which the reduction rules are applied, has exactly the traces of
    the complete executions of the diagram. *)
Theorem C103_language : forall d enable_reduction pn, well_formed d -> to_petri_net enable_reduction d pn -> forall w, accepts pn im fm w <-> plays d w.
Proof.
  intros d [] pn WF H w.
  - destruct H as (pn1 & HS & ->). rewrite <- raw_language by auto. rewrite (C66_language (raw_net d) pn1 im fm (raw_reducible d WF) HS w). split; apply accepts_trans; reflexivity.
  - cbn in H. subst pn. rewrite <- raw_language by auto. split; apply accepts_trans; reflexivity.
Qed.
Print Assumptions C103_language.

(** The conversion always yields a net. *)
Theorem C103_total : forall d enable_reduction, exists pn, to_petri_net enable_reduction d pn.
Proof. intros d []; [|eexists; reflexivity]. destruct (proj1 (C66_terminates (raw_net d))) as (pn1 & H). exists (tidy pn1), pn1. auto. Qed.
Print Assumptions C103_total.

(** The net is sound in every respect in which the net before the reduction is. *)
Theorem C103_reduction_soundness : forall d pn0 pn, well_formed d -> to_petri_net false d pn0 -> to_petri_net true d pn ->
  (option_to_complete pn0 im fm -> option_to_complete pn im fm) /\ (safe pn0 im -> safe pn im) /\
  (proper_completion pn0 im fm sink_place -> proper_completion pn im fm sink_place) /\ (no_dead_transitions pn0 im -> no_dead_transitions pn im).
Proof.
  intros d pn0 pn WF H0 (pn1 & HS & ->). cbn in H0. subst pn0. destruct (C66_soundness (raw_net d) pn1 im fm (raw_reducible d WF) HS) as (A & B & C & D).
  assert (T : forall (a b : petri_net (option nat)) m ts m', n_trans a = n_trans b -> run a m ts m' -> run b m ts m').
  { intros a b m ts m' E H. induction H as [|m t m1 ts m2 (H1 & H2) H IH]; [constructor|]. econstructor; eauto. split; auto. now rewrite <- E. }
  assert (R : forall (a : petri_net (option nat)) m m', reachable (tidy a) m m' <-> reachable a m m').
  { intros a m m'. split; intros (ts & H); exists ts; (eapply T; [|exact H]; reflexivity). }
  split; [|split; [|split]].
  - intros H m Hm. apply R. apply A; [|apply R; auto]. intros m' Hm'. apply R. apply H. apply R. auto.
  - intros H m p Hm. apply B; [|apply R; auto]. intros m' p' Hm'. apply H. apply R. auto.
  - intros H m Hm. apply C; [|apply R; auto]. intros m' Hm'. apply H. apply R. auto.
  - intros H t Ht. destruct (D (fun t Ht => let '(ex_intro _ m (ex_intro _ m' (conj a b))) := H t Ht in ex_intro _ m (ex_intro _ m' (conj (proj1 (R _ _ _) a) b))) t Ht) as (m & m' & Hm & Hf).
    exists m, m'. split; [apply R; auto|exact Hf].
Qed.
Print Assumptions C103_reduction_soundness.

(** start -> + -> (a -> x) || (skip or b, then x') -> + -> end, with a loop back around b *)
Definition ex : diagram := Bpmn [(10, StartEvent); (1, ParallelGateway); (2, Task (Some 1)); (3, ExclusiveGateway); (4, Task (Some 2)); (5, ExclusiveGateway); (6, ParallelGateway); (7, EndEvent)]
  [(0, (10, 1)); (1, (1, 2)); (2, (1, 3)); (3, (3, 4)); (4, (4, 5)); (5, (5, 3)); (6, (2, 6)); (7, (5, 6)); (8, (6, 7))].
Example C103_ex : well_formed ex /\ plays ex [2; 1; 2] /\ length (n_trans (raw_net ex)) = 26.
Proof.
  split.
  { split; [repeat constructor; cbn; intuition discriminate|]. split; [repeat constructor; cbn; intuition discriminate|]. split; [cbn; intuition discriminate|].
    intros f s t H. cbn in H |- *. repeat (destruct H as [E|H]; [injection E as <- <- <-; tauto|]). destruct H. }
  split; [|vm_compute; reflexivity]. unfold plays.
  assert (N : forall s w s1 n k ins outs rest s2 w', steps ex s w s1 -> In (n, k) (b_nodes ex) -> enters ex n k ins -> leaves ex n k outs ->
    Permutation s1 (ins ++ rest) -> outs ++ rest = s2 -> w ++ shows k = w' -> steps ex s w' s2).
  { intros. subst. eapply s_node; eauto. }
  assert (S0 : steps ex [Begin] [] [On 0]). { eapply N with (n := 10) (k := StartEvent) (ins := [Begin]) (outs := [On 0]) (rest := []); [apply s_none; reflexivity|cbn; tauto|right; auto|left; exists 0; cbn; auto|reflexivity|reflexivity|reflexivity]. }
  assert (S1 : steps ex [Begin] [] [On 1; On 2]). { eapply N with (n := 1) (k := ParallelGateway) (ins := [On 0]) (rest := []); [exact S0|cbn; tauto|split; [reflexivity|discriminate]|split; [reflexivity|cbn; discriminate]|reflexivity|reflexivity|reflexivity]. }
  assert (S2 : steps ex [Begin] [] [On 3; On 1]). { eapply N with (n := 3) (k := ExclusiveGateway) (ins := [On 2]) (outs := [On 3]) (rest := [On 1]); [exact S1|cbn; tauto|left; exists 2; cbn; auto|left; exists 3; cbn; auto|apply perm_swap|reflexivity|reflexivity]. }
  assert (S3 : steps ex [Begin] [2] [On 4; On 1]). { eapply N with (n := 4) (k := Task (Some 2)) (ins := [On 3]) (outs := [On 4]) (rest := [On 1]); [exact S2|cbn; tauto|left; exists 3; cbn; auto|left; exists 4; cbn; auto|reflexivity|reflexivity|reflexivity]. }
  assert (S4 : steps ex [Begin] [2] [On 5; On 1]). { eapply N with (n := 5) (k := ExclusiveGateway) (ins := [On 4]) (outs := [On 5]) (rest := [On 1]); [exact S3|cbn; tauto|left; exists 4; cbn; auto|left; exists 5; cbn; auto|reflexivity|reflexivity|reflexivity]. }
  assert (S5 : steps ex [Begin] [2; 1] [On 6; On 5]). { eapply N with (n := 2) (k := Task (Some 1)) (ins := [On 1]) (outs := [On 6]) (rest := [On 5]); [exact S4|cbn; tauto|left; exists 1; cbn; auto|left; exists 6; cbn; auto|apply perm_swap|reflexivity|reflexivity]. }
  assert (S6 : steps ex [Begin] [2; 1] [On 3; On 6]). { eapply N with (n := 3) (k := ExclusiveGateway) (ins := [On 5]) (outs := [On 3]) (rest := [On 6]); [exact S5|cbn; tauto|left; exists 5; cbn; auto|left; exists 3; cbn; auto|apply perm_swap|reflexivity|reflexivity]. }
  assert (S7 : steps ex [Begin] [2; 1; 2] [On 4; On 6]). { eapply N with (n := 4) (k := Task (Some 2)) (ins := [On 3]) (outs := [On 4]) (rest := [On 6]); [exact S6|cbn; tauto|left; exists 3; cbn; auto|left; exists 4; cbn; auto|reflexivity|reflexivity|reflexivity]. }
  assert (S8 : steps ex [Begin] [2; 1; 2] [On 7; On 6]). { eapply N with (n := 5) (k := ExclusiveGateway) (ins := [On 4]) (outs := [On 7]) (rest := [On 6]); [exact S7|cbn; tauto|left; exists 4; cbn; auto|left; exists 7; cbn; auto|reflexivity|reflexivity|reflexivity]. }
  assert (S9 : steps ex [Begin] [2; 1; 2] [On 8]). { eapply N with (n := 6) (k := ParallelGateway) (ins := [On 6; On 7]) (rest := []); [exact S8|cbn; tauto|split; [reflexivity|discriminate]|split; [reflexivity|cbn; discriminate]|apply perm_swap|reflexivity|reflexivity]. }
  eapply N with (n := 7) (k := EndEvent) (ins := [On 8]) (outs := [Done]) (rest := []); [exact S9|cbn; tauto|left; exists 8; cbn; auto|right; auto|reflexivity|reflexivity|reflexivity].
Qed.
