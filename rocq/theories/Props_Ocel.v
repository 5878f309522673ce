From Coq Require Import List Arith Bool ZArith Lia Relations Permutation.
Import ListNotations.
From Verif Require Import Model_Dict Model_Dfg Model_Graph Model_IM Proofs_Graph Spec_Dfg Proofs_Dfg Spec_Filter Proofs_Filter Model_Ocel Spec_Ocel Proofs_Ocel1 Proofs_Ocel2 Proofs_Ocel3.
Local Open Scope nat_scope.

(** An order (1), two items (2, 3) and an isolated order (4); three events for the first three objects, one for the last. *)
Definition ex_ocel : ocel :=
  Ocel [OEv 1 10 0 0; OEv 2 11 5 1; OEv 3 12 9 0; OEv 4 10 12 1]
       [OOb 1 100 7; OOb 2 200 7; OOb 3 200 8; OOb 4 100 8]
       [ORel 1 10 0 1 100 0; ORel 1 10 0 2 200 0; ORel 2 11 5 2 200 0; ORel 2 11 5 3 200 0; ORel 3 12 9 3 200 0; ORel 4 10 12 4 100 0]
       [(1, 2); (2, 4)] [(1, 2); (2, 3)] [OCh 2 0; OCh 4 1].
Lemma ex_referential : referential ex_ocel.
Proof.
  split; [|split; [|split]].
  - intros e b (r & Hr & <- & <-). rewrite is_event_in, is_object_in. cbn in Hr. repeat (destruct Hr as [<-|Hr]; [cbn; split; tauto|]). destruct Hr.
  - intros e f H. rewrite !is_event_in. cbn in H. repeat (destruct H as [H|H]; [injection H as <- <-; cbn; split; tauto|]). destruct H.
  - intros e f H. rewrite !is_object_in. cbn in H. repeat (destruct H as [H|H]; [injection H as <- <-; cbn; split; tauto|]). destruct H.
  - intros c H. rewrite is_object_in. cbn in H. repeat (destruct H as [<-|H]; [cbn; tauto|]). destruct H.
Qed.
Lemma ex_well_formed : well_formed ex_ocel.
Proof.
  split; [apply ex_referential|]. split; [repeat constructor; cbn; intuition congruence|]. split; [repeat constructor; cbn; intuition congruence|]. split.
  - intros r e Hr He. cbn in Hr, He. repeat (destruct Hr as [<-|Hr]; [repeat (destruct He as [<-|He]; [cbn; intros; try discriminate; auto|]); destruct He|]). destruct Hr.
  - intros r e Hr He. cbn in Hr, He. repeat (destruct Hr as [<-|Hr]; [repeat (destruct He as [<-|He]; [cbn; intros; try discriminate; auto|]); destruct He|]). destruct Hr.
Qed.

(** * C78: filters on events *)
(** Keep (or remove) the events with the values. *)
Theorem C78_attribute : forall col values positive o, referential o ->
  part_by_events (fun e => polar positive (In (col e) values)) o (filter_event_attribute col values positive o) /\ referential (filter_event_attribute col values positive o).
Proof.
  intros col values positive o R. assert (P : part_by_events (fun e => polar positive (In (col e) values)) o (filter_event_attribute col values positive o)).
  { apply events_part; auto. intros e _. destruct positive; cbn [polar]; [rewrite smem_in|rewrite negb_true_iff, smem_false]; reflexivity. }
  split; auto. eapply events_part_ref; eauto.
Qed.
Print Assumptions C78_attribute.
Theorem C78_identifiers : forall ids positive o, referential o ->
  part_by_events (fun e => polar positive (In (oe_id e) ids)) o (filter_events ids positive o) /\ referential (filter_events ids positive o).
Proof. intros ids positive o R. apply (C78_attribute oe_id ids positive o R). Qed.
Print Assumptions C78_identifiers.
Theorem C78_timestamp : forall lo hi o, referential o ->
  part_by_events (fun e => (lo <= oe_time e <= hi)%Z) o (filter_timestamp lo hi o) /\ referential (filter_timestamp lo hi o).
Proof.
  intros lo hi o R. assert (P : part_by_events (fun e => (lo <= oe_time e <= hi)%Z) o (filter_timestamp lo hi o)).
  { assert (E : filter_timestamp lo hi o = propagate_events (with_events (fun e => (lo <=? oe_time e)%Z && (oe_time e <=? hi)%Z) o)).
    { unfold filter_timestamp, with_events. cbn. f_equal. f_equal. induction (o_events o) as [|e l IH]; auto. cbn. destruct (lo <=? oe_time e)%Z; cbn; [destruct (oe_time e <=? hi)%Z|]; rewrite IH; auto. }
    rewrite E. apply events_part; auto. intros e _. rewrite andb_true_iff, !Z.leb_le. reflexivity. }
  split; auto. eapply events_part_ref; eauto.
Qed.
Print Assumptions C78_timestamp.
(** Keep the events with some relation and, for each listed type, at least the required number of relations, and at least one. *)
Theorem C78_per_type_count : forall mins o, referential o -> let o' := filter_per_type_count mins o in
  part_by_events (fun e => (exists b, related o (oe_id e) b) /\ forall k v, In (k, v) mins -> exists n, type_count o (oe_id e) k n /\ 1 <= n /\ v <= n) o o' /\ referential o'.
Proof.
  intros mins o R o'. assert (P : part_by_events (fun e => (exists b, related o (oe_id e) b) /\ forall k v, In (k, v) mins -> exists n, type_count o (oe_id e) k n /\ 1 <= n /\ v <= n) o o').
  { apply events_part; auto. intros e _. rewrite smem_in, filter_In, rel_event_in, enough_ok. reflexivity. }
  split; auto. eapply events_part_ref; eauto.
Qed.
Print Assumptions C78_per_type_count.
(** A required number of zero is not "no requirement": an event without objects of the type is dropped. *)
Theorem C78_zero_refuted : exists o, referential o /\ is_event o 4 /\ (exists b, related o 4 b) /\ ~ is_event (filter_per_type_count [(200, 0)] o) 4.
Proof.
  exists ex_ocel. split; [apply ex_referential|]. rewrite !is_event_in. split; [cbn; tauto|]. split; [exists 4, (ORel 4 10 12 4 100 0); cbn; tauto|]. cbn. intuition discriminate.
Qed.
Print Assumptions C78_zero_refuted.
(** Keep the events that begin / end the life of an object of the type. *)
Theorem C78_start : forall ot o, referential o -> let o' := filter_start_events ot o in
  part_by_events (fun e => exists r, first_row o ot r /\ or_event r = oe_id e) o o' /\ referential o'.
Proof.
  intros ot o R o'. assert (P : part_by_events (fun e => exists r, first_row o ot r /\ or_event r = oe_id e) o o').
  { apply events_part; auto. intros e _. rewrite smem_in. apply first_rows_ok. }
  split; auto. eapply events_part_ref; eauto.
Qed.
Print Assumptions C78_start.
Theorem C78_end : forall ot o, referential o -> let o' := filter_end_events ot o in
  part_by_events (fun e => exists r, last_row o ot r /\ or_event r = oe_id e) o o' /\ referential o'.
Proof.
  intros ot o R o'. assert (P : part_by_events (fun e => exists r, last_row o ot r /\ or_event r = oe_id e) o o').
  { apply events_part; auto. intros e _. rewrite smem_in. apply last_rows_ok. }
  split; auto. eapply events_part_ref; eauto.
Qed.
Print Assumptions C78_end.
Lemma picked_count {X} (f : X -> nat) (l : list X) s : NoDup (map f l) -> NoDup s -> incl s (map f l) -> length (filter (fun x => smem (f x) s) l) = length s.
Proof.
  intros N1 N2 I. rewrite <- (map_length f). apply Permutation_length, NoDup_Permutation; auto; [apply nodup_filter_map; auto|]. intros x. rewrite in_map_iff. split.
  - intros (y & <- & Hy). apply filter_In in Hy as [_ Hy]. apply smem_in in Hy. auto.
  - intros Hx. destruct (proj1 (in_map_iff f l x) (I _ Hx)) as (y & <- & Hy). exists y. split; auto. apply filter_In. split; auto. apply smem_in; auto.
Qed.
Lemma firstn_incl' {X} n (l : list X) x : In x (firstn n l) -> In x l.
Proof. revert l. induction n as [|n IH]; intros [|y l]; cbn; auto; intros []; auto. Qed.
Lemma firstn_nodup {X} n (l : list X) : NoDup l -> NoDup (firstn n l).
Proof. revert l. induction n as [|n IH]; intros [|y l] H; cbn; auto; try constructor; inversion H; subst; auto. intros X1. apply firstn_incl' in X1. auto. Qed.
(** A sample is a part of the log with the given number of events (all, if there are fewer), whatever the shuffling. *)
Theorem C78_sample : forall shuffled num o, referential o -> NoDup (map oe_id (o_events o)) -> Permutation shuffled (map oe_id (o_events o)) -> let o' := sample_events shuffled num o in
  (exists P, part_by_events P o o') /\ referential o' /\ length (o_events o') = Nat.min num (length (o_events o)).
Proof.
  intros sh num o R N HP o'. assert (P : part_by_events (fun e => In (oe_id e) (firstn (Nat.min (length sh) num) sh)) o o') by (apply events_part; auto; intros e _; apply smem_in).
  split; [eexists; eauto|]. split; [eapply events_part_ref; eauto|]. unfold o', sample_events, with_events. cbn [propagate_events o_events].
  rewrite picked_count; auto.
  - rewrite firstn_length, (Permutation_length HP), map_length. lia.
  - apply firstn_nodup. eapply Permutation_NoDup; [symmetry; eauto|auto].
  - intros x Hx. eapply Permutation_in; [eauto|]. eapply firstn_incl'; eauto.
Qed.
Print Assumptions C78_sample.
Example ex_events : filter_timestamp 1 20 ex_ocel = Ocel [OEv 2 11 5 1; OEv 3 12 9 0; OEv 4 10 12 1] [OOb 2 200 7; OOb 3 200 8; OOb 4 100 8]
  [ORel 2 11 5 2 200 0; ORel 2 11 5 3 200 0; ORel 3 12 9 3 200 0; ORel 4 10 12 4 100 0] [(2, 4)] [(2, 3)] [OCh 2 0; OCh 4 1].
Proof. reflexivity. Qed.
Example ex_events2 : map oe_id (o_events (filter_start_events 200 ex_ocel)) = [1; 2] /\ map oe_id (o_events (filter_end_events 200 ex_ocel)) = [2; 3] /\
  map oe_id (o_events (filter_per_type_count [(200, 2)] ex_ocel)) = [2] /\ map oe_id (o_events (filter_event_attribute oe_att [1] false ex_ocel)) = [1; 3] /\
  map oo_id (o_objects (sample_events [3; 1; 4; 2] 2 ex_ocel)) = [1; 2; 3].
Proof. repeat split. Qed.

(** * C79: filters on objects *)
Theorem C79_attribute : forall col values positive o, referential o -> let o' := filter_object_attribute col values positive o in
  part_by_objects (fun b => polar positive (In (col b) values)) o o' /\ referential o'.
Proof.
  intros col values positive o R o'. assert (P : part_by_objects (fun b => polar positive (In (col b) values)) o o').
  { apply objects_part; auto. intros e _. destruct positive; cbn [polar]; [rewrite smem_in|rewrite negb_true_iff, smem_false]; reflexivity. }
  split; auto. eapply objects_part_ref; eauto.
Qed.
Print Assumptions C79_attribute.
(** At level n: the objects at most n-1 meetings away from one of the given objects (or all others). *)
Theorem C79_objects : forall ids positive level o, referential o -> (level <= 1 \/ forall x, In x ids -> is_object o x) ->
  exists o', filter_objects ids positive level o = Some o' /\ referential o' /\ part_by_objects (fun b => polar positive (exists x, In x ids /\ within o (level - 1) x (oo_id b))) o o'.
Proof. intros ids positive level o R H. destruct (filter_objects_ok o ids positive level R H) as (o' & E & P). exists o'. split; auto. split; auto. eapply objects_part_ref; eauto. Qed.
Print Assumptions C79_objects.
Theorem C79_types : forall types positive level o, referential o -> NoDup (map oo_id (o_objects o)) ->
  exists o', filter_object_types types positive level o = Some o' /\ referential o' /\
    part_by_objects (fun b => polar positive (exists x, In x (o_objects o) /\ In (oo_type x) types /\ within o (level - 1) (oo_id x) (oo_id b))) o o'.
Proof.
  intros types positive level o R ND.
  assert (U : forall b c, In b (o_objects o) -> In c (o_objects o) -> oo_id b = oo_id c -> oo_type b = oo_type c).
  { clear - ND. induction (o_objects o) as [|d l IH]; intros b c Hb Hc E; [destruct Hb|]. cbn in ND. inversion ND; subst. destruct Hb as [->|Hb], Hc as [->|Hc]; auto; exfalso; apply H1; [rewrite E|rewrite <- E]; apply in_map; auto. }
  unfold filter_object_types. destruct (Nat.eqb_spec level 1) as [->|N].
  - destruct (C79_attribute oo_type types positive o R) as [P RR]. eexists. split; [reflexivity|]. split; auto. eapply objects_part; auto. intros b Hb.
    assert (E : In (oo_type b) types <-> exists x, In x (o_objects o) /\ In (oo_type x) types /\ within o (1 - 1) (oo_id x) (oo_id b)).
    { split; [intros; exists b; split; auto; split; auto; constructor|]. intros (x & Hx & Ht & W). inversion W; subst. rewrite <- (U x b); auto. }
    destruct positive; cbn [polar]; [rewrite smem_in|rewrite negb_true_iff, smem_false]; rewrite E; reflexivity.
  - destruct (C79_objects (map oo_id (filter (fun x => smem (oo_type x) types) (o_objects o))) positive level o R) as (o' & E & RR & P).
    { right. intros x Hx. apply in_map_iff in Hx as (y & <- & Hy). apply filter_In in Hy as [Hy _]. exists y; auto. }
    exists o'. split; auto. split; auto. assert (X : forall b, (exists x, In x (map oo_id (filter (fun x => smem (oo_type x) types) (o_objects o))) /\ within o (level - 1) x (oo_id b)) <-> exists x, In x (o_objects o) /\ In (oo_type x) types /\ within o (level - 1) (oo_id x) (oo_id b)).
    { intros b. split.
      - intros (x & Hx & W). apply in_map_iff in Hx as (y & <- & Hy). apply filter_In in Hy as [Hy Ht]. apply smem_in in Ht. exists y; auto.
      - intros (x & Hx & Ht & W). exists (oo_id x). split; auto. apply in_map. apply filter_In. split; auto. apply smem_in; auto. }
    assert (Y : forall b, polar positive (exists x, In x (map oo_id (filter (fun x => smem (oo_type x) types) (o_objects o))) /\ within o (level - 1) x (oo_id b)) <-> polar positive (exists x, In x (o_objects o) /\ In (oo_type x) types /\ within o (level - 1) (oo_id x) (oo_id b))) by (intros b; destruct positive; cbn [polar]; rewrite X; reflexivity).
    destruct P as [P1 P2 P3 P4 P5 P6]. constructor; auto; eapply selected_ext; [|exact P1| |exact P2| |exact P3]; intros z _; cbv beta; [| |]; try apply Y; split; intros (b & B1 & B2 & B3); exists b; (split; [auto|split; [apply Y; auto|auto]]).
Qed.
Print Assumptions C79_types.
Theorem C79_sample : forall shuffled num o, referential o -> NoDup (map oo_id (o_objects o)) -> Permutation shuffled (map oo_id (o_objects o)) -> let o' := sample_objects shuffled num o in
  (exists P, part_by_objects P o o') /\ referential o' /\ length (o_objects o') = Nat.min num (length (o_objects o)).
Proof.
  intros sh num o R N HP o'. assert (P : part_by_objects (fun e => In (oo_id e) (firstn (Nat.min (length sh) num) sh)) o o') by (apply objects_part; auto; intros e _; apply smem_in).
  split; [eexists; eauto|]. split; [eapply objects_part_ref; eauto|]. unfold o', sample_objects, with_objects. cbn [propagate_objects o_objects].
  rewrite picked_count; auto.
  - rewrite firstn_length, (Permutation_length HP), map_length. lia.
  - apply firstn_nodup. eapply Permutation_NoDup; [symmetry; eauto|auto].
  - intros x Hx. eapply Permutation_in; [eauto|]. eapply firstn_incl'; eauto.
Qed.
Print Assumptions C79_sample.
Example ex_objects : option_map (fun o => map oo_id (o_objects o)) (filter_objects [1] true 2 ex_ocel) = Some [1; 2] /\ option_map (fun o => map oo_id (o_objects o)) (filter_objects [1] true 3 ex_ocel) = Some [1; 2; 3] /\
  option_map (fun o => map oo_id (o_objects o)) (filter_objects [1] false 2 ex_ocel) = Some [3; 4] /\ option_map (fun o => map oe_id (o_events o)) (filter_object_types [100] true 1 ex_ocel) = Some [1; 4] /\ filter_objects [9] true 2 ex_ocel = None.
Proof. repeat split. Qed.
