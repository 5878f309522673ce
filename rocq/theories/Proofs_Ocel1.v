From Coq Require Import List Arith Bool ZArith Lia Relations.
Import ListNotations.
From Verif Require Import Model_Dict Model_Graph Model_IM Proofs_Graph Proofs_Dict Spec_Filter Proofs_Filter Model_Ocel Spec_Ocel.
Local Open Scope nat_scope.
Local Arguments smem : simpl never.
Local Arguments both : simpl never.

Lemma sel {X} (P : X -> Prop) (p : X -> bool) l : (forall x, In x l -> p x = true <-> P x) -> Selected P l (filter p l).
Proof. apply selected_filter. Qed.
Lemma both_iff s p : both s p = true <-> In (fst p) s /\ In (snd p) s.
Proof. unfold both. rewrite andb_true_iff, !smem_in. reflexivity. Qed.
Lemma is_event_in o e : is_event o e <-> In e (map oe_id (o_events o)).
Proof. unfold is_event. rewrite in_map_iff. split; intros (x & A & B); exists x; auto. Qed.
Lemma is_object_in o b : is_object o b <-> In b (map oo_id (o_objects o)).
Proof. unfold is_object. rewrite in_map_iff. split; intros (x & A & B); exists x; auto. Qed.

Theorem events_part p (P : oevent -> Prop) o : referential o -> (forall e, In e (o_events o) -> p e = true <-> P e) ->
  part_by_events P o (propagate_events (with_events p o)).
Proof.
  intros (R & RE & RO & RC) HP.
  assert (HE : forall e, In e (map oe_id (filter p (o_events o))) <-> exists x, In x (o_events o) /\ P x /\ oe_id x = e).
  { intros e. rewrite in_map_iff. split; intros (x & A & B). - apply filter_In in B as [B C]. apply HP in C; eauto. - destruct B as [B <-]. exists x. split; auto. apply filter_In. split; auto. apply HP; auto. }
  assert (HO : forall b, In b (map or_object (filter (fun r => smem (or_event r) (map oe_id (filter p (o_events o)))) (o_rels o))) <-> exists e, In e (o_events o) /\ P e /\ related o (oe_id e) b).
  { intros b. rewrite in_map_iff. split.
    - intros (r & <- & A). apply filter_In in A as [A B]. apply smem_in, HE in B as (x & X1 & X2 & X3). exists x. split; auto. split; auto. exists r. auto.
    - intros (x & X1 & X2 & r & A & B & C). exists r. split; auto. apply filter_In. split; auto. apply smem_in, HE. exists x. auto. }
  constructor; cbn.
  - apply sel; auto.
  - apply sel. intros x Hx. rewrite smem_in. apply HO.
  - apply sel. intros r Hr. rewrite smem_in. apply HE.
  - apply sel. intros q Hq. rewrite both_iff. rewrite !is_event_in. cbn. reflexivity.
  - apply sel. intros q Hq. rewrite both_iff, !is_object_in. cbn.
    assert (G : forall b, is_object o b -> In b (map oo_id (filter (fun x => smem (oo_id x) (map or_object (filter (fun r => smem (or_event r) (map oe_id (filter p (o_events o)))) (o_rels o)))) (o_objects o))) <-> In b (map or_object (filter (fun r => smem (or_event r) (map oe_id (filter p (o_events o)))) (o_rels o)))).
    { intros b (x & X1 & X2). rewrite in_map_iff. split; [intros (y & <- & Y); apply filter_In in Y as [_ Y]; apply smem_in; auto|]. intros H. exists x. split; auto. apply filter_In. split; auto. apply smem_in. congruence. }
    destruct q as [a b]. destruct (RO a b Hq). cbn. rewrite !G by auto. reflexivity.
  - apply sel. intros c Hc. rewrite smem_in, is_object_in. cbn. specialize (RC c Hc) as (x & X1 & X2). rewrite (in_map_iff oo_id). split.
    + intros H. exists x. split; auto. apply filter_In. split; auto. apply smem_in. congruence.
    + intros (y & <- & Y). apply filter_In in Y as [_ Y]. apply smem_in; auto.
Qed.

Theorem objects_part p (P : oobject -> Prop) o : referential o -> (forall e, In e (o_objects o) -> p e = true <-> P e) ->
  part_by_objects P o (propagate_objects (with_objects p o)).
Proof.
  intros (R & RE & RO & RC) HP.
  assert (HE : forall e, In e (map oo_id (filter p (o_objects o))) <-> exists x, In x (o_objects o) /\ P x /\ oo_id x = e).
  { intros e. rewrite in_map_iff. split; intros (x & A & B). - apply filter_In in B as [B C]. apply HP in C; eauto. - destruct B as [B <-]. exists x. split; auto. apply filter_In. split; auto. apply HP; auto. }
  assert (HO : forall b, In b (map or_event (filter (fun r => smem (or_object r) (map oo_id (filter p (o_objects o)))) (o_rels o))) <-> exists e, In e (o_objects o) /\ P e /\ related o b (oo_id e)).
  { intros b. rewrite in_map_iff. split.
    - intros (r & <- & A). apply filter_In in A as [A B]. apply smem_in, HE in B as (x & X1 & X2 & X3). exists x. split; auto. split; auto. exists r. auto.
    - intros (x & X1 & X2 & r & A & B & C). exists r. split; auto. apply filter_In. split; auto. apply smem_in, HE. exists x. auto. }
  constructor; cbn.
  - apply sel. intros x Hx. rewrite smem_in. apply HO.
  - apply sel; auto.
  - apply sel. intros r Hr. rewrite smem_in. apply HE.
  - apply sel. intros q Hq. rewrite both_iff, !is_event_in. cbn.
    assert (G : forall b, is_event o b -> In b (map oe_id (filter (fun x => smem (oe_id x) (map or_event (filter (fun r => smem (or_object r) (map oo_id (filter p (o_objects o)))) (o_rels o)))) (o_events o))) <-> In b (map or_event (filter (fun r => smem (or_object r) (map oo_id (filter p (o_objects o)))) (o_rels o)))).
    { intros b (x & X1 & X2). rewrite in_map_iff. split; [intros (y & <- & Y); apply filter_In in Y as [_ Y]; apply smem_in; auto|]. intros H. exists x. split; auto. apply filter_In. split; auto. apply smem_in. congruence. }
    destruct q as [a b]. destruct (RE a b Hq). cbn. rewrite !G by auto. reflexivity.
  - apply sel. intros q Hq. rewrite both_iff. rewrite !is_object_in. cbn. reflexivity.
  - apply sel. intros c Hc. rewrite smem_in, is_object_in. cbn. reflexivity.
Qed.

Theorem relations_part p (P : orel -> Prop) o : referential o -> (forall e, In e (o_rels o) -> p e = true <-> P e) ->
  part_by_relations P o (propagate_relations (with_rels p o)).
Proof.
  intros (R & RE & RO & RC) HP. unfold propagate_relations, with_rels. cbn.
  set (evs := filter (fun x => smem x (map oe_id (o_events o))) (map or_event (filter p (o_rels o)))). set (obs := filter (fun x => smem x (map oo_id (o_objects o))) (map or_object (filter p (o_rels o)))).
  assert (HE : forall e, In e evs <-> exists r, In r (o_rels o) /\ P r /\ or_event r = e).
  { intros e. unfold evs. rewrite filter_In, in_map_iff, smem_in. split; [intros [(r & <- & A) B]; apply filter_In in A as [A C]; apply HP in C; eauto|]. intros (r & A & B & <-). split; [exists r; split; auto; apply filter_In; split; auto; apply HP; auto|]. apply is_event_in. apply (R _ (or_object r)). exists r; auto. }
  assert (HO : forall e, In e obs <-> exists r, In r (o_rels o) /\ P r /\ or_object r = e).
  { intros e. unfold obs. rewrite filter_In, in_map_iff, smem_in. split; [intros [(r & <- & A) B]; apply filter_In in A as [A C]; apply HP in C; eauto|]. intros (r & A & B & <-). split; [exists r; split; auto; apply filter_In; split; auto; apply HP; auto|]. apply is_object_in. apply (R (or_event r)). exists r; auto. }
  constructor; cbn.
  - apply sel. intros x Hx. rewrite smem_in. apply HE.
  - apply sel. intros x Hx. rewrite smem_in. apply HO.
  - assert (E : filter (fun r => smem (or_object r) obs) (filter (fun r => smem (or_event r) evs) (filter p (o_rels o))) = filter p (o_rels o)).
    { clear - HE HO HP. assert (G : forall l, incl l (o_rels o) -> filter (fun r => smem (or_object r) obs) (filter (fun r => smem (or_event r) evs) (filter p l)) = filter p l).
      { induction l as [|r l IH]; intros Hl; auto. cbn. destruct (p r) eqn:E; [|apply IH; intros x Hx; apply Hl; right; auto].
        assert (Hr : In r (o_rels o)) by (apply Hl; left; auto). apply HP in E; auto. cbn. assert (smem (or_event r) evs = true) as -> by (apply smem_in, HE; eauto). cbn. assert (smem (or_object r) obs = true) as -> by (apply smem_in, HO; eauto). f_equal. apply IH. intros x Hx; apply Hl; right; auto. }
      apply G. apply incl_refl. }
    rewrite E. apply sel; auto.
  - apply sel. intros q Hq. rewrite both_iff, !is_event_in. cbn.
    assert (G : forall b, is_event o b -> In b (map oe_id (filter (fun x => smem (oe_id x) evs) (o_events o))) <-> In b evs).
    { intros b (x & X1 & X2). rewrite in_map_iff. split; [intros (y & <- & Y); apply filter_In in Y as [_ Y]; apply smem_in; auto|]. intros H. exists x. split; auto. apply filter_In. split; auto. apply smem_in. congruence. }
    destruct q as [a b]. destruct (RE a b Hq). cbn. rewrite !G by auto. reflexivity.
  - apply sel. intros q Hq. rewrite both_iff, !is_object_in. cbn.
    assert (G : forall b, is_object o b -> In b (map oo_id (filter (fun x => smem (oo_id x) obs) (o_objects o))) <-> In b obs).
    { intros b (x & X1 & X2). rewrite in_map_iff. split; [intros (y & <- & Y); apply filter_In in Y as [_ Y]; apply smem_in; auto|]. intros H. exists x. split; auto. apply filter_In. split; auto. apply smem_in. congruence. }
    destruct q as [a b]. destruct (RO a b Hq). cbn. rewrite !G by auto. reflexivity.
  - apply sel. intros c Hc. rewrite smem_in, is_object_in. cbn. specialize (RC c Hc) as (x & X1 & X2). rewrite (in_map_iff oo_id). split.
    + intros H. exists x. split; auto. apply filter_In. split; auto. apply smem_in. congruence.
    + intros (y & <- & Y). apply filter_In in Y as [_ Y]. apply smem_in; auto.
Qed.

(** A part of a log with matching events, objects and relations refers only to itself. *)
Lemma part_referential PE PO PR o o' : part PE PO PR o o' ->
  (forall r, In r (o_rels o) -> PR r -> (exists e, In e (o_events o) /\ PE e /\ oe_id e = or_event r) /\ exists b, In b (o_objects o) /\ PO b /\ oo_id b = or_object r) -> referential o'.
Proof.
  intros [SE SO SR S1 S2 S3] H. split; [|split; [|split]].
  - intros e b (r & A & <- & <-). apply (proj1 (selected_in _ _ _ _ SR)) in A as [A B]. destruct (H r A B) as [(x & X1 & X2 & X3) (y & Y1 & Y2 & Y3)].
    split; [exists x|exists y]; (split; [|auto]); (eapply selected_in; [eauto|]; auto).
  - intros e f A. apply (proj1 (selected_in _ _ _ _ S1)) in A. tauto.
  - intros e f A. apply (proj1 (selected_in _ _ _ _ S2)) in A. tauto.
  - intros e A. apply (proj1 (selected_in _ _ _ _ S3)) in A. tauto.
Qed.
Lemma events_part_ref P o o' : referential o -> part_by_events P o o' -> referential o'.
Proof.
  intros (R & _) HP. eapply part_referential; [exact HP|]. intros r Hr (e & A & B & C). split; [exists e; auto|]. destruct (R (or_event r) (or_object r)) as [_ (x & X1 & X2)]; [exists r; auto|].
  exists x. split; auto. split; auto. exists e. split; auto. split; auto. exists r. auto.
Qed.
Lemma objects_part_ref P o o' : referential o -> part_by_objects P o o' -> referential o'.
Proof.
  intros (R & _) HP. eapply part_referential; [exact HP|]. intros r Hr (e & A & B & C). split; [|exists e; auto]. destruct (R (or_event r) (or_object r)) as [(x & X1 & X2) _]; [exists r; auto|].
  exists x. split; auto. split; auto. exists e. split; auto. split; auto. exists r. auto.
Qed.
Lemma relations_part_ref P o o' : referential o -> part_by_relations P o o' -> referential o'.
Proof.
  intros (R & _) HP. eapply part_referential; [exact HP|]. intros r Hr HPr. destruct (R (or_event r) (or_object r)) as [(x & X1 & X2) (y & Y1 & Y2)]; [exists r; auto|].
  split; [exists x|exists y]; repeat split; auto; exists r; auto.
Qed.
