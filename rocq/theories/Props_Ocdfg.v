From Coq Require Import List Arith Bool ZArith Lia Permutation Sorted.
Import ListNotations.
From Verif Require Import Model_Lev Proofs_Lev Model_Dict Proofs_Dict Model_Dfg Model_Graph Model_IM Proofs_Graph Spec_Dfg Proofs_Dfg Model_Ocel Spec_Ocel Proofs_Ocel1 Proofs_Ocel2 Model_Ocdfg Spec_Ocdfg Proofs_Ocdfg.
Local Open Scope nat_scope.

Lemma edges_exist o : well_formed o -> exists d, find_edges o = Some d /\ exists h, egood o (visits o (o_events o)) h d.
Proof.
  intros ((R & _) & N1 & N2 & _). unfold find_edges. rewrite fold_visits. destruct (visits_ok o (visits o (o_events o))) as (h & d & E & G).
  - intros e b H. apply in_flat_map in H as (x & Hx & H). apply in_map_iff in H as (b' & [= <- <-] & H). apply rel_obj_in in H. split; [exists (oe_act x); apply act_of_ok; auto; exists x; auto|].
    destruct (R _ _ H) as [_ (y & Hy & <-)]. exists (oo_type y). apply type_of_ok; auto. exists y. auto.
  - exists d. rewrite E. split; [reflexivity|]. exists h. exact G.
Qed.
(** * C94: the edges of an object-centric directly-follows graph *)
(** An edge of an object type with its two activities carries exactly the triples (event, next event of the object, object), without
    repetitions, and there is an edge exactly for these activities. *)
Theorem C94_edges : forall o, well_formed o -> related_once o -> exists d, find_edges o = Some d /\ NoDup (d_keys d) /\
  (forall ot a1 a2, In (ot, (a1, a2)) (d_keys d) <-> exists b e1 e2, next_event o b e1 e2 /\ has_type o b ot /\ has_activity o e1 a1 /\ has_activity o e2 a2) /\
  (forall ot a1 a2 l, d_get d (ot, (a1, a2)) = Some l ->
    (NoDup l /\ forall e1 e2 b, In (e1, e2, b) l <-> next_event o b e1 e2 /\ has_type o b ot /\ has_activity o e1 a1 /\ has_activity o e2 a2) /\
    (NoDup (event_couples l) /\ forall e1 e2, In (e1, e2) (event_couples l) <-> exists b, next_event o b e1 e2 /\ has_type o b ot /\ has_activity o e1 a1 /\ has_activity o e2 a2) /\
    (NoDup (edge_objects l) /\ forall b, In b (edge_objects l) <-> exists e1 e2, next_event o b e1 e2 /\ has_type o b ot /\ has_activity o e1 a1 /\ has_activity o e2 a2) /\
    Permutation (edge_total l) l).
Proof.
  intros o W RO. destruct (edges_exist o W) as (d & E & h & G1 & G2 & G3 & G4 & G5). destruct W as (_ & N1 & N2 & _). exists d. split; auto. split; auto.
  assert (M : forall ot a1 a2 e1 e2 b, In (e1, e2, b) (e_get d (ot, (a1, a2))) <-> next_event o b e1 e2 /\ has_type o b ot /\ has_activity o e1 a1 /\ has_activity o e2 a2).
  { intros. rewrite G4, steps_next, type_of_ok, !act_of_ok by auto. tauto. }
  split.
  - intros ot a1 a2. split.
    + intros H. pose proof (G3 _ H) as Hne. destruct (e_get d (ot, (a1, a2))) as [|[[e1 e2] b] l] eqn:El; [congruence|]. exists b, e1, e2. apply M. rewrite El. left. auto.
    + intros (b & e1 & e2 & H). apply M in H. unfold e_get in H. apply d_get_keys. destruct (d_get d (ot, (a1, a2))); [discriminate|destruct H].
  - intros ot a1 a2 l Hl. assert (El : e_get d (ot, (a1, a2)) = l) by (unfold e_get; rewrite Hl; auto).
    assert (N : NoDup l) by (rewrite <- El; apply G5, visits_nodup; auto). specialize (M ot a1 a2). rewrite El in M. split; [split; auto|]. split; [|split].
    + split; [apply dedup_nodup|]. intros e1 e2. unfold event_couples. rewrite dedup_in, in_map_iff. split; [intros ([[x y] b] & [= <- <-] & H); exists b; apply M; auto|intros (b & H); exists (e1, e2, b); split; auto; apply M; auto].
    + split; [apply dedup_nodup|]. intros b. unfold edge_objects. rewrite dedup_in, in_map_iff. split; [intros ([[x y] b'] & <- & H); exists x, y; apply M; auto|intros (e1 & e2 & H); exists (e1, e2, b); split; auto; apply M; auto].
    + apply NoDup_Permutation; [apply dedup_nodup|auto|]. intros x. apply dedup_in.
Qed.
Print Assumptions C94_edges.
(** With two relations (of different qualifiers) between the same event and object, an event follows itself. *)
Definition twice : ocel := Ocel [OEv 1 7 0%Z 0] [OOb 2 9 0] [ORel 1 7 0%Z 2 9 0; ORel 1 7 0%Z 2 9 1] [] [] [].
Theorem C94_repeated_refuted : exists o d, well_formed o /\ find_edges o = Some d /\ In (1, 1, 2) (e_get d (9, (7, 7))) /\ ~ next_event o 2 1 1.
Proof.
  exists twice. eexists. split; [|split; [vm_compute; reflexivity|split; [left; reflexivity|]]].
  - assert (U : forall r, In r (o_rels twice) -> or_event r = 1 /\ or_object r = 2 /\ or_act r = 7 /\ or_time r = 0%Z /\ or_type r = 9) by (intros r [<-|[<-|[]]]; cbn; auto).
    split; [split; [|split; [intros e f []|split; [intros e f []|intros c []]]]|split; [repeat constructor; intros []|split; [repeat constructor; intros []|split]]].
    + intros e b (r & Hr & <- & <-). destruct (U r Hr) as (-> & -> & _). split; [exists (OEv 1 7 0%Z 0)|exists (OOb 2 9 0)]; cbn; auto.
    + intros r e Hr [<-|[]] _. destruct (U r Hr) as (_ & _ & A & B & _). auto.
    + intros r b Hr [<-|[]] _. destruct (U r Hr) as (_ & _ & _ & _ & A). auto.
  - intros (pre & x & mid & y & post & E & _). cbn in E. destruct pre as [|? [|? pre]]; try discriminate. injection E as _ E. destruct mid; discriminate.
Qed.
Print Assumptions C94_repeated_refuted.
(** The times of an edge are the differences of the timestamps of its pairs of events, sorted; none is negative when the events are in the
    order of their timestamps. *)
Theorem C94_performance : forall o l, well_formed o -> (forall e1 e2, In (e1, e2) l -> is_event o e1 /\ is_event o e2) -> exists ts, edge_times o l = Some ts /\
  StronglySorted Z.le ts /\ exists ds, Permutation ds ts /\ Forall2 (fun ee d => exists s t, happens_at o (fst ee) s /\ happens_at o (snd ee) t /\ d = (t - s)%Z) l ds.
Proof.
  intros o l (_ & N & _) H. unfold edge_times.
  set (f := fun ee : nat * nat => match time_of o (fst ee), time_of o (snd ee) with Some s, Some t => Some (t - s)%Z | _, _ => None end).
  assert (T : forall e, is_event o e -> exists t, time_of o e = Some t) by (intros e (x & Hx & <-); exists (oe_time x); apply time_of_ok; auto; exists x; auto).
  destruct (map_option_ok f l) as (ds & E & F).
  { intros [e1 e2] Hin. destruct (H e1 e2 Hin) as [H1 H2]. destruct (T e1 H1) as (s & Es), (T e2 H2) as (t & Et). exists (t - s)%Z. unfold f. cbn. rewrite Es, Et. auto. }
  exists (sorted_by (fun z => z) ds). rewrite E. split; [reflexivity|]. split; [exact (sorted_by_sorted (fun z => z) ds)|]. exists ds. split; [apply sorted_by_perm|].
  clear -F N. induction F as [|[e1 e2] d l ds Hf F IH]; constructor; auto. unfold f in Hf. cbn [fst snd] in *. destruct (time_of o e1) as [s|] eqn:Es; [|discriminate]. destruct (time_of o e2) as [t|] eqn:Et; [|discriminate].
  exists s, t. split; [apply time_of_ok; auto|]. split; [apply time_of_ok; auto|]. congruence.
Qed.
Print Assumptions C94_performance.
Theorem C94_performance_nonnegative : forall o b e1 e2 s t, well_formed o -> StronglySorted (fun x y => (oe_time x <= oe_time y)%Z) (o_events o) ->
  next_event o b e1 e2 -> happens_at o e1 s -> happens_at o e2 t -> (0 <= t - s)%Z.
Proof.
  intros o b e1 e2 s t (_ & N & _) St (pre & x & mid & y & post & E & <- & <- & _) H1 H2.
  assert (Hx : time_of o (oe_id x) = Some (oe_time x)) by (apply time_of_ok; auto; exists x; rewrite E, in_app_iff; cbn; auto).
  assert (Hy : time_of o (oe_id y) = Some (oe_time y)) by (apply time_of_ok; auto; exists y; split; [rewrite E; apply in_app_iff; right; right; apply in_app_iff; right; left; auto|auto]).
  apply time_of_ok in H1, H2; auto. rewrite Hx in H1. rewrite Hy in H2. injection H1 as <-. injection H2 as <-. rewrite E in St. clear -St.
  induction pre as [|z pre IH]; cbn in St; inversion St as [|? ? S F]; [|auto]. rewrite Forall_forall in F. specialize (F y). cbv beta in F. assert (oe_time x <= oe_time y)%Z by (apply F; apply in_app_iff; right; left; auto). lia.
Qed.
Print Assumptions C94_performance_nonnegative.
(** The activities: with the pairs of the relations of the activity, of a type, first and last of each object of the type. *)
Theorem C94_activities : forall o, NoDup (d_keys (activities_indep o)) /\ (forall a, In a (d_keys (activities_indep o)) <-> exists r, In r (o_rels o) /\ or_act r = a) /\
  forall a l, d_get (activities_indep o) a = Some l -> (forall e b, In (e, b) l <-> exists r, In r (o_rels o) /\ or_act r = a /\ or_event r = e /\ or_object r = b) /\
    (NoDup (assoc_events l) /\ forall e, In e (assoc_events l) <-> exists r, In r (o_rels o) /\ or_act r = a /\ or_event r = e) /\
    (NoDup (assoc_objects l) /\ forall b, In b (assoc_objects l) <-> exists r, In r (o_rels o) /\ or_act r = a /\ or_object r = b).
Proof.
  intros o. destruct (assoc_ok (o_rels o)) as (A & B & C). unfold activities_indep. split; auto. split; auto. intros a l H. specialize (C a l H). split; auto. split; (split; [apply dedup_nodup|]); intros x; [unfold assoc_events|unfold assoc_objects]; rewrite dedup_in, in_map_iff.
  - split; [intros ([e b] & <- & X); apply C in X as (r & ? & ? & ? & ?); eauto|intros (r & X & Y & <-); exists (or_event r, or_object r); split; auto; apply C; exists r; auto].
  - split; [intros ([e b] & <- & X); apply C in X as (r & ? & ? & ? & ?); eauto|intros (r & X & Y & <-); exists (or_event r, or_object r); split; auto; apply C; exists r; auto].
Qed.
Print Assumptions C94_activities.
Theorem C94_activities_of_type : forall ot o, NoDup (d_keys (activities_ot ot o)) /\ (forall a, In a (d_keys (activities_ot ot o)) <-> exists r, In r (o_rels o) /\ or_type r = ot /\ or_act r = a) /\
  forall a l, d_get (activities_ot ot o) a = Some l -> forall e b, In (e, b) l <-> exists r, In r (o_rels o) /\ or_type r = ot /\ or_act r = a /\ or_event r = e /\ or_object r = b.
Proof.
  intros ot o. destruct (assoc_ok (of_type ot o)) as (A & B & C). assert (T : forall r, In r (of_type ot o) <-> In r (o_rels o) /\ or_type r = ot) by (intros r; unfold of_type; rewrite filter_In, Nat.eqb_eq; tauto).
  split; auto. split; [intros a; unfold activities_ot; rewrite B; split; intros (r & X); exists r; rewrite T in *; tauto|]. intros a l H e b. rewrite (C a l H). split; intros (r & X); exists r; rewrite T in *; tauto.
Qed.
Print Assumptions C94_activities_of_type.
Theorem C94_start_activities : forall ot o, NoDup (d_keys (start_activities ot o)) /\ (forall a, In a (d_keys (start_activities ot o)) <-> exists r, first_row o ot r /\ or_act r = a) /\
  forall a l, d_get (start_activities ot o) a = Some l -> forall e b, In (e, b) l <-> exists r, first_row o ot r /\ or_act r = a /\ or_event r = e /\ or_object r = b.
Proof.
  intros ot o. destruct (assoc_ok (first_rows [] (of_type ot o))) as (A & B & C). split; auto. split; [intros a; unfold start_activities; rewrite B; split; intros (r & X); exists r; rewrite start_rows in *; tauto|]. intros a l H e b. rewrite (C a l H). split; intros (r & X); exists r; rewrite start_rows in *; tauto.
Qed.
Print Assumptions C94_start_activities.
Theorem C94_end_activities : forall ot o, NoDup (d_keys (end_activities ot o)) /\ (forall a, In a (d_keys (end_activities ot o)) <-> exists r, last_row o ot r /\ or_act r = a) /\
  forall a l, d_get (end_activities ot o) a = Some l -> forall e b, In (e, b) l <-> exists r, last_row o ot r /\ or_act r = a /\ or_event r = e /\ or_object r = b.
Proof.
  intros ot o. destruct (assoc_ok (first_rows [] (rev (of_type ot o)))) as (A & B & C). split; auto. split; [intros a; unfold end_activities; rewrite B; split; intros (r & X); exists r; rewrite end_rows in *; tauto|]. intros a l H e b. rewrite (C a l H). split; intros (r & X); exists r; rewrite end_rows in *; tauto.
Qed.
Print Assumptions C94_end_activities.

(** A log of two orders (type 9) and an item (type 8): the hypotheses hold. *)
Definition small : ocel := Ocel [OEv 1 7 0%Z 0; OEv 2 5 3%Z 0; OEv 3 6 4%Z 0] [OOb 1 9 0; OOb 2 9 0; OOb 3 8 0]
  [ORel 1 7 0%Z 1 9 0; ORel 1 7 0%Z 3 8 0; ORel 2 5 3%Z 2 9 0; ORel 3 6 4%Z 1 9 0; ORel 3 6 4%Z 3 8 0; ORel 3 6 4%Z 2 9 0] [] [] [].
Example C94_example : exists d, find_edges small = Some d /\ e_get d (9, (7, 6)) = [(1, 3, 1)] /\ e_get d (9, (5, 6)) = [(2, 3, 2)] /\ e_get d (8, (7, 6)) = [(1, 3, 3)] /\ related_once small.
Proof. eexists. split; [vm_compute; reflexivity|]. split; [reflexivity|]. split; [reflexivity|]. split; [reflexivity|]. repeat constructor; cbn; intuition discriminate. Qed.
Example C94_example_times : edge_times small [(1, 3); (2, 3)] = Some [1%Z; 4%Z]. Proof. reflexivity. Qed.
Example C94_example_start : start_activities 9 small = [(7, [(1, 1)]); (5, [(2, 2)])] /\ end_activities 9 small = [(6, [(3, 2); (3, 1)])]. Proof. split; reflexivity. Qed.
Example C94_example_well_formed : well_formed small.
Proof.
  split; [split; [|split; [intros e f []|split; [intros e f []|intros c []]]]|split; [repeat constructor; cbn; intuition discriminate|split; [repeat constructor; cbn; intuition discriminate|split]]].
  - intros e b (r & Hr & <- & <-). repeat (destruct Hr as [<-|Hr]; [split; eexists; first [solve [split; [left; reflexivity|reflexivity]]|solve [split; [right; left; reflexivity|reflexivity]]|solve [split; [right; right; left; reflexivity|reflexivity]]]|]). destruct Hr.
  - intros r e Hr He Hre. repeat (destruct Hr as [<-|Hr]; [repeat (destruct He as [<-|He]; [first [discriminate Hre|split; reflexivity]|]); destruct He|]). destruct Hr.
  - intros r e Hr He Hre. repeat (destruct Hr as [<-|Hr]; [repeat (destruct He as [<-|He]; [first [discriminate Hre|reflexivity]|]); destruct He|]). destruct Hr.
Qed.
