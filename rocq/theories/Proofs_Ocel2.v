From Coq Require Import List Arith Bool ZArith Lia Relations Permutation.
Import ListNotations.
From Verif Require Import Model_Dict Model_Dfg Model_Graph Model_IM Spec_Graph Proofs_Graph Proofs_IM1 Proofs_Dict Spec_Dfg Proofs_Dfg Spec_Filter Proofs_Filter Model_Ocel Spec_Ocel Proofs_Ocel1.
Local Open Scope nat_scope.
Local Arguments smem : simpl never.
Local Arguments both : simpl never.

Lemma exactly_positions {X} (p : X -> bool) l : exactly (length (filter p l)) (fun i => exists x, nth_error l i = Some x /\ p x = true).
Proof.
  induction l as [|x l IH]; [apply exactly_0; intros [|i] (y & E & _); discriminate|]. destruct IH as (J & N & L & HJ). cbn [filter].
  assert (NS : NoDup (map S J)) by (apply FinFun.Injective_map_NoDup; auto; intros a b; lia).
  destruct (p x) eqn:Ep.
  - exists (0 :: map S J). split; [constructor; auto; rewrite in_map_iff; intros (y & ? & _); discriminate|]. split; [cbn; rewrite map_length; auto|]. intros i. cbn. rewrite in_map_iff. split.
    + intros [<-|(j & <- & Hj)]; [exists x; auto|]. apply HJ in Hj. auto.
    + destruct i as [|i]; auto. intros H. right. exists i. split; auto. apply HJ; auto.
  - exists (map S J). split; auto. split; [rewrite map_length; auto|]. intros i. rewrite in_map_iff. split.
    + intros (j & <- & Hj). apply HJ in Hj. auto.
    + destruct i as [|i]; [intros (y & E & Hy); injection E as <-; congruence|]. intros H. exists i. split; auto. apply HJ; auto.
Qed.

(** ---- the number of objects per type *)
Lemma ot_count_ok o e t : type_count o e t (occ t (map or_type (filter (fun r => Nat.eqb (or_event r) e) (o_rels o)))).
Proof.
  unfold type_count, occ. rewrite filter_map_len.
  assert (E : forall l, length (filter (fun x => keqb (or_type x) t) (filter (fun r => Nat.eqb (or_event r) e) l)) = length (filter (fun r => Nat.eqb (or_event r) e && Nat.eqb (or_type r) t) l)).
  { induction l as [|r l IH]; auto. cbn. destruct (Nat.eqb (or_event r) e); cbn; [|auto]. change (keqb (or_type r) t) with (Nat.eqb (or_type r) t). destruct (Nat.eqb (or_type r) t); cbn; auto. }
  rewrite E. eapply exactly_ext; [|apply exactly_positions]. intros i. cbv beta. split; intros (r & A & B); exists r.
  - apply andb_true_iff in B as [B C]. apply Nat.eqb_eq in B, C. auto.
  - destruct B as [-> ->]. rewrite !Nat.eqb_refl. auto.
Qed.
Lemma enough_ok mins o e : enough mins (ot_counts o e) = true <-> forall k v, In (k, v) mins -> exists n, type_count o e k n /\ 1 <= n /\ v <= n.
Proof.
  unfold enough. rewrite forallb_forall. split.
  - intros H k v Hk. specialize (H _ Hk). cbn [fst snd] in H. unfold ot_counts in H. rewrite d_get_c_of in H. exists (occ k (map or_type (filter (fun r => Nat.eqb (or_event r) e) (o_rels o)))).
    split; [apply ot_count_ok|]. destruct (Nat.eqb_spec (occ k (map or_type (filter (fun r => Nat.eqb (or_event r) e) (o_rels o)))) 0); [discriminate|]. apply negb_true_iff, Nat.ltb_ge in H. lia.
  - intros H [k v] Hk. destruct (H k v Hk) as (n & Hn & H1 & H2). cbn [fst snd]. unfold ot_counts. rewrite d_get_c_of. pose proof (exactly_unique _ _ _ Hn (ot_count_ok o e k)) as E. rewrite <- E.
    destruct (Nat.eqb_spec n 0); [lia|]. apply negb_true_iff, Nat.ltb_ge. auto.
Qed.

(** ---- first and last rows *)
Lemma first_per_object_ok l : forall seen e, In e (first_per_object seen l) <->
  exists pre r post, l = pre ++ r :: post /\ or_event r = e /\ ~ In (or_object r) seen /\ forall s, In s pre -> or_object s <> or_object r.
Proof.
  induction l as [|q l IH]; intros seen e; cbn.
  - split; [intros []|intros ([|] & r & post & E & _); discriminate].
  - destruct (smem (or_object q) seen) eqn:Q.
    + apply smem_in in Q. rewrite IH. split.
      * intros (pre & r & post & -> & A & B & C). exists (q :: pre), r, post. split; auto. split; auto. split; auto. intros s [<-|Hs]; auto. congruence.
      * intros ([|q' pre] & r & post & E & A & B & C); cbn in E; injection E as -> ->; [tauto|]. exists pre, r, post. split; auto. split; auto. split; auto. intros s Hs; apply C; right; auto.
    + apply smem_false in Q. cbn. rewrite IH. split.
      * intros [<-|(pre & r & post & -> & A & B & C)]; [exists [], q, l; repeat split; auto|]. exists (q :: pre), r, post. split; auto. split; auto. split; [intros H; apply B; right; auto|]. intros s [<-|Hs]; auto. intros E; apply B; left; auto.
      * intros ([|q' pre] & r & post & E & A & B & C); cbn in E; injection E as -> ->; [left; auto|]. right. exists pre, r, post. split; auto. split; auto. split; [|intros s Hs; apply C; right; auto]. intros [H|H]; [|auto]. apply (C q'); [left|]; auto.
Qed.
Lemma filter_cons_split {X} (p : X -> bool) l : forall pre r post, filter p l = pre ++ r :: post -> exists a b, l = a ++ r :: b /\ filter p a = pre /\ filter p b = post /\ p r = true.
Proof.
  induction l as [|x l IH]; intros pre r post E; [destruct pre; discriminate|]. cbn in E. destruct (p x) eqn:Px.
  - destruct pre as [|y pre]; cbn in E; injection E as <- E.
    + exists [], l. auto.
    + destruct (IH _ _ _ E) as (a & b & -> & A & B & C). exists (x :: a), b. cbn. rewrite Px, A. auto.
  - destruct (IH _ _ _ E) as (a & b & -> & A & B & C). exists (x :: a), b. cbn. rewrite Px. auto.
Qed.
Lemma first_rows_ok o ot e : In e (first_per_object [] (filter (fun r => Nat.eqb (or_type r) ot) (o_rels o))) <-> exists r, first_row o ot r /\ or_event r = e.
Proof.
  rewrite first_per_object_ok. split.
  - intros (pre & r & post & E & <- & _ & C). apply filter_cons_split in E as (a & b & E & <- & <- & T). apply Nat.eqb_eq in T. exists r. split; auto. exists a, b. split; auto. split; auto. intros s Hs Ht. apply C. apply filter_In. rewrite Ht, Nat.eqb_refl. auto.
  - intros (r & (a & b & E & T & C) & <-). rewrite E, filter_app. cbn. rewrite T, Nat.eqb_refl. eexists _, r, _. split; [reflexivity|]. split; auto. split; auto. intros s Hs. apply filter_In in Hs as [Hs Ht]. apply Nat.eqb_eq in Ht. auto.
Qed.
Lemma filter_rev' {X} (p : X -> bool) l : filter p (rev l) = rev (filter p l).
Proof. induction l as [|x l IH]; auto. cbn. rewrite filter_app, IH. cbn. destruct (p x); auto. rewrite app_nil_r. auto. Qed.
Lemma last_rows_ok o ot e : In e (first_per_object [] (rev (filter (fun r => Nat.eqb (or_type r) ot) (o_rels o)))) <-> exists r, last_row o ot r /\ or_event r = e.
Proof.
  rewrite first_per_object_ok, <- filter_rev'. split.
  - intros (pre & r & post & E & <- & _ & C). apply filter_cons_split in E as (a & b & E & <- & <- & T). apply Nat.eqb_eq in T. exists r. split; auto.
    exists (rev b), (rev a). split; [|split; auto]. { rewrite <- (rev_involutive (o_rels o)), E, rev_app_distr. cbn. rewrite <- app_assoc. auto. }
    intros s Hs Ht. apply C. apply filter_In. rewrite Ht, Nat.eqb_refl. split; auto. apply in_rev; auto.
  - intros (r & (a & b & E & T & C) & <-). rewrite E, rev_app_distr, filter_app. cbn [rev]. rewrite filter_app. cbn. rewrite T, Nat.eqb_refl. rewrite <- app_assoc. eexists _, r, _. split; [reflexivity|]. split; auto. split; auto. intros s Hs. apply filter_In in Hs as [Hs Ht]. apply Nat.eqb_eq in Ht. apply C; auto. apply in_rev; auto.
Qed.

(** ---- meetings *)
Lemma rel_obj_in o e b : In b (rel_obj o e) <-> related o e b.
Proof.
  unfold rel_obj, related. rewrite in_map_iff. split.
  - intros (r & <- & A). apply filter_In in A as [A B]. apply Nat.eqb_eq in B. exists r; auto.
  - intros (r & A & <- & <-). exists r. split; auto. apply filter_In. rewrite Nat.eqb_refl. auto.
Qed.
Lemma rel_event_in o e : In e (map or_event (o_rels o)) <-> exists b, related o e b.
Proof. rewrite in_map_iff. split; [intros (r & <- & A); exists (or_object r), r; auto|intros (b & r & A & <- & _); exists r; auto]. Qed.
Lemma neighbours_in o a b : In b (neighbours o a) <-> meet o a b.
Proof.
  unfold neighbours, meet. rewrite in_flat_map. split.
  - intros (e & _ & H). destruct (smem a (rel_obj o e)) eqn:M; [|destruct H]. apply smem_in, rel_obj_in in M. apply filter_In in H as [H N]. apply rel_obj_in in H. apply negb_true_iff, Nat.eqb_neq in N. eauto.
  - intros (N & e & A & B). exists e. split; [apply rel_event_in; eauto|]. assert (smem a (rel_obj o e) = true) as -> by (apply smem_in, rel_obj_in; auto). apply filter_In. split; [apply rel_obj_in; auto|]. apply negb_true_iff, Nat.eqb_neq; auto.
Qed.
Lemma within_S o n a b : within o n a b -> within o (S n) a b.
Proof. induction 1; [constructor|econstructor; eauto]. Qed.
Lemma within_left o n a b c : meet o a b -> within o n b c -> within o (S n) a c.
Proof. intros M H. induction H; [econstructor; [constructor|auto]|econstructor; eauto]. Qed.
Lemma within_inv o n a c : within o (S n) a c -> within o n a c \/ exists b, meet o a b /\ within o n b c.
Proof.
  remember (S n) as m eqn:E. intros H. revert n E. induction H as [m a|m a b c H IH M]; intros n E; [left; constructor|]. injection E as ->.
  destruct n as [|n].
  - inversion H; subst. right. exists c. split; auto. constructor.
  - destruct (IH n eq_refl) as [H'|(x & Mx & H')]; [left; econstructor; eauto|]. right. exists x. split; auto. econstructor; eauto.
Qed.
Lemma expand_ok o : referential o -> forall n ids, (forall x, In x ids -> is_object o x) ->
  exists s, expand o n ids = Some s /\ forall y, In y s <-> exists x, In x ids /\ within o n x y.
Proof.
  intros R. induction n as [|n IH]; intros ids Hi; cbn [expand].
  - exists ids. split; auto. intros y. split; [intros H; exists y; split; auto; constructor|]. intros (x & Hx & H). inversion H; subst; auto.
  - assert (forallb (fun x => smem x (map oo_id (o_objects o))) ids = true) as ->. { apply forallb_forall. intros x Hx. apply smem_in, is_object_in, Hi; auto. }
    destruct (IH (ids ++ flat_map (neighbours o) ids)) as (s & Es & Hs).
    { intros x Hx. apply in_app_or in Hx as [Hx|Hx]; auto. apply in_flat_map in Hx as (y & _ & Hx). apply neighbours_in in Hx as (_ & e & _ & He). apply (proj1 R _ _ He). }
    exists s. split; auto. intros y. rewrite Hs. split.
    + intros (x & Hx & H). apply in_app_or in Hx as [Hx|Hx]; [exists x; split; auto; apply within_S; auto|]. apply in_flat_map in Hx as (z & Hz & Hx). apply neighbours_in in Hx. exists z. split; auto. eapply within_left; eauto.
    + intros (x & Hx & H). apply within_inv in H as [H|(b & M & H)]; [exists x; split; auto; apply in_or_app; auto|]. exists b. split; auto. apply in_or_app. right. apply in_flat_map. exists x. split; auto. apply neighbours_in; auto.
Qed.
Lemma filter_objects_ok o ids positive level : referential o -> (level <= 1 \/ forall x, In x ids -> is_object o x) ->
  exists o', filter_objects ids positive level o = Some o' /\ part_by_objects (fun b => polar positive (exists x, In x ids /\ within o (level - 1) x (oo_id b))) o o'.
Proof.
  intros R Hi. unfold filter_objects.
  assert (((1 <? level) && negb (forallb (fun r => smem (or_object r) (map oo_id (o_objects o))) (o_rels o))) = false) as ->.
  { destruct (forallb (fun r => smem (or_object r) (map oo_id (o_objects o))) (o_rels o)) eqn:F; [apply andb_false_r|]. exfalso. rewrite <- not_true_iff_false in F. apply F. apply forallb_forall. intros r Hr. apply smem_in, is_object_in. apply (proj1 R (or_event r) (or_object r)). exists r; auto. }
  assert (exists s, expand o (level - 1) ids = Some s /\ forall y, In y s <-> exists x, In x ids /\ within o (level - 1) x y) as (s & -> & Hs).
  { destruct Hi as [Hl|Hi]; [|apply expand_ok; auto]. replace (level - 1) with 0 by lia. exists ids. split; auto. intros y. split; [intros H; exists y; split; auto; constructor|]. intros (x & Hx & H). inversion H; subst; auto. }
  eexists. split; [reflexivity|]. apply objects_part; auto. intros b _. destruct positive; cbn; [rewrite smem_in|rewrite negb_true_iff, smem_false]; rewrite Hs; reflexivity.
Qed.

(** ---- graphs *)
Lemma less_pairs_in l1 l2 a b : In (a, b) (less_pairs l1 l2) <-> In a l1 /\ In b l2 /\ a < b.
Proof.
  unfold less_pairs. rewrite in_flat_map. split.
  - intros (x & Hx & H). apply in_flat_map in H as (y & Hy & H). destruct (Nat.ltb_spec x y); [|destruct H]. destruct H as [H|[]]. injection H as -> ->. auto.
  - intros (A & B & C). exists a. split; auto. apply in_flat_map. exists b. split; auto. apply Nat.ltb_lt in C as ->. left; auto.
Qed.
Lemma interaction_ok o a b : In (a, b) (interaction_graph o) <-> a < b /\ exists e, related o e a /\ related o e b.
Proof.
  unfold interaction_graph. rewrite in_flat_map. split.
  - intros (e & _ & H). apply less_pairs_in in H as (A & B & C). apply rel_obj_in in A, B. split; eauto.
  - intros (H & e & A & B). exists e. split; [apply rel_event_in; eauto|]. apply less_pairs_in. rewrite !rel_obj_in. auto.
Qed.
Lemma meet_edges o a b : meet o a b <-> In (a, b) (interaction_graph o) \/ In (b, a) (interaction_graph o).
Proof.
  rewrite !interaction_ok. unfold meet. split.
  - intros (N & e & A & B). destruct (Nat.lt_total a b) as [L|[L|L]]; [left|congruence|right]; split; eauto.
  - intros [(L & e & A & B)|(L & e & A & B)]; (split; [lia|eauto]).
Qed.
Section CC.
  Variable ord : list edge -> list edge.
  Hypothesis ord_in : forall l x, In x (ord l) <-> In x l.
  Lemma linked_path o a b : linked o a b <-> path (undirected (ord (interaction_graph o))) a b.
  Proof.
    split.
    - intros H. apply clos_rt_rt1n in H. induction H as [|a x b M H IH]; [constructor|]. econstructor; [|exact IH]. apply und_in. rewrite !ord_in. apply meet_edges; auto.
    - intros H. induction H as [|a x b M H IH]; [apply rt_refl|]. eapply rt_trans; [|exact IH]. apply rt_step. apply meet_edges. apply (proj1 (und_in _ _ _)) in M. rewrite !ord_in in M. auto.
  Qed.
  (** The components are the classes of the objects that meet some other object. *)
  Lemma conn_comp_ok o : NoDup (concat (conn_comp ord o)) /\
    (forall c, In c (conn_comp ord o) -> exists v, (exists w, meet o v w) /\ forall x, In x c <-> linked o v x) /\
    (forall v w, meet o v w -> exists c, In c (conn_comp ord o) /\ In v c).
  Proof.
    unfold conn_comp. set (E := ord (interaction_graph o)).
    destruct (components_spec E (graph_nodes E) [] ltac:(intros x y [])) as (H1 & H2 & H3 & H4). fold (connected_components E (graph_nodes E)) in *.
    assert (HN : forall v, In v (graph_nodes E) <-> exists w, meet o v w).
    { intros v. unfold graph_nodes. rewrite in_flat_map. split.
      - intros ([a b] & He & Hv). unfold E in He. rewrite ord_in in He. destruct Hv as [<-|[<-|[]]]; [exists b|exists a]; apply meet_edges; auto.
      - intros (w & M). apply meet_edges in M as [M|M]; [exists (v, w)|exists (w, v)]; unfold E; rewrite ord_in; cbn; auto. }
    split; auto. split.
    - intros c Hc. destruct (H4 c Hc) as (v & Hv & ->). exists v. split; [apply HN; auto|]. intros x. rewrite component_in. symmetry. apply linked_path.
    - intros v w M. destruct (H3 v) as [[]|Hv]; [apply HN; eauto|]. apply in_concat in Hv. auto.
  Qed.
  Lemma linked_sym o a b : linked o a b -> linked o b a.
  Proof.
    intros H. induction H as [a b (N & e & A & B)|a|a b c H1 I1 H2 I2]; [apply rt_step; split; [congruence|exists e; auto]|apply rt_refl|eapply rt_trans; eauto].
  Qed.
  Lemma linked_alone o a b : linked o a b -> a = b \/ exists c, meet o a c.
  Proof. intros H. apply clos_rt_rt1n in H. destruct H; eauto. Qed.
End CC.
