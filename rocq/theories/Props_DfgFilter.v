(** C37: filters on directly-follows graphs. *)
From Coq Require Import List Arith Bool ZArith QArith Qround Lia Permutation.
Import ListNotations.
From Verif Require Import Model_Dict Proofs_Dict Model_Dfg Spec_Dfg Proofs_Dfg Model_Graph Spec_Graph Proofs_Graph Model_DfgFilter Spec_DfgFilter Proofs_DfgFilter Proofs_DfgFilter2.
Local Open Scope nat_scope.

(** Keep a percentage of the activities: nothing is added or changed, all the activities left are on a path from a start
    to an end activity, and the activities with fewer than (N - 1) * p + 1 activities ranked above are kept. *)
Theorem C37_activities_percentage sn en d p : wf d -> fresh sn en d -> connected d -> (0 <= p)%Q ->
  let r := filter_dfg_on_activities_percentage sn en d p in
  wf r /\ smaller r d /\ connected r /\
  (forall a c n, In (a, c) (f_act d) -> exactly n (fun b => exists cb, In (b, cb) (f_act d) /\ act_above (b, cb) (a, c)) ->
     (inject_Z (Z.of_nat n) < inject_Z (Z.of_nat (length (f_act d) - 1)) * p + 1)%Q -> In (a, c) (f_act r)).
Proof.
  intros W F C Hp. unfold filter_dfg_on_activities_percentage. destruct (big d); [|cbn zeta; split; [auto|split; [apply smaller_refl|split; [auto|auto]]]].
  set (k := num_keep _ _). set (l := map fst (sort_desc act_ge (f_act d))).
  assert (Nd : NoDup (f_act d)) by (apply sub_fst_nodup, W). assert (P : Permutation (d_keys (f_act d)) l) by (apply Permutation_map, sort_perm).
  assert (Nl : NoDup l) by (eapply Permutation_NoDup; [exact P|apply W]).
  pose proof (act_loop_ok sn en (firstn k l) (rev (skipn k l)) d W F) as L.
  destruct (act_loop sn en (firstn k l) (rev (skipn k l)) d (graph_of sn en d)) as [d' g'].
  destruct L as (L1 & L2 & -> & L4).
  - intros a H. apply in_rev in H. apply (Permutation_in a (Permutation_sym P)). rewrite <- (firstn_skipn k l). apply in_or_app. auto.
  - apply NoDup_rev. rewrite <- (firstn_skipn k l) in Nl. clear - Nl. induction (firstn k l) as [|x m IH]; auto. inversion Nl; auto.
  - intros a H G. apply in_rev in G. eapply firstn_skipn_disj; eauto.
  - intros a H. apply incl_firstn in H. apply (Permutation_in a (Permutation_sym P)) in H. auto.
  - pose proof (fresh_smaller sn en _ _ L2 F) as F'. destruct (clean sn en d' L1 F') as (C1 & C2 & C3 & C4 & C5 & C6 & C7). cbn zeta in *. split; [auto|]. split; [eapply smaller_trans; eauto|]. split; [auto|].
    intros a c n Ha Hn Hq. apply num_keep_spec in Hq. fold k in Hq. rewrite <- (above_filter d a n c) in Hq by (auto; apply W).
    assert (T : In (a, c) (firstn k (sort_desc act_ge (f_act d)))).
    { apply top_k; auto.
      - intros x y. rewrite !act_ge_spec. unfold act_above. destruct x, y; cbn. destruct (Nat.lt_trichotomy n1 n3) as [H|[H|H]], (Nat.lt_trichotomy n0 n2) as [G|[G|G]]; subst; auto 6.
      - intros x y z. rewrite !act_ge_spec. unfold act_above. destruct x, y, z; cbn. intros [H|H] [G|G]; try (inversion H; subst); try (inversion G; subst); auto; left; lia.
      - intros x y. rewrite !act_ge_spec. unfold act_above. destruct x, y; cbn. intros [H|H] [G|G]; auto; try congruence. lia. }
    assert (Tk : In a (firstn k l)) by (unfold l; rewrite firstn_map; apply in_map_iff; exists (a, c); auto).
    destruct (L4 a Tk) as [K1 K2]. apply C4. split; [|auto]. unfold d_keys in K1. apply in_map_iff in K1. destruct K1 as ([a' c'] & E & K1). cbn in E. subst a'.
    assert (X : In (a, c') (f_act d)) by (apply L2; auto). apply d_in_get in X; [|apply W]. apply d_in_get in Ha; [|apply W]. congruence.
Qed.
Print Assumptions C37_activities_percentage.

Lemma edge_total x y : edge_ge x y = true \/ edge_ge y x = true.
Proof.
  rewrite !edge_ge_spec. unfold edge_above. destruct x as [[a b] c], y as [[a' b'] c']; cbn.
  destruct (Nat.lt_trichotomy c c') as [H|[H|H]], (Nat.lt_trichotomy a a') as [G|[G|G]], (Nat.lt_trichotomy b b') as [K|[K|K]]; subst; auto 8.
Qed.
Lemma edge_trans x y z : edge_ge x y = true -> edge_ge y z = true -> edge_ge x z = true.
Proof.
  rewrite !edge_ge_spec. unfold edge_above. destruct x as [[a b] c], y as [[a' b'] c'], z as [[a'' b''] c'']; cbn. intros [H|H] [G|G]; try (inversion H; subst); try (inversion G; subst); auto; left; lia.
Qed.
Lemma edge_antisym x y : edge_ge x y = true -> edge_ge y x = true -> x = y.
Proof. rewrite !edge_ge_spec. unfold edge_above. destruct x as [[a b] c], y as [[a' b'] c']; cbn. intros [H|H] [G|G]; auto; try congruence. lia. Qed.

(** Keep a percentage of the paths: the same for the pairs of the DFG, the start and the end activities (all_edges
    lists them, with the artificial nodes sn and en), and with keep_all all the activities are kept. *)
Theorem C37_paths_percentage sn en d p keep_all : wf d -> fresh sn en d -> connected d -> (0 <= p)%Q ->
  let r := filter_dfg_on_paths_percentage sn en d p keep_all in
  wf r /\ smaller r d /\ connected r /\ (keep_all = true -> forall a, In a (d_keys (f_act d)) -> In a (d_keys (f_act r))) /\
  (forall e c n, In (e, c) (all_edges sn en d) -> exactly n (fun e' => exists c', In (e', c') (all_edges sn en d) /\ edge_above (e', c') (e, c)) ->
     (inject_Z (Z.of_nat n) < inject_Z (Z.of_nat (length (all_edges sn en d) - 1)) * p + 1)%Q -> In (e, c) (all_edges sn en r)).
Proof.
  intros W F C Hp. unfold filter_dfg_on_paths_percentage. destruct (big d); [|cbn zeta; split; [auto|split; [apply smaller_refl|split; [auto|split; auto]]]].
  set (k := num_keep _ _). set (l := map fst (sort_desc edge_ge (all_edges sn en d))).
  assert (P : Permutation (graph_of sn en d) l) by (rewrite <- all_edges_keys; apply Permutation_map, sort_perm).
  assert (Nl : NoDup l) by (eapply Permutation_NoDup; [exact P|apply graph_nodup; auto]).
  assert (Nd : NoDup (all_edges sn en d)) by (apply (NoDup_map_inv fst); rewrite all_edges_keys; apply graph_nodup; auto).
  assert (I : incl (firstn k l) (graph_of sn en d)) by (intros e H; apply incl_firstn in H; apply (Permutation_in e (Permutation_sym P)); auto).
  destruct (specified sn en d (rev (skipn k l)) (not_to_discard sn en keep_all d (firstn k l)) W F) as (S1 & S2 & S3 & S4 & S5); [intros a H; apply keep_acts in H; auto|].
  cbn zeta. split; [auto|]. split; [auto|]. split; [auto|]. split.
  - intros -> a Ha. apply S4. unfold not_to_discard. rewrite !in_app_iff. auto.
  - intros [x y] c n Ha Hn Hq. apply num_keep_spec in Hq. fold k in Hq. rewrite <- (edge_above_filter sn en d (x, y) n c) in Hq by auto.
    assert (T : In (x, y, c) (firstn k (sort_desc edge_ge (all_edges sn en d)))) by (apply top_k; auto; [apply edge_total|apply edge_trans|apply edge_antisym]).
    assert (Tk : In (x, y) (firstn k l)) by (unfold l; rewrite firstn_map; apply in_map_iff; exists (x, y, c); auto).
    destruct (keep_nd sn en keep_all d (firstn k l) x y W I Tk) as [K1 K2]. apply S5; auto. intros G. apply in_rev in G. exact (firstn_skipn_disj k l (x, y) Nl Tk G).
Qed.
Print Assumptions C37_paths_percentage.

Lemma dependency_ok d x y : wf d -> dependency_measure d x y (dependency (f_dfg d) (x, y)).
Proof.
  intros W. pose proof W as (N & _).
  assert (G : forall a b, link_count d a b (match d_get (f_dfg d) (a, b) with Some n => n | None => 0 end)).
  { intros a b. unfold link_count. destruct (d_get (f_dfg d) (a, b)) as [n|] eqn:E; [left; apply (d_get_in (f_dfg d)) in E; auto|].
    right. split; auto. apply (d_get_none (f_dfg d)). exact E. }
  eexists _, _. split; [apply G|]. split; [apply G|]. unfold dependency. cbn [fst snd].
  destruct (d_get (f_dfg d) (y, x)) as [m|]; destruct (d_get (f_dfg d) (x, y)) as [n|];
   rewrite ?inject_Z_plus; unfold Zminus; rewrite ?inject_Z_plus, ?inject_Z_opp; change (inject_Z (Z.of_nat 0)) with 0%Q; change (inject_Z 1) with 1%Q; unfold Qminus, Qdiv;
   rewrite ?Qplus_0_l, ?Qplus_0_r; try reflexivity.
Qed.
(** Dependency threshold: the links with at least that dependency are kept. *)
Theorem C37_keep_connected sn en ord d thr keep_all : (forall l, Permutation (ord l) l) -> wf d -> fresh sn en d -> connected d ->
  let r := filter_dfg_keep_connected sn en ord d thr keep_all in
  wf r /\ smaller r d /\ connected r /\ (keep_all = true -> forall a, In a (d_keys (f_act d)) -> In a (d_keys (f_act r))) /\
  (forall x y c, In ((x, y), c) (f_dfg d) -> (forall q, dependency_measure d x y q -> thr <= q)%Q -> In ((x, y), c) (f_dfg r)) /\
  ((thr <= 1)%Q -> (forall kv, In kv (f_start r) <-> In kv (f_start d)) /\ (forall kv, In kv (f_end r) <-> In kv (f_end d))).
Proof.
  intros Ho W F C. unfold filter_dfg_keep_connected. destruct (big d); [|cbn zeta; split; [auto|split; [apply smaller_refl|split; [auto|split; [auto|split; [auto|intros _; split; intros; tauto]]]]]].
  set (l := ord (dep_edges sn en d)). set (keepb := fun x : edge * Q => Qle_bool thr (snd x)). set (nd := map fst (filter keepb l)).
  assert (Kd : map fst (dep_edges sn en d) = graph_of sn en d) by (unfold dep_edges, graph_of; rewrite !map_app, !map_map; cbn [fst]; rewrite map_id; auto).
  assert (P : Permutation (map fst l) (graph_of sn en d)) by (rewrite <- Kd; apply Permutation_map, Ho).
  assert (Nl : NoDup (map fst l)) by (eapply Permutation_NoDup; [apply Permutation_sym; exact P|apply graph_nodup; auto]).
  assert (I : incl nd (graph_of sn en d)). { intros e H. unfold nd in H. apply in_map_iff in H. destruct H as (x & <- & H). apply filter_In in H. apply (Permutation_in _ P). apply in_map. tauto. }
  destruct (specified sn en d (rev (map fst (filter (fun x => negb (keepb x)) l))) (not_to_discard sn en keep_all d nd) W F) as (S1 & S2 & S3 & S4 & S5); [intros a H; apply keep_acts in H; auto|].
  assert (Keep : forall x y c q, In ((x, y), c) (all_edges sn en d) -> In ((x, y), q) (dep_edges sn en d) -> (thr <= q)%Q -> In ((x, y), c) (all_edges sn en (filter_specified_paths sn en d (graph_of sn en d) (rev (map fst (filter (fun x => negb (keepb x)) l))) (not_to_discard sn en keep_all d nd)))).
  { intros x y c q Hc Hq Ht. apply (Permutation_in _ (Permutation_sym (Ho _))) in Hq. fold l in Hq. apply Qle_bool_iff in Ht.
    assert (Tk : In (x, y) nd) by (unfold nd; apply in_map_iff; exists ((x, y), q); split; auto; apply filter_In; auto). destruct (keep_nd sn en keep_all d nd x y W I Tk) as [K1 K2].
    apply S5; auto. intros G. apply in_rev in G. apply in_map_iff in G. destruct G as ([e q'] & E & G). cbn in E. subst e. apply filter_In in G. destruct G as [G1 G2]. unfold keepb in G2. cbn in G2.
    assert (E : q' = q). { apply (d_in_get l) in G1; auto. apply (d_in_get l) in Hq; auto. congruence. } subst q'. rewrite Ht in G2. discriminate. }
  pose proof (fresh_smaller sn en _ _ S2 F) as (F1 & F2 & F3). pose proof F as (G1 & G2 & G3). pose proof W as (_ & _ & _ & _ & W1 & W2 & W3). pose proof S1 as (_ & _ & _ & _ & V1 & V2 & V3).
  cbn zeta. split; [auto|]. split; [auto|]. split; [auto|]. split; [intros -> a Ha; apply S4; unfold not_to_discard; rewrite !in_app_iff; auto|]. split.
  - intros x y c H Ht0. assert (Ht := Ht0 _ (dependency_ok d x y W)). assert (X : In ((x, y), c) (all_edges sn en (filter_specified_paths sn en d (graph_of sn en d) (rev (map fst (filter (fun x => negb (keepb x)) l))) (not_to_discard sn en keep_all d nd)))).
    { apply (Keep x y c (dependency (f_dfg d) (x, y))); auto; [apply all_edges_in; auto|]. unfold dep_edges. apply in_app_iff. left. apply in_map_iff. exists (x, y). split; auto. apply (in_map fst) in H. auto. }
    apply all_edges_in in X. apply (in_map fst) in H. apply W1 in H. destruct X as [X|[[-> _]|[-> _]]]; tauto.
  - intros Ht. split; intros [a c]; (split; [apply S2|]); intros H.
    + assert (Ha : In a (d_keys (f_act d))) by (apply W2; apply (in_map fst) in H; auto). assert (X := Keep sn a c 1%Q). rewrite !all_edges_in in X. destruct X as [X|[[_ X]|[-> X]]]; auto.
      * unfold dep_edges. rewrite !in_app_iff, !in_map_iff. right; left. exists a. split; auto. apply (in_map fst) in H. auto.
      * apply (in_map fst) in X. apply V1 in X. tauto.
      * tauto.
    + assert (Ha : In a (d_keys (f_act d))) by (apply W3; apply (in_map fst) in H; auto). assert (X := Keep a en c 1%Q). rewrite !all_edges_in in X. destruct X as [X|[[-> X]|[_ X]]]; auto.
      * unfold dep_edges. rewrite !in_app_iff, !in_map_iff. right; right. exists a. split; auto. apply (in_map fst) in H. auto.
      * apply (in_map fst) in X. apply V1 in X. tauto.
      * tauto.
Qed.
Print Assumptions C37_keep_connected.

(** Transitive successors and predecessors of the activities *)
Theorem C37_successors ord E acts fuel : (forall l, Permutation (ord l) l) -> (forall x y, In (x, y) E -> In x acts /\ In y acts) -> length acts * length acts < fuel ->
  (exists r, get_successors ord fuel E acts = Some r /\ forall x y, In x acts -> In y (sget r x) <-> path1 E x y) /\
  (exists r, get_predecessors ord fuel E acts = Some r /\ forall x y, In x acts -> In y (sget r x) <-> path1 E y x).
Proof. intros Ho HE F. split; [apply get_successors_spec|apply get_predecessors_spec]; auto. Qed.
Print Assumptions C37_successors.

(** Only one end activity: exactly the part of the graph that leads from the start activities to it is kept. *)
Lemma first_visit (E : list edge) target : forall x y, path E x y -> y = target -> path (filter (fun e => negb (Nat.eqb (fst e) target)) E) x y.
Proof.
  induction 1 as [|x y z H P IH]; intros Hz; [constructor|]. destruct (Nat.eq_dec x target) as [->|N]; [subst; constructor|]. econstructor; [|apply IH; auto]. apply filter_In. split; auto. cbn. apply negb_true_iff, Nat.eqb_neq. auto.
Qed.
Lemma cut_keys target c d : d_keys (f_dfg (cut_out target c d)) = filter (fun e => negb (Nat.eqb (fst e) target)) (d_keys (f_dfg d)).
Proof. exact (keys_filter (fun e : nat * nat => negb (Nat.eqb (fst e) target)) (f_dfg d)). Qed.
Lemma kept_iff target c d a : kept (cut_out target c d) target a <-> a = target \/ leads_to d target a.
Proof. unfold kept, between, leads_to. rewrite cut_keys. cbn [cut_out f_start]. firstorder. Qed.
Theorem C37_to_activity ord d target : (forall l, Permutation (ord l) l) -> wf d -> In target (d_keys (f_act d)) ->
  exists r, filter_dfg_to_activity ord d target = Some r /\ wf r /\ (exists c, In (target, c) (f_act d) /\ f_end r = [(target, c)]) /\
  (forall a n, In (a, n) (f_act r) <-> In (a, n) (f_act d) /\ (a = target \/ leads_to d target a)) /\
  (forall a n, In (a, n) (f_start r) <-> In (a, n) (f_start d) /\ (a = target \/ leads_to d target a)) /\
  (forall x y n, In ((x, y), n) (f_dfg r) <-> In ((x, y), n) (f_dfg d) /\ x <> target /\ (x = target \/ leads_to d target x) /\ (y = target \/ leads_to d target y)) /\
  ((exists s, In s (d_keys (f_start d)) /\ path (d_keys (f_dfg d)) s target) -> connected r).
Proof.
  intros Ho W Ht. destruct (to_activity_ok ord Ho d target W Ht) as (c & r & Hc & E & I & K). exists r. split; [auto|]. pose proof I as (W' & S & Ee & I1 & I2 & I3). pose proof S as (S1 & S2 & S3 & S4).
  pose proof W' as (_ & _ & _ & _ & V1 & V2 & V3). split; [auto|]. split; [eauto|].
  assert (Kin : forall a n, In (a, n) (f_act r) -> a = target \/ leads_to d target a). { intros a n H. apply (in_map fst) in H. apply K in H. apply kept_iff in H. auto. }
  assert (Kk : forall a, In a (d_keys (f_act r)) -> a = target \/ leads_to d target a). { intros a H. apply K in H. apply kept_iff in H. auto. }
  split; [intros a n; split; [intros H; split; [apply S4 in H; auto|eauto]|intros [H1 H2]; apply I1; auto; apply kept_iff; auto]|].
  split; [intros a n; split; [intros H; split; [apply S2 in H; auto|apply Kk, V2; apply (in_map fst) in H; auto]|intros [H1 H2]; apply I2; auto; apply kept_iff; auto]|].
  split.
  - intros x y n. split.
    + intros H. pose proof H as H'. apply S1 in H'. cbn [cut_out f_dfg] in H'. apply filter_In in H'. destruct H' as [H1 H2]. cbn [fst] in H2. apply negb_true_iff, Nat.eqb_neq in H2. apply (in_map fst) in H. apply V1 in H. destruct H. auto.
    + intros (H1 & H2 & H3 & H4). apply I3; try (apply kept_iff; auto). cbn [cut_out f_dfg]. apply filter_In. split; auto. cbn [fst]. apply negb_true_iff, Nat.eqb_neq. auto.
  - intros (s & Hs & Hp) a Ha. apply Kk in Ha. assert (B : between (cut_out target c d) target a).
    { unfold between. rewrite cut_keys. cbn [cut_out f_start]. destruct Ha as [->|(s' & G1 & G2 & G3)]; [split; [exists s; split; auto; apply first_visit; auto|constructor]|eauto]. }
    apply (between_eq _ target c r a I) in B. destruct B as [(s' & B1 & B2) B3]. exists s', target. rewrite Ee. cbn. auto.
Qed.
Print Assumptions C37_to_activity.

Lemma flip_filter E source : flip (filter (fun e => negb (Nat.eqb (snd e) source)) E) = filter (fun e => negb (Nat.eqb (fst e) source)) (flip E).
Proof. unfold flip. rewrite filter_map. auto. Qed.
Lemma leads_flip d source a : leads_to (flipd d) source a <-> follows d source a.
Proof.
  unfold leads_to, follows. rewrite flipd_keys, <- flip_filter. cbn [flipd f_start]. split; intros (e & H1 & H2 & H3); exists e; (split; [auto|]); [rewrite !path_flip_iff in *|rewrite !path_flip_iff]; auto.
Qed.
Lemma on_path_flip d a : on_path (flipd d) a <-> on_path d a.
Proof.
  unfold on_path. rewrite flipd_keys. cbn [flipd f_start f_end]. split; intros (s & e & H1 & H2 & H3 & H4); exists e, s; (split; [auto|]); (split; [auto|]); [rewrite !path_flip_iff in *|rewrite !path_flip_iff]; auto.
Qed.
Theorem C37_from_activity ord d source : (forall l, Permutation (ord l) l) -> wf d -> In source (d_keys (f_act d)) ->
  exists r, filter_dfg_from_activity ord d source = Some r /\ wf r /\ (exists c, In (source, c) (f_act d) /\ f_start r = [(source, c)]) /\
  (forall a n, In (a, n) (f_act r) <-> In (a, n) (f_act d) /\ (a = source \/ follows d source a)) /\
  (forall a n, In (a, n) (f_end r) <-> In (a, n) (f_end d) /\ (a = source \/ follows d source a)) /\
  (forall x y n, In ((x, y), n) (f_dfg r) <-> In ((x, y), n) (f_dfg d) /\ y <> source /\ (x = source \/ follows d source x) /\ (y = source \/ follows d source y)) /\
  ((exists e, In e (d_keys (f_end d)) /\ path (d_keys (f_dfg d)) source e) -> connected r).
Proof.
  intros Ho W Hs. destruct (C37_to_activity ord (flipd d) source Ho (flipd_wf d W)) as (r & E & W' & E1 & E2 & E3 & E4 & E5); auto. exists (flipd r).
  split; [rewrite from_activity_eq, E; auto|]. split; [apply flipd_wf; auto|]. split; [auto|]. cbn [flipd f_act f_end f_start] in *.
  split; [intros a n; rewrite E2, leads_flip; tauto|]. split; [intros a n; rewrite E3, leads_flip; tauto|]. split.
  - intros x y n. rewrite (flipd_in r), E4, flipd_in, !leads_flip. tauto.
  - intros (e & H1 & H2) a Ha. apply (on_path_flip r). apply E5; auto. exists e. split; auto. rewrite flipd_keys. apply path_flip_iff. auto.
Qed.
Print Assumptions C37_from_activity.

Theorem C37_contain_activity ord d act : (forall l, Permutation (ord l) l) -> wf d -> In act (d_keys (f_act d)) ->
  let E := d_keys (f_dfg d) in
  exists r, filter_dfg_contain_activity ord d act = Some r /\ wf r /\
  (forall a n, In (a, n) (f_act r) <-> In (a, n) (f_act d) /\ (path E a act \/ path E act a)) /\
  (forall a n, In (a, n) (f_start r) <-> In (a, n) (f_start d) /\ path E a act) /\
  (forall a n, In (a, n) (f_end r) <-> In (a, n) (f_end d) /\ path E act a) /\
  (forall x y n, In ((x, y), n) (f_dfg r) <-> In ((x, y), n) (f_dfg d) /\ (path E x act \/ path E act x) /\ (path E y act \/ path E act y)) /\
  (connected d -> connected r).
Proof.
  intros Ho W Ha E. unfold filter_dfg_contain_activity. assert (M : d_mem (f_act d) act = true) by (apply mem_keys; auto). rewrite M.
  destruct (contain_loop_ok ord Ho d act W Ha) with (fuel := length (f_act d) + length (f_start d) + length (f_end d) + 1) (d := d) as (r & L1 & L2 & L3 & L4 & L5).
  - split; [auto|]. split; [apply smaller_refl|]. auto.
  - lia.
  - exists r. pose proof L2 as (W' & S & I1 & I2 & I3 & I4). pose proof S as (S1 & S2 & S3 & S4). pose proof W' as (_ & _ & _ & _ & V1 & V2 & V3). split; [auto|]. split; [auto|].
    split; [intros a n; split; [intros H; split; [apply S4; auto|apply L3; apply (in_map fst) in H; auto]|intros [H1 H2]; apply I1; auto]|].
    split; [intros a n; split; [intros H; split; [apply S2; auto|apply L4; apply (in_map fst) in H; auto]|intros [H1 H2]; apply I2; auto]|].
    split; [intros a n; split; [intros H; split; [apply S3; auto|apply L5; apply (in_map fst) in H; auto]|intros [H1 H2]; apply I3; auto]|].
    split; [intros x y n; split; [intros H; split; [apply S1; auto|]; apply (in_map fst) in H; apply V1 in H; destruct H; split; apply L3; auto|intros (H1 & H2 & H3); apply I4; auto]|].
    intros C a Hin.
    assert (Kd : forall k, near d act (fst k) /\ near d act (snd k) -> In k E -> In k (d_keys (f_dfg r))).
    { apply (keys_lift (f_dfg d) (f_dfg r) (fun k => near d act (fst k) /\ near d act (snd k))). intros [x y] n [G1 G2]. auto. }
    assert (To : forall x y, path E x y -> path E y act -> path (d_keys (f_dfg r)) x y).
    { induction 1 as [|x y z H P IH]; intros Hz; [constructor|]. assert (Py : path E y act) by (eapply path_trans; eauto). econstructor; [|apply IH; auto]. apply Kd; [|eauto]. split; left; cbn; auto. econstructor; eauto. }
    assert (From : forall x y, path E x y -> path E act x -> path (d_keys (f_dfg r)) x y).
    { induction 1 as [|x y z H P IH]; intros Hz; [constructor|]. assert (Py : path E act y) by (eapply path_trans; eauto; apply path_edge; auto). econstructor; [|apply IH; auto]. apply Kd; [|eauto]. split; right; auto. }
    destruct (C act Ha) as (s0 & e0 & A1 & A2 & A3 & A4). apply L3 in Hin. destruct Hin as [N|N].
    + assert (Xa : In a (d_keys (f_act d))) by (eapply near_act; eauto; left; auto). destruct (C a Xa) as (s & e & H1 & H2 & H3 & H4). exists s, e0. split; [|split; [|split]].
      * apply (keys_lift (f_start d) (f_start r) (fun k => path E k act)); auto. eapply path_trans; eauto.
      * apply (keys_lift (f_end d) (f_end r) (fun k => path E act k)); auto.
      * apply To; auto.
      * apply (path_trans _ _ act); [apply To; [assumption|constructor]|apply From; [assumption|constructor]].
    + assert (Xa : In a (d_keys (f_act d))) by (eapply near_act; eauto; right; auto). destruct (C a Xa) as (s & e & H1 & H2 & H3 & H4). exists s0, e. split; [|split; [|split]].
      * apply (keys_lift (f_start d) (f_start r) (fun k => path E k act)); auto.
      * apply (keys_lift (f_end d) (f_end r) (fun k => path E act k)); auto. apply (path_trans _ _ a); auto.
      * apply (path_trans _ _ act); [apply To; [assumption|constructor]|apply From; [assumption|constructor]].
      * apply From; auto.
Qed.
Print Assumptions C37_contain_activity.

(** ** Non-vacuity *)
Definition g1 : fdfg := FD [((1, 2), 5); ((1, 3), 2); ((2, 4), 5); ((3, 4), 2)] [(1, 7)] [(4, 7)] [(1, 7); (2, 5); (3, 2); (4, 7)].
Example g1_wf : wf g1 /\ fresh 100 101 g1 /\ connected g1.
Proof.
  split; [|split].
  - unfold wf. cbn. repeat split; try (repeat constructor; cbn; intuition discriminate); repeat match goal with H : _ \/ _ |- _ => destruct H | H : (_, _) = (_, _) |- _ => inversion H; subst; clear H | H : False |- _ => destruct H | H : _ = _ |- _ => subst end; auto.
  - unfold fresh. cbn. intuition discriminate.
  - intros a Ha. exists 1, 4. split; [left; auto|]. split; [left; auto|].
    assert (P12 : path (d_keys (f_dfg g1)) 1 2) by (apply path_edge; cbn; auto). assert (P13 : path (d_keys (f_dfg g1)) 1 3) by (apply path_edge; cbn; auto).
    assert (P24 : path (d_keys (f_dfg g1)) 2 4) by (apply path_edge; cbn; auto). assert (P34 : path (d_keys (f_dfg g1)) 3 4) by (apply path_edge; cbn; auto).
    assert (P14 : path (d_keys (f_dfg g1)) 1 4) by (eapply path_trans; eauto).
    cbn in Ha. destruct Ha as [<-|[<-|[<-|[<-|[]]]]]; split; auto; constructor.
Qed.
Example g1_filter : filter_dfg_on_activities_percentage 100 101 g1 (2 # 3) = FD [((1, 2), 5); ((2, 4), 5)] [(1, 7)] [(4, 7)] [(1, 7); (2, 5); (4, 7)].
Proof. vm_compute. reflexivity. Qed.
Example g1_paths : f_dfg (filter_dfg_on_paths_percentage 100 101 g1 (1 # 5) false) = [((1, 2), 5); ((2, 4), 5)].
Proof. vm_compute. reflexivity. Qed.
