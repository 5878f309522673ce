From Coq Require Import List Arith Bool ZArith QArith Qround Lia Permutation Sorted.
Import ListNotations.
From Verif Require Import Model_Dict Proofs_Dict Model_Dfg Spec_Dfg Proofs_Dfg Model_Graph Spec_Graph Proofs_Graph Model_DfgFilter Spec_DfgFilter Proofs_DfgFilter.
Local Open Scope nat_scope.
Local Arguments keqb {K Key} : simpl never.
Local Arguments Nat.ltb : simpl never.
Local Arguments Nat.eqb : simpl never.

Section P.
  Variables sn en : nat.
  Lemma all_edges_in d x y c : In ((x, y), c) (all_edges sn en d) <-> In ((x, y), c) (f_dfg d) \/ (x = sn /\ In (y, c) (f_start d)) \/ (y = en /\ In (x, c) (f_end d)).
  Proof.
    unfold all_edges. rewrite !in_app_iff, !in_map_iff. split.
    - intros [H|[([a n] & [= <- <- <-] & H)|([a n] & [= <- <- <-] & H)]]; auto.
    - intros [H|[[-> H]|[-> H]]]; auto; right; [left; exists (y, c)|right; exists (x, c)]; auto.
  Qed.
  Lemma all_edges_keys d : map fst (all_edges sn en d) = graph_of sn en d.
  Proof. unfold all_edges, graph_of, d_keys. rewrite !map_app, !map_map. auto. Qed.
  Lemma graph_nodup d : wf d -> fresh sn en d -> NoDup (graph_of sn en d).
  Proof.
    intros (N1 & N2 & N3 & _ & W1 & W2 & W3) (F1 & F2 & F3). unfold graph_of. apply NoDup_app_intro; auto.
    - apply NoDup_app_intro.
      + apply NoDup_map_inj; auto. intros ? ? [= ?]; auto.
      + apply NoDup_map_inj; auto. intros ? ? [= ?]; auto.
      + intros e H1 H2. apply in_map_iff in H1, H2. destruct H1 as (a & <- & H1), H2 as (b & [= -> ->] & H2). apply W3 in H2. auto.
    - intros [x y] H1 H2. apply W1 in H1. apply in_app_iff in H2. rewrite !in_map_iff in H2. destruct H2 as [(a & [= -> ->] & _)|(a & [= -> ->] & _)]; tauto.
  Qed.
  Lemma delete_edge_wf e d : wf d -> wf (delete_edge sn en e d).
  Proof.
    intros W. pose proof W as (N1 & N2 & N3 & N4 & W1 & W2 & W3). unfold delete_edge. destruct (d_mem (f_dfg d) e); [|destruct (Nat.eqb (fst e) sn); [|destruct (Nat.eqb (snd e) en); auto]];
    unfold wf, d_del; cbn [f_dfg f_start f_end f_act]; (split; [auto using nodup_keys_filter|]; split; [auto using nodup_keys_filter|]; split; [auto using nodup_keys_filter|]; split; [auto|]); (split; [|split]); intros; auto.
    - apply (W1 x y). apply (incl_keys _ _ (incl_filter _ _)) in H. auto.
    - apply W2. apply (incl_keys _ _ (incl_filter _ _)) in H. auto.
    - apply W3. apply (incl_keys _ _ (incl_filter _ _)) in H. auto.
  Qed.
  Lemma delete_edge_smaller e d : smaller (delete_edge sn en e d) d /\ f_act (delete_edge sn en e d) = f_act d.
  Proof.
    unfold delete_edge. destruct (d_mem (f_dfg d) e); [|destruct (Nat.eqb (fst e) sn); [|destruct (Nat.eqb (snd e) en)]]; (split; [|auto]); unfold smaller, sub_dict, d_del; cbn [f_dfg f_start f_end f_act]; repeat split; try apply incl_refl; apply incl_filter.
  Qed.
  Lemma delete_edge_other e d x y c : wf d -> fresh sn en d -> e <> (x, y) -> In ((x, y), c) (all_edges sn en d) -> In ((x, y), c) (all_edges sn en (delete_edge sn en e d)).
  Proof.
    intros (_ & _ & _ & _ & W1 & W2 & W3) (F1 & F2 & F3) Ne H. apply all_edges_in. apply all_edges_in in H. unfold delete_edge.
    assert (Nk : forall k : nat * nat, k = (x, y) -> keqb k e = false) by (intros k ->; destruct (keqb_spec (x, y) e); congruence).
    destruct (d_mem (f_dfg d) e); [|destruct (Nat.eqb_spec (fst e) sn) as [E|E]; [|destruct (Nat.eqb_spec (snd e) en) as [E'|E']; auto]]; cbn [f_dfg f_start f_end f_act]; auto.
    - destruct H as [H|H]; auto. left. apply filter_In. split; auto. rewrite negb_true_iff. apply Nk. auto.
    - destruct H as [H|[[-> H]|H]]; auto. right. left. split; auto. apply filter_In. split; auto. rewrite negb_true_iff. cbn [fst]. destruct (keqb_spec y (snd e)); auto. exfalso. apply Ne. destruct e; cbn in *; congruence.
    - destruct H as [H|[H|[-> H]]]; auto. right. right. split; auto. apply filter_In. split; auto. rewrite negb_true_iff. cbn [fst]. destruct (keqb_spec x (fst e)); auto. exfalso. apply Ne. destruct e; cbn in *; congruence.
  Qed.
  Lemma path_loop_ok keep : forall edges d, wf d -> fresh sn en d -> (forall a, In a keep -> In a (d_keys (f_act d)) /\ on_path d a) ->
    let '(d', g') := path_loop sn en keep edges d (graph_of sn en d) in
    wf d' /\ smaller d' d /\ f_act d' = f_act d /\ g' = graph_of sn en d' /\ (forall a, In a keep -> on_path d' a) /\
    (forall x y c, In ((x, y), c) (all_edges sn en d) -> ~ In (x, y) edges -> In ((x, y), c) (all_edges sn en d')).
  Proof.
    induction edges as [|e edges IH]; intros d W F K; cbn [path_loop].
    - split; [auto|]. split; [apply smaller_refl|]. split; [auto|]. split; [auto|]. split; [apply K|auto].
    - destruct (Nat.ltb 1 (length (f_dfg d)) && all_connected sn en (remove_edge e (graph_of sn en d)) keep) eqn:E.
      + apply andb_true_iff in E. destruct E as [_ E]. rewrite graph_remove_edge in * by auto. destruct (delete_edge_smaller e d) as [Sm Ea]. pose proof (delete_edge_wf e d W) as W'. pose proof (fresh_smaller sn en _ _ Sm F) as F'.
        specialize (IH (delete_edge sn en e d) W' F'). destruct (path_loop sn en keep edges (delete_edge sn en e d) (graph_of sn en (delete_edge sn en e d))) as [d' g'].
        destruct IH as (I1 & I2 & I3 & I4 & I5 & I6).
        * intros a Ha. assert (Ka : In a (d_keys (f_act (delete_edge sn en e d)))) by (rewrite Ea; apply K; auto). split; auto. apply (on_path_iff sn en); auto. rewrite all_connected_spec in E. destruct (E a Ha) as (_ & _ & P1 & P2). auto.
        * split; [auto|]. split; [eapply smaller_trans; eauto|]. split; [congruence|]. split; [auto|]. split; [auto|].
          intros x y c H N. apply I6; [apply delete_edge_other; auto; intros ->; apply N; left; auto|intros G; apply N; right; auto].
      + specialize (IH d W F K). destruct (path_loop sn en keep edges d (graph_of sn en d)) as [d' g']. destruct IH as (I1 & I2 & I3 & I4 & I5 & I6). split; [auto|]. split; [auto|]. split; [auto|]. split; [auto|]. split; [auto|].
        intros x y c H N. apply I6; auto. intros G. apply N. right; auto.
  Qed.
  Lemma specified d disc keep : wf d -> fresh sn en d -> (forall a, In a keep -> In a (d_keys (f_act d)) /\ on_path d a) ->
    let r := filter_specified_paths sn en d (graph_of sn en d) disc keep in
    wf r /\ smaller r d /\ connected r /\ (forall a, In a keep -> In a (d_keys (f_act r))) /\
    (forall x y c, In ((x, y), c) (all_edges sn en d) -> ~ In (x, y) disc -> (x <> sn -> In x keep) -> (y <> en -> In y keep) -> In ((x, y), c) (all_edges sn en r)).
  Proof.
    intros W F K. unfold filter_specified_paths. pose proof (path_loop_ok keep disc d W F K) as L. destruct (path_loop sn en keep disc d (graph_of sn en d)) as [d' g'].
    destruct L as (L1 & L2 & L3 & -> & L5 & L6). pose proof (fresh_smaller sn en _ _ L2 F) as F'. destruct (clean sn en d' L1 F') as (C1 & C2 & C3 & C4 & C5 & C6 & C7). cbn zeta in *.
    set (r := remove_unreachable sn en d' (graph_of sn en d')) in *.
    assert (E : FD (filter (fun kv => d_mem (f_act r) (fst (fst kv)) && d_mem (f_act r) (snd (fst kv))) (f_dfg r)) (f_start r) (f_end r) (f_act r) = r).
    { rewrite filter_id; [destruct r; auto|]. intros [[x y] c] H. cbn [fst snd]. destruct C1 as (_ & _ & _ & _ & W1 & _). apply (in_map fst) in H. apply W1 in H. apply andb_true_iff. split; apply mem_keys; tauto. }
    rewrite E. split; [auto|]. split; [eapply smaller_trans; eauto|]. split; [auto|].
    pose proof (keys_iff _ _ _ C4) as K4. split; [intros a Ha; apply K4; split; [rewrite L3; apply K; auto|auto]|].
    intros x y c H N Hx Hy. apply (L6 x y c) in N; auto. apply all_edges_in. apply all_edges_in in N. destruct F' as (F1 & F2 & F3). destruct L1 as (_ & _ & _ & _ & W1 & W2 & W3). destruct N as [N|[[-> N]|[-> N]]].
    - left. apply C5. split; auto. cbn [fst snd]. apply (in_map fst) in N. apply W1 in N. destruct N. split; apply L5; [apply Hx|apply Hy]; intros ->; auto.
    - right. left. split; auto. apply C6. split; auto. cbn [fst]. apply L5, Hy. apply (in_map fst) in N. apply W2 in N. intros ->; auto.
    - right. right. split; auto. apply C7. split; auto. cbn [fst]. apply L5, Hx. apply (in_map fst) in N. apply W3 in N. intros ->; auto.
  Qed.
  Lemma keep_acts keep_all d nd : wf d -> fresh sn en d -> incl nd (graph_of sn en d) -> forall a, In a (not_to_discard sn en keep_all d nd) -> In a (d_keys (f_act d)).
  Proof.
    intros (_ & _ & _ & _ & W1 & W2 & W3) (F1 & F2 & F3) I a. unfold not_to_discard. destruct keep_all; rewrite !in_app_iff.
    - rewrite !in_map_iff. intros [([x y] & <- & H)|[([x y] & <- & H)|[H|[H|H]]]]; auto; apply W1 in H; tauto.
    - rewrite !filter_In, !in_map_iff, !negb_true_iff, !Nat.eqb_neq. intros [[([x y] & <- & H) N]|[([x y] & <- & H) N]]; cbn in *; apply I, graph_in in H; destruct H as [H|[[-> H]|[-> H]]]; auto; try tauto; apply W1 in H; tauto.
  Qed.
  Lemma keep_nd keep_all d nd x y : wf d -> incl nd (graph_of sn en d) -> In (x, y) nd -> (x <> sn -> In x (not_to_discard sn en keep_all d nd)) /\ (y <> en -> In y (not_to_discard sn en keep_all d nd)).
  Proof.
    intros (_ & _ & _ & _ & W1 & W2 & W3) I H. unfold not_to_discard. destruct keep_all.
    - apply I, graph_in in H. destruct H as [H|[[-> H]|[-> H]]]; split; intros N; try congruence; rewrite !in_app_iff; auto.
      + left. apply in_map_iff. exists (x, y). auto.
      + right; left. apply in_map_iff. exists (x, y). auto.
    - split; intros N; apply in_app_iff; [left|right]; apply filter_In; rewrite negb_true_iff, Nat.eqb_neq; (split; [|auto]); apply in_map_iff; exists (x, y); auto.
  Qed.
  Lemma firstn_map {A B} (f : A -> B) k l : firstn k (map f l) = map f (firstn k l).
  Proof. revert l. induction k as [|k IH]; intros [|x l]; auto. cbn. f_equal. auto. Qed.
  Lemma firstn_skipn_disj {A} k (l : list A) x : NoDup l -> In x (firstn k l) -> ~ In x (skipn k l).
  Proof.
    intros N H1 H2. rewrite <- (firstn_skipn k l) in N. apply in_split in H1. destruct H1 as (a & b & E). rewrite E in N. rewrite <- app_assoc in N. cbn in N. apply NoDup_remove_2 in N. apply N. rewrite !in_app_iff. auto.
  Qed.
  Lemma incl_firstn {A} k (l : list A) : incl (firstn k l) l.
  Proof. intros x H. rewrite <- (firstn_skipn k l). apply in_or_app. auto. Qed.
  Lemma num_keep_spec n N p : (inject_Z (Z.of_nat n) < inject_Z (Z.of_nat (N - 1)) * p + 1)%Q -> n < num_keep N p.
  Proof.
    intros H. unfold num_keep. set (x := (inject_Z (Z.of_nat (N - 1)) * p)%Q) in *. pose proof (Qle_ceiling x) as C. set (c := Qceiling x) in *.
    assert (G : (inject_Z (Z.of_nat n) < inject_Z (c + 1))%Q). { rewrite inject_Z_plus. eapply Qlt_le_trans; [exact H|]. apply Qplus_le_compat; auto. apply Qle_refl. }
    rewrite <- Zlt_Qlt in G. lia.
  Qed.
  Lemma edge_above_filter d e n c : wf d -> fresh sn en d -> exactly n (fun e' => exists c', In (e', c') (all_edges sn en d) /\ edge_above (e', c') (e, c)) ->
    length (filter (fun y => negb (edge_ge (e, c) y)) (all_edges sn en d)) = n.
  Proof.
    intros W F (l & Nl & Ll & Hl). rewrite <- Ll. rewrite <- (map_length fst). apply Permutation_length. apply NoDup_Permutation; auto.
    - apply (nodup_keys_filter (K := edge) _ (all_edges sn en d)). unfold d_keys. change (NoDup (map fst (all_edges sn en d))). rewrite all_edges_keys. apply graph_nodup; auto.
    - intros b. rewrite Hl, in_map_iff. split.
      + intros ([b' cb] & <- & H). apply filter_In in H. destruct H as [H G]. exists cb. split; auto. destruct b' as [x y], e as [u v]. unfold edge_ge, edge_above in *. cbn [fst snd] in *.
        rewrite negb_true_iff, orb_false_iff, Nat.ltb_ge in G. destruct G as [G1 G2]. destruct (Nat.eqb_spec c cb) as [->|Nc]; [|left; lia]. cbn [andb] in G2. right. split; auto.
        apply orb_false_iff in G2. destruct G2 as [G2 G3]. apply Nat.ltb_ge in G2. destruct (Nat.eqb_spec u x) as [->|Nu]; [|left; lia]. cbn [andb] in G3. apply Nat.leb_gt in G3. right. split; auto.
      + intros (cb & H & G). exists (b, cb). split; auto. apply filter_In. split; auto. rewrite negb_true_iff. destruct (edge_ge (e, c) (b, cb)) eqn:E; auto. exfalso. apply edge_ge_spec in E. unfold edge_above in *. cbn [fst snd] in *. destruct E as [E|[= -> ->]]; lia.
  Qed.
End P.

(** ** to / from / contain activity *)
Section T.
  Variable ord : list nat -> list nat.
  Hypothesis Hord : forall l, Permutation (ord l) l.
  Lemma restrict_keys s (d : dict nat nat) k : In k (d_keys (restrict_act s d)) <-> In k (d_keys d) /\ In k s.
  Proof. unfold restrict_act. rewrite (in_keys_filter (fun x => smem x s)), smem_in. tauto. Qed.
  Lemma restrict_dfg_keys s d x y : In (x, y) (d_keys (restrict_dfg s d)) <-> In (x, y) (d_keys d) /\ In x s /\ In y s.
  Proof. unfold restrict_dfg. rewrite (in_keys_filter (fun k : nat * nat => smem (fst k) s && smem (snd k) s)), andb_true_iff, !smem_in. cbn. tauto. Qed.
  Lemma reach_from_in succ : forall l acc x, In x (fold_left (fun s a => sadd (sunion s (sget succ a)) a) l acc) <-> In x acc \/ exists a, In a l /\ (x = a \/ In x (sget succ a)).
  Proof.
    induction l as [|a l IH]; intros acc x; cbn [fold_left]; [split; auto; intros [H|(b & [] & _)]; auto|]. rewrite IH, sadd_in, sunion_in. split.
    - intros [[[H|H]| ->]|(b & H1 & H2)]; auto; right; [exists a|exists a|exists b]; cbn; auto.
    - intros [H|(b & [->|H1] & [->|H2])]; auto; right; exists b; auto.
  Qed.
  (** activities between the start activities and the target *)
  Definition between (d : fdfg) (target a : nat) : Prop := (exists s, In s (d_keys (f_start d)) /\ path (d_keys (f_dfg d)) s a) /\ path (d_keys (f_dfg d)) a target.
  Lemma succ_ok d : wf d -> exists r, get_successors ord (sfuel (f_act d)) (d_keys (f_dfg d)) (d_keys (f_act d)) = Some r /\ forall x y, In x (d_keys (f_act d)) -> In y (sget r x) <-> path1 (d_keys (f_dfg d)) x y.
  Proof. intros (_ & _ & _ & _ & W1 & _). apply get_successors_spec; auto. unfold sfuel, d_keys. rewrite map_length. lia. Qed.
  Lemma pred_ok d : wf d -> exists r, get_predecessors ord (sfuel (f_act d)) (d_keys (f_dfg d)) (d_keys (f_act d)) = Some r /\ forall x y, In x (d_keys (f_act d)) -> In y (sget r x) <-> path1 (d_keys (f_dfg d)) y x.
  Proof. intros (_ & _ & _ & _ & W1 & _). apply get_predecessors_spec; auto. unfold sfuel, d_keys. rewrite map_length. lia. Qed.
  Lemma filter_shrinks {A} (p : A -> bool) l x : In x l -> p x = false -> length (filter p l) < length l.
  Proof.
    induction l as [|y l IH]; intros H Hx; [destruct H|]. assert (L : length (filter p l) <= length l) by (clear; induction l as [|z l IH]; auto; cbn; destruct (p z); cbn; lia).
    cbn. destruct H as [->|H]; [rewrite Hx; lia|]. specialize (IH H Hx). destruct (p y); cbn; lia.
  Qed.
  (** restricting to a set of activities *)
  Lemma restrict_wf s d : wf d -> wf (FD (restrict_dfg s (f_dfg d)) (restrict_act s (f_start d)) (restrict_act s (f_end d)) (restrict_act s (f_act d))).
  Proof.
    intros (N1 & N2 & N3 & N4 & W1 & W2 & W3). unfold wf; cbn [f_dfg f_start f_end f_act]. split; [apply nodup_keys_filter; auto|]. split; [apply nodup_keys_filter; auto|]. split; [apply nodup_keys_filter; auto|]. split; [apply nodup_keys_filter; auto|]. split; [|split].
    - intros x y H. apply restrict_dfg_keys in H. rewrite !restrict_keys. destruct H as (H & H1 & H2). apply W1 in H. tauto.
    - intros x H. apply restrict_keys in H. apply restrict_keys. split; [apply W2|]; tauto.
    - intros x H. apply restrict_keys in H. apply restrict_keys. split; [apply W3|]; tauto.
  Qed.
  Section To.
    Variables (d1 : fdfg) (target c : nat).
    Hypothesis W1 : wf d1.
    Hypothesis Ht : In target (d_keys (f_act d1)).
    Hypothesis He : f_end d1 = [(target, c)].
    Definition kept a := between d1 target a \/ a = target.
    Definition tinv (d : fdfg) : Prop := wf d /\ smaller d d1 /\ f_end d = [(target, c)] /\
      (forall a n, kept a -> In (a, n) (f_act d1) -> In (a, n) (f_act d)) /\ (forall a n, kept a -> In (a, n) (f_start d1) -> In (a, n) (f_start d)) /\
      (forall x y n, kept x -> kept y -> In ((x, y), n) (f_dfg d1) -> In ((x, y), n) (f_dfg d)).
    Lemma keys_lift {K V} (d d' : dict K V) (P : K -> Prop) : (forall k n, P k -> In (k, n) d -> In (k, n) d') -> forall k, P k -> In k (d_keys d) -> In k (d_keys d').
    Proof. intros H k Hk I. unfold d_keys in *. apply in_map_iff in I. destruct I as ([k' n] & <- & I). apply in_map_iff. exists (k', n). split; auto. Qed.
    Lemma between_eq d a : tinv d -> between d target a <-> between d1 target a.
    Proof.
      intros (W & S & E & I1 & I2 & I3). destruct S as (S1 & S2 & S3 & S4). split.
      - intros [(s & H1 & H2) H3]. split; [exists s; split; [eapply incl_keys; eauto|]|]; eapply path_mono; eauto; apply incl_keys; auto.
      - intros [(s & H1 & H2) H3].
        assert (Kd : forall k, kept (fst k) /\ kept (snd k) -> In k (d_keys (f_dfg d1)) -> In k (d_keys (f_dfg d))).
        { apply (keys_lift (f_dfg d1) (f_dfg d) (fun k => kept (fst k) /\ kept (snd k))). intros [x y] n [G1 G2]. auto. }
        assert (Pre : forall x y, path (d_keys (f_dfg d1)) x y -> path (d_keys (f_dfg d1)) s x -> path (d_keys (f_dfg d1)) y target -> path (d_keys (f_dfg d)) x y).
        { induction 1 as [|x y z H P IH]; intros P1 P2; [constructor|]. econstructor.
          - apply Kd; eauto. split; left; (split; [exists s; split; auto|]); cbn [fst snd]; auto.
            + econstructor; [exact H|]. eapply path_trans; eauto.
            + eapply path_trans; eauto. apply path_edge; auto.
            + eapply path_trans; eauto.
          - apply IH; auto. eapply path_trans; eauto. apply path_edge; auto. }
        split; [exists s; split|].
        + apply (keys_lift (f_start d1) (f_start d) kept); auto. left. split; [exists s; split; auto; constructor|eapply path_trans; eauto].
        + apply Pre; auto. constructor.
        + apply Pre; auto. constructor.
    Qed.
    Lemma to_loop_ok fuel : forall d, tinv d -> length (f_act d) < fuel ->
      exists r, to_loop ord fuel target d = Some r /\ tinv r /\ (forall a, In a (d_keys (f_act r)) <-> kept a).
    Proof.
      induction fuel as [|fuel IH]; intros d I F; [lia|]. cbn [to_loop]. pose proof I as (W & S & E & I1 & I2 & I3). pose proof W as (N1 & N2 & N3 & N4 & V1 & V2 & V3).
      destruct (pred_ok d W) as (pred & -> & Hp). destruct (succ_ok d W) as (succ & -> & Hs). set (R := sunion _ [target]).
      assert (Ht' : In target (d_keys (f_act d))) by (apply (keys_lift (f_act d1) (f_act d) kept); auto; right; auto).
      assert (HR : forall a, In a R <-> kept a).
      { intros a. unfold R, kept. rewrite <- (between_eq d a I), sunion_in. unfold sinter, reach_from. rewrite filter_In, smem_in, reach_from_in. cbn [In].
        assert (X : forall x, In x (sget pred target) <-> path1 (d_keys (f_dfg d)) x target) by (intros; apply Hp; auto). rewrite X.
        assert (Y : (False \/ (exists s, In s (d_keys (f_start d)) /\ (a = s \/ In a (sget succ s)))) <-> exists s, In s (d_keys (f_start d)) /\ path (d_keys (f_dfg d)) s a).
        { split.
          - intros [[]|(s & H1 & H2)]. exists s. split; auto. destruct H2 as [->|H2]; [constructor|]. apply path1_path, Hs; auto.
          - intros (s & H1 & H2). right. exists s. split; auto. apply path_path1 in H2. destruct H2 as [->|H2]; auto. right. apply Hs; auto. }
        rewrite Y. split.
        - intros [[H1 H2]|[->|[]]]; auto. left. split; auto. apply path1_path; auto.
        - intros [[H1 H2]| ->]; auto. apply path_path1 in H2. destruct H2 as [->|H2]; auto. }
      destruct (set_eqb R (d_keys (f_act d))) eqn:Es; cbn [negb].
      - exists d. split; auto. split; auto. intros a. rewrite set_eqb_in in Es. rewrite <- Es. apply HR.
      - assert (Eend : restrict_act R (f_end d) = f_end d).
        { apply filter_id. rewrite E. intros x [<-|[]]. apply smem_in, HR. right; auto. }
        apply IH.
        + pose proof (restrict_wf R d W) as W'. rewrite Eend in W'. split; auto. split; [|split; [auto|]].
          * destruct S as (S1 & S2 & S3 & S4). repeat split; cbn; auto; eapply incl_tran; eauto; apply incl_filter.
          * cbn [f_dfg f_start f_act]. split; [|split].
            -- intros a n Ha H. apply filter_In. split; auto. apply smem_in, HR. auto.
            -- intros a n Ha H. apply filter_In. split; auto. apply smem_in, HR. auto.
            -- intros x y n Hx Hy H. apply filter_In. split; auto. cbn [fst snd]. apply andb_true_iff. split; apply smem_in, HR; auto.
        + cbn [f_act]. eapply Nat.lt_le_trans; [|apply Nat.lt_succ_r; exact F].
          assert (G : exists a, In a (d_keys (f_act d)) /\ ~ In a R).
          { destruct (forallb (fun a => smem a R) (d_keys (f_act d))) eqn:G.
            - exfalso. assert (X : set_eqb R (d_keys (f_act d)) = true); [|congruence]. apply set_eqb_in. rewrite forallb_forall in G. intros a. split; [|intros H; apply smem_in; auto].
              intros H. apply HR in H. apply (keys_lift (f_act d1) (f_act d) kept); auto. destruct H as [[(s & H1 & H2) _]| ->]; auto.
              apply path_last in H2. destruct W1 as (_ & _ & _ & _ & U1 & U2 & _). destruct H2 as [<-|(z & _ & H2)]; [auto|apply U1 in H2; tauto].
            - clear - G. induction (d_keys (f_act d)) as [|a l IHl]; [discriminate|]. cbn [forallb] in G. destruct (smem a R) eqn:E.
              + destruct IHl as (b & H1 & H2); auto. exists b. split; auto. right; auto.
              + exists a. split; [left; auto|]. apply smem_false. auto. }
          destruct G as (a & G1 & G2). unfold d_keys in G1. apply in_map_iff in G1. destruct G1 as ([a' n] & <- & G1). apply (filter_shrinks _ _ (a', n)); auto. cbn [fst]. apply smem_false. auto.
    Qed.
  End To.
  (** *** the whole function *)
  Definition cut_out (target c : nat) (d : fdfg) : fdfg := FD (filter (fun kv => negb (Nat.eqb (fst (fst kv)) target)) (f_dfg d)) (f_start d) [(target, c)] (f_act d).
  Lemma cut_out_wf target c d : wf d -> In target (d_keys (f_act d)) -> wf (cut_out target c d).
  Proof.
    intros (N1 & N2 & N3 & N4 & W1 & W2 & W3) Ht. unfold wf, cut_out; cbn [f_dfg f_start f_end f_act]. split; [apply nodup_keys_filter; auto|]. split; auto. split; [repeat constructor; auto|]. split; auto. split; [|split; auto].
    - intros x y H. apply (incl_keys _ _ (incl_filter _ _)) in H. auto.
    - intros x [<-|[]]. auto.
  Qed.
  Theorem to_activity_ok d target : wf d -> In target (d_keys (f_act d)) -> exists c r, In (target, c) (f_act d) /\ filter_dfg_to_activity ord d target = Some r /\ tinv (cut_out target c d) target c r /\ (forall a, In a (d_keys (f_act r)) <-> kept (cut_out target c d) target a).
  Proof.
    intros W Ht. unfold filter_dfg_to_activity. destruct (d_get (f_act d) target) as [c|] eqn:G; [|apply d_get_keys in Ht; congruence]. exists c.
    assert (Hc : In (target, c) (f_act d)) by (apply d_get_in; auto). change (FD _ (f_start d) [(target, c)] (f_act d)) with (cut_out target c d).
    pose proof (cut_out_wf target c d W Ht) as W'. destruct (to_loop_ok (cut_out target c d) target c W') with (fuel := S (length (f_act d))) (d := cut_out target c d) as (r & H1 & H2 & H3); auto.
    - split; auto. split; [apply smaller_refl|]. split; auto.
    - exists r. auto.
  Qed.

  (** *** from activity: the same on the reversed graph *)
  Definition flipd (d : fdfg) : fdfg := FD (map (fun kv => ((snd (fst kv), fst (fst kv)), snd kv)) (f_dfg d)) (f_end d) (f_start d) (f_act d).
  Lemma flipd_keys d : d_keys (f_dfg (flipd d)) = flip (d_keys (f_dfg d)).
  Proof. unfold flipd, d_keys, flip. cbn. rewrite !map_map. auto. Qed.
  Lemma flipd_flipd d : flipd (flipd d) = d.
  Proof. destruct d as [a b c e]. unfold flipd. cbn. rewrite map_map. f_equal. erewrite map_ext; [apply map_id|]. intros [[x y] n]; auto. Qed.
  Lemma flipd_in d x y n : In ((x, y), n) (f_dfg (flipd d)) <-> In ((y, x), n) (f_dfg d).
  Proof. unfold flipd. cbn. rewrite in_map_iff. split; [intros ([[u v] m] & [= <- <- <-] & H); auto|intros H; exists ((y, x), n); auto]. Qed.
  Lemma flipd_wf d : wf d -> wf (flipd d).
  Proof.
    intros (N1 & N2 & N3 & N4 & W1 & W2 & W3). unfold wf. rewrite flipd_keys. cbn [flipd f_start f_end f_act]. split; [|split; [auto|split; [auto|split; [auto|split; [|auto]]]]].
    - unfold flip. apply NoDup_map_inj; auto. intros [x y] [u v] [= -> ->]; auto.
    - intros x y H. apply (proj1 (flip_in _ _ _)) in H. apply W1 in H. tauto.
  Qed.
  Lemma flip_restrict R (d : dict (nat * nat) nat) : restrict_dfg R (map (fun kv => ((snd (fst kv), fst (fst kv)), snd kv)) d) = map (fun kv => ((snd (fst kv), fst (fst kv)), snd kv)) (restrict_dfg R d).
  Proof. unfold restrict_dfg. rewrite filter_map. f_equal. apply filter_ext. intros [[x y] n]. cbn. apply andb_comm. Qed.
  Lemma from_to fuel source : forall d, from_loop ord fuel source d = option_map flipd (to_loop ord fuel source (flipd d)).
  Proof.
    induction fuel as [|fuel IH]; intros d; auto. cbn [from_loop to_loop]. unfold get_predecessors. rewrite flipd_keys, flip_flip. cbn [flipd f_act f_start f_end].
    destruct (get_successors ord (sfuel (f_act d)) (d_keys (f_dfg d)) (d_keys (f_act d))) as [succ|]; destruct (get_successors ord (sfuel (f_act d)) (flip (d_keys (f_dfg d))) (d_keys (f_act d))) as [pred|]; auto.
    destruct (negb (set_eqb _ _)).
    - rewrite IH. f_equal. f_equal. unfold flipd. cbn [f_dfg f_start f_end f_act]. rewrite flip_restrict. auto.
    - cbn [option_map]. f_equal. symmetry. exact (flipd_flipd d).
  Qed.
  Definition cut_in (source c : nat) (d : fdfg) : fdfg := FD (filter (fun kv => negb (Nat.eqb (snd (fst kv)) source)) (f_dfg d)) [(source, c)] (f_end d) (f_act d).
  Lemma cut_flip source c d : flipd (cut_in source c d) = cut_out source c (flipd d).
  Proof. unfold flipd, cut_in, cut_out. cbn. f_equal. rewrite filter_map. f_equal. Qed.
  Theorem from_activity_eq d source : filter_dfg_from_activity ord d source = option_map flipd (filter_dfg_to_activity ord (flipd d) source).
  Proof.
    unfold filter_dfg_from_activity, filter_dfg_to_activity. cbn [flipd f_act]. destruct (d_get (f_act d) source) as [c|]; auto. rewrite from_to. f_equal. f_equal.
    change (flipd (cut_in source c d) = cut_out source c (flipd d)). apply cut_flip.
  Qed.

  (** *** contain activity *)
  Section Contain.
    Variables (d1 : fdfg) (act : nat).
    Hypothesis W1 : wf d1.
    Hypothesis Ha : In act (d_keys (f_act d1)).
    Notation E1 := (d_keys (f_dfg d1)).
    Definition near a := path E1 a act \/ path E1 act a.
    Definition cinv (d : fdfg) : Prop := wf d /\ smaller d d1 /\
      (forall a n, near a -> In (a, n) (f_act d1) -> In (a, n) (f_act d)) /\
      (forall a n, path E1 a act -> In (a, n) (f_start d1) -> In (a, n) (f_start d)) /\
      (forall a n, path E1 act a -> In (a, n) (f_end d1) -> In (a, n) (f_end d)) /\
      (forall x y n, near x -> near y -> In ((x, y), n) (f_dfg d1) -> In ((x, y), n) (f_dfg d)).
    Lemma c_paths d : cinv d -> (forall x, path (d_keys (f_dfg d)) x act <-> path E1 x act) /\ (forall x, path (d_keys (f_dfg d)) act x <-> path E1 act x).
    Proof.
      intros (W & S & I1 & I2 & I3 & I4).
      assert (M : forall x y, path (d_keys (f_dfg d)) x y -> path E1 x y) by (intros x y; apply path_mono, incl_keys, S).
      assert (Kd : forall k, near (fst k) /\ near (snd k) -> In k E1 -> In k (d_keys (f_dfg d))).
      { apply (keys_lift (f_dfg d1) (f_dfg d) (fun k => near (fst k) /\ near (snd k))). intros [x y] n [G1 G2]. auto. }
      split; intros x; (split; [auto|]).
      - intros H. assert (G : forall x y, path E1 x y -> y = act -> path (d_keys (f_dfg d)) x y); [|eapply G; eauto]. clear x H.
        induction 1 as [|x y z H P IH]; intros Hz; [constructor|]. econstructor; [|apply IH; auto]. apply Kd; [|eauto]. subst z. split; left; cbn; auto. econstructor; eauto.
      - intros H. assert (G : forall x y, path E1 x y -> path E1 act x -> path (d_keys (f_dfg d)) x y); [|apply G; auto; constructor]. clear x H.
        induction 1 as [|x y z H P IH]; intros Hz; [constructor|]. assert (Py : path E1 act y) by (eapply path_trans; eauto; apply path_edge; auto). econstructor; [|apply IH; auto]. apply Kd; [|eauto]. split; right; auto.
    Qed.
    Lemma near_act a : near a -> In a (d_keys (f_act d1)).
    Proof.
      destruct W1 as (_ & _ & _ & _ & U1 & _). intros [H|H].
      - inversion H as [|? ? ? G]; subst; auto. apply U1 in G. tauto.
      - apply path_last in H. destruct H as [<-|(z & _ & H)]; auto. apply U1 in H. tauto.
    Qed.
    Lemma filter_full {A} (p : A -> bool) l : length (filter p l) = length l -> filter p l = l /\ forall x, In x l -> p x = true.
    Proof.
      intros H. assert (G : forall x, In x l -> p x = true). { intros x Hx. destruct (p x) eqn:E; auto. pose proof (filter_shrinks p l x Hx E). lia. } split; auto. apply filter_id; auto.
    Qed.
    Lemma filter_le {A} (p : A -> bool) l : length (filter p l) <= length l.
    Proof. induction l as [|z l IH]; auto; cbn; destruct (p z); cbn; lia. Qed.
    Lemma contain_loop_ok fuel : forall d, cinv d -> length (f_act d) + length (f_start d) + length (f_end d) < fuel ->
      exists r, contain_loop ord fuel act d = Some r /\ cinv r /\ (forall a, In a (d_keys (f_act r)) <-> near a) /\ (forall a, In a (d_keys (f_start r)) -> path E1 a act) /\ (forall a, In a (d_keys (f_end r)) -> path E1 act a).
    Proof.
      induction fuel as [|fuel IH]; intros d I F; [lia|]. cbn [contain_loop]. pose proof I as (W & S & I1 & I2 & I3 & I4). pose proof W as (N1 & N2 & N3 & N4 & V1 & V2 & V3). destruct (c_paths d I) as [P1 P2].
      destruct (pred_ok d W) as (pred & -> & Hp). destruct (succ_ok d W) as (succ & -> & Hs). set (p := sunion (sget pred act) [act]). set (s := sunion (sget succ act) [act]). set (R := sunion p s).
      assert (Ha' : In act (d_keys (f_act d))) by (apply (keys_lift (f_act d1) (f_act d) near); auto; left; constructor).
      assert (Hpp : forall a, In a p <-> path E1 a act).
      { intros a. unfold p. rewrite sunion_in, Hp by auto. cbn [In]. rewrite <- P1, path_path1. intuition. }
      assert (Hss : forall a, In a s <-> path E1 act a).
      { intros a. unfold s. rewrite sunion_in, Hs by auto. cbn [In]. rewrite <- P2, path_path1. intuition. }
      assert (HR : forall a, In a R <-> near a) by (intros a; unfold R; rewrite sunion_in, Hpp, Hss; unfold near; tauto).
      assert (Hst : forall a, In a (d_keys (restrict_act p (f_start d))) <-> In a (d_keys (f_start d)) /\ path E1 a act) by (intros a; rewrite restrict_keys, Hpp; tauto).
      assert (Hed : forall a, In a (d_keys (restrict_act s (f_end d))) <-> In a (d_keys (f_end d)) /\ path E1 act a) by (intros a; rewrite restrict_keys, Hss; tauto).
      assert (J2 : forall a n, path E1 a act -> In (a, n) (f_start d1) -> In (a, n) (restrict_act p (f_start d))) by (intros a n Hpa H; apply filter_In; split; auto; apply smem_in, Hpp; auto).
      assert (J3 : forall a n, path E1 act a -> In (a, n) (f_end d1) -> In (a, n) (restrict_act s (f_end d))) by (intros a n Hpa H; apply filter_In; split; auto; apply smem_in, Hss; auto).
      pose proof (filter_le (fun kv : nat * nat => smem (fst kv) p) (f_start d)) as Ls. pose proof (filter_le (fun kv : nat * nat => smem (fst kv) s) (f_end d)) as Le.
      destruct (set_eqb R (d_keys (f_act d))) eqn:Es; cbn [negb].
      - rewrite set_eqb_in in Es.
        assert (C' : cinv (FD (f_dfg d) (restrict_act p (f_start d)) (restrict_act s (f_end d)) (f_act d))).
        { split.
          - unfold wf; cbn [f_dfg f_start f_end f_act]. split; auto. split; [apply nodup_keys_filter; auto|]. split; [apply nodup_keys_filter; auto|]. split; auto. split; auto. split; intros x H; [apply Hst in H; apply V2|apply Hed in H; apply V3]; tauto.
          - split; [|auto]. destruct S as (S1 & S2 & S3 & S4). repeat split; cbn; auto; eapply incl_tran; eauto; apply incl_filter. }
        destruct (negb (Nat.eqb (length (restrict_act p (f_start d))) (length (f_start d))) || negb (Nat.eqb (length (restrict_act s (f_end d))) (length (f_end d)))) eqn:Ec.
        + apply IH; auto. cbn [f_act f_start f_end]. unfold restrict_act in *. apply orb_true_iff in Ec. rewrite !negb_true_iff, !Nat.eqb_neq in Ec. lia.
        + eexists. split; [reflexivity|]. split; auto. cbn [f_act f_start f_end]. split; [intros a; rewrite <- Es; apply HR|]. split; intros a H; [apply Hst in H|apply Hed in H]; tauto.
      - apply IH.
        + split.
          * unfold wf; cbn [f_dfg f_start f_end f_act]. split; [apply nodup_keys_filter; auto|]. split; [apply nodup_keys_filter; auto|]. split; [apply nodup_keys_filter; auto|]. split; [apply nodup_keys_filter; auto|]. split; [|split].
            -- intros x y H. apply restrict_dfg_keys in H. rewrite !restrict_keys. destruct H as (H & H1 & H2). apply V1 in H. tauto.
            -- intros x H. apply Hst in H. apply restrict_keys. split; [apply V2; tauto|]. apply HR. left; tauto.
            -- intros x H. apply Hed in H. apply restrict_keys. split; [apply V3; tauto|]. apply HR. right; tauto.
          * split; [|split; [|split; [auto|split; [auto|]]]].
            -- destruct S as (S1 & S2 & S3 & S4). repeat split; cbn; auto; eapply incl_tran; eauto; apply incl_filter.
            -- intros a n Hn H. apply filter_In. split; auto. apply smem_in, HR. auto.
            -- intros x y n Hx Hy H. apply filter_In. split; auto. cbn [fst snd]. apply andb_true_iff. split; apply smem_in, HR; auto.
        + cbn [f_act f_start f_end].
          assert (G : exists a, In a (d_keys (f_act d)) /\ ~ In a R).
          { destruct (forallb (fun a => smem a R) (d_keys (f_act d))) eqn:G.
            - exfalso. assert (X : set_eqb R (d_keys (f_act d)) = true); [|congruence]. apply set_eqb_in. rewrite forallb_forall in G. intros a. split; [|intros H; apply smem_in; auto].
              intros H. apply HR in H. apply (keys_lift (f_act d1) (f_act d) near); auto. apply near_act; auto.
            - clear - G. induction (d_keys (f_act d)) as [|a l IHl]; [discriminate|]. cbn [forallb] in G. destruct (smem a R) eqn:E.
              + destruct IHl as (b & H1 & H2); auto. exists b. split; auto. right; auto.
              + exists a. split; [left; auto|]. apply smem_false. auto. }
          destruct G as (a & G1 & G2). unfold d_keys in G1. apply in_map_iff in G1. destruct G1 as ([a' n] & <- & G1).
          assert (L : length (restrict_act R (f_act d)) < length (f_act d)) by (apply (filter_shrinks _ _ (a', n)); auto; cbn [fst]; apply smem_false; auto). unfold restrict_act in *. lia.
    Qed.
  End Contain.
End T.
