From Coq Require Import List Arith Bool ZArith QArith Qround Lia Permutation Sorted.
Import ListNotations.
From Verif Require Import Model_Dict Proofs_Dict Model_Dfg Spec_Dfg Proofs_Dfg Model_Graph Spec_Graph Proofs_Graph Model_DfgFilter Spec_DfgFilter.
Local Open Scope nat_scope.
Local Arguments keqb {K Key} : simpl never.
Local Arguments Nat.ltb : simpl never.
Local Arguments Nat.eqb : simpl never.

Lemma Permutation_filter {A} (p : A -> bool) l l' : Permutation l l' -> Permutation (filter p l) (filter p l').
Proof.
  induction 1; cbn; auto.
  - destruct (p x); auto.
  - destruct (p x), (p y); auto. apply perm_swap.
  - etransitivity; eauto.
Qed.
(** ** Sorting *)
Section SortP.
  Context {A : Type} (ge : A -> A -> bool).
  Lemma ins_perm x l : Permutation (x :: l) (ins ge x l).
  Proof. induction l as [|y l IH]; auto. cbn. destruct (ge x y); auto. etransitivity; [apply perm_swap|]. constructor. auto. Qed.
  Lemma sort_perm l : Permutation l (sort_desc ge l).
  Proof. induction l as [|x l IH]; auto. unfold sort_desc in *. cbn. etransitivity; [|apply ins_perm]. auto. Qed.
  Hypothesis total : forall x y, ge x y = true \/ ge y x = true.
  Hypothesis trans : forall x y z, ge x y = true -> ge y z = true -> ge x z = true.
  Lemma ins_sorted x l : StronglySorted (fun a b => ge a b = true) l -> StronglySorted (fun a b => ge a b = true) (ins ge x l).
  Proof.
    induction 1 as [|y l S IH F]; cbn; [repeat constructor|]. destruct (ge x y) eqn:E.
    - constructor; [constructor; auto|]. constructor; auto. eapply Forall_impl; [|exact F]. intros z Hz. eapply trans; eauto.
    - constructor; auto. apply (Permutation_Forall (ins_perm x l)). constructor; auto. destruct (total x y); congruence.
  Qed.
  Lemma sort_sorted l : StronglySorted (fun a b => ge a b = true) (sort_desc ge l).
  Proof. induction l as [|x l IH]; [constructor|]. apply ins_sorted. auto. Qed.
  Hypothesis antisym : forall x y, ge x y = true -> ge y x = true -> x = y.
  (** an element of a sorted list with fewer than k elements strictly above it is among the first k *)
  Lemma sorted_before l1 x l2 : StronglySorted (fun a b => ge a b = true) (l1 ++ x :: l2) -> Forall (fun y => ge y x = true) l1.
  Proof.
    induction l1 as [|y l1 IH]; intros S; constructor; cbn in S; inversion S as [|? ? S' F]; subst; auto. rewrite Forall_forall in F. apply F, in_or_app. right; left; auto.
  Qed.
  Lemma top_k l k x : NoDup l -> In x l -> length (filter (fun y => negb (ge x y)) l) < k -> In x (firstn k (sort_desc ge l)).
  Proof.
    intros N Hx L. assert (P := sort_perm l). assert (Nx : NoDup (sort_desc ge l)) by (eapply Permutation_NoDup; eauto).
    apply (Permutation_in _ P) in Hx. apply in_split in Hx. destruct Hx as (l1 & l2 & E).
    assert (L1 : length l1 < k).
    { pose proof (sort_sorted l) as S. rewrite E in S, Nx. apply sorted_before in S. eapply Nat.le_lt_trans; [|exact L].
      assert (Pf : Permutation (filter (fun y => negb (ge x y)) l) (filter (fun y => negb (ge x y)) (l1 ++ x :: l2))) by (rewrite <- E; apply Permutation_filter; auto).
      rewrite (Permutation_length Pf), filter_app, app_length. enough (filter (fun y => negb (ge x y)) l1 = l1) as -> by lia.
      rewrite Forall_forall in S. apply NoDup_remove_2 in Nx. clear - S Nx antisym. 
      assert (G : forall y, In y l1 -> negb (ge x y) = true).
      { intros y Hy. specialize (S y Hy). destruct (ge x y) eqn:E; auto. exfalso. apply Nx. rewrite (antisym x y E S). apply in_or_app. auto. }
      clear S Nx. induction l1 as [|y l1 IH]; auto. cbn. rewrite (G y (or_introl eq_refl)). f_equal. apply IH. intros z Hz. apply G. right; auto. }
    rewrite E, firstn_app. apply in_or_app. right. destruct (k - length l1) eqn:Ek; [lia|]. left; auto.
  Qed.
End SortP.
Lemma act_ge_spec x y : act_ge x y = true <-> act_above x y \/ x = y.
Proof.
  unfold act_ge, act_above. destruct x as [a c], y as [b e]. cbn [fst snd]. rewrite orb_true_iff, andb_true_iff, Nat.ltb_lt, Nat.eqb_eq, Nat.leb_le. split.
  - intros [H|[-> H]]; auto. destruct (Nat.eq_dec a b) as [->|N]; auto. left. right. split; auto. lia.
  - intros [[H|[-> H]]|[= -> ->]]; auto; right; split; auto; lia.
Qed.
Lemma edge_ge_spec x y : edge_ge x y = true <-> edge_above x y \/ x = y.
Proof.
  unfold edge_ge, edge_above. destruct x as [[a a'] c], y as [[b b'] e]. cbn [fst snd].
  rewrite orb_true_iff, andb_true_iff, orb_true_iff, andb_true_iff, !Nat.ltb_lt, !Nat.eqb_eq, Nat.leb_le. split.
  - intros [H|[-> [H|[-> H]]]]; auto. destruct (Nat.eq_dec a' b') as [->|N]; auto. left. right. split; auto. right. split; auto. lia.
  - intros [[H|[-> [H|[-> H]]]]|[= -> -> ->]]; auto; right; (split; [auto|]); auto; right; split; auto; lia.
Qed.

(** ** Graph of a DFG *)
Lemma keys_filter {K V} (p : K -> bool) (d : dict K V) : d_keys (filter (fun kv => p (fst kv)) d) = filter p (d_keys d).
Proof. unfold d_keys. induction d as [|[k v] d IH]; auto. cbn. destruct (p k); cbn; rewrite IH; auto. Qed.
Lemma keys_del {V} (d : dict nat V) a : d_keys (d_del d a) = filter (fun x => negb (Nat.eqb x a)) (d_keys d).
Proof. exact (keys_filter (fun x => negb (Nat.eqb x a)) d). Qed.
Lemma filter_id {A} (p : A -> bool) l : (forall x, In x l -> p x = true) -> filter p l = l.
Proof. induction l as [|x l IH]; intros H; auto. cbn. rewrite (H x (or_introl eq_refl)), IH; auto. intros y Hy. apply H. right; auto. Qed.
Lemma filter_map {A B} (f : A -> B) (p : B -> bool) l : filter p (map f l) = map f (filter (fun x => p (f x)) l).
Proof. induction l as [|x l IH]; auto. cbn. destruct (p (f x)); cbn; rewrite IH; auto. Qed.
Lemma incl_filter {A} (p : A -> bool) l : incl (filter p l) l.
Proof. intros x H. apply filter_In in H. tauto. Qed.
Lemma incl_keys {K V} (d d' : dict K V) : incl d d' -> incl (d_keys d) (d_keys d').
Proof. intros H k. unfold d_keys. rewrite !in_map_iff. intros (x & E & Hx). eauto. Qed.
Lemma nodup_keys_filter {K V} (p : K * V -> bool) (d : dict K V) : NoDup (d_keys d) -> NoDup (d_keys (filter p d)).
Proof.
  unfold d_keys. induction d as [|kv d IH]; intros H; auto. inversion H; subst. cbn. destruct (p kv); auto. cbn. constructor; auto. intros G. apply H2. apply (incl_keys _ _ (incl_filter p d)). auto.
Qed.
Lemma in_keys_filter {K V} (p : K -> bool) (d : dict K V) k : In k (d_keys (filter (fun kv => p (fst kv)) d)) <-> In k (d_keys d) /\ p k = true.
Proof. rewrite keys_filter, filter_In. tauto. Qed.
Lemma mem_keys {K V} {EK : Key K} (d : dict K V) k : d_mem d k = true <-> In k (d_keys d).
Proof. rewrite <- d_get_keys. unfold d_mem. destruct (d_get d k); split; congruence || auto. Qed.

Section F.
  Variables sn en : nat.
  Lemma graph_in d x y : In (x, y) (graph_of sn en d) <-> In (x, y) (d_keys (f_dfg d)) \/ (x = sn /\ In y (d_keys (f_start d))) \/ (y = en /\ In x (d_keys (f_end d))).
  Proof.
    unfold graph_of. rewrite !in_app_iff, !in_map_iff. split.
    - intros [H|[(a & [= <- <-] & H)|(a & [= <- <-] & H)]]; auto.
    - intros [H|[[-> H]|[-> H]]]; eauto.
  Qed.
  Lemma graph_remove_node a d : a <> sn -> a <> en -> remove_node a (graph_of sn en d) = graph_of sn en (remove_act a d).
  Proof.
    intros Hs He. unfold graph_of, remove_node, remove_act. cbn [f_dfg f_start f_end]. rewrite !filter_app, !filter_map. cbn [fst snd]. f_equal; [|f_equal].
    - symmetry. apply (keys_filter (fun k : nat * nat => negb (Nat.eqb (fst k) a) && negb (Nat.eqb (snd k) a))).
    - rewrite keys_del. apply Nat.eqb_neq in Hs. rewrite (Nat.eqb_sym sn a), Hs. cbn [negb andb]. auto.
    - rewrite keys_del. apply Nat.eqb_neq in He. rewrite (Nat.eqb_sym en a), He. f_equal. apply filter_ext. intros x. apply andb_true_r.
  Qed.
  Lemma keqb_edge (e e' : nat * nat) : keqb e e' = true <-> e = e'.
  Proof. destruct (keqb_spec e e'); split; congruence. Qed.
  Lemma graph_remove_edge (e : nat * nat) d : wf d -> fresh sn en d -> remove_edge e (graph_of sn en d) = graph_of sn en (delete_edge sn en e d).
  Proof.
    intros (_ & _ & _ & _ & W1 & W2 & W3) (F1 & F2 & F3). unfold delete_edge.
    assert (Nm : forall (p : nat -> nat * nat) l, (forall x, In x l -> p x <> e) -> filter (fun e' => negb (keqb e' e)) (map p l) = map p l).
    { intros p l H. apply filter_id. intros x Hx. apply in_map_iff in Hx. destruct Hx as (y & <- & Hy). destruct (keqb_spec (p y) e); auto. exfalso. eapply H; eauto. }
    assert (Nd : ~ In e (d_keys (f_dfg d)) -> filter (fun e' => negb (keqb e' e)) (d_keys (f_dfg d)) = d_keys (f_dfg d)).
    { intros H. apply filter_id. intros x Hx. destruct (keqb_spec x e); auto. subst; tauto. }
    unfold graph_of, remove_edge. unfold edge in *. rewrite !filter_app. destruct (d_mem (f_dfg d) e) eqn:M.
    - apply mem_keys in M. destruct e as [u v]. pose proof (W1 _ _ M) as [U V]. cbn [f_dfg f_start f_end]. f_equal; [|f_equal].
      + symmetry. unfold d_del. apply (keys_filter (fun x => negb (keqb x (u, v)))).
      + apply Nm. intros x _ [= -> ->]. auto.
      + apply Nm. intros x _ [= -> ->]. auto.
    - assert (M' : ~ In e (d_keys (f_dfg d))) by (intros G; apply (proj2 (mem_keys _ _)) in G; pose proof (eq_trans (eq_sym G) M); discriminate). rewrite (Nd M'). destruct (Nat.eqb_spec (fst e) sn) as [Es|Es]; cbn [f_dfg f_start f_end].
      + f_equal. f_equal.
        * rewrite keys_del, filter_map. f_equal. apply filter_ext. intros x. destruct e as [u v]. cbn in *. subst u. f_equal. destruct (keqb_spec (sn, x) (sn, v)), (Nat.eqb_spec x v); congruence.
        * apply Nm. intros x Hx E. subst e. cbn in Es. subst x. apply W3 in Hx. auto.
      + destruct (Nat.eqb_spec (snd e) en) as [Ee|Ee]; cbn [f_dfg f_start f_end].
        * f_equal. f_equal; [apply Nm; intros x Hx E; subst e; auto|]. rewrite keys_del, filter_map. f_equal. apply filter_ext. intros x. destruct e as [u v]. cbn in *. subst v. f_equal. destruct (keqb_spec (x, en) (u, en)), (Nat.eqb_spec x u); congruence.
        * f_equal. f_equal; apply Nm; intros x Hx E; subst e; auto.
  Qed.
  (** paths in the graph with the artificial nodes *)
  Lemma from_act d : wf d -> fresh sn en d -> forall x a, path (graph_of sn en d) x a -> In x (d_keys (f_act d)) -> a <> en -> path (d_keys (f_dfg d)) x a.
  Proof.
    intros (_ & _ & _ & _ & W1 & W2 & W3) (F1 & F2 & F3). induction 1 as [|x y z H P IH]; intros Hx Hz; [constructor|]. apply graph_in in H. destruct H as [H|[[-> H]|[-> H]]].
    - econstructor; eauto. apply IH; auto. apply W1 in H. tauto.
    - contradiction.
    - exfalso. inversion P as [|? ? ? G Q]; subst; [congruence|]. apply graph_in in G. destruct G as [G|[[E _]|[_ G]]]; [apply W1 in G; tauto|congruence|apply W3 in G; tauto].
  Qed.
  Lemma to_act d : wf d -> fresh sn en d -> forall x, path (graph_of sn en d) x en -> In x (d_keys (f_act d)) -> exists e, In e (d_keys (f_end d)) /\ path (d_keys (f_dfg d)) x e.
  Proof.
    intros W F. pose proof W as (_ & _ & _ & _ & W1 & W2 & W3). pose proof F as (F1 & F2 & F3).
    assert (G : forall x y, path (graph_of sn en d) x y -> y = en -> In x (d_keys (f_act d)) -> exists e, In e (d_keys (f_end d)) /\ path (d_keys (f_dfg d)) x e); [|intros; eapply G; eauto].
    induction 1 as [|x y z H P IH]; intros E Hx; subst; [tauto|]. apply graph_in in H. destruct H as [H|[[-> H]|[-> H]]].
    - destruct IH as (e & I1 & I2); auto; [apply W1 in H; tauto|]. exists e. split; auto. econstructor; eauto.
    - contradiction.
    - exists x. split; auto. constructor.
  Qed.
  Lemma lift d x y : path (d_keys (f_dfg d)) x y -> path (graph_of sn en d) x y.
  Proof. apply path_mono. intros [u v] H. apply graph_in. auto. Qed.
  Lemma on_path_iff d a : wf d -> fresh sn en d -> In a (d_keys (f_act d)) -> on_path d a <-> path (graph_of sn en d) sn a /\ path (graph_of sn en d) a en.
  Proof.
    intros W F Ha. pose proof W as (_ & _ & _ & _ & W1 & W2 & W3). pose proof F as (F1 & F2 & F3). split.
    - intros (s & e & H1 & H2 & H3 & H4). split; [econstructor; [apply graph_in; right; left; eauto|apply lift; auto]|]. eapply path_trans; [apply lift; eauto|]. apply path_edge, graph_in. auto.
    - intros [H1 H2]. destruct (to_act d W F a H2 Ha) as (e & E1 & E2). inversion H1 as [|? s ? G P]; subst; [tauto|]. apply graph_in in G. destruct G as [G|[[_ G]|[-> G]]].
      + apply W1 in G. tauto.
      + exists s, e. repeat split; auto. apply from_act; auto. intros ->. auto.
      + apply W3 in G. tauto.
  Qed.

  (** ** Removing activities *)
  Lemma remove_act_wf a d : wf d -> wf (remove_act a d).
  Proof.
    intros (N1 & N2 & N3 & N4 & W1 & W2 & W3). unfold remove_act, wf, dfg_without, d_del. cbn [f_dfg f_start f_end f_act]. repeat split; try (apply nodup_keys_filter; auto).
    - apply (in_keys_filter (fun k : nat * nat => negb (Nat.eqb (fst k) a) && negb (Nat.eqb (snd k) a))) in H. destruct H as [H E]. cbn in E. apply andb_true_iff in E. apply (in_keys_filter (fun x => negb (keqb x a))). split; [apply (W1 x y); auto|tauto].
    - apply (in_keys_filter (fun k : nat * nat => negb (Nat.eqb (fst k) a) && negb (Nat.eqb (snd k) a))) in H. destruct H as [H E]. cbn in E. apply andb_true_iff in E. apply (in_keys_filter (fun x => negb (keqb x a))). split; [apply (W1 x y); auto|tauto].
    - intros x H. apply (in_keys_filter (fun x => negb (keqb x a))) in H. apply (in_keys_filter (fun x => negb (keqb x a))). split; [apply W2|]; tauto.
    - intros x H. apply (in_keys_filter (fun x => negb (keqb x a))) in H. apply (in_keys_filter (fun x => negb (keqb x a))). split; [apply W3|]; tauto.
  Qed.
  Lemma remove_act_smaller a d : smaller (remove_act a d) d.
  Proof. repeat split; apply incl_filter. Qed.
  Lemma smaller_refl d : smaller d d.
  Proof. repeat split; apply incl_refl. Qed.
  Lemma smaller_trans a b c : smaller a b -> smaller b c -> smaller a c.
  Proof. intros (A1 & A2 & A3 & A4) (B1 & B2 & B3 & B4). repeat split; eapply incl_tran; eauto. Qed.
  Lemma fresh_smaller d d' : smaller d' d -> fresh sn en d -> fresh sn en d'.
  Proof. intros (_ & _ & _ & S) (F1 & F2 & F3). apply incl_keys in S. repeat split; auto. Qed.
  (** the final clean-up *)
  Lemma fold_remove L : forall d, let r := fold_left (fun d a => remove_act a d) L d in
    (forall kv, In kv (f_dfg r) <-> In kv (f_dfg d) /\ ~ In (fst (fst kv)) L /\ ~ In (snd (fst kv)) L) /\
    (forall kv, In kv (f_start r) <-> In kv (f_start d) /\ ~ In (fst kv) L) /\
    (forall kv, In kv (f_end r) <-> In kv (f_end d) /\ ~ In (fst kv) L) /\
    (forall kv, In kv (f_act r) <-> In kv (f_act d) /\ ~ In (fst kv) L) /\ (wf d -> wf r).
  Proof.
    induction L as [|a L IH]; intros d; cbn [fold_left].
    - cbn [In]. split; [intros; tauto|]. split; [intros; tauto|]. split; [intros; tauto|]. split; [intros; tauto|auto].
    - destruct (IH (remove_act a d)) as (I1 & I2 & I3 & I4 & I5). cbn zeta in *. set (r := fold_left _ L _) in *.
      assert (X : forall (x : nat), negb (keqb x a) = true <-> x <> a) by (intros x; destruct (keqb_spec x a); cbn; split; congruence).
      assert (Y : forall x : nat, ~ (a = x \/ In x L) <-> x <> a /\ ~ In x L) by (intros; intuition).
      assert (D : forall kv, In kv (f_dfg (remove_act a d)) <-> In kv (f_dfg d) /\ fst (fst kv) <> a /\ snd (fst kv) <> a).
      { intros kv. unfold remove_act, dfg_without. cbn [f_dfg]. rewrite filter_In, andb_true_iff, !negb_true_iff, !Nat.eqb_neq. tauto. }
      assert (Dl : forall (m : dict nat nat) kv, In kv (d_del m a) <-> In kv m /\ fst kv <> a) by (intros m kv; unfold d_del; rewrite filter_In, X; tauto).
      split; [intros kv; rewrite I1, D; cbn [In]; rewrite !Y; tauto|].
      split; [intros kv; rewrite I2; cbn [In remove_act f_start]; rewrite Dl, Y; tauto|].
      split; [intros kv; rewrite I3; cbn [In remove_act f_end]; rewrite Dl, Y; tauto|].
      split; [intros kv; rewrite I4; cbn [In remove_act f_act]; rewrite Dl, Y; tauto|].
      intros W. apply I5, remove_act_wf. auto.
  Qed.
  Lemma keys_iff {K V} (d d' : dict K V) (P : K -> Prop) : (forall kv, In kv d' <-> In kv d /\ P (fst kv)) -> forall k, In k (d_keys d') <-> In k (d_keys d) /\ P k.
  Proof.
    intros H k. unfold d_keys. rewrite !in_map_iff. split; [intros (kv & <- & G); apply H in G; split; [exists kv|]; tauto|]. intros ((kv & <- & G1) & G2). exists kv. split; auto. apply H. auto.
  Qed.
  Lemma clean d : wf d -> fresh sn en d -> let g := graph_of sn en d in let r := remove_unreachable sn en d g in
    wf r /\ smaller r d /\ connected r /\
    (forall kv, In kv (f_act r) <-> In kv (f_act d) /\ on_path d (fst kv)) /\
    (forall kv, In kv (f_dfg r) <-> In kv (f_dfg d) /\ on_path d (fst (fst kv)) /\ on_path d (snd (fst kv))) /\
    (forall kv, In kv (f_start r) <-> In kv (f_start d) /\ on_path d (fst kv)) /\
    (forall kv, In kv (f_end r) <-> In kv (f_end d) /\ on_path d (fst kv)).
  Proof.
    intros W F g r. pose proof W as (_ & _ & _ & _ & W1 & W2 & W3). pose proof F as (F1 & F2 & F3).
    unfold r, remove_unreachable. set (L := filter _ (d_keys (f_act d))).
    assert (HL : forall a, In a (d_keys (f_act d)) -> ~ In a L <-> on_path d a).
    { intros a Ha. unfold L. rewrite filter_In, negb_true_iff. rewrite (on_path_iff d a W F Ha). fold g.
      destruct (smem a (descendants g sn) && smem a (ancestors g en)) eqn:E.
      - apply andb_true_iff in E. rewrite !smem_in, descendants_spec, ancestors_spec in E. split; [tauto|]. intros _ [_ H]; discriminate.
      - split; [intros H; exfalso; apply H; auto|]. intros [H1 H2]. exfalso. assert (X : smem a (descendants g sn) && smem a (ancestors g en) = true); [|congruence].
        rewrite andb_true_iff, !smem_in, descendants_spec, ancestors_spec. repeat split; auto; intros ->; auto. }
    destruct (fold_remove L d) as (R1 & R2 & R3 & R4 & R5). cbn zeta in *. set (r' := fold_left _ L d) in *.
    assert (Q1 : forall kv, In kv (f_act r') <-> In kv (f_act d) /\ on_path d (fst kv)).
    { intros kv. rewrite R4. split; intros [H1 H2]; (split; [auto|]); apply HL; auto; apply in_map; auto. }
    assert (Q2 : forall kv, In kv (f_dfg r') <-> In kv (f_dfg d) /\ on_path d (fst (fst kv)) /\ on_path d (snd (fst kv))).
    { intros kv. rewrite R1. destruct kv as [[x y] v]. cbn [fst snd]. split; intros (H1 & H2 & H3); (split; [auto|]); apply (in_map fst) in H1; apply W1 in H1; destruct H1; split; apply HL; auto. }
    assert (Q3 : forall kv, In kv (f_start r') <-> In kv (f_start d) /\ on_path d (fst kv)).
    { intros kv. rewrite R2. split; intros [H1 H2]; (split; [auto|]); apply HL; auto; apply W2, in_map; auto. }
    assert (Q4 : forall kv, In kv (f_end r') <-> In kv (f_end d) /\ on_path d (fst kv)).
    { intros kv. rewrite R3. split; intros [H1 H2]; (split; [auto|]); apply HL; auto; apply W3, in_map; auto. }
    split; [auto|]. split; [repeat split; intros kv Hk; [apply R1 in Hk|apply R2 in Hk|apply R3 in Hk|apply R4 in Hk]; tauto|]. split; [|split; [exact Q1|split; [exact Q2|split; [exact Q3|exact Q4]]]].
    intros a Ha. pose proof (keys_iff _ _ _ Q1) as K1. pose proof (keys_iff _ _ _ Q3) as K3. pose proof (keys_iff _ _ _ Q4) as K4.
    pose proof (keys_iff (f_dfg d) (f_dfg r') (fun k => on_path d (fst k) /\ on_path d (snd k)) Q2) as K2.
    apply K1 in Ha. destruct Ha as [Ha (s & e & H1 & H2 & H3 & H4)].
    assert (Pre : forall x y, path (d_keys (f_dfg d)) x y -> path (d_keys (f_dfg d)) s x -> path (d_keys (f_dfg d)) y e -> path (d_keys (f_dfg r')) x y).
    { induction 1 as [|x y z H P IH]; intros P1 P2; [constructor|]. econstructor.
      - apply K2. split; eauto. split; exists s, e; repeat split; auto.
        + cbn [fst]. econstructor; [exact H|]. eapply path_trans; eauto.
        + cbn [snd]. eapply path_trans; eauto. apply path_edge; auto.
        + cbn [snd]. eapply path_trans; eauto.
      - apply IH; auto. eapply path_trans; eauto. apply path_edge; auto. }
    exists s, e. split; [apply K3; split; auto; exists s, e; repeat split; auto; [constructor|eapply path_trans; eauto]|]. split; [apply K4; split; auto; exists s, e; repeat split; auto; [eapply path_trans; eauto|constructor]|].
    split; apply Pre; auto; constructor.
  Qed.

  (** ** The loop over activities *)
  Lemma all_connected_spec g keep : all_connected sn en g keep = true <-> forall a, In a keep -> a <> sn /\ a <> en /\ path g sn a /\ path g a en.
  Proof.
    unfold all_connected. rewrite andb_true_iff, !subset_in. split.
    - intros [H1 H2] a Ha. specialize (H1 _ Ha). specialize (H2 _ Ha). rewrite descendants_spec in H1. rewrite ancestors_spec in H2. tauto.
    - intros H. split; intros a Ha; destruct (H a Ha) as (G1 & G2 & G3 & G4); [apply descendants_spec|apply ancestors_spec]; auto.
  Qed.
  Lemma act_loop_ok keep : forall acts d, wf d -> fresh sn en d -> (forall a, In a acts -> In a (d_keys (f_act d))) -> NoDup acts -> (forall a, In a keep -> ~ In a acts) ->
    (forall a, In a keep -> In a (d_keys (f_act d)) /\ on_path d a) ->
    let '(d', g') := act_loop sn en keep acts d (graph_of sn en d) in
    wf d' /\ smaller d' d /\ g' = graph_of sn en d' /\ (forall a, In a keep -> In a (d_keys (f_act d')) /\ on_path d' a).
  Proof.
    induction acts as [|a acts IH]; intros d W F Ha N Hk C; cbn [act_loop]; [split; [exact W|split; [apply smaller_refl|split; [reflexivity|exact C]]]|].
    inversion N; subst. destruct (all_connected sn en (remove_node a (graph_of sn en d)) keep && negb (is_nil (dfg_without a (f_dfg d)))) eqn:E.
    - apply andb_true_iff in E. destruct E as [E _]. assert (Fa : a <> sn /\ a <> en). { assert (In a (d_keys (f_act d))) by (apply Ha; left; auto). destruct F as (F1 & F2 & F3). split; intros ->; auto. }
      rewrite graph_remove_node in * by tauto. pose proof (remove_act_wf a d W) as W'. pose proof (fresh_smaller _ _ (remove_act_smaller a d) F) as F'.
      assert (Keep : forall b, b <> a -> In b (d_keys (f_act d)) -> In b (d_keys (f_act (remove_act a d)))).
      { intros b Nb Hb. unfold remove_act. cbn [f_act]. rewrite keys_del, filter_In, negb_true_iff, Nat.eqb_neq. auto. }
      specialize (IH (remove_act a d) W' F').
      destruct (act_loop sn en keep acts (remove_act a d) (graph_of sn en (remove_act a d))) as [d' g'] eqn:El.
      destruct IH as (I1 & I2 & I3 & I4).
      + intros b Hb. apply Keep; [intros ->; auto|apply Ha; right; auto].
      + auto.
      + intros b Hb G. apply (Hk b Hb). right; auto.
      + intros b Hb. assert (Kb : In b (d_keys (f_act (remove_act a d)))) by (apply Keep; [intros ->; apply (Hk a Hb); left; auto|apply C; auto]). split; auto.
        apply on_path_iff; auto. rewrite all_connected_spec in E. destruct (E b Hb) as (_ & _ & P1 & P2). auto.
      + split; [exact I1|split; [eapply smaller_trans; [exact I2|apply remove_act_smaller]|split; [exact I3|exact I4]]].
    - apply IH; auto; [intros b Hb; apply Ha; right; auto|intros b Hb G; apply (Hk b Hb); right; auto].
  Qed.

  Lemma sub_fst_nodup {V} (d : dict nat V) : NoDup (d_keys d) -> NoDup d.
  Proof. apply NoDup_map_inv. Qed.
  Lemma above_filter d a n c : NoDup (d_keys (f_act d)) -> exactly n (fun b => exists cb, In (b, cb) (f_act d) /\ act_above (b, cb) (a, c)) ->
    length (filter (fun y => negb (act_ge (a, c) y)) (f_act d)) = n.
  Proof.
    intros N (l & Nl & Ll & Hl). rewrite <- Ll. rewrite <- (map_length fst). apply Permutation_length. apply NoDup_Permutation; auto.
    - apply nodup_keys_filter. auto.
    - intros b. rewrite Hl, in_map_iff. split.
      + intros ([b' cb] & <- & H). apply filter_In in H. destruct H as [H G]. exists cb. split; auto. unfold act_ge, act_above in *. cbn [fst snd] in *.
        rewrite negb_true_iff, orb_false_iff, Nat.ltb_ge in G. destruct G as [G1 G2]. destruct (Nat.eqb_spec c cb) as [->|Nc]; [|left; lia]. cbn [andb] in G2. apply Nat.leb_gt in G2. right. split; auto.
      + intros (cb & H & G). exists (b, cb). split; auto. apply filter_In. split; auto. rewrite negb_true_iff. destruct (act_ge (a, c) (b, cb)) eqn:E; auto. exfalso. apply act_ge_spec in E. unfold act_above in *. cbn [fst snd] in *. destruct E as [E|[= -> ->]]; lia.
  Qed.
End F.
