From Coq Require Import List Arith Bool Lia Relation_Operators Operators_Properties.
Import ListNotations.
From Verif Require Import Model_Rel Spec_Rel.

Lemma in_triples n i j k : In (i, j, k) (triples n) <-> i < n /\ j < n /\ k < n.
Proof.
  unfold triples. rewrite in_flat_map. split.
  - intros (x & Hx & H). apply in_flat_map in H as (y & Hy & H). apply in_map_iff in H as (z & E & Hz). inversion E; subst.
    apply in_seq in Hx, Hy, Hz. lia.
  - intros (H1 & H2 & H3). exists i. split; [apply in_seq; lia|]. apply in_flat_map. exists j. split; [apply in_seq; lia|].
    apply in_map_iff. exists k. split; auto. apply in_seq; lia.
Qed.
Lemma set_same e i j b : set_edge e i j b i j = b.
Proof. unfold set_edge. rewrite !Nat.eqb_refl. reflexivity. Qed.
Lemma set_cases e i j b x y : set_edge e i j b x y = b /\ x = i /\ y = j \/ set_edge e i j b x y = e x y /\ ~ (x = i /\ y = j).
Proof. unfold set_edge. destruct (Nat.eqb_spec x i), (Nat.eqb_spec y j); cbn; auto; right; split; auto; intros [? ?]; auto. Qed.

(** number of edges *)
Definition all2 (n : nat) := pairs n.
Lemma in_pairs n i j : In (i, j) (pairs n) <-> i < n /\ j < n.
Proof.
  unfold pairs. rewrite in_flat_map. split.
  - intros (x & Hx & H). apply in_map_iff in H as (y & E & Hy). inversion E; subst. apply in_seq in Hx, Hy. lia.
  - intros [H1 H2]. exists i. split; [apply in_seq; lia|]. apply in_map_iff. exists j. split; auto. apply in_seq. lia.
Qed.
Lemma pairs_length n : length (pairs n) = n * n.
Proof.
  unfold pairs. assert (G : forall l : list nat, length (flat_map (fun i : nat => map (fun j : nat => (i, j)) (seq 0 n)) l) = length l * n).
  { induction l as [|x l IH]; cbn [flat_map length]; [auto|]. rewrite app_length, map_length, seq_length, IH. lia. }
  rewrite G, seq_length. reflexivity.
Qed.
Definition edges (n : nat) (e : rel) : nat := length (filter (fun ij => e (fst ij) (snd ij)) (pairs n)).
Lemma edges_bound n e : edges n e <= n * n.
Proof. unfold edges. rewrite <- pairs_length. induction (pairs n) as [|x l IH]; cbn; [auto|]. destruct (e _ _); cbn; lia. Qed.
Lemma filter_mono {X} (f g : X -> bool) l : (forall x, In x l -> f x = true -> g x = true) -> length (filter f l) <= length (filter g l).
Proof.
  induction l as [|x l IH]; intros H; cbn; [auto|]. assert (IH' : length (filter f l) <= length (filter g l)) by (apply IH; intros; apply H; auto; right; auto).
  destruct (f x) eqn:E; [rewrite (H x); auto; [cbn; lia|left; auto]|]. destruct (g x); cbn; lia.
Qed.
Lemma filter_strict {X} (f g : X -> bool) l x : (forall x, In x l -> f x = true -> g x = true) -> In x l -> f x = false -> g x = true ->
  length (filter f l) < length (filter g l).
Proof.
  induction l as [|y l IH]; intros H Hx Hf Hg; [destruct Hx|]. cbn. destruct Hx as [->|Hx].
  - rewrite Hf, Hg. assert (length (filter f l) <= length (filter g l)) by (apply filter_mono; intros; apply H; auto; right; auto). cbn. lia.
  - assert (IH' : length (filter f l) < length (filter g l)) by (apply IH; auto; intros; apply H; auto; right; auto).
    destruct (f y) eqn:E; [rewrite (H y); auto; [cbn; lia|left; auto]|]. destruct (g y); cbn; lia.
Qed.
Lemma edges_mono n e e' : (forall i j, on n e i j -> on n e' i j) -> edges n e <= edges n e'.
Proof. intros H. apply filter_mono. intros [i j] Hin He. cbn in *. apply in_pairs in Hin as [Hi Hj]. apply (H i j). split; auto. Qed.
Lemma edges_strict n e e' i j : (forall i j, on n e i j -> on n e' i j) -> ~ on n e i j -> on n e' i j -> edges n e < edges n e'.
Proof.
  intros H Hn (Hi & Hj & He). apply (filter_strict _ _ _ (i, j)); cbn.
  - intros [x y] Hin Hx. cbn in *. apply in_pairs in Hin as [? ?]. apply (H x y). split; auto.
  - apply in_pairs; auto.
  - destruct (e i j) eqn:E; auto. exfalso. apply Hn. split; auto.
  - auto.
Qed.

(** * Transitive closure *)
Definition closed (n : nat) (e : rel) : Prop := forall i j k, on n e i j -> on n e j k -> on n e i k.
Section Close.
Variable n : nat.
Variable e0 : rel.
(** invariant of the loops: between the relation and its closure *)
Definition inv (e : rel) : Prop := (forall i j, on n e0 i j -> on n e i j) /\ (forall i j, on n e i j -> closure n e0 i j).

Lemma visits l s : (forall x, In x l -> In x (triples n)) -> inv (fst s) ->
  let s' := fold_left close_visit l s in
  inv (fst s') /\ (forall i j, on n (fst s) i j -> on n (fst s') i j) /\ (snd s = true -> snd s' = true) /\
  (snd s' = false -> (forall i j, fst s' i j = fst s i j) /\ forall i j k, In (i, j, k) l -> i <> j -> j <> k -> fst s i j = true -> fst s j k = true -> fst s i k = true) /\
  (snd s' = true -> snd s = true \/ edges n (fst s) < edges n (fst s')).
Proof.
  revert s. induction l as [|[[i j] k] l IH]; intros [e c] Hl Hi; cbn [fold_left].
  - cbn in *. split; [auto|]. split; [auto|]. split; [auto|]. split; [|auto]. intros _. split; [auto|intros ? ? ? []].
  - cbn in Hi. assert (Hijk : i < n /\ j < n /\ k < n) by (apply in_triples, Hl; left; auto).
    assert (Hl' : forall x, In x l -> In x (triples n)) by (intros; apply Hl; right; auto).
    cbn [close_visit]. destruct (negb (i =? j) && negb (j =? k) && e i j && e j k && negb (e i k)) eqn:E.
    + repeat rewrite andb_true_iff in E. destruct E as ((((E1 & E2) & E3) & E4) & E5). apply negb_true_iff in E1, E2, E5.
      assert (Hgrow : forall x y, on n e x y -> on n (set_edge e i k true) x y).
      { intros x y (Hx & Hy & He). split; auto. split; auto. destruct (set_cases e i k true x y) as [[-> _]|[-> _]]; auto. }
      assert (Hi' : inv (set_edge e i k true)).
      { destruct Hi as [H1 H2]. split; [auto|]. intros x y (Hx & Hy & He).
        destruct (set_cases e i k true x y) as [(_ & -> & ->)|(G & _)]; [|apply H2; rewrite G in He; split; auto].
        apply t_trans with (y := j); apply H2; (split; [lia|split; [lia|auto]]). }
      destruct (IH (set_edge e i k true, true) Hl' Hi') as (A1 & A2 & A3 & A4 & A5). cbn [fst snd] in *.
      split; auto. split; [auto|]. split; [auto|]. split; [intros H; rewrite A3 in H by auto; discriminate|].
      intros _. right. apply (edges_strict n _ _ i k).
      * auto.
      * intros (_ & _ & H). congruence.
      * apply A2. split; [lia|]. split; [lia|]. apply set_same.
    + destruct (IH (e, c) Hl' Hi) as (A1 & A2 & A3 & A4 & A5). cbn [fst snd] in *. split; auto. split; auto. split; auto. split; [|auto].
      intros H. destruct (A4 H) as [B1 B2]. split; auto. intros x y z [Eq|Hin]; [|eauto]. inversion Eq; subst. intros H1 H2 H3 H4.
      rewrite H3, H4 in E. apply Nat.eqb_neq in H1, H2. rewrite H1, H2 in E. cbn in E. destruct (e x z); auto.
Qed.
Lemma pass_ok e : inv e -> let '(e', c) := close_pass n e in
  inv e' /\ (c = false -> closed n e') /\ (c = true -> edges n e < edges n e').
Proof.
  intros Hi. unfold close_pass. pose proof (visits (triples n) (e, false) (fun _ H => H) Hi) as H.
  destruct (fold_left close_visit (triples n) (e, false)) as [e' c] eqn:E. cbn in H. destruct H as (A1 & A2 & A3 & A4 & A5).
  split; auto. split; [|intros Hc; destruct (A5 Hc); [discriminate|auto]].
  intros Hc. destruct (A4 Hc) as [B1 B2]. intros i j k (Hi1 & Hj & E1) (_ & Hk & E2). split; auto. split; auto.
  rewrite B1 in *. destruct (Nat.eq_dec i j) as [->|H1]; auto. destruct (Nat.eq_dec j k) as [->|H2]; auto.
  apply (B2 i j k); auto. apply in_triples. auto.
Qed.
Lemma close_ok fuel e : inv e -> n * n - edges n e < fuel -> exists e', add_transitive_edges fuel n e = Some e' /\ inv e' /\ closed n e'.
Proof.
  revert e. induction fuel as [|fuel IH]; intros e Hi Hf; [lia|]. cbn. pose proof (pass_ok e Hi) as H. destruct (close_pass n e) as [e' c].
  destruct H as (A1 & A2 & A3). destruct c; [|exists e'; auto].
  apply IH; auto. specialize (A3 eq_refl). pose proof (edges_bound n e'). lia.
Qed.
Lemma close_some fuel e e' : inv e -> add_transitive_edges fuel n e = Some e' -> inv e' /\ closed n e'.
Proof.
  revert e. induction fuel as [|fuel IH]; intros e Hi Hf; [discriminate|]. cbn in Hf. pose proof (pass_ok e Hi) as H. destruct (close_pass n e) as [e1 c].
  destruct H as (A1 & A2 & A3). destruct c; [eauto|]. inversion Hf; subst. auto.
Qed.
Lemma inv_closed e : inv e -> closed n e -> forall i j, on n e i j <-> closure n e0 i j.
Proof.
  intros [H1 H2] Hc i j. split; auto. intros H. induction H as [x y H|x y z Hxy IH1 Hyz IH2]; auto. eapply Hc; eauto.
Qed.
Lemma inv0 : inv e0.
Proof. split; auto. intros i j H. apply t_step. auto. Qed.
End Close.

Theorem closure_terminates n e : exists e', add_transitive_edges (n * n + 1) n e = Some e'.
Proof. destruct (close_ok n e (n * n + 1) e (inv0 n e)) as (e' & H & _); [lia|]. eauto. Qed.
Theorem closure_correct n e fuel e' : add_transitive_edges fuel n e = Some e' -> forall i j, on n e' i j <-> closure n e i j.
Proof. intros H. destruct (close_some n e fuel e e' (inv0 n e) H). apply inv_closed; auto. Qed.

(** * Checks *)
Lemma irreflexive_iff n e : is_irreflexive n e = true <-> forall i, ~ on n e i i.
Proof.
  unfold is_irreflexive. rewrite forallb_forall. split.
  - intros H i (Hi & _ & E). specialize (H i ltac:(apply in_seq; lia)). rewrite E in H. discriminate.
  - intros H i Hi. apply in_seq in Hi. destruct (e i i) eqn:E; auto. exfalso. apply (H i). split; [lia|]. split; [lia|auto].
Qed.
Lemma transitive_iff n e : is_transitive n e = true <-> closed n e.
Proof.
  unfold is_transitive. rewrite forallb_forall. split.
  - intros H i j k (Hi & Hj & E1) (_ & Hk & E2). split; auto. split; auto. specialize (H (i, j, k) ltac:(apply in_triples; auto)). cbn in H.
    rewrite E1, E2 in H. destruct (e i k); auto.
  - intros H [[i j] k] Hx. apply in_triples in Hx as (Hi & Hj & Hk). destruct (e i j) eqn:E1, (e j k) eqn:E2, (e i k) eqn:E3; auto. exfalso.
    assert (X : on n e i k) by (apply (H i j k); split; auto). destruct X as (_ & _ & X). congruence.
Qed.
Theorem strict_iff n e : is_strict_partial_order n e = true <-> strict_order n e.
Proof. unfold is_strict_partial_order. rewrite andb_true_iff, irreflexive_iff, transitive_iff. reflexivity. Qed.

(** * Transitive reduction *)
Lemma reduce_fold e l res : (forall x, In x l -> True) ->
  forall i k, fold_left (reduce_visit e) l res i k = true <->
    res i k = true /\ ~ exists j, In (i, j, k) l /\ i <> j /\ j <> k /\ e i j = true /\ e j k = true.
Proof.
  intros _. revert res. induction l as [|[[a b] c] l IH]; intros res i k; cbn [fold_left].
  - split; [intros H; split; auto; intros (j & [] & _)|tauto].
  - rewrite IH. unfold reduce_visit.
    destruct (negb (a =? b) && negb (b =? c) && e a b && e b c && res a c) eqn:E.
    + repeat rewrite andb_true_iff in E. destruct E as ((((E1 & E2) & E3) & E4) & E5). apply negb_true_iff, Nat.eqb_neq in E1, E2.
      destruct (set_cases res a c false i k) as [(-> & -> & ->)|(-> & Hne)].
      * split; [intros [? _]; discriminate|]. intros [_ H]. exfalso. apply H. exists b. split; [left; auto|auto].
      * split; intros [H1 H2]; (split; [auto|]); intros (j & Hin & H).
        -- destruct Hin as [Eq|Hin]; [inversion Eq; subst; apply Hne; auto|]. apply H2. eauto.
        -- apply H2. exists j. split; [right; auto|auto].
    + split; intros [H1 H2]; (split; [auto|]); intros (j & Hin & H).
      * destruct Hin as [Eq|Hin]; [inversion Eq; subst|apply H2; eauto]. destruct H as (N1 & N2 & H3 & H4). apply Nat.eqb_neq in N1, N2.
        rewrite N1, N2, H3, H4, H1 in E. discriminate.
      * apply H2. exists j. split; [right; auto|auto].
Qed.
(** the covering pairs: edges without an intermediate node *)
Definition covers n e i k : Prop := on n e i k /\ ~ exists j, on n e i j /\ on n e j k.
Lemma reduction_covers n e r : strict_order n e -> get_transitive_reduction n e = Some r -> forall i k, on n r i k <-> covers n e i k.
Proof.
  intros [Hir Htr] H i k. unfold get_transitive_reduction in H. destruct (is_irreflexive n e); [|discriminate]. inversion H; subst. clear H.
  unfold covers, on. rewrite reduce_fold by auto. split.
  - intros (Hi & Hk & He & Hn). split; [auto|]. intros (j & (_ & Hj & E1) & (_ & _ & E2)). apply Hn. exists j.
    split; [apply in_triples; auto|]. split; [intros ->; apply (Hir j); split; auto|]. split; [intros ->; apply (Hir k); split; auto|auto].
  - intros [(Hi & Hk & He) Hn]. split; auto. split; auto. split; auto. intros (j & Hin & _ & _ & E1 & E2). apply in_triples in Hin as (_ & Hj & _).
    apply Hn. exists j. split; split; auto.
Qed.
Lemma reduction_exists n e : strict_order n e -> exists r, get_transitive_reduction n e = Some r.
Proof. intros [H _]. unfold get_transitive_reduction. rewrite (proj2 (irreflexive_iff n e) H). eauto. Qed.

(** the nodes between two nodes get fewer *)
Definition between n (e : rel) i k : nat := length (filter (fun j => e i j && e j k) (seq 0 n)).
Lemma on_dec n e i k : {on n e i k} + {~ on n e i k}.
Proof.
  unfold on. destruct (lt_dec i n); [|right; tauto]. destruct (lt_dec k n); [|right; tauto]. destruct (e i k) eqn:E; [left; auto|right; intros (_ & _ & ?); congruence].
Qed.
Lemma exists_mid n e i k : (exists j, on n e i j /\ on n e j k) \/ ~ (exists j, on n e i j /\ on n e j k).
Proof.
  assert (G : forall l, (exists j, In j l /\ on n e i j /\ on n e j k) \/ ~ (exists j, In j l /\ on n e i j /\ on n e j k)).
  { induction l as [|x l IH]; [right; intros (j & [] & _)|].
    destruct (on_dec n e i x) as [H1|H1]; [destruct (on_dec n e x k) as [H2|H2]; [left; exists x; split; [left; auto|auto]|]|];
      (destruct IH as [(j & Hj & H)|IH]; [left; exists j; split; [right; auto|auto]|right; intros (j & [<-|Hj] & Ha & Hb); [tauto|apply IH; eauto]]). }
  destruct (G (seq 0 n)) as [(j & _ & H)|H]; [left; eauto|right]. intros (j & H1 & H2). apply H. exists j. split; auto. apply in_seq. destruct H1 as (? & ? & ?); lia.
Qed.
Lemma covers_closure n e : strict_order n e -> forall i k, on n e i k -> clos_trans nat (covers n e) i k.
Proof.
  intros [Hir Htr] i k. remember (between n e i k) as b eqn:Eb. revert i k Eb. induction b as [b IH] using lt_wf_ind. intros i k -> Hik.
  destruct (exists_mid n e i k) as [(j & H1 & H2)|Hn]; [|apply t_step; split; auto].
  assert (Hj : j < n) by apply H1.
  eapply t_trans; [apply (IH (between n e i j)); auto|apply (IH (between n e j k)); auto].
  - apply (filter_strict _ _ _ j); [|apply in_seq; lia| |].
    + intros x Hx E. apply andb_true_iff in E as [E1 E2]. apply andb_true_iff. split; auto. apply in_seq in Hx. apply (Htr x j k); auto. split; [lia|]. split; [lia|auto].
    + destruct (e j j) eqn:E; [exfalso; apply (Hir j); split; auto|]. apply andb_false_r.
    + apply andb_true_iff. split; [apply H1|apply H2].
  - apply (filter_strict _ _ _ j); [|apply in_seq; lia| |].
    + intros x Hx E. apply andb_true_iff in E as [E1 E2]. apply andb_true_iff. split; auto. apply in_seq in Hx. apply (Htr i j x); auto. split; [lia|]. split; [lia|auto].
    + destruct (e j j) eqn:E; [exfalso; apply (Hir j); split; auto|]. reflexivity.
    + apply andb_true_iff. split; [apply H1|apply H2].
Qed.
Lemma clos_mono (R R' : nat -> nat -> Prop) : (forall x y, R x y -> R' x y) -> forall x y, clos_trans nat R x y -> clos_trans nat R' x y.
Proof. intros H x y HR. induction HR; [apply t_step; auto|eapply t_trans; eauto]. Qed.
Lemma closure_of_order n e i k : strict_order n e -> closure n e i k <-> on n e i k.
Proof. intros [_ Ht]. split; [|apply t_step]. intros H. induction H; auto. eapply Ht; eauto. Qed.
Theorem reduction_correct n e r : strict_order n e -> get_transitive_reduction n e = Some r ->
  (forall i k, on n r i k -> on n e i k) /\ (forall i k, closure n r i k <-> on n e i k) /\
  (forall a b, on n r a b -> ~ closure n (without r a b) a b).
Proof.
  intros Hs H. pose proof (reduction_covers n e r Hs H) as HC.
  assert (Hsub : forall i k, on n r i k -> on n e i k) by (intros i k Hr; apply HC in Hr; apply Hr).
  split; auto. split.
  - intros i k. split.
    + intros Hr. rewrite <- (closure_of_order n e i k Hs). eapply clos_mono; [|exact Hr]. apply Hsub.
    + intros He. eapply clos_mono; [|apply (covers_closure n e Hs i k He)]. intros x y Hxy. apply HC. auto.
  - intros a b Hab Hcl. apply HC in Hab as [Hab Hn]. apply clos_trans_t1n in Hcl. inversion Hcl as [y Hw|y z Hw Hyz]; subst.
    + destruct Hw as (_ & _ & Hw). unfold without in Hw. rewrite !Nat.eqb_refl in Hw. discriminate.
    + apply Hn. exists y. assert (Hw' : on n r a y).
      { destruct Hw as (? & ? & Hw). split; auto. split; auto. unfold without in Hw. destruct (_ && _); [discriminate|auto]. }
      split; [apply Hsub; auto|]. apply (closure_of_order n e y b Hs). apply clos_t1n_trans in Hyz. eapply clos_mono; [|exact Hyz].
      intros u v (? & ? & Huv). apply Hsub. split; auto. split; auto. unfold without in Huv. destruct (_ && _); [discriminate|auto].
Qed.
(** any relation with the same closure contains the reduction *)
Theorem reduction_least n e r s : strict_order n e -> get_transitive_reduction n e = Some r ->
  (forall i k, closure n s i k <-> on n e i k) -> forall i k, on n r i k -> on n s i k.
Proof.
  intros Hs H Hc i k Hr. apply (reduction_covers n e r Hs H) in Hr as [He Hn]. pose proof (proj2 (Hc i k) He) as Hcl.
  apply clos_trans_t1n in Hcl. inversion Hcl as [y Hw|y z Hw Hyz]; subst; auto. exfalso. apply Hn. exists y. split.
  - apply Hc. apply t_step. auto.
  - apply Hc. apply clos_t1n_trans. auto.
Qed.

(** * Removing an edge *)
Lemma cuts l n s : (forall x, In x l -> In x (triples n)) ->
  let s' := fold_left cut_visit l s in
  (forall i j, on n (fst s') i j -> on n (fst s) i j) /\ (snd s = true -> snd s' = true) /\
  (snd s' = false -> (forall i j, fst s' i j = fst s i j) /\ forall i j k, In (i, j, k) l -> i <> j -> j <> k -> fst s i j = true -> fst s j k = true -> fst s i k = true) /\
  (snd s' = true -> snd s = true \/ edges n (fst s') < edges n (fst s)).
Proof.
  revert s. induction l as [|[[i j] k] l IH]; intros [e c] Hl; cbn [fold_left].
  - cbn in *. split; [auto|]. split; [auto|]. split; [|auto]. intros _. split; [auto|intros ? ? ? []].
  - assert (Hijk : i < n /\ j < n /\ k < n) by (apply in_triples, Hl; left; auto).
    assert (Hl' : forall x, In x l -> In x (triples n)) by (intros; apply Hl; right; auto).
    cbn [cut_visit]. destruct (negb (i =? j) && negb (j =? k) && e i j && e j k && negb (e i k)) eqn:E.
    + repeat rewrite andb_true_iff in E. destruct E as ((((E1 & E2) & E3) & E4) & E5).
      assert (Hsh : forall x y, on n (set_edge e j k false) x y -> on n e x y).
      { intros x y (Hx & Hy & He). split; auto. split; auto. destruct (set_cases e j k false x y) as [[G _]|[G _]]; congruence. }
      destruct (IH (set_edge e j k false, true) Hl') as (A2 & A3 & A4 & A5). cbn [fst snd] in *.
      split; [auto|]. split; [auto|]. split; [intros H; rewrite A3 in H by auto; discriminate|].
      intros _. right. apply (edges_strict n _ _ j k).
      * auto.
      * intros H. apply A2 in H as (_ & _ & H). rewrite set_same in H. discriminate.
      * split; [lia|]. split; [lia|auto].
    + destruct (IH (e, c) Hl') as (A2 & A3 & A4 & A5). cbn [fst snd] in *. split; auto. split; auto. split; [|auto].
      intros H. destruct (A4 H) as [B1 B2]. split; auto. intros x y z [Eq|Hin]; [|eauto]. inversion Eq; subst. intros H1 H2 H3 H4.
      rewrite H3, H4 in E. apply Nat.eqb_neq in H1, H2. rewrite H1, H2 in E. cbn in E. destruct (e x z); auto.
Qed.
Lemma cut_loop_ok n fuel e : edges n e < fuel -> exists e', cut_loop fuel n e = Some e' /\ (forall i j, on n e' i j -> on n e i j) /\ closed n e'.
Proof.
  revert e. induction fuel as [|fuel IH]; intros e Hf; [lia|]. cbn. pose proof (cuts (triples n) n (e, false) (fun _ H => H)) as H.
  destruct (fold_left cut_visit (triples n) (e, false)) as [e' c]. cbn in H. destruct H as (A2 & A3 & A4 & A5). destruct c.
  - destruct (A5 eq_refl) as [?|Hlt]; [discriminate|]. destruct (IH e') as (e2 & H1 & H2 & H3); [lia|]. exists e2. split; auto.
  - exists e'. split; auto. split; auto. destruct (A4 eq_refl) as [B1 B2]. intros i j k (Hi1 & Hj & E1) (_ & Hk & E2). split; auto. split; auto.
    rewrite B1 in *. destruct (Nat.eq_dec i j) as [->|H1]; auto. destruct (Nat.eq_dec j k) as [->|H2]; auto.
    apply (B2 i j k); auto. apply in_triples. auto.
Qed.
Theorem remove_edge_correct n e a b : strict_order n e ->
  exists e', remove_edge_keep_transitive (n * n + 1) n e a b = Some e' /\ strict_order n e' /\ ~ on n e' a b /\ forall i j, on n e' i j -> on n e i j.
Proof.
  intros [Hir Htr]. unfold remove_edge_keep_transitive. destruct (cut_loop_ok n (n * n + 1) (set_edge e a b false)) as (e' & H1 & H2 & H3).
  - pose proof (edges_bound n (set_edge e a b false)). lia.
  - assert (Hsub : forall i j, on n e' i j -> on n e i j).
    { intros i j H. apply H2 in H as (Hi & Hj & H). split; auto. split; auto. destruct (set_cases e a b false i j) as [[G _]|[G _]]; congruence. }
    exists e'. split; auto. split; [split; [intros i H; apply (Hir i); auto|auto]|]. split; auto.
    intros H. apply H2 in H as (_ & _ & H). rewrite set_same in H. discriminate.
Qed.

(** * Start and end nodes *)
Lemma in_discard x l y : In y (discard x l) <-> In y l /\ y <> x.
Proof. unfold discard. rewrite filter_In, negb_true_iff, Nat.eqb_neq. tauto. Qed.
Lemma discard_fold (e : rel) (g : nat * nat -> nat) l res y :
  In y (fold_left (fun res ij => if e (fst ij) (snd ij) then discard (g ij) res else res) l res) <->
  In y res /\ ~ exists i j, In (i, j) l /\ e i j = true /\ g (i, j) = y.
Proof.
  revert res. induction l as [|[i j] l IH]; intros res; cbn [fold_left fst snd].
  - split; [intros H; split; auto; intros (? & ? & [] & _)|tauto].
  - rewrite IH. destruct (e i j) eqn:E.
    + rewrite in_discard. split.
      * intros [[H1 H2] H3]. split; auto. intros (a & b & [Eq|Hin] & Hab & Hg); [inversion Eq; subst; auto|apply H3; eauto].
      * intros [H1 H2]. split; [split; auto; intros ->; apply H2; exists i, j; split; [left; auto|auto]|]. intros (a & b & Hin & H). apply H2. exists a, b. split; [right; auto|auto].
    + split; intros [H1 H2]; (split; [auto|]); intros (a & b & Hin & H).
      * destruct Hin as [Eq|Hin]; [inversion Eq; subst; destruct H; congruence|apply H2; eauto].
      * apply H2. exists a, b. split; [right; auto|auto].
Qed.
Theorem start_nodes_correct n e x : In x (get_start_nodes n e) <-> x < n /\ ~ exists i, on n e i x.
Proof.
  unfold get_start_nodes. rewrite (discard_fold e snd). rewrite in_seq. split.
  - intros [H1 H2]. split; [lia|]. intros (i & Hi & Hx & He). apply H2. exists i, x. split; [apply in_pairs; auto|auto].
  - intros [H1 H2]. split; [lia|]. intros (i & j & Hin & He & <-). cbn in *. apply in_pairs in Hin as [? ?]. apply H2. exists i. split; auto.
Qed.
Theorem end_nodes_correct n e x : In x (get_end_nodes n e) <-> x < n /\ ~ exists j, on n e x j.
Proof.
  unfold get_end_nodes. rewrite (discard_fold e fst). rewrite in_seq. split.
  - intros [H1 H2]. split; [lia|]. intros (j & Hi & Hx & He). apply H2. exists x, j. split; [apply in_pairs; auto|auto].
  - intros [H1 H2]. split; [lia|]. intros (i & j & Hin & He & <-). cbn in *. apply in_pairs in Hin as [? ?]. apply H2. exists j. split; auto.
Qed.
