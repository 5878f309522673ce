(** Nested partial orders. *)
From Coq Require Import List Arith Lia Bool Relation_Operators.
Import ListNotations.
From Verif Require Import Model_Rel Spec_Rel Proofs_Rel Model_Powl Spec_Powl Proofs_Po Proofs_Powl1 Proofs_Powl2 Proofs_Powl3 Proofs_Powl4 Model_PowlSimplify.

(** * Ordered pairs *)
Section Fop.
Context {X : Type}.
Implicit Types (R S : X -> X -> Prop) (l : list X).
Lemma fop_cons R x l : ForallOrdPairs R (x :: l) <-> (forall y, In y l -> R x y) /\ ForallOrdPairs R l.
Proof. split; [intros H; inversion H; subst; rewrite Forall_forall in *; auto|intros [H1 H2]; constructor; auto; apply Forall_forall; auto]. Qed.
Lemma fop_impl R S l : (forall x y, In x l -> In y l -> R x y -> S x y) -> ForallOrdPairs R l -> ForallOrdPairs S l.
Proof.
  induction l as [|x l IH]; intros H HF; [constructor|]. apply fop_cons in HF as [H1 H2]. apply fop_cons. split.
  - intros y Hy. apply H; [left; auto|right; auto|auto].
  - apply IH; auto. intros a b Ha Hb. apply H; right; auto.
Qed.
Lemma fop_and R S l : ForallOrdPairs (fun x y => R x y /\ S x y) l <-> ForallOrdPairs R l /\ ForallOrdPairs S l.
Proof.
  split; [intros H; split; (eapply fop_impl; [|exact H]); intros x y _ _ [? ?]; assumption|]. intros [H1 H2]. induction l as [|x l IH]; [constructor|].
  apply fop_cons in H1 as [A1 A2], H2 as [B1 B2]. apply fop_cons. split; auto.
Qed.
Lemma fop_all {I} (R : I -> X -> X -> Prop) l : ForallOrdPairs (fun x y => forall i, R i x y) l <-> forall i, ForallOrdPairs (R i) l.
Proof.
  split; [intros H i; (eapply fop_impl; [|exact H]); intros x y _ _ G; exact (G i)|]. intros H. induction l as [|x l IH]; [constructor|].
  apply fop_cons. split; [|apply IH; intros i; specialize (H i); apply fop_cons in H; tauto]. intros y Hy i. specialize (H i). apply fop_cons in H as [H _]. auto.
Qed.
Lemma fop_filter (p : X -> bool) R l : ForallOrdPairs R (filter p l) <-> ForallOrdPairs (fun x y => p x = true -> p y = true -> R x y) l.
Proof.
  induction l as [|x l IH]; [split; constructor|]. cbn. rewrite fop_cons. destruct (p x) eqn:Ep.
  - rewrite fop_cons, IH. split; intros [H1 H2]; split; auto.
    + intros y Hy _ Hp. apply H1, filter_In; auto.
    + intros y Hy. apply filter_In in Hy as [Hy Hp]. auto.
  - rewrite IH. split; [intros H; split; [intros; congruence|auto]|tauto].
Qed.
End Fop.
Lemma fop_map {X Y} (f : X -> Y) (R : Y -> Y -> Prop) l : ForallOrdPairs R (map f l) <-> ForallOrdPairs (fun x y => R (f x) (f y)) l.
Proof.
  induction l as [|x l IH]; [split; constructor|]. cbn. rewrite !fop_cons, IH. split; intros [H1 H2]; split; auto.
  - intros y Hy. apply H1, in_map, Hy.
  - intros y Hy. apply in_map_iff in Hy as (z & <- & Hz). auto.
Qed.

(** * Tags of two levels *)
Definition outer (x : nat * nat * nat) : nat * nat := (fst (fst x), snd x).
Definition sub_of (i : nat) (tw : list (nat * nat * nat)) : list (nat * nat) :=
  map (fun x => (snd (fst x), snd x)) (filter (fun x => Nat.eqb (fst (fst x)) i) tw).
Definition peqb (k k' : nat * nat) : bool := Nat.eqb (fst k) (fst k') && Nat.eqb (snd k) (snd k').
Lemma peqb_iff k k' : peqb k k' = true <-> k = k'.
Proof. unfold peqb. destruct k, k'; cbn. rewrite andb_true_iff, !Nat.eqb_eq. split; [intros [-> ->]; auto|intros [= -> ->]; auto]. Qed.
Definition pevents (k : nat * nat) (tw : list (nat * nat * nat)) : list nat := map snd (filter (fun x => peqb (fst x) k) tw).
Lemma outer_events i tw : events_of i (map outer tw) = map snd (sub_of i tw).
Proof.
  unfold events_of, sub_of. induction tw as [|[[j x] a] tw IH]; cbn; [auto|]. destruct (Nat.eqb j i); cbn; rewrite IH; auto.
Qed.
Lemma sub_events i x tw : events_of x (sub_of i tw) = pevents (i, x) tw.
Proof.
  unfold events_of, sub_of, pevents, peqb. induction tw as [|[[j y] a] tw IH]; cbn; [auto|].
  destruct (Nat.eqb j i); cbn; [|auto]. destruct (Nat.eqb y x); cbn; rewrite IH; auto.
Qed.
Lemma refine n tw : forall u, (forall x, In x tw -> fst x < n) -> (forall i, i < n -> map snd (u i) = events_of i tw) ->
  exists tw', map outer tw' = tw /\ forall i, i < n -> sub_of i tw' = u i.
Proof.
  induction tw as [|[i a] tw IH]; intros u Ht Hu.
  - exists []. split; auto. intros i Hi. specialize (Hu i Hi). destruct (u i); [auto|discriminate].
  - assert (Hi : i < n) by (apply (Ht (i, a)); left; auto). pose proof (Hu i Hi) as Ei. rewrite events_cons in Ei. cbn in Ei. rewrite Nat.eqb_refl in Ei.
    destruct (u i) as [|[x b] v] eqn:Eu; [discriminate|]. cbn in Ei. injection Ei as -> Ev.
    destruct (IH (fun j => if Nat.eqb j i then v else u j)) as (tw' & E1 & E2).
    + intros y Hy. apply Ht. right; auto.
    + intros j Hj. destruct (Nat.eqb_spec j i) as [->|Hn]; [auto|]. specialize (Hu j Hj). rewrite events_cons in Hu. cbn in Hu. destruct (Nat.eqb_spec i j); [congruence|auto].
    + exists ((i, x, a) :: tw'). split; [cbn; rewrite E1; auto|]. intros j Hj. specialize (E2 j Hj). unfold sub_of in *. cbn. destruct (Nat.eqb_spec i j) as [<-|Hn].
      * cbn. rewrite E2, Nat.eqb_refl. auto.
      * rewrite E2. destruct (Nat.eqb_spec j i); [congruence|auto].
Qed.

(** * Languages of families *)
Definition gl (g : group) : powl := PPo (g_ds g) (g_r g).
Definition prec (gs : list group) (e : rel) (k k' : nat * nat) : Prop :=
  closure (length gs) e (fst k) (fst k') \/
  (fst k = fst k' /\ closure (length (g_ds (nth (fst k) gs g_dummy))) (g_r (nth (fst k) gs g_dummy)) (snd k) (snd k')).
Definition key_ok (gs : list group) (k : nat * nat) : Prop := fst k < length gs /\ snd k < length (g_ds (nth (fst k) gs g_dummy)).
Definition key_node (gs : list group) (k : nat * nat) : powl := nth (snd k) (g_ds (nth (fst k) gs g_dummy)) (PLeaf None).
Definition pair_lang (gs : list group) (e : rel) (w : list nat) : Prop :=
  exists tw, w = map snd tw /\ (forall x, In x tw -> key_ok gs (fst x)) /\
    (forall k, key_ok gs k -> plang (key_node gs k) (pevents k tw)) /\
    ForallOrdPairs (fun x y => ~ prec gs e (fst y) (fst x)) tw.

Lemma po_words cs e w : plang (PPo cs e) w <-> exists tw, w = map snd tw /\ (forall x, In x tw -> fst x < length cs) /\
  (forall k, k < length cs -> plang (nth k cs (PLeaf None)) (events_of k tw)) /\ ForallOrdPairs (fun x y => ~ closure (length cs) e (fst y) (fst x)) tw.
Proof.
  rewrite <- pol_plang. unfold poL. split.
  - intros (tw & <- & H1 & H2 & H3). exists tw. split; auto. split; auto. split; auto. eapply fop_impl; [|exact H3]. intros x y _ _. apply lt_false.
  - intros (tw & -> & H1 & H2 & H3). exists tw. split; auto. split; auto. split; auto. eapply fop_impl; [|exact H3]. intros x y _ _. apply lt_false.
Qed.
Lemma choose_list (P : nat -> list (nat * nat) -> Prop) n : (forall i, i < n -> exists u, P i u) -> exists us, forall i, i < n -> P i (us i).
Proof.
  induction n as [|n IH]; intros H; [exists (fun _ => []); intros; lia|].
  destruct IH as (us & Hus); [intros; apply H; lia|]. destruct (H n ltac:(lia)) as (u & Hu). exists (fun i => if Nat.eqb i n then u else us i).
  intros i Hi. destruct (Nat.eqb_spec i n) as [->|Hn]; auto. apply Hus. lia.
Qed.
Lemma fop_pairs gs e tw : (forall x, In x tw -> fst (fst x) < length gs) ->
  (ForallOrdPairs (fun x y => ~ prec gs e (fst y) (fst x)) tw <->
   ForallOrdPairs (fun x y => ~ closure (length gs) e (fst y) (fst x)) (map outer tw) /\
   forall i, i < length gs -> ForallOrdPairs (fun x y => ~ closure (length (g_ds (nth i gs g_dummy))) (g_r (nth i gs g_dummy)) (fst y) (fst x)) (sub_of i tw)).
Proof.
  intros Hb. rewrite fop_map. unfold sub_of. split.
  - intros H. split.
    + eapply fop_impl; [|exact H]. intros x y _ _ Hn Hc. apply Hn. left. exact Hc.
    + intros i Hi. rewrite fop_map, fop_filter. eapply fop_impl; [|exact H]. intros x y _ _ Hn E1 E2 Hc. apply Nat.eqb_eq in E1, E2. apply Hn. right.
      split; [congruence|]. rewrite E2. exact Hc.
  - intros [H1 H2].
    assert (H3 : ForallOrdPairs (fun x y => forall i, i < length gs -> fst (fst x) = i -> fst (fst y) = i ->
       ~ closure (length (g_ds (nth i gs g_dummy))) (g_r (nth i gs g_dummy)) (snd (fst y)) (snd (fst x))) tw).
    { apply fop_all. intros i. destruct (lt_dec i (length gs)) as [Hi|Hi].
      - specialize (H2 i Hi). rewrite fop_map, fop_filter in H2. eapply fop_impl; [|exact H2]. intros x y _ _ Hn _ E1 E2. apply Hn; apply Nat.eqb_eq; auto.
      - eapply fop_impl; [|exact H1]. intros x y _ _ _ Hi'. congruence. }
    pose proof (proj2 (fop_and _ _ tw) (conj H1 H3)) as H4. eapply fop_impl; [|exact H4]. intros x y Hx Hy [A1 A2] [Hc|[E Hc]]; [apply A1; exact Hc|].
    apply (A2 (fst (fst x)) (Hb x Hx) eq_refl E). rewrite <- E. exact Hc.
Qed.
Lemma nested_pairs gs e w : plang (PPo (map gl gs) e) w <-> pair_lang gs e w.
Proof.
  rewrite po_words, map_length. unfold pair_lang.
  assert (Hnth : forall k, k < length gs -> nth k (map gl gs) (PLeaf None) = gl (nth k gs g_dummy)).
  { intros k Hk. rewrite (nth_indep _ (PLeaf None) (gl g_dummy)) by (rewrite map_length; auto). apply map_nth. }
  split.
  - intros (tw & -> & H1 & H2 & H3).
    destruct (choose_list (fun i u => map snd u = events_of i tw /\ (forall x, In x u -> fst x < length (g_ds (nth i gs g_dummy))) /\
       (forall k, k < length (g_ds (nth i gs g_dummy)) -> plang (nth k (g_ds (nth i gs g_dummy)) (PLeaf None)) (events_of k u)) /\
       ForallOrdPairs (fun x y => ~ closure (length (g_ds (nth i gs g_dummy))) (g_r (nth i gs g_dummy)) (fst y) (fst x)) u) (length gs)) as (us & Hus).
    { intros i Hi. specialize (H2 i Hi). rewrite Hnth in H2 by auto. apply po_words in H2 as (u & E & A & B & C). exists u. auto. }
    destruct (refine (length gs) tw us H1) as (tw' & E1 & E2); [intros i Hi; apply Hus; auto|].
    exists tw'. split; [rewrite <- E1, map_map; reflexivity|].
    assert (Hb : forall x, In x tw' -> fst (fst x) < length gs).
    { intros x Hx. specialize (H1 (outer x)). rewrite <- E1 in H1. apply (H1 (in_map outer _ _ Hx)). }
    split; [|split].
    + intros x Hx. split; [apply Hb; auto|]. destruct (Hus (fst (fst x)) (Hb x Hx)) as (_ & Hr & _). rewrite <- E2 in Hr by (apply Hb; auto).
      apply (Hr (snd (fst x), snd x)). unfold sub_of. apply in_map_iff. exists x. split; auto. apply filter_In. split; auto. apply Nat.eqb_refl.
    + intros [i x] [Hi Hx]. cbn in Hi, Hx. rewrite <- sub_events. destruct (Hus i Hi) as (_ & _ & Hl & _). rewrite E2 by auto. apply Hl; auto.
    + apply fop_pairs; auto. rewrite E1. split; auto. intros i Hi. rewrite E2 by auto. apply Hus; auto.
  - intros (tw & -> & H1 & H2 & H3). exists (map outer tw). split; [rewrite map_map; reflexivity|].
    assert (Hb : forall x, In x tw -> fst (fst x) < length gs) by (intros x Hx; apply (H1 x Hx)).
    apply fop_pairs in H3 as [H3 H4]; auto. split; [|split; auto].
    + intros x Hx. apply in_map_iff in Hx as (y & <- & Hy). apply Hb; auto.
    + intros i Hi. rewrite Hnth by auto. unfold gl. apply po_words. exists (sub_of i tw). split; [apply outer_events|]. split; [|split; auto].
      * intros x Hx. unfold sub_of in Hx. apply in_map_iff in Hx as (y & <- & Hy). apply filter_In in Hy as [Hy Hi']. apply Nat.eqb_eq in Hi'. destruct (H1 y Hy) as [_ G]. rewrite Hi' in G. exact G.
      * intros k Hk. rewrite sub_events. apply (H2 (i, k)). split; auto.
Qed.

(** * The new indices *)
Fixpoint pos (k : nat * nat) (ks : list (nat * nat)) : nat := match ks with [] => 0 | x :: l => if peqb x k then 0 else S (pos k l) end.
Lemma pos_ok k ks : In k ks -> pos k ks < length ks /\ nth (pos k ks) ks (0, 0) = k.
Proof.
  induction ks as [|x l IH]; [intros []|]. intros H. cbn. destruct (peqb x k) eqn:E.
  - apply peqb_iff in E. split; [lia|auto].
  - destruct H as [->|H]; [rewrite (proj2 (peqb_iff k k) eq_refl) in E; discriminate|]. destruct (IH H). split; [lia|auto].
Qed.
Lemma pos_nth ks a : NoDup ks -> a < length ks -> pos (nth a ks (0, 0)) ks = a.
Proof.
  intros Hn Ha. destruct (pos_ok (nth a ks (0, 0)) ks) as [H1 H2]; [apply nth_In; auto|]. eapply NoDup_nth; eauto.
Qed.
Section Index.
Variables (gs : list group) (e : rel) (ks : list (nat * nat)) (r : rel).
Hypothesis Hks : NoDup ks.
Hypothesis Hin : forall k, In k ks <-> key_ok gs k.
Hypothesis Hr : forall a b, a < length ks -> b < length ks -> (closure (length ks) r a b <-> prec gs e (nth a ks (0, 0)) (nth b ks (0, 0))).
Definition retag (x : nat * nat * nat) : nat * nat := (pos (fst x) ks, snd x).
Definition untag (x : nat * nat) : nat * nat * nat := (nth (fst x) ks (0, 0), snd x).
Lemma retag_events k tw : (forall x, In x tw -> In (fst x) ks) -> In k ks -> events_of (pos k ks) (map retag tw) = pevents k tw.
Proof.
  intros Ht Hk. unfold events_of, pevents. induction tw as [|x tw IH]; [reflexivity|]. cbn.
  assert (E : Nat.eqb (pos (fst x) ks) (pos k ks) = peqb (fst x) k).
  { destruct (peqb (fst x) k) eqn:E; [apply peqb_iff in E; rewrite E; apply Nat.eqb_refl|]. apply Nat.eqb_neq. intros Hp.
    destruct (pos_ok (fst x) ks) as [_ A]; [apply Ht; left; auto|]. destruct (pos_ok k ks Hk) as [_ B]. rewrite Hp, B in A. rewrite (proj2 (peqb_iff (fst x) k)) in E; [discriminate|auto]. }
  rewrite E. destruct (peqb (fst x) k); cbn; rewrite IH; auto; intros y Hy; apply Ht; right; auto.
Qed.
Lemma untag_events k tw : (forall x, In x tw -> fst x < length ks) -> In k ks -> pevents k (map untag tw) = events_of (pos k ks) tw.
Proof.
  intros Ht Hk. rewrite <- retag_events; [|intros x Hx; apply in_map_iff in Hx as (y & <- & Hy); apply nth_In, Ht, Hy|auto].
  f_equal. rewrite map_map. rewrite <- (map_id tw) at 2. apply map_ext_in. intros x Hx. unfold retag, untag. cbn. rewrite pos_nth by auto. destruct x; reflexivity.
Qed.
Lemma index_lang w : pair_lang gs e w <-> plang (PPo (map (key_node gs) ks) r) w.
Proof.
  rewrite po_words, map_length. unfold pair_lang.
  assert (Hnode : forall a, a < length ks -> nth a (map (key_node gs) ks) (PLeaf None) = key_node gs (nth a ks (0, 0))).
  { intros a Ha. rewrite (nth_indep _ (PLeaf None) (key_node gs (0, 0))) by (rewrite map_length; auto). apply map_nth. }
  split.
  - intros (tw & -> & H1 & H2 & H3). exists (map retag tw).
    assert (Ht : forall x, In x tw -> In (fst x) ks) by (intros x Hx; apply Hin, H1, Hx).
    split; [rewrite map_map; reflexivity|]. split; [|split].
    + intros x Hx. apply in_map_iff in Hx as (y & <- & Hy). apply pos_ok, Ht, Hy.
    + intros a Ha. rewrite Hnode by auto. rewrite <- (pos_nth ks a) at 2 by auto. rewrite retag_events; auto; [|apply nth_In; auto]. apply H2, Hin, nth_In, Ha.
    + apply fop_map. eapply fop_impl; [|exact H3]. intros x y Hx Hy Hn Hc. apply Hn.
      destruct (pos_ok (fst x) ks (Ht x Hx)) as [Bx Ex], (pos_ok (fst y) ks (Ht y Hy)) as [By Ey]. cbn in Hc. apply Hr in Hc; auto. rewrite Ex, Ey in Hc. exact Hc.
  - intros (tw & -> & H1 & H2 & H3). exists (map untag tw). split; [rewrite map_map; reflexivity|]. split; [|split].
    + intros x Hx. apply in_map_iff in Hx as (y & <- & Hy). apply Hin, nth_In, H1, Hy.
    + intros k Hk. rewrite <- Hin in Hk. rewrite untag_events; auto. destruct (pos_ok k ks Hk) as [B E]. specialize (H2 _ B). rewrite Hnode, E in H2 by auto. exact H2.
    + apply fop_map. eapply fop_impl; [|exact H3]. intros x y Hx Hy Hn Hc. apply Hn. apply Hr; auto.
Qed.
End Index.
