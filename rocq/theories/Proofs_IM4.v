(** Inductive Miner: the strict sequence cut. *)
From Coq Require Import List Arith Bool ZArith Lia Permutation Sorting.Sorted.
Import ListNotations.
From Verif Require Import Model_Dict Model_Dfg Model_Graph Model_Lev Model_Tree Model_IM Spec_Graph.
From Verif Require Import Proofs_Dict Proofs_Dfg Proofs_Graph Proofs_Lev Proofs_IM1 Proofs_IM2 Proofs_IM3.
Local Open Scope nat_scope.
Local Arguments keqb {K Key} : simpl never.
Local Arguments Nat.ltb : simpl never.
Local Arguments Nat.leb : simpl never.
Local Arguments Nat.eqb : simpl never.

(** ** list update *)
Lemma upd_length {X} (l : list X) : forall i x, length (upd l i x) = length l.
Proof. induction l as [|y l IH]; intros [|i] x; cbn; auto. Qed.
Lemma upd_nth {X} (l : list X) d : forall i x j, i < length l -> nth j (upd l i x) d = if Nat.eqb j i then x else nth j l d.
Proof.
  induction l as [|y l IH]; intros [|i] x [|j] H; cbn [length] in H; try lia; cbn [upd nth]; auto.
  rewrite IH by lia. destruct (Nat.eqb_spec j i), (Nat.eqb_spec (S j) (S i)); auto; lia.
Qed.

Lemma nth_map {X Y} (f : X -> Y) (l : list X) d d' : forall i, i < length l -> nth i (map f l) d' = f (nth i l d).
Proof. induction l as [|x l IH]; intros [|i] H; cbn in *; try lia; auto. apply IH. lia. Qed.

(** ** NoDup of a concatenation through positions *)
Lemma nodup_concat_nth (c : list group) : (forall s, NoDup (nth s c [])) ->
  (forall s s' a, In a (nth s c []) -> In a (nth s' c []) -> s = s') -> NoDup (concat c).
Proof.
  induction c as [|g c IH]; intros H1 H2; [constructor|]. cbn [concat]. apply NoDup_app_intro.
  - apply (H1 0).
  - apply IH; [intros s; apply (H1 (S s))|]. intros s s' a Ha Ha'. specialize (H2 (S s) (S s') a Ha Ha'). lia.
  - intros x Hx Hy. apply in_concat in Hy. destruct Hy as (h & Hh & Hx'). apply (In_nth _ _ []) in Hh. destruct Hh as (i & Hi & <-). specialize (H2 0 (S i) x Hx Hx'). lia.
Qed.
Lemma in_concat_nth (c : list group) a : In a (concat c) <-> exists s, s < length c /\ In a (nth s c []).
Proof.
  rewrite in_concat. split.
  - intros (h & Hh & Ha). apply (In_nth _ _ []) in Hh. destruct Hh as (i & Hi & <-). eauto.
  - intros (s & Hs & Ha). exists (nth s c []). split; auto. apply nth_In; auto.
Qed.
Lemma nth_concat_nodup (c : list group) : NoDup (concat c) ->
  (forall s, NoDup (nth s c [])) /\ (forall s s' a, In a (nth s c []) -> In a (nth s' c []) -> s = s').
Proof.
  induction c as [|g c IH]; intros H; [split; [intros [|s]; constructor|intros [|s] s' a []]|]. cbn [concat] in H.
  destruct (IH (NoDup_app_r _ _ H)) as [I1 I2]. split.
  - intros [|s]; [apply NoDup_app_l in H; auto|apply I1].
  - intros [|s] [|s'] a Ha Ha'; cbn [nth] in *; auto.
    + exfalso. apply (NoDup_app_disj g (concat c) a); auto. apply in_concat_nth. exists s'. split; auto. destruct (le_lt_dec (length c) s'); auto. rewrite nth_overflow in Ha' by auto. destruct Ha'.
    + exfalso. apply (NoDup_app_disj g (concat c) a); auto. apply in_concat_nth. exists s. split; auto. destruct (le_lt_dec (length c) s); auto. rewrite nth_overflow in Ha by auto. destruct Ha.
    + f_equal. eauto.
Qed.
Lemma sorted_nth {X} (R : X -> X -> Prop) d (l : list X) : (forall i j, i < j -> j < length l -> R (nth i l d) (nth j l d)) <-> StronglySorted R l.
Proof.
  split.
  - induction l as [|x l IH]; intros H; constructor.
    + apply IH. intros i j Hij Hj. apply (H (S i) (S j)); cbn; lia.
    + apply Forall_forall. intros y Hy. apply (In_nth _ _ d) in Hy. destruct Hy as (j & Hj & <-). apply (H 0 (S j)); cbn; lia.
  - induction 1 as [|x l Hs IH Hf]; intros i j Hij Hj; [cbn in Hj; lia|]. destruct j as [|j]; [lia|]. destruct i as [|i]; cbn [nth length] in *.
    + apply (proj1 (Forall_forall _ _) Hf). apply nth_In. lia.
    + apply IH; lia.
Qed.
Lemma sorted_filter {X} (R : X -> X -> Prop) f (l : list X) : StronglySorted R l -> StronglySorted R (filter f l).
Proof.
  induction 1 as [|x l Hs IH Hf]; cbn; [constructor|]. destruct (f x); auto. constructor; auto.
  apply Forall_forall. intros y Hy. apply filter_In in Hy. apply (proj1 (Forall_forall _ _) Hf). tauto.
Qed.
Lemma concat_filter_nonempty (c : list group) : concat (filter nonempty c) = concat c.
Proof. induction c as [|[|x g] c IH]; cbn in *; auto. rewrite IH. auto. Qed.
Lemma filter_nonempties (c : list group) : nonempties (filter nonempty c).
Proof. apply Forall_forall. intros g Hg. apply filter_In in Hg. destruct g; [destruct Hg; discriminate|discriminate]. Qed.
Lemma filter_two (c : list group) : forall s s', s < s' -> nth s c [] <> [] -> nth s' c [] <> [] -> 2 <= length (filter nonempty c).
Proof.
  assert (one : forall (c : list group) s, nth s c [] <> [] -> 1 <= length (filter nonempty c)).
  { clear. induction c as [|g c IH]; intros [|s] H; cbn in *; try congruence.
    - destruct g; [congruence|]. cbn. lia.
    - specialize (IH s H). destruct (nonempty g); cbn; lia. }
  induction c as [|g c IH]; intros [|s] [|s'] Hs H H'; try lia; cbn [nth filter] in *; try congruence.
  - specialize (one c s' H'). destruct g; [congruence|]. cbn. lia.
  - specialize (IH s s' ltac:(lia) H H'). destruct (nonempty g); cbn; lia.
Qed.

(** ** cluster map, mf and mt *)
Lemma cluster_get (c : list group) : NoDup (concat c) -> forall k d a,
  let r := fold_left (fun d ig => fold_left (fun d a => d_set d a (fst ig)) (snd ig) d) (combine (seq k (length c)) c) d in
  (~ In a (concat c) -> d_get r a = d_get d a) /\ (forall i, In a (nth i c []) -> d_get r a = Some (k + i)).
Proof.
  assert (inner : forall (g : group) (i : nat) (d : dict nat nat) a, d_get (fold_left (fun d a => d_set d a i) g d) a = if smem a g then Some i else d_get d a).
  { clear. induction g as [|x g IH]; intros i d a; auto. cbn [fold_left]. rewrite IH. cbn [smem existsb]. fold (smem a g). rewrite d_get_set. change (keqb x a) with (Nat.eqb x a). rewrite Nat.eqb_sym.
    destruct (smem a g), (Nat.eqb a x); auto. }
  induction c as [|g c IH]; intros H k d a; [cbn; split; auto; intros [|i] []|].
  cbn [length seq combine fold_left fst snd]. cbn [concat] in H. destruct (IH (NoDup_app_r _ _ H) (S k) (fold_left (fun d a => d_set d a k) g d) a) as [I1 I2]. split.
  - intros Na. cbn [concat] in Na. rewrite in_app_iff in Na. rewrite I1 by tauto. rewrite inner. destruct (smem a g) eqn:M; auto. apply smem_in in M. tauto.
  - intros [|i] Ha; cbn [nth] in Ha.
    + rewrite I1. { rewrite inner. apply smem_in in Ha. rewrite Ha. f_equal. lia. } intros Q. apply (NoDup_app_disj _ _ a H); auto.
    + rewrite (I2 i Ha). f_equal. lia.
Qed.
Lemma cluster_spec (c : list group) i a : NoDup (concat c) -> In a (nth i c []) -> c_get (cluster_map c) a = i.
Proof. intros H Ha. unfold c_get, cluster_map. destruct (cluster_get c H 0 [] a) as [_ Q]. rewrite (Q i Ha). reflexivity. Qed.

Section MfMt.
  Variable g : dfg.
  Variable c0 : list group.
  Hypothesis cut : is_cut g c0.
  Let n := length c0.
  Lemma cut_nodup : NoDup (concat c0).
  Proof. destruct cut as (P & _ & _). apply (Permutation_NoDup (Permutation_sym P)), vertices_nodup. Qed.
  Lemma cut_index a : In a (get_vertices g) -> exists i, i < n /\ In a (nth i c0 []).
  Proof. intros H. destruct cut as (P & _ & _). apply (Permutation_in a (Permutation_sym P)) in H. apply in_concat_nth in H. auto. Qed.
  Lemma in_nth_lt i a : In a (nth i c0 []) -> i < n.
  Proof. intros H. destruct (le_lt_dec n i); auto. rewrite nth_overflow in H by auto. destruct H. Qed.
  Lemma edge_index a b : In (a, b) (edges g) -> exists i j, i < n /\ j < n /\ In a (nth i c0 []) /\ In b (nth j c0 []).
  Proof. intros H. apply edge_vertices in H. destruct H as [Ha Hb]. destruct (cut_index a Ha) as (i & ? & ?), (cut_index b Hb) as (j & ? & ?). exists i, j; auto. Qed.
  Definition D i j : Prop := exists a b, In a (nth i c0 []) /\ In b (nth j c0 []) /\ In (a, b) (edges g).
  Definition St i : Prop := exists a, In a (nth i c0 []) /\ In a (d_keys (start_acts g)).
  Definition Te i : Prop := exists a, In a (nth i c0 []) /\ In a (d_keys (end_acts g)).
  Let mf j := nth j (fst (mf_mt g c0)) 0%Z.
  Let mt i := nth i (snd (mf_mt g c0)) 0%Z.
  Definition mstep (m : list Z * list Z) (ab : edge) : list Z * list Z :=
    let ia := c_get (cluster_map c0) (fst ab) in let ib := c_get (cluster_map c0) (snd ab) in
    (upd (fst m) ib (Z.min (nth ib (fst m) 0%Z) (Z.of_nat ia)), upd (snd m) ia (Z.max (nth ia (snd m) 0%Z) (Z.of_nat ib))).
  Definition mf0 : list Z := map (fun G => if existsb (d_mem (start_acts g)) G then (- Z.of_nat n)%Z else Z.of_nat n) c0.
  Definition mt0 : list Z := map (fun G => if existsb (d_mem (end_acts g)) G then Z.of_nat n else (- Z.of_nat n)%Z) c0.
  Lemma mf_mt_eq : mf_mt g c0 = fold_left mstep (edges g) (mf0, mt0).
  Proof. reflexivity. Qed.
  Lemma mfold_spec es : incl es (edges g) -> let m := fold_left mstep es (mf0, mt0) in
    length (fst m) = n /\ length (snd m) = n /\
    (forall j, j < n -> (nth j (fst m) 0 <= nth j mf0 0)%Z /\ (nth j (fst m) 0%Z = nth j mf0 0%Z \/ exists i, nth j (fst m) 0%Z = Z.of_nat i /\ D i j)) /\
    (forall i, i < n -> (nth i mt0 0 <= nth i (snd m) 0)%Z /\ (nth i (snd m) 0%Z = nth i mt0 0%Z \/ exists j, nth i (snd m) 0%Z = Z.of_nat j /\ D i j)) /\
    (forall a b i j, In (a, b) es -> In a (nth i c0 []) -> In b (nth j c0 []) -> (nth j (fst m) 0 <= Z.of_nat i)%Z /\ (Z.of_nat j <= nth i (snd m) 0)%Z).
  Proof.
    induction es as [|[a b] es IH] using rev_ind; intros Hin.
    - cbn. repeat split; auto; try lia; try (unfold mf0, mt0; rewrite map_length; reflexivity); tauto.
    - destruct IH as (L1 & L2 & F1 & F2 & F3); [intros x Hx; apply Hin, in_or_app; auto|]. cbn zeta in *. rewrite fold_left_app. cbn [fold_left]. set (m := fold_left mstep es (mf0, mt0)) in *.
      assert (He : In (a, b) (edges g)) by (apply Hin, in_or_app; right; left; auto).
      destruct (edge_index a b He) as (i & j & Hi & Hj & Ha & Hb).
      unfold mstep. cbn [fst snd]. rewrite (cluster_spec c0 i a cut_nodup Ha), (cluster_spec c0 j b cut_nodup Hb).
      assert (L1' : length (fst m) = n) by auto. assert (L2' : length (snd m) = n) by auto.
      assert (Dij : D i j) by (exists a, b; auto).
      rewrite !upd_length. split; [auto|split; [auto|split; [|split]]].
      + intros k Hk. rewrite upd_nth by lia. destruct (Nat.eqb_spec k j) as [->|]; [|apply F1; auto]. destruct (F1 j Hj) as [G1 G2]. split; [lia|].
        destruct (Z.min_spec (nth j (fst m) 0%Z) (Z.of_nat i)) as [[_ ->]|[_ ->]]; auto. right. eauto.
      + intros k Hk. rewrite upd_nth by lia. destruct (Nat.eqb_spec k i) as [->|]; [|apply F2; auto]. destruct (F2 i Hi) as [G1 G2]. split; [lia|].
        destruct (Z.max_spec (nth i (snd m) 0%Z) (Z.of_nat j)) as [[_ ->]|[_ ->]]; auto. right. eauto.
      + intros a' b' i' j' H Ha' Hb'. rewrite !upd_nth by lia. apply in_app_or in H. destruct H as [H|[[= <- <-]|[]]].
        * destruct (F3 a' b' i' j' H Ha' Hb') as [G1 G2]. destruct (Nat.eqb_spec j' j), (Nat.eqb_spec i' i); subst; lia.
        * destruct (nth_concat_nodup c0 cut_nodup) as [_ U]. rewrite (U i' i a Ha' Ha), (U j' j b Hb' Hb), !Nat.eqb_refl. lia.
  Qed.
  Lemma two : 2 <= n. Proof. apply cut. Qed.
  Lemma nth_mf0 j : j < n -> nth j mf0 0%Z = if existsb (d_mem (start_acts g)) (nth j c0 []) then (- Z.of_nat n)%Z else Z.of_nat n.
  Proof.
    intros H. unfold mf0. exact (nth_map (fun G => if existsb (d_mem (start_acts g)) G then (- Z.of_nat n)%Z else Z.of_nat n) c0 [] 0%Z j H).
  Qed.
  Lemma nth_mt0 j : j < n -> nth j mt0 0%Z = if existsb (d_mem (end_acts g)) (nth j c0 []) then Z.of_nat n else (- Z.of_nat n)%Z.
  Proof.
    intros H. unfold mt0. exact (nth_map (fun G => if existsb (d_mem (end_acts g)) G then Z.of_nat n else (- Z.of_nat n)%Z) c0 [] 0%Z j H).
  Qed.
  Lemma D_n i j : D i j -> i < n /\ j < n.
  Proof. intros (a & b & Ha & Hb & _). split; eapply in_nth_lt; eauto. Qed.
  Lemma S_n i : St i -> i < n. Proof. intros (a & Ha & _). eapply in_nth_lt; eauto. Qed.
  Lemma T_n i : Te i -> i < n. Proof. intros (a & Ha & _). eapply in_nth_lt; eauto. Qed.
  Lemma S_mf j : St j -> (mf j < 0)%Z.
  Proof.
    intros H. pose proof (S_n j H) as Hj. unfold mf. rewrite mf_mt_eq. destruct (mfold_spec (edges g) (incl_refl _)) as (_ & _ & F1 & _). destruct (F1 j Hj) as [F _].
    rewrite nth_mf0 in F by auto. destruct H as (a & Ha & Hs). assert (X : existsb (d_mem (start_acts g)) (nth j c0 []) = true). { apply existsb_exists. exists a. split; auto. apply d_mem_in; auto. }
    rewrite X in F. pose proof two. lia.
  Qed.
  Lemma T_mt i : Te i -> (Z.of_nat n <= mt i)%Z.
  Proof.
    intros H. pose proof (T_n i H) as Hj. unfold mt. rewrite mf_mt_eq. destruct (mfold_spec (edges g) (incl_refl _)) as (_ & _ & _ & F2 & _). destruct (F2 i Hj) as [F _].
    rewrite nth_mt0 in F by auto. destruct H as (a & Ha & Hs). assert (X : existsb (d_mem (end_acts g)) (nth i c0 []) = true). { apply existsb_exists. exists a. split; auto. apply d_mem_in; auto. }
    rewrite X in F. lia.
  Qed.
  Lemma D_mf i j : D i j -> (mf j <= Z.of_nat i)%Z.
  Proof. intros (a & b & Ha & Hb & He). unfold mf. rewrite mf_mt_eq. apply (mfold_spec (edges g) (incl_refl _)) with (a := a) (b := b); auto. Qed.
  Lemma D_mt i j : D i j -> (Z.of_nat j <= mt i)%Z.
  Proof. intros (a & b & Ha & Hb & He). unfold mt. rewrite mf_mt_eq. apply (mfold_spec (edges g) (incl_refl _)) with (a := a) (b := b); auto. Qed.
  Lemma mf_D i j : j < n -> i < n -> mf j = Z.of_nat i -> D i j.
  Proof.
    intros Hj Hi. unfold mf. rewrite mf_mt_eq. destruct (mfold_spec (edges g) (incl_refl _)) as (_ & _ & F1 & _). destruct (F1 j Hj) as [_ [E|(k & E & Dk)]]; rewrite E; intros Q.
    - rewrite nth_mf0 in Q by auto. pose proof two. destruct (existsb _ _); lia.
    - assert (k = i) by lia. subst. auto.
  Qed.
  Lemma mt_D i j : i < n -> j < n -> mt i = Z.of_nat j -> D i j.
  Proof.
    intros Hi Hj. unfold mt. rewrite mf_mt_eq. destruct (mfold_spec (edges g) (incl_refl _)) as (_ & _ & _ & F2 & _). destruct (F2 i Hi) as [_ [E|(k & E & Dk)]]; rewrite E; intros Q.
    - rewrite nth_mt0 in Q by auto. pose proof two. destruct (existsb _ _); lia.
    - assert (k = j) by lia. subst. auto.
  Qed.
  Lemma mf_len : length (fst (mf_mt g c0)) = n.
  Proof. rewrite mf_mt_eq. apply (mfold_spec (edges g) (incl_refl _)). Qed.

  (** ** the slots *)
  Record rep (c : list group) (pos : nat -> nat) : Prop := {
    r_len : length c = n;
    r_nd : forall s, NoDup (nth s c []);
    r_in : forall s a, In a (nth s c []) <-> exists x, x < n /\ In a (nth x c0 []) /\ pos x = s /\ s < n }.
  Lemma rep_ext c pos pos' : (forall x, x < n -> pos x = pos' x) -> rep c pos -> rep c pos'.
  Proof.
    intros H [H1 H2 H3]. constructor; auto. intros s a. rewrite H3. split; intros (x & Hx & Ha & E & Hs); exists x; repeat split; auto; [rewrite <- H|rewrite H]; auto.
  Qed.
  Lemma rep_init : rep c0 (fun x => x).
  Proof.
    constructor; auto; [intros; apply nth_concat_nodup, cut_nodup|]. intros s a. split.
    - intros H. exists s. pose proof (in_nth_lt s a H). auto.
    - intros (x & _ & H & <- & _). auto.
  Qed.
  Lemma rep_take c pos p q : p < n -> q < n -> p <> q -> rep c pos -> rep (take c p q) (fun x => if Nat.eqb (pos x) q then p else pos x).
  Proof.
    intros Hp Hq N [H1 H2 H3]. unfold take. constructor.
    - rewrite !upd_length. auto.
    - intros s. rewrite upd_nth by (rewrite upd_length; lia). destruct (Nat.eqb_spec s q); [constructor|]. rewrite upd_nth by lia. destruct (Nat.eqb_spec s p); auto. apply sunion_nodup; auto.
    - intros s a. rewrite upd_nth by (rewrite upd_length; lia). destruct (Nat.eqb_spec s q) as [->|Nq].
      + split; [intros []|]. intros (x & Hx & Ha & E & _). destruct (Nat.eqb_spec (pos x) q); lia.
      + rewrite upd_nth by lia. destruct (Nat.eqb_spec s p) as [->|Np].
        * rewrite sunion_in, !H3. split.
          -- intros [(x & Hx & Ha & E & Hs)|(x & Hx & Ha & E & Hs)]; exists x; repeat split; auto; destruct (Nat.eqb_spec (pos x) q); lia.
          -- intros (x & Hx & Ha & E & Hs). destruct (Nat.eqb_spec (pos x) q); [right|left]; exists x; auto.
        * rewrite H3. split; intros (x & Hx & Ha & E & Hs); exists x; repeat split; auto; destruct (Nat.eqb_spec (pos x) q); lia.
  Qed.
  Lemma rep_back p : p < n -> forall q1 c pos, q1 <= p -> rep c pos ->
    exists lo, lo <= q1 /\ rep (back (snd (mf_mt g c0)) p q1 c) (fun x => if (lo <=? pos x) && (pos x <? q1) then p else pos x) /\
      (forall q, lo <= q < q1 -> (mt q <= Z.of_nat p)%Z) /\ (lo = 0 \/ (Z.of_nat p < mt (lo - 1))%Z).
  Proof.
    intros Hp. induction q1 as [|q IH]; intros c pos Hq R; cbn [back].
    - exists 0. split; auto. split; [|split; [intros; lia|auto]]. eapply rep_ext; [|exact R]. intros x _. cbn beta. destruct (Nat.ltb_spec (pos x) 0); [lia|]. rewrite andb_false_r. auto.
    - destruct (Z.leb_spec (nth q (snd (mf_mt g c0)) 0%Z) (Z.of_nat p)) as [L|L].
      + destruct (IH (take c p q) (fun x => if Nat.eqb (pos x) q then p else pos x)) as (lo & H1 & H2 & H3 & H4); [lia|apply rep_take; auto; lia|].
        exists lo. split; [lia|]. split; [|split; auto].
        * eapply rep_ext; [|exact H2]. intros x Hx. cbn beta. destruct (Nat.eqb_spec (pos x) q) as [E|E].
          -- rewrite E. destruct (Nat.leb_spec lo p), (Nat.ltb_spec p q), (Nat.leb_spec lo q), (Nat.ltb_spec q (S q)); cbn; lia.
          -- destruct (Nat.leb_spec lo (pos x)), (Nat.ltb_spec (pos x) q), (Nat.ltb_spec (pos x) (S q)); cbn; lia.
        * intros q' Hq'. destruct (Nat.eq_dec q' q) as [->|]; [exact L|apply H3; lia].
      + exists (S q). split; auto. split; [|split; [intros; lia|right]].
        * eapply rep_ext; [|exact R]. intros x Hx. cbn beta. destruct (Nat.leb_spec (S q) (pos x)), (Nat.ltb_spec (pos x) (S q)); cbn; lia.
        * replace (S q - 1) with q by lia. exact L.
  Qed.
  Lemma rep_forth p : p < n -> forall k q c pos, p < q -> k + q = n -> rep c pos ->
    exists hi, q - 1 <= hi /\ hi < n /\ rep (forth (fst (mf_mt g c0)) p k q c) (fun x => if (q <=? pos x) && (pos x <=? hi) then p else pos x) /\
      (forall q', q <= q' <= hi -> (Z.of_nat p <= mf q')%Z) /\ (hi = n - 1 \/ (mf (hi + 1) < Z.of_nat p)%Z).
  Proof.
    intros Hp. induction k as [|k IH]; intros q c pos Hq Hk R; cbn [forth].
    - exists (q - 1). split; auto. split; [lia|]. split; [|split; [intros; lia|left; lia]]. eapply rep_ext; [|exact R]. intros x _. cbn beta. destruct (Nat.leb_spec q (pos x)), (Nat.leb_spec (pos x) (q - 1)); cbn; lia.
    - destruct (Z.leb_spec (Z.of_nat p) (nth q (fst (mf_mt g c0)) 0%Z)) as [L|L].
      + destruct (IH (S q) (take c p q) (fun x => if Nat.eqb (pos x) q then p else pos x)) as (hi & H1 & H2 & H3 & H4 & H5); [lia|lia|apply rep_take; auto; lia|].
        exists hi. split; [lia|]. split; auto. split; [|split; auto].
        * eapply rep_ext; [|exact H3]. intros x Hx. cbn beta. destruct (Nat.eqb_spec (pos x) q) as [E|E].
          -- rewrite E. destruct (Nat.leb_spec (S q) p), (Nat.leb_spec p hi), (Nat.leb_spec q q), (Nat.leb_spec q hi); cbn; lia.
          -- destruct (Nat.leb_spec (S q) (pos x)), (Nat.leb_spec (pos x) hi), (Nat.leb_spec q (pos x)); cbn; lia.
        * intros q' Hq'. destruct (Nat.eq_dec q' q) as [->|]; [exact L|apply H4; lia].
      + exists (q - 1). split; auto. split; [lia|]. split; [|split; [intros; lia|right]].
        * eapply rep_ext; [|exact R]. intros x Hx. cbn beta. destruct (Nat.leb_spec q (pos x)), (Nat.leb_spec (pos x) (q - 1)); cbn; lia.
        * replace (q - 1 + 1) with q by lia. exact L.
  Qed.
  Lemma skippable_reason p c pos : rep c pos -> skippable p g c = true -> reason D St Te p pos.
  Proof.
    intros [H1 H2 H3]. unfold skippable. rewrite !orb_true_iff. intros [[H|H]|H].
    - left. apply existsb_exists in H. destruct H as (i & Hi & H). apply existsb_exists in H. destruct H as (j & Hj & H). apply existsb_exists in H. destruct H as (a & Ha & H). apply existsb_exists in H. destruct H as (b & Hb & H).
      apply in_seq in Hi, Hj. apply H3 in Ha, Hb. destruct Ha as (x & Hx & Ha & Ex & _), Hb as (y & Hy & Hb & Ey & _). exists x, y. repeat split; try lia. exists a, b. repeat split; auto. apply d_mem_in in H. auto.
    - right. left. apply existsb_exists in H. destruct H as (i & Hi & H). apply existsb_exists in H. destruct H as (a & Ha & H). apply in_seq in Hi. apply H3 in Ha. destruct Ha as (x & Hx & Ha & Ex & _).
      exists x. split; [lia|]. exists a. split; auto. apply d_mem_in; auto.
    - right. right. apply existsb_exists in H. destruct H as (i & Hi & H). apply existsb_exists in H. destruct H as (a & Ha & H). apply in_seq in Hi. apply H3 in Ha. destruct Ha as (x & Hx & Ha & Ex & _).
      exists x. split; [lia|]. exists a. split; auto. apply d_mem_in; auto.
  Qed.
  Lemma strict_inv k : k <= n -> exists pos, rep (fold_left (strict_step g (mf_mt g c0)) (seq 0 k) c0) pos /\ inv n mf mt k pos.
  Proof.
    induction k as [|p IH]; intros Hk; [exists (fun x => x); split; [apply rep_init|apply inv_init, two]|].
    destruct (IH ltac:(lia)) as (pos & R & I). rewrite seq_S, fold_left_app. cbn [fold_left]. rewrite Nat.add_0_l. set (c := fold_left _ (seq 0 p) c0) in *.
    unfold strict_step. destruct (skippable p g c) eqn:Sk.
    - destruct (rep_back p ltac:(lia) p c pos (Nat.le_refl _) R) as (lo & L1 & R1 & L2 & L3).
      rewrite mf_len. destruct (rep_forth p ltac:(lia) (n - (p + 1)) (p + 1) _ _ ltac:(lia) ltac:(lia) R1) as (hi & G1 & G2 & R2 & G3 & G4).
      exists (move lo p hi pos). split.
      + eapply rep_ext; [|exact R2]. intros x Hx. cbn beta. unfold move.
        destruct (Nat.leb_spec lo (pos x)), (Nat.ltb_spec (pos x) p), (Nat.leb_spec (pos x) hi); cbn [andb];
          destruct (Nat.leb_spec (p + 1) p), (Nat.leb_spec (p + 1) (pos x)), (Nat.leb_spec (pos x) hi); cbn; lia.
      + replace (S p) with (p + 1) by lia. eapply inv_move; eauto.
        * apply S_mf. * apply D_mf. * apply mf_D. * apply T_mt. * apply D_mt. * apply mt_D. * apply D_n. * apply S_n. * apply T_n.
        * apply (skippable_reason p c pos); auto.
        * lia.
        * intros q Hq. apply G3. lia.
    - exists pos. split; auto. replace (S p) with (p + 1) by lia. apply inv_skip; auto.
  Qed.
End MfMt.

(** no edge goes back to an earlier group *)
Definition forward (E : list edge) (g h : group) : Prop := forall a b, In a h -> In b g -> ~ In (a, b) E.
Lemma before_forward E g h : before E g h -> forward E g h.
Proof. intros B a b Ha Hb H. destruct (B b a Hb Ha) as [_ N]. apply N. apply path_edge; auto. Qed.
Lemma sorted_impl {X} (R R' : X -> X -> Prop) l : (forall x y, R x y -> R' x y) -> StronglySorted R l -> StronglySorted R' l.
Proof. intros H. induction 1 as [|x l Hs IH Hf]; constructor; auto. revert Hf. apply Forall_impl. intros y. apply H. Qed.

Section StrictHolds.
  Variable ord : list nat -> list nat.
  Hypothesis ord_perm : forall l, Permutation (ord l) l.
  Theorem strict_cut g gs : strict_holds ord g = Some gs -> is_cut g gs /\ StronglySorted (forward (edges g)) gs.
  Proof.
    unfold strict_holds. destruct (seq_holds ord g) as [c0|] eqn:Hs; [|discriminate]. intros [= <-].
    destruct (seq_cut ord ord_perm g c0 Hs) as [cut chain]. destruct (strict_inv g c0 cut (length c0) (Nat.le_refl _)) as (pos & [R1 R2 R3] & I).
    set (c := fold_left _ _ c0) in *.
    assert (UN : forall s s' a, In a (nth s c []) -> In a (nth s' c []) -> s = s').
    { intros s s' a Ha Hb. apply R3 in Ha, Hb. destruct Ha as (x & Hx & Ha & <- & _), Hb as (y & Hy & Hb & <- & _).
      destruct (nth_concat_nodup c0 (cut_nodup g c0 cut)) as [_ U]. rewrite (U x y a Ha Hb). auto. }
    split; [split; [|split]|].
    - rewrite concat_filter_nonempty. transitivity (concat c0); [|apply cut]. apply NoDup_Permutation.
      + apply nodup_concat_nth; auto.
      + apply (cut_nodup g c0 cut).
      + intros a. rewrite !in_concat_nth, R1. split.
        * intros (s & Hs' & Ha). apply R3 in Ha. destruct Ha as (x & Hx & Ha & _). eauto.
        * intros (x & Hx & Ha). exists (pos x). assert (pos x < length c0) by (eapply i_n; eauto). split; auto. apply R3. exists x. auto.
    - apply filter_nonempties.
    - destruct (i_two _ _ _ _ _ I) as (x & y & Hx & Hy & Nxy).
      assert (NE : forall x, x < length c0 -> nth (pos x) c [] <> []).
      { intros x' Hx' E. assert (nth x' c0 [] <> []). { destruct cut as (_ & N & _). apply (proj1 (Forall_forall _ _) N). apply nth_In; auto. }
        destruct (nth x' c0 []) as [|a r] eqn:Ex; [congruence|]. assert (In a (nth (pos x') c [])). { apply R3. exists x'. rewrite Ex. repeat split; auto; [left; auto|eapply i_n; eauto]. } rewrite E in *. auto. }
      destruct (lt_eq_lt_dec (pos x) (pos y)) as [[L|E]|L]; [|congruence|]; [apply (filter_two c (pos x) (pos y))|apply (filter_two c (pos y) (pos x))]; auto.
    - apply sorted_filter. apply (sorted_nth _ []). intros i j Hij Hj a b Ha Hb He.
      apply R3 in Ha, Hb. destruct Ha as (x & Hx & Ha & <- & _), Hb as (y & Hy & Hb & <- & _).
      assert (y < x). { destruct (le_lt_dec x y) as [L|L]; auto. pose proof (i_mono _ _ _ _ _ I x y L Hy). lia. }
      pose proof (proj2 (sorted_nth (before (edges g)) [] c0) chain y x ltac:(lia) Hx b a Hb Ha) as [_ N]. apply N. apply path_edge; auto.
  Qed.
  Lemma seq_cut_forward g gs : seq_holds ord g = Some gs -> is_cut g gs /\ StronglySorted (forward (edges g)) gs.
  Proof. intros H. destruct (seq_cut ord ord_perm g gs H) as [H1 H2]. split; auto. eapply sorted_impl; [|exact H2]. apply before_forward. Qed.
End StrictHolds.
