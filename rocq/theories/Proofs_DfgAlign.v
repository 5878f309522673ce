(** Walks through the product of a graph and a trace. *)
From Coq Require Import List Arith Bool Lia.
Import ListNotations.
From Verif Require Import Model_Dict Proofs_Dict Model_DfgAlign Spec_DfgNet Spec_DfgAlign.
Local Open Scope nat_scope.

Lemma node_eqb_spec x y : reflect (x = y) (node_eqb x y).
Proof.
  destruct x as [| |a], y as [| |b]; cbn; try (constructor; congruence).
  destruct (Nat.eqb_spec a b); constructor; congruence.
Qed.
Lemma inb_iff l a : existsb (Nat.eqb a) l = true <-> In a l.
Proof.
  rewrite existsb_exists. split; [intros (b & H & E); apply Nat.eqb_eq in E; subst; exact H|].
  intros H. exists a. split; [exact H|apply Nat.eqb_refl].
Qed.

Section W.
  Context (K : nat) (edges : list (nat * nat)) (sa ea : list nat) (trace : list nat).
  Notation outgoing := (outgoing edges sa ea).
  Notation in_model := (in_model edges sa ea).
  Notation log_cost := (log_cost K edges sa ea).
  Notation N := (length trace).

  Definition out (n : node) (a : nat) : Prop := (n = NStart /\ In a sa) \/ (exists x, n = NAct x /\ In (x, a) edges).
  Definition fin (n : node) : Prop := exists x, n = NAct x /\ In x ea.
  Lemma out_iff n a : In (NAct a) (outgoing n) <-> out n a.
  Proof.
    unfold out. destruct n as [| |x]; cbn [outgoing].
    - rewrite in_map_iff. split.
      + intros (b & [= ->] & H). apply (proj1 (dedup_in _ _)) in H. left. split; [reflexivity|exact H].
      + intros [[_ H]|(x & E & _)]; [|discriminate]. exists a. split; [reflexivity|apply dedup_in, H].
    - split; [intros []|intros [[? _]|(x & ? & _)]; discriminate].
    - rewrite in_app_iff, in_map_iff. split.
      + intros [(b & [= ->] & H)|H].
        * apply dedup_in, in_map_iff in H as ([y z] & <- & H). apply filter_In in H as [H E]. cbn in *. apply Nat.eqb_eq in E. subst. right. eauto.
        * destruct (existsb (Nat.eqb x) ea); [destruct H as [H|[]]; discriminate|contradiction].
      + intros [[? _]|(y & [= <-] & H)]; [discriminate|]. left. exists a. split; [reflexivity|]. apply dedup_in, in_map_iff.
        exists (x, a). split; [reflexivity|]. apply filter_In. split; [exact H|]. cbn. apply Nat.eqb_refl.
  Qed.
  Lemma fin_iff n : In NEnd (outgoing n) <-> fin n.
  Proof.
    unfold fin. destruct n as [| |x]; cbn [outgoing].
    - rewrite in_map_iff. split; [intros (b & E & _); discriminate|intros (x & E & _); discriminate].
    - split; [intros []|intros (x & E & _); discriminate].
    - rewrite in_app_iff, in_map_iff. split.
      + intros [(b & E & H)|H]; [discriminate|]. destruct (existsb (Nat.eqb x) ea) eqn:E; [|contradiction]. exists x. split; [reflexivity|apply inb_iff, E].
      + intros (y & [= <-] & H). right. rewrite (proj2 (inb_iff ea x) H). left. reflexivity.
  Qed.
  Lemma start_notin n : ~ In NStart (outgoing n).
  Proof.
    destruct n as [| |x]; cbn [outgoing]; rewrite ?in_app_iff, ?in_map_iff; [intros (b & E & _); discriminate|intros []|].
    intros [(b & E & _)|H]; [discriminate|]. destruct (existsb (Nat.eqb x) ea); [destruct H as [H|[]]; discriminate|contradiction].
  Qed.
  Lemma out_model n a : out n a -> in_model a = true.
  Proof.
    intros H. apply inb_iff. unfold model_acts. apply dedup_in. rewrite !in_app_iff. destruct H as [[_ H]|(x & _ & H)]; [auto|].
    right. left. apply in_map_iff. exists (x, a). auto.
  Qed.

  Definition lc (i : nat) : nat := match nth_error trace i with Some a => log_cost a | None => 0 end.
  Inductive walk : node -> nat -> list bool -> node -> nat -> nat -> Prop :=
  | w_nil n i : walk n i [] n i 0
  | w_sync n i a ss n' j c : nth_error trace i = Some a -> out n a -> walk (NAct a) (S i) ss n' j c -> walk n i (true :: ss) n' j c
  | w_log n i a ss n' j c : nth_error trace i = Some a -> walk n (S i) ss n' j c -> walk n i (false :: ss) n' j (lc i + c)
  | w_model n i a ss n' j c : out n a -> walk (NAct a) i ss n' j c -> walk n i ss n' j (K + c)
  | w_fin n i ss n' j c : fin n -> walk NEnd i ss n' j c -> walk n i ss n' j c.

  Lemma walk_len n i ss n' j c : walk n i ss n' j c -> j = i + length ss.
  Proof. induction 1; cbn in *; lia. Qed.
  Lemma walk_le n i ss n' j c : walk n i ss n' j c -> i <= N -> j <= N.
  Proof.
    induction 1 as [|n i a ss n' j c E|n i a ss n' j c E| |]; intros Hi; auto;
      apply IHwalk; assert (i < N) by (apply nth_error_Some; congruence); lia.
  Qed.
  Lemma walk_app n i ss m j c : walk n i ss m j c -> forall ss2 n' k c2, walk m j ss2 n' k c2 -> walk n i (ss ++ ss2) n' k (c + c2).
  Proof.
    induction 1 as [n i|n i a ss m j c E Ho H IH|n i a ss m j c E H IH|n i a ss m j c Ho H IH|n i ss m j c Hf H IH]; intros ss2 n' k c2 H2.
    - exact H2.
    - cbn [app]. econstructor; eauto.
    - cbn [app]. rewrite <- Nat.add_assoc. econstructor; eauto.
    - rewrite <- Nat.add_assoc. econstructor; eauto.
    - apply w_fin; auto.
  Qed.
  Lemma walk_split n i ss n' j c : walk n i ss n' j c -> forall ss1 ss2, ss = ss1 ++ ss2 ->
    exists m c1 c2, walk n i ss1 m (i + length ss1) c1 /\ walk m (i + length ss1) ss2 n' j c2 /\ c = c1 + c2.
  Proof.
    induction 1 as [n i|n i a ss n' j c E Ho H IH|n i a ss n' j c E H IH|n i a ss n' j c Ho H IH|n i ss n' j c Hf H IH]; intros ss1 ss2 Es.
    - symmetry in Es. apply app_eq_nil in Es as [-> ->]. cbn. rewrite Nat.add_0_r. exists n, 0, 0. repeat split; constructor.
    - destruct ss1 as [|b ss1]; cbn [app] in Es.
      + subst ss2. cbn. rewrite Nat.add_0_r. exists n, 0, c. split; [constructor|]. split; [econstructor; eauto|lia].
      + injection Es as <- Es. destruct (IH ss1 ss2 Es) as (m & c1 & c2 & W1 & W2 & ->). exists m, c1, c2.
        cbn [length]. rewrite Nat.add_succ_r. split; [econstructor; eauto|]. split; [exact W2|reflexivity].
    - destruct ss1 as [|b ss1]; cbn [app] in Es.
      + subst ss2. cbn. rewrite Nat.add_0_r. exists n, 0, (lc i + c). split; [constructor|]. split; [econstructor; eauto|lia].
      + injection Es as <- Es. destruct (IH ss1 ss2 Es) as (m & c1 & c2 & W1 & W2 & ->). exists m, (lc i + c1), c2.
        cbn [length]. rewrite Nat.add_succ_r. split; [econstructor; eauto|]. split; [exact W2|lia].
    - destruct (IH ss1 ss2 Es) as (m & c1 & c2 & W1 & W2 & ->). exists m, (K + c1), c2. split; [econstructor; eauto|]. split; [exact W2|lia].
    - destruct (IH ss1 ss2 Es) as (m & c1 & c2 & W1 & W2 & ->). exists m, c1, c2. split; [apply w_fin; auto|]. split; [exact W2|lia].
  Qed.
  Lemma walk_log_first n i ss n' j c : walk n i (false :: ss) n' j c ->
    exists a c', nth_error trace i = Some a /\ walk n (S i) ss n' j c' /\ c = lc i + c'.
  Proof.
    remember (false :: ss) as s0 eqn:Es. intros H. revert ss Es.
    induction H as [n i|n i a ss n' j c E Ho H IH|n i a ss n' j c E H IH|n i a ss n' j c Ho H IH|n i ss n' j c Hf H IH]; intros s1 Es; try discriminate.
    - injection Es as ->. exists a, c. auto.
    - destruct (IH s1 Es) as (b & c' & E & W & ->). exists b, (K + c'). split; [exact E|]. split; [econstructor; eauto|lia].
    - destruct (IH s1 Es) as (b & c' & E & W & ->). exists b, c'. split; [exact E|]. split; [apply w_fin; auto|lia].
  Qed.
  Lemma walk_sync_first n i ss n' j c : walk n i (true :: ss) n' j c ->
    exists a c', nth_error trace i = Some a /\ (exists m, out m a) /\ walk (NAct a) (S i) ss n' j c' /\ c' <= c.
  Proof.
    remember (true :: ss) as s0 eqn:Es. intros H. revert ss Es.
    induction H as [n i|n i a ss n' j c E Ho H IH|n i a ss n' j c E H IH|n i a ss n' j c Ho H IH|n i ss n' j c Hf H IH]; intros s1 Es; try discriminate.
    - injection Es as ->. exists a, c. split; [exact E|]. split; [eauto|]. split; [exact H|lia].
    - destruct (IH s1 Es) as (b & c' & E & Hm & W & Hle). exists b, c'. split; [exact E|]. split; [exact Hm|]. split; [exact W|lia].
    - apply IH, Es.
  Qed.
  (** a synchronous move in the middle *)
  Lemma walk_at_sync n i ss n' j c : walk n i ss n' j c -> forall ss1 ss2, ss = ss1 ++ true :: ss2 ->
    exists a c1 c2, nth_error trace (i + length ss1) = Some a /\
      walk n i (ss1 ++ [true]) (NAct a) (S (i + length ss1)) c1 /\ walk (NAct a) (S (i + length ss1)) ss2 n' j c2 /\ c = c1 + c2.
  Proof.
    induction 1 as [n i|n i a ss n' j c E Ho H IH|n i a ss n' j c E H IH|n i a ss n' j c Ho H IH|n i ss n' j c Hf H IH]; intros ss1 ss2 Es.
    - destruct ss1; discriminate.
    - destruct ss1 as [|b ss1]; cbn [app] in Es.
      + injection Es as ->. cbn. rewrite Nat.add_0_r. exists a, 0, c. split; [exact E|]. split; [econstructor; eauto; constructor|]. split; [exact H|lia].
      + injection Es as <- Es. destruct (IH ss1 ss2 Es) as (m & c1 & c2 & W0 & W1 & W2 & ->). exists m, c1, c2.
        cbn [length app]. rewrite Nat.add_succ_r. split; [exact W0|]. split; [econstructor; eauto|]. split; [exact W2|reflexivity].
    - destruct ss1 as [|b ss1]; cbn [app] in Es; [discriminate|].
      injection Es as <- Es. destruct (IH ss1 ss2 Es) as (m & c1 & c2 & W0 & W1 & W2 & ->). exists m, (lc i + c1), c2.
      cbn [length app]. rewrite Nat.add_succ_r. split; [exact W0|]. split; [econstructor; eauto|]. split; [exact W2|lia].
    - destruct (IH ss1 ss2 Es) as (m & c1 & c2 & W0 & W1 & W2 & ->). exists m, (K + c1), c2. split; [exact W0|]. split; [econstructor; eauto|]. split; [exact W2|lia].
    - destruct (IH ss1 ss2 Es) as (m & c1 & c2 & W0 & W1 & W2 & ->). exists m, c1, c2. split; [exact W0|]. split; [apply w_fin; auto|]. split; [exact W2|lia].
  Qed.

  (** cost of the letters passed without / with synchronisation *)
  Fixpoint lw (i : nat) (ss : list bool) : nat := match ss with [] => 0 | b :: r => (if b then 0 else lc i) + lw (S i) r end.
  Fixpoint tw (i : nat) (ss : list bool) : nat := match ss with [] => 0 | b :: r => (if b then lc i else 0) + tw (S i) r end.
  Lemma walk_pure n i ss n' j c : walk n i ss n' j c ->
    exists mc, c = mc + lw i ss /\ forall i0, walk n i0 [] n' i0 (mc + tw i ss).
  Proof.
    induction 1 as [n i|n i a ss n' j c E Ho H IH|n i a ss n' j c E H IH|n i a ss n' j c Ho H IH|n i ss n' j c Hf H IH].
    - exists 0. split; [reflexivity|]. intros i0. constructor.
    - destruct IH as (mc & -> & HP). exists mc. split; [reflexivity|]. intros i0. cbn [tw].
      assert (EK : lc i = K). { unfold lc. rewrite E. unfold Model_DfgAlign.log_cost. rewrite (out_model n a Ho). reflexivity. }
      rewrite EK. replace (mc + (K + tw (S i) ss)) with (K + (mc + tw (S i) ss)) by lia. econstructor; eauto.
    - destruct IH as (mc & -> & HP). exists mc. split; [cbn; lia|]. exact HP.
    - destruct IH as (mc & -> & HP). exists (K + mc). split; [lia|]. intros i0. rewrite <- Nat.add_assoc. econstructor; eauto.
    - destruct IH as (mc & -> & HP). exists mc. split; [lia|]. intros i0. apply w_fin; auto.
  Qed.
  Lemma disjoint_weights : forall ssA ssB i, length ssA = length ssB ->
    (forall k, nth_error ssA k = Some true -> nth_error ssB k = Some true -> False) ->
    tw i ssA <= lw i ssB /\ tw i ssB <= lw i ssA.
  Proof.
    induction ssA as [|a ssA IH]; intros [|b ssB] i Hl Hd; try discriminate; [cbn; lia|].
    cbn in Hl. injection Hl as Hl.
    destruct (IH ssB (S i) Hl (fun k => Hd (S k))) as [H1 H2]. cbn [tw lw].
    destruct a, b; try lia. exfalso. exact (Hd 0 eq_refl eq_refl).
  Qed.
  Lemma shared_or_disjoint : forall ssA ssB : list bool, length ssA = length ssB ->
    (exists k, nth_error ssA k = Some true /\ nth_error ssB k = Some true) \/
    (forall k, nth_error ssA k = Some true -> nth_error ssB k = Some true -> False).
  Proof.
    induction ssA as [|a ssA IH]; intros [|b ssB] Hl; try discriminate.
    - right. intros [|k]; discriminate.
    - cbn in Hl. injection Hl as Hl. destruct (IH ssB Hl) as [[k [H1 H2]]|Hd]; [left; exists (S k); auto|].
      destruct a, b; [left; exists 0; auto|right|right|right]; intros [|k] H1 H2; cbn in *; try discriminate; eauto.
  Qed.

  (** The crossing argument. *)
  Lemma crossing OPT n i j ssB g' ssA cA g :
    (forall ss c, walk NStart 0 ss NEnd N c -> OPT <= c) ->
    walk NStart 0 ssB n j g' -> walk n i ssA NEnd N cA ->
    i <= j -> j <= N -> g' <= g -> g + cA <= OPT ->
    (exists ss c, walk n j ss NEnd N c /\ g' + c <= OPT) \/
    (exists k a c2 ss2, i <= k < j /\ nth_error ssB k = Some true /\ nth_error trace k = Some a /\
       walk (NAct a) (S k) ss2 NEnd N c2 /\ c2 <= cA).
  Proof.
    intros HO WB WA Hij HjN Hg HA.
    pose proof (walk_len _ _ _ _ _ _ WB) as LB. pose proof (walk_len _ _ _ _ _ _ WA) as LA. cbn in LB.
    set (ssB1 := firstn i ssB). set (ssB2 := skipn i ssB). assert (EB : ssB = ssB1 ++ ssB2) by (symmetry; apply firstn_skipn).
    set (ssA1 := firstn (j - i) ssA). set (ssA2 := skipn (j - i) ssA). assert (EA : ssA = ssA1 ++ ssA2) by (symmetry; apply firstn_skipn).
    assert (LB1 : length ssB1 = i) by (unfold ssB1; rewrite firstn_length; lia).
    assert (LB2 : length ssB2 = j - i) by (unfold ssB2; rewrite skipn_length; lia).
    assert (LA1 : length ssA1 = j - i) by (unfold ssA1; rewrite firstn_length; lia).
    destruct (shared_or_disjoint ssA1 ssB2 ltac:(lia)) as [(k & Ha & Hb)|Hd].
    - right. assert (Hk : k < j - i) by (rewrite <- LA1; apply nth_error_Some; congruence).
      assert (Ha' : nth_error ssA k = Some true) by (rewrite EA, nth_error_app1 by lia; exact Ha).
      apply nth_error_split in Ha' as (sA1 & sA2 & EsA & LsA).
      destruct (walk_at_sync _ _ _ _ _ _ WA sA1 sA2 EsA) as (a & c1 & c2 & Ea & _ & W2 & Ec). rewrite LsA in *.
      exists (i + k), a, c2, sA2. split; [lia|]. split.
      { rewrite EB, nth_error_app2 by lia. rewrite LB1. replace (i + k - i) with k by lia. exact Hb. }
      split; [exact Ea|]. split; [exact W2|lia].
    - left. destruct (disjoint_weights ssA1 ssB2 i ltac:(lia) Hd) as [D1 D2].
      destruct (walk_split _ _ _ _ _ _ WB ssB1 ssB2 EB) as (m & b1 & b2 & WB1 & WB2 & Eb). rewrite LB1 in *. cbn [Nat.add] in *.
      destruct (walk_pure _ _ _ _ _ _ WB2) as (mB & EmB & PB).
      destruct (walk_split _ _ _ _ _ _ WA ssA1 ssA2 EA) as (n2 & a1 & a2 & WA1 & WA2 & Ea). rewrite LA1 in *. replace (i + (j - i)) with j in * by lia.
      destruct (walk_pure _ _ _ _ _ _ WA1) as (mA & EmA & PA).
      pose proof (HO _ _ (walk_app _ _ _ _ _ _ WB1 _ _ _ _ (walk_app _ _ _ _ _ _ (PB i) _ _ _ _ WA))) as HO1.
      exists ([] ++ ssA2), (mA + tw i ssA1 + a2). split; [exact (walk_app _ _ _ _ _ _ (PA j) _ _ _ _ WA2)|]. lia.
  Qed.
End W.
