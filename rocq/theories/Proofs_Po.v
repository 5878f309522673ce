(** Blocks: the partial order construction.  The connector places of the construction are given as a list of
    (place, source, target); no source: produced in front of the block, no target: consumed behind it. *)
From Coq Require Import List Arith Lia Bool ZArith Permutation Relation_Operators.
Import ListNotations.
From Verif Require Import Model_Petri Model_Tree Spec_Tree Proofs_Shuffle Proofs_Block Proofs_Block2 Proofs_Block3 Proofs_Block4.

Definition proj (k : nat) (tw : list (nat * nat)) : list nat := map snd (filter (fun x => Nat.eqb (fst x) k) tw).
Lemma proj_app k u v : proj k (u ++ v) = proj k u ++ proj k v.
Proof. unfold proj. rewrite filter_app, map_app. auto. Qed.
Lemma proj_tag k u : proj k (map (pair k) u) = u.
Proof. unfold proj. induction u as [|a u IH]; cbn; [auto|]. rewrite Nat.eqb_refl. cbn. rewrite IH. auto. Qed.
Lemma proj_other k j u : j <> k -> proj j (map (pair k) u) = [].
Proof. intros H. unfold proj. induction u as [|a u IH]; cbn; [auto|]. destruct (Nat.eqb_spec k j); [congruence|auto]. Qed.
Lemma snd_tag (k : nat) (u : list nat) : map snd (map (pair k) u) = u.
Proof. rewrite map_map. apply map_id. Qed.
Lemma in_proj x tw : In x tw -> proj (fst x) tw <> [].
Proof.
  intros H E. assert (Hin : In (snd x) (proj (fst x) tw)) by (apply in_map, filter_In; split; [auto|apply Nat.eqb_refl]). rewrite E in Hin. destruct Hin.
Qed.
Lemma fop_app {X} (R : X -> X -> Prop) l k : ForallOrdPairs R l -> ForallOrdPairs R k -> (forall x y, In x l -> In y k -> R x y) -> ForallOrdPairs R (l ++ k).
Proof.
  induction 1 as [|x l Hx Hl IH]; intros Hk H; [auto|]. cbn. constructor.
  - rewrite Forall_forall in *. intros y Hy. apply in_app_or in Hy as [Hy|Hy]; [auto|]. apply H; [left; auto|auto].
  - apply IH; auto. intros; apply H; [right|]; auto.
Qed.
Lemma exists_min (f : nat -> nat) l : l <> [] -> exists x, In x l /\ forall y, In y l -> f x <= f y.
Proof.
  induction l as [|a l IH]; intros H; [congruence|]. destruct l as [|b l].
  - exists a. split; [left; auto|]. intros y [<-|[]]. auto.
  - destruct IH as (x & Hx & Hm); [discriminate|]. destruct (le_lt_dec (f a) (f x)).
    + exists a. split; [left; auto|]. intros y [<-|Hy]; [auto|]. specialize (Hm y Hy). lia.
    + exists x. split; [right; auto|]. intros y [<-|Hy]; [lia|auto].
Qed.

Section Po.
Variable Q : Prop.
Notation block := (block Q).
Variables (n : nat) (B : nat -> list tr) (S : nat -> nat -> Prop) (L : nat -> list nat -> Prop) (sta en : nat -> nat) (ti tf : nat -> tr).
Variable C : list (nat * option nat * option nat).
Variable lt : nat -> nat -> bool.
Variable rank : nat -> nat.

Definition pl (c : nat * option nat * option nat) : nat := fst (fst c).
Definition sr (c : nat * option nat * option nat) : option nat := snd (fst c).
Definition ds (c : nat * option nat * option nat) : option nat := snd c.
Definition is_ (o : option nat) (k : option nat) : bool :=
  match o, k with None, None => true | Some a, Some b => Nat.eqb a b | _, _ => false end.
Lemma is_iff o k : is_ o k = true <-> o = k.
Proof. destruct o, k; cbn; rewrite ?Nat.eqb_eq; split; congruence. Qed.
Definition from (s : option nat) : list nat := map pl (filter (fun c => is_ (sr c) s) C).
Definition into (d : option nat) : list nat := map pl (filter (fun c => is_ (ds c) d) C).
Definition powns (k p : nat) : Prop := p = sta k \/ p = en k \/ S k p.

Hypothesis Hb : forall k, k < n -> block (B k) (S k) [sta k] [en k] (L k).
Hypothesis Hse : forall k, k < n -> sta k <> en k.
Hypothesis Hss : forall k, k < n -> ~ S k (sta k).
Hypothesis Hti : forall k, k < n -> vis (ti k) = [] /\ post (ti k) = [sta k] /\ forall p, cnt (pre (ti k)) p = cnt (into (Some k)) p.
Hypothesis Htf : forall k, k < n -> vis (tf k) = [] /\ pre (tf k) = [en k] /\ forall p, cnt (post (tf k)) p = cnt (from (Some k)) p.
Hypothesis Hown : forall j k p, j < n -> k < n -> powns j p -> powns k p -> j = k.
Hypothesis HC : NoDup (map pl C).
Hypothesis HCown : forall c k, In c C -> k < n -> ~ powns k (pl c).
Hypothesis HCs : forall c i, In c C -> sr c = Some i -> i < n.
Hypothesis HCd : forall c j, In c C -> ds c = Some j -> j < n.
Hypothesis Hin : forall k, k < n -> exists c, In c C /\ ds c = Some k.
Hypothesis Hout : forall k, k < n -> exists c, In c C /\ sr c = Some k.
Definition edge (i j : nat) : Prop := exists c, In c C /\ sr c = Some i /\ ds c = Some j.
Hypothesis Hlt1 : forall i j, edge i j -> lt i j = true.
Hypothesis Hlt2 : forall i j k, lt i j = true -> lt j k = true -> lt i k = true.
Hypothesis Hlt3 : forall i j, lt i j = true -> clos_trans nat edge i j.
Hypothesis Hrank : forall i j, lt i j = true -> rank i < rank j.

Inductive ph := Idle | Run (m : mk) | Done.
Definition done (s : nat -> ph) (o : option nat) : bool := match o with None => true | Some k => match s k with Done => true | _ => false end end.
Definition idle (s : nat -> ph) (o : option nat) : bool := match o with None => true | Some k => match s k with Idle => true | _ => false end end.
Definition active (s : nat -> ph) c : bool := done s (sr c) && idle s (ds c).
Definition inside (x : ph) (p : nat) : nat := match x with Run m => m p | _ => 0 end.
Definition upd (s : nat -> ph) (k : nat) (x : ph) : nat -> ph := fun j => if Nat.eqb j k then x else s j.
Lemma upd_same s k x : upd s k x k = x. Proof. unfold upd. rewrite Nat.eqb_refl. auto. Qed.
Lemma upd_other s k x j : j <> k -> upd s k x j = s j. Proof. unfold upd. destruct (Nat.eqb_spec j k); congruence. Qed.

Record M (s : nat -> ph) (m : mk) : Prop := {
  m_own : forall k p, k < n -> powns k p -> m p = inside (s k) p;
  m_con : forall c, In c C -> m (pl c) = if active s c then 1 else 0;
  m_out : forall p, (forall k, k < n -> ~ powns k p) -> ~ In p (map pl C) -> m p = 0 }.
Definition O (s : nat -> ph) : Prop := forall i j, edge i j -> s j <> Idle -> s i = Done.
Record W (s : nat -> ph) (tw : list (nat * nat)) : Prop := {
  w_ph : forall k, k < n -> match s k with Idle => proj k tw = [] | Run m => runs (B k) (cnt [sta k]) (proj k tw) m | Done => L k (proj k tw) end;
  w_tag : forall x, In x tw -> fst x < n;
  w_ord : ForallOrdPairs (fun x y => lt (fst y) (fst x) = false) tw }.

Lemma pl_inj c d : In c C -> In d C -> pl c = pl d -> c = d.
Proof.
  clear - HC. induction C as [|x l IH]; intros Hc Hd E; [destruct Hc|]. cbn in HC. inversion HC as [|? ? Hx Hl]; subst.
  destruct Hc as [->|Hc], Hd as [->|Hd]; auto.
  - exfalso. apply Hx. rewrite E. apply in_map; auto.
  - exfalso. apply Hx. rewrite <- E. apply in_map; auto.
Qed.
Lemma cnt_sel f c : In c C -> cnt (map pl (filter f C)) (pl c) = if f c then 1 else 0.
Proof.
  intros Hc. destruct (f c) eqn:E.
  - assert (H1 : 1 <= cnt (map pl (filter f C)) (pl c)) by (apply cnt_in, in_map, filter_In; auto).
    assert (H2 : cnt (map pl (filter f C)) (pl c) <= 1).
    { apply nodup_cnt. clear - HC. induction C as [|x l IH]; cbn; [constructor|]. cbn in HC. inversion HC; subst. destruct (f x); cbn; auto.
      constructor; auto. intros H. apply in_map_iff in H as (y & E & Hy). apply filter_In in Hy as [Hy _]. apply H1. rewrite <- E. apply in_map; auto. }
    lia.
  - apply cnt_notin. intros H. apply in_map_iff in H as (d & Ed & Hd). apply filter_In in Hd as [Hd Hf]. apply pl_inj in Ed; auto. congruence.
Qed.
Lemma cnt_sel0 f p : ~ In p (map pl C) -> cnt (map pl (filter f C)) p = 0.
Proof. intros H. apply cnt_notin. intros Hp. apply H. apply in_map_iff in Hp as (c & <- & Hc). apply filter_In in Hc as [Hc _]. apply in_map; auto. Qed.
Lemma own_con k p : k < n -> powns k p -> ~ In p (map pl C).
Proof. intros Hk Ho H. apply in_map_iff in H as (c & <- & Hc). eapply HCown; eauto. Qed.

Lemma M_ext s m m' : (forall p, m p = m' p) -> M s m -> M s m'.
Proof. intros E [H1 H2 H3]. constructor; intros; rewrite <- E; auto. Qed.
Lemma O_lt s i j : O s -> lt i j = true -> s j <> Idle -> s i = Done.
Proof.
  intros HO H. apply Hlt3 in H. induction H as [i j H|i j k H1 IH1 H2 IH2]; intros Hj; [eapply HO; eauto|].
  apply IH1. rewrite IH2 by auto. discriminate.
Qed.
Lemma rank_irr k : lt k k = false.
Proof. destruct (lt k k) eqn:E; auto. apply Hrank in E. lia. Qed.
Lemma edge_lt i j : edge i j -> i < n /\ j < n /\ i <> j.
Proof. intros He. pose proof (Hrank _ _ (Hlt1 _ _ He)) as Hr. destruct He as (c & Hc & H1 & H2). split; [eauto|]. split; [eauto|]. intros ->. lia. Qed.

(** ** the three moves *)
Lemma move_start s m k : M s m -> O s -> k < n -> s k = Idle -> (forall i, edge i k -> s i = Done) ->
  (forall p, cnt (pre (ti k)) p <= m p) /\
  (forall m', fire (ti k) m m' -> M (upd s k (Run (cnt [sta k]))) m') /\ O (upd s k (Run (cnt [sta k]))).
Proof.
  intros [M1 M2 M3] HO Hk Hi Hp. destruct (Hti k Hk) as (_ & T2 & T3).
  assert (Hac : forall c, In c C -> ds c = Some k -> active s c = true).
  { intros c Hc E. unfold active. rewrite E. cbn. rewrite Hi, andb_true_r. destruct (sr c) as [i|] eqn:Es; cbn; [|auto]. rewrite (Hp i); auto. exists c. auto. }
  assert (Hc1 : forall c, In c C -> cnt (into (Some k)) (pl c) = if is_ (ds c) (Some k) then 1 else 0) by (intros c Hc; apply (cnt_sel (fun c => is_ (ds c) (Some k)) c Hc)).
  split; [|split].
  - intros p. rewrite T3. destruct (in_dec Nat.eq_dec p (map pl C)) as [Hp1|Hp1]; [|unfold into; rewrite cnt_sel0; [lia|auto]].
    apply in_map_iff in Hp1 as (c & <- & Hc). rewrite Hc1, M2 by auto. destruct (is_ (ds c) (Some k)) eqn:E; [|lia].
    apply is_iff in E. rewrite Hac; auto.
  - intros m' [Hf1 Hf2]. assert (Em : forall p, m' p = m p - cnt (into (Some k)) p + cnt [sta k] p).
    { intros p. specialize (Hf1 p). specialize (Hf2 p). rewrite T3 in Hf1, Hf2. rewrite T2 in Hf2. lia. }
    clear Hf1 Hf2. constructor.
    + intros j p Hj Ho. rewrite Em. rewrite (M1 j p Hj Ho). unfold into. rewrite cnt_sel0; [|eapply own_con; eauto].
      destruct (Nat.eq_dec j k) as [->|Hjk]; [rewrite upd_same, Hi; cbn; lia|]. rewrite upd_other by auto.
      cbn [cnt]. destruct (Nat.eqb_spec (sta k) p) as [<-|]; [|cbn; lia]. exfalso. apply Hjk. apply (Hown j k (sta k)); auto. unfold powns; auto.
    + intros c Hc. rewrite Em, M2, Hc1 by auto. assert (E0 : cnt [sta k] (pl c) = 0).
      { apply cnt_notin. intros [E|[]]. apply (HCown c k Hc Hk). rewrite <- E. unfold powns; auto. }
      rewrite E0. destruct (is_ (ds c) (Some k)) eqn:E.
      * apply is_iff in E. rewrite (Hac c Hc E). unfold active. rewrite E. cbn. rewrite upd_same, andb_false_r. auto.
      * assert (Ea : active (upd s k (Run (cnt [sta k]))) c = active s c).
        { unfold active. f_equal.
          - destruct (sr c) as [i|]; cbn; [|auto]. destruct (Nat.eq_dec i k) as [->|H]; [rewrite upd_same, Hi; auto|rewrite upd_other; auto].
          - destruct (ds c) as [i|] eqn:Ed; cbn; [|auto]. destruct (Nat.eq_dec i k) as [->|H]; [cbn in E; rewrite Nat.eqb_refl in E; discriminate|rewrite upd_other; auto]. }
        rewrite Ea. lia.
    + intros p H1 H2. rewrite Em, M3 by auto. assert (E0 : cnt [sta k] p = 0) by (apply cnt_notin; intros [E|[]]; apply (H1 k Hk); unfold powns; auto). lia.
  - intros i j He Hj. destruct (edge_lt _ _ He) as (_ & _ & Hij). destruct (Nat.eq_dec j k) as [->|Hjk].
    + rewrite upd_other by auto. auto.
    + rewrite upd_other in Hj by auto. destruct (Nat.eq_dec i k) as [->|Hik]; [rewrite (HO _ _ He Hj) in Hi; discriminate|rewrite upd_other by auto; eauto].
Qed.

Lemma move_step s m k n0 : M s m -> O s -> k < n -> s k = Run n0 ->
  forall t, In t (B k) -> ((forall p, cnt (pre t) p <= n0 p) <-> (forall p, cnt (pre t) p <= m p)) /\
  (forall m', fire t m m' -> fire t n0 (after t n0) /\ M (upd s k (Run (after t n0))) m') /\ O (upd s k (Run (after t n0))).
Proof.
  intros [M1 M2 M3] HO Hk Hs t Ht.
  assert (Ho1 : forall p, In p (pre t) -> powns k p).
  { intros p Hp. destruct (b_pre (Hb k Hk) _ Ht) as [_ H]. destruct (H p Hp) as [[<-|[]]|?]; unfold powns; auto. }
  assert (Ho2 : forall p, In p (post t) -> powns k p).
  { intros p Hp. destruct (b_post (Hb k Hk) _ Ht) as [_ H]. destruct (H p Hp) as [[<-|[]]|?]; unfold powns; auto. }
  assert (Hen : (forall p, cnt (pre t) p <= n0 p) <-> (forall p, cnt (pre t) p <= m p)).
  { split; intros H p; (destruct (Nat.eq_dec (cnt (pre t) p) 0) as [E|E]; [lia|]); assert (Hp : powns k p) by (apply Ho1, cnt_in; lia);
      specialize (M1 k p Hk Hp); rewrite Hs in M1; cbn in M1; specialize (H p); lia. }
  split; [exact Hen|]. split.
  - intros m' [Hf1 Hf2]. pose proof (proj2 Hen Hf1) as He. split; [apply fire_after; auto|].
    assert (Em : forall p, m' p = m p - cnt (pre t) p + cnt (post t) p) by (intros p; specialize (Hf1 p); specialize (Hf2 p); lia).
    constructor.
    + intros j p Hj Ho. rewrite Em, (M1 j p Hj Ho). destruct (Nat.eq_dec j k) as [->|Hjk]; [rewrite upd_same, Hs; cbn; reflexivity|].
      rewrite upd_other by auto. rewrite !cnt_notin; [lia| |]; intros H; apply Hjk; apply (Hown j k p); auto.
    + intros c Hc. rewrite Em, M2 by auto. rewrite !cnt_notin; [|intros H; eapply HCown; eauto|intros H; eapply HCown; eauto].
      assert (Ea : active (upd s k (Run (after t n0))) c = active s c); [|rewrite Ea; lia].
      unfold active. f_equal.
      * destruct (sr c) as [i|]; cbn; [|auto]. destruct (Nat.eq_dec i k) as [->|H]; [rewrite upd_same, Hs; auto|rewrite upd_other; auto].
      * destruct (ds c) as [i|] eqn:Ed; cbn; [|auto]. destruct (Nat.eq_dec i k) as [->|H]; [rewrite upd_same, Hs; auto|rewrite upd_other; auto].
    + intros p H1 H2. rewrite Em, M3 by auto. rewrite !cnt_notin; [lia| |]; intros H; eapply H1; eauto.
  - intros i j He Hj. destruct (edge_lt _ _ He) as (_ & _ & Hij).
    assert (Hj' : s j <> Idle) by (destruct (Nat.eq_dec j k) as [->|H]; [congruence|rewrite upd_other in Hj; auto]).
    pose proof (HO _ _ He Hj') as Hi. destruct (Nat.eq_dec i k) as [->|H]; [congruence|rewrite upd_other; auto].
Qed.

Lemma move_finish s m k n0 : M s m -> O s -> k < n -> s k = Run n0 -> (forall p, n0 p = cnt [en k] p) ->
  (forall p, cnt (pre (tf k)) p <= m p) /\ (forall m', fire (tf k) m m' -> M (upd s k Done) m') /\ O (upd s k Done).
Proof.
  intros [M1 M2 M3] HO Hk Hs He. destruct (Htf k Hk) as (_ & T2 & T3).
  assert (Ho : powns k (en k)) by (unfold powns; auto).
  assert (Hc1 : forall c, In c C -> cnt (from (Some k)) (pl c) = if is_ (sr c) (Some k) then 1 else 0) by (intros c Hc; apply (cnt_sel (fun c => is_ (sr c) (Some k)) c Hc)).
  split; [|split].
  - intros p. rewrite T2. apply cnt1_le. rewrite (M1 k _ Hk Ho), Hs. cbn [inside]. rewrite He, cnt1. auto.
  - intros m' [Hf1 Hf2]. assert (Em : forall p, m' p = m p - cnt [en k] p + cnt (from (Some k)) p).
    { intros p. specialize (Hf1 p). specialize (Hf2 p). rewrite T3 in Hf2. rewrite T2 in Hf1, Hf2. lia. }
    clear Hf1 Hf2. constructor.
    + intros j p Hj Hp. rewrite Em, (M1 j p Hj Hp). unfold from. rewrite cnt_sel0; [|eapply own_con; eauto].
      destruct (Nat.eq_dec j k) as [->|Hjk]; [rewrite upd_same, Hs; cbn [inside]; rewrite He; lia|]. rewrite upd_other by auto.
      rewrite (cnt_notin [en k]); [lia|]. intros [<-|[]]. apply Hjk. apply (Hown j k (en k)); auto.
    + intros c Hc. rewrite Em, M2, Hc1 by auto. rewrite (cnt_notin [en k]) by (intros [E|[]]; apply (HCown c k Hc Hk); rewrite <- E; auto).
      destruct (is_ (sr c) (Some k)) eqn:E.
      * apply is_iff in E. assert (E0 : active s c = false) by (unfold active; rewrite E; cbn; rewrite Hs; auto). rewrite E0.
        unfold active. rewrite E. cbn. rewrite upd_same. cbn. destruct (ds c) as [j|] eqn:Ed; cbn; [|auto].
        assert (Hej : edge k j) by (exists c; auto). destruct (edge_lt _ _ Hej) as (_ & _ & Hkj). rewrite upd_other by auto.
        destruct (s j) eqn:Ej; auto; assert (Hx : s k = Done) by (apply (HO _ _ Hej); rewrite Ej; discriminate); congruence.
      * assert (Ea : active (upd s k Done) c = active s c); [|rewrite Ea; lia].
        unfold active. f_equal.
        -- destruct (sr c) as [i|]; cbn; [|auto]. destruct (Nat.eq_dec i k) as [->|H]; [cbn in E; rewrite Nat.eqb_refl in E; discriminate|rewrite upd_other; auto].
        -- destruct (ds c) as [i|] eqn:Ed; cbn; [|auto]. destruct (Nat.eq_dec i k) as [->|H]; [rewrite upd_same, Hs; auto|rewrite upd_other; auto].
    + intros p H1 H2. rewrite Em, M3 by auto. unfold from. rewrite cnt_sel0 by auto.
      rewrite (cnt_notin [en k]); [lia|]. intros [E|[]]. apply (H1 k Hk). rewrite <- E. auto.
  - intros i j He' Hj. destruct (edge_lt _ _ He') as (_ & _ & Hij).
    assert (Hj' : s j <> Idle) by (destruct (Nat.eq_dec j k) as [->|H]; [congruence|rewrite upd_other in Hj; auto]).
    pose proof (HO _ _ He' Hj') as Hi. destruct (Nat.eq_dec i k) as [->|H]; [congruence|rewrite upd_other; auto].
Qed.

Definition RB : list tr := flat_map (fun k => ti k :: tf k :: B k) (seq 0 n).
Lemma RB_iff t : In t RB <-> exists k, k < n /\ (t = ti k \/ t = tf k \/ In t (B k)).
Proof.
  unfold RB. rewrite in_flat_map. split.
  - intros (k & Hk & Ht). apply in_seq in Hk. exists k. split; [lia|]. cbn in Ht. intuition.
  - intros (k & Hk & Ht). exists k. split; [apply in_seq; lia|]. cbn. intuition.
Qed.
Definition poL (w : list nat) : Prop := exists tw, map snd tw = w /\ (forall x, In x tw -> fst x < n) /\
  (forall k, k < n -> L k (proj k tw)) /\ ForallOrdPairs (fun x y => lt (fst y) (fst x) = false) tw.

Lemma W_add s k tw u x : W s tw -> O s -> k < n -> s k <> Done ->
  match x with Idle => proj k tw ++ u = [] | Run m => runs (B k) (cnt [sta k]) (proj k tw ++ u) m | Done => L k (proj k tw ++ u) end ->
  W (upd s k x) (tw ++ map (pair k) u).
Proof.
  intros [W1 W2 W3] HO Hk Hs Hx. constructor.
  - intros j Hj. rewrite proj_app. destruct (Nat.eq_dec j k) as [->|Hjk].
    + rewrite upd_same, proj_tag. exact Hx.
    + rewrite upd_other, proj_other, app_nil_r by auto. apply W1; auto.
  - intros y Hy. apply in_app_or in Hy as [Hy|Hy]; [auto|]. apply in_map_iff in Hy as (a & <- & _). auto.
  - apply fop_app; auto.
    + clear Hx. induction u as [|a u IH]; cbn; constructor; auto. apply Forall_forall. intros y Hy. apply in_map_iff in Hy as (b & <- & _). cbn. apply rank_irr.
    + intros y z Hy Hz. apply in_map_iff in Hz as (a & <- & _). cbn. destruct (lt k (fst y)) eqn:E; auto. exfalso. apply Hs.
      eapply O_lt; eauto. intros Ei. pose proof (W1 _ (W2 _ Hy)) as H. rewrite Ei in H. apply in_proj in Hy. auto.
Qed.
Definition Inv (m : mk) (w : list nat) : Prop := exists s tw, M s m /\ O s /\ W s tw /\ map snd tw = w.

Lemma Inv_init : exists s, M s (cnt (from None)) /\ O s /\ W s [] /\ forall k, s k = Idle.
Proof.
  exists (fun _ => Idle). split; [|split; [|split; [|auto]]].
  - constructor.
    + intros k p Hk Ho. unfold from. rewrite cnt_sel0; [auto|eapply own_con; eauto].
    + intros c Hc. unfold from. rewrite (cnt_sel _ c Hc). unfold active. destruct (sr c) as [i|], (ds c) as [j|]; cbn; auto.
    + intros p _ H. apply cnt_sel0; auto.
  - intros i j _ H. congruence.
  - constructor; [auto|intros ? []|constructor].
Qed.
Lemma Inv_runs m w : runs RB (cnt (from None)) w m -> Inv m w.
Proof.
  revert m w. apply runs_inv.
  - intros m m' w E (s & tw & H1 & H2 & H3 & H4). exists s, tw. split; [eapply M_ext; eauto|auto].
  - destruct Inv_init as (s & H1 & H2 & H3 & _). exists s, []. auto.
  - intros m w t m' (s & tw & HM & HO & HW & <-) Ht Hf. apply RB_iff in Ht as (k & Hk & Ht).
    pose proof (proj1 Hf) as He. destruct Ht as [->|[->|Ht]].
    + (* start *) destruct (Hti k Hk) as (V & T2 & T3).
      assert (Hac : forall c, In c C -> ds c = Some k -> active s c = true).
      { intros c Hc E. specialize (He (pl c)). rewrite T3 in He. unfold into in He. rewrite (cnt_sel _ c Hc), (m_con _ _ HM c Hc) in He.
        rewrite (proj2 (is_iff _ _) E) in He. destruct (active s c); [auto|lia]. }
      assert (Hi : s k = Idle).
      { destruct (Hin k Hk) as (c & Hc & E). specialize (Hac c Hc E). unfold active in Hac. rewrite E in Hac. cbn in Hac. destruct (s k); auto; rewrite andb_false_r in Hac; discriminate. }
      assert (Hp : forall i, edge i k -> s i = Done).
      { intros i (c & Hc & E1 & E2). specialize (Hac c Hc E2). unfold active in Hac. rewrite E1 in Hac. cbn in Hac. destruct (s i); auto; discriminate. }
      destruct (move_start s m k HM HO Hk Hi Hp) as (_ & H1 & H2). exists (upd s k (Run (cnt [sta k]))), (tw ++ map (pair k) []). split; [auto|]. split; [auto|]. split.
      * apply W_add; auto; [congruence|]. rewrite app_nil_r. pose proof (w_ph _ _ HW k Hk) as H. rewrite Hi in H. rewrite H. apply runs_refl.
      * rewrite V. cbn. rewrite !app_nil_r. auto.
    + (* finish *) destruct (Htf k Hk) as (V & T2 & T3).
      assert (H1 : 1 <= m (en k)) by (specialize (He (en k)); rewrite T2, cnt1 in He; auto).
      rewrite (m_own _ _ HM k (en k) Hk) in H1 by (unfold powns; auto). pose proof (w_ph _ _ HW k Hk) as HR.
      destruct (s k) as [|n0|] eqn:Es; cbn in H1; try lia.
      destruct (b_sound (Hb k Hk) _ _ HR) as [En HL]; [apply cnt1_le; auto|].
      destruct (move_finish s m k n0 HM HO Hk Es En) as (_ & H2 & H3). exists (upd s k Done), (tw ++ map (pair k) []). split; [auto|]. split; [auto|]. split.
      * apply W_add; auto; [congruence|]. rewrite app_nil_r. auto.
      * rewrite V. cbn. rewrite !app_nil_r. auto.
    + (* step *) destruct (enabled_place _ _ _ _ _ _ _ _ (Hb k Hk) Ht He) as (p & _ & Hp & Hq).
      assert (Ho : powns k p) by (unfold powns; destruct Hq as [[<-|[]]|?]; auto).
      rewrite (m_own _ _ HM k p Hk Ho) in Hp. destruct (s k) as [|n0|] eqn:Es; cbn in Hp; try lia.
      destruct (move_step s m k n0 HM HO Hk Es t Ht) as (_ & H2 & H3). destruct (H2 m' Hf) as [Hf0 HM'].
      exists (upd s k (Run (after t n0))), (tw ++ map (pair k) (vis t)). split; [auto|]. split; [auto|]. split.
      * apply W_add; auto; [congruence|]. pose proof (w_ph _ _ HW k Hk) as HR. rewrite Es in HR. eapply r_snoc; eauto.
      * rewrite map_app, snd_tag. auto.
Qed.

(** ** building runs *)
Lemma upd_upd s k x y : forall j, upd (upd s k x) k y j = upd s k y j.
Proof. intros j. unfold upd. destruct (Nat.eqb j k); auto. Qed.
Lemma M_st s s' m : (forall j, s j = s' j) -> M s m -> M s' m.
Proof.
  intros E [H1 H2 H3]. constructor; auto.
  - intros k p Hk Ho. rewrite <- E. auto.
  - intros c Hc. rewrite (H2 c Hc). unfold active. replace (done s' (sr c)) with (done s (sr c)) by (destruct (sr c); cbn; rewrite ?E; auto).
    replace (idle s' (ds c)) with (idle s (ds c)) by (destruct (ds c); cbn; rewrite ?E; auto). auto.
Qed.
Lemma O_st s s' : (forall j, s j = s' j) -> O s -> O s'.
Proof. intros E H i j He Hj. rewrite <- E in *. eauto. Qed.
Lemma W_st s s' tw : (forall j, s j = s' j) -> W s tw -> W s' tw.
Proof. intros E [H1 H2 H3]. constructor; auto. intros k Hk. rewrite <- E. exact (H1 k Hk). Qed.

Lemma do_start s m k : M s m -> O s -> k < n -> s k = Idle -> (forall i, edge i k -> s i = Done) ->
  exists m', runs RB m [] m' /\ M (upd s k (Run (cnt [sta k]))) m' /\ O (upd s k (Run (cnt [sta k]))).
Proof.
  intros HM HO Hk Hi Hp. destruct (move_start s m k HM HO Hk Hi Hp) as (H1 & H2 & H3). exists (after (ti k) m).
  pose proof (fire_after _ _ H1) as Hf. split; [|auto]. apply (silent_run RB (ti k)); auto; [apply RB_iff; eauto|apply Hti; auto].
Qed.
Lemma do_run s m k n0 u n1 : M s m -> O s -> k < n -> s k = Run n0 -> runs (B k) n0 u n1 ->
  exists m', runs RB m u m' /\ M (upd s k (Run n1)) m' /\ O (upd s k (Run n1)).
Proof.
  intros HM HO Hk Es Hr. revert Es. induction Hr as [n0 n0' E|n0 w n1 t n2 H IH Ht Hf]; intros Es.
  - exists m. split; [apply runs_refl|]. split.
    + destruct HM as [M1 M2 M3]. constructor; auto.
      * intros j p Hj Ho. destruct (Nat.eq_dec j k) as [->|Hjk]; [rewrite upd_same; cbn; rewrite (M1 k p Hk Ho), Es; cbn; auto|rewrite upd_other; auto].
      * intros c Hc. rewrite (M2 c Hc). assert (Ea : active (upd s k (Run n0')) c = active s c); [|rewrite Ea; auto]. unfold active. f_equal.
        -- destruct (sr c) as [i|]; cbn; [|auto]. destruct (Nat.eq_dec i k) as [->|H]; [rewrite upd_same, Es; auto|rewrite upd_other; auto].
        -- destruct (ds c) as [i|] eqn:Ed; cbn; [|auto]. destruct (Nat.eq_dec i k) as [->|H]; [rewrite upd_same, Es; auto|rewrite upd_other; auto].
    + intros i j He Hj. assert (Hj' : s j <> Idle) by (destruct (Nat.eq_dec j k) as [->|H]; [congruence|rewrite upd_other in Hj; auto]).
      pose proof (HO _ _ He Hj') as Hi. destruct (Nat.eq_dec i k) as [->|H]; [congruence|rewrite upd_other; auto].
  - destruct (IH Es) as (m1 & Hr1 & HM1 & HO1). destruct (move_step _ m1 k n1 HM1 HO1 Hk (upd_same _ _ _) t Ht) as (H1 & H2 & H3).
    pose proof (proj1 H1 (proj1 Hf)) as He. pose proof (fire_after _ _ He) as Hf'. destruct (H2 _ Hf') as [_ HM2].
    assert (Eu : forall p, after t n1 p = n2 p) by (intros p; unfold after; destruct Hf as [Ha Hb']; specialize (Ha p); specialize (Hb' p); lia).
    exists (after t m1). split; [eapply r_snoc; eauto; apply RB_iff; exists k; auto|]. split.
    + apply (M_st _ _ _ (upd_upd s k (Run n1) (Run (after t n1)))) in HM2. destruct HM2 as [M1 M2 M3]. constructor; auto.
      * intros j p Hj Ho. rewrite (M1 j p Hj Ho). destruct (Nat.eq_dec j k) as [->|Hjk]; [rewrite !upd_same; cbn; auto|rewrite !upd_other; auto].
      * intros c Hc. rewrite (M2 c Hc). assert (Ea : active (upd s k (Run (after t n1))) c = active (upd s k (Run n2)) c); [|rewrite Ea; auto]. unfold active. f_equal.
        -- destruct (sr c) as [i|]; cbn; [|auto]. destruct (Nat.eq_dec i k) as [->|H0]; [rewrite !upd_same; auto|rewrite !upd_other; auto].
        -- destruct (ds c) as [i|] eqn:Ed; cbn; [|auto]. destruct (Nat.eq_dec i k) as [->|H0]; [rewrite !upd_same; auto|rewrite !upd_other; auto].
    + intros i j Hej Hj. apply (O_st _ _ (upd_upd s k (Run n1) (Run (after t n1)))) in H3. specialize (H3 i j Hej).
      assert (Hj' : upd s k (Run (after t n1)) j <> Idle) by (destruct (Nat.eq_dec j k) as [->|H0]; [rewrite upd_same; discriminate|rewrite upd_other in Hj by auto; rewrite upd_other by auto; auto]).
      specialize (H3 Hj'). destruct (Nat.eq_dec i k) as [->|H0]; [rewrite upd_same in H3; discriminate|rewrite upd_other in H3 by auto; rewrite upd_other by auto; auto].
Qed.
Lemma do_finish s m k : M s m -> O s -> k < n -> s k = Run (cnt [en k]) ->
  exists m', runs RB m [] m' /\ M (upd s k Done) m' /\ O (upd s k Done).
Proof.
  intros HM HO Hk Hi. destruct (move_finish s m k _ HM HO Hk Hi ltac:(auto)) as (H1 & H2 & H3). exists (after (tf k) m).
  pose proof (fire_after _ _ H1) as Hf. split; [|auto]. apply (silent_run RB (tf k)); auto; [apply RB_iff; eauto|apply Htf; auto].
Qed.
(** complete child [k] with the word [u] *)
Lemma do_child s m k u : M s m -> O s -> k < n -> (forall i, edge i k -> s i = Done) ->
  match s k with Idle => L k u | Run n0 => runs (B k) n0 u (cnt [en k]) | Done => False end ->
  exists m', runs RB m u m' /\ M (upd s k Done) m' /\ O (upd s k Done).
Proof.
  intros HM HO Hk Hp Hu.
  assert (G : forall s m n0, M s m -> O s -> s k = Run n0 -> runs (B k) n0 u (cnt [en k]) -> exists m', runs RB m u m' /\ M (upd s k Done) m' /\ O (upd s k Done)).
  { clear s m HM HO Hp Hu. intros s m n0 HM HO Es Hr. destruct (do_run s m k n0 u _ HM HO Hk Es Hr) as (m1 & R1 & M1 & O1).
    destruct (do_finish _ m1 k M1 O1 Hk (upd_same _ _ _)) as (m2 & R2 & M2 & O2). exists m2. split; [rewrite <- (app_nil_r u); eapply runs_app; eauto|].
    split; [eapply M_st; [apply upd_upd|eauto]|eapply O_st; [apply upd_upd|eauto]]. }
  destruct (s k) as [|n0|] eqn:Es; [|eauto|destruct Hu].
  destruct (do_start s m k HM HO Hk Es Hp) as (m1 & R1 & M1 & O1).
  destruct (G _ m1 _ M1 O1 (upd_same _ _ _)) as (m2 & R2 & M2 & O2); [apply (b_complete (Hb k Hk)); auto|].
  exists m2. split; [apply (runs_app _ _ [] m1 u); auto|]. split; [eapply M_st; [apply upd_upd|eauto]|eapply O_st; [apply upd_upd|eauto]].
Qed.

Definition left_ (D : nat -> bool) (s : nat -> ph) : list nat := filter (fun k => D k && negb (done s (Some k))) (seq 0 n).
Lemma left_in D s k : In k (left_ D s) <-> k < n /\ D k = true /\ s k <> Done.
Proof.
  unfold left_. rewrite filter_In, in_seq, andb_true_iff, negb_true_iff. cbn. split.
  - intros (H1 & H2 & H3). split; [lia|]. split; [auto|]. intros E. rewrite E in H3. discriminate.
  - intros (H1 & H2 & H3). split; [lia|]. split; [auto|]. destruct (s k); congruence.
Qed.
Lemma left_upd D s k : In k (left_ D s) -> length (left_ D (upd s k Done)) < length (left_ D s).
Proof.
  intros H. unfold left_ in *. apply filter_In in H as [H1 H2]. clear - H1 H2.
  assert (G : forall l, length (filter (fun j => D j && negb (done (upd s k Done) (Some j))) l) <= length (filter (fun j => D j && negb (done s (Some j))) l)).
  { cbn [done]. induction l as [|j l IH]; cbn; [auto|]. destruct (D j); cbn; [|auto]. destruct (Nat.eq_dec j k) as [->|H].
    - rewrite upd_same. cbn. destruct (s k); cbn; lia.
    - rewrite upd_other by auto. destruct (s j); cbn; lia. }
  cbn [done] in *. induction (seq 0 n) as [|j l IH]; cbn; [destruct H1|]. destruct H1 as [->|H1].
  - rewrite upd_same, H2, andb_false_r. cbn. specialize (G l). lia.
  - specialize (IH H1). destruct (Nat.eq_dec j k) as [->|H].
    + rewrite upd_same. cbn. rewrite andb_false_r. destruct (D k && _); cbn; lia.
    + rewrite upd_other by auto. destruct (D j && _); cbn; lia.
Qed.
(** one more child of a downward closed set can be completed *)
Lemma next_child D s : (forall i j, edge i j -> D j = true -> D i = true) -> left_ D s <> [] ->
  exists k, In k (left_ D s) /\ forall i, edge i k -> s i = Done.
Proof.
  intros HD Hl. destruct (exists_min rank _ Hl) as (k & Hk & Hm). exists k. split; auto. intros i He.
  apply left_in in Hk as (Hk & HDk & _). destruct (edge_lt _ _ He) as (Hi & _).
  destruct (s i) eqn:Es; auto; exfalso; assert (Hil : In i (left_ D s)) by (apply left_in; repeat split; eauto; congruence);
    specialize (Hm i Hil); pose proof (Hrank _ _ (Hlt1 _ _ He)); lia.
Qed.

(** complete the children of a downward closed set in some way *)
Lemma advance D : (forall i j, edge i j -> D j = true -> D i = true) -> forall c s tw m, length (left_ D s) <= c -> M s m -> O s -> W s tw ->
  exists s' tw' m' u, runs RB m u m' /\ M s' m' /\ O s' /\ W s' tw' /\ map snd tw' = map snd tw ++ u /\
    (forall k, k < n -> D k = true -> s' k = Done) /\ (forall k, D k = false -> s' k = s k).
Proof.
  intros HD. induction c as [|c IH]; intros s tw m Hc HM HO HW.
  - exists s, tw, m, []. split; [apply runs_refl|]. do 3 (split; [assumption|]). split; [rewrite app_nil_r; auto|]. split; [|auto].
    intros k Hk HDk. destruct (s k) eqn:Es; auto; exfalso; assert (Hin' : In k (left_ D s)) by (apply left_in; repeat split; auto; congruence);
      destruct (left_ D s); [destruct Hin'|cbn in Hc; lia| destruct Hin' | cbn in Hc; lia].
  - destruct (left_ D s) as [|k0 l0] eqn:El.
    + apply (IH s tw m); auto. rewrite El. cbn. lia.
    + destruct (next_child D s HD) as (k & Hk & Hp); [rewrite El; discriminate|]. pose proof (left_upd _ _ _ Hk) as Hlen. rewrite El in Hlen.
      apply left_in in Hk as (Hk & HDk & Hsk). pose proof (w_ph _ _ HW k Hk) as HR.
      assert (Hu : exists u, match s k with Idle => L k u | Run n0 => runs (B k) n0 u (cnt [en k]) | Done => False end /\ L k (proj k tw ++ u)).
      { destruct (s k) as [|n0|] eqn:Es; [|apply (b_opt (Hb k Hk) _ _ HR)|congruence].
        destruct (b_inh _ _ _ _ _ _ (Hb k Hk)) as (u & Hu). exists u. rewrite HR. auto. }
      destruct Hu as (u & Hu & HL). destruct (do_child s m k u HM HO Hk Hp Hu) as (m1 & R1 & M1 & O1).
      assert (W1 : W (upd s k Done) (tw ++ map (pair k) u)) by (apply W_add; auto).
      destruct (IH (upd s k Done) (tw ++ map (pair k) u) m1) as (s' & tw' & m' & v & R2 & M2 & O2 & W2 & E2 & D2 & F2); auto; [cbn in *; lia|].
      exists s', tw', m', (u ++ v). split; [eapply runs_app; eauto|]. do 3 (split; [assumption|]). split; [rewrite E2, map_app, snd_tag, app_assoc; auto|].
      split; auto. intros j Hj. rewrite F2 by auto. apply upd_other. congruence.
Qed.

(** the words still to be spelled *)
Definition R (s : nat -> ph) (rest : list (nat * nat)) : Prop := forall k, k < n ->
  match s k with Idle => L k (proj k rest) | Run n0 => runs (B k) n0 (proj k rest) (cnt [en k]) | Done => proj k rest = [] end.
Lemma drain D rest : (forall i j, edge i j -> D j = true -> D i = true) -> (forall k, D k = true -> proj k rest = []) ->
  forall c s m, length (left_ D s) <= c -> M s m -> O s -> R s rest ->
  exists s' m', runs RB m [] m' /\ M s' m' /\ O s' /\ R s' rest /\
    (forall k, k < n -> D k = true -> s' k = Done) /\ (forall k, D k = false -> s' k = s k).
Proof.
  intros HD HDr. induction c as [|c IH]; intros s m Hc HM HO HR.
  - exists s, m. split; [apply runs_refl|]. do 3 (split; [assumption|]). split; [|auto].
    intros k Hk HDk. destruct (s k) eqn:Es; auto; exfalso; assert (Hin' : In k (left_ D s)) by (apply left_in; repeat split; auto; congruence);
      destruct (left_ D s); [destruct Hin'|cbn in Hc; lia| destruct Hin' | cbn in Hc; lia].
  - destruct (left_ D s) as [|k0 l0] eqn:El.
    + apply (IH s m); auto. rewrite El. cbn. lia.
    + destruct (next_child D s HD) as (k & Hk & Hp); [rewrite El; discriminate|]. pose proof (left_upd _ _ _ Hk) as Hlen. rewrite El in Hlen.
      apply left_in in Hk as (Hk & HDk & Hsk). pose proof (HR k Hk) as HRk.
      assert (Hu : match s k with Idle => L k [] | Run n0 => runs (B k) n0 [] (cnt [en k]) | Done => False end).
      { rewrite (HDr k HDk) in HRk. destruct (s k); auto. }
      destruct (do_child s m k [] HM HO Hk Hp Hu) as (m1 & R1 & M1 & O1).
      destruct (IH (upd s k Done) m1) as (s' & m' & R2 & M2 & O2 & W2 & D2 & F2); auto; [cbn in *; lia| |].
      { intros j Hj. destruct (Nat.eq_dec j k) as [->|H]; [rewrite upd_same; auto|rewrite upd_other; auto]. apply HR; auto. }
      exists s', m'. split; [apply (runs_app _ _ [] m1 []); auto|]. do 4 (split; [assumption|]).
      intros j Hj. rewrite F2 by auto. apply upd_other. congruence.
Qed.

Lemma all_done s m : M s m -> (forall k, k < n -> s k = Done) -> forall p, m p = cnt (into None) p.
Proof.
  intros [M1 M2 M3] Hd p. destruct (in_dec Nat.eq_dec p (map pl C)) as [Hp|Hp].
  - apply in_map_iff in Hp as (c & <- & Hc). rewrite (M2 c Hc). unfold into. rewrite (cnt_sel _ c Hc). unfold active.
    assert (E1 : done s (sr c) = true) by (destruct (sr c) as [i|] eqn:E; cbn; [rewrite (Hd i); eauto|auto]). rewrite E1. cbn.
    destruct (ds c) as [j|] eqn:E; cbn; [rewrite (Hd j); eauto|auto].
  - unfold into. rewrite cnt_sel0 by auto.
    destruct (Nat.eq_dec (m p) 0) as [|Hm]; [auto|]. exfalso. apply Hm. clear Hm.
    assert (Dec : forall q, m q <> 0 -> ~ In q (map pl C) -> exists k, k < n /\ m q = inside (s k) q -> False -> False) by (intros; exists 0; auto).
    clear Dec. destruct (m p) eqn:Em; auto. exfalso.
    assert (H : ~ forall k, k < n -> ~ powns k p) by (intros H; rewrite (M3 p H Hp) in Em; discriminate).
    apply H. intros k Hk Ho. rewrite (M1 k p Hk Ho), (Hd k Hk) in Em. discriminate.
Qed.

Lemma completes rest : forall s m, M s m -> O s -> R s rest -> (forall x, In x rest -> fst x < n) ->
  ForallOrdPairs (fun x y => lt (fst y) (fst x) = false) rest -> runs RB m (map snd rest) (cnt (into None)).
Proof.
  induction rest as [|[k a] rest IH]; intros s m HM HO HR Ht Ho.
  - destruct (drain (fun _ => true) [] ltac:(auto) ltac:(auto) _ s m (le_n _) HM HO HR) as (s' & m' & R1 & M1 & O1 & _ & D1 & _).
    cbn. eapply runs_ext_r; [exact R1|]. eapply all_done; eauto.
  - inversion Ho as [|? ? Hx Hrest]; subst. rewrite Forall_forall in Hx. assert (Hk : k < n) by (apply (Ht (k, a)); left; auto).
    assert (HDr : forall j, lt j k = true -> proj j ((k, a) :: rest) = []).
    { intros j Hj. unfold proj. cbn [filter fst]. destruct (Nat.eqb_spec k j) as [->|Hkj]; [rewrite rank_irr in Hj; discriminate|].
      destruct (filter _ rest) as [|y l] eqn:E; auto. exfalso. assert (Hy : In y (filter (fun x => fst x =? j) rest)) by (rewrite E; left; auto).
      apply filter_In in Hy as [Hy Ej]. apply Nat.eqb_eq in Ej. specialize (Hx y Hy). cbn in Hx. rewrite Ej in Hx. congruence. }
    destruct (drain (fun j => lt j k) ((k, a) :: rest) ltac:(intros i j He Hj; eapply Hlt2; eauto) HDr _ s m (le_n _) HM HO HR) as (s1 & m1 & R1 & M1 & O1 & HR1 & D1 & F1).
    assert (Hp : forall i, edge i k -> s1 i = Done) by (intros i He; apply D1; [apply (edge_lt _ _ He)|auto]).
    assert (G : exists s2 m2 n0, runs RB m1 [] m2 /\ M s2 m2 /\ O s2 /\ s2 k = Run n0 /\ runs (B k) n0 (proj k ((k, a) :: rest)) (cnt [en k]) /\ forall j, j <> k -> s2 j = s1 j).
    { pose proof (HR1 k Hk) as HRk. destruct (s1 k) as [|n0|] eqn:Es.
      - destruct (do_start s1 m1 k M1 O1 Hk Es Hp) as (m2 & R2 & M2 & O2). exists (upd s1 k (Run (cnt [sta k]))), m2, (cnt [sta k]). split; auto. split; auto. split; auto.
        split; [apply upd_same|]. split; [apply (b_complete (Hb k Hk)); auto|]. intros; apply upd_other; auto.
      - exists s1, m1, n0. split; [apply runs_refl|]. auto 8.
      - exfalso. unfold proj in HRk. cbn in HRk. rewrite Nat.eqb_refl in HRk. discriminate. }
    destruct G as (s2 & m2 & n0 & R2 & M2 & O2 & Es & Hr & F2).
    assert (Epk : proj k ((k, a) :: rest) = a :: proj k rest) by (unfold proj; cbn; rewrite Nat.eqb_refl; auto).
    rewrite Epk in Hr. destruct (runs_split _ _ _ _ Hr [a] (proj k rest) eq_refl) as (n1 & Ha & Hb').
    destruct (do_run s2 m2 k n0 [a] n1 M2 O2 Hk Es Ha) as (m3 & R3 & M3 & O3).
    change (map snd ((k, a) :: rest)) with ([] ++ [] ++ [a] ++ map snd rest).
    eapply runs_app; [exact R1|]. eapply runs_app; [exact R2|]. eapply runs_app; [exact R3|].
    eapply IH; eauto; [|intros y Hy; apply Ht; right; auto].
    intros j Hj. destruct (Nat.eq_dec j k) as [->|Hjk]; [rewrite upd_same; auto|]. rewrite upd_other, F2 by auto.
    pose proof (HR1 j Hj) as H. assert (E : proj j ((k, a) :: rest) = proj j rest) by (unfold proj; cbn; destruct (Nat.eqb_spec k j); [congruence|auto]). rewrite E in H. auto.
Qed.

(** a state where child [k] may start *)
Lemma ready k : k < n -> exists s tw m u, runs RB (cnt (from None)) u m /\ M s m /\ O s /\ W s tw /\ (forall i, edge i k -> s i = Done) /\ s k = Idle.
Proof.
  intros Hk. destruct Inv_init as (s & HM & HO & HW & Hi).
  destruct (advance (fun j => lt j k) ltac:(intros i j He Hj; eapply Hlt2; eauto) _ s [] _ (le_n _) HM HO HW) as (s' & tw' & m' & u & R1 & M1 & O1 & W1 & _ & D1 & F1).
  exists s', tw', m', u. do 4 (split; [assumption|]). split; [intros i He; apply D1; [apply (edge_lt _ _ He)|auto]|]. rewrite F1; auto. apply rank_irr.
Qed.

Definition Splaces (p : nat) : Prop := (exists k, k < n /\ powns k p) \/ In p (map pl C).
Lemma sel_in f p : In p (map pl (filter f C)) -> In p (map pl C).
Proof. intros H. apply in_map_iff in H as (c & <- & Hc). apply filter_In in Hc as [Hc _]. apply in_map; auto. Qed.

Theorem block_po : block RB Splaces (from None) (into None) poL /\ local Splaces (from None) (into None).
Proof.
  split; [|split; intros p Hp; right; eapply sel_in; eauto].
  assert (LV : forall (P : nat -> mk -> Prop) k n0 v, k < n -> runs (B k) (cnt [sta k]) v n0 -> exists w m s, runs RB (cnt (from None)) w m /\ M s m /\ s k = Run n0).
  { intros P k n0 v Hk Hr. destruct (ready k Hk) as (s & tw & m & u & R1 & M1 & O1 & W1 & Hp & Hi).
    destruct (do_start s m k M1 O1 Hk Hi Hp) as (m2 & R2 & M2 & O2). destruct (do_run _ m2 k _ v n0 M2 O2 Hk (upd_same _ _ _) Hr) as (m3 & R3 & M3 & O3).
    exists (u ++ [] ++ v), m3, (upd (upd s k (Run (cnt [sta k]))) k (Run n0)). split; [|split; [auto|apply upd_same]].
    eapply runs_app; [exact R1|]. eapply runs_app; eauto. }
  assert (Lsta : forall k, k < n -> exists w m, runs RB (cnt (from None)) w m /\ forall p, cnt (pre (ti k)) p <= m p).
  { intros k Hk. destruct (ready k Hk) as (s & tw & m & u & R1 & M1 & O1 & W1 & Hp & Hi). exists u, m. split; auto.
    apply (move_start s m k M1 O1 Hk Hi Hp). }
  assert (Lfin : forall k, k < n -> exists w m, runs RB (cnt (from None)) w m /\ forall p, cnt (pre (tf k)) p <= m p).
  { intros k Hk. destruct (b_inh _ _ _ _ _ _ (Hb k Hk)) as (v & Hv). apply (b_complete (Hb k Hk)) in Hv.
    destruct (LV (fun _ _ => True) k _ v Hk Hv) as (w & m & s & Hr & HM & Es). exists w, m. split; auto.
    destruct (Htf k Hk) as (_ & -> & _). apply cnt1_le. rewrite (m_own _ _ HM k (en k) Hk), Es by (unfold powns; auto). cbn [inside]. rewrite cnt1. auto. }
  constructor.
  - intros t Ht. apply RB_iff in Ht as (k & Hk & [->|[->|Ht]]).
    + destruct (Hti k Hk) as (_ & _ & T). destruct (Hin k Hk) as (c & Hc & E). split.
      * intros E0. specialize (T (pl c)). rewrite E0 in T. unfold into in T. rewrite (cnt_sel _ c Hc), (proj2 (is_iff _ _) E) in T. discriminate.
      * intros p Hp. right. right. apply cnt_in in Hp. rewrite T in Hp. apply cnt_in in Hp. eapply sel_in; eauto.
    + destruct (Htf k Hk) as (_ & -> & T). split; [discriminate|]. intros p [<-|[]]. right. left. exists k. unfold powns; auto.
    + destruct (b_pre (Hb k Hk) _ Ht) as [H1 H2]. split; auto. intros p Hp. right. left. exists k. split; auto. unfold powns. destruct (H2 p Hp) as [[<-|[]]|?]; auto.
  - intros t Ht. apply RB_iff in Ht as (k & Hk & [->|[->|Ht]]).
    + destruct (Hti k Hk) as (_ & -> & T). split; [discriminate|]. intros p [<-|[]]. right. left. exists k. unfold powns; auto.
    + destruct (Htf k Hk) as (_ & _ & T). destruct (Hout k Hk) as (c & Hc & E). split.
      * intros E0. specialize (T (pl c)). rewrite E0 in T. unfold from in T. rewrite (cnt_sel _ c Hc), (proj2 (is_iff _ _) E) in T. discriminate.
      * intros p Hp. right. right. apply cnt_in in Hp. rewrite T in Hp. apply cnt_in in Hp. eapply sel_in; eauto.
    + destruct (b_post (Hb k Hk) _ Ht) as [H1 H2]. split; auto. intros p Hp. right. left. exists k. split; auto. unfold powns. destruct (H2 p Hp) as [[<-|[]]|?]; auto.
  - intros m w Hr Hm. destruct (Inv_runs _ _ Hr) as (s & tw & HM & HO & HW & <-).
    assert (Hend : forall c, In c C -> ds c = None -> done s (sr c) = true).
    { intros c Hc E. specialize (Hm (pl c)). unfold into in Hm. rewrite (cnt_sel _ c Hc), (m_con _ _ HM c Hc), (proj2 (is_iff _ _) E) in Hm. unfold active in Hm.
      destruct (done s (sr c)); [auto|cbn in Hm; lia]. }
    assert (Hd : forall c k, n <= c + k -> forall j, j < n -> rank j >= rank j -> True) by auto. clear Hd.
    assert (Hd : forall k, k < n -> s k = Done).
    { assert (Hmax : exists b, forall k, k < n -> rank k < b).
      { exists (Datatypes.S (list_max (map rank (seq 0 n)))). intros k Hk. apply Nat.lt_succ_r.
        pose proof (proj1 (list_max_le (map rank (seq 0 n)) _) (le_n _)) as H. rewrite Forall_forall in H. apply H, in_map, in_seq. lia. }
      destruct Hmax as (b & Hmax).
      assert (G : forall d k, k < n -> b <= rank k + d -> s k = Done).
      { induction d as [|d IHd]; intros k Hk Hd; [specialize (Hmax k Hk); lia|].
        destruct (Hout k Hk) as (c & Hc & E). destruct (ds c) as [j|] eqn:Ed.
        - assert (He : edge k j) by (exists c; auto). pose proof (Hrank _ _ (Hlt1 _ _ He)). apply (HO k j He). rewrite (IHd j); [discriminate|apply (edge_lt _ _ He)|lia].
        - specialize (Hend c Hc Ed). rewrite E in Hend. cbn in Hend. destruct (s k); auto; discriminate. }
      intros k Hk. apply (G b); auto. lia. }
    split; [eapply all_done; eauto|]. exists tw. split; auto. split; [apply (w_tag _ _ HW)|]. split; [|apply (w_ord _ _ HW)].
    intros k Hk. pose proof (w_ph _ _ HW k Hk) as H. rewrite (Hd k Hk) in H. auto.
  - intros w (tw & <- & Ht & HL & Ho). destruct Inv_init as (s & HM & HO & HW & Hi). eapply completes; eauto.
    intros k Hk. rewrite Hi. auto.
  - intros m w p Hr. destruct (Inv_runs _ _ Hr) as (s & tw & HM & HO & HW & _).
    destruct (in_dec Nat.eq_dec p (map pl C)) as [Hp|Hp].
    + apply in_map_iff in Hp as (c & <- & Hc). rewrite (m_con _ _ HM c Hc). destruct (active s c); lia.
    + destruct (le_lt_dec (m p) 1); auto. exfalso. assert (H : ~ forall k, k < n -> ~ powns k p) by (intros H; rewrite (m_out _ _ HM p H Hp) in *; lia).
      apply H. intros k Hk Hpo. pose proof (m_own _ _ HM k p Hk Hpo) as E. pose proof (w_ph _ _ HW k Hk) as HR. destruct (s k) as [|n0|]; cbn in E; try lia.
      pose proof (b_safe (Hb k Hk) _ _ p HR). lia.
  - intros q t Ht. apply RB_iff in Ht as (k & Hk & [->|[->|Ht]]); auto.
    destruct (b_live (Hb k Hk) q _ Ht) as (v & n0 & Hr & He). destruct (LV (fun _ _ => True) k n0 v Hk Hr) as (w & m & s & Hr' & HM & Es).
    exists w, m. split; auto. intros p. destruct (Nat.eq_dec (cnt (pre t) p) 0) as [E|E]; [lia|].
    assert (Hp : powns k p). { destruct (b_pre (Hb k Hk) _ Ht) as [_ H]. destruct (H p) as [[<-|[]]|?]; unfold powns; auto. apply cnt_in. lia. }
    rewrite (m_own _ _ HM k p Hk Hp), Es. cbn. auto.
  - intros t p Ht Hp. apply RB_iff in Ht as (k & Hk & [->|[->|Ht]]).
    + destruct (Lsta k Hk) as (w & m & Hr & He). exists w, m. split; auto. eapply need; eauto.
    + destruct (Lfin k Hk) as (w & m & Hr & He). exists w, m. split; auto. eapply need; eauto.
    + destruct (b_mark (Hb k Hk) _ _ Ht Hp) as (v & n0 & Hr & He). destruct (LV (fun _ _ => True) k n0 v Hk Hr) as (w & m & s & Hr' & HM & Es).
      exists w, m. split; auto.
      assert (Ho : powns k p). { destruct (b_pre (Hb k Hk) _ Ht) as [_ H]. destruct (H p Hp) as [[<-|[]]|?]; unfold powns; auto. }
      rewrite (m_own _ _ HM k p Hk Ho), Es. cbn. auto.
  - intros m w Hr. destruct (Inv_runs _ _ Hr) as (s & tw & HM & HO & HW & <-).
    destruct (advance (fun _ => true) ltac:(auto) _ s tw m (le_n _) HM HO HW) as (s' & tw' & m' & u & R1 & M1 & O1 & W1 & E1 & D1 & _).
    exists u. split; [eapply runs_ext_r; [exact R1|]; eapply all_done; eauto|]. exists tw'. split; auto. split; [apply (w_tag _ _ W1)|]. split; [|apply (w_ord _ _ W1)].
    intros k Hk. pose proof (w_ph _ _ W1 k Hk) as H. rewrite D1 in H; auto.
Qed.
End Po.
