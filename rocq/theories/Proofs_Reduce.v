(** The two reduction rules preserve blocks. *)
From Coq Require Import List Arith Lia Bool ZArith Permutation.
Import ListNotations.
From Verif Require Import Model_Petri Model_Tree Model_TreeNet Proofs_Block Proofs_Block3.

Lemma tr_eq_dec (a b : tr) : {a = b} + {a <> b}.
Proof. decide equality; try (apply list_eq_dec; intros x y; decide equality; [apply Z.eq_dec|apply Nat.eq_dec]); [decide equality; apply Nat.eq_dec|apply Nat.eq_dec]. Defined.

Lemma cnt1_other (p q : nat) : q <> p -> cnt [p] q = 0.
Proof. intros H. cbn. destruct (Nat.eqb_spec p q); [congruence|auto]. Qed.

Section Step.
Variable Q : Prop.
Variables (B B' : list tr) (S : nat -> Prop) (I F : list nat) (L : list nat -> Prop).
Hypothesis HB : block Q B S I F L.
Variables (t u u' : tr) (p : nat).
Hypothesis Ht : In t B.
Hypothesis Hu : In u B.
Hypothesis Hsil : vis t = [].
Hypothesis Hvu : vis u' = vis u.
(** the transitions of the reduced net *)
Hypothesis HB' : forall v, In v B' <-> (v = u' \/ (In v B /\ v <> t /\ v <> u)).
Hypothesis HpI : ~ In p I.
Hypothesis HpF : ~ In p F.

Lemma cntI_p : cnt I p = 0. Proof. apply cnt_notin; auto. Qed.
Lemma cntF_p : cnt F p = 0. Proof. apply cnt_notin; auto. Qed.

(** [st] forgets the tokens of the removed place and puts [X] instead *)
Definition st (X : list nat) (m : mk) : mk := fun q => if Nat.eqb q p then 0 else m q + m p * cnt X q.
Lemma st_id X m : m p = 0 -> forall q, st X m q = m q.
Proof. intros H q. unfold st. rewrite H. destruct (Nat.eqb_spec q p) as [->|]; lia. Qed.
Lemma st_p X m : st X m p = 0.
Proof. unfold st. rewrite Nat.eqb_refl. auto. Qed.
Lemma st_q X m q : q <> p -> st X m q = m q + m p * cnt X q.
Proof. intros H. unfold st. destruct (Nat.eqb_spec q p); congruence. Qed.

Section Sim.
  Variable X : list nat.
  Hypothesis Hsim : forall m w m', runs B m w m' -> runs B' (st X m) w (st X m').
  Hypothesis Hback : forall m w m', runs B' m w m' -> m p = 0 -> runs B m w m' /\ m' p = 0.
  Hypothesis Hpre' : forall v', In v' B' -> pre v' <> [] /\ forall q, In q (pre v') -> q <> p /\ exists v, In v B /\ In q (pre v).
  Hypothesis Hpost' : forall v', In v' B' -> post v' <> [] /\ forall q, In q (post v') -> exists v, In v B /\ In q (post v).
  Hypothesis Hlive' : forall v', In v' B' -> exists v, In v B /\ forall m, (forall q, cnt (pre v) q <= m q) -> forall q, cnt (pre v') q <= st X m q.

  Lemma step_block : block Q B' S I F L.
  Proof.
    assert (St0 : forall m, m p = 0 -> forall q, st X m q = m q) by (intros; apply st_id; auto).
    assert (HfromI : forall w m, runs B' (cnt I) w m -> runs B (cnt I) w m /\ m p = 0) by (intros w m H; apply (Hback _ _ _ H cntI_p)).
    assert (HtoI : forall w m, runs B (cnt I) w m -> runs B' (cnt I) w (st X m)).
    { intros w m H. apply Hsim in H. eapply runs_ext_l; [exact H|]. intros q. apply St0, cntI_p. }
    constructor.
    - intros v Hv. destruct (Hpre' v Hv) as [Hn H]. split; auto. intros q Hq. destruct (H q Hq) as (_ & v0 & Hv0 & Hq0). apply (b_pre HB _ Hv0); auto.
    - intros v Hv. destruct (Hpost' v Hv) as [Hn H]. split; auto. intros q Hq. destruct (H q Hq) as (v0 & Hv0 & Hq0). apply (b_post HB _ Hv0); auto.
    - intros m w H Hm. apply HfromI in H as [H _]. apply (b_sound HB _ _ H Hm).
    - intros w Hw. apply (b_complete HB) in Hw. apply HtoI in Hw. eapply runs_ext_r; [exact Hw|]. intros q. apply St0, cntF_p.
    - intros m w q H. apply HfromI in H as [H _]. apply (b_safe HB _ _ q H).
    - intros qq v Hv. destruct (Hlive' v Hv) as (v0 & Hv0 & He). destruct (b_live HB qq _ Hv0) as (w & m & Hr & Hm). exists w, (st X m). split; auto.
    - intros v q Hv Hq. destruct (Hpre' v Hv) as [_ H]. destruct (H q Hq) as (Hne & v0 & Hv0 & Hq0). destruct (b_mark HB _ _ Hv0 Hq0) as (w & m & Hr & Hm).
      exists w, (st X m). split; auto. rewrite st_q by auto. lia.
    - intros m w H. apply HfromI in H as [H Hp]. destruct (b_opt HB _ _ H) as (w' & Hr & Hl). exists w'. split; auto.
      apply Hsim in Hr. eapply runs_ext_r; [eapply runs_ext_l; [exact Hr|]|]; intros q; apply St0; [auto|apply cntF_p].
  Qed.
End Sim.

(** a marked place has a producer other than its consumer *)
Lemma marked_producer : In p (pre t) -> In p (post u) -> (forall v, In v B -> v <> u -> ~ In p (post v)) -> u <> t.
Proof.
  intros Hpt Hup Hprod E0.
  destruct (b_mark HB t p Ht) as (w & m & Hr & Hm); auto.
  assert (G : m p = 0); [|lia]. clear Hm. revert m w Hr. apply (runs_inv B (cnt I) (fun m _ => m p = 0)).
  - intros m m' _ E H. rewrite <- E. auto.
  - apply cntI_p.
  - intros m _ v m' H Hv [Hf1 Hf2]. specialize (Hf2 p). specialize (Hf1 p). destruct (tr_eq_dec v u) as [->|Hvu0].
    + rewrite E0 in Hf1. apply cnt_in in Hpt. lia.
    + pose proof (cnt_notin _ _ (Hprod v Hv Hvu0)). lia.
Qed.
(** post-agglomeration: [t] only takes from [p], [u] is the only producer of [p] *)
Lemma entry_block : pre t = [p] -> cnt (post u) p = 1 ->
  (forall v, In v B -> v <> u -> ~ In p (post v)) -> (forall v, In v B -> v <> t -> ~ In p (pre v)) ->
  pre u' = pre u -> (forall q, q <> p -> cnt (post u') q = cnt (post u) q + cnt (post t) q) -> cnt (post u') p = 0 ->
  u <> t -> block Q B' S I F L.
Proof.
  intros Hpt Hup Hprod Hcons Hpre Hpost Hpost0.
  intros Hne.
  assert (Pu : cnt (pre u) p = 0) by (apply cnt_notin, Hcons; auto).
  assert (Pt : cnt (post t) p = 0) by (apply cnt_notin, Hprod; auto).
  apply step_block with (X := post t).
  - (* old to new *)
    intros m w m' H. induction H as [m m' E|m w m1 v m2 H IH Hv [Hf1 Hf2]].
    + constructor. intros q. unfold st. rewrite !E. auto.
    + destruct (tr_eq_dec v t) as [->|Hvt].
      * rewrite Hsil, app_nil_r. eapply runs_ext_r; [exact IH|]. intros q. destruct (Nat.eq_dec q p) as [->|Hq]; [rewrite !st_p; auto|].
        rewrite !st_q by auto. pose proof (Hf2 q) as A1. pose proof (Hf2 p) as A2. rewrite Hpt, cnt1, Pt in A2. rewrite Hpt in A1.
        rewrite (cnt1_other p q Hq) in A1.
        replace (m1 p) with (Datatypes.S (m2 p)) by lia. rewrite Nat.mul_succ_l. lia.
      * destruct (tr_eq_dec v u) as [->|Hvu0].
        -- rewrite <- Hvu. eapply r_snoc; [exact IH|apply HB'; auto|]. split; intros q.
           ++ rewrite Hpre. destruct (Nat.eq_dec q p) as [->|Hq]; [rewrite st_p; lia|]. rewrite st_q by auto. specialize (Hf1 q). lia.
           ++ rewrite Hpre. destruct (Nat.eq_dec q p) as [->|Hq]; [rewrite !st_p; lia|]. rewrite !st_q, Hpost by auto.
              pose proof (Hf2 q) as A1. pose proof (Hf2 p) as A2. rewrite Pu, Hup in A2.
              replace (m2 p) with (Datatypes.S (m1 p)) by lia. rewrite Nat.mul_succ_l. lia.
        -- pose proof (cnt_notin _ _ (Hprod v Hv Hvu0)) as V1. pose proof (cnt_notin _ _ (Hcons v Hv Hvt)) as V2.
           eapply r_snoc; [exact IH|apply HB'; auto|]. pose proof (Hf2 p) as A2. rewrite V1, V2 in A2. assert (A3 : m2 p = m1 p) by lia.
           split; intros q; (destruct (Nat.eq_dec q p) as [->|Hq]; [rewrite ?st_p; lia|]); rewrite ?st_q by auto; rewrite ?A3;
             specialize (Hf1 q); specialize (Hf2 q); lia.
  - (* new to old *)
    intros m w m' H. induction H as [m m' E|m w m1 v m2 H IH Hv Hf]; intros H0.
    + split; [constructor; auto|rewrite <- E; auto].
    + destruct (IH H0) as [IHr IH0]. pose proof Hf as [Hf1 Hf2]. apply HB' in Hv as [->|(Hv & Hvt & Hvu0)].
      * rewrite Hvu. rewrite Hpre in Hf1, Hf2.
        assert (Ga : fire u m1 (after u m1)) by (apply fire_after; auto).
        assert (E1 : after u m1 p = 1) by (unfold after; lia).
        assert (G2 : runs B m (w ++ vis u) m2).
        { eapply (r_silent B _ _ (after u m1) t); auto; [eapply r_snoc; eauto|]. split; intros q; rewrite ?Hpt.
          - destruct (Nat.eq_dec q p) as [->|Hq]; [rewrite cnt1; lia|rewrite (cnt1_other p q Hq); lia].
          - specialize (Hf2 q). specialize (Hf1 q). destruct (Nat.eq_dec q p) as [->|Hq].
            + rewrite cnt1, E1, Pt. rewrite Hpost0 in Hf2. lia.
            + rewrite (Hpost q Hq) in Hf2. rewrite (cnt1_other p q Hq). unfold after. lia. }
        split; auto. specialize (Hf2 p). rewrite Hpost0 in Hf2. lia.
      * split; [eapply r_snoc; eauto|]. specialize (Hf2 p). rewrite (cnt_notin _ _ (Hprod v Hv Hvu0)) in Hf2. lia.
  - intros v Hv. apply HB' in Hv as [->|(Hv & Hvt & Hvu0)].
    + rewrite Hpre. split; [apply (b_pre HB _ Hu)|]. intros q Hq. split; [intros ->; apply (Hcons u); auto|eauto].
    + split; [apply (b_pre HB _ Hv)|]. intros q Hq. split; [intros ->; apply (Hcons v); auto|eauto].
  - intros v Hv. apply HB' in Hv as [->|(Hv & Hvt & Hvu0)].
    + destruct (b_post HB _ Ht) as [Hn _]. split.
      * destruct (post t) as [|q l] eqn:El; [congruence|]. intros E0. assert (Hq : q <> p) by (intros ->; cbn in Pt; rewrite Nat.eqb_refl in Pt; lia).
        specialize (Hpost q Hq). rewrite E0 in Hpost. cbn in Hpost. rewrite Nat.eqb_refl in Hpost. lia.
      * intros q Hq. apply cnt_in in Hq. destruct (Nat.eq_dec q p) as [->|Hqp]; [lia|]. rewrite Hpost in Hq by auto.
        destruct (Nat.eq_dec (cnt (post u) q) 0); [exists t|exists u]; (split; [auto|apply cnt_in; lia]).
    + split; [apply (b_post HB _ Hv)|eauto].
  - intros v Hv. apply HB' in Hv as [->|(Hv & Hvt & Hvu0)].
    + exists u. split; auto. intros m Hm q. rewrite Hpre. destruct (Nat.eq_dec q p) as [->|Hq]; [lia|]. rewrite st_q by auto. specialize (Hm q). lia.
    + exists v. split; auto. intros m Hm q. destruct (Nat.eq_dec q p) as [->|Hq]; [rewrite (cnt_notin _ _ (Hcons v Hv Hvt)); lia|]. rewrite st_q by auto. specialize (Hm q). lia.
Qed.

(** pre-agglomeration: [t] only puts into [p], [u] is the only consumer of [p] *)
Lemma exit_block : post t = [p] -> cnt (pre u) p = 1 ->
  (forall v, In v B -> v <> t -> ~ In p (post v)) -> (forall v, In v B -> v <> u -> ~ In p (pre v)) ->
  post u' = post u -> (forall q, q <> p -> cnt (pre u') q = cnt (pre u) q + cnt (pre t) q) -> cnt (pre u') p = 0 ->
  u <> t -> block Q B' S I F L.
Proof.
  intros Hpt Hup Hprod Hcons Hpost Hpre Hpre0.
  intros Hne.
  assert (Pu : cnt (post u) p = 0) by (apply cnt_notin, Hprod; auto).
  assert (Pt : cnt (pre t) p = 0) by (apply cnt_notin, Hcons; auto).
  apply step_block with (X := pre t).
  - (* old to new *)
    intros m w m' H. induction H as [m m' E|m w m1 v m2 H IH Hv [Hf1 Hf2]].
    + constructor. intros q. unfold st. rewrite !E. auto.
    + destruct (tr_eq_dec v t) as [->|Hvt].
      * rewrite Hsil, app_nil_r. eapply runs_ext_r; [exact IH|]. intros q. destruct (Nat.eq_dec q p) as [->|Hq]; [rewrite !st_p; auto|].
        rewrite !st_q by auto. pose proof (Hf2 q) as A1. pose proof (Hf2 p) as A2. rewrite Hpt, cnt1, Pt in A2. rewrite Hpt in A1.
        rewrite (cnt1_other p q Hq) in A1. specialize (Hf1 q).
        replace (m2 p) with (Datatypes.S (m1 p)) by lia. rewrite Nat.mul_succ_l. lia.
      * destruct (tr_eq_dec v u) as [->|Hvu0].
        -- rewrite <- Hvu. eapply r_snoc; [exact IH|apply HB'; auto|].
           pose proof (Hf2 p) as A2. pose proof (Hf1 p) as A3. rewrite Hup in A2, A3. rewrite Pu in A2.
           assert (A4 : m1 p = Datatypes.S (m2 p)) by lia. split; intros q.
           ++ destruct (Nat.eq_dec q p) as [->|Hq]; [rewrite st_p; lia|]. rewrite st_q, Hpre, A4, Nat.mul_succ_l by auto. specialize (Hf1 q). lia.
           ++ rewrite Hpost. destruct (Nat.eq_dec q p) as [->|Hq]; [rewrite !st_p; lia|]. rewrite !st_q, Hpre, A4, Nat.mul_succ_l by auto.
              pose proof (Hf2 q) as A1. lia.
        -- pose proof (cnt_notin _ _ (Hprod v Hv Hvt)) as V1. pose proof (cnt_notin _ _ (Hcons v Hv Hvu0)) as V2.
           eapply r_snoc; [exact IH|apply HB'; auto|]. pose proof (Hf2 p) as A2. rewrite V1, V2 in A2. assert (A3 : m2 p = m1 p) by lia.
           split; intros q; (destruct (Nat.eq_dec q p) as [->|Hq]; [rewrite ?st_p; lia|]); rewrite ?st_q by auto; rewrite ?A3;
             specialize (Hf1 q); specialize (Hf2 q); lia.
  - (* new to old *)
    intros m w m' H. induction H as [m m' E|m w m1 v m2 H IH Hv Hf]; intros H0.
    + split; [constructor; auto|rewrite <- E; auto].
    + destruct (IH H0) as [IHr IH0]. pose proof Hf as [Hf1 Hf2]. apply HB' in Hv as [->|(Hv & Hvt & Hvu0)].
      * rewrite Hvu. rewrite Hpost in Hf2.
        assert (Le : forall q, cnt (pre t) q <= m1 q).
        { intros q. destruct (Nat.eq_dec q p) as [->|Hq]; [lia|]. specialize (Hf1 q). rewrite Hpre in Hf1 by auto. lia. }
        assert (Ga : fire t m1 (after t m1)) by (apply fire_after; auto).
        assert (E1 : after t m1 p = 1) by (unfold after; rewrite Hpt, cnt1; lia).
        assert (G2 : runs B m (w ++ vis u) m2).
        { apply (r_snoc B m w (after t m1) u m2); auto; [eapply (r_silent B _ _ m1 t); eauto|]. split; intros q.
          - destruct (Nat.eq_dec q p) as [->|Hq]; [lia|]. unfold after. rewrite Hpt. rewrite (cnt1_other p q Hq).
            specialize (Hf1 q). rewrite Hpre in Hf1 by auto. lia.
          - specialize (Hf2 q). specialize (Hf1 q). specialize (Le q). destruct (Nat.eq_dec q p) as [->|Hq].
            + rewrite E1, Hup. lia.
            + rewrite (Hpre q Hq) in Hf1, Hf2. unfold after. rewrite Hpt. rewrite (cnt1_other p q Hq). lia. }
        split; auto. specialize (Hf2 p). lia.
      * split; [eapply r_snoc; eauto|]. specialize (Hf2 p). rewrite (cnt_notin _ _ (Hprod v Hv Hvt)) in Hf2. lia.
  - intros v Hv. apply HB' in Hv as [->|(Hv & Hvt & Hvu0)].
    + destruct (b_pre HB _ Ht) as [Hn _]. split.
      * destruct (pre t) as [|q l] eqn:El; [congruence|]. intros E0. assert (Hq : q <> p) by (intros ->; cbn in Pt; rewrite Nat.eqb_refl in Pt; lia).
        specialize (Hpre q Hq). rewrite E0 in Hpre. cbn in Hpre. rewrite Nat.eqb_refl in Hpre. lia.
      * intros q Hq. apply cnt_in in Hq. destruct (Nat.eq_dec q p) as [->|Hqp]; [lia|]. rewrite Hpre in Hq by auto. split; auto.
        destruct (Nat.eq_dec (cnt (pre u) q) 0); [exists t|exists u]; (split; [auto|apply cnt_in; lia]).
    + split; [apply (b_pre HB _ Hv)|]. intros q Hq. split; [intros ->; apply (Hcons v); auto|eauto].
  - intros v Hv. apply HB' in Hv as [->|(Hv & Hvt & Hvu0)].
    + rewrite Hpost. split; [apply (b_post HB _ Hu)|eauto].
    + split; [apply (b_post HB _ Hv)|eauto].
  - intros v Hv. apply HB' in Hv as [->|(Hv & Hvt & Hvu0)].
    + exists u. split; auto. intros m Hm q. destruct (Nat.eq_dec q p) as [->|Hq]; [lia|]. rewrite st_q, Hpre by auto. pose proof (Hm q) as A1. pose proof (Hm p) as A2.
      assert (A3 : cnt (pre t) q <= m p * cnt (pre t) q) by (destruct (m p); [lia|rewrite Nat.mul_succ_l; lia]). lia.
    + exists v. split; auto. intros m Hm q. destruct (Nat.eq_dec q p) as [->|Hq]; [rewrite (cnt_notin _ _ (Hcons v Hv Hvu0)); lia|]. rewrite st_q by auto. specialize (Hm q). lia.
Qed.
End Step.
