(** The simple reduction of arbitrary accepting nets (pm4py.reduce_petri_net_invisibles). *)
From stdpp Require Import gmap.
From Coq Require Import List Arith Lia Bool ZArith Permutation.
Import ListNotations.
From Verif Require Import Model_Petri Spec_Petri Model_Tree Model_TreeNet Spec_TreeNet Proofs_Petri Proofs_Shuffle Proofs_Block Proofs_Block3 Proofs_TreeNet Proofs_TreeNet2 Proofs_Reduce Proofs_TreeNet3 Proofs_TreeNet4.

(** The reduced net [B'] against [B], from the markings [i] to [f]. *)
Record refines (B B' : list tr) (i f : mk) : Prop := {
  rf_back : forall w m, runs B' i w m -> runs B i w m;
  rf_to : forall w, runs B i w f -> runs B' i w f;
  rf_opt : forall w0 m w, runs B' i w0 m -> runs B m w f -> runs B' m w f;
  rf_live : forall v', In v' B' -> exists v, In v B /\ t_label v = t_label v' /\
    forall w m, runs B i w m -> (forall q, cnt (pre v) q <= m q) -> exists m', runs B' i w m' /\ forall q, cnt (pre v') q <= m' q }.
Lemma refines_refl B i f : refines B B i f.
Proof. constructor; auto. intros v Hv. exists v. split; [exact Hv|]. split; [reflexivity|]. eauto. Qed.
Lemma refines_trans B1 B2 B3 i f : refines B1 B2 i f -> refines B2 B3 i f -> refines B1 B3 i f.
Proof.
  intros H1 H2. constructor.
  - intros w m H. apply (rf_back _ _ _ _ H1), (rf_back _ _ _ _ H2), H.
  - intros w H. apply (rf_to _ _ _ _ H2), (rf_to _ _ _ _ H1), H.
  - intros w0 m w H H'. eapply (rf_opt _ _ _ _ H2); [exact H|]. eapply (rf_opt _ _ _ _ H1); [|exact H']. apply (rf_back _ _ _ _ H2), H.
  - intros v3 Hv3. destruct (rf_live _ _ _ _ H2 v3 Hv3) as (v2 & Hv2 & E2 & L2). destruct (rf_live _ _ _ _ H1 v2 Hv2) as (v1 & Hv1 & E1 & L1).
    exists v1. split; [exact Hv1|]. split; [congruence|]. intros w m Hr He. destruct (L1 w m Hr He) as (m' & Hr' & He'). apply (L2 w m' Hr' He').
Qed.

Section Step.
Variables (B B' : list tr) (i f : mk) (t u u' : tr) (p : nat).
Hypothesis Ht : In t B.
Hypothesis Hu : In u B.
Hypothesis Hsil : vis t = [].
Hypothesis Hvu : t_label u' = t_label u.
Hypothesis HB' : forall v, In v B' <-> (v = u' \/ (In v B /\ v <> t /\ v <> u)).
Hypothesis Hpi : i p = 0.
Hypothesis Hpf : f p = 0.
Lemma vis_u : vis u' = vis u.
Proof. unfold vis. now rewrite Hvu. Qed.
Lemma refine_step X :
  (forall m w m', runs B m w m' -> runs B' (st p X m) w (st p X m')) ->
  (forall m w m', runs B' m w m' -> m p = 0 -> runs B m w m' /\ m' p = 0) ->
  (forall v', In v' B' -> exists v, In v B /\ t_label v = t_label v' /\ forall m, (forall q, cnt (pre v) q <= m q) -> forall q, cnt (pre v') q <= st p X m q) ->
  refines B B' i f.
Proof.
  intros Hsim Hback Hlive. constructor.
  - intros w m H. apply (Hback i w m H Hpi).
  - intros w H. apply Hsim in H. eapply runs_ext_r; [eapply runs_ext_l; [exact H|]|]; apply st_id; assumption.
  - intros w0 m w H0 H. destruct (Hback _ _ _ H0 Hpi) as [_ Hm]. apply Hsim in H. eapply runs_ext_r; [eapply runs_ext_l; [exact H|]|]; apply st_id; assumption.
  - intros v' Hv'. destruct (Hlive v' Hv') as (v & Hv & Ev & He). exists v. split; [exact Hv|]. split; [exact Ev|]. intros w m Hr Hen. exists (st p X m). split; [|auto].
    apply Hsim in Hr. eapply runs_ext_l; [exact Hr|]. apply st_id. exact Hpi.
Qed.

Lemma entry_refines : pre t = [p] -> cnt (post u) p = 1 ->
  (forall v, In v B -> v <> u -> ~ In p (post v)) -> (forall v, In v B -> v <> t -> ~ In p (pre v)) ->
  pre u' = pre u -> (forall q, q <> p -> cnt (post u') q = cnt (post u) q + cnt (post t) q) -> cnt (post u') p = 0 ->
  u <> t -> refines B B' i f.
Proof.
  intros Hpt Hup Hprod Hcons Hpre Hpost Hpost0 Hne. pose proof vis_u as Hv'.
  assert (Pu : cnt (pre u) p = 0) by (apply cnt_notin, Hcons; auto).
  assert (Pt : cnt (post t) p = 0) by (apply cnt_notin, Hprod; auto).
  apply refine_step with (X := post t).
  - intros m w m' H. induction H as [m m' E|m w m1 v m2 H IH Hv [Hf1 Hf2]].
    + constructor. intros q. unfold st. rewrite !E. auto.
    + destruct (tr_eq_dec v t) as [->|Hvt].
      * rewrite Hsil, app_nil_r. eapply runs_ext_r; [exact IH|]. intros q. destruct (Nat.eq_dec q p) as [->|Hq]; [rewrite !st_p; auto|].
        rewrite !st_q by auto. pose proof (Hf2 q) as A1. pose proof (Hf2 p) as A2. rewrite Hpt, cnt1, Pt in A2. rewrite Hpt in A1.
        rewrite (cnt1_other p q Hq) in A1.
        replace (m1 p) with (Datatypes.S (m2 p)) by lia. rewrite Nat.mul_succ_l. lia.
      * destruct (tr_eq_dec v u) as [->|Hvu0].
        -- rewrite <- Hv'. eapply r_snoc; [exact IH|apply HB'; auto|]. split; intros q.
           ++ rewrite Hpre. destruct (Nat.eq_dec q p) as [->|Hq]; [rewrite st_p; lia|]. rewrite st_q by auto. specialize (Hf1 q). lia.
           ++ rewrite Hpre. destruct (Nat.eq_dec q p) as [->|Hq]; [rewrite !st_p; lia|]. rewrite !st_q, Hpost by auto.
              pose proof (Hf2 q) as A1. pose proof (Hf2 p) as A2. rewrite Pu, Hup in A2.
              replace (m2 p) with (Datatypes.S (m1 p)) by lia. rewrite Nat.mul_succ_l. lia.
        -- pose proof (cnt_notin _ _ (Hprod v Hv Hvu0)) as V1. pose proof (cnt_notin _ _ (Hcons v Hv Hvt)) as V2.
           eapply r_snoc; [exact IH|apply HB'; auto|]. pose proof (Hf2 p) as A2. rewrite V1, V2 in A2. assert (A3 : m2 p = m1 p) by lia.
           split; intros q; (destruct (Nat.eq_dec q p) as [->|Hq]; [rewrite ?st_p; lia|]); rewrite ?st_q by auto; rewrite ?A3;
             specialize (Hf1 q); specialize (Hf2 q); lia.
  - intros m w m' H. induction H as [m m' E|m w m1 v m2 H IH Hv Hf]; intros H0.
    + split; [constructor; auto|rewrite <- E; auto].
    + destruct (IH H0) as [IHr IH0]. pose proof Hf as [Hf1 Hf2]. apply HB' in Hv as [->|(Hv & Hvt & Hvu0)].
      * rewrite Hv'. rewrite Hpre in Hf1, Hf2.
        assert (Ga : fire u m1 (after u m1)) by (apply fire_after; auto).
        assert (E1 : after u m1 p = 1) by (unfold after; lia).
        assert (G2 : runs B m (w ++ vis u) m2).
        { eapply (r_silent B _ _ (after u m1) t); auto; [eapply r_snoc; eauto|]. split; intros q; rewrite ?Hpt.
          - destruct (Nat.eq_dec q p) as [->|Hq]; [rewrite cnt1; lia|rewrite (cnt1_other p q Hq); lia].
          - specialize (Hf2 q). specialize (Hf1 q). destruct (Nat.eq_dec q p) as [->|Hq].
            + rewrite cnt1, E1, Pt. rewrite Hpost0 in Hf2. lia.
            + rewrite (Hpost q Hq) in Hf2. rewrite (cnt1_other p q Hq). unfold after. lia. }
        split; auto. specialize (Hf2 p). rewrite Hpost0 in Hf2. lia.
      * split; [eapply r_snoc; eauto|]. specialize (Hf2 p). rewrite (cnt_notin _ _ (Hprod v Hv Hvu0)) in Hf2. lia.
  - intros v Hv. apply HB' in Hv as [->|(Hv & Hvt & Hvu0)].
    + exists u. split; auto. split; auto. intros m Hm q. rewrite Hpre. destruct (Nat.eq_dec q p) as [->|Hq]; [lia|]. rewrite st_q by auto. specialize (Hm q). lia.
    + exists v. split; auto. split; auto. intros m Hm q. destruct (Nat.eq_dec q p) as [->|Hq]; [rewrite (cnt_notin _ _ (Hcons v Hv Hvt)); lia|]. rewrite st_q by auto. specialize (Hm q). lia.
Qed.
Lemma exit_refines : post t = [p] -> cnt (pre u) p = 1 ->
  (forall v, In v B -> v <> t -> ~ In p (post v)) -> (forall v, In v B -> v <> u -> ~ In p (pre v)) ->
  post u' = post u -> (forall q, q <> p -> cnt (pre u') q = cnt (pre u) q + cnt (pre t) q) -> cnt (pre u') p = 0 ->
  u <> t -> refines B B' i f.
Proof.
  intros Hpt Hup Hprod Hcons Hpost Hpre Hpre0 Hne. pose proof vis_u as Hv'.
  assert (Pu : cnt (post u) p = 0) by (apply cnt_notin, Hprod; auto).
  assert (Pt : cnt (pre t) p = 0) by (apply cnt_notin, Hcons; auto).
  apply refine_step with (X := pre t).
  - intros m w m' H. induction H as [m m' E|m w m1 v m2 H IH Hv [Hf1 Hf2]].
    + constructor. intros q. unfold st. rewrite !E. auto.
    + destruct (tr_eq_dec v t) as [->|Hvt].
      * rewrite Hsil, app_nil_r. eapply runs_ext_r; [exact IH|]. intros q. destruct (Nat.eq_dec q p) as [->|Hq]; [rewrite !st_p; auto|].
        rewrite !st_q by auto. pose proof (Hf2 q) as A1. pose proof (Hf2 p) as A2. rewrite Hpt, cnt1, Pt in A2. rewrite Hpt in A1.
        rewrite (cnt1_other p q Hq) in A1. specialize (Hf1 q).
        replace (m2 p) with (Datatypes.S (m1 p)) by lia. rewrite Nat.mul_succ_l. lia.
      * destruct (tr_eq_dec v u) as [->|Hvu0].
        -- rewrite <- Hv'. eapply r_snoc; [exact IH|apply HB'; auto|].
           pose proof (Hf2 p) as A2. pose proof (Hf1 p) as A3. rewrite Hup in A2, A3. rewrite Pu in A2.
           assert (A4 : m1 p = Datatypes.S (m2 p)) by lia. split; intros q.
           ++ destruct (Nat.eq_dec q p) as [->|Hq]; [rewrite st_p; lia|]. rewrite st_q, Hpre, A4, Nat.mul_succ_l by auto. specialize (Hf1 q). lia.
           ++ rewrite Hpost. destruct (Nat.eq_dec q p) as [->|Hq]; [rewrite !st_p; lia|]. rewrite !st_q, Hpre, A4, Nat.mul_succ_l by auto.
              pose proof (Hf2 q) as A1. lia.
        -- pose proof (cnt_notin _ _ (Hprod v Hv Hvt)) as V1. pose proof (cnt_notin _ _ (Hcons v Hv Hvu0)) as V2.
           eapply r_snoc; [exact IH|apply HB'; auto|]. pose proof (Hf2 p) as A2. rewrite V1, V2 in A2. assert (A3 : m2 p = m1 p) by lia.
           split; intros q; (destruct (Nat.eq_dec q p) as [->|Hq]; [rewrite ?st_p; lia|]); rewrite ?st_q by auto; rewrite ?A3;
             specialize (Hf1 q); specialize (Hf2 q); lia.
  - intros m w m' H. induction H as [m m' E|m w m1 v m2 H IH Hv Hf]; intros H0.
    + split; [constructor; auto|rewrite <- E; auto].
    + destruct (IH H0) as [IHr IH0]. pose proof Hf as [Hf1 Hf2]. apply HB' in Hv as [->|(Hv & Hvt & Hvu0)].
      * rewrite Hv'. rewrite Hpost in Hf2.
        assert (Le : forall q, cnt (pre t) q <= m1 q).
        { intros q. destruct (Nat.eq_dec q p) as [->|Hq]; [lia|]. specialize (Hf1 q). rewrite Hpre in Hf1 by auto. lia. }
        assert (Ga : fire t m1 (after t m1)) by (apply fire_after; auto).
        assert (E1 : after t m1 p = 1) by (unfold after; rewrite Hpt, cnt1; lia).
        assert (G2 : runs B m (w ++ vis u) m2).
        { apply (r_snoc B m w (after t m1) u m2); auto; [eapply (r_silent B _ _ m1 t); eauto|]. split; intros q.
          - destruct (Nat.eq_dec q p) as [->|Hq]; [lia|]. unfold after. rewrite Hpt. rewrite (cnt1_other p q Hq).
            specialize (Hf1 q). rewrite Hpre in Hf1 by auto. lia.
          - specialize (Hf2 q). specialize (Hf1 q). specialize (Le q). destruct (Nat.eq_dec q p) as [->|Hq].
            + rewrite E1, Hup. lia.
            + rewrite (Hpre q Hq) in Hf1, Hf2. unfold after. rewrite Hpt. rewrite (cnt1_other p q Hq). lia. }
        split; auto. specialize (Hf2 p). lia.
      * split; [eapply r_snoc; eauto|]. specialize (Hf2 p). rewrite (cnt_notin _ _ (Hprod v Hv Hvt)) in Hf2. lia.
  - intros v Hv. apply HB' in Hv as [->|(Hv & Hvt & Hvu0)].
    + exists u. split; auto. split; auto. intros m Hm q. destruct (Nat.eq_dec q p) as [->|Hq]; [lia|]. rewrite st_q, Hpre by auto. pose proof (Hm q) as A1. pose proof (Hm p) as A2.
      assert (A3 : cnt (pre t) q <= m p * cnt (pre t) q) by (destruct (m p); [lia|rewrite Nat.mul_succ_l; lia]). lia.
    + exists v. split; auto. split; auto. intros m Hm q. destruct (Nat.eq_dec q p) as [->|Hq]; [rewrite (cnt_notin _ _ (Hcons v Hv Hvu0)); lia|]. rewrite st_q by auto. specialize (Hm q). lia.
Qed.
End Step.

(** removing a transition that needs a token from a place it alone fills *)
Lemma dead_refines B B' (t : tr) (i f : mk) p : In t B -> i p = 0 -> In p (pre t) -> (forall v, In v B -> v <> t -> ~ In p (post v)) ->
  (forall v, In v B' <-> In v B /\ v <> t) -> refines B B' i f.
Proof.
  intros Ht Hi Hp Hprod HB'.
  assert (Hsub : forall m w m', runs B' m w m' -> runs B m w m') by (intros m w m' H; eapply runs_incl; [exact H|]; intros v Hv; apply HB' in Hv; tauto).
  assert (Hs : forall m w m', runs B m w m' -> m p = 0 -> runs B' m w m' /\ m' p = 0).
  { intros m w m' H. induction H as [m m' E|m w m1 v m2 H IH Hv Hf]; intros H0; [split; [now constructor|now rewrite <- E]|]. destruct (IH H0) as [IHr IH0].
    pose proof Hf as [Hf1 Hf2]. assert (Hvt : v <> t). { intros ->. specialize (Hf1 p). apply cnt_in in Hp. lia. }
    split; [eapply r_snoc; eauto; apply HB'; auto|]. specialize (Hf2 p). rewrite (cnt_notin _ _ (Hprod v Hv Hvt)) in Hf2. lia. }
  constructor; auto.
  - intros w H. apply Hs; auto.
  - intros w0 m w H0 H. apply Hs; [exact H|]. apply (Hs i w0 m); auto.
  - intros v Hv. apply HB' in Hv as [Hv Hvt]. exists v. split; [exact Hv|]. split; [reflexivity|]. intros w m Hr He. exists m. split; [|exact He]. apply Hs; auto.
Qed.

(** * Nets *)
(** the markings do not use a place with exactly one arc in and one arc out *)
Definition free (pn : petri_net (option nat)) (i f : mk) : Prop := forall p, in_arcs pn p = 1 -> out_arcs pn p = 1 -> i p = 0 /\ f p = 0.
Record plain (pn : petri_net (option nat)) (i f : mk) : Prop := {
  pl_ids : NoDup (map t_id (n_trans pn));
  pl_unit : forall t, In t (n_trans pn) -> unit1 t;
  pl_free : free pn i f }.

Lemma no_id_absent x g B : (forall v : tr, In v B -> t_id v <> x) -> on_id x g B = B.
Proof.
  intros H. unfold on_id. rewrite <- (map_id B) at 2. apply map_ext_in. intros v Hv. destruct (Nat.eqb_spec (t_id v) x) as [E|E]; [|reflexivity]. now apply H in Hv.
Qed.
Lemma no_id_in x B (v : tr) : In v (no_id x B) <-> In v B /\ t_id v <> x.
Proof. unfold no_id. rewrite filter_In. destruct (Nat.eqb_spec (t_id v) x); cbn; intuition congruence. Qed.
Lemma no_id_ids x (B : list tr) : NoDup (map t_id B) -> NoDup (map t_id (no_id x B)).
Proof.
  unfold no_id. induction B as [|v B IH]; intros H; [exact H|]. cbn in *. inversion H as [|? ? Hv HB]; subst. destruct (negb _); cbn; [constructor|]; auto.
  intros Hi. apply Hv. apply in_map_iff in Hi as (w & <- & Hw). apply filter_In in Hw as [Hw _]. now apply in_map.
Qed.
Lemma sum_eq0 {X} (g : X -> nat) l : list_sum (map g l) = 0 -> forall x, In x l -> g x = 0.
Proof. intros H x Hx. destruct (Nat.eq_dec (g x) 0) as [|Hn]; [assumption|]. pose proof (sum_pos g l x Hx). lia. Qed.
(** arc counts of a step *)
Lemma sum_step (c : tr -> nat) B t u (g : tr -> tr) : NoDup (map t_id B) -> In t B -> In u B -> u <> t ->
  list_sum (map c (on_id (t_id u) g (no_id (t_id t) B))) + c u + c t = list_sum (map c B) + c (g u).
Proof.
  intros Hn Ht Hu Hne.
  assert (Hout : forall B, NoDup (map t_id B) -> (forall v : tr, In v B -> t_id v <> t_id t) -> In u B -> list_sum (map c (on_id (t_id u) g B)) + c u = list_sum (map c B) + c (g u)).
  { clear -Hne. intros B. induction B as [|v B IH]; intros Hn Hx Hi; [contradiction|]. cbn in Hn. inversion Hn as [|? ? Hv HB]; subst. destruct Hi as [->|Hi].
    - change (on_id (t_id u) g (u :: B)) with ((if Nat.eqb (t_id u) (t_id u) then g u else u) :: on_id (t_id u) g B). rewrite Nat.eqb_refl.
      rewrite no_id_absent; [cbn; unfold list_sum; lia|]. intros v Hv' E. apply Hv. rewrite <- E. now apply in_map.
    - change (on_id (t_id u) g (v :: B)) with ((if Nat.eqb (t_id v) (t_id u) then g v else v) :: on_id (t_id u) g B). destruct (Nat.eqb_spec (t_id v) (t_id u)) as [E|E].
      + exfalso. apply Hv. rewrite E. now apply in_map.
      + cbn. specialize (IH HB (fun w Hw => Hx w (or_intror Hw)) Hi). unfold list_sum in *. lia. }
  assert (Hin : list_sum (map c (no_id (t_id t) B)) + c t = list_sum (map c B)).
  { clear -Hn Ht. induction B as [|v B IH]; [contradiction|]. cbn in Hn. inversion Hn as [|? ? Hv HB]; subst. unfold no_id. cbn [filter]. fold (no_id (t_id t) B).
    destruct Ht as [->|Ht].
    - rewrite Nat.eqb_refl. cbn. assert (E : no_id (t_id t) B = B); [|rewrite E; unfold list_sum; lia].
      unfold no_id. clear -Hv. induction B as [|w B IH]; [reflexivity|]. cbn in *. destruct (Nat.eqb_spec (t_id w) (t_id t)); [exfalso; apply Hv; auto|]. cbn. f_equal. apply IH. tauto.
    - destruct (Nat.eqb_spec (t_id v) (t_id t)) as [E|E]; [exfalso; apply Hv; rewrite E; now apply in_map|]. cbn. specialize (IH HB Ht). unfold list_sum in *. lia. }
  assert (Hu' : In u (no_id (t_id t) B)). { apply no_id_in. split; [exact Hu|]. intros E. apply Hne. eapply ids_inj; eauto. }
  pose proof (Hout (no_id (t_id t) B) (no_id_ids _ _ Hn) (fun v Hv => proj2 (proj1 (no_id_in _ _ _) Hv)) Hu') as H. lia.
Qed.
Lemma sum_no (c : tr -> nat) B t : NoDup (map t_id B) -> In t B -> list_sum (map c (no_id (t_id t) B)) + c t = list_sum (map c B).
Proof.
  intros Hn Ht. induction B as [|v B IH]; [contradiction|]. cbn in Hn. inversion Hn as [|? ? Hv HB]; subst. unfold no_id. cbn [filter]. fold (no_id (t_id t) B).
  destruct Ht as [->|Ht].
  - rewrite Nat.eqb_refl. cbn. assert (E : no_id (t_id t) B = B); [|rewrite E; unfold list_sum; lia].
    unfold no_id. clear -Hv. induction B as [|w B IH]; [reflexivity|]. cbn in *. destruct (Nat.eqb_spec (t_id w) (t_id t)); [exfalso; apply Hv; auto|]. cbn. f_equal. apply IH. tauto.
  - destruct (Nat.eqb_spec (t_id v) (t_id t)) as [E|E]; [exfalso; apply Hv; rewrite E; now apply in_map|]. cbn. specialize (IH HB Ht). unfold list_sum in *. lia.
Qed.

Definition dead (B : list tr) (i : mk) (v : tr) : Prop := forall w m, runs B i w m -> ~ forall q, cnt (pre v) q <= m q.
(** the result of one round *)
Definition round (pn pn' : petri_net (option nat)) (i f : mk) : Prop :=
  refines (n_trans pn) (n_trans pn') i f /\ NoDup (map t_id (n_trans pn')) /\ (forall t, In t (n_trans pn') -> unit1 t) /\
  (forall q, in_arcs pn' q <= in_arcs pn q /\ out_arcs pn' q <= out_arcs pn q) /\
  ((exists v, In v (n_trans pn) /\ dead (n_trans pn) i v) \/
   forall q, in_arcs pn' q = 0 \/ (in_arcs pn' q = in_arcs pn q /\ out_arcs pn' q = out_arcs pn q)).

Lemma dead_round pn t p pl i f : NoDup (map t_id (n_trans pn)) -> (forall t, In t (n_trans pn) -> unit1 t) ->
  In t (n_trans pn) -> i p = 0 -> In p (pre t) -> (forall v, In v (n_trans pn) -> v <> t -> ~ In p (post v)) ->
  round pn (Net pl (no_id (t_id t) (n_trans pn))) i f.
Proof.
  intros Hid Hun Ht Hi Hp Hprod.
  assert (HM : forall v, In v (no_id (t_id t) (n_trans pn)) <-> In v (n_trans pn) /\ v <> t).
  { intros v. rewrite no_id_in. split; intros [H1 H2]; split; auto; [congruence|]. intros E. apply H2. eapply ids_inj; eauto. }
  split; [|split; [|split; [|split]]]; cbn [n_trans].
  - eapply dead_refines; eauto.
  - now apply no_id_ids.
  - intros v Hv. apply Hun. now apply HM in Hv.
  - intros q. rewrite !in_arcs_cnt, !out_arcs_cnt. cbn [n_trans]. pose proof (sum_no (fun t => cnt (post t) q) _ t Hid Ht). pose proof (sum_no (fun t => cnt (pre t) q) _ t Hid Ht). cbv beta in *. lia.
  - left. exists t. split; [exact Ht|]. intros w m Hr He. specialize (He p). apply cnt_in in Hp. assert (m p = 0); [|lia]. clear He. revert w m Hr.
    assert (G : forall m0 w m, runs (n_trans pn) m0 w m -> m0 p = 0 -> m p = 0); [|intros w m Hr; exact (G i w m Hr Hi)].
    intros m0 w m H. induction H as [m m' E|m w m1 v m2 H IH Hv [Hf1 Hf2]]; intros H0; [now rewrite <- E|]. specialize (IH H0).
    assert (Hvt : v <> t). { intros ->. specialize (Hf1 p). lia. } specialize (Hf2 p). rewrite (cnt_notin _ _ (Hprod v Hv Hvt)) in Hf2. lia.
Qed.

Lemma entry_round pn pn' i f : plain pn i f -> entry_step pn pn' -> round pn pn' i f.
Proof.
  intros [Hid Hun Hfree] (t & u & p & w & Ht & Hu & Hl & Hti & Hpu & Hi1 & Ho1 & ->). destruct (Hfree p Hi1 Ho1) as [Hpi Hpf].
  assert (Hpt : pre t = [p]) by (unfold pre; rewrite Hti; auto). pose proof Hi1 as Hi1'. pose proof Ho1 as Ho1'.
  rewrite in_arcs_cnt in Hi1. rewrite out_arcs_cnt in Ho1.
  destruct (sum_one _ _ u Hi1 Hu) as [Hu1 Huo]; [apply cnt_in; auto|].
  destruct (sum_one _ _ t Ho1 Ht) as [Ht1 Hto]; [rewrite Hpt, cnt1; auto|].
  assert (Hprod : forall v, In v (n_trans pn) -> v <> u -> ~ In p (post v)) by (intros v Hv Hn Hp; apply cnt_in in Hp; rewrite (Huo v Hv Hn) in Hp; lia).
  assert (Hcons : forall v, In v (n_trans pn) -> v <> t -> ~ In p (pre v)) by (intros v Hv Hn Hp; apply cnt_in in Hp; rewrite (Hto v Hv Hn) in Hp; lia).
  destruct (tr_eq_dec u t) as [->|Hne].
  { rewrite no_id_absent by (intros v Hv; now apply no_id_in in Hv). eapply dead_round; eauto. rewrite Hpt. now left. }
  set (g := fun v : tr => Trans (t_id v) (t_label v) (t_in v) (drop_arc p (t_out v) ++ arcs (map fst (t_out t)))).
  pose proof (step_members (n_trans pn) t u g Hid Ht Hu Hne) as HM.
  assert (Hgpost : post (g u) = drop_place p (post u) ++ post t) by (unfold post, g; cbn; rewrite map_app, fst_drop, fst_arcs; auto).
  assert (Pt : cnt (post t) p = 0) by (apply cnt_notin, Hprod; auto).
  assert (Cp : cnt (post (g u)) p = 0) by (rewrite Hgpost, cnt_app, cnt_drop_same; lia).
  assert (Cq : forall q, q <> p -> cnt (post (g u)) q = cnt (post u) q + cnt (post t) q) by (intros q Hq; rewrite Hgpost, cnt_app, cnt_drop_other; auto).
  assert (Harcs : forall q pl, in_arcs (Net pl (on_id (t_id u) g (no_id (t_id t) (n_trans pn)))) q = (if Nat.eqb q p then 0 else in_arcs pn q) /\ out_arcs (Net pl (on_id (t_id u) g (no_id (t_id t) (n_trans pn)))) q = (if Nat.eqb q p then 0 else out_arcs pn q)).
  { intros q pl. rewrite !in_arcs_cnt, !out_arcs_cnt. cbn [n_trans]. pose proof (sum_step (fun t => cnt (post t) q) _ t u g Hid Ht Hu Hne) as A1. pose proof (sum_step (fun t => cnt (pre t) q) _ t u g Hid Ht Hu Hne) as A2.
    cbv beta in *. change (pre (g u)) with (pre u) in A2. rewrite Hpt in A2. destruct (Nat.eqb_spec q p) as [->|Hq].
    - rewrite cnt1 in A2. split; lia.
    - rewrite (cnt1_other p q Hq) in A2. rewrite (Cq q Hq) in A1. split; lia. }
  split; [|split; [|split; [|split]]]; cbn [n_trans].
  - apply (entry_refines (n_trans pn) _ i f t u (g u) p); auto. apply vis_silent; auto.
  - apply step_ids; auto.
  - intros v Hv. apply HM in Hv as [->|(Hv & _ & _)]; auto. destruct (Hun u Hu) as [E1 E2]. split; [exact E1|].
    rewrite Hgpost. unfold g. cbn. rewrite E2, drop_arcs. unfold arcs. rewrite map_app. reflexivity.
  - intros q. destruct (Harcs q (drop_place p (n_places pn))) as [A1 A2]. rewrite A1, A2. destruct (Nat.eqb q p); lia.
  - right. intros q. destruct (Harcs q (drop_place p (n_places pn))) as [A1 A2]. rewrite A1, A2. destruct (Nat.eqb q p); auto.
Qed.
Lemma exit_round pn pn' i f : plain pn i f -> exit_step pn pn' -> round pn pn' i f.
Proof.
  intros [Hid Hun Hfree] (t & u & p & w & Ht & Hu & Hl & Hti & Hpu & Hi1 & Ho1 & ->). destruct (Hfree p Hi1 Ho1) as [Hpi Hpf].
  assert (Hpt : post t = [p]) by (unfold post; rewrite Hti; auto).
  rewrite in_arcs_cnt in Hi1. rewrite out_arcs_cnt in Ho1.
  destruct (sum_one _ _ u Ho1 Hu) as [Hu1 Huo]; [apply cnt_in; auto|].
  destruct (sum_one _ _ t Hi1 Ht) as [Ht1 Hto]; [rewrite Hpt, cnt1; auto|].
  assert (Hprod : forall v, In v (n_trans pn) -> v <> t -> ~ In p (post v)) by (intros v Hv Hn Hp; apply cnt_in in Hp; rewrite (Hto v Hv Hn) in Hp; lia).
  assert (Hcons : forall v, In v (n_trans pn) -> v <> u -> ~ In p (pre v)) by (intros v Hv Hn Hp; apply cnt_in in Hp; rewrite (Huo v Hv Hn) in Hp; lia).
  destruct (tr_eq_dec u t) as [->|Hne].
  { rewrite no_id_absent by (intros v Hv; now apply no_id_in in Hv). eapply dead_round; eauto. }
  set (g := fun v : tr => Trans (t_id v) (t_label v) (drop_arc p (t_in v) ++ arcs (map fst (t_in t))) (t_out v)).
  pose proof (step_members (n_trans pn) t u g Hid Ht Hu Hne) as HM.
  assert (Hgpre : pre (g u) = drop_place p (pre u) ++ pre t) by (unfold pre, g; cbn; rewrite map_app, fst_drop, fst_arcs; auto).
  assert (Pt : cnt (pre t) p = 0) by (apply cnt_notin, Hcons; auto).
  assert (Cp : cnt (pre (g u)) p = 0) by (rewrite Hgpre, cnt_app, cnt_drop_same; lia).
  assert (Cq : forall q, q <> p -> cnt (pre (g u)) q = cnt (pre u) q + cnt (pre t) q) by (intros q Hq; rewrite Hgpre, cnt_app, cnt_drop_other; auto).
  assert (Harcs : forall q pl, in_arcs (Net pl (on_id (t_id u) g (no_id (t_id t) (n_trans pn)))) q = (if Nat.eqb q p then 0 else in_arcs pn q) /\ out_arcs (Net pl (on_id (t_id u) g (no_id (t_id t) (n_trans pn)))) q = (if Nat.eqb q p then 0 else out_arcs pn q)).
  { intros q pl. rewrite !in_arcs_cnt, !out_arcs_cnt. cbn [n_trans]. pose proof (sum_step (fun t => cnt (post t) q) _ t u g Hid Ht Hu Hne) as A1. pose proof (sum_step (fun t => cnt (pre t) q) _ t u g Hid Ht Hu Hne) as A2.
    cbv beta in *. change (post (g u)) with (post u) in A1. rewrite Hpt in A1. destruct (Nat.eqb_spec q p) as [->|Hq].
    - rewrite cnt1 in A1. split; lia.
    - rewrite (cnt1_other p q Hq) in A1. rewrite (Cq q Hq) in A2. split; lia. }
  split; [|split; [|split; [|split]]]; cbn [n_trans].
  - apply (exit_refines (n_trans pn) _ i f t u (g u) p); auto. apply vis_silent; auto.
  - apply step_ids; auto.
  - intros v Hv. apply HM in Hv as [->|(Hv & _ & _)]; auto. destruct (Hun u Hu) as [E1 E2]. split; [|exact E2].
    rewrite Hgpre. unfold g. cbn. rewrite E1, drop_arcs. unfold arcs. rewrite map_app. reflexivity.
  - intros q. destruct (Harcs q (drop_place p (n_places pn))) as [A1 A2]. rewrite A1, A2. destruct (Nat.eqb q p); lia.
  - right. intros q. destruct (Harcs q (drop_place p (n_places pn))) as [A1 A2]. rewrite A1, A2. destruct (Nat.eqb q p); auto.
Qed.

(** all rounds: either no transition is dead, or the marked places have no arcs in or no arcs out *)
Definition tame (pn : petri_net (option nat)) (i f : mk) : Prop :=
  (free pn i f /\ forall v, In v (n_trans pn) -> ~ dead (n_trans pn) i v) \/
  (forall p, in_arcs pn p <> 0 -> out_arcs pn p <> 0 -> i p = 0 /\ f p = 0).
Definition ready (pn : petri_net (option nat)) (i f : mk) : Prop :=
  NoDup (map t_id (n_trans pn)) /\ (forall t, In t (n_trans pn) -> unit1 t) /\ tame pn i f.
Lemma ready_plain pn i f : ready pn i f -> plain pn i f.
Proof. intros (H1 & H2 & H3). constructor; auto. destruct H3 as [[H _]|H]; [exact H|]. intros p A B. apply H; lia. Qed.
Lemma round_ready pn pn' i f : ready pn i f -> round pn pn' i f -> ready pn' i f.
Proof.
  intros (H1 & H2 & H3) (Hr & Hid & Hun & Hle & Hq). split; [exact Hid|]. split; [exact Hun|]. destruct H3 as [[Hf Hd]|Hm].
  - left. split.
    + intros q A1 A2. destruct Hq as [(v & Hv & Hx)|Hq]; [now apply Hd in Hv|]. destruct (Hq q) as [E|[E1 E2]]; [lia|]. apply Hf; congruence.
    + intros v' Hv' Hx. destruct (rf_live _ _ _ _ Hr v' Hv') as (v & Hv & _ & Hl). apply (Hd v Hv). intros w m Hrun He. destruct (Hl w m Hrun He) as (m' & Hrun' & He'). now apply (Hx w m' Hrun').
  - right. intros q A1 A2. specialize (Hle q). apply Hm; lia.
Qed.
Lemma star_refines (R : petri_net (option nat) -> petri_net (option nat) -> Prop) i f :
  (forall x y, plain x i f -> R x y -> round x y i f) -> forall x y, star R x y -> ready x i f -> refines (n_trans x) (n_trans y) i f /\ ready y i f.
Proof.
  intros HR x y H. induction H as [x|x y z Hxy H IH]; intros Hx; [split; [apply refines_refl|exact Hx]|].
  pose proof (HR x y (ready_plain _ _ _ Hx) Hxy) as Hro. destruct (IH (round_ready _ _ _ _ Hx Hro)) as [H1 H2]. split; [|exact H2]. eapply refines_trans; [apply Hro|exact H1].
Qed.
Lemma reduction_refines pn pn' i f : ready pn i f -> simple_reduction pn pn' -> refines (n_trans pn) (n_trans pn') i f /\ ready pn' i f.
Proof.
  intros H (pn1 & H1 & _ & H2 & _). destruct (star_refines entry_step i f (fun x y => entry_round x y i f) _ _ H1 H) as [R1 D1].
  destruct (star_refines exit_step i f (fun x y => exit_round x y i f) _ _ H2 D1) as [R2 D2]. split; [eapply refines_trans; eauto|exact D2].
Qed.
