(** Blocks: parallel composition, the silent frame around it. *)
From Coq Require Import List Arith Lia Bool Permutation.
Import ListNotations.
From Verif Require Import Model_Petri Model_Tree Spec_Tree Proofs_Shuffle Proofs_TreeFP Proofs_Block.

Lemma runs_split B m w m' : runs B m w m' -> forall u v, w = u ++ v -> exists m1, runs B m u m1 /\ runs B m1 v m'.
Proof.
  induction 1 as [n n' E|n w n1 t n2 H IH Ht Hf]; intros u v Ew.
  - symmetry in Ew. apply app_eq_nil in Ew as [-> ->]. exists n. split; [apply runs_refl|constructor; auto].
  - destruct (t_label t) as [a|] eqn:El.
    + unfold vis in Ew. rewrite El in Ew. destruct v as [|b v0] using rev_ind.
      * rewrite app_nil_r in Ew. exists n2. split; [|apply runs_refl]. rewrite <- Ew.
        pose proof (r_snoc B n w n1 t n2 H Ht Hf) as G. unfold vis in G. rewrite El in G. exact G.
      * clear IHv0. rewrite app_assoc in Ew. apply app_inj_tail in Ew as [Ew ->].
        destruct (IH _ _ Ew) as (m1 & H1 & H2). exists m1. split; auto.
        pose proof (r_snoc B m1 v0 n1 t n2 H2 Ht Hf) as G. unfold vis in G. rewrite El in G. exact G.
    + rewrite (vis_silent _ El), app_nil_r in Ew. destruct (IH _ _ Ew) as (m1 & H1 & H2). exists m1. split; auto.
      pose proof (r_snoc B m1 v n1 t n2 H2 Ht Hf) as G. rewrite (vis_silent _ El), app_nil_r in G. exact G.
Qed.
Lemma runs_shuffle B1 B2 w : forall n1 n2 w1 w2 m1 m2, runs B1 n1 w1 m1 -> runs B2 n2 w2 m2 -> shuffle [w1; w2] w ->
  runs (B1 ++ B2) (fun p => n1 p + n2 p) w (fun p => m1 p + m2 p).
Proof.
  assert (I1 : forall t, In t B1 -> In t (B1 ++ B2)) by (intros; apply in_or_app; auto).
  assert (I2 : forall t, In t B2 -> In t (B1 ++ B2)) by (intros; apply in_or_app; auto).
  assert (F1 : forall n u m r, runs B1 n u m -> runs (B1 ++ B2) (fun p => n p + r p) u (fun p => m p + r p)).
  { intros n u m r H. apply runs_frame. eapply runs_incl; eauto. }
  assert (F2 : forall n u m r, runs B2 n u m -> runs (B1 ++ B2) (fun p => r p + n p) u (fun p => r p + m p)).
  { intros n u m r H. apply runs_frame' with (m := n) (m' := m) (r := r); [eapply runs_incl; eauto| |]; intros; lia. }
  induction w as [|a w IH]; intros n1 n2 w1 w2 m1 m2 H1 H2 Hs; apply shuffle2_cases in Hs as
    [[-> Ew]|[[-> Ew]|[(b & u' & w' & -> & Ew & Hs)|(b & v' & w' & -> & Ew & Hs)]]]; try discriminate; subst.
  - apply (runs_app _ _ [] (fun p => m1 p + n2 p)); [apply F1; auto|apply F2; auto].
  - apply (runs_app _ _ [] (fun p => m1 p + n2 p)); [apply F1; auto|apply F2; auto].
  - apply (runs_app _ _ [] (fun p => m1 p + n2 p)); [apply F1; auto|apply F2; auto].
  - rewrite <- (app_nil_r (a :: w)). apply (runs_app _ _ _ (fun p => m1 p + n2 p)); [apply F1; auto|apply F2; auto].
  - inversion Ew; subst. destruct (runs_split _ _ _ _ H1 [b] u' eq_refl) as (k & Ha & Hb).
    apply (runs_app _ _ [b] (fun p => k p + n2 p)); [apply F1; auto|]. eapply IH; eauto.
  - inversion Ew; subst. destruct (runs_split _ _ _ _ H2 [b] v' eq_refl) as (k & Ha & Hb).
    apply (runs_app _ _ [b] (fun p => n1 p + k p)); [apply F2; auto|]. eapply IH; eauto.
Qed.
Lemma shuffle2_vis_l t u v w : shuffle [u; v] w -> shuffle [u ++ vis t; v] (w ++ vis t).
Proof.
  intros H. unfold vis. destruct (t_label t) as [a|]; [|rewrite !app_nil_r; auto]. apply (shuffle_snoc [] u [v] w a). exact H.
Qed.
Lemma shuffle2_vis_r t u v w : shuffle [u; v] w -> shuffle [u; v ++ vis t] (w ++ vis t).
Proof. intros H. apply shuffle2_sym, shuffle2_vis_l, shuffle2_sym, H. Qed.

Section Par.
Variable Q : Prop.
Notation block := (block Q).
Definition local (S : nat -> Prop) (I F : list nat) : Prop := (forall p, In p I -> S p) /\ (forall p, In p F -> S p).

Lemma local_support B (S : nat -> Prop) I F L m w p : block B S I F L -> local S I F -> runs B (cnt I) w m -> ~ S p -> m p = 0.
Proof. intros HB [H1 H2] Hr Hp. eapply support0; eauto. Qed.
Lemma local_pre B (S : nat -> Prop) I F L t p : block B S I F L -> local S I F -> In t B -> In p (pre t) -> S p.
Proof. intros HB [H1 H2] Ht Hp. destruct (b_pre HB _ Ht) as [_ H]. destruct (H p Hp); auto. Qed.
Lemma local_post B (S : nat -> Prop) I F L t p : block B S I F L -> local S I F -> In t B -> In p (post t) -> S p.
Proof. intros HB [H1 H2] Ht Hp. destruct (b_post HB _ Ht) as [_ H]. destruct (H p Hp); auto. Qed.

Lemma block_par B1 B2 (S1 S2 : nat -> Prop) I1 I2 F1 F2 L1 L2 : block B1 S1 I1 F1 L1 -> block B2 S2 I2 F2 L2 ->
  local S1 I1 F1 -> local S2 I2 F2 -> (forall p, S1 p -> S2 p -> False) ->
  block (B1 ++ B2) (fun p => S1 p \/ S2 p) (I1 ++ I2) (F1 ++ F2) (fun w => exists u v, L1 u /\ L2 v /\ shuffle [u; v] w).
Proof.
  intros H1 H2 Lo1 Lo2 Hd.
  assert (J1 : forall t, In t B1 -> In t (B1 ++ B2)) by (intros; apply in_or_app; auto).
  assert (J2 : forall t, In t B2 -> In t (B1 ++ B2)) by (intros; apply in_or_app; auto).
  assert (Z1 : forall m w p, runs B1 (cnt I1) w m -> 1 <= m p -> S1 p).
  { intros m w p Hr Hp. destruct Lo1. destruct (support _ _ _ _ _ _ _ _ p H1 Hr Hp) as [?|[?|?]]; auto. }
  assert (Z2 : forall m w p, runs B2 (cnt I2) w m -> 1 <= m p -> S2 p).
  { intros m w p Hr Hp. destruct Lo2. destruct (support _ _ _ _ _ _ _ _ p H2 Hr Hp) as [?|[?|?]]; auto. }
  assert (X1 : forall m1 m2 w1 w2 p, runs B1 (cnt I1) w1 m1 -> runs B2 (cnt I2) w2 m2 -> m1 p = 0 \/ m2 p = 0).
  { intros m1 m2 w1 w2 p Hr1 Hr2. destruct (m1 p) eqn:E1; auto. destruct (m2 p) eqn:E2; auto. exfalso. apply (Hd p).
    - eapply Z1; eauto. lia.
    - eapply Z2; eauto. lia. }
  assert (HI : forall m w, runs (B1 ++ B2) (cnt (I1 ++ I2)) w m -> exists m1 m2 w1 w2,
     runs B1 (cnt I1) w1 m1 /\ runs B2 (cnt I2) w2 m2 /\ (forall p, m p = m1 p + m2 p) /\ shuffle [w1; w2] w).
  { apply runs_inv.
    - intros m m' w E (m1 & m2 & w1 & w2 & Hr1 & Hr2 & Em & Hs). exists m1, m2, w1, w2. do 2 (split; [assumption|]). split; [|assumption].
      intros p. rewrite <- E. auto.
    - exists (cnt I1), (cnt I2), [], []. do 2 (split; [apply runs_refl|]). split; [intros p; apply cnt_app|apply shuffle2_nil_l].
    - intros m w t m' (m1 & m2 & w1 & w2 & Hr1 & Hr2 & Em & Hs) Ht [Hf1 Hf2]. apply in_app_or in Ht as [Ht|Ht].
      + assert (He : forall p, cnt (pre t) p <= m1 p).
        { intros p. destruct (Nat.eq_dec (cnt (pre t) p) 0) as [E|E]; [lia|].
          assert (Hp : S1 p) by (eapply local_pre; eauto; apply cnt_in; lia).
          assert (m2 p = 0) by (destruct (m2 p) eqn:E2; auto; exfalso; apply (Hd p); auto; eapply Z2; eauto; lia).
          specialize (Hf1 p). rewrite Em in Hf1. lia. }
        exists (after t m1), m2, (w1 ++ vis t), w2. split; [eapply r_snoc; eauto; apply fire_after; auto|].
        split; [assumption|]. split; [|apply shuffle2_vis_l; auto]. intros p. unfold after. specialize (Hf2 p). specialize (He p). rewrite Em in Hf2. lia.
      + assert (He : forall p, cnt (pre t) p <= m2 p).
        { intros p. destruct (Nat.eq_dec (cnt (pre t) p) 0) as [E|E]; [lia|].
          assert (Hp : S2 p) by (eapply local_pre; eauto; apply cnt_in; lia).
          assert (m1 p = 0) by (destruct (m1 p) eqn:E2; auto; exfalso; apply (Hd p); auto; eapply Z1; eauto; lia).
          specialize (Hf1 p). rewrite Em in Hf1. lia. }
        exists m1, (after t m2), w1, (w2 ++ vis t). split; [assumption|]. split; [eapply r_snoc; eauto; apply fire_after; auto|].
        split; [|apply shuffle2_vis_r; auto]. intros p. unfold after. specialize (Hf2 p). specialize (He p). rewrite Em in Hf2. lia. }
  assert (GA : forall n1 n2 w1 w2 m1 m2 n m w, runs B1 n1 w1 m1 -> runs B2 n2 w2 m2 -> shuffle [w1; w2] w ->
     (forall p, n p = n1 p + n2 p) -> (forall p, m p = m1 p + m2 p) -> runs (B1 ++ B2) n w m).
  { intros. eapply runs_ext_r; [eapply runs_ext_l; [eapply runs_shuffle; eauto|]|]; cbn; auto. }
  constructor.
  - intros t Ht. apply in_app_or in Ht as [Ht|Ht]; [destruct (b_pre H1 _ Ht) as [? H]|destruct (b_pre H2 _ Ht) as [? H]];
      split; auto; intros p Hp; destruct (H p Hp); auto; left; apply in_or_app; auto.
  - intros t Ht. apply in_app_or in Ht as [Ht|Ht]; [destruct (b_post H1 _ Ht) as [? H]|destruct (b_post H2 _ Ht) as [? H]];
      split; auto; intros p Hp; destruct (H p Hp); auto; left; apply in_or_app; auto.
  - intros m w H Hm. destruct (HI _ _ H) as (m1 & m2 & w1 & w2 & Hr1 & Hr2 & Em & Hs).
    destruct (b_sound H1 _ _ Hr1) as [E1 HL1].
    { intros p. destruct (Nat.eq_dec (cnt F1 p) 0) as [E|E]; [lia|].
      assert (Hp : S1 p) by (apply (proj2 Lo1); apply cnt_in; lia).
      assert (m2 p = 0) by (destruct (m2 p) eqn:E2; auto; exfalso; apply (Hd p); auto; eapply Z2; eauto; lia).
      specialize (Hm p). rewrite Em, cnt_app in Hm. lia. }
    destruct (b_sound H2 _ _ Hr2) as [E2 HL2].
    { intros p. destruct (Nat.eq_dec (cnt F2 p) 0) as [E|E]; [lia|].
      assert (Hp : S2 p) by (apply (proj2 Lo2); apply cnt_in; lia).
      assert (m1 p = 0) by (destruct (m1 p) eqn:E2; auto; exfalso; apply (Hd p); auto; eapply Z1; eauto; lia).
      specialize (Hm p). rewrite Em, cnt_app in Hm. lia. }
    split; [|eauto]. intros p. rewrite Em, cnt_app, E1, E2. auto.
  - intros w (u & v & Hu & Hv & Hs). apply (b_complete H1) in Hu. apply (b_complete H2) in Hv.
    eapply GA; eauto; intros p; apply cnt_app.
  - intros m w p H. destruct (HI _ _ H) as (m1 & m2 & w1 & w2 & Hr1 & Hr2 & Em & Hs). rewrite Em.
    pose proof (b_safe H1 _ _ p Hr1). pose proof (b_safe H2 _ _ p Hr2). destruct (X1 _ _ _ _ p Hr1 Hr2); lia.
  - intros qq t Ht. apply in_app_or in Ht as [Ht|Ht].
    + destruct (b_live H1 qq _ Ht) as (w & m & Hr & He). exists w, (fun p => m p + cnt I2 p). split; [|intros p; specialize (He p); lia].
      eapply (GA (cnt I1) (cnt I2) w []); eauto using runs_refl, shuffle2_nil_r. intros p; apply cnt_app.
    + destruct (b_live H2 qq _ Ht) as (w & m & Hr & He). exists w, (fun p => cnt I1 p + m p). split; [|intros p; specialize (He p); lia].
      eapply (GA (cnt I1) (cnt I2) [] w); eauto using runs_refl, shuffle2_nil_l. intros p; apply cnt_app.
  - intros t q Ht Hq. apply in_app_or in Ht as [Ht|Ht].
    + destruct (b_mark H1 _ _ Ht Hq) as (w & m & Hr & He). exists w, (fun p => m p + cnt I2 p). split; [|lia].
      eapply (GA (cnt I1) (cnt I2) w []); eauto using runs_refl, shuffle2_nil_r. intros p; apply cnt_app.
    + destruct (b_mark H2 _ _ Ht Hq) as (w & m & Hr & He). exists w, (fun p => cnt I1 p + m p). split; [|lia].
      eapply (GA (cnt I1) (cnt I2) [] w); eauto using runs_refl, shuffle2_nil_l. intros p; apply cnt_app.
  - intros m w H. destruct (HI _ _ H) as (m1 & m2 & w1 & w2 & Hr1 & Hr2 & Em & Hs).
    destruct (b_opt H1 _ _ Hr1) as (u & Hu & HLu). destruct (b_opt H2 _ _ Hr2) as (v & Hv & HLv).
    exists (u ++ v). split.
    + eapply (GA m1 m2 u v); eauto using shuffle2_conc. intros p; apply cnt_app.
    + exists (w1 ++ u), (w2 ++ v). do 2 (split; [assumption|]). apply shuffle2_app; auto. apply shuffle2_conc.
Qed.

(** a silent transition in front of and behind a block *)
Lemma block_frame B (S : nat -> Prop) I F L x y i f : block B S I F L -> local S I F -> I <> [] -> F <> [] ->
  pre x = [i] -> post x = I -> vis x = [] -> pre y = F -> post y = [f] -> vis y = [] ->
  i <> f -> ~ S i -> ~ S f -> block (x :: y :: B) S [i] [f] L.
Proof.
  intros HB Lo HIn HFn X1 X2 X3 Y1 Y2 Y3 Hif Hi Hf. set (B' := x :: y :: B).
  assert (J : forall t, In t B -> In t B') by (intros; right; right; auto).
  assert (Jx : In x B') by (left; auto). assert (Jy : In y B') by (right; left; auto).
  assert (Z : forall m w p, runs B (cnt I) w m -> 1 <= m p -> S p).
  { intros m w p Hr Hp. destruct Lo. destruct (support _ _ _ _ _ _ _ _ p HB Hr Hp) as [?|[?|?]]; auto. }
  assert (HI : forall m w, runs B' (cnt [i]) w m -> (w = [] /\ forall p, m p = cnt [i] p) \/ runs B (cnt I) w m \/ (L w /\ forall p, m p = cnt [f] p)).
  { apply runs_inv.
    - intros m m' w E [[-> H]|[H|[Hw H]]].
      + left. split; auto. intros p. rewrite <- E. auto.
      + right; left. eapply runs_ext_r; eauto.
      + right; right. split; auto. intros p. rewrite <- E. auto.
    - left. auto.
    - intros m w t m' HS Ht Hfi. pose proof (proj1 Hfi) as He. destruct HS as [[-> H]|[H|[Hw H]]], Ht as [<-|[<-|Ht]].
      + right; left. rewrite X3. constructor. intros p. symmetry. apply (fire_from x m m' [i] I); auto.
      + exfalso. destruct F as [|q F]; [congruence|]. assert (Hq : 1 <= m q) by (apply (need _ _ _ He); rewrite Y1; left; auto).
        apply (cnt1_in _ _ _ H) in Hq. subst q. apply Hi, (proj2 Lo). left; auto.
      + exfalso. destruct (enabled_place _ _ _ _ _ _ _ _ HB Ht He) as (p & Hp & Hm & _). apply (cnt1_in _ _ _ H) in Hm. subst p.
        apply Hi. eapply local_pre; eauto.
      + exfalso. apply Hi. eapply Z; [exact H|]. apply (need _ _ _ He). rewrite X1; left; auto.
      + destruct (b_sound HB _ _ H) as [E HL]; [rewrite <- Y1; auto|]. right; right. rewrite Y3, app_nil_r. split; auto.
        apply (fire_from y m m' F [f]); auto.
      + right; left. eapply r_snoc; eauto.
      + exfalso. apply Hif. eapply cnt1_in; [exact H|]. apply (need _ _ _ He). rewrite X1; left; auto.
      + exfalso. destruct F as [|q F]; [congruence|]. assert (Hq : 1 <= m q) by (apply (need _ _ _ He); rewrite Y1; left; auto).
        apply (cnt1_in _ _ _ H) in Hq. subst q. apply Hf, (proj2 Lo). left; auto.
      + exfalso. destruct (enabled_place _ _ _ _ _ _ _ _ HB Ht He) as (p & Hp & Hm & _). apply (cnt1_in _ _ _ H) in Hm. subst p.
        apply Hf. eapply local_pre; eauto. }
  assert (Gx : runs B' (cnt [i]) [] (cnt I)) by (apply (silent_run B' x); auto; apply fire_exact; auto).
  assert (Gy : runs B' (cnt F) [] (cnt [f])) by (apply (silent_run B' y); auto; apply fire_exact; auto).
  assert (Gc : forall w, L w -> runs B' (cnt I) w (cnt [f])).
  { intros w Hw. apply (b_complete HB) in Hw. rewrite <- (app_nil_r w). eapply runs_app; [eapply runs_incl; eauto|exact Gy]. }
  destruct (b_inh _ _ _ _ _ _ HB) as (w0 & Hw0).
  constructor.
  - intros t [<-|[<-|Ht]]; rewrite ?X1, ?Y1.
    + split; [discriminate|auto].
    + split; auto. intros p Hp. right. apply (proj2 Lo); auto.
    + split; [apply (b_pre HB _ Ht)|]. intros p Hp. right. eapply local_pre; eauto.
  - intros t [<-|[<-|Ht]]; rewrite ?X2, ?Y2.
    + split; auto. intros p Hp. right. apply (proj1 Lo); auto.
    + split; [discriminate|auto].
    + split; [apply (b_post HB _ Ht)|]. intros p Hp. right. eapply local_post; eauto.
  - intros m w H Hm. assert (Hmf : 1 <= m f) by (specialize (Hm f); rewrite cnt1 in Hm; lia).
    destruct (HI _ _ H) as [[-> H']|[H'|[Hw H']]]; [exfalso..|auto].
    + apply (cnt1_in _ _ _ H') in Hmf. auto.
    + apply Hf. eapply Z; eauto.
  - intros w Hw. apply (runs_app B' _ [] (cnt I) w); auto.
  - intros m w p H. destruct (HI _ _ H) as [[-> H']|[H'|[Hw H']]].
    + rewrite H'. cbn. eqbs; lia.
    + eapply (b_safe HB); eauto.
    + rewrite H'. cbn. eqbs; lia.
  - intros qq t [<-|[<-|Ht]].
    + exists [], (cnt [i]). split; [apply runs_refl|]. rewrite X1. auto.
    + exists ([] ++ w0), (cnt F). rewrite Y1. split; auto. eapply runs_app; [exact Gx|]. apply (b_complete HB) in Hw0. eapply runs_incl; eauto.
    + destruct (b_live HB qq _ Ht) as (w & m & Hr & He). exists ([] ++ w), m. split; auto. eapply runs_app; [exact Gx|]. eapply runs_incl; eauto.
  - intros t p [<-|[<-|Ht]] Hp.
    + exists [], (cnt [i]). split; [apply runs_refl|]. rewrite X1 in Hp. destruct Hp as [<-|[]]. rewrite cnt1. auto.
    + exists ([] ++ w0), (cnt F). rewrite Y1 in Hp. split; [|apply cnt_in; auto].
      eapply runs_app; [exact Gx|]. apply (b_complete HB) in Hw0. eapply runs_incl; eauto.
    + destruct (b_mark HB _ _ Ht Hp) as (w & m & Hr & He). exists ([] ++ w), m. split; auto. eapply runs_app; [exact Gx|]. eapply runs_incl; eauto.
  - intros m w H. destruct (HI _ _ H) as [[-> H']|[H'|[Hw H']]].
    + exists ([] ++ w0). split; [|exact Hw0]. eapply runs_app; [eapply runs_ext_l; [exact Gx|auto]|auto].
    + destruct (b_opt HB _ _ H') as (w' & Hr' & Hl). exists (w' ++ []). split; [|rewrite app_nil_r; auto].
      eapply runs_app; [eapply runs_incl; eauto|exact Gy].
    + exists []. rewrite app_nil_r. split; auto. constructor. auto.
Qed.
End Par.
