(** The Alpha Miner computes the maximal pairs. *)
From Coq Require Import List Arith Lia Bool Permutation ZArith.
Import ListNotations.
From Verif Require Import Model_Petri Model_Dict Proofs_Dict Model_Dfg Proofs_Dfg Model_Footprints Proofs_Footprints Model_Alpha Spec_Alpha.
Local Open Scope nat_scope.

Definition same (p q : pair_sets) : Prop := (forall x, In x (fst p) <-> In x (fst q)) /\ (forall x, In x (snd p) <-> In x (snd q)).
Lemma subset_iff a b : subset a b = true <-> incl a b.
Proof. unfold subset, incl. rewrite forallb_forall. split; intros H x Hx; [apply isin_in, H, Hx|apply isin_in, H, Hx]. Qed.
Lemma set_eq_iff a b : set_eq a b = true <-> forall x, In x a <-> In x b.
Proof. unfold set_eq. rewrite andb_true_iff, !subset_iff. unfold incl. split; [intros [H1 H2] x; split; auto|]. intros H. split; intros x; apply H. Qed.
Lemma pair_eq_iff p q : pair_eq p q = true <-> same p q.
Proof. unfold pair_eq, same. rewrite andb_true_iff, !set_eq_iff. reflexivity. Qed.
Lemma same_refl p : same p p. Proof. split; intros; tauto. Qed.
Lemma same_sym p q : same p q -> same q p. Proof. intros [H1 H2]. split; intros x; [rewrite H1|rewrite H2]; reflexivity. Qed.
Lemma same_trans p q r : same p q -> same q r -> same p r.
Proof. intros [H1 H2] [H3 H4]. split; intros x; [rewrite H1; apply H3|rewrite H2; apply H4]. Qed.
Lemma pair_in_iff p l : pair_in p l = true <-> exists q, In q l /\ same p q.
Proof. unfold pair_in. rewrite existsb_exists. split; intros (q & Hq & H); exists q; (split; [exact Hq|apply pair_eq_iff, H]). Qed.
Lemma pair_eq_dec p q : same p q \/ ~ same p q.
Proof. rewrite <- pair_eq_iff. destruct (pair_eq p q); auto. Qed.

Section Rel.
  Context (df : nat -> nat -> Prop) (par cau : list (nat * nat)).
  Context (Hpar : forall a b, In (a, b) par <-> df a b /\ df b a) (Hcau : forall a b, In (a, b) cau <-> df a b /\ ~ df b a).
  Context (Hdec : forall a b, df a b \/ ~ df a b).
  Let valid (p : pair_sets) : Prop := alpha_pair df (fst p) (snd p).

  Lemma unrel_iff s1 s2 : check_is_unrelated par cau s1 s2 = false <-> forall a b, In a s1 -> In b s2 -> choice df a b.
  Proof.
    unfold check_is_unrelated. rewrite <- not_true_iff_false, existsb_exists. split.
    - intros H a b Ha Hb. assert (Hr : ~ df a b /\ ~ df b a); [|exact Hr]. split; intros Hd; apply H.
      + exists (a, b). split; [apply in_or_app; left; now apply in_prod|]. rewrite orb_true_iff, !isin_in, Hpar, Hcau. destruct (Hdec b a); tauto.
      + exists (b, a). split; [apply in_or_app; right; now apply in_prod|]. rewrite orb_true_iff, !isin_in, Hpar, Hcau. destruct (Hdec a b); tauto.
    - intros H ([a b] & Hin & Hr). rewrite orb_true_iff, !isin_in, Hpar, Hcau in Hr.
      apply in_app_or in Hin as [Hin|Hin]; apply in_prod_iff in Hin as [Ha Hb]; [destruct (H a b Ha Hb)|destruct (H b a Hb Ha)]; tauto.
  Qed.
  Lemma causal_iff s1 s2 : check_all_causal cau s1 s2 = true <-> forall a b, In a s1 -> In b s2 -> causal df a b.
  Proof.
    unfold check_all_causal. rewrite forallb_forall. split.
    - intros H a b Ha Hb. apply Hcau. apply (proj1 (isin_in _ _)). apply H. now apply in_prod.
    - intros H [a b] Hin. apply in_prod_iff in Hin as [Ha Hb]. apply isin_in, Hcau. now apply H.
  Qed.
  Lemma same_valid p q : same p q -> valid p -> valid q.
  Proof.
    intros [H1 H2] (Ha & Hb & Hc & HA & HB). unfold valid. repeat split.
    - intros E. apply Ha. destruct (fst p) as [|x l]; [reflexivity|]. assert (In x (fst q)) by (apply H1; now left). rewrite E in *. contradiction.
    - intros E. apply Hb. destruct (snd p) as [|x l]; [reflexivity|]. assert (In x (snd q)) by (apply H2; now left). rewrite E in *. contradiction.
    - apply Hc; [apply H1|apply H2]; auto.
    - apply Hc; [apply H1|apply H2]; auto.
    - apply HA; apply H1; auto.
    - apply HA; apply H1; auto.
    - apply HB; apply H2; auto.
    - apply HB; apply H2; auto.
  Qed.
  Definition join (t1 t2 : pair_sets) : pair_sets := (union (fst t1) (fst t2), union (snd t1) (snd t2)).
  Lemma choice_sym a b : choice df a b -> choice df b a. Proof. unfold choice. tauto. Qed.

  (** what a merge may add *)
  Lemma merge_valid t1 pairs t2 : valid t1 -> valid t2 -> (forall p, In p pairs -> valid p) -> forall p, In p (merge par cau t1 pairs t2) -> valid p.
  Proof.
    intros (Ha & Hb & Hc & HA & HB) (Ha' & Hb' & Hc' & HA' & HB') Hp p. unfold merge. cbv zeta. destruct (_ && _) eqn:E; [|apply Hp].
    rewrite in_app_iff. intros [H|[<-|[]]]; [now apply Hp|].
    rewrite !andb_true_iff, !negb_true_iff, orb_false_iff in E. destruct E as ((((_ & _) & HU1 & HU2) & _) & HC).
    rewrite unrel_iff in HU1, HU2. rewrite causal_iff in HC. unfold valid. cbn [fst snd] in *. unfold alpha_pair. split; [|split; [|split; [|split]]].
    - intros E. destruct (fst t1) as [|x l]; [congruence|]. assert (H : In x (union (x :: l) (fst t2))) by (apply union_in; left; now left). rewrite E in H. contradiction.
    - intros E. destruct (snd t1) as [|x l]; [congruence|]. assert (H : In x (union (x :: l) (snd t2))) by (apply union_in; left; now left). rewrite E in H. contradiction.
    - exact HC.
    - intros a a' H H'. apply union_in in H, H'. destruct H as [H|H], H' as [H'|H']; auto. apply choice_sym. auto.
    - intros a a' H H'. apply union_in in H, H'. destruct H as [H|H], H' as [H'|H']; auto. apply choice_sym. auto.
  Qed.
  Lemma merge_distinct t1 pairs t2 : ForallOrdPairs (fun p q => ~ same p q) pairs -> ForallOrdPairs (fun p q => ~ same p q) (merge par cau t1 pairs t2).
  Proof.
    intros H. unfold merge. cbv zeta. destruct (_ && _) eqn:E; [|exact H]. rewrite !andb_true_iff, !negb_true_iff in E. destruct E as ((_ & Hn) & _).
    assert (Hn' : forall q, In q pairs -> ~ same q (join t1 t2)).
    { intros q Hq Hs. apply not_true_iff_false in Hn. apply Hn, pair_in_iff. exists q. split; [exact Hq|apply same_sym, Hs]. }
    clear Hn. fold (join t1 t2). induction H as [|p l Hf H IH]; [repeat constructor|]. cbn. constructor.
    - rewrite Forall_app. split; [exact Hf|]. constructor; [apply Hn'; now left|constructor].
    - apply IH. intros q Hq. apply Hn'. now right.
  Qed.
  Lemma merge_ext t1 pairs t2 : exists e, merge par cau t1 pairs t2 = pairs ++ e.
  Proof. unfold merge. cbv zeta. destruct (_ && _); [eexists; reflexivity|exists []; now rewrite app_nil_r]. Qed.
  Lemma fold_merge_ext t1 ts : forall pairs, exists e, fold_left (merge par cau t1) ts pairs = pairs ++ e.
  Proof.
    induction ts as [|t ts IH]; intros pairs; [exists []; now rewrite app_nil_r|]. cbn [fold_left]. destruct (merge_ext t1 pairs t) as (e & ->).
    destruct (IH (pairs ++ e)) as (e' & ->). exists (e ++ e'). now rewrite app_assoc.
  Qed.
  (** a merge that is possible is found *)
  Lemma merge_finds t1 t2 pairs : valid t1 -> valid t2 -> ~ same t1 t2 -> incl (fst t1) (fst t2) \/ incl (snd t1) (snd t2) -> valid (join t1 t2) ->
    exists y, In y (merge par cau t1 pairs t2) /\ same (join t1 t2) y.
  Proof.
    intros V1 V2 Hn Hs (Ha & Hb & Hc & HA & HB). unfold merge. cbv zeta. fold (join t1 t2). destruct (pair_in (join t1 t2) pairs) eqn:E.
    - apply pair_in_iff in E as (y & Hy & Hsm). exists y. split; [|exact Hsm]. rewrite andb_false_r. exact Hy.
    - assert (Hcond : negb (pair_eq t1 t2) && (subset (fst t1) (fst t2) || subset (snd t1) (snd t2)) &&
        negb (check_is_unrelated par cau (fst t1) (fst t2) || check_is_unrelated par cau (snd t1) (snd t2)) && negb false &&
        check_all_causal cau (fst (join t1 t2)) (snd (join t1 t2)) = true).
      { rewrite !andb_true_iff, !negb_true_iff, !orb_true_iff, !orb_false_iff, !subset_iff. split; [split; [split; [split|]|]|]; auto.
        - apply not_true_iff_false. rewrite pair_eq_iff. exact Hn.
        - rewrite !unrel_iff. unfold join in HA, HB. cbn [fst snd] in HA, HB. split; intros a b H1 H2; [apply HA|apply HB]; apply union_in; auto.
        - apply causal_iff. exact Hc. }
      rewrite Hcond. exists (join t1 t2). split; [apply in_or_app; right; now left|apply same_refl].
  Qed.
  Lemma fold_merge_finds t1 t2 ts : In t2 ts -> valid t1 -> valid t2 -> ~ same t1 t2 -> incl (fst t1) (fst t2) \/ incl (snd t1) (snd t2) -> valid (join t1 t2) ->
    forall pairs, exists y, In y (fold_left (merge par cau t1) ts pairs) /\ same (join t1 t2) y.
  Proof.
    intros Hin V1 V2 Hn Hs V. induction ts as [|t ts IH]; [contradiction|]. intros pairs. cbn [fold_left]. destruct Hin as [->|Hin]; [|now apply IH].
    destruct (merge_finds t1 t2 pairs V1 V2 Hn Hs V) as (y & Hy & Hsm). destruct (fold_merge_ext t1 ts (merge par cau t1 pairs t2)) as (e & ->).
    exists y. split; [apply in_or_app; now left|exact Hsm].
  Qed.

  (** the outer loop as a recursion over the original pairs *)
  Fixpoint loop (todo done extra : list pair_sets) : list pair_sets :=
    match todo with
    | [] => done ++ extra
    | t1 :: r => let ps := fold_left (merge par cau t1) (todo ++ extra) (done ++ todo ++ extra) in
                 loop r (done ++ [t1]) (skipn (length (done ++ todo)) ps)
    end.
  Lemma loop_eq todo : forall done extra,
    fold_left (merge_with par cau) (seq (length done) (length todo)) (done ++ todo ++ extra) = loop todo done extra.
  Proof.
    induction todo as [|t1 r IH]; intros done extra; [reflexivity|]. cbn [length seq fold_left loop]. unfold merge_with at 2.
    rewrite nth_error_app2 by lia. rewrite Nat.sub_diag. cbn [nth_error app]. rewrite skipn_app, skipn_all, Nat.sub_diag. cbn [skipn app].
    destruct (fold_merge_ext t1 (t1 :: r ++ extra) (done ++ t1 :: r ++ extra)) as (e & E). rewrite E.
    replace (S (length done)) with (length (done ++ [t1])) by (rewrite app_length; cbn; lia).
    assert (Es : done ++ t1 :: r ++ extra = (done ++ t1 :: r) ++ extra) by (rewrite <- app_assoc; reflexivity). rewrite Es, <- (app_assoc (done ++ t1 :: r)).
    rewrite skipn_app, skipn_all, Nat.sub_diag. cbn [skipn app].
    replace ((done ++ t1 :: r) ++ extra ++ e) with ((done ++ [t1]) ++ r ++ extra ++ e) by (rewrite <- !app_assoc; reflexivity). apply IH.
  Qed.
  Lemma loop_inv (P : list pair_sets -> Prop) todo : forall done extra, (forall p, In p (done ++ todo ++ extra) -> valid p) -> P (done ++ todo ++ extra) ->
    (forall t1 pairs t2, P pairs -> P (merge par cau t1 pairs t2)) -> P (loop todo done extra) /\ (forall p, In p (loop todo done extra) -> valid p).
  Proof.
    induction todo as [|t1 r IH]; intros done extra Hv HP Hstep; [split; assumption|]. cbn [loop]. cbv zeta.
    assert (G : P (fold_left (merge par cau t1) ((t1 :: r) ++ extra) (done ++ (t1 :: r) ++ extra)) /\
      (forall p, In p (fold_left (merge par cau t1) ((t1 :: r) ++ extra) (done ++ (t1 :: r) ++ extra)) -> valid p)).
    { assert (V1 : valid t1) by (apply Hv, in_or_app; right; now left).
      assert (Vs : forall p, In p ((t1 :: r) ++ extra) -> valid p) by (intros p Hp; apply Hv, in_or_app; now right).
      revert HP Hv. generalize (done ++ (t1 :: r) ++ extra). generalize dependent ((t1 :: r) ++ extra). intros ts Vs. clear -Hstep V1 Vs Hpar Hcau Hdec.
      induction ts as [|t ts IHt]; intros ps HP Hv; [auto|]. cbn [fold_left]. apply IHt; [intros p Hp; apply Vs; now right|now apply Hstep|].
      apply merge_valid; [exact V1|apply Vs; now left|exact Hv]. }
    destruct (fold_merge_ext t1 ((t1 :: r) ++ extra) (done ++ (t1 :: r) ++ extra)) as (e & E). rewrite E in *.
    assert (Es : (done ++ [t1]) ++ r ++ skipn (length (done ++ t1 :: r)) ((done ++ (t1 :: r) ++ extra) ++ e) = (done ++ (t1 :: r) ++ extra) ++ e).
    { rewrite !app_assoc, <- (app_assoc (done ++ t1 :: r)), skipn_app, skipn_all, Nat.sub_diag. cbn [skipn app]. rewrite <- !app_assoc. reflexivity. }
    apply IH; [rewrite Es; apply G|rewrite Es; apply G|exact Hstep].
  Qed.
  Lemma loop_keeps todo : forall done extra p, In p (done ++ todo ++ extra) -> In p (loop todo done extra).
  Proof.
    induction todo as [|t1 r IH]; intros done extra p Hp; [exact Hp|]. cbn [loop]. cbv zeta.
    destruct (fold_merge_ext t1 ((t1 :: r) ++ extra) (done ++ (t1 :: r) ++ extra)) as (e & ->). apply IH.
    replace ((done ++ (t1 :: r) ++ extra) ++ e) with ((done ++ t1 :: r) ++ extra ++ e) by (rewrite <- !app_assoc; reflexivity).
    rewrite skipn_app, skipn_all, Nat.sub_diag. cbn [skipn app]. rewrite !in_app_iff in *. cbn [In] in *. rewrite ?in_app_iff in *. cbn [In] in *.
    change (skipn 0 (extra ++ e)) with (extra ++ e). rewrite in_app_iff. tauto.
  Qed.

  (** ** Completeness *)
  Section Target.
    Context (A B : list nat) (HV : alpha_pair df A B).
    Definition single (p : pair_sets) : Prop := exists a b, p = ([a], [b]).
    Definition inside (p : pair_sets) : Prop := incl (fst p) A /\ incl (snd p) B.
    Lemma sub_valid p : inside p -> fst p <> [] -> snd p <> [] -> valid p.
    Proof. intros [H1 H2] N1 N2. destruct HV as (_ & _ & Hc & HA & HB). unfold valid, alpha_pair. split; [exact N1|]. split; [exact N2|]. split; [|split]; intros a b Ha Hb; [apply Hc|apply HA|apply HB]; auto. Qed.
    Lemma join_in1 t1 t2 x : In x (fst (join t1 t2)) <-> In x (fst t1) \/ In x (fst t2). Proof. apply union_in. Qed.
    Lemma join_in2 t1 t2 x : In x (snd (join t1 t2)) <-> In x (snd t1) \/ In x (snd t2). Proof. apply union_in. Qed.
    Lemma join_inside t1 t2 : inside t1 -> inside t2 -> inside (join t1 t2).
    Proof. intros [H1 H2] [H3 H4]. split; intros x Hx; [apply join_in1 in Hx as [Hx|Hx]|apply join_in2 in Hx as [Hx|Hx]]; auto. Qed.

    Context (a1 b1 : nat) (Ha1 : In a1 A) (Hb1 : In b1 B).
    Lemma grow_phase todo : (forall p, In p todo -> single p) -> forall done extra X, (forall p, In p done -> single p) -> In X extra -> inside X ->
      In a1 (fst X) -> In b1 (snd X) -> (exists c, In c (fst X) /\ c <> a1 \/ In c (snd X) /\ c <> b1) ->
      exists Y, In Y (loop todo done extra) /\ inside Y /\ incl (fst X) (fst Y) /\ incl (snd X) (snd Y) /\
        forall a b, In ([a], [b]) todo -> In a A -> In b B -> a = a1 \/ b = b1 -> In a (fst Y) /\ In b (snd Y).
    Proof.
      induction todo as [|t1 r IH]; intros Ht done extra X Hd HX HiX Xa Xb Hbig.
      - exists X. split; [cbn; apply in_or_app; now right|]. split; [exact HiX|]. split; [apply incl_refl|]. split; [apply incl_refl|]. intros a b [].
      - cbn [loop]. cbv zeta. destruct (fold_merge_ext t1 ((t1 :: r) ++ extra) (done ++ (t1 :: r) ++ extra)) as (e & E). rewrite E.
        assert (Es : skipn (length (done ++ t1 :: r)) ((done ++ (t1 :: r) ++ extra) ++ e) = extra ++ e).
        { replace ((done ++ (t1 :: r) ++ extra) ++ e) with ((done ++ t1 :: r) ++ extra ++ e) by (rewrite <- !app_assoc; reflexivity).
          rewrite skipn_app, skipn_all, Nat.sub_diag. reflexivity. }
        rewrite Es.
        destruct (Ht t1 (or_introl eq_refl)) as (a & b & ->).
        assert (Hd' : forall p, In p (done ++ [([a], [b])]) -> single p) by (intros p Hp; apply in_app_or in Hp as [Hp|[<-|[]]]; [auto|exists a, b; reflexivity]).
        assert (Htr : forall p, In p r -> single p) by (intros p Hp; apply Ht; now right).
        assert (Hstep : exists X', In X' (extra ++ e) /\ inside X' /\ incl (fst X) (fst X') /\ incl (snd X) (snd X') /\
          (In a A -> In b B -> a = a1 \/ b = b1 -> In a (fst X') /\ In b (snd X'))).
        { destruct (existsb (Nat.eqb a) A && existsb (Nat.eqb b) B && (Nat.eqb a a1 || Nat.eqb b b1)) eqn:Eab.
          - rewrite !andb_true_iff, orb_true_iff, !existsb_exists, !Nat.eqb_eq in Eab. destruct Eab as (((x & Hx & Ex) & (y & Hy & Ey)) & Hor).
            apply Nat.eqb_eq in Ex, Ey. subst x y.
            assert (Hi1 : inside ([a], [b])) by (split; intros z [<-|[]]; assumption).
            assert (Hns : ~ same ([a], [b]) X).
            { intros [S1 S2]. cbn [fst snd] in S1, S2. assert (Ea : a = a1) by (apply S1 in Xa; destruct Xa as [?|[]]; assumption).
              assert (Eb : b = b1) by (apply S2 in Xb; destruct Xb as [?|[]]; assumption). subst a b. destruct Hbig as (c & [[Hc Hne]|[Hc Hne]]).
              - apply S1 in Hc as [?|[]]. congruence.
              - apply S2 in Hc as [?|[]]. congruence. }
            destruct (fold_merge_finds ([a], [b]) X ((([a], [b]) :: r) ++ extra)) with (pairs := done ++ (([a], [b]) :: r) ++ extra) as (y & Hy' & Hsm).
            + apply in_or_app. now right.
            + apply sub_valid; [exact Hi1|discriminate|discriminate].
            + apply sub_valid; [exact HiX| |]; intros En; [rewrite En in Xa|rewrite En in Xb]; contradiction.
            + exact Hns.
            + cbn [fst snd]. destruct Hor as [->| ->]; [left|right]; intros z [<-|[]]; assumption.
            + apply sub_valid; [now apply join_inside| |]; intros En.
              * assert (Hz : In a1 (fst (join ([a], [b]) X))) by (apply join_in1; now right). rewrite En in Hz. contradiction.
              * assert (Hz : In b1 (snd (join ([a], [b]) X))) by (apply join_in2; now right). rewrite En in Hz. contradiction.
            + assert (Hy'' : In y ((done ++ (([a], [b]) :: r) ++ extra) ++ e)) by exact (eq_ind _ (fun l => In y l) Hy' _ E). clear Hy'. rename Hy'' into Hy'. destruct Hsm as [S1 S2]. exists y.
              assert (HX1 : incl (fst X) (fst y)) by (intros z Hz; apply S1, join_in1; now right).
              assert (HX2 : incl (snd X) (snd y)) by (intros z Hz; apply S2, join_in2; now right).
              split; [|split; [|split; [exact HX1|split; [exact HX2|]]]].
              * rewrite !in_app_iff in Hy'. rewrite in_app_iff. destruct Hy' as [[Hy'|[Hy'|Hy']]|Hy']; [| |now left|now right];
                  exfalso; (assert (Hsg : single y) by (first [now apply Hd|now apply Ht])); destruct Hsg as (c & d & ->); cbn [fst snd] in *;
                  (assert (Ec : c = a1) by (destruct (HX1 _ Xa) as [?|[]]; assumption)); (assert (Ed : d = b1) by (destruct (HX2 _ Xb) as [?|[]]; assumption));
                  subst c d; destruct Hbig as (c & [[Hc Hne]|[Hc Hne]]); [destruct (HX1 _ Hc) as [?|[]]|destruct (HX2 _ Hc) as [?|[]]| destruct (HX1 _ Hc) as [?|[]]|destruct (HX2 _ Hc) as [?|[]]]; congruence.
              * destruct (join_inside ([a], [b]) X Hi1 HiX) as [J1 J2]. split; intros z Hz; [apply J1, S1, Hz|apply J2, S2, Hz].
              * intros _ _ _. split; [apply S1, join_in1; left; now left|apply S2, join_in2; left; now left].
          - exists X. split; [apply in_or_app; now left|]. split; [exact HiX|]. split; [apply incl_refl|]. split; [apply incl_refl|].
            intros Ha Hb Hor. exfalso. apply not_true_iff_false in Eab. apply Eab. rewrite !andb_true_iff, orb_true_iff, !Nat.eqb_eq, !existsb_exists.
            split; [split; [exists a|exists b]; (split; [assumption|apply Nat.eqb_refl])|exact Hor]. }
        destruct Hstep as (X' & HX' & HiX' & S1 & S2 & Hab).
        destruct (IH Htr (done ++ [([a], [b])]) (extra ++ e) X' Hd' HX' HiX' (S1 _ Xa) (S2 _ Xb)) as (Y & HY & HiY & T1 & T2 & HT).
        { destruct Hbig as (c & [[Hc Hne]|[Hc Hne]]); exists c; [left|right]; auto. }
        exists Y. split; [exact HY|]. split; [exact HiY|]. split; [eapply incl_tran; eassumption|]. split; [eapply incl_tran; eassumption|].
        intros a' b' [Eq|Hin] Ha' Hb' Hor; [|now apply HT]. injection Eq as <- <-. destruct (Hab Ha' Hb' Hor). auto.
    Qed.
  End Target.

  Lemma first_split (q : pair_sets -> bool) l : (exists p, In p l /\ q p = true) -> exists l1 p l2, l = l1 ++ p :: l2 /\ q p = true /\ forall x, In x l1 -> q x = false.
  Proof.
    induction l as [|x l IH]; intros (p & Hp & Hq); [contradiction|]. destruct (q x) eqn:E.
    - exists [], x, l. split; [reflexivity|]. split; [exact E|intros y []].
    - destruct IH as (l1 & p' & l2 & -> & Hq' & Hn); [destruct Hp as [->|Hp]; [congruence|eauto]|]. exists (x :: l1), p', l2. split; [reflexivity|]. split; [exact Hq'|].
      intros y [<-|Hy]; auto.
  Qed.
  Lemma loop_app l1 : forall l2 done extra, exists extra', loop (l1 ++ l2) done extra = loop l2 (done ++ l1) extra' /\ (forall p, In p extra -> In p extra').
  Proof.
    induction l1 as [|t1 l1 IH]; intros l2 done extra; [exists extra; rewrite app_nil_r; auto|]. cbn [app loop]. cbv zeta.
    destruct (fold_merge_ext t1 ((t1 :: l1 ++ l2) ++ extra) (done ++ (t1 :: l1 ++ l2) ++ extra)) as (e & E).
    change (t1 :: (l1 ++ l2) ++ extra) with ((t1 :: l1 ++ l2) ++ extra). rewrite E.
    assert (Es : skipn (length (done ++ t1 :: l1 ++ l2)) ((done ++ (t1 :: l1 ++ l2) ++ extra) ++ e) = extra ++ e).
    { replace ((done ++ (t1 :: l1 ++ l2) ++ extra) ++ e) with ((done ++ t1 :: l1 ++ l2) ++ extra ++ e) by (rewrite <- !app_assoc; reflexivity).
      rewrite skipn_app, skipn_all, Nat.sub_diag. reflexivity. }
    rewrite Es. destruct (IH l2 (done ++ [t1]) (extra ++ e)) as (x & -> & Hx). exists x. split; [rewrite <- app_assoc; reflexivity|].
    intros p Hp. apply Hx, in_or_app. now left.
  Qed.
  Context (Hnd : NoDup cau).
  Definition singles := map (fun p : nat * nat => ([fst p], [snd p])) (filter (initial_filter par) cau).
  Lemma pairs_loop : alpha_pairs par cau = loop singles [] [].
  Proof. unfold alpha_pairs. cbv zeta. fold singles. rewrite <- (loop_eq singles [] []). cbn [length app]. now rewrite app_nil_r. Qed.
  Lemma singles_in a b : In ([a], [b]) singles <-> causal df a b /\ choice df a a /\ choice df b b.
  Proof.
    unfold singles. rewrite in_map_iff. split.
    - intros ([x y] & E & H). injection E as -> ->. apply filter_In in H as [Hc Hf]. unfold initial_filter in Hf. cbn [fst snd] in Hf.
      rewrite negb_true_iff, orb_false_iff in Hf. destruct Hf as [F1 F2]. apply not_true_iff_false in F1, F2. rewrite isin_in, Hpar in F1, F2. apply Hcau in Hc.
      unfold causal, choice. tauto.
    - intros (Hc & [C1 _] & [C2 _]). exists (a, b). split; [reflexivity|]. apply filter_In. split; [apply Hcau, Hc|]. unfold initial_filter. cbn [fst snd].
      rewrite negb_true_iff, orb_false_iff. split; apply not_true_iff_false; rewrite isin_in, Hpar; tauto.
  Qed.
  Lemma singles_single p : In p singles -> single p.
  Proof. unfold singles. rewrite in_map_iff. intros ([x y] & <- & _). exists x, y. reflexivity. Qed.
  Lemma singles_valid p : In p singles -> valid p.
  Proof.
    intros H. destruct (singles_single p H) as (a & b & ->). apply singles_in in H as (Hc & C1 & C2). unfold valid, alpha_pair. cbn [fst snd].
    split; [discriminate|]. split; [discriminate|]. split; [|split].
    - intros x y [<-|[]] [<-|[]]. exact Hc.
    - intros x y [<-|[]] [<-|[]]. exact C1.
    - intros x y [<-|[]] [<-|[]]. exact C2.
  Qed.
  Lemma pairs_valid p : In p (alpha_pairs par cau) -> valid p.
  Proof.
    rewrite pairs_loop. apply (loop_inv (fun _ => True)); auto. cbn [app]. rewrite app_nil_r. intros q Hq. now apply singles_valid.
  Qed.
  Lemma pairs_distinct : ForallOrdPairs (fun p q => ~ same p q) (alpha_pairs par cau).
  Proof.
    rewrite pairs_loop. apply (loop_inv (ForallOrdPairs (fun p q => ~ same p q))).
    - cbn [app]. rewrite app_nil_r. intros q Hq. now apply singles_valid.
    - cbn [app]. rewrite app_nil_r. unfold singles. assert (N : NoDup (filter (initial_filter par) cau)) by apply NoDup_filter, Hnd.
      induction N as [|[a b] l Hn N IH]; [constructor|]. cbn [map]. constructor; [|exact IH]. apply Forall_forall. intros p Hp Hs. apply in_map_iff in Hp as ([c d] & <- & Hin).
      destruct Hs as [S1 S2]. cbn [fst snd] in *. assert (E1 : c = a) by (assert (H : In a [c]) by (apply S1; now left); destruct H as [?|[]]; assumption).
      assert (E2 : d = b) by (assert (H : In b [d]) by (apply S2; now left); destruct H as [?|[]]; assumption). subst. contradiction.
    - intros. now apply merge_distinct.
  Qed.
  Lemma pairs_complete A B : alpha_pair df A B -> exists p, In p (alpha_pairs par cau) /\ same p (A, B).
  Proof.
    intros HV. pose proof HV as (NA & NB & Hc & HA & HB). rewrite pairs_loop.
    assert (Hall : forall a b, In a A -> In b B -> In ([a], [b]) singles) by (intros a b Ha Hb; apply singles_in; auto).
    set (q := fun p : pair_sets => subset (fst p) A && subset (snd p) B).
    destruct (first_split q singles) as (l1 & p & l2 & El & Hq & Hn).
    { destruct A as [|a A']; [congruence|]. destruct B as [|b B']; [congruence|]. exists ([a], [b]). split; [apply Hall; now left|].
      unfold q. rewrite andb_true_iff, !subset_iff. split; intros x [<-|[]]; now left. }
    assert (Hps : single p) by (apply singles_single; rewrite El; apply in_or_app; right; now left). destruct Hps as (a1 & b1 & ->).
    unfold q in Hq. rewrite andb_true_iff, !subset_iff in Hq. destruct Hq as [Hq1 Hq2]. cbn [fst snd] in Hq1, Hq2.
    assert (Ha1 : In a1 A) by (apply Hq1; now left). assert (Hb1 : In b1 B) by (apply Hq2; now left).
    assert (Hlater : forall a b, In a A -> In b B -> ([a], [b]) = ([a1], [b1]) \/ In ([a], [b]) l2).
    { intros a b Ha Hb. pose proof (Hall a b Ha Hb) as H. rewrite El in H. apply in_app_or in H as [H|[H|H]]; [|left; congruence|now right].
      apply Hn in H. unfold q in H. apply not_true_iff_false in H. exfalso. apply H. rewrite andb_true_iff, !subset_iff. cbn [fst snd]. split; intros x [<-|[]]; assumption. }
    rewrite El. destruct (loop_app l1 (([a1], [b1]) :: l2) [] []) as (ex & -> & _). cbn [app].
    set (adj := fun p : pair_sets => subset (fst p) A && subset (snd p) B && negb (pair_eq ([a1], [b1]) p) && (subset (fst p) [a1] || subset (snd p) [b1])).
    destruct (existsb adj l2) eqn:Ead.
    - apply existsb_exists in Ead as (p & Hp & Hadj).
      assert (Hps : single p) by (apply singles_single; rewrite El; apply in_or_app; right; now right). destruct Hps as (c & d & ->).
      unfold adj in Hadj. rewrite !andb_true_iff, negb_true_iff, orb_true_iff, !subset_iff in Hadj. cbn [fst snd] in Hadj. destruct Hadj as (((Hc1 & Hd1) & Hne) & Hor).
      apply not_true_iff_false in Hne. rewrite pair_eq_iff in Hne.
      assert (HcA : In c A) by (apply Hc1; now left). assert (HdB : In d B) by (apply Hd1; now left).
      assert (Hcd : c = a1 \/ d = b1) by (destruct Hor as [H|H]; [left; destruct (H c (or_introl eq_refl)) as [?|[]]; congruence|right; destruct (H d (or_introl eq_refl)) as [?|[]]; congruence]).
      assert (Hi1 : inside A B ([a1], [b1])) by (split; assumption). assert (Hi2 : inside A B ([c], [d])) by (split; assumption).
      cbn [loop]. cbv zeta. destruct (fold_merge_ext ([a1], [b1]) ((([a1], [b1]) :: l2) ++ ex) (l1 ++ (([a1], [b1]) :: l2) ++ ex)) as (e & E).
      destruct (fold_merge_finds ([a1], [b1]) ([c], [d]) ((([a1], [b1]) :: l2) ++ ex)) with (pairs := l1 ++ (([a1], [b1]) :: l2) ++ ex) as (y & Hy & Hsm).
      + apply in_or_app. left. now right.
      + now apply (sub_valid A B HV); [|discriminate|discriminate].
      + now apply (sub_valid A B HV); [|discriminate|discriminate].
      + exact Hne.
      + cbn [fst snd]. destruct Hcd as [->| ->]; [left|right]; apply incl_refl.
      + apply (sub_valid A B HV); [now apply join_inside| |]; intros En.
        * assert (Hz : In a1 (fst (join ([a1], [b1]) ([c], [d])))) by (apply join_in1; left; now left). rewrite En in Hz. contradiction.
        * assert (Hz : In b1 (snd (join ([a1], [b1]) ([c], [d])))) by (apply join_in2; left; now left). rewrite En in Hz. contradiction.
      + assert (Hy'' : In y ((l1 ++ (([a1], [b1]) :: l2) ++ ex) ++ e)) by exact (eq_ind _ (fun l => In y l) Hy _ E). clear Hy. rename Hy'' into Hy. rewrite E. destruct Hsm as [S1 S2].
        assert (Ya1 : In a1 (fst y)) by (apply S1, join_in1; left; now left). assert (Yb1 : In b1 (snd y)) by (apply S2, join_in2; left; now left).
        assert (Yc : In c (fst y)) by (apply S1, join_in1; right; now left). assert (Yd : In d (snd y)) by (apply S2, join_in2; right; now left).
        assert (Hbig : exists z, In z (fst y) /\ z <> a1 \/ In z (snd y) /\ z <> b1).
        { destruct (Nat.eq_dec c a1) as [->|Hn1]; [|exists c; left; auto]. destruct (Nat.eq_dec d b1) as [->|Hn2]; [|exists d; right; auto]. exfalso. apply Hne. apply same_refl. }
        assert (Es : skipn (length (l1 ++ ([a1], [b1]) :: l2)) ((l1 ++ (([a1], [b1]) :: l2) ++ ex) ++ e) = ex ++ e).
        { replace ((l1 ++ (([a1], [b1]) :: l2) ++ ex) ++ e) with ((l1 ++ ([a1], [b1]) :: l2) ++ ex ++ e) by (rewrite <- !app_assoc; reflexivity).
          rewrite skipn_app, skipn_all, Nat.sub_diag. reflexivity. }
        rewrite Es.
        destruct (grow_phase A B HV a1 b1 l2) with (done := l1 ++ [([a1], [b1])]) (extra := ex ++ e) (X := y) as (Y & HY & HiY & T1 & T2 & HT); auto.
        * intros p Hp'. apply singles_single. rewrite El. apply in_or_app. right. now right.
        * intros p Hp'. apply singles_single. rewrite El. apply in_app_or in Hp' as [H|[<-|[]]]; apply in_or_app; [now left|right; now left].
        * assert (Hnot : ~ single y).
          { intros (u & v & ->). cbn [fst snd] in *. destruct Hbig as (z & [[Hz Hzn]|[Hz Hzn]]).
            - destruct Hz as [<-|[]]. destruct Ya1 as [?|[]]. congruence.
            - destruct Hz as [<-|[]]. destruct Yb1 as [?|[]]. congruence. }
          rewrite !in_app_iff in Hy. rewrite in_app_iff. destruct Hy as [[Hy|[Hy|Hy]]|Hy]; auto; exfalso; apply Hnot, singles_single; rewrite El; apply in_or_app; auto.
        * destruct (join_inside A B ([a1], [b1]) ([c], [d]) Hi1 Hi2) as [J1 J2]. split; intros z Hz; [apply J1, S1, Hz|apply J2, S2, Hz].
        * exists Y. split; [exact HY|]. split; cbn [fst snd]; intros x; split.
          -- apply HiY.
          -- intros Hx. destruct (Hlater x b1 Hx Hb1) as [Eq|Hin]; [injection Eq as ->; now apply T1|]. now apply (HT x b1 Hin Hx Hb1 (or_intror eq_refl)).
          -- apply HiY.
          -- intros Hx. destruct (Hlater a1 x Ha1 Hx) as [Eq|Hin]; [injection Eq as ->; now apply T2|]. now apply (HT a1 x Hin Ha1 Hx (or_introl eq_refl)).
    - exists ([a1], [b1]). split; [apply loop_keeps, in_or_app; right; now left|].
      assert (Hno : forall a b, In a A -> In b B -> a = a1 \/ b = b1 -> a = a1 /\ b = b1).
      { intros a b Ha Hb Hor. destruct (Hlater a b Ha Hb) as [Eq|Hin]; [injection Eq as -> ->; auto|].
        destruct (Nat.eq_dec a a1) as [->|N1]; [destruct (Nat.eq_dec b b1) as [->|N2]; [auto|]|]; exfalso.
        - apply not_true_iff_false in Ead. apply Ead, existsb_exists. exists ([a1], [b]). split; [exact Hin|]. unfold adj. rewrite !andb_true_iff, negb_true_iff, orb_true_iff, !subset_iff. cbn [fst snd].
          split; [split; [split; intros x [<-|[]]; assumption|]|left; apply incl_refl]. apply not_true_iff_false. rewrite pair_eq_iff. intros [_ S2]. cbn [fst snd] in S2.
          assert (H : In b [b1]) by (apply S2; now left). destruct H as [?|[]]. congruence.
        - destruct Hor as [?| ->]; [contradiction|]. apply not_true_iff_false in Ead. apply Ead, existsb_exists. exists ([a], [b1]). split; [exact Hin|]. unfold adj. rewrite !andb_true_iff, negb_true_iff, orb_true_iff, !subset_iff. cbn [fst snd].
          split; [split; [split; intros x [<-|[]]; assumption|]|right; apply incl_refl]. apply not_true_iff_false. rewrite pair_eq_iff. intros [S1 _]. cbn [fst snd] in S1.
          assert (H : In a [a1]) by (apply S1; now left). destruct H as [?|[]]. congruence. }
      split; cbn [fst snd]; intros x; split.
      + intros [<-|[]]. exact Ha1.
      + intros Hx. left. symmetry. apply (Hno x b1 Hx Hb1). auto.
      + intros [<-|[]]. exact Hb1.
      + intros Hx. left. symmetry. apply (Hno a1 x Ha1 Hx). auto.
  Qed.

  (** ** The internal places are the maximal pairs *)
  Lemma places_sound p : In p (internal_places par cau) -> maximal_pair df (fst p) (snd p).
  Proof.
    unfold internal_places. cbv zeta. rewrite filter_In. intros [Hp Hm]. split; [now apply pairs_valid|]. intros A' B' HV H1 H2.
    destruct (pairs_complete A' B' HV) as (q & Hq & S1 & S2). cbn [fst snd] in S1, S2. unfold pair_maximizer in Hm. rewrite forallb_forall in Hm. specialize (Hm q Hq).
    rewrite negb_true_iff in Hm. apply not_true_iff_false in Hm. rewrite !andb_true_iff, negb_true_iff, !subset_iff in Hm.
    destruct (pair_eq p q) eqn:E.
    - apply pair_eq_iff in E as [E1 E2]. split; intros x Hx; [apply E1, S1, Hx|apply E2, S2, Hx].
    - exfalso. apply Hm. split; [split; [reflexivity|]|]; intros x Hx; [apply S1, H1, Hx|apply S2, H2, Hx].
  Qed.
  Lemma places_complete A B : maximal_pair df A B -> exists p, In p (internal_places par cau) /\ same p (A, B).
  Proof.
    intros [HV Hmax]. destruct (pairs_complete A B HV) as (p & Hp & Hs). exists p. split; [|exact Hs]. unfold internal_places. cbv zeta. apply filter_In. split; [exact Hp|].
    unfold pair_maximizer. apply forallb_forall. intros q Hq. rewrite negb_true_iff. apply not_true_iff_false. rewrite !andb_true_iff, negb_true_iff, !subset_iff.
    intros ((Hne & H1) & H2). apply not_true_iff_false in Hne. apply Hne, pair_eq_iff. destruct Hs as [S1 S2]. cbn [fst snd] in S1, S2.
    destruct (Hmax (fst q) (snd q)) as [M1 M2]; [now apply pairs_valid|intros x Hx; apply H1, S1, Hx|intros x Hx; apply H2, S2, Hx|].
    split; intros x; split; intros Hx; [apply H1|apply S1, M1|apply H2|apply S2, M2]; assumption.
  Qed.
  Lemma FOP_filter {X} (R : X -> X -> Prop) f l : ForallOrdPairs R l -> ForallOrdPairs R (filter f l).
  Proof.
    induction 1 as [|x l Hf H IH]; [constructor|]. cbn. destruct (f x); [|exact IH]. constructor; [|exact IH]. rewrite Forall_forall in *. intros y Hy. apply filter_In in Hy as [Hy _]. auto.
  Qed.
  Lemma places_distinct : ForallOrdPairs (fun p q => ~ same p q) (internal_places par cau).
  Proof. unfold internal_places. cbv zeta. apply FOP_filter, pairs_distinct. Qed.
End Rel.
