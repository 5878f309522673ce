(** C96: discovery of DECLARE models. *)
From Coq Require Import List Arith Bool ZArith QArith Lia Lqa.
Import ListNotations.
From Verif Require Import Model_Dict Proofs_Dict Model_Dfg Spec_Dfg Proofs_Dfg Model_Declare Spec_Declare Proofs_Declare Props_Declare Model_DeclareDisc Spec_DeclareDisc
  Proofs_DeclareDisc Proofs_DeclareDisc2 Proofs_DeclareDisc3 Proofs_DeclareDisc4.
Local Open Scope nat_scope.
Local Arguments keqb {K Key} : simpl never.
Local Arguments Nat.ltb : simpl never.
Local Arguments mem : simpl never.

Lemma count_cases acts (l : log) (P : trace -> bool) (Q : trace -> Prop) : (forall u, P u = true <-> Q u) ->
  cases acts l (length (filter P (map (considered acts) l))) Q.
Proof.
  intros HP. unfold cases. rewrite filter_map_len.
  assert (E : length (filter (fun x => P (considered acts x)) l) = length (filter (fun i => match nth_error l i with Some t => P (considered acts t) | None => false end) (seq 0 (length l)))).
  { clear. induction l as [|t l IH]; auto. cbn [length seq]. cbn [filter nth_error]. rewrite <- seq_shift. destruct (P (considered acts t)); cbn [length]; rewrite filter_map_len, IH; reflexivity. }
  rewrite E. apply (exactly_filter _ 0 _ _ (fun x => x)); auto. intros j. split.
  - intros (t & u & Hj & Hu & HQ). exists j. split; auto. split; [split; [lia|]; apply nth_error_Some; congruence|]. rewrite Hj. apply HP. pose proof (considered_restricted acts t) as Hr. unfold restricted in *. rewrite Hr, <- Hu. auto.
  - intros (i & -> & _ & H). destruct (nth_error l i) as [t|]; [|discriminate]. exists t, (considered acts t). split; auto. split; [apply considered_restricted|apply HP; auto].
Qed.
Lemma nz_iff x : negb (Z.eqb x 0) = true <-> x <> 0%Z.
Proof. rewrite negb_true_iff. apply Z.eqb_neq. Qed.
Lemma measured acts l T k : over acts T k -> measures acts l T k (supp (C (ts acts l) (T, k))) (conf (C (ts acts l) (T, k))).
Proof.
  intros HO. unfold measures, supp, conf, C. cbn [fst snd]. rewrite !filter_map_len, !ts_count. split.
  - apply count_cases. intros u. rewrite nz_iff. apply val_activated.
  - apply count_cases. intros u. rewrite Z.eqb_eq. destruct k as [a b]. destruct HO as (_ & _ & O3 & _). split.
    + intros H. assert (A : activated T u (a, b)) by (apply val_activated; rewrite H; discriminate). split; auto. apply val_tested in H; auto.
    + intros [A H]. apply val_tested; auto.
Qed.
Lemma measures_unique acts l T k s c s' c' : measures acts l T k s c -> measures acts l T k s' c' -> s = s' /\ c = c'.
Proof. intros [H1 H2] [H3 H4]. split; eapply exactly_unique; eauto. Qed.

(** With given thresholds, the discovered model has exactly the constraints over the considered activities, of the computed templates,
    whose support and confidence pass the thresholds; the two numbers are those of the log. *)
Theorem C96_rules later allowed acts ms mc mult l m : l <> [] -> discover later allowed acts (Some ms) (Some mc) mult l = Some m ->
  forall T k s c, entry m T k = Some (s, c) <->
    computed allowed T /\ over acts T k /\ measures acts l T k s c /\ (qn (length l) * ms < qn s)%Q /\ (qn s * mc < qn c)%Q.
Proof.
  intros Hl E T k s c. unfold discover in E. apply bind_some in E. destruct E as ([tb n] & Et & E). cbn [get_rules] in E. inversion E; subst m. destruct (form_ok allowed acts l Hl tb n Et) as (HW & HC & Hn).
  rewrite rules_entry by apply HW. split.
  - intros (v & Hv & -> & -> & [K1 K2]). pose proof (proj2 HW _ _ Hv) as [[F1 F2] ->]. cbn [fst snd] in *. split; auto. split; auto. split; [apply measured; auto|]. rewrite <- Hn; [auto|]. intros ->. discriminate.
  - intros (F1 & F2 & M & K1 & K2). pose proof (HC T F1 k F2) as Hv. exists (C (ts acts l) (T, k)). split; auto. destruct (measures_unique _ _ _ _ _ _ _ _ M (measured acts l T k F2)) as [-> ->]. split; auto. split; auto.
    split; auto. rewrite Hn; auto. intros ->. discriminate.
Qed.
Print Assumptions C96_rules.

(** Discovery succeeds. *)
Lemma prods_in n tb c v : In (c, v) tb -> 0 < n -> 0 < supp v -> In (c, (qn (supp v) / qn n) * (qn (conf v) / qn (supp v)))%Q (cols_prod n tb).
Proof.
  intros H Hn Hs. unfold cols_prod. apply in_flat_map. exists (c, v). split; auto. cbn [fst snd]. assert (X : (0 < qn (supp v) / qn n)%Q).
  { apply Qlt_shift_div_l; unfold qn; [change 0%Q with (inject_Z 0); rewrite <- Zlt_Qlt; lia|]. rewrite Qmult_0_l. change 0%Q with (inject_Z 0). rewrite <- Zlt_Qlt. lia. }
  apply qlt_lt in X. rewrite X. left. auto.
Qed.
Lemma in_prods n tb c q : In (c, q) (cols_prod n tb) -> exists v, In (c, v) tb /\ 0 < supp v /\ 0 < n /\ (q == qn (conf v) / qn n)%Q.
Proof.
  unfold cols_prod. intros H. apply in_flat_map in H. destruct H as ([c' v] & H & E). cbn [fst snd] in E. destruct (qlt 0 _) eqn:Eq; [|destruct E]. destruct E as [[= <- <-]|[]]. apply qlt_lt in Eq.
  exists v. split; auto. assert (Hs : 0 < supp v). { destruct (supp v); [|lia]. exfalso. unfold qn, Qdiv in Eq. rewrite Qmult_0_l in Eq. apply (Qlt_irrefl 0). auto. }
  assert (Hn : 0 < n). { destruct n; [|lia]. exfalso. unfold qn, Qdiv in Eq. change (/ inject_Z (Z.of_nat 0))%Q with 0%Q in Eq. rewrite Qmult_0_r in Eq. apply (Qlt_irrefl 0). auto. }
  split; auto. split; auto. assert (~ (qn (supp v) == 0)%Q). { unfold qn. change 0%Q with (inject_Z 0). rewrite inject_Z_injective. lia. } assert (~ (qn n == 0)%Q). { unfold qn. change 0%Q with (inject_Z 0). rewrite inject_Z_injective. lia. } field. auto.
Qed.
Lemma best_some later l c : best later l = Some c -> exists q, In (c, q) l /\ forall c' q', In (c', q') l -> (q' <= q)%Q.
Proof.
  destruct l as [|x r]; [discriminate|]. cbn [best]. intros [= <-].
  assert (G : forall r x, let b := fold_left (fun b y => if qlt (snd b) (snd y) || (Qeq_bool (snd b) (snd y) && later (fst y) (fst b)) then y else b) r x in
     In b (x :: r) /\ (snd x <= snd b)%Q /\ forall y, In y r -> (snd y <= snd b)%Q).
  { clear. induction r as [|y r IH]; intros x; cbn [fold_left].
    - split; [left; auto|]. split; [apply Qle_refl|intros y []].
    - set (z := if qlt (snd x) (snd y) || (Qeq_bool (snd x) (snd y) && later (fst y) (fst x)) then y else x). destruct (IH z) as (H1 & H2 & H3).
      assert (Z : (z = x \/ z = y) /\ (snd x <= snd z)%Q /\ (snd y <= snd z)%Q).
      { unfold z. destruct (qlt (snd x) (snd y)) eqn:E1; cbn [orb].
        - apply qlt_lt in E1. split; auto. split; [apply Qlt_le_weak; auto|apply Qle_refl].
        - assert (L : (snd y <= snd x)%Q). { apply Qnot_lt_le. intros G. apply qlt_lt in G. congruence. }
          destruct (Qeq_bool (snd x) (snd y)) eqn:E2; cbn [andb]; [destruct (later _ _)|]; split; auto; split; auto using Qle_refl. apply Qeq_bool_iff in E2. rewrite E2. apply Qle_refl. }
      destruct Z as (Z1 & Z2 & Z3). cbv zeta in H1, H2, H3 |- *. split; [destruct H1 as [<-|H1]; [destruct Z1 as [->| ->]; [left|right; left]; auto|right; right; auto]|]. split; [eapply Qle_trans; eauto|].
      intros w [<-|Hw]; auto. eapply Qle_trans; eauto. }
  destruct (G r x) as (H1 & H2 & H3). cbv zeta in *. set (b := fold_left _ r x) in *. exists (snd b). split; [destruct b; exact H1|]. intros c' q' [->|H]; [exact H2|apply (H3 _ H)].
Qed.
Theorem C96_defined later allowed acts ms mc mult l : l <> [] -> acts <> [] -> In EXISTENCE allowed -> (In INIT allowed -> forall t, In t l -> exists x, In x t /\ In x acts) ->
  (ms = None <-> mc = None) -> exists m, discover later allowed acts ms mc mult l = Some m.
Proof.
  intros Hl Ha He Hi Hm. destruct (form_def allowed acts l Hl Ha He Hi) as ([tb n] & Et). unfold discover. rewrite Et. cbn [bind get_rules].
  destruct ms as [ms|], mc as [mc|]; [eauto|destruct Hm as [_ Hm]; discriminate Hm; auto|destruct Hm as [Hm _]; discriminate Hm; auto|].
  destruct (form_ok allowed acts l Hl tb n Et) as (HW & HC & Hn). destruct acts as [|a r] eqn:Ea; [congruence|]. rewrite <- Ea in *.
  assert (HO : over acts EXISTENCE (a, a)). { assert (In a acts) by (rewrite Ea; left; auto). repeat split; cbn; auto; tauto. }
  pose proof (HC EXISTENCE (proj2 (base_computed allowed EXISTENCE eq_refl) He) _ HO) as Hv. assert (Hne : tb <> []) by (intros ->; discriminate). specialize (Hn Hne).
  destruct (best later (cols_prod n tb)) as [c|] eqn:Eb.
  - destruct (best_some _ _ _ Eb) as (q & Hq & _). destruct (in_prods _ _ _ _ Hq) as (v & Hc & _). apply d_in_get in Hc; [|apply HW]. rewrite Hc. eauto.
  - exfalso. assert (L : 0 < length l) by (destruct l; [congruence|cbn; lia]).
    assert (X : In ((EXISTENCE, (a, a)), (qn (supp (C (ts acts l) (EXISTENCE, (a, a)))) / qn n) * (qn (conf (C (ts acts l) (EXISTENCE, (a, a)))) / qn (supp (C (ts acts l) (EXISTENCE, (a, a))))))%Q (cols_prod n tb)).
    { apply prods_in; [apply d_get_in; auto|rewrite Hn; exact L|]. unfold supp, C. cbn [fst snd val vbase]. rewrite filter_map_len, (ts_count acts l). destruct l as [|t z]; [congruence|]. cbn [map filter]. destruct (mem a (considered acts t)); cbn; lia. }
    unfold best in Eb. destruct (cols_prod n tb); [destruct X|discriminate].
Qed.
Print Assumptions C96_defined.

(** Without thresholds, they are those of a constraint with the highest confidence, scaled by the multiplier. *)
Theorem C96_auto later allowed acts mult l m : l <> [] -> discover later allowed acts None None mult l = Some m ->
  exists T k s c, computed allowed T /\ over acts T k /\ measures acts l T k s c /\ 0 < s /\
    (forall T' k' s' c', computed allowed T' -> over acts T' k' -> measures acts l T' k' s' c' -> c' <= c) /\
    discover later allowed acts (Some (qn s / qn (length l) * mult)%Q) (Some (qn c / qn s * mult)%Q) mult l = Some m /\
    ((mult < 1)%Q -> 0 < c -> entry m T k = Some (s, c)).
Proof.
  intros Hl E. pose proof E as E0. unfold discover in E. apply bind_some in E. destruct E as ([tb n] & Et & E). cbn [get_rules] in E. destruct (form_ok allowed acts l Hl tb n Et) as (HW & HC & Hn).
  destruct (best later (cols_prod n tb)) as [[T k]|] eqn:Eb; [|discriminate]. destruct (d_get tb (T, k)) as [v|] eqn:Ev; [|discriminate]. inversion E; subst m. clear E.
  destruct (proj2 HW _ _ Ev) as [[F1 F2] EC]. cbn [fst snd] in *. assert (Hne : tb <> []) by (intros ->; discriminate). specialize (Hn Hne). subst n.
  destruct (best_some _ _ _ Eb) as (q & Hq & Hmax). destruct (in_prods _ _ _ _ Hq) as (v' & Hv' & Hs & Hpos & Q1). apply d_in_get in Hv'; [|apply HW]. rewrite Ev in Hv'. inversion Hv'; subst v'. clear Hv'.
  assert (P : discover later allowed acts (Some (qn (supp v) / qn (length l) * mult)%Q) (Some (qn (conf v) / qn (supp v) * mult)%Q) mult l = Some (rules_of (length l) (qn (supp v) / qn (length l) * mult) (qn (conf v) / qn (supp v) * mult) tb)).
  { unfold discover. rewrite Et. reflexivity. }
  pose proof (measured acts l T k F2) as M. rewrite <- EC in M. exists T, k, (supp v), (conf v). do 4 (split; [assumption|]). split; [|split; [exact P|]].
  - intros T' k' s' c' G1 G2 G3. destruct (measures_unique _ _ _ _ _ _ _ _ G3 (measured acts l T' k' G2)) as [-> ->]. pose proof (HC T' G1 k' G2) as Hv'. set (v' := C (ts acts l) (T', k')) in *.
    destruct (Nat.eq_dec (supp v') 0) as [Z|Z].
    + assert (L : conf v' <= supp v'). { clear. unfold conf, supp. induction v' as [|x v' IH]; cbn; auto. destruct (Z.eqb_spec x 1) as [->|N]; cbn; [lia|]. destruct (Z.eqb x 0); cbn; lia. } lia.
    + assert (I : In ((T', k'), (qn (supp v') / qn (length l)) * (qn (conf v') / qn (supp v')))%Q (cols_prod (length l) tb)) by (apply prods_in; [apply d_get_in; auto|auto|lia]).
      pose proof (Hmax _ _ I) as L. destruct (in_prods _ _ _ _ I) as (v2 & Hv2 & _ & _ & Q2). apply d_in_get in Hv2; [|apply HW]. rewrite Hv' in Hv2. inversion Hv2; subst v2. rewrite Q1, Q2 in L.
      assert (PN : (0 < qn (length l))%Q) by (unfold qn; change 0%Q with (inject_Z 0); rewrite <- Zlt_Qlt; lia).
      apply (Qmult_le_compat_r _ _ (qn (length l))) in L; [|apply Qlt_le_weak; auto]. assert (NZ : ~ (qn (length l) == 0)%Q) by (intros X; rewrite X in PN; apply (Qlt_irrefl 0); auto).
      assert (D : forall x, (x / qn (length l) * qn (length l) == x)%Q) by (intros; field; auto). rewrite !D in L. unfold qn in L. rewrite <- Zle_Qle in L. lia.
  - intros Hm Hc. apply (C96_rules _ _ _ _ _ _ _ _ Hl P). do 3 (split; [assumption|]).
    assert (PN : (0 < qn (length l))%Q) by (unfold qn; change 0%Q with (inject_Z 0); rewrite <- Zlt_Qlt; lia). assert (PS : (0 < qn (supp v))%Q) by (unfold qn; change 0%Q with (inject_Z 0); rewrite <- Zlt_Qlt; lia).
    assert (PC : (0 < qn (conf v))%Q) by (unfold qn; change 0%Q with (inject_Z 0); rewrite <- Zlt_Qlt; lia).
    assert (X1 : (qn (length l) * (qn (supp v) / qn (length l) * mult) == qn (supp v) * mult)%Q) by (field; intros X; rewrite X in PN; apply (Qlt_irrefl 0); auto).
    assert (X2 : (qn (supp v) * (qn (conf v) / qn (supp v) * mult) == qn (conf v) * mult)%Q) by (field; intros X; rewrite X in PS; apply (Qlt_irrefl 0); auto).
    rewrite X1, X2. split; nra.
Qed.
Print Assumptions C96_auto.

(** A constraint of full confidence holds in every case that activates it. *)
Definition positive (T : template) : Prop := T <> NONSUCCESSION /\ T <> NONCHAINSUCCESSION.
Lemma tested_holds T u k : positive T -> tested T u k -> holds T u k.
Proof. destruct k as [a b]. intros [P1 P2]. destruct T; cbn; tauto. Qed.
Lemma exactly_same {X} n (P Q : X -> Prop) : exactly n P -> exactly n Q -> (forall x, Q x -> P x) -> forall x, P x -> Q x.
Proof.
  intros (l1 & N1 & L1 & H1) (l2 & N2 & L2 & H2) I x Hx. apply H2. apply H1 in Hx. revert x Hx. change (incl l1 l2). apply NoDup_length_incl; auto; [lia|]. intros x Hx. apply H1, I, H2. auto.
Qed.
Theorem C96_full_confidence later allowed acts ms mc mult l m T k s : l <> [] -> discover later allowed acts ms mc mult l = Some m -> positive T -> entry m T k = Some (s, s) ->
  forall t u, In t l -> restricted acts t u -> activated T u k -> holds T u k.
Proof.
  intros Hl E HP HE t u It Hu HA.
  assert (M : measures acts l T k s s).
  { destruct ms as [ms|], mc as [mc|].
    - eapply C96_rules in HE; eauto. tauto.
    - exfalso. unfold discover in E. apply bind_some in E. destruct E as ([] & _ & E). discriminate.
    - exfalso. unfold discover in E. apply bind_some in E. destruct E as ([] & _ & E). discriminate.
    - destruct (C96_auto _ _ _ _ _ _ Hl E) as (T1 & k1 & s1 & c1 & _ & _ & _ & _ & _ & E' & _). eapply C96_rules in HE; eauto. tauto. }
  destruct M as [M1 M2]. apply In_nth_error in It. destruct It as (j & Hj). unfold cases in M1, M2.
  pose proof (exactly_same _ _ _ M1 M2) as S. cbv beta in S.
  destruct (S (fun x '(ex_intro _ t0 (ex_intro _ u0 (conj A (conj B (conj C _))))) => ex_intro _ t0 (ex_intro _ u0 (conj A (conj B C)))) j) as (t' & u' & Hj' & Hu' & _ & HT); [exists t, u; auto|].
  rewrite Hj in Hj'. inversion Hj'; subst t'. unfold restricted in *. subst u u'. apply tested_holds; auto.
Qed.
Print Assumptions C96_full_confidence.

(** ** Findings *)
Definition first_name : col -> col -> bool := fun _ _ => false.
(** A case in which b occurs without a violates the precedence (a, b), but is not counted: the constraint is discovered with full
    confidence although a case of the log violates it. *)
Theorem C96_precedence_refuted : exists l m s, discover first_name default_templates (all_activities l) (Some (1#2)%Q) (Some (1#2)%Q) (4#5)%Q l = Some m /\
  entry m PRECEDENCE (1, 2) = Some (s, s) /\ exists t, In t l /\ ~ holds PRECEDENCE t (1, 2).
Proof.
  exists [[1; 2]; [1; 2]; [2]]. eexists. exists 2. split; [vm_compute; reflexivity|]. split; [vm_compute; reflexivity|]. exists [2]. split; [right; right; left; auto|]. intros H. specialize (H [] [] eq_refl). destruct H.
Qed.
(** The alternate response is tested as the alternate succession: it holds in every case and is not discovered. *)
Theorem C96_alternate_refuted : exists l m, discover first_name default_templates (all_activities l) (Some 0%Q) (Some 0%Q) (4#5)%Q l = Some m /\
  (forall t, In t l -> In 1 t /\ holds ALTRESPONSE t (1, 2)) /\ entry m ALTRESPONSE (1, 2) = None.
Proof.
  exists [[1; 2; 2]]. eexists. split; [vm_compute; reflexivity|]. split; [|vm_compute; reflexivity]. intros t [<-|[]]. split; [left; auto|]. intros u v E.
  destruct u as [|x [|y [|z [|w u]]]]; inversion E; subst; exists [], [2]; split; auto.
Qed.
(** The non-succession is tested as the negation of the succession: it is discovered with full confidence although 2 follows 1. *)
Theorem C96_nonsuccession_refuted : exists l m s, discover first_name (NONSUCCESSION :: default_templates) (all_activities l) (Some (1#2)%Q) (Some (1#2)%Q) (4#5)%Q l = Some m /\
  entry m NONSUCCESSION (1, 2) = Some (s, s) /\ 0 < s /\ exists t, In t l /\ ~ holds NONSUCCESSION t (1, 2).
Proof.
  exists [[1; 2; 1]]. eexists. exists 1. split; [vm_compute; reflexivity|]. split; [vm_compute; reflexivity|]. split; [lia|]. exists [1; 2; 1]. split; [left; auto|]. intros H. apply (H [] [2; 1] eq_refl). left. auto.
Qed.
(** The init template makes the discovery fail when a case has none of the considered activities. *)
Theorem C96_empty_refuted : exists l acts, acts <> [] /\ l <> [] /\ discover first_name default_templates acts (Some 0%Q) (Some 0%Q) (4#5)%Q l = None.
Proof. exists [[1]; [2]], [1]. split; [discriminate|]. split; [discriminate|]. vm_compute. reflexivity. Qed.

(** ** Examples *)
Definition ex_log : log := [[1; 2; 3]; [1; 3; 2]; [1; 2; 3]; [3; 1]].
Example ex_discover : exists m, discover first_name default_templates (all_activities ex_log) (Some (1#2)%Q) (Some (1#2)%Q) (4#5)%Q ex_log = Some m /\
  entry m RESPONSE (1, 2) = Some (4, 3) /\ entry m EXISTENCE (1, 1) = Some (4, 4) /\ entry m PRECEDENCE (1, 2) = Some (3, 3) /\ entry m CHAINRESPONSE (2, 3) = Some (3, 2) /\
  entry m INIT (1, 1) = Some (4, 3) /\ entry m COEXISTENCE (1, 2) = Some (4, 3) /\ entry m RESPONSE (2, 1) = None /\ entry m ABSENCE (1, 1) = None.
Proof. eexists. split; [vm_compute; reflexivity|]. repeat split. Qed.
Example ex_auto : exists m, discover first_name default_templates (all_activities ex_log) None None (4#5)%Q ex_log = Some m /\ entry m EXISTENCE (1, 1) = Some (4, 4) /\ entry m RESPONSE (1, 2) = None.
Proof. eexists. split; [vm_compute; reflexivity|]. repeat split. Qed.
Example ex_measures : measures (all_activities ex_log) ex_log RESPONSE (1, 2) 4 3.
Proof. apply (measured (all_activities ex_log) ex_log RESPONSE (1, 2)). unfold over. vm_compute. split; [auto|]. split; [auto|]. split; [intros _ E; discriminate|intros H; exfalso; apply H; exact I]. Qed.
Example ex_defined : forall t, In t ex_log -> exists x, In x t /\ In x (all_activities ex_log).
Proof. intros t H. exists 1. split; [|vm_compute; auto]. unfold ex_log in H. cbn [In] in H. destruct H as [<-|[<-|[<-|[<-|[]]]]]; cbn; auto. Qed.
