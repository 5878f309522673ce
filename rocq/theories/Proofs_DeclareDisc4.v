(** Proofs about the discovery of DECLARE models: the whole table, the selection of the rules. *)
From Coq Require Import List Arith Bool ZArith QArith Lia.
Import ListNotations.
From Verif Require Import Model_Dict Proofs_Dict Model_Dfg Spec_Dfg Proofs_Dfg Model_Declare Spec_Declare Proofs_Declare Props_Declare Model_DeclareDisc Spec_DeclareDisc
  Proofs_DeclareDisc Proofs_DeclareDisc2 Proofs_DeclareDisc3.
Local Open Scope nat_scope.
Local Arguments keqb {K Key} : simpl never.
Local Arguments Nat.ltb : simpl never.
Local Arguments mem : simpl never.

Lemma bind_some {A B} (x : option A) (f : A -> option B) y : bind x f = Some y -> exists a, x = Some a /\ f a = Some y.
Proof. destruct x; cbn; [eauto|discriminate]. Qed.
Definition all_templates : list template :=
  [EXISTENCE; EXACTLY_ONE; INIT; RESPONDED_EXISTENCE; RESPONSE; PRECEDENCE; SUCCESSION; ALTRESPONSE; ALTPRECEDENCE; ALTSUCCESSION; CHAINRESPONSE; CHAINPRECEDENCE;
   CHAINSUCCESSION; ABSENCE; COEXISTENCE; NONCOEXISTENCE; NONSUCCESSION; NONCHAINSUCCESSION].
Lemma u_ok T acts : ~ binary T -> (forall c, In c (unary_cols T acts) -> fst c = T /\ over acts T (snd c)) /\ (forall k, over acts T k -> In (T, k) (unary_cols T acts)).
Proof. intros B. split; [intros c H; apply unary_in; auto|intros k H; apply in_unary; auto]. Qed.
Lemma b_ok T acts : binary T -> (forall c, In c (binary_cols T acts) -> fst c = T /\ over acts T (snd c)) /\ (forall k, over acts T k -> In (T, k) (binary_cols T acts)).
Proof. intros B. split; [intros c H; apply binary_in; auto|intros k H; apply in_binary; auto]. Qed.
Lemma considered_in acts t x : In x (considered acts t) <-> In x t /\ In x acts.
Proof.
  unfold considered. rewrite filter_In, existsb_exists. split; intros [H1 H2]; split; auto; [|exists x; split; auto; apply Nat.eqb_refl]. destruct H2 as (y & H2 & E). apply Nat.eqb_eq in E. subst. auto.
Qed.
Lemma considered_restricted acts t : restricted acts t (considered acts t).
Proof.
  unfold restricted, considered. apply filter_ext. intros x. destruct (in_dec Nat.eq_dec x acts) as [H|H].
  - apply existsb_exists. exists x. split; auto. apply Nat.eqb_refl.
  - destruct (existsb (Nat.eqb x) acts) eqn:E; auto. apply existsb_exists in E. destruct E as (y & E1 & E2). apply Nat.eqb_eq in E2. subst. tauto.
Qed.
Lemma assign_total f cs : forall tb, (forall tb' c, (forall x, d_get tb x <> None -> d_get tb' x <> None) -> In c cs -> f tb' c <> None) -> exists tb', assign f cs tb = Some tb'.
Proof.
  induction cs as [|c cs IH]; intros tb H; cbn [assign]; [eauto|]. destruct (f tb c) as [v|] eqn:E; [|exfalso; apply (H tb c); auto; left; auto].
  apply IH. intros tb' c' Hk Hc. apply H; [|right; auto]. intros x Hx. apply Hk. rewrite d_get_set. destruct (keqb c x); [discriminate|auto].
Qed.
Section F.
  Variable allowed : list template.
  Variable acts : list nat.
  Variable l : log.
  Hypothesis Hl : l <> [].
  Definition ts : list trace := spread (c_of (map (considered acts) l)).
  Lemma ts_count P : length (filter P ts) = length (filter P (map (considered acts) l)).
  Proof. apply spread_count. Qed.
  Lemma ts_len : length ts = length l.
  Proof.
    pose proof (ts_count (fun _ => true)) as H. assert (F : forall x : list trace, filter (fun _ => true) x = x) by (induction x; cbn; congruence). rewrite !F, map_length in H. auto.
  Qed.
  Lemma ts_acts t : In t ts -> forall x, In x t -> In x acts.
  Proof. intros H x Hx. apply spread_in in H. apply in_map_iff in H. destruct H as (u & <- & _). apply considered_in in Hx. tauto. Qed.
  Lemma ts_ne : ts <> [].
  Proof. intros E. pose proof ts_len as H. rewrite E in H. destruct l; [congruence|discriminate]. Qed.

  Definition K (rs : list row) (done : list template) (tb : table) : Prop :=
    W allowed acts ts tb /\ grows (to_table rs) tb /\ forall T, In T done -> computed allowed T -> comp acts ts T tb.
  Lemma K_step rs st T done tb tb' : step_ok allowed acts ts rs st T -> K rs done tb -> st tb = Some tb' -> K rs (T :: done) tb'.
  Proof.
    intros S (H1 & H2 & H3) E. destruct (S tb tb' H1 H2 E) as (G1 & G2 & G3). split; auto. split; [eapply grows_trans; eauto|]. intros T' [<-|H] HT; auto. eapply grows_comp; [|eauto]. auto.
  Qed.
  Lemma form_ok tb n : form_rules_table allowed acts l = Some (tb, n) -> W allowed acts ts tb /\ (forall T, computed allowed T -> comp acts ts T tb) /\ (tb <> [] -> n = length l).
  Proof.
    intros E. unfold form_rules_table in E. apply bind_some in E. destruct E as (rs & Er & E). cbv zeta in E. apply rows_ok in Er. fold ts in Er.
    assert (K0 : K rs [EXISTENCE; INIT] (to_table rs)).
    { split; [exact (table_W allowed acts ts rs ts_acts Er)|]. split; [apply grows_refl|]. intros T HT HC k HO. assert (HT' : T = EXISTENCE \/ T = INIT) by (destruct HT as [<-|[<-|[]]]; auto).
      apply (always allowed acts ts rs ts_acts Er T k ts_ne HT'); auto. apply HC. destruct HT' as [->| ->]; cbn; auto. }
    Ltac nextstep E K0 L := 
      let tb := fresh "tb" in let H := fresh "H" in apply bind_some in E; destruct E as (tb & H & E); eapply (K_step _ _ _ _ _ _ L) in K0; [|exact H]; clear H.
    assert (FU : forall T, base T = true -> ~ binary T -> step_ok allowed acts ts rs (fill_2 allowed (columns rs) T (unary_cols T acts)) T) by (intros T B1 B2; exact (fill_ok allowed acts ts rs ts_acts Er T _ B1 (proj1 (u_ok T acts B2)) (proj2 (u_ok T acts B2)))).
    assert (FB : forall T, base T = true -> binary T -> step_ok allowed acts ts rs (fill_2 allowed (columns rs) T (binary_cols T acts)) T) by (intros T B1 B2; exact (fill_ok allowed acts ts rs ts_acts Er T _ B1 (proj1 (b_ok T acts B2)) (proj2 (b_ok T acts B2)))).
    nextstep E K0 (absence_ok allowed acts ts rs).
    nextstep E K0 (FU EXACTLY_ONE eq_refl (fun f => f)).
    nextstep E K0 (FB RESPONDED_EXISTENCE eq_refl I).
    nextstep E K0 (FB RESPONSE eq_refl I).
    nextstep E K0 (FB PRECEDENCE eq_refl I).
    nextstep E K0 (FB ALTRESPONSE eq_refl I).
    nextstep E K0 (FB CHAINRESPONSE eq_refl I).
    nextstep E K0 (FB ALTPRECEDENCE eq_refl I).
    nextstep E K0 (FB CHAINPRECEDENCE eq_refl I).
    nextstep E K0 (succession_ok allowed acts ts rs SUCCESSION RESPONSE PRECEDENCE I eq_refl (fun _ _ => eq_refl)).
    nextstep E K0 (succession_ok allowed acts ts rs ALTSUCCESSION ALTRESPONSE ALTPRECEDENCE I eq_refl (fun _ _ => eq_refl)).
    nextstep E K0 (succession_ok allowed acts ts rs CHAINSUCCESSION CHAINRESPONSE CHAINPRECEDENCE I eq_refl (fun _ _ => eq_refl)).
    nextstep E K0 (coexistence_ok allowed acts ts rs).
    nextstep E K0 (negated_ok allowed acts ts rs NONCOEXISTENCE COEXISTENCE _ I eq_refl (fun _ _ => eq_refl)).
    nextstep E K0 (negated_ok allowed acts ts rs NONSUCCESSION SUCCESSION _ I eq_refl (fun _ _ => eq_refl)).
    nextstep E K0 (negated_ok allowed acts ts rs NONCHAINSUCCESSION CHAINSUCCESSION _ I eq_refl (fun _ _ => eq_refl)).
    inversion E; subst tb n. destruct K0 as (K1 & _ & K3). split; [exact K1|]. split; [intros T; apply K3; destruct T; cbn; tauto|].
    intros Hne. match goal with |- match ?x with _ => _ end = _ => destruct x as [|[c v] r] end; [congruence|]. rewrite <- ts_len. eapply W_length; [exact K1|left; reflexivity].
  Qed.
  Lemma form_def : acts <> [] -> In EXISTENCE allowed -> (In INIT allowed -> forall t, In t l -> exists x, In x t /\ In x acts) -> exists tn, form_rules_table allowed acts l = Some tn.
  Proof.
    intros Ha He Hi. unfold form_rules_table.
    destruct (rows_def allowed acts (c_of (map (considered acts) l))) as (rs & Er).
    { intros t n H E. assert (I : In t (map (considered acts) l)). { apply (c_of_keys (map (considered acts) l) t). unfold d_keys. apply in_map_iff. exists (t, n). auto. }
      apply in_map_iff in I. destruct I as (u & <- & Iu). unfold row_of in E. destruct (in_t allowed INIT) eqn:EI; [|discriminate]. apply in_t_in in EI. destruct (Hi EI u Iu) as (x & H1 & H2).
      assert (I : In x (considered acts u)) by (apply considered_in; auto). destruct (considered acts u) as [|y v]; [destruct I|]. unfold init_1 in E. destruct acts; discriminate. }
    rewrite Er. cbn [bind]. cbv zeta. apply rows_ok in Er. fold ts in Er.
    assert (K0 : K rs [EXISTENCE; INIT] (to_table rs)).
    { split; [exact (table_W allowed acts ts rs ts_acts Er)|]. split; [apply grows_refl|]. intros T HT HC k HO. assert (HT' : T = EXISTENCE \/ T = INIT) by (destruct HT as [<-|[<-|[]]]; auto).
      apply (always allowed acts ts rs ts_acts Er T k ts_ne HT'); auto. apply HC. destruct HT' as [->| ->]; cbn; auto. }
    assert (FU : forall T, base T = true -> ~ binary T -> step_ok allowed acts ts rs (fill_2 allowed (columns rs) T (unary_cols T acts)) T) by (intros T B1 B2; exact (fill_ok allowed acts ts rs ts_acts Er T _ B1 (proj1 (u_ok T acts B2)) (proj2 (u_ok T acts B2)))).
    assert (FB : forall T, base T = true -> binary T -> step_ok allowed acts ts rs (fill_2 allowed (columns rs) T (binary_cols T acts)) T) by (intros T B1 B2; exact (fill_ok allowed acts ts rs ts_acts Er T _ B1 (proj1 (b_ok T acts B2)) (proj2 (b_ok T acts B2)))).
    (* definedness of the steps *)
    assert (NE : forall done tb, K rs done tb -> In EXISTENCE done -> tb <> []).
    { intros done tb (_ & _ & H3) HI E. destruct acts as [|a r] eqn:Ea; [congruence|]. rewrite <- Ea in *. assert (X : d_get tb (EXISTENCE, (a, a)) = Some (C ts (EXISTENCE, (a, a)))).
      { apply H3; auto; [apply base_computed; auto|]. assert (In a acts) by (rewrite Ea; left; auto). repeat split; cbn; auto; tauto. } rewrite E in X. discriminate. }
    assert (DA : forall done tb, K rs done tb -> In EXISTENCE done -> exists tb', absence_2 allowed acts tb = Some tb').
    { intros done tb HK HI. unfold absence_2. destruct (_ && _) eqn:E; [|eauto]. apply andb_true_iff in E. destruct E as [_ E]. apply in_t_in in E. apply assign_total. intros tb' c Hk Hc.
      apply unary_in in Hc; [|exact (fun f => f)]. destruct Hc as [_ Hc]. assert (X : d_get tb' (EXISTENCE, snd c) <> None); [|destruct (d_get tb' (EXISTENCE, snd c)); [discriminate|congruence]].
      apply Hk. destruct HK as (_ & _ & H3). rewrite (H3 EXISTENCE HI); [discriminate|apply base_computed; auto|exact Hc]. }
    assert (DF : forall done tb T all, K rs done tb -> In EXISTENCE done -> exists tb', fill_2 allowed (columns rs) T all tb = Some tb').
    { intros done tb T all HK HI. unfold fill_2. destruct (in_t allowed T); [|eauto]. apply assign_total. intros tb' c Hk _. pose proof (NE _ _ HK HI) as N. destruct tb as [|[c0 v0] tb]; [congruence|].
      assert (X : d_get tb' c0 <> None). { apply Hk. cbn [d_get]. rewrite keqb_refl. discriminate. } unfold zeros. destruct tb' as [|[c1 v1] tb']; [exfalso; apply X; reflexivity|discriminate]. }
    assert (DS : forall done tb T R P, K rs done tb -> binary T -> binary R -> binary P -> needs T = [T; R; P] -> base R = true -> base P = true -> In R done -> In P done -> exists tb', succession_2 T R P allowed acts tb = Some tb').
    { intros done tb T R P HK B1 B2 B3 HN BR BP IR IP. unfold succession_2. destruct (_ && _) eqn:E; [|eauto]. apply andb_true_iff in E. destruct E as [E E3]. apply andb_true_iff in E. destruct E as [_ E2]. apply in_t_in in E2. apply in_t_in in E3.
      apply assign_total. intros tb' c Hk Hc. apply binary_in in Hc; auto. destruct Hc as [_ (O1 & O2 & O3 & _)]. destruct HK as (_ & _ & H3).
      assert (X : d_get tb' (R, snd c) <> None). { apply Hk. rewrite (H3 R IR); [discriminate|apply base_computed; auto|]. repeat split; auto; tauto. }
      assert (Y : d_get tb' (P, snd c) <> None). { apply Hk. rewrite (H3 P IP); [discriminate|apply base_computed; auto|]. repeat split; auto; tauto. }
      destruct (d_get tb' (R, snd c)); [|congruence]. destruct (d_get tb' (P, snd c)); [discriminate|congruence]. }
    assert (DC : forall done tb, K rs done tb -> In RESPONDED_EXISTENCE done -> exists tb', coexistence_2 allowed acts tb = Some tb').
    { intros done tb HK IR. unfold coexistence_2. destruct (_ && _) eqn:E; [|eauto]. apply andb_true_iff in E. destruct E as [_ E2]. apply in_t_in in E2.
      apply assign_total. intros tb' c Hk Hc. apply binary_in in Hc; [|exact I]. destruct Hc as [_ (O1 & O2 & O3 & _)]. specialize (O3 I). destruct HK as (_ & _ & H3).
      assert (X : d_get tb' (RESPONDED_EXISTENCE, snd c) <> None). { apply Hk. rewrite (H3 _ IR); [discriminate|apply base_computed; auto|]. repeat split; auto; cbn; tauto. }
      assert (Y : d_get tb' (RESPONDED_EXISTENCE, (snd (snd c), fst (snd c))) <> None). { apply Hk. rewrite (H3 _ IR); [discriminate|apply base_computed; auto|]. repeat split; auto; cbn; tauto. }
      destruct (d_get tb' (RESPONDED_EXISTENCE, snd c)); [|congruence]. destruct (d_get tb' (RESPONDED_EXISTENCE, (snd (snd c), fst (snd c)))); [discriminate|congruence]. }
    assert (DN : forall done tb T S, K rs done tb -> binary T -> binary S -> (forall x, In x (needs S) -> In x (needs T)) -> In S done -> exists tb', negated_2 T S (needs T) allowed acts tb = Some tb').
    { intros done tb T S HK B1 B2 HN IS. unfold negated_2. destruct (forallb _ _) eqn:E; [|eauto]. apply (computed_in allowed T (needs T) eq_refl) in E.
      apply assign_total. intros tb' c Hk Hc. apply binary_in in Hc; auto. destruct Hc as [_ (O1 & O2 & O3 & _)]. destruct HK as (_ & _ & H3).
      assert (X : d_get tb' (S, snd c) <> None). { apply Hk. rewrite (H3 S IS); [discriminate|intros x Hx; auto|]. repeat split; auto; tauto. }
      destruct (d_get tb' (S, snd c)); [discriminate|congruence]. }
    clear NE.
    Ltac defstep K0 D L := let tb := fresh "tb" in let H := fresh "H" in destruct D as (tb & H); cbn [needs] in H; rewrite H; cbn [bind]; eapply (K_step _ _ _ _ _ _ L) in K0; [|exact H]; clear H.
    Ltac mem_ := cbn [In]; tauto.
    defstep K0 (DA _ _ K0 ltac:(mem_)) (absence_ok allowed acts ts rs).
    defstep K0 (DF _ _ EXACTLY_ONE (unary_cols EXACTLY_ONE acts) K0 ltac:(mem_)) (FU EXACTLY_ONE eq_refl (fun f => f)).
    defstep K0 (DF _ _ RESPONDED_EXISTENCE (binary_cols RESPONDED_EXISTENCE acts) K0 ltac:(mem_)) (FB RESPONDED_EXISTENCE eq_refl I).
    defstep K0 (DF _ _ RESPONSE (binary_cols RESPONSE acts) K0 ltac:(mem_)) (FB RESPONSE eq_refl I).
    defstep K0 (DF _ _ PRECEDENCE (binary_cols PRECEDENCE acts) K0 ltac:(mem_)) (FB PRECEDENCE eq_refl I).
    defstep K0 (DF _ _ ALTRESPONSE (binary_cols ALTRESPONSE acts) K0 ltac:(mem_)) (FB ALTRESPONSE eq_refl I).
    defstep K0 (DF _ _ CHAINRESPONSE (binary_cols CHAINRESPONSE acts) K0 ltac:(mem_)) (FB CHAINRESPONSE eq_refl I).
    defstep K0 (DF _ _ ALTPRECEDENCE (binary_cols ALTPRECEDENCE acts) K0 ltac:(mem_)) (FB ALTPRECEDENCE eq_refl I).
    defstep K0 (DF _ _ CHAINPRECEDENCE (binary_cols CHAINPRECEDENCE acts) K0 ltac:(mem_)) (FB CHAINPRECEDENCE eq_refl I).
    defstep K0 (DS _ _ SUCCESSION RESPONSE PRECEDENCE K0 I I I eq_refl eq_refl eq_refl ltac:(mem_) ltac:(mem_)) (succession_ok allowed acts ts rs SUCCESSION RESPONSE PRECEDENCE I eq_refl (fun _ _ => eq_refl)).
    defstep K0 (DS _ _ ALTSUCCESSION ALTRESPONSE ALTPRECEDENCE K0 I I I eq_refl eq_refl eq_refl ltac:(mem_) ltac:(mem_)) (succession_ok allowed acts ts rs ALTSUCCESSION ALTRESPONSE ALTPRECEDENCE I eq_refl (fun _ _ => eq_refl)).
    defstep K0 (DS _ _ CHAINSUCCESSION CHAINRESPONSE CHAINPRECEDENCE K0 I I I eq_refl eq_refl eq_refl ltac:(mem_) ltac:(mem_)) (succession_ok allowed acts ts rs CHAINSUCCESSION CHAINRESPONSE CHAINPRECEDENCE I eq_refl (fun _ _ => eq_refl)).
    defstep K0 (DC _ _ K0 ltac:(mem_)) (coexistence_ok allowed acts ts rs).
    defstep K0 (DN _ _ NONCOEXISTENCE COEXISTENCE K0 I I ltac:(cbn [needs In]; tauto) ltac:(mem_)) (negated_ok allowed acts ts rs NONCOEXISTENCE COEXISTENCE _ I eq_refl (fun _ _ => eq_refl)).
    defstep K0 (DN _ _ NONSUCCESSION SUCCESSION K0 I I ltac:(cbn [needs In]; tauto) ltac:(mem_)) (negated_ok allowed acts ts rs NONSUCCESSION SUCCESSION _ I eq_refl (fun _ _ => eq_refl)).
    defstep K0 (DN _ _ NONCHAINSUCCESSION CHAINSUCCESSION K0 I I ltac:(cbn [needs In]; tauto) ltac:(mem_)) (negated_ok allowed acts ts rs NONCHAINSUCCESSION CHAINSUCCESSION _ I eq_refl (fun _ _ => eq_refl)).
    eauto.
  Qed.
End F.

(** ** The selection *)
Lemma qlt_lt x y : qlt x y = true <-> (x < y)%Q.
Proof. unfold qlt. rewrite negb_true_iff. split; [intros H; apply Qnot_le_lt; intros G; apply Qle_bool_iff in G; congruence|]. intros H. destruct (Qle_bool y x) eqn:E; auto. apply Qle_bool_iff in E. exfalso. apply (Qlt_not_le x y); auto. Qed.
Definition kept (n : nat) (ms mc : Q) (v : list Z) : Prop := (qn n * ms < qn (supp v))%Q /\ (qn (supp v) * mc < qn (conf v))%Q.
Lemma keep_entry n ms mc m cv T k : entry (keep n ms mc m cv) T k = if keqb (fst cv) (T, k) && (qlt (qn n * ms)%Q (qn (supp (snd cv))) && qlt (qn (supp (snd cv)) * mc)%Q (qn (conf (snd cv)))) then Some (supp (snd cv), conf (snd cv)) else entry m T k.
Proof.
  destruct cv as [[T' k'] v]. unfold keep. cbn [fst snd]. destruct (qlt _ (qn (supp v))); cbn [andb]; [|rewrite andb_false_r; auto]. destruct (qlt _ (qn (conf v))); cbn [andb]; [|rewrite andb_false_r; auto]. rewrite andb_true_r.
  change (keqb (T', k') (T, k)) with (keqb T' T && keqb k' k). unfold entry. rewrite d_get_set. destruct (keqb_spec T' T) as [->|N]; cbn [andb].
  - rewrite d_get_set. destruct (keqb_spec k' k) as [->|N]; auto. unfold d_mem. destruct (d_get m T) eqn:E; [rewrite E; auto|]. rewrite d_get_set_same. auto.
  - unfold d_mem. destruct (d_get m T'); auto. rewrite d_get_set_other; auto.
Qed.
Lemma rules_entry n ms mc tb : NoDup (d_keys tb) -> forall T k s c, entry (rules_of n ms mc tb) T k = Some (s, c) <-> exists v, d_get tb (T, k) = Some v /\ s = supp v /\ c = conf v /\ kept n ms mc v.
Proof.
  intros Hn T k s c. unfold rules_of.
  assert (G : forall m, entry m T k = None -> entry (fold_left (keep n ms mc) tb m) T k = Some (s, c) <-> exists v, d_get tb (T, k) = Some v /\ s = supp v /\ c = conf v /\ kept n ms mc v); [|apply G; reflexivity].
  assert (G2 : forall tb m, ~ In (T, k) (d_keys tb) -> entry (fold_left (keep n ms mc) tb m) T k = entry m T k).
  { clear. induction tb as [|[c v] tb IH]; intros m H; cbn [fold_left]; auto. cbn [d_keys map In fst] in H. rewrite IH by tauto. rewrite keep_entry. cbn [fst]. rewrite keqb_neq by (intros ->; apply H; left; auto). reflexivity. }
  induction tb as [|[c0 v0] tb IH]; intros m Hm.
  - cbn. rewrite Hm. split; [discriminate|intros (v & H & _); discriminate].
  - cbn [fold_left d_keys map] in *. inversion Hn as [|? ? Hn1 Hn2]; subst. cbn [fst] in Hn1. cbn [d_get]. destruct (keqb_spec c0 (T, k)) as [->|N].
    + rewrite G2 by auto. rewrite keep_entry. cbn [fst snd]. rewrite keqb_refl. cbn [andb]. destruct (_ && _) eqn:E.
      * apply andb_true_iff in E. destruct E as [E1 E2]. apply qlt_lt in E1. apply qlt_lt in E2. split; [intros [= <- <-]; exists v0; unfold kept; auto|]. intros (v & [= <-] & -> & -> & _). auto.
      * rewrite Hm. split; [discriminate|]. intros (v & [= <-] & _ & _ & [E1 E2]). apply qlt_lt in E1. apply qlt_lt in E2. rewrite E1, E2 in E. discriminate.
    + apply IH; auto. rewrite keep_entry. cbn [fst]. rewrite (keqb_neq _ _ N). cbn [andb]. auto.
Qed.
