(** Proofs about the discovery of DECLARE models: the table. *)
From Coq Require Import List Arith Bool ZArith QArith Lia.
Import ListNotations.
From Verif Require Import Model_Dict Proofs_Dict Model_Dfg Spec_Dfg Proofs_Dfg Model_Declare Spec_Declare Proofs_Declare Props_Declare Model_DeclareDisc Spec_DeclareDisc Proofs_DeclareDisc.
Local Open Scope nat_scope.
Local Arguments keqb {K Key} : simpl never.
Local Arguments Nat.ltb : simpl never.
Local Arguments mem : simpl never.

Lemma in_t_in allowed T : in_t allowed T = true <-> In T allowed.
Proof.
  unfold in_t. rewrite existsb_exists. split; [intros (x & H & E); destruct (template_eqb_spec T x); [subst; auto|discriminate]|]. intros H. exists T. split; auto. destruct (template_eqb_spec T T); auto.
Qed.
Lemma bin_dec T : {binary T} + {~ binary T}.
Proof. destruct T; cbn; auto. Qed.
(** the templates that are computed from the traces *)
Definition base (T : template) : bool :=
  match T with
  | EXISTENCE | EXACTLY_ONE | INIT | RESPONDED_EXISTENCE | RESPONSE | PRECEDENCE | ALTRESPONSE | ALTPRECEDENCE | CHAINRESPONSE | CHAINPRECEDENCE => true
  | _ => false
  end.
Lemma base_computed allowed T : base T = true -> computed allowed T <-> In T allowed.
Proof. destruct T; cbn; try discriminate; intros _; unfold computed; cbn; (split; [intros H; apply H; auto|intros H S [<-|[]]; auto]). Qed.
Lemma in_couples acts t a b : In (a, b) (couples acts t) <-> In a t /\ In b acts /\ a <> b.
Proof.
  unfold couples. rewrite in_flat_map. split.
  - intros (x & H1 & H2). apply (proj1 (c_of_keys _ _)) in H1. apply in_flat_map in H2. destruct H2 as (y & H2 & H3). destruct (Nat.eqb_spec y x) as [|N]; [destruct H3|]. destruct H3 as [H3|[]]. inversion H3; subst. repeat split; auto.
  - intros (H1 & H2 & N). exists a. split; [apply c_of_keys; auto|]. apply in_flat_map. exists b. split; auto. destruct (Nat.eqb_spec b a); [congruence|]. left. auto.
Qed.
Lemma fold_assign (asg : list (col * Z)) : forall d c, 
  (forall v, d_get (fold_left (fun d cv => d_set d (fst cv) (snd cv)) asg d) c = Some v -> In (c, v) asg \/ d_get d c = Some v) /\
  ((d_get d c <> None \/ exists v, In (c, v) asg) -> d_get (fold_left (fun d cv => d_set d (fst cv) (snd cv)) asg d) c <> None).
Proof.
  induction asg as [|[c' v'] asg IH]; intros d c; cbn [fold_left fst snd].
  - split; [auto|]. intros [H|(v & [])]; auto.
  - destruct (IH (d_set d c' v') c) as [I1 I2]. split.
    + intros v H. destruct (I1 v H) as [G|G]; [left; right; auto|]. rewrite d_get_set in G. destruct (keqb_spec c' c) as [->|N]; auto. left. left. congruence.
    + intros H. apply I2. rewrite d_get_set. destruct (keqb_spec c' c) as [->|N]; [left; discriminate|]. destruct H as [H|(v & [[= -> ->]|H])]; [auto|congruence|eauto].
Qed.
Section T.
  Variable allowed : list template.
  Variable acts : list nat.
  Definition good_asg (t : trace) (asg : list (col * Z)) : Prop :=
    forall T k v, In ((T, k), v) asg -> base T = true /\ In T allowed /\ over acts T k /\ v = val T t k.
  Lemma good_app t x y : good_asg t x -> good_asg t y -> good_asg t (x ++ y).
  Proof. intros H1 H2 T k v H. apply in_app_iff in H. destruct H; auto. Qed.
  Lemma good_if t T x : (In T allowed -> good_asg t x) -> good_asg t (only_if (in_t allowed T) x).
  Proof. intros H. destruct (in_t allowed T) eqn:E; [apply H, in_t_in; auto|]. intros ? ? ? []. Qed.
  (** all the assignments that matter are made *)
  Definition full (T : template) (t : trace) (asg : list (col * Z)) : Prop := forall k, over acts T k -> val T t k <> 0%Z -> exists v, In ((T, k), v) asg.
  Lemma couples_over T t k : (forall x, In x t -> In x acts) -> binary T -> In k (couples acts t) -> over acts T k /\ In (fst k) t.
  Proof. destruct k as [a b]. intros S B H. apply in_couples in H. destruct H as (H1 & H2 & N). unfold over. cbn [fst snd]. repeat split; auto. intros X. tauto. Qed.
  Lemma row_ok t r : (forall x, In x t -> In x acts) -> row_of allowed acts t = Some r ->
    (forall T k v, d_get r (T, k) = Some v -> base T = true /\ In T allowed /\ over acts T k /\ v = val T t k) /\
    (forall T k, base T = true -> In T allowed -> over acts T k -> val T t k <> 0%Z -> d_get r (T, k) = Some (val T t k)).
  Proof.
    intros S E. unfold row_of in E. destruct (if in_t allowed INIT then init_1 acts t else Some []) as [i|] eqn:Ei; [|discriminate]. inversion E; subst r; clear E.
    match goal with |- context [fold_left _ ?x []] => set (asg := x) end.
    assert (Gi : good_asg t i /\ (In INIT allowed -> full INIT t i)).
    { destruct (in_t allowed INIT) eqn:EI; [|inversion Ei; subst; split; [intros ? ? ? []|intros X; apply in_t_in in X; congruence]].
      apply in_t_in in EI. unfold init_1 in Ei. assert (CA : acts = [] \/ acts <> []) by (destruct acts; [left|right]; congruence).
      destruct CA as [Ea|Ea]; [rewrite Ea in Ei; inversion Ei; subst i; split; [intros ? ? ? []|intros _ k (H & _); rewrite Ea in H; destruct H]|].
      assert (Ei' : match t with [] => None | x :: _ => Some (map (fun a => ((INIT, (a, a)), if Nat.eqb a x then 1%Z else (-1)%Z)) acts) end = Some i) by (destruct acts; [congruence|exact Ei]). clear Ei. rename Ei' into Ei.
      destruct t as [|x t]; [discriminate|]. inversion Ei; subst i. split.
      - intros T k v H. apply in_map_iff in H. destruct H as (a & [= <- <- <-] & Ha). cbn [base val vbase]. repeat split; auto; cbn [fst snd binary]; tauto.
      - intros _ [a b] (H1 & H2 & _ & H4) _. cbn [fst snd binary] in *. rewrite H4 in H1 |- * by tauto. eexists. apply in_map_iff. exists b. split; [reflexivity|auto]. }
    destruct Gi as [Gi Fi].
    assert (CO : forall T k, binary T -> In k (couples acts t) -> over acts T k /\ In (fst k) t) by (intros; apply couples_over; auto).
    assert (G : good_asg t asg).
    { unfold asg. repeat apply good_app; auto; apply good_if; intros HT T k v H.
      - apply in_map_iff in H. destruct H as (a & [= <- <- <-] & Ha). cbn [base val vbase]. repeat split; auto; cbn [fst snd binary]; tauto.
      - apply in_flat_map in H. destruct H as (a & Ha & H). destruct (mem a t) eqn:Em; [|destruct H]. destruct H as [[= <- <- <-]|[]]. cbn [base val vbase]. rewrite Em. repeat split; auto; cbn [fst snd binary]; tauto.
      - apply in_map_iff in H. destruct H as ([a b] & [= <- <- <-] & Hk). destruct (CO RESPONDED_EXISTENCE _ I Hk) as [O Ia]. repeat split; try apply O; auto. cbn [fst snd val vbase] in *. apply mem_in in Ia. rewrite Ia. destruct (mem b t); auto.
      - apply in_map_iff in H. destruct H as ([a b] & [= <- <- <-] & Hk). destruct (CO RESPONSE _ I Hk) as [O Ia]. repeat split; try apply O; auto. cbn [fst snd val vbase] in *. apply mem_in in Ia. rewrite Ia, !positions_posn. destruct (mem b t); auto.
      - apply in_flat_map in H. destruct H as ([a b] & Hk & H). destruct (mem b t) eqn:Em; cbn [negb] in H; [|destruct H]. destruct H as [[= <- <- <-]|[]]. apply in_couples in Hk. destruct Hk as (Ia & _ & N). apply mem_in in Em as Ib.
        repeat split; auto; cbn [fst snd binary]; auto; try tauto. cbn [val vbase]. apply mem_in in Ia. rewrite Ia, Em, !positions_posn. auto.
      - apply in_map_iff in H. destruct H as ([a b] & [= <- <- <-] & Hk). destruct (CO ALTRESPONSE _ I Hk) as [O Ia]. repeat split; try apply O; auto. cbn [fst snd val vbase] in *. apply mem_in in Ia. rewrite Ia, !positions_posn. destruct (mem b t); auto.
      - apply in_map_iff in H. destruct H as ([a b] & [= <- <- <-] & Hk). destruct (CO CHAINRESPONSE _ I Hk) as [O Ia]. repeat split; try apply O; auto. cbn [fst snd val vbase] in *. apply mem_in in Ia. rewrite Ia, !positions_posn. destruct (mem b t); auto.
      - apply in_flat_map in H. destruct H as ([a b] & Hk & H). destruct (mem b t) eqn:Em; cbn [negb] in H; [|destruct H]. destruct H as [[= <- <- <-]|[]]. apply in_couples in Hk. destruct Hk as (Ia & _ & N). apply mem_in in Em as Ib.
        repeat split; auto; cbn [fst snd binary]; auto; try tauto. cbn [val vbase]. apply mem_in in Ia. rewrite Ia, Em, !positions_posn. auto.
      - apply in_flat_map in H. destruct H as ([a b] & Hk & H). destruct (mem b t) eqn:Em; cbn [negb] in H; [|destruct H]. destruct H as [[= <- <- <-]|[]]. apply in_couples in Hk. destruct Hk as (Ia & _ & N). apply mem_in in Em as Ib.
        repeat split; auto; cbn [fst snd binary]; auto; try tauto. cbn [val vbase]. apply mem_in in Ia. rewrite Ia, Em, !positions_posn. auto. }
    assert (D : forall T k v, d_get (fold_left (fun d cv => d_set d (fst cv) (snd cv)) asg []) (T, k) = Some v -> base T = true /\ In T allowed /\ over acts T k /\ v = val T t k).
    { intros T k v H. destruct (fold_assign asg [] (T, k)) as [F _]. destruct (F v H) as [H'|H']; [|discriminate]. apply G in H'. auto. }
    split; [exact D|]. intros T k HB HA HO HV.
    assert (FA : exists v, In ((T, k), v) asg).
    { assert (IN : forall x : list (col * Z), (exists v, In ((T, k), v) x) -> exists v, In ((T, k), v) (only_if (in_t allowed T) x)) by (intros x Hx; rewrite (proj2 (in_t_in allowed T) HA); auto).
      assert (AP : forall x y : list (col * Z), (exists v, In ((T, k), v) x) \/ (exists v, In ((T, k), v) y) -> exists v : Z, In ((T, k), v) (x ++ y)) by (intros x y [(v & H)|(v & H)]; exists v; apply in_app_iff; auto).
      destruct k as [a b]. destruct HO as (O1 & O2 & O3 & O4). cbn [fst snd] in *. unfold asg.
      assert (Aa : activated T t (a, b)) by (apply val_activated; auto).
      destruct T; try discriminate HB; cbn [binary activated] in *; try (specialize (O3 I)); try (rewrite O4 in * by tauto).
      - apply AP. left. apply IN. eexists. apply in_map_iff. exists b. split; [reflexivity|auto].
      - apply AP. right. apply AP. left. apply IN. eexists. apply in_flat_map. exists b. split; auto. apply mem_in in Aa. rewrite Aa. left. reflexivity.
      - apply AP. right. apply AP. right. apply AP. left. apply Fi; auto. repeat split; cbn; auto. 
      - do 3 (apply AP; right). apply AP. left. apply IN. eexists. apply in_map_iff. exists (a, b). split; [reflexivity|apply in_couples; auto].
      - do 4 (apply AP; right). apply AP. left. apply IN. eexists. apply in_map_iff. exists (a, b). split; [reflexivity|apply in_couples; auto].
      - do 5 (apply AP; right). apply AP. left. apply IN. destruct Aa as [A1 A2]. eexists. apply in_flat_map. exists (b, a). split; [apply in_couples; auto|]. apply mem_in in A1. rewrite A1. left. reflexivity.
      - do 6 (apply AP; right). apply AP. left. apply IN. eexists. apply in_map_iff. exists (a, b). split; [reflexivity|apply in_couples; auto].
      - do 8 (apply AP; right). apply AP. left. apply IN. destruct Aa as [A1 A2]. eexists. apply in_flat_map. exists (b, a). split; [apply in_couples; auto|]. apply mem_in in A1. rewrite A1. left. reflexivity.
      - do 7 (apply AP; right). apply AP. left. apply IN. eexists. apply in_map_iff. exists (a, b). split; [reflexivity|apply in_couples; auto].
      - do 9 (apply AP; right). apply IN. destruct Aa as [A1 A2]. eexists. apply in_flat_map. exists (b, a). split; [apply in_couples; auto|]. apply mem_in in A1. rewrite A1. left. reflexivity. }
    destruct (fold_assign asg [] (T, k)) as [_ F]. specialize (F (or_intror FA)). destruct (d_get _ _) as [v|] eqn:E in F; [|congruence]. rewrite E. apply D in E as (_ & _ & _ & ->). auto.
  Qed.
  (** the traces of the rows *)
  Definition spread (vars : list (trace * nat)) : list trace := flat_map (fun tn => repeat (fst tn) (snd tn)) vars.
  Lemma rows_ok vars : forall rs, rows allowed acts vars = Some rs -> Forall2 (fun t r => row_of allowed acts t = Some r) (spread vars) rs.
  Proof.
    induction vars as [|[t n] vars IH]; intros rs E; cbn [rows] in E; [inversion E; constructor|]. destruct (row_of allowed acts t) as [x|] eqn:Ex; [|discriminate]. destruct (rows _ _ vars) as [y|]; [|discriminate]. inversion E; subst.
    unfold spread. cbn [flat_map fst snd]. apply Forall2_app; [|apply IH; auto]. clear -Ex. induction n; cbn; auto.
  Qed.
  Lemma rows_def vars : (forall t n, In (t, n) vars -> row_of allowed acts t <> None) -> exists rs, rows allowed acts vars = Some rs.
  Proof.
    induction vars as [|[t n] vars IH]; intros H; cbn [rows]; [eauto|]. destruct IH as (y & ->); [intros ? ? G; eapply H; right; eauto|]. destruct (row_of allowed acts t) eqn:E; [eauto|]. exfalso. eapply H; [left; eauto|auto].
  Qed.
  Lemma spread_count (P : trace -> bool) l : length (filter P (spread (c_of l))) = length (filter P l).
  Proof.
    rewrite <- (c_sum_of P l). unfold spread, c_sum. induction (c_of l) as [|[t n] d IH]; cbn [flat_map fst snd map]; [reflexivity|]. rewrite filter_app, app_length, IH.
    assert (R : length (filter P (repeat t n)) = if P t then n else 0). { clear. induction n; cbn; [destruct (P t); auto|]. destruct (P t) eqn:E; cbn; lia. }
    rewrite R. reflexivity.
  Qed.
  Lemma spread_in l t : In t (spread (c_of l)) -> In t l.
  Proof. intros H. unfold spread in H. apply in_flat_map in H. destruct H as ([t' n] & H & G). apply repeat_spec in G. cbn in G. subst. apply (c_of_keys l t'). unfold d_keys. apply in_map_iff. exists (t', n). auto. Qed.
End T.
