(** Proofs: visible transitions eventually enabled by a marking. *)
From stdpp Require Import gmap.
From Coq Require Import ZArith Lia List.
From Verif Require Import Model_Petri Spec_Petri Proofs_Petri Model_Align Model_Dict Proofs_Dict Model_Precision Spec_Precision.
Import ListNotations.
Local Open Scope Z_scope.

Lemma visible_app a b : visible (a ++ b) = visible a ++ visible b.
Proof. induction a as [|t a IH]; cbn; [reflexivity|]. rewrite IH. destruct (t_label t); reflexivity. Qed.

Lemma silently_refl pn m : silently pn m m.
Proof. exists []. split; [constructor|reflexivity]. Qed.
Lemma silently_step pn m m1 t m2 :
  silently pn m m1 -> fires pn t m1 m2 -> t_label t = None -> silently pn m m2.
Proof.
  intros (ts & Hr & Hv) Hf Hl. exists (ts ++ [t]). split.
  - eapply run_app; [exact Hr|]. econstructor; [exact Hf|constructor].
  - rewrite visible_app, Hv. cbn. rewrite Hl. reflexivity.
Qed.
Lemma silently_proper pn m m' : proper m -> silently pn m m' -> proper m'.
Proof. intros Hm (ts & Hr & _). eapply run_proper; eassumption. Qed.

Section EE.
  Variables (pn : petri_net (option nat)) (m0 : marking).
  Hypothesis Hid : distinct_ids pn.
  Hypothesis Hsn : simple_net pn.
  Hypothesis Hm0 : proper m0.

  Lemma ident t : In t (n_trans pn) -> identified pn t.
  Proof.
    intros Ht u Hu E. unfold distinct_ids in Hid. clear Hsn.
    revert Ht Hu Hid. induction (n_trans pn) as [|x l IH]; [intros []|]. cbn [map].
    intros H1 H2 Hn. inversion Hn as [|? ? Hx Hl]; subst.
    destruct H1 as [->|H1], H2 as [->|H2]; [reflexivity| | |apply IH; auto].
    - exfalso. apply Hx. rewrite <- E. apply in_map, H2.
    - exfalso. apply Hx. rewrite E. apply in_map, H1.
  Qed.

  Lemma enabled_trans_iff m t : proper m -> In t (enabled_transitions pn m) <-> In t (n_trans pn) /\ enabled_at t m.
  Proof.
    intros Hm. unfold enabled_transitions. rewrite filter_In. split.
    - intros [Hin H]. apply (is_enabled_iff pn t m) in H; auto using ident.
    - intros [Hin H]. split; [exact Hin|]. apply is_enabled_iff; auto using ident.
  Qed.

  (** the dictionary after the update with [new] *)
  Lemma dict_update (new : list (transition (option nat))) (m' : marking) (d : dict nat marking) (k : nat) :
    d_get (fold_left (fun d (t2 : transition (option nat)) => d_set d (t_id t2) m') new d) k
    = if existsb (fun t => Nat.eqb (t_id t) k) new then Some m' else d_get d k.
  Proof.
    revert d. induction new as [|t new IH]; intros d; cbn [fold_left existsb]; [reflexivity|].
    rewrite IH, d_get_set. cbn [keqb key_nat]. destruct (Nat.eqb (t_id t) k), (existsb _ new); reflexivity.
  Qed.

  (** [m] is a possible value of the dictionary for [t] *)
  Definition at_ok (t : transition (option nat)) (m : marking) : Prop :=
    silently pn m0 m /\ In t (n_trans pn) /\ enabled_at t m.

  Record EInv (st : ee_state) : Prop := {
    ei_dict : forall t, In t (n_trans pn) -> forall m, d_get (ee_dict st) (t_id t) = Some m -> at_ok t m;
    ei_queue : forall t, In t (ee_queue st) -> In t (n_trans pn) /\ d_get (ee_dict st) (t_id t) <> None;
    ei_vis : forall t, In t (ee_visible st) -> eventually_enabled pn m0 t;
    ei_visited : forall i m, In (i, m) (ee_visited st) -> exists t, t_id t = i /\ at_ok t m
  }.

  Lemma update_dict_ok (d : dict nat marking) (m' : marking) :
    silently pn m0 m' -> proper m' ->
    (forall t, In t (n_trans pn) -> forall m, d_get d (t_id t) = Some m -> at_ok t m) ->
    forall t, In t (n_trans pn) -> forall m,
      d_get (fold_left (fun d t2 => d_set d (t_id t2) m') (enabled_transitions pn m') d) (t_id t) = Some m -> at_ok t m.
  Proof.
    intros Hs Hp Hd t Ht m. rewrite dict_update. destruct (existsb _ _) eqn:E; [|apply Hd, Ht].
    intros [= <-]. apply existsb_exists in E as (u & Hu & E). apply Nat.eqb_eq in E.
    apply enabled_trans_iff in Hu as [Hu He]; [|exact Hp].
    assert (u = t) as -> by (apply (ident t Ht); auto). split; auto.
  Qed.
  Lemma update_dict_some (d : dict nat marking) (m' : marking) t :
    In t (enabled_transitions pn m') \/ d_get d (t_id t) <> None ->
    d_get (fold_left (fun d t2 => d_set d (t_id t2) m') (enabled_transitions pn m') d) (t_id t) <> None.
  Proof.
    intros H. rewrite dict_update. destruct (existsb _ _) eqn:E; [discriminate|].
    destruct H as [H|H]; [|exact H]. exfalso.
    assert (existsb (fun t0 => Nat.eqb (t_id t0) (t_id t)) (enabled_transitions pn m') = true); [|congruence].
    apply existsb_exists. exists t. split; [exact H|apply Nat.eqb_refl].
  Qed.

  Lemma einv_init : EInv (EE (enabled_transitions pn m0)
    (fold_left (fun d t => d_set d (t_id t) m0) (enabled_transitions pn m0) []) [] []).
  Proof.
    constructor; cbn [ee_dict ee_queue ee_visible ee_visited].
    - apply update_dict_ok; [apply silently_refl|exact Hm0|]. intros t _ m [=].
    - intros t Ht. split; [apply enabled_trans_iff in Ht; [apply Ht|exact Hm0]|].
      apply update_dict_some. left. exact Ht.
    - intros t [].
    - intros i m [].
  Qed.

  Lemma einv_tail q t d v w : EInv (EE (t :: q) d v w) -> EInv (EE q d v w).
  Proof.
    intros [A B C D]. constructor; cbn [ee_dict ee_queue ee_visible ee_visited] in *; auto.
    intros u Hu. apply B. right. exact Hu.
  Qed.

  Lemma einv_visit q t d v w m : EInv (EE (t :: q) d v w) -> d_get d (t_id t) = Some m ->
    EInv (ee_visit pn (EE q d v w) t m).
  Proof.
    intros HI Hm. pose proof HI as [A B C D]. cbn [ee_dict ee_queue ee_visible ee_visited] in *.
    destruct (B t (or_introl eq_refl)) as [Ht _].
    pose proof (A t Ht m Hm) as Hat. destruct Hat as (Hs & _ & He).
    assert (Hvis : forall i m1, In (i, m1) ((t_id t, m) :: w) -> exists t0, t_id t0 = i /\ at_ok t0 m1).
    { intros i m1 [[= <- <-]|H]; [exists t; repeat split; auto|apply D, H]. }
    unfold ee_visit. cbn [ee_dict ee_queue ee_visible ee_visited].
    destruct (t_label t) as [a|] eqn:El.
    - constructor; cbn [ee_dict ee_queue ee_visible ee_visited]; auto.
      + intros u Hu. apply B. right. exact Hu.
      + intros u [<-|Hu]; [|apply C, Hu]. split; [exact Ht|]. split; [congruence|]. exists m. auto.
    - destruct (execute t pn m) as [m'|] eqn:Ex.
      + assert (Hpm : proper m) by (eapply silently_proper; [exact Hm0|exact Hs]).
        apply execute_some in Ex; [|apply ident, Ht|apply Hsn, Ht|exact Hpm].
        assert (Hs' : silently pn m0 m') by (eapply silently_step; eassumption).
        assert (Hp' : proper m') by apply Ex.
        constructor; cbn [ee_dict ee_queue ee_visible ee_visited]; auto.
        * apply update_dict_ok; auto.
        * intros u Hu. apply in_app_iff in Hu as [Hu|Hu].
          -- destruct (B u (or_intror Hu)) as [H1 H2]. split; [exact H1|]. apply update_dict_some. auto.
          -- split; [apply enabled_trans_iff in Hu; [apply Hu|exact Hp']|]. apply update_dict_some. auto.
      + constructor; cbn [ee_dict ee_queue ee_visible ee_visited]; auto.
        intros u Hu. apply B. right. exact Hu.
  Qed.

  Lemma ee_loop_sound fuel : forall st r, EInv st -> ee_loop fuel pn st = Some r ->
    forall t, In t r -> eventually_enabled pn m0 t.
  Proof.
    induction fuel as [|fuel IH]; intros [q d v w] r HI; cbn [ee_loop ee_queue].
    - destruct q; [|discriminate]. intros [= <-]. apply (ei_vis _ HI).
    - destruct q as [|t q]; [intros [= <-]; apply (ei_vis _ HI)|]. cbn [ee_dict ee_visible ee_visited].
      destruct (ei_queue _ HI t (or_introl eq_refl)) as [_ Hsome]. cbn [ee_dict] in Hsome.
      destruct (d_get d (t_id t)) as [m|] eqn:Em; [|congruence].
      destruct (bool_decide _); intros H; (eapply IH; [|exact H]).
      + eapply einv_tail, HI.
      + eapply einv_visit; eassumption.
  Qed.

  Theorem visible_sound fuel r : visible_eventually_enabled fuel pn m0 = Some r ->
    forall t, In t r -> eventually_enabled pn m0 t.
  Proof. intros H. eapply ee_loop_sound; [apply einv_init|exact H]. Qed.

  (** Completeness when no silent transition is concurrent with another. *)
  Section Complete.
    Hypothesis HU : no_silent_concurrency pn m0.

    (** [t] is in the queue or was visited, and if visited its effects are recorded *)
    Definition seen (st : ee_state) (t : transition (option nat)) : Prop :=
      In t (ee_queue st) \/ exists m, In (t_id t, m) (ee_visited st).
    Record CInv (st : ee_state) : Prop := {
      ci_inv : EInv st;
      ci_init : forall t, In t (n_trans pn) -> enabled_at t m0 -> seen st t;
      ci_vis : forall t m, In t (n_trans pn) -> In (t_id t, m) (ee_visited st) -> t_label t <> None -> In t (ee_visible st);
      ci_succ : forall t m m' u, In t (n_trans pn) -> In (t_id t, m) (ee_visited st) -> t_label t = None ->
                  fires pn t m m' -> In u (n_trans pn) -> enabled_at u m' -> seen st u
    }.

    Lemma cinv_done st : CInv st -> ee_queue st = [] ->
      forall t, eventually_enabled pn m0 t -> In t (ee_visible st).
    Proof.
      intros HC Hq t (Ht & Hl & m' & (ts & Hr & Hv) & He).
      assert (Hseen : forall ts m1, run pn m0 ts m1 -> visible ts = [] ->
                forall u, In u (n_trans pn) -> enabled_at u m1 -> exists m, In (t_id u, m) (ee_visited st)).
      { clear t Ht Hl m' ts Hr Hv He. intros ts. induction ts as [|t ts IH] using rev_ind; intros m1 Hr Hv u Hu He.
        - inversion Hr; subst. destruct (ci_init _ HC u Hu He) as [H|H]; [rewrite Hq in H; destruct H|exact H].
        - apply run_app_inv in Hr as (m2 & Hr1 & Hr2). inversion Hr2 as [|? ? m3 ? ? Hf Hr3]; subst.
          inversion Hr3; subst. rewrite visible_app in Hv. apply app_eq_nil in Hv as [Hv1 Hv2].
          assert (Hlt : t_label t = None).
          { cbn in Hv2. destruct (t_label t); [discriminate|reflexivity]. }
          pose proof Hf as (Htn & Het & _).
          destruct (IH m2 Hr1 Hv1 t Htn Het) as [m Hm].
          destruct (ei_visited _ (ci_inv _ HC) _ _ Hm) as (t' & Eid & (Hs' & Ht' & He')).
          assert (t' = t) as -> by (apply (ident t Htn); auto).
          assert (m = m2) as ->.
          { eapply (HU t); eauto. exists ts. auto. }
          destruct (ci_succ _ HC t m2 m1 u Htn Hm Hlt Hf Hu He) as [H|H]; [rewrite Hq in H; destruct H|exact H]. }
      destruct (Hseen ts m' Hr Hv t Ht He) as [m Hm]. eapply (ci_vis _ HC); eassumption.
    Qed.

    Lemma cinv_init : CInv (EE (enabled_transitions pn m0)
      (fold_left (fun d t => d_set d (t_id t) m0) (enabled_transitions pn m0) []) [] []).
    Proof.
      constructor; cbn [ee_visited]; [apply einv_init| | |]; try (intros; contradiction).
      intros t Ht He. left. apply enabled_trans_iff; auto.
    Qed.

    Lemma cinv_tail q t d v w m : CInv (EE (t :: q) d v w) -> In (t_id t, m) w -> CInv (EE q d v w).
    Proof.
      intros [A B C D] Hm. cbn [ee_visited ee_visible ee_queue] in *.
      assert (Hsn' : forall u, seen (EE (t :: q) d v w) u -> seen (EE q d v w) u).
      { intros u [[<-|H]|H]; [right; exists m; exact Hm|left; exact H|right; exact H]. }
      constructor; cbn [ee_visited ee_visible ee_queue]; eauto using einv_tail.
    Qed.

    Lemma cinv_visit q t d v w m : CInv (EE (t :: q) d v w) -> d_get d (t_id t) = Some m ->
      CInv (ee_visit pn (EE q d v w) t m).
    Proof.
      intros [A B C D] Hm. cbn [ee_visited ee_visible ee_queue] in *.
      pose proof (einv_visit _ _ _ _ _ _ A Hm) as HI'.
      destruct (ei_queue _ A t (or_introl eq_refl)) as [Ht _].
      assert (Hat : at_ok t m) by (apply (ei_dict _ A t Ht), Hm).
      assert (Hpm : proper m) by (eapply silently_proper; [exact Hm0|apply Hat]).
      assert (Hs1 : forall u st', (forall x, In x q -> In x (ee_queue st')) ->
                 (forall x, In x ((t_id t, m) :: w) -> In x (ee_visited st')) ->
                 seen (EE (t :: q) d v w) u -> seen st' u).
      { intros u st' Hq Hw [[<-|H]|[m1 H]].
        - right. exists m. apply Hw. left. reflexivity.
        - left. apply Hq, H.
        - right. exists m1. apply Hw. right. exact H. }
      revert HI'. unfold ee_visit. cbn [ee_visited ee_visible ee_queue ee_dict].
      destruct (t_label t) as [a|] eqn:El; [|destruct (execute t pn m) as [m'|] eqn:Ex]; intros HI'; (constructor; [exact HI'|..]);
        cbn [ee_visited ee_visible ee_queue] in *.
      - intros u Hu He. apply Hs1; [cbn; auto|cbn; auto|]. apply B; assumption.
      - intros u m1 Hu [[= E _]|H] Hl.
        + left. apply (ident u Hu); auto.
        + right. eapply C; eassumption.
      - intros x m1 m1' u Hx [[= E _]|H] Hl Hf Hu He.
        + assert (t = x) by (apply (ident x Hx); auto). congruence.
        + apply Hs1; [cbn; auto|cbn; auto|]. eapply (D x m1 m1'); eassumption.
      - intros u Hu He. apply Hs1; [intros x Hx; apply in_app_iff; auto|cbn; auto|]. apply B; assumption.
      - intros u m1 Hu [[= E _]|H] Hl.
        + assert (t = u) by (apply (ident u Hu); auto). congruence.
        + eapply C; eassumption.
      - intros x m1 m1' u Hx [[= E Em]|H] Hl Hf Hu He.
        + assert (t = x) as <- by (apply (ident x Hx); auto). subst m1.
          apply execute_some in Ex; [|apply ident, Ht|apply Hsn, Ht|exact Hpm].
          assert (m1' = m') as -> by (eapply fires_det; eassumption).
          left. cbn. apply in_app_iff. right. apply enabled_trans_iff; [apply Ex|auto].
        + apply Hs1; [intros y Hy; apply in_app_iff; auto|cbn; auto|]. eapply (D x m1 m1'); eassumption.
      - intros u Hu He. apply Hs1; [cbn; auto|cbn; auto|]. apply B; assumption.
      - intros u m1 Hu [[= E _]|H] Hl.
        + assert (t = u) by (apply (ident u Hu); auto). congruence.
        + eapply C; eassumption.
      - intros x m1 m1' u Hx [[= E Em]|H] Hl Hf Hu He.
        + assert (t = x) as <- by (apply (ident x Hx); auto). subst m1.
          apply (execute_some pn t m m1') in Hf; [congruence|apply ident, Ht|apply Hsn, Ht|exact Hpm].
        + apply Hs1; [cbn; auto|cbn; auto|]. eapply (D x m1 m1'); eassumption.
    Qed.

    Lemma ee_loop_complete fuel : forall st r, CInv st -> ee_loop fuel pn st = Some r ->
      forall t, eventually_enabled pn m0 t -> In t r.
    Proof.
      induction fuel as [|fuel IH]; intros [q d v w] r HC; cbn [ee_loop ee_queue].
      - destruct q; [|discriminate]. intros [= <-] t Ht. apply (cinv_done _ HC eq_refl t Ht).
      - destruct q as [|t q]; [intros [= <-] t Ht; apply (cinv_done _ HC eq_refl t Ht)|].
        cbn [ee_dict ee_visible ee_visited].
        destruct (ei_queue _ (ci_inv _ HC) t (or_introl eq_refl)) as [_ Hsome]. cbn [ee_dict] in Hsome.
        destruct (d_get d (t_id t)) as [m|] eqn:Em; [|congruence].
        destruct (bool_decide ((t_id t, m) ∈ w)) eqn:Ew; intros H; (eapply IH; [|exact H]).
        + eapply cinv_tail; [exact HC|]. apply bool_decide_eq_true in Ew. apply elem_of_list_In, Ew.
        + eapply cinv_visit; eassumption.
    Qed.

    Theorem visible_complete fuel r : visible_eventually_enabled fuel pn m0 = Some r ->
      forall t, eventually_enabled pn m0 t -> In t r.
    Proof. intros H. eapply ee_loop_complete; [apply cinv_init|exact H]. Qed.
  End Complete.

  (** Termination when finitely many markings are silently reachable. *)
  Lemma enabled_length m : (length (enabled_transitions pn m) <= length (n_trans pn))%nat.
  Proof.
    unfold enabled_transitions. generalize (fun t => is_enabled t pn m). intros f. clear Hid Hsn.
    induction (n_trans pn) as [|t l IH]; cbn [List.filter length]; [lia|].
    destruct (f t); cbn [length]; lia.
  Qed.

  Lemma ee_loop_terminates (l : list marking) :
    (forall m, silently pn m0 m -> In m l) ->
    forall fuel st, EInv st -> base.NoDup (ee_visited st) ->
    (length (ee_queue st) + (length (n_trans pn) * length l - length (ee_visited st)) * length (n_trans pn) <= fuel)%nat ->
    ee_loop fuel pn st <> None.
  Proof.
    intros Hl. induction fuel as [|fuel IH]; intros [q d v w] HI Hnd Hf; cbn [ee_loop ee_queue ee_visited] in *.
    - destruct q; [discriminate|]. cbn [length] in Hf.
      exfalso. revert Hf. generalize ((length (n_trans pn) * length l - length w) * length (n_trans pn))%nat. lia.
    - destruct q as [|t q]; [discriminate|]. cbn [ee_dict ee_visible ee_visited].
      destruct (ei_queue _ HI t (or_introl eq_refl)) as [Ht Hsome]. cbn [ee_dict] in Hsome.
      destruct (d_get d (t_id t)) as [m|] eqn:Em; [|congruence].
      destruct (bool_decide ((t_id t, m) ∈ w)) eqn:Ew.
      + apply IH; [eapply einv_tail, HI|exact Hnd|]. cbn [ee_queue ee_visited length] in *.
        revert Hf. generalize ((length (n_trans pn) * length l - length w) * length (n_trans pn))%nat. lia.
      + apply bool_decide_eq_false in Ew.
        pose proof (einv_visit _ _ _ _ _ _ HI Em) as HI'.
        assert (Hw : ee_visited (ee_visit pn (EE q d v w) t m) = (t_id t, m) :: w).
        { unfold ee_visit. destruct (t_label t); [reflexivity|]. destruct (execute t pn m); reflexivity. }
        assert (Hq : (length (ee_queue (ee_visit pn (EE q d v w) t m)) <= length q + length (n_trans pn))%nat).
        { unfold ee_visit. destruct (t_label t); cbn [ee_queue]; [lia|].
          destruct (execute t pn m) as [m'|]; cbn [ee_queue]; [|lia].
          rewrite app_length. pose proof (enabled_length m'). lia. }
        assert (Hlt : (length ((t_id t, m) :: w) <= length (n_trans pn) * length l)%nat).
        { replace (length (n_trans pn) * length l)%nat with (length (list_prod (map t_id (n_trans pn)) l))
            by (rewrite prod_length, map_length; reflexivity).
          apply submseteq_length, NoDup_submseteq; [apply list.NoDup_cons; split; assumption|].
          intros [i m1] Hi. apply elem_of_list_In. apply elem_of_list_In in Hi.
          rewrite <- Hw in Hi. destruct (ei_visited _ HI' _ _ Hi) as (u & <- & (H1 & H2 & _)).
          apply in_prod; [apply in_map, H2|apply Hl, H1]. }
        apply IH; [exact HI'|rewrite Hw; apply list.NoDup_cons; split; assumption|].
        rewrite Hw. cbn [length] in *.
        assert (E : (length (n_trans pn) * length l - length w
                     = S (length (n_trans pn) * length l - S (length w)))%nat) by lia.
        rewrite E in Hf. cbn [Nat.mul] in Hf. revert Hf.
        generalize ((length (n_trans pn) * length l - S (length w)) * length (n_trans pn))%nat. lia.
  Qed.

  Theorem visible_terminates (l : list marking) :
    (forall m, silently pn m0 m -> In m l) ->
    visible_eventually_enabled (length (n_trans pn) + length (n_trans pn) * length l * length (n_trans pn)) pn m0 <> None.
  Proof.
    intros Hl. unfold visible_eventually_enabled. apply (ee_loop_terminates l Hl).
    - apply einv_init.
    - constructor.
    - cbn [ee_queue ee_visited length]. pose proof (enabled_length m0) as He. rewrite Nat.sub_0_r.
      revert He. generalize (length (n_trans pn) * length l * length (n_trans pn))%nat. lia.
  Qed.
End EE.
