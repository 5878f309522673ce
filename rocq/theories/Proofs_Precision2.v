(** Proofs: the search of the markings in which a prefix can stop. *)
From stdpp Require Import gmap.
From Coq Require Import ZArith Lia List.
From Verif Require Import Model_Petri Spec_Petri Proofs_Petri Proofs_Petri2 Model_Align Spec_Align Proofs_Dijkstra
  Model_Precision.
Import ListNotations.
Local Open Scope Z_scope.

Definition allowed (t : transition slabel) : bool :=
  negb (is_log_move (t_label t)
        || (is_model_move (t_label t) && negb (bool_decide ((t_label t).2 = Lab None)))).
Definition rnet (pn : petri_net slabel) : petri_net slabel := Net (n_places pn) (List.filter allowed (n_trans pn)).

Section PSearch.
  Variables (pn : petri_net slabel) (ini stop : marking) (cost : transition slabel -> Z).
  Hypothesis Hsn : simple_net pn.
  Hypothesis Hini : proper ini.
  Hypothesis Hcost : forall t, In t (n_trans pn) -> 0 <= cost t.
  Hypothesis Hinp : forall t, In t (n_trans (rnet pn)) -> t_in t <> [].
  Notation rn := (rnet pn).
  (** leaving a stop state costs something *)
  Hypothesis Hleave : forall m t m', reachable rn ini m -> m_leb stop m = true -> fires rn t m m' -> 0 < cost t.

  Lemma rn_in t : In t (n_trans rn) <-> In t (n_trans pn) /\ allowed t = true.
  Proof. unfold rnet. cbn [n_trans]. apply filter_In. Qed.
  Lemma rn_simple : simple_net rn.
  Proof. intros t Ht. apply rn_in in Ht as [Ht _]. apply Hsn, Ht. Qed.
  Lemma rn_cost t : In t (n_trans rn) -> 0 <= cost t.
  Proof. intros Ht. apply rn_in in Ht as [Ht _]. apply Hcost, Ht. Qed.

  Lemma prefix_enabled_iff m t : proper m ->
    In t (prefix_enabled pn m) <-> In t (n_trans rn) /\ enabled_at t m.
  Proof.
    intros Hm. unfold prefix_enabled. rewrite filter_In. fold (allowed t). rewrite rn_in, !andb_true_iff. split.
    - intros [Hin [[_ H] Ha]]. split; [auto|]. pose proof (Hsn t Hin) as Hs.
      pose proof (proj1 (m_leb_iff _ _ (sub_marking_proper t Hs) Hm) H) as H0.
      intros p. rewrite <- sub_marking_tokens by exact Hs. apply H0.
    - intros [[Hin Ha] H]. split; [exact Hin|]. pose proof (Hsn t Hin) as Hs.
      assert (Hne : t_in t <> []) by (apply Hinp, rn_in; auto).
      split; [split|exact Ha].
      + apply existsb_exists. destruct (t_in t) as [|[q w] l] eqn:E; [congruence|].
        assert (Hq : In (q, w) (t_in t)) by (rewrite E; left; reflexivity).
        assert (Hw : 0 < w) by (eapply (proj2 (proj1 Hs)); exact Hq).
        specialize (H q). rewrite (weight_in _ _ _ (proj1 (proj1 Hs)) Hq) in H.
        destruct (m !! q) as [v|] eqn:Em.
        * exists (q, v). split; [apply elem_of_list_In, elem_of_map_to_list, Em|]. cbn.
          apply (sub_marking_lookup t q w Hs) in Hq. rewrite Hq. reflexivity.
        * unfold tokens in H. rewrite Em in H. lia.
      + apply m_leb_iff; [apply sub_marking_proper, Hs|exact Hm|].
        intros p. rewrite sub_marking_tokens by exact Hs. apply H.
  Qed.

  Definition pnode_ok (n : dnode) : Prop :=
    run rn ini (rev (d_path n)) (d_m n) /\ d_g n = run_cost cost (rev (d_path n)).

  Record PInv (cd : list (marking * Z)) (open : list dnode) (ret : option (list marking * Z)) : Prop := {
    pi_ok : forall n, In n open -> pnode_ok n;
    pi_mono : forall m d n, In (m, d) cd -> In n open -> d <= d_g n;
    pi_run : forall m d, In (m, d) cd -> exists ts, run rn ini ts m /\ run_cost cost ts = d;
    pi_succ : forall m d t m', In (m, d) cd -> m_leb stop m = false -> fires rn t m m' -> covered cd open m' (d + cost t);
    pi_ini : covered cd open ini 0;
    pi_ret : match ret with
             | None => forall m d, In (m, d) cd -> m_leb stop m = false
             | Some (ms, c) => (exists m, In m ms) /\
                               (forall m, In m ms <-> In (m, c) cd /\ m_leb stop m = true) /\
                               (forall m d, In (m, d) cd -> m_leb stop m = true -> d = c)
             end
  }.

  Lemma pinv_init : PInv [] [DNode 0 ini [] 0] None.
  Proof.
    constructor; cbn; try (intros; contradiction).
    - intros n [<-|[]]. split; [constructor|reflexivity].
    - right. exists (DNode 0 ini [] 0). cbn. repeat split; auto. lia.
  Qed.

  (** Runs whose proper prefixes do not stop. *)
  Inductive early : list (transition slabel) -> marking -> Prop :=
  | early_nil : early [] ini
  | early_snoc ts m t m' : early ts m -> m_leb stop m = false -> fires rn t m m' -> early (ts ++ [t]) m'.

  Lemma early_run ts m : early ts m -> run rn ini ts m.
  Proof.
    intros H. induction H as [|ts m t m' He IH Hs Hf]; [constructor|].
    eapply run_app; [exact IH|]. econstructor; [exact Hf|constructor].
  Qed.

  Lemma rcost_app (a b : list (transition slabel)) : run_cost cost (a ++ b) = run_cost cost a + run_cost cost b.
  Proof. induction a as [|t a IH]; cbn [app run_cost]; [lia|]. rewrite IH. lia. Qed.
  Lemma rcost_nonneg m ts m' : run rn m ts m' -> 0 <= run_cost cost ts.
  Proof.
    intros H. induction H as [|m t m1 ts m2 Hf Hr IH]; cbn [run_cost]; [lia|].
    pose proof (rn_cost t (proj1 Hf)). lia.
  Qed.

  (** Every run is early or has a strictly cheaper early prefix that stops. *)
  Lemma early_or ts m : run rn ini ts m ->
    early ts m \/ exists ts1 m1, early ts1 m1 /\ m_leb stop m1 = true /\ run_cost cost ts1 < run_cost cost ts.
  Proof.
    revert m. induction ts as [|t ts IH] using rev_ind; intros m Hr.
    - inversion Hr; subst. left. constructor.
    - apply run_app_inv in Hr as (m1 & Hr1 & Hr2). inversion Hr2 as [|? ? m2 ? ? Hf Hr3]; subst.
      inversion Hr3; subst. rewrite rcost_app. cbn [run_cost]. pose proof (rn_cost t (proj1 Hf)).
      destruct (IH _ Hr1) as [He|(ts1 & m3 & He & Hst & Hlt)].
      + destruct (m_leb stop m1) eqn:E.
        * right. exists ts, m1. split; [exact He|]. split; [exact E|].
          assert (0 < cost t); [|lia]. eapply Hleave; [exists ts; exact Hr1|exact E|exact Hf].
        * left. econstructor; eassumption.
      + right. exists ts1, m3. split; [exact He|]. split; [exact Hst|lia].
  Qed.

  Lemma pinv_runs cd open ret : PInv cd open ret ->
    forall ts m, early ts m ->
    (exists d, In (m, d) cd /\ d <= run_cost cost ts) \/ (exists n, In n open /\ d_g n <= run_cost cost ts).
  Proof.
    intros HI ts m He. induction He as [|ts m t m' He IH Hs Hf].
    - destruct (pi_ini _ _ _ HI) as [(d & Hd & Hle)|(n & Hn & _ & Hle)]; [left|right]; eauto.
    - rewrite rcost_app. cbn [run_cost]. pose proof (rn_cost t (proj1 Hf)).
      destruct IH as [(d & Hd & Hle)|(n & Hn & Hle)].
      + destruct (pi_succ _ _ _ HI _ _ _ _ Hd Hs Hf) as [(d' & Hd' & Hle')|(n & Hn & _ & Hle')].
        * left. exists d'. split; [exact Hd'|]. lia.
        * right. exists n. split; [exact Hn|]. lia.
      + right. exists n. split; [exact Hn|]. lia.
  Qed.

  (** What the search returns. *)
  Definition presult (r : option (list marking)) : Prop :=
    match r with
    | None => forall ts m, run rn ini ts m -> m_leb stop m = false
    | Some ms =>
        (exists m, In m ms) /\
        exists c, (forall ts m, run rn ini ts m -> m_leb stop m = true -> c <= run_cost cost ts) /\
                  forall m, In m ms <-> m_leb stop m = true /\ exists ts, run rn ini ts m /\ run_cost cost ts = c
    end.

  Lemma pinv_done cd open ret : PInv cd open ret ->
    match ret with
    | None => open = []
    | Some (_, c) => forall n, In n open -> c < d_g n
    end -> presult (option_map fst ret).
  Proof.
    intros HI Ho. pose proof (pi_ret _ _ _ HI) as Hret. destruct ret as [[ms c]|]; cbn [option_map fst presult].
    - destruct Hret as (Hne & Hms & Hc). split; [exact Hne|]. exists c.
      assert (Hearly : forall ts m, early ts m -> m_leb stop m = true -> run_cost cost ts <= c -> In m ms /\ run_cost cost ts = c).
      { intros ts m He Hst Hle. destruct (pinv_runs _ _ _ HI _ _ He) as [(d & Hd & Hdl)|(n & Hn & Hnl)].
        - pose proof (Hc _ _ Hd Hst) as E. rewrite E in Hd, Hdl. split; [apply Hms; auto|lia].
        - specialize (Ho n Hn). lia. }
      assert (Hmin : forall ts m, run rn ini ts m -> m_leb stop m = true -> c <= run_cost cost ts).
      { intros ts m Hr Hst. destruct (Z.le_gt_cases c (run_cost cost ts)) as [H|H]; [exact H|].
        destruct (early_or _ _ Hr) as [He|(ts1 & m1 & He & Hst1 & Hlt)].
        - destruct (Hearly ts m He Hst) as [_ E]; lia.
        - destruct (Hearly ts1 m1 He Hst1) as [_ E]; lia. }
      split; [exact Hmin|]. intros m. rewrite Hms. split.
      + intros [Hd Hst]. split; [exact Hst|]. apply (pi_run _ _ _ HI _ _ Hd).
      + intros [Hst (ts & Hr & E)]. destruct (early_or _ _ Hr) as [He|(ts1 & m1 & He & Hst1 & Hlt)].
        * apply Hms. apply (Hearly ts m He Hst). lia.
        * pose proof (Hmin ts1 m1 (early_run _ _ He) Hst1). lia.
    - assert (Hearly : forall ts m, early ts m -> m_leb stop m = false).
      { intros ts m He. destruct (pinv_runs _ _ _ HI _ _ He) as [(d & Hd & _)|(n & Hn & _)].
        - eapply Hret, Hd.
        - rewrite Ho in Hn. destruct Hn. }
      intros ts m Hr. destruct (early_or _ _ Hr) as [He|(ts1 & m1 & He & Hst1 & _)].
      + eapply Hearly, He.
      + rewrite (Hearly _ _ He) in Hst1. discriminate.
  Qed.

  Lemma pinv_skip cd open ret curr rest d :
    PInv cd open ret -> heap_pop open = Some (curr, rest) -> In (d_m curr, d) cd -> PInv cd rest ret.
  Proof.
    intros HI Hp Hd. apply heap_pop_spec in Hp as (H1 & H2 & _).
    assert (Hsub : forall n, In n rest -> In n open) by (intros n Hn; apply H1; right; exact Hn).
    assert (Hcur : In curr open) by (apply H1; left; reflexivity).
    assert (Hcov : forall m c, covered cd open m c -> covered cd rest m c).
    { intros m c [H|(n & Hn & <- & Hle)]; [left; exact H|].
      apply H1 in Hn as [->|Hn].
      - left. exists d. split; [exact Hd|]. pose proof (pi_mono _ _ _ HI _ _ _ Hd Hcur). lia.
      - right. exists n. auto. }
    constructor.
    - intros n Hn. apply (pi_ok _ _ _ HI), Hsub, Hn.
    - intros m d' n Hm Hn. eapply (pi_mono _ _ _ HI); eauto.
    - apply (pi_run _ _ _ HI).
    - intros m d' t m' Hm Hst Hf. apply Hcov. eapply (pi_succ _ _ _ HI); eauto.
    - apply Hcov, (pi_ini _ _ _ HI).
    - apply (pi_ret _ _ _ HI).
  Qed.

  Lemma ppush_fold_in closed curr ts open n :
    In n (fold_left (prefix_push cost closed curr) ts open) <->
    In n open \/ exists t, In t ts /\ ~ add_markings (d_m curr) (add_marking t) ∈ closed /\
       n = DNode (d_g curr + cost t) (add_markings (d_m curr) (add_marking t)) (t :: d_path curr) 0.
  Proof.
    revert open. induction ts as [|t ts IH]; intros open; cbn [fold_left].
    - split; [auto|]. intros [H|(t & [] & _)]. exact H.
    - rewrite IH. unfold prefix_push at 1.
      destruct (bool_decide (add_markings (d_m curr) (add_marking t) ∈ closed)) eqn:E.
      + apply bool_decide_eq_true in E. split.
        * intros [H|(u & Hu & Hr)]; [left; exact H|right; exists u; split; [right; exact Hu|exact Hr]].
        * intros [H|(u & [<-|Hu] & Hn & Hr)]; [left; exact H|contradiction|right; exists u; auto].
      + apply bool_decide_eq_false in E. split.
        * intros [[<-|H]|(u & Hu & Hr)].
          -- right. exists t. split; [left; reflexivity|]. auto.
          -- left. exact H.
          -- right. exists u. split; [right; exact Hu|exact Hr].
        * intros [H|(u & [<-|Hu] & Hn & Hr)].
          -- left. right. exact H.
          -- left. left. symmetry. exact Hr.
          -- right. exists u. auto.
  Qed.
  Lemma ppush_fold_length closed curr ts open :
    (length (fold_left (prefix_push cost closed curr) ts open) <= length ts + length open)%nat.
  Proof.
    revert open. induction ts as [|t ts IH]; intros open; cbn [fold_left length]; [lia|].
    etrans; [apply IH|]. unfold prefix_push. destruct (bool_decide _); cbn [length]; lia.
  Qed.

  Lemma pinv_expand cd open ret curr rest :
    PInv cd open ret -> heap_pop open = Some (curr, rest) -> m_leb stop (d_m curr) = false ->
    let closed' := d_m curr :: map fst cd in
    PInv ((d_m curr, d_g curr) :: cd)
         (fold_left (prefix_push cost closed' curr) (prefix_enabled pn (d_m curr)) rest) ret.
  Proof.
    intros HI Hp Hst closed'. apply heap_pop_spec in Hp as (H1 & H2 & _).
    assert (Hcur : In curr open) by (apply H1; left; reflexivity).
    destruct (pi_ok _ _ _ HI _ Hcur) as [Hrun Hg].
    assert (Hpm : proper (d_m curr)) by (eapply run_proper; [exact Hini|exact Hrun]).
    set (open' := fold_left _ _ _).
    assert (Hsub : forall n, In n rest -> In n open') by (intros n Hn; apply ppush_fold_in; left; exact Hn).
    assert (Hcov : forall m c, covered cd open m c -> covered ((d_m curr, d_g curr) :: cd) open' m c).
    { intros m c [(d & Hd & Hle)|(n & Hn & <- & Hle)].
      - left. exists d. split; [right; exact Hd|exact Hle].
      - apply H1 in Hn as [->|Hn].
        + left. exists (d_g curr). split; [left; reflexivity|exact Hle].
        + right. exists n. auto. }
    constructor.
    - intros n Hn. apply ppush_fold_in in Hn as [Hn|(t & Ht & _ & ->)].
      + apply (pi_ok _ _ _ HI), H1. right. exact Hn.
      + apply prefix_enabled_iff in Ht as [Hin He]; [|exact Hpm].
        split; cbn [d_path d_m d_g rev].
        * eapply run_app; [exact Hrun|]. econstructor; [|constructor].
          apply add_markings_fires; auto. apply rn_simple, Hin.
        * rewrite rcost_app. cbn [run_cost]. lia.
    - intros m d n [[= <- <-]|Hd] Hn.
      + apply ppush_fold_in in Hn as [Hn|(t & Ht & _ & ->)].
        * apply H2, H1. right. exact Hn.
        * cbn. apply prefix_enabled_iff in Ht as [Hin _]; [|exact Hpm]. pose proof (rn_cost t Hin). lia.
      + pose proof (pi_mono _ _ _ HI _ _ _ Hd Hcur).
        apply ppush_fold_in in Hn as [Hn|(t & Ht & _ & ->)].
        * assert (In n open) by (apply H1; right; exact Hn). eapply (pi_mono _ _ _ HI); eauto.
        * cbn. apply prefix_enabled_iff in Ht as [Hin _]; [|exact Hpm]. pose proof (rn_cost t Hin). lia.
    - intros m d [[= <- <-]|Hd]; [exists (rev (d_path curr)); auto|eapply (pi_run _ _ _ HI), Hd].
    - intros m d t m' [[= <- <-]|Hd] Hst' Hf.
      + assert (Ht : In t (prefix_enabled pn (d_m curr))).
        { apply prefix_enabled_iff; [exact Hpm|]. split; apply Hf. }
        assert (Em : m' = add_markings (d_m curr) (add_marking t)).
        { eapply fires_det; [exact Hf|]. destruct Hf as (Hf1 & Hf2 & _). apply add_markings_fires; auto. apply rn_simple, Hf1. }
        destruct (decide (add_markings (d_m curr) (add_marking t) ∈ closed')) as [Hc|Hc].
        * left. pose proof (rn_cost t (proj1 Hf)). subst closed'.
          apply elem_of_cons in Hc as [Hc|Hc].
          -- exists (d_g curr). rewrite Em, Hc. split; [left; reflexivity|lia].
          -- apply elem_of_list_In, in_map_iff in Hc as ([m2 d2] & E2 & Hc). cbn in E2.
             exists d2. split; [right; rewrite Em, <- E2; exact Hc|].
             pose proof (pi_mono _ _ _ HI _ _ _ Hc Hcur). lia.
        * right. eexists. split; [apply ppush_fold_in; right; exists t; split; [exact Ht|split; [exact Hc|reflexivity]]|].
          cbn. split; [symmetry; exact Em|lia].
      + apply Hcov. eapply (pi_succ _ _ _ HI); eauto.
    - apply Hcov, (pi_ini _ _ _ HI).
    - pose proof (pi_ret _ _ _ HI) as Hr. destruct ret as [[ms c]|].
      + destruct Hr as (Hne & Hms & Hc). split; [exact Hne|]. split.
        * intros m. rewrite Hms. cbn [In]. split; [intros [A B]; auto|].
          intros [[[= E _]|A] B]; [|auto]. subst m. congruence.
        * intros m d [[= E _]|A] B; [subst m; congruence|]. eapply Hc; eassumption.
      + intros m d [[= <- _]|A]; [exact Hst|]. eapply Hr, A.
  Qed.

  Lemma pinv_stop cd open ret curr rest :
    PInv cd open ret -> heap_pop open = Some (curr, rest) -> m_leb stop (d_m curr) = true ->
    match ret with Some (_, c) => d_g curr <= c | None => True end ->
    PInv ((d_m curr, d_g curr) :: cd) rest
      (Some (d_m curr :: match ret with Some (ms, _) => ms | None => [] end, d_g curr)).
  Proof.
    intros HI Hp Hst Hle. apply heap_pop_spec in Hp as (H1 & H2 & _).
    assert (Hcur : In curr open) by (apply H1; left; reflexivity).
    destruct (pi_ok _ _ _ HI _ Hcur) as [Hrun Hg].
    assert (Hcov : forall m c, covered cd open m c -> covered ((d_m curr, d_g curr) :: cd) rest m c).
    { intros m c [(d & Hd & Hld)|(n & Hn & <- & Hln)].
      - left. exists d. split; [right; exact Hd|exact Hld].
      - apply H1 in Hn as [->|Hn].
        + left. exists (d_g curr). split; [left; reflexivity|exact Hln].
        + right. exists n. auto. }
    constructor.
    - intros n Hn. apply (pi_ok _ _ _ HI), H1. right. exact Hn.
    - intros m d n [[= <- <-]|Hd] Hn.
      + apply H2, H1. right. exact Hn.
      + eapply (pi_mono _ _ _ HI); [exact Hd|]. apply H1. right. exact Hn.
    - intros m d [[= <- <-]|Hd]; [exists (rev (d_path curr)); auto|eapply (pi_run _ _ _ HI), Hd].
    - intros m d t m' [[= <- <-]|Hd] Hs' Hf; [congruence|]. apply Hcov. eapply (pi_succ _ _ _ HI); eauto.
    - apply Hcov, (pi_ini _ _ _ HI).
    - pose proof (pi_ret _ _ _ HI) as Hr. split; [exists (d_m curr); left; reflexivity|].
      destruct ret as [[ms c]|].
      + destruct Hr as (Hne & Hms & Hc).
        assert (Ec : d_g curr = c).
        { destruct Hne as [m Hm]. apply Hms in Hm as [Hm _]. pose proof (pi_mono _ _ _ HI _ _ _ Hm Hcur). lia. }
        rewrite Ec. split.
        * intros m. cbn [In]. rewrite Hms. split.
          -- intros [<-|[A B]]; auto.
          -- intros [[[= <-]|A] B]; auto.
        * intros m d [[= _ E]|A] B; [lia|]. eapply Hc; eassumption.
      + split.
        * intros m. cbn [In]. split.
          -- intros [<-|[]]; auto.
          -- intros [[[= <-]|A] B]; auto. rewrite (Hr _ _ A) in B. discriminate.
        * intros m d [[= _ E]|A] B; [lia|]. rewrite (Hr _ _ A) in B. discriminate.
  Qed.

  Lemma prefix_loop_correct fuel : forall cd open ret r,
    PInv cd open ret -> prefix_loop fuel pn stop cost (map fst cd) open ret = Some r -> presult r.
  Proof.
    induction fuel as [|fuel IH]; intros cd open ret r HI; cbn [prefix_loop].
    - destruct open as [|x open]; [|discriminate]. intros [= <-].
      eapply pinv_done; [exact HI|]. destruct ret as [[ms c]|]; [intros n []|reflexivity].
    - destruct open as [|x open].
      { intros [= <-]. eapply pinv_done; [exact HI|]. destruct ret as [[ms c]|]; [intros n []|reflexivity]. }
      set (op := x :: open) in *. destruct (heap_pop op) as [[curr rest]|] eqn:Hp.
      2:{ apply heap_pop_none in Hp. discriminate. }
      destruct (match ret with Some (_, c) => c <? d_g curr | None => false end) eqn:Eb.
      { intros [= <-]. eapply pinv_done; [exact HI|]. destruct ret as [[ms c]|]; [|discriminate].
        apply Z.ltb_lt in Eb. pose proof (heap_pop_spec _ _ _ Hp) as (_ & H2 & _).
        intros n Hn. specialize (H2 n Hn). lia. }
      destruct (bool_decide (d_m curr ∈ map fst cd)) eqn:Ec.
      + apply bool_decide_eq_true in Ec. apply elem_of_list_In, in_map_iff in Ec as ([m d] & E & Hd).
        cbn in E. subst m. apply IH. eapply pinv_skip; eassumption.
      + destruct (m_leb stop (d_m curr)) eqn:Es.
        * apply (IH ((d_m curr, d_g curr) :: cd)). eapply pinv_stop; [exact HI|exact Hp|exact Es|].
          destruct ret as [[ms c]|]; [|exact I]. apply Z.ltb_ge in Eb. exact Eb.
        * apply (IH ((d_m curr, d_g curr) :: cd)). apply (pinv_expand cd op ret curr rest HI Hp Es).
  Qed.

  Lemma prefix_enabled_length m : (length (prefix_enabled pn m) <= length (n_trans pn))%nat.
  Proof.
    unfold prefix_enabled. match goal with |- context [List.filter ?f _] => generalize f end. intros f.
    clear Hcost Hsn Hinp Hleave. induction (n_trans pn) as [|t l IH]; cbn [List.filter length]; [lia|].
    destruct (f t); cbn [length]; lia.
  Qed.

  Lemma prefix_loop_terminates (l : list marking) :
    (forall m, reachable rn ini m -> In m l) ->
    forall fuel cd open ret, PInv cd open ret -> base.NoDup (map fst cd) -> (forall m, In m (map fst cd) -> In m l) ->
    (length open + (length l - length cd) * length (n_trans pn) <= fuel)%nat ->
    prefix_loop fuel pn stop cost (map fst cd) open ret <> None.
  Proof.
    intros Hl. induction fuel as [|fuel IH]; intros cd open ret HI Hnd Hsub Hf; cbn [prefix_loop].
    - destruct open as [|x open]; [discriminate|]. exfalso. cbn [length] in Hf.
      revert Hf. generalize ((length l - length cd) * length (n_trans pn))%nat. lia.
    - destruct open as [|x open]; [discriminate|]. set (op := x :: open) in *.
      destruct (heap_pop op) as [[curr rest]|] eqn:Hp; [|discriminate].
      pose proof (heap_pop_spec _ _ _ Hp) as (H1 & H2 & H3).
      destruct (match ret with Some (_, c) => c <? d_g curr | None => false end) eqn:Eb; [discriminate|].
      destruct (bool_decide (d_m curr ∈ map fst cd)) eqn:Ec.
      + apply bool_decide_eq_true in Ec. apply elem_of_list_In, in_map_iff in Ec as ([m d] & E & Hd).
        cbn in E. subst m. apply IH; [eapply pinv_skip; eassumption|exact Hnd|exact Hsub|].
        revert Hf. generalize ((length l - length cd) * length (n_trans pn))%nat. intros K HK. lia.
      + apply bool_decide_eq_false in Ec.
        assert (Hcl : In (d_m curr) l).
        { apply Hl. exists (rev (d_path curr)). apply (pi_ok _ _ _ HI), H1. left. reflexivity. }
        assert (Hnd' : base.NoDup (map fst ((d_m curr, d_g curr) :: cd))).
        { cbn [map fst]. apply list.NoDup_cons. split; assumption. }
        assert (Hsub' : forall m, In m (map fst ((d_m curr, d_g curr) :: cd)) -> In m l).
        { cbn [map fst In]. intros m [<-|Hm]; auto. }
        assert (Hlt : (S (length cd) <= length l)%nat).
        { rewrite <- (map_length fst cd). change (S (length (map fst cd))) with (length (d_m curr :: map fst cd)).
          apply submseteq_length, NoDup_submseteq; [exact Hnd'|].
          intros m Hm. apply elem_of_list_In. apply Hsub', elem_of_list_In, Hm. }
        assert (E : (length l - length cd = S (length l - S (length cd)))%nat) by lia.
        rewrite E in Hf. cbn [Nat.mul] in Hf. unfold op in *. cbn [length] in *.
        destruct (m_leb stop (d_m curr)) eqn:Es.
        * apply (IH ((d_m curr, d_g curr) :: cd)); auto.
          -- eapply pinv_stop; [exact HI|exact Hp|exact Es|].
             destruct ret as [[ms c]|]; [|exact I]. apply Z.ltb_ge in Eb. exact Eb.
          -- cbn [length]. revert Hf. generalize ((length l - S (length cd)) * length (n_trans pn))%nat. intros K HK. lia.
        * apply (IH ((d_m curr, d_g curr) :: cd)); auto.
          -- apply (pinv_expand cd _ ret curr rest HI Hp Es).
          -- pose proof (ppush_fold_length (d_m curr :: map fst cd) curr (prefix_enabled pn (d_m curr)) rest) as Hlen.
             pose proof (prefix_enabled_length (d_m curr)) as Hen.
             cbn [length map fst] in *.
             revert Hf. generalize ((length l - S (length cd)) * length (n_trans pn))%nat. intros K HK. lia.
  Qed.
End PSearch.
