From Coq Require Import List Arith Lia Permutation.
Import ListNotations.
From Verif Require Import Model_AlignLog.

Lemma eqb_list_iff a b : eqb_list a b = true <-> a = b.
Proof.
  revert b. induction a as [|x a IH]; intros [|y b]; cbn; try (split; congruence).
  rewrite Bool.andb_true_iff, Nat.eqb_eq, IH. split; [intros [-> ->]; reflexivity|intros [= -> ->]; auto].
Qed.

Section P.
  Context {C R : Type} (acts : C -> list nat) (align : C -> R).
  Hypothesis Halign : forall c c', acts c = acts c' -> align c = align c'.

  (** entry k of the dictionary lists exactly the indexes of the cases with that variant *)
  Definition VInv (log : list C) (d : vdict) (reps : list C) : Prop :=
    length d = length reps /\
    NoDup (map fst d) /\
    (forall k v l, nth_error d k = Some (v, l) -> exists c, nth_error reps k = Some c /\ acts c = v) /\
    (forall v l i, In (v, l) d -> In i l -> exists c, nth_error log i = Some c /\ acts c = v) /\
    (forall i c, nth_error log i = Some c -> exists l, In (acts c, l) d /\ In i l).

  Lemma v_mem_iff v d : v_mem v d = true <-> In v (map fst d).
  Proof.
    unfold v_mem. rewrite existsb_exists. split.
    - intros ([w l] & Hin & E). cbn in E. apply eqb_list_iff in E. subst. apply in_map_iff. exists (v, l). auto.
    - intros H. apply in_map_iff in H as ([w l] & E & Hin). cbn in E. subst. exists (v, l). split; [exact Hin|].
      apply eqb_list_iff. reflexivity.
  Qed.

  Lemma v_append_fst v i d : map fst (v_append v i d) = map fst d.
  Proof. induction d as [|[w l] d IH]; cbn; [reflexivity|]. destruct (eqb_list w v); cbn; [reflexivity|]. rewrite IH. reflexivity. Qed.

  Lemma v_append_length v i d : length (v_append v i d) = length d.
  Proof. rewrite <- (map_length fst), v_append_fst, map_length. reflexivity. Qed.

  Lemma v_append_in v i d w l : NoDup (map fst d) ->
    In (w, l) (v_append v i d) <-> (w <> v /\ In (w, l) d) \/ (w = v /\ exists l0, In (v, l0) d /\ l = l0 ++ [i]).
  Proof.
    induction d as [|[u k] d IH]; intros Hn; cbn [v_append].
    - cbn. firstorder.
    - cbn in Hn. inversion Hn as [|? ? Hu Hn']; subst. destruct (eqb_list u v) eqn:E.
      + apply eqb_list_iff in E. subst u. cbn [In]. split.
        * intros [[= <- <-]|H]; [right; split; [reflexivity|]; exists k; auto|].
          left. split; [|right; exact H]. intros ->. apply Hu. apply in_map_iff. exists (v, l). auto.
        * intros [[Hne [[= <- <-]|H]]|[-> (l0 & [[= <-]|H] & ->)]]; [congruence|right; exact H|left; reflexivity|].
          exfalso. apply Hu. apply in_map_iff. exists (v, l0). auto.
      + assert (u <> v) by (intros ->; rewrite (proj2 (eqb_list_iff v v) eq_refl) in E; discriminate).
        cbn [In]. rewrite (IH Hn'). split.
        * intros [[= <- <-]|[[H1 H2]|[-> (l0 & H1 & ->)]]]; [left; auto|left; auto|right; split; [reflexivity|]; exists l0; auto].
        * intros [[Hne [[= <- <-]|H2]]|[-> (l0 & [[= -> ->]|H1] & ->)]]; [left; reflexivity|right; left; auto|congruence|].
          right. right. split; [reflexivity|]. exists l0. auto.
  Qed.

  Lemma vs_step_inv log d reps c : VInv log d reps ->
    let '(d', reps') := vs_step acts (d, reps) (length log, c) in VInv (log ++ [c]) d' reps'.
  Proof.
    intros (HL & HN & HR & HI & HC). cbn [vs_step].
    destruct (v_mem (acts c) d) eqn:Em; cbn [negb].
    - apply v_mem_iff in Em. split; [rewrite v_append_length; exact HL|]. split; [rewrite v_append_fst; exact HN|]. split; [|split].
      + intros k v l Hk. assert (Hk' : nth_error (map fst d) k = Some v).
        { rewrite <- (v_append_fst (acts c) (length log)), nth_error_map, Hk. reflexivity. }
        rewrite nth_error_map in Hk'. destruct (nth_error d k) as [[v' l']|] eqn:E; [|discriminate].
        cbn in Hk'. injection Hk' as <-. eapply HR, E.
      + intros v l i Hin Hi. apply v_append_in in Hin as [[Hne Hin]|[-> (l0 & Hin & ->)]]; [| |exact HN].
        * destruct (HI _ _ _ Hin Hi) as (c' & Hc & Ha). exists c'. split; [|exact Ha].
          rewrite nth_error_app1; [exact Hc|]. apply nth_error_Some. congruence.
        * apply in_app_iff in Hi as [Hi|[<-|[]]].
          -- destruct (HI _ _ _ Hin Hi) as (c' & Hc & Ha). exists c'. split; [|exact Ha].
             rewrite nth_error_app1; [exact Hc|]. apply nth_error_Some. congruence.
          -- exists c. split; [|reflexivity]. rewrite nth_error_app2, Nat.sub_diag by lia. reflexivity.
      + intros i c' Hi. destruct (Nat.eq_dec i (length log)) as [->|Hne].
        * rewrite nth_error_app2, Nat.sub_diag in Hi by lia. injection Hi as <-.
          apply in_map_iff in Em as ([v l0] & E & Hin). cbn in E. subst v.
          exists (l0 ++ [length log]). split; [|apply in_or_app; right; left; reflexivity].
          apply v_append_in; [exact HN|]. right. split; [reflexivity|]. exists l0. auto.
        * assert (Hlt : i < length log).
          { assert (i < length (log ++ [c])) by (apply nth_error_Some; congruence). rewrite app_length in H. cbn in H. lia. }
          rewrite nth_error_app1 in Hi by exact Hlt. destruct (HC _ _ Hi) as (l & Hin & Hil).
          destruct (list_eq_dec Nat.eq_dec (acts c') (acts c)) as [E|E].
          -- exists (l ++ [length log]). split; [|apply in_or_app; left; exact Hil].
             apply v_append_in; [exact HN|]. right. split; [exact E|]. exists l. rewrite <- E. auto.
          -- exists l. split; [|exact Hil]. apply v_append_in; [exact HN|]. left. auto.
    - assert (Hm : ~ In (acts c) (map fst d)) by (intros H; apply v_mem_iff in H; congruence).
      split; [rewrite !app_length; cbn; lia|]. split; [|split; [|split]].
      + rewrite map_app. cbn. clear - HN Hm. induction (map fst d) as [|v vs IH]; cbn; [repeat constructor; intros []|].
        inversion HN; subst. constructor; [|apply IH; [assumption|intros H; apply Hm; right; exact H]].
        rewrite in_app_iff. intros [H|[<-|[]]]; [contradiction|]. apply Hm. left. reflexivity.
      + intros k v l Hk. destruct (Nat.lt_ge_cases k (length d)) as [Hlt|Hge].
        * rewrite nth_error_app1 in Hk by exact Hlt. destruct (HR _ _ _ Hk) as (c' & Hc & Ha). exists c'.
          split; [|exact Ha]. rewrite nth_error_app1 by lia. exact Hc.
        * rewrite nth_error_app2 in Hk by exact Hge. destruct (k - length d) as [|j] eqn:Ej; cbn in Hk; [|destruct j; discriminate].
          injection Hk as <- <-. exists c. split; [|reflexivity]. rewrite nth_error_app2 by lia.
          rewrite <- HL, Ej. reflexivity.
      + intros v l i Hin Hi. apply in_app_iff in Hin as [Hin|[[= <- <-]|[]]].
        * destruct (HI _ _ _ Hin Hi) as (c' & Hc & Ha). exists c'. split; [|exact Ha].
          rewrite nth_error_app1; [exact Hc|]. apply nth_error_Some. congruence.
        * destruct Hi as [<-|[]]. exists c. split; [|reflexivity]. rewrite nth_error_app2, Nat.sub_diag by lia. reflexivity.
      + intros i c' Hi. destruct (Nat.eq_dec i (length log)) as [->|Hne].
        * rewrite nth_error_app2, Nat.sub_diag in Hi by lia. injection Hi as <-.
          exists [length log]. split; [apply in_or_app; right; left; reflexivity|left; reflexivity].
        * assert (Hlt : i < length log).
          { assert (i < length (log ++ [c])) by (apply nth_error_Some; congruence). rewrite app_length in H. cbn in H. lia. }
          rewrite nth_error_app1 in Hi by exact Hlt. destruct (HC _ _ Hi) as (l & Hin & Hil). exists l.
          split; [apply in_or_app; left; exact Hin|exact Hil].
  Qed.

  Lemma combine_seq_app (l : list C) c s : combine (seq s (length (l ++ [c]))) (l ++ [c]) = combine (seq s (length l)) l ++ [(s + length l, c)].
  Proof.
    revert s. induction l as [|x l IH]; intros s; cbn; [rewrite Nat.add_0_r; reflexivity|].
    rewrite IH. rewrite Nat.add_succ_r. reflexivity.
  Qed.

  Lemma variants_structure_inv log : VInv log (fst (variants_structure acts log)) (snd (variants_structure acts log)).
  Proof.
    unfold variants_structure. induction log as [|c log IH] using rev_ind.
    - cbn. split; [reflexivity|]. split; [constructor|]. split; [|split].
      + intros k v l H. destruct k; discriminate.
      + intros v l i [].
      + intros i c H. destruct i; discriminate.
    - rewrite combine_seq_app, fold_left_app. cbn [fold_left Nat.add].
      destruct (fold_left (vs_step acts) (combine (seq 0 (length log)) log) ([], [])) as [d reps].
      cbn [fst snd] in IH. pose proof (vs_step_inv log d reps c IH) as H.
      destruct (vs_step acts (d, reps) (length log, c)) as [d' reps']. exact H.
  Qed.

  Lemma al_lookup_set (i j : nat) (r : R) d : al_lookup i (al_set j r d) = if Nat.eqb i j then Some r else al_lookup i d.
  Proof.
    unfold al_set. cbn [al_lookup]. destruct (Nat.eqb_spec i j) as [->|Hne]; [reflexivity|].
    induction d as [|[k x] d IH]; cbn; [reflexivity|].
    destruct (Nat.eqb_spec k j) as [->|Hk]; cbn.
    - destruct (Nat.eqb_spec i j); [contradiction|exact IH].
    - destruct (Nat.eqb i k); [reflexivity|exact IH].
  Qed.

  Lemma al_keys_set j (r : R) d k : In k (map fst (al_set j r d)) <-> k = j \/ In k (map fst d).
  Proof.
    unfold al_set. cbn. split.
    - intros [<-|H]; [left; reflexivity|]. apply in_map_iff in H as (e & <- & He). apply filter_In in He as [He _].
      right. apply in_map, He.
    - intros [->|H]; [left; reflexivity|]. destruct (Nat.eq_dec k j) as [->|Hne]; [left; reflexivity|].
      right. apply in_map_iff in H as (e & <- & He). apply in_map, filter_In. split; [exact He|].
      destruct (Nat.eqb_spec (fst e) j); [contradiction|reflexivity].
  Qed.

  Lemma al_nodup_set j (r : R) d : NoDup (map fst d) -> NoDup (map fst (al_set j r d)).
  Proof.
    intros H. unfold al_set. cbn. constructor.
    - intros Hin. apply in_map_iff in Hin as (e & E & He). apply filter_In in He as [_ He]. rewrite E, Nat.eqb_refl in He. discriminate.
    - induction d as [|e d IH]; cbn; [constructor|]. inversion H; subst.
      destruct (negb (Nat.eqb (fst e) j)); cbn; [|apply IH; assumption]. constructor; [|apply IH; assumption].
      intros Hin. apply in_map_iff in Hin as (e' & E & He). apply filter_In in He as [He _]. apply H2. rewrite <- E. apply in_map, He.
  Qed.

  Lemma al_fold idxs (r : R) acc i :
    al_lookup i (fold_left (fun a i => al_set i r a) idxs acc) = if existsb (Nat.eqb i) idxs then Some r else al_lookup i acc.
  Proof.
    revert acc. induction idxs as [|j idxs IH]; intros acc; cbn; [reflexivity|]. rewrite IH, al_lookup_set.
    destruct (existsb (Nat.eqb i) idxs); [rewrite Bool.orb_true_r; reflexivity|].
    destruct (Nat.eqb i j); reflexivity.
  Qed.
  Lemma al_fold_keys idxs (r : R) acc k :
    In k (map fst (fold_left (fun a i => al_set i r a) idxs acc)) <-> In k idxs \/ In k (map fst acc).
  Proof.
    revert acc. induction idxs as [|j idxs IH]; intros acc; cbn; [tauto|]. rewrite IH, al_keys_set. intuition.
  Qed.
  Lemma al_fold_nodup idxs (r : R) acc : NoDup (map fst acc) -> NoDup (map fst (fold_left (fun a i => al_set i r a) idxs acc)).
  Proof. revert acc. induction idxs as [|j idxs IH]; intros acc H; cbn; [exact H|]. apply IH, al_nodup_set, H. Qed.

  (** the final dictionary maps every index to the result of its case *)
  Lemma al_build_spec (log : list C) d reps k acc :
    (forall j v l, nth_error d j = Some (v, l) -> exists c, nth_error reps (k + j) = Some c /\ acts c = v) ->
    (forall v l i, In (v, l) d -> In i l -> exists c, nth_error log i = Some c /\ acts c = v) ->
    NoDup (map fst acc) ->
    (forall i r, al_lookup i acc = Some r -> exists c, nth_error log i = Some c /\ r = align c) ->
    exists al, al_build k d (map align reps) acc = Some al /\ NoDup (map fst al) /\
      (forall i r, al_lookup i al = Some r -> exists c, nth_error log i = Some c /\ r = align c) /\
      (forall i, In i (map fst al) <-> In i (map fst acc) \/ exists v l, In (v, l) d /\ In i l).
  Proof.
    revert k acc. induction d as [|[v idxs] d IH]; intros k acc HR HI HN HA; cbn [al_build].
    - exists acc. split; [reflexivity|]. split; [exact HN|]. split; [exact HA|]. intros i. split; [auto|].
      intros [H|(v & l & [] & _)]. exact H.
    - destruct (HR 0 v idxs eq_refl) as (c0 & Hc0 & Ha0). rewrite Nat.add_0_r in Hc0.
      rewrite nth_error_map, Hc0. cbn [option_map].
      destruct (IH (S k) (fold_left (fun a i => al_set i (align c0) a) idxs acc)) as (al & E & H1 & H2 & H3).
      + intros j w l Hj. destruct (HR (S j) w l Hj) as (c & Hc & Ha). exists c. rewrite Nat.add_succ_r in Hc. auto.
      + intros w l i Hin Hi. eapply HI; [right; exact Hin|exact Hi].
      + apply al_fold_nodup, HN.
      + intros i r Hl. rewrite al_fold in Hl. destruct (existsb (Nat.eqb i) idxs) eqn:Ex; [|apply HA, Hl].
        injection Hl as <-. apply existsb_exists in Ex as (j & Hj & E). apply Nat.eqb_eq in E. subst j.
        destruct (HI v idxs i (or_introl eq_refl) Hj) as (c & Hc & Ha). exists c. split; [exact Hc|].
        apply Halign. congruence.
      + exists al. split; [exact E|]. split; [exact H1|]. split; [exact H2|]. intros i. rewrite H3, al_fold_keys. split.
        * intros [[H|H]|(w & l & Hin & Hi)]; [right; exists v, idxs; cbn; auto|left; exact H|right; exists w, l; cbn; auto].
        * intros [H|(w & l & [[= <- <-]|Hin] & Hi)]; [auto|auto|right; eauto].
  Qed.

  Lemma al_lookup_in i (d : list (nat * R)) : In i (map fst d) -> exists r, al_lookup i d = Some r.
  Proof.
    induction d as [|[j r] d IH]; cbn; [intros []|]. intros [->|H].
    - rewrite Nat.eqb_refl. eauto.
    - destruct (Nat.eqb i j); [eauto|apply IH, H].
  Qed.

  Lemma opt_all_map {A B} (f : A -> option B) (g : A -> B) l :
    (forall x, In x l -> f x = Some (g x)) -> opt_all (map f l) = Some (map g l).
  Proof.
    induction l as [|x l IH]; intros H; cbn; [reflexivity|].
    rewrite (H x (or_introl eq_refl)), IH; [reflexivity|]. intros y Hy. apply H. right. exact Hy.
  Qed.

  Lemma opt_all_seq (log : list C) (f : nat -> option R) s :
    (forall i c, nth_error log i = Some c -> f (s + i) = Some (align c)) ->
    opt_all (map f (seq s (length log))) = Some (map align log).
  Proof.
    revert s. induction log as [|c log IH]; intros s H; cbn; [reflexivity|].
    pose proof (H 0 c eq_refl) as H0. rewrite Nat.add_0_r in H0. rewrite H0, IH; [reflexivity|].
    intros i c' Hi. specialize (H (S i) c' Hi). rewrite Nat.add_succ_r in H. exact H.
  Qed.

  Lemma apply_log_correct log : apply_log acts align log = Some (map align log).
  Proof.
    unfold apply_log. pose proof (variants_structure_inv log) as HV.
    destruct (variants_structure acts log) as [d reps]. cbn [fst snd] in HV. destruct HV as (HL & HN & HR & HI & HC).
    unfold form_alignments.
    destruct (al_build_spec log d reps 0 []) as (al & -> & H1 & H2 & H3); auto.
    - constructor.
    - intros i r H. discriminate.
    - assert (Hk : forall i, In i (map fst al) <-> In i (seq 0 (length log))).
      { intros i. rewrite H3, in_seq. split.
        - intros [[]|(v & l & Hin & Hi)]. destruct (HI _ _ _ Hin Hi) as (c & Hc & _).
          assert (i < length log) by (apply nth_error_Some; congruence). lia.
        - intros [_ Hi]. right. destruct (nth_error log i) as [c|] eqn:E; [|apply nth_error_None in E; cbn in Hi; lia].
          destruct (HC _ _ E) as (l & Hin & Hil). eauto. }
      assert (Hlen : length al = length log).
      { rewrite <- (map_length fst al), <- (seq_length (length log) 0).
        apply Permutation_length, NoDup_Permutation; [exact H1|apply seq_NoDup|exact Hk]. }
      rewrite Hlen. apply opt_all_seq. intros i c Hi. cbn [Nat.add].
      destruct (al_lookup_in i al) as [r Hr].
      { apply Hk, in_seq. split; [lia|]. apply nth_error_Some. congruence. }
      rewrite Hr. destruct (H2 _ _ Hr) as (c' & Hc' & ->). congruence.
  Qed.
End P.
