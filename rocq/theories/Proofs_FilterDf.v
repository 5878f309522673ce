From Coq Require Import List Arith Bool ZArith Lia Permutation.
Import ListNotations.
From Verif Require Import Model_Dict Proofs_Dict Model_Tree Model_Filter Spec_Filter Proofs_Filter Proofs_Filter2 Model_FilterDf Spec_FilterDf.
Local Open Scope nat_scope.
Local Arguments keqb {K Key} : simpl never.
Local Arguments Z.eqb : simpl never.
Definition rows_of (i : Z) (d : df) : list row := filter (fun r => Z.eqb (r_case r) i) d.
Definition evs (i : Z) (d : df) : list event := map r_event (rows_of i d).
Definition case_of (i : Z) (d : df) : case := Case [(0, i)] (evs i d).
Lemma rows_of_in i d r : In r (rows_of i d) <-> In r d /\ r_case r = i.
Proof. unfold rows_of. rewrite filter_In, Z.eqb_eq. tauto. Qed.
Lemma groups_gen (d : df) : groups d = group_dict (map (fun r => (r_case r, r)) d).
Proof.
  unfold groups, group_dict. generalize (@nil (Z * list row)). induction d as [|r d IH]; intros t; cbn [map fold_left]; [reflexivity|]. apply IH.
Qed.
Lemma groups_map d : groups d = map (fun i => (i, rows_of i d)) (dedup (map r_case d)).
Proof.
  rewrite groups_gen, group_map, map_map. cbn [fst]. change (fun x => r_case x) with r_case. apply map_ext. intros i. f_equal.
  unfold of_key, rows_of. induction d as [|r d IH]; cbn; auto. change (keqb (r_case r) i) with (Z.eqb (r_case r) i). destruct (Z.eqb (r_case r) i); cbn; rewrite IH; auto.
Qed.
Lemma log_gen (d : df) : log_of d = map (fun ie => Case [(0, fst ie)] (snd ie)) (group_dict (map (fun r => (r_case r, r_event r)) d)).
Proof.
  unfold log_of, group_dict. f_equal. generalize (@nil (Z * list event)). induction d as [|r d IH]; intros t; cbn [map fold_left]; [reflexivity|]. apply IH.
Qed.
Lemma log_map d : log_of d = map (fun i => case_of i d) (dedup (map r_case d)).
Proof.
  rewrite log_gen, group_map, !map_map. cbn [fst snd]. change (fun x => r_case x) with r_case. apply map_ext. intros i. unfold case_of. f_equal.
  unfold of_key, evs, rows_of. induction d as [|r d IH]; cbn; auto. change (keqb (r_case r) i) with (Z.eqb (r_case r) i). destruct (Z.eqb (r_case r) i); cbn; rewrite IH; auto.
Qed.
Lemma existsb_in (l : list Z) x : existsb (fun y => keqb y x) l = true <-> In x l.
Proof. rewrite existsb_exists. split; [intros (y & I & E); destruct (keqb_spec y x); congruence|]. intros I. exists x. split; auto. destruct (keqb_spec x x); auto. Qed.
Lemma dedup_filter (p : Z -> bool) l : dedup (filter p l) = filter p (dedup l).
Proof.
  induction l as [|x l IH] using rev_ind; auto. rewrite filter_app, dedup_snoc. cbn [filter]. destruct (p x) eqn:E.
  - rewrite dedup_snoc, IH. assert (Eq : existsb (fun y => keqb y x) (filter p (dedup l)) = existsb (fun y => keqb y x) (dedup l)).
    { apply eq_true_iff_eq. rewrite !existsb_in, filter_In. tauto. }
    rewrite Eq. destruct (existsb (fun y => keqb y x) (dedup l)); [reflexivity|]. rewrite filter_app. cbn [filter]. rewrite E. reflexivity.
  - rewrite app_nil_r, IH. destruct (existsb (fun y => keqb y x) (dedup l)); [reflexivity|]. rewrite filter_app. cbn [filter]. rewrite E, app_nil_r. reflexivity.
Qed.
Lemma rows_of_keep (p : Z -> bool) i d : p i = true -> rows_of i (filter (fun r => p (r_case r)) d) = rows_of i d.
Proof.
  intros H. unfold rows_of. induction d as [|r d IH]; cbn; auto. destruct (Z.eqb_spec (r_case r) i) as [E|N].
  - rewrite E, H. cbn. rewrite E, Z.eqb_refl, IH. auto.
  - destruct (p (r_case r)); cbn; auto. destruct (Z.eqb_spec (r_case r) i); [congruence|]; auto.
Qed.
Lemma cases_keep (p : Z -> bool) d : map r_case (filter (fun r => p (r_case r)) d) = filter p (map r_case d).
Proof. induction d as [|r d IH]; cbn; auto. destruct (p (r_case r)); cbn; rewrite IH; auto. Qed.
(** keeping the rows of some cases keeps these cases *)
Lemma sel_ids (p : Z -> bool) (P : case -> Prop) d : (forall i, In i (map r_case d) -> (p i = true <-> P (case_of i d))) ->
  Selected P (log_of d) (log_of (filter (fun r => p (r_case r)) d)).
Proof.
  intros H. rewrite !log_map, cases_keep, dedup_filter.
  assert (K : forall ks, (forall i, In i ks -> In i (map r_case d)) -> Selected P (map (fun i => case_of i d) ks) (map (fun i => case_of i (filter (fun r => p (r_case r)) d)) (filter p ks))).
  { induction ks as [|i ks IH]; intros I; cbn; [constructor|]. destruct (p i) eqn:E; cbn.
    - assert (Eq : case_of i (filter (fun r => p (r_case r)) d) = case_of i d) by (unfold case_of, evs; rewrite rows_of_keep; auto). rewrite Eq.
      constructor; [apply H; auto; apply I; cbn; auto|]. apply IH. intros; apply I; cbn; auto.
    - constructor; [rewrite <- H by (apply I; cbn; auto); congruence|]. apply IH. intros; apply I; cbn; auto. }
  apply K. intros i. apply dedup_in.
Qed.
Lemma keep_sel positive (ids : list Z) (P : case -> Prop) d : (forall i, In i (map r_case d) -> (In i ids <-> P (case_of i d))) ->
  Selected (fun c => polar positive (P c)) (log_of d) (log_of (keep positive ids d)).
Proof. intros H. apply (sel_ids (fun i => Bool.eqb (vmem i ids) positive)). intros i Hi. apply eqb_polar. rewrite vmem_in. auto. Qed.
Lemma in_log d c : In c (log_of d) <-> exists i, In i (map r_case d) /\ c = case_of i d.
Proof. rewrite log_map, in_map_iff. split; intros (i & A & B); exists i; rewrite dedup_in in *; auto. Qed.
Lemma in_evs i d e : In e (evs i d) <-> exists r, In r d /\ r_case r = i /\ r_event r = e.
Proof. unfold evs. rewrite in_map_iff. split; intros (r & A); exists r; rewrite rows_of_in in *; tauto. Qed.
Lemma complete_everywhere key d : complete key d -> everywhere key (log_of d).
Proof.
  intros H c e Hc He. apply in_log in Hc. destruct Hc as (i & Hi & ->). cbn in He. apply in_evs in He. destruct He as (r & Hr & _ & <-). apply H. auto.
Qed.
Lemma evs_ne i d : In i (map r_case d) -> exists r rs, rows_of i d = r :: rs /\ evs i d = r_event r :: map r_event rs /\ r_case r = i /\ In r d.
Proof.
  intros H. apply in_map_iff in H. destruct H as (r & E & I). assert (R : In r (rows_of i d)) by (apply rows_of_in; auto).
  unfold evs. destruct (rows_of i d) as [|r' rs] eqn:Er; [destruct R|]. exists r', rs. repeat split; auto; apply (rows_of_in i d r'); rewrite Er; cbn; auto.
Qed.
(** ---- groups: first and last rows *)
Lemma first_rows_in d r : In r (first_rows d) <-> exists rs, rows_of (r_case r) d = r :: rs.
Proof.
  unfold first_rows. rewrite groups_map, in_flat_map. split.
  - intros ((i & rs) & I & H). apply in_map_iff in I. destruct I as (j & [= <- <-] & _). cbn in H. destruct (rows_of j d) as [|x q] eqn:E; [destruct H|].
    destruct H as [<-|[]]. assert (r_case x = j) by (apply (rows_of_in j d x); rewrite E; cbn; auto). subst j. rewrite E. eauto.
  - intros (rs & E). exists (r_case r, rows_of (r_case r) d). split.
    + apply in_map_iff. exists (r_case r). split; auto. apply dedup_in. apply in_map_iff. exists r. split; auto.
      apply (rows_of_in (r_case r) d r). rewrite E. cbn; auto.
    + cbn. rewrite E. cbn; auto.
Qed.
Lemma last_rows_in d r : In r (last_rows d) <-> exists rs, rows_of (r_case r) d = rs ++ [r].
Proof.
  unfold last_rows. rewrite groups_map, in_flat_map. split.
  - intros ((i & rs) & I & H). apply in_map_iff in I. destruct I as (j & [= <- <-] & _). cbn in H. destruct (rev (rows_of j d)) as [|x q] eqn:E; [destruct H|].
    destruct H as [<-|[]]. assert (E' : rows_of j d = rev q ++ [x]) by (rewrite <- (rev_involutive (rows_of j d)), E; reflexivity).
    assert (r_case x = j) by (apply (rows_of_in j d x); rewrite E'; apply in_app_iff; cbn; auto). subst j. rewrite E'. eauto.
  - intros (rs & E). exists (r_case r, rows_of (r_case r) d). split.
    + apply in_map_iff. exists (r_case r). split; auto. apply dedup_in. apply in_map_iff. exists r. split; auto.
      apply (rows_of_in (r_case r) d r). rewrite E. apply in_app_iff. cbn; auto.
    + cbn. rewrite E, rev_app_distr. cbn; auto.
Qed.
Lemma is_in_iff key values r : is_in key values r = true <-> exists v, value key (r_event r) v /\ In v values.
Proof.
  unfold is_in, col, value. destruct (d_get (r_event r) key) as [v|]; [rewrite vmem_in; split; [eauto|intros (w & [= <-] & H); auto]|].
  split; [discriminate|intros (v & [=] & _)].
Qed.
Lemma first_is_rows i d e : first_is (case_of i d) e <-> exists r rs, rows_of i d = r :: rs /\ r_event r = e.
Proof.
  unfold first_is, case_of, evs. cbn. destruct (rows_of i d) as [|r rs]; cbn.
  - split; [intros (es & [=])|intros (r & rs & [=] & _)].
  - split; [intros (es & [= <- _]); eauto|]. intros (r' & rs' & [= <- <-] & <-). eauto.
Qed.
Lemma last_is_rows i d e : last_is (case_of i d) e <-> exists rs r, rows_of i d = rs ++ [r] /\ r_event r = e.
Proof.
  unfold last_is, case_of, evs. cbn. destruct (snoc_case (rows_of i d)) as [->|(rs & r & ->)]; cbn.
  - split; [intros (es & H); destruct es; discriminate|intros (rs & r & H & _); destruct rs; discriminate].
  - rewrite map_app. cbn. split.
    + intros (es & H). apply app_inj_tail in H. destruct H. eauto.
    + intros (rs' & r' & H & <-). apply app_inj_tail in H. destruct H; subst. eauto.
Qed.
Lemma start_df_ok positive key values d : complete key d -> start_activities positive key values (log_of d) = Some (log_of (start_df positive key values d)).
Proof.
  intros C. destruct (start_total key (log_of d) positive values) as (r & E); [apply complete_everywhere; auto|]. rewrite E. f_equal.
  apply start_ok in E. eapply selected_unique; [exact E|]. eapply selected_ext; [|apply (keep_sel positive _ (fun c => exists e v, first_is c e /\ value key e v /\ In v values))].
  - intros c Hc. apply in_log in Hc. destruct Hc as (i & Hi & ->). destruct (evs_ne i d Hi) as (r0 & rs & Er & Ee & Ec & Ir). destruct (C r0 Ir) as (v0 & V0).
    assert (F : forall e, first_is (case_of i d) e -> e = r_event r0) by (intros e H; apply first_is_rows in H; destruct H as (r' & rs' & H & <-); congruence).
    assert (F0 : first_is (case_of i d) (r_event r0)) by (apply first_is_rows; eauto). destruct positive; cbn [polar]; [tauto|]. split.
    + intros N. exists (r_event r0), v0. repeat split; auto. intros I. apply N. eauto.
    + intros (e & v & H & V & N) (e' & v' & H' & V' & I). apply F in H, H'. subst. unfold value in *. congruence.
  - intros i Hi. rewrite in_map_iff. split.
    + intros (r0 & <- & H). apply filter_In in H. destruct H as (H & I). apply first_rows_in in H. destruct H as (rs & H). apply is_in_iff in I. destruct I as (v & V & I).
      exists (r_event r0), v. repeat split; auto. apply first_is_rows. eauto.
    + intros (e & v & H & V & I). apply first_is_rows in H. destruct H as (r0 & rs & Er & <-). assert (Ec : r_case r0 = i) by (apply (rows_of_in i d r0); rewrite Er; cbn; auto).
      exists r0. split; auto. apply filter_In. split; [apply first_rows_in; rewrite Ec; eauto|]. apply is_in_iff. eauto.
Qed.
Lemma end_df_ok positive key values d : complete key d -> end_activities positive key values (log_of d) = Some (log_of (end_df positive key values d)).
Proof.
  intros C. destruct (end_total key (log_of d) positive values) as (r & E); [apply complete_everywhere; auto|]. rewrite E. f_equal.
  apply end_ok in E. eapply selected_unique; [exact E|]. eapply selected_ext; [|apply (keep_sel positive _ (fun c => exists e v, last_is c e /\ value key e v /\ In v values))].
  - intros c Hc. apply in_log in Hc. destruct Hc as (i & Hi & ->). destruct (snoc_case (rows_of i d)) as [Z0|(rs & r0 & Er)].
    { destruct (evs_ne i d Hi) as (r0 & rs & Er & _). congruence. }
    assert (Ir : In r0 d) by (apply (rows_of_in i d r0); rewrite Er; apply in_app_iff; cbn; auto). destruct (C r0 Ir) as (v0 & V0).
    assert (F : forall e, last_is (case_of i d) e -> e = r_event r0). { intros e H; apply last_is_rows in H; destruct H as (rs' & r' & H & <-). rewrite Er in H. apply app_inj_tail in H. destruct H; congruence. }
    assert (F0 : last_is (case_of i d) (r_event r0)) by (apply last_is_rows; eauto). destruct positive; cbn [polar]; [tauto|]. split.
    + intros N. exists (r_event r0), v0. repeat split; auto. intros I. apply N. eauto.
    + intros (e & v & H & V & N) (e' & v' & H' & V' & I). apply F in H, H'. subst. unfold value in *. congruence.
  - intros i Hi. rewrite in_map_iff. split.
    + intros (r0 & <- & H). apply filter_In in H. destruct H as (H & I). apply last_rows_in in H. destruct H as (rs & H). apply is_in_iff in I. destruct I as (v & V & I).
      exists (r_event r0), v. repeat split; auto. apply last_is_rows. eauto.
    + intros (e & v & H & V & I). apply last_is_rows in H. destruct H as (rs & r0 & Er & <-). assert (Ec : r_case r0 = i) by (apply (rows_of_in i d r0); rewrite Er; apply in_app_iff; cbn; auto).
      exists r0. split; auto. apply filter_In. split; [apply last_rows_in; rewrite Ec; eauto|]. apply is_in_iff. eauto.
Qed.
(** cases with some row *)
Lemma some_row (q : row -> bool) i d : In i (map r_case (filter q d)) <-> exists r, In r (rows_of i d) /\ q r = true.
Proof.
  rewrite in_map_iff. split.
  - intros (r & <- & H). apply filter_In in H. exists r. rewrite rows_of_in. tauto.
  - intros (r & H & Q). apply rows_of_in in H. exists r. rewrite filter_In. tauto.
Qed.
Lemma some_event (q : row -> bool) (Q : event -> Prop) i d : (forall r, q r = true <-> Q (r_event r)) ->
  In i (map r_case (filter q d)) <-> exists e, In e (c_events (case_of i d)) /\ Q e.
Proof.
  intros H. rewrite some_row. cbn. unfold evs. split.
  - intros (r & R & E). exists (r_event r). split; [apply in_map; auto|apply H; auto].
  - intros (e & I & E). apply in_map_iff in I. destruct I as (r & <- & R). exists r. split; auto. apply H; auto.
Qed.
Lemma attribute_values_df_ok positive key values d :
  attribute_values positive key values (log_of d) = Some (log_of (attribute_values_df positive key values d)).
Proof.
  destruct (choose_total (fun c => let found := existsb (fun e => match d_get e key with Some v => vmem v values | None => false end) (c_events c) in
    Some (((found && positive) || (negb found && negb positive)) && (0 <? length (c_events c)))) (log_of d)) as (r & E); [eauto|].
  change (attribute_values positive key values (log_of d) = Some r) in E. rewrite E. f_equal.
  apply attribute_ok in E. eapply selected_unique; [exact E|]. eapply selected_ext; [|apply (keep_sel positive _ (fun c => exists e, In e (c_events c) /\ exists v, value key e v /\ In v values))].
  - intros c Hc. apply in_log in Hc. destruct Hc as (i & Hi & ->). destruct (evs_ne i d Hi) as (r0 & rs & Er & Ee & Ec & Ir).
    assert (c_events (case_of i d) <> []) by (cbn; rewrite Ee; discriminate).
    assert (X : (exists e, In e (c_events (case_of i d)) /\ exists v, value key e v /\ In v values) <-> (exists e v, In e (c_events (case_of i d)) /\ value key e v /\ In v values)) by firstorder.
    destruct positive; cbn [polar]; rewrite X; tauto.
  - intros i Hi. apply some_event. intros r0. apply is_in_iff.
Qed.
Lemma numeric_pos_ok key lo hi d : numeric true 0 key [] lo hi (log_of d) = Some (log_of (numeric_df true key lo hi d)).
Proof.
  assert (I : forall c, In c (log_of d) -> exists i, d_get (c_attrs c) 0 = Some i) by (intros c Hc; apply in_log in Hc; destruct Hc as (i & _ & ->); exists i; reflexivity).
  destruct (numeric_total 0 key [] lo hi true (log_of d) I) as (r & E). rewrite E. f_equal.
  apply numeric_ok in E. 2:{ intros c c' i Hc Hc' H H'. apply in_log in Hc, Hc'. destruct Hc as (j & _ & ->), Hc' as (j' & _ & ->). change (Some j = Some i) in H. change (Some j' = Some i) in H'. congruence. }
  eapply selected_unique; [exact E|]. eapply selected_ext; [|apply (keep_sel true _ (fun c => exists e, In e (c_events c) /\ exists x, value key e x /\ (lo <= x <= hi)%Z))].
  - intros c _. cbn [polar]. split; [intros (e & A & B); exists e; repeat split; auto; intros k v []|intros (e & A & _ & B); exists e; auto].
  - intros i Hi. apply some_event. intros r0. unfold col, value. destruct (d_get (r_event r0) key) as [v|].
    + rewrite andb_true_iff, !Z.leb_le. split; [eauto|intros (x & [= <-] & H); auto].
    + split; [discriminate|intros (x & [=] & _)].
Qed.
Lemma timeframe_df_ok key v ts dt1 dt2 d : complete ts d ->
  attribute_in_timeframe key v ts dt1 dt2 (log_of d) = Some (log_of (attribute_in_timeframe_df key v ts dt1 dt2 d)).
Proof.
  intros C. destruct (timeframe_total key (log_of d) v ts dt1 dt2 (complete_everywhere ts d C)) as (r & E). rewrite E. f_equal. apply timeframe_ok in E.
  eapply selected_unique; [exact E|]. eapply selected_ext; [|apply (keep_sel true _ (fun c => exists e, In e (c_events c) /\ exists t, value key e v /\ value ts e t /\ (dt1 <= t <= dt2)%Z))].
  - intros c _. cbn [polar]. firstorder.
  - intros i Hi. unfold equal_to. rewrite <- (some_event (fun r => has key v (r_event r) && match col ts r with Some t => (dt1 <=? t)%Z && (t <=? dt2)%Z | None => false end)).
    + rewrite !some_row. split.
      * intros (r0 & R & Q). apply rows_of_in in R. destruct R as (R & R'). apply filter_In in R. exists r0. rewrite rows_of_in. destruct R as (R & ->). auto.
      * intros (r0 & R & Q). apply andb_true_iff in Q. apply rows_of_in in R. exists r0. rewrite rows_of_in, filter_In. tauto.
    + intros r0. rewrite andb_true_iff, has_iff. unfold col. unfold value at 3. destruct (d_get (r_event r0) ts) as [t|] eqn:Et.
      * rewrite andb_true_iff, !Z.leb_le. split; [intros (A & B); exists t; auto|intros (t' & A & [= <-] & B); auto].
      * split; [intros (_ & [=])|intros (t & _ & [=] & _)].
Qed.
