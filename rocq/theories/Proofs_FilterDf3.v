From Coq Require Import List Arith Bool ZArith Lia Permutation.
Import ListNotations.
From Verif Require Import Model_Dict Proofs_Dict Model_Tree Model_Filter Spec_Filter Spec_Filter2 Proofs_Filter Proofs_Filter2 Proofs_Filter3 Proofs_Filter4 Model_FilterDf Spec_FilterDf Proofs_FilterDf Proofs_FilterDf2.
Local Open Scope nat_scope.
Local Arguments keqb {K Key} : simpl never.
Local Arguments Z.eqb : simpl never.
Local Arguments Nat.ltb : simpl never.
Local Arguments Nat.leb : simpl never.
(** ---- cumcount *)
Lemma rows_of_snoc i d r : rows_of i (d ++ [r]) = rows_of i d ++ if Z.eqb (r_case r) i then [r] else [].
Proof. unfold rows_of. rewrite filter_app. cbn. destruct (Z.eqb (r_case r) i); auto. Qed.
Lemma indexed_snoc d r : indexed (d ++ [r]) = indexed d ++ [(length d, r)].
Proof.
  unfold indexed. rewrite app_length. cbn [length]. rewrite Nat.add_1_r, seq_S. cbn [Nat.add].
  assert (G : forall (a : list nat) (b : list row) x y, length a = length b -> combine (a ++ [x]) (b ++ [y]) = combine a b ++ [(x, y)]).
  { induction a as [|x a IH]; intros [|y b] u v H; try discriminate; cbn; auto. rewrite IH; auto. }
  apply G. apply seq_length.
Qed.
Lemma cumcount_snoc d r : cumcount (d ++ [r]) = cumcount d ++ [(length (rows_of (r_case r) d), r)].
Proof.
  unfold cumcount. rewrite indexed_snoc, map_app. cbn [map fst snd]. f_equal.
  - apply map_ext_in. intros (n, s) I. apply indexed_in in I. cbn [fst snd]. rewrite firstn_app.
    assert (n < length d) by (apply nth_error_Some; congruence). replace (n - length d) with 0 by lia. cbn [firstn]. rewrite app_nil_r. auto.
  - rewrite firstn_app, Nat.sub_diag, firstn_all, app_nil_r. auto.
Qed.
Lemma cumcount_rows d : map snd (cumcount d) = d.
Proof. induction d as [|r d IH] using rev_ind; auto. rewrite cumcount_snoc, map_app, IH. auto. Qed.
(** the rows of a case in [cumcount] are numbered 0, 1, ... *)
Lemma cumcount_in d n r : In (n, r) (cumcount d) <-> nth_error (rows_of (r_case r) d) n = Some r.
Proof.
  induction d as [|x d IH] using rev_ind; [cbn; destruct n; split; tauto || discriminate|]. rewrite cumcount_snoc, in_app_iff, IH, rows_of_snoc. cbn [In].
  destruct (Z.eqb_spec (r_case x) (r_case r)) as [E|N].
  - rewrite E. split.
    + intros [H|[[= <- <-]|[]]].
      * rewrite nth_error_app1; auto. apply nth_error_Some. congruence.
      * rewrite nth_error_app2, Nat.sub_diag; auto.
    + intros H. destruct (Nat.lt_ge_cases n (length (rows_of (r_case r) d))) as [L|L].
      * rewrite nth_error_app1 in H; auto.
      * rewrite nth_error_app2 in H; auto. right. left. destruct (n - length (rows_of (r_case r) d)) as [|k] eqn:K; [|destruct k; discriminate]. cbn in H.
        f_equal; [lia|congruence].
  - rewrite app_nil_r. split; [intros [H|[[= _ <-]|[]]]; [auto|congruence]|auto].
Qed.
(** ---- rework *)
Lemma rows_of_equal key v i d : rows_of i (equal_to key v d) = filter (fun r => has key v (r_event r)) (rows_of i d).
Proof. unfold rows_of, equal_to. rewrite !filter_filter. apply filter_ext. intros r. apply andb_comm. Qed.
Lemma count_rows key v i d : length (rows_of i (equal_to key v d)) = length (filter (has key v) (c_events (case_of i d))).
Proof. rewrite rows_of_equal. cbn. unfold evs. induction (rows_of i d) as [|r l IH]; cbn; auto. destruct (has key v (r_event r)); cbn; rewrite IH; auto. Qed.
Lemma rework_df_ok positive key a m d : complete key d -> rework positive key a m (log_of d) = Some (log_of (rework_df positive key a m d)).
Proof.
  intros C. destruct (rework_total key (log_of d) positive a m (complete_everywhere key d C)) as (r & E). rewrite E. f_equal. apply rework_ok in E.
  eapply selected_unique; [exact E|]. apply keep_sel. intros i Hi. rewrite in_map_iff. split.
  - intros ((n & r0) & Ei & F). cbn in Ei. subst i. apply filter_In in F. destruct F as (F & L). cbn in L. apply Nat.leb_le in L. apply cumcount_in in F.
    exists (length (filter (has key a) (c_events (case_of (r_case r0) d)))). split; [apply count_exactly|]. rewrite <- count_rows.
    assert (n < length (rows_of (r_case r0) (equal_to key a d))) by (apply nth_error_Some; congruence). lia.
  - intros (n & O & L1 & L2). apply occurs_unique in O. rewrite <- count_rows in O. destruct (nth_error (rows_of i (equal_to key a d)) (n - 1)) as [r0|] eqn:N; [|apply nth_error_None in N; lia].
    assert (r_case r0 = i) by (apply (rows_of_in i (equal_to key a d) r0); eapply nth_error_In; eauto). exists (n - 1, r0). split; auto. apply filter_In. split.
    + apply cumcount_in. rewrite H. auto.
    + apply Nat.leb_le. cbn. lia.
Qed.
Lemma groups_in d i rs : In (i, rs) (groups d) <-> In i (map r_case d) /\ rs = rows_of i d.
Proof. rewrite groups_map, in_map_iff. split; [intros (j & [= <- <-] & H); rewrite dedup_in in H; auto|]. intros (H & ->). exists i. rewrite dedup_in. auto. Qed.
Lemma rows_of_nil i d : rows_of i d = [] <-> ~ In i (map r_case d).
Proof.
  split.
  - intros E I. apply evs_ne in I. destruct I as (r & rs & H & _). congruence.
  - intros N. destruct (rows_of i d) as [|r rs] eqn:E; auto. exfalso. apply N. apply in_map_iff. exists r.
    assert (H : In r (rows_of i d)) by (rewrite E; cbn; auto). apply rows_of_in in H. tauto.
Qed.
Lemma repetitions_df_ok key v m M d : 1 <= m -> repetitions key v m M (log_of d) = Some (log_of (repetitions_df key v m M d)).
Proof.
  intros Lm. destruct (choose_total (fun c => let rep := length (filter (has key v) (c_events c)) in Some ((m <=? rep) && (rep <=? M))) (log_of d)) as (r & E); [eauto|].
  change (repetitions key v m M (log_of d) = Some r) in E. rewrite E. f_equal. apply repetitions_ok in E. eapply selected_unique; [exact E|].
  apply (keep_sel true _ (fun c => exists n, occurs key c v n /\ m <= n <= M)). intros i Hi. rewrite in_map_iff. split.
  - intros ((j & rs) & Ei & F). cbn in Ei. subst j. apply filter_In in F. destruct F as (F & B). apply groups_in in F. destruct F as (_ & ->). cbn in B.
    apply andb_true_iff in B. rewrite !Nat.leb_le, count_rows in B. eexists. split; [apply count_exactly|auto].
  - intros (n & O & L). apply occurs_unique in O. rewrite <- count_rows in O. exists (i, rows_of i (equal_to key v d)). split; auto. apply filter_In. split.
    + apply groups_in. split; auto. destruct (in_dec Z.eq_dec i (map r_case (equal_to key v d))) as [I|I]; auto. apply rows_of_nil in I. rewrite I in O. cbn in O. lia.
    + cbn. apply andb_true_iff. rewrite !Nat.leb_le. lia.
Qed.
Lemma case_size_df_ok m M d : case_size m M (log_of d) = Some (log_of (case_size_df m M d)).
Proof.
  destruct (choose_total (fun c => let n := length (c_events c) in Some ((m <=? n) && match M with Some k => n <=? k | None => true end)) (log_of d)) as (r & E); [eauto|].
  change (case_size m M (log_of d) = Some r) in E. rewrite E. f_equal. apply case_size_ok in E. eapply selected_unique; [exact E|].
  assert (X : case_size_df m M d = filter (fun r => (fun i => (m <=? length (rows_of i d)) && match M with Some k => length (rows_of i d) <=? k | None => true end) (r_case r)) d).
  { unfold case_size_df. cbv zeta. destruct M as [k|]; [rewrite filter_filter; reflexivity|]. apply filter_ext. intros r0. rewrite andb_true_r. reflexivity. }
  rewrite X. apply (sel_ids (fun i => (m <=? length (rows_of i d)) && match M with Some k => length (rows_of i d) <=? k | None => true end)). intros i Hi. cbn [case_of c_events]. unfold evs. rewrite map_length, andb_true_iff, Nat.leb_le. destruct M as [k|].
  - rewrite Nat.leb_le. split; [intros (A & B); split; auto; intros k' [= <-]; auto|intros (A & B); split; auto].
  - split; [intros (A & _); split; auto; intros k [=]|tauto].
Qed.
(** ---- first and last timestamps *)
Lemma extremes_in ts d i a b : In (i, (a, b)) (extremes ts d) <-> exists e1 e2, first_is (case_of i d) e1 /\ last_is (case_of i d) e2 /\ value ts e1 a /\ value ts e2 b.
Proof.
  unfold extremes. rewrite in_flat_map. split.
  - intros ((j & rs) & G & H). apply groups_in in G. destruct G as (G & ->). cbn [fst snd] in H. destruct (rows_of j d) as [|r q] eqn:E; [destruct H|].
    destruct (rev (r :: q)) as [|s q'] eqn:E'; [destruct H|]. destruct (col ts r) as [x|] eqn:X; [|destruct H]. destruct (col ts s) as [y|] eqn:Y; [|destruct H].
    destruct H as [[= <- <- <-]|[]]. exists (r_event r), (r_event s). repeat split; auto.
    + apply first_is_rows. eauto.
    + apply last_is_rows. rewrite E. exists (rev q'), s. split; auto. rewrite <- (rev_involutive (r :: q)), E'. reflexivity.
  - intros (e1 & e2 & F & L & A & B). apply first_is_rows in F. destruct F as (r & q & E & <-). apply last_is_rows in L. destruct L as (q' & s & E' & <-).
    exists (i, rows_of i d). split.
    + apply groups_in. split; auto. apply in_map_iff. exists r. assert (H : In r (rows_of i d)) by (rewrite E; cbn; auto). apply rows_of_in in H. tauto.
    + cbn [fst snd]. assert (R : rev (rows_of i d) = s :: rev q') by (rewrite E', rev_app_distr; reflexivity). rewrite E in R |- *. rewrite R. unfold col. unfold value in A, B. rewrite A, B. cbn; auto.
Qed.
Lemma extremes_sel ts (q : Z * Z -> bool) (Q : Z -> Z -> Prop) d : (forall a b, q (a, b) = true <-> Q a b) ->
  Selected (fun c => exists e1 e2 t1 t2, first_is c e1 /\ last_is c e2 /\ value ts e1 t1 /\ value ts e2 t2 /\ Q t1 t2) (log_of d)
    (log_of (keep true (map fst (filter (fun x => q (snd x)) (extremes ts d))) d)).
Proof.
  intros H. apply (keep_sel true _ (fun c => exists e1 e2 t1 t2, first_is c e1 /\ last_is c e2 /\ value ts e1 t1 /\ value ts e2 t2 /\ Q t1 t2)).
  intros i Hi. rewrite in_map_iff. split.
  - intros ((j & (a & b)) & Ej & F). cbn in Ej. subst j. apply filter_In in F. destruct F as (F & B). cbn in B. apply H in B. apply extremes_in in F. destruct F as (e1 & e2 & F). exists e1, e2, a, b. tauto.
  - intros (e1 & e2 & a & b & F & L & A & B & QQ). exists (i, (a, b)). split; auto. apply filter_In. split; [apply extremes_in; eauto 6|]. apply H. auto.
Qed.
Lemma case_performance_df_ok ts lo hi d : complete ts d -> case_performance ts lo hi (log_of d) = Some (log_of (case_performance_df ts lo hi d)).
Proof.
  intros C. destruct (first_last_total (log_of d) ts (fun a b => (lo <=? b - a)%Z && (b - a <=? hi)%Z) (complete_everywhere ts d C)) as (r & E).
  change (case_performance ts lo hi (log_of d) = Some r) in E. rewrite E. f_equal. apply case_performance_ok in E. eapply selected_unique; [exact E|].
  apply (extremes_sel ts (fun x => let '(a, b) := x in (b - a <=? hi)%Z && (lo <=? b - a)%Z) (fun a b => (lo <= b - a <= hi)%Z)). intros a b. rewrite andb_true_iff, !Z.leb_le. lia.
Qed.
Lemma contained_df_ok ts dt1 dt2 d : complete ts d -> traces_contained ts dt1 dt2 (log_of d) = Some (log_of (traces_contained_df ts dt1 dt2 d)).
Proof.
  intros C. destruct (first_last_total (log_of d) ts (fun a b => (dt1 <=? a)%Z && (b <=? dt2)%Z) (complete_everywhere ts d C)) as (r & E).
  change (traces_contained ts dt1 dt2 (log_of d) = Some r) in E. rewrite E. f_equal. apply contained_ok in E. eapply selected_unique; [exact E|].
  apply (extremes_sel ts (fun x => let '(a, b) := x in (dt1 <=? a)%Z && (b <=? dt2)%Z) (fun a b => (dt1 <= a)%Z /\ (b <= dt2)%Z)). intros a b. rewrite andb_true_iff, !Z.leb_le. lia.
Qed.
(** what the pandas version computes: the open interval and the case as a closed one, none of whose ends is an end of the interval *)
Lemma intersecting_df_ok ts dt1 dt2 d : complete ts d -> (dt1 <= dt2)%Z -> chronological ts d -> (forall r, In r d -> col ts r <> Some dt1 /\ col ts r <> Some dt2) ->
  traces_intersecting ts dt1 dt2 (log_of d) = Some (log_of (traces_intersecting_df ts dt1 dt2 d)).
Proof.
  intros C Hd Ch Hn. destruct (intersecting_total (log_of d) ts dt1 dt2 (complete_everywhere ts d C)) as (r & E). rewrite E. f_equal.
  assert (Ord : forall i e1 e2 t1 t2, first_is (case_of i d) e1 -> last_is (case_of i d) e2 -> value ts e1 t1 -> value ts e2 t2 -> (t1 <= t2)%Z /\ t1 <> dt1 /\ t1 <> dt2 /\ t2 <> dt1 /\ t2 <> dt2).
  { intros i e1 e2 t1 t2 F L A B. apply first_is_rows in F. destruct F as (r1 & q & Er & <-). apply last_is_rows in L. destruct L as (q' & r2 & Er' & <-).
    assert (I1 : In r1 d /\ r_case r1 = i) by (apply rows_of_in; rewrite Er; cbn; auto). assert (I2 : In r2 d /\ r_case r2 = i) by (apply rows_of_in; rewrite Er'; apply in_app_iff; cbn; auto).
    destruct (Hn r1) as (N1 & N2); [tauto|]. destruct (Hn r2) as (N3 & N4); [tauto|]. unfold value in *. unfold col in N1, N2, N3, N4. split; [|repeat split; congruence].
    rewrite Er' in Er. destruct q' as [|x q']; cbn in Er; [assert (r1 = r2) by congruence; subst; assert (t1 = t2) by congruence; lia|]. assert (x = r1) by congruence. subst x.
    assert (S : forall l, rows_of i l = r1 :: q' ++ [r2] -> exists n m, n < m /\ nth_error l n = Some r1 /\ nth_error l m = Some r2).
    { clear. intros l. unfold rows_of. induction l as [|x l IH]; [discriminate|]. cbn. destruct (Z.eqb (r_case x) i).
      - intros [= -> H]. assert (In r2 l). { assert (In r2 (filter (fun r => Z.eqb (r_case r) i) l)) by (rewrite H; apply in_app_iff; cbn; auto). apply filter_In in H0. tauto. }
        apply In_nth_error in H0. destruct H0 as (m & M). exists 0, (S m). repeat split; auto. lia.
      - intros H. destruct (IH H) as (n & m & L & A & B). exists (S n), (S m). repeat split; auto. lia. }
    destruct (S d Er') as (n & m & Lnm & En & Em). apply (Ch n m r1 r2 t1 t2); auto. destruct I1, I2. congruence. }
  apply intersecting_ok in E; auto.
  2:{ intros c e1 e2 t1 t2 Hc F L A B. apply in_log in Hc. destruct Hc as (i & _ & ->). apply (Ord i e1 e2); auto. }
  eapply selected_unique; [exact E|].
  assert (X : traces_intersecting_df ts dt1 dt2 d = keep true (map fst (filter (fun x => let '(a, b) := snd x in (dt1 <? a)%Z && (a <? dt2)%Z || (dt1 <? b)%Z && (b <? dt2)%Z || (a <? dt1)%Z && (dt2 <? b)%Z) (extremes ts d))) d).
  { unfold traces_intersecting_df, keep. apply filter_ext. intros r0. f_equal. apply eq_true_iff_eq. rewrite !vmem_in, !in_map_iff. split.
    - intros (x & Ex & I). exists x. split; auto. rewrite !in_app_iff, !filter_In in I. apply filter_In. destruct x as (j & (a & b)). cbn [snd] in *. rewrite !orb_true_iff. tauto.
    - intros (x & Ex & I). exists x. split; auto. rewrite !in_app_iff, !filter_In. apply filter_In in I. destruct x as (j & (a & b)). cbn [snd] in *. rewrite !orb_true_iff in I. tauto. }
  rewrite X. eapply selected_ext; [|apply (extremes_sel ts (fun x => let '(a, b) := x in (dt1 <? a)%Z && (a <? dt2)%Z || (dt1 <? b)%Z && (b <? dt2)%Z || (a <? dt1)%Z && (dt2 <? b)%Z)
     (fun a b => (dt1 < a < dt2)%Z \/ (dt1 < b < dt2)%Z \/ (a < dt1)%Z /\ (dt2 < b)%Z))].
  - intros c Hc. apply in_log in Hc. destruct Hc as (i & _ & ->). split; intros (e1 & e2 & t1 & t2 & F & L & A & B & H); exists e1, e2, t1, t2; repeat split; auto; pose proof (Ord i e1 e2 t1 t2 F L A B) as O.
    + destruct H as [H|[H|H]]; [exists t1|exists t2|exists dt1]; lia.
    + destruct H as (t & H). lia.
  - intros a b. rewrite !orb_true_iff, !andb_true_iff, !Z.ltb_lt. lia.
Qed.
(** ---- variants *)
Lemma map_opt_rows key rs : map_opt (col key) rs = map_opt (fun e => d_get e key) (map r_event rs).
Proof. induction rs as [|r rs IH]; cbn; auto. unfold col at 1. rewrite IH. reflexivity. Qed.
Lemma variants_df_ok positive key admitted d : complete key d -> exists r, variants_filter positive key admitted (log_of d) = Some r /\
  Permutation r (log_of (variants_filter_df positive key admitted d)).
Proof.
  intros C. destruct (variants_total key (log_of d) (complete_everywhere key d C)) as (dd & Hd).
  destruct (pairs_ex key (log_of d) dd Hd) as (vcs & L & F & E).
  unfold variants_filter. rewrite Hd. cbn [bind]. eexists. split; [reflexivity|]. rewrite E, (flat_groups (fun v => Bool.eqb (vmem v admitted) positive)).
  rewrite (concat_groups (fun v => Bool.eqb (vmem v admitted) positive)).
  2:{ apply NoDup_filter, dedup_nodup. } 2:{ intros k I P. apply filter_In. split; auto. apply dedup_in; auto. } 2:{ intros k I. apply filter_In in I. tauto. }
  assert (S1 : Selected (fun c => polar positive (exists v, trace_is key c v /\ In v admitted)) (log_of d) (map snd (filter (fun vc => Bool.eqb (vmem (fst vc) admitted) positive) vcs))).
  { rewrite <- L. clear -F. induction F as [|(v, c) r T F IH]; cbn [map filter fst snd]; [constructor|]. cbn [fst snd] in T.
    assert (X : Bool.eqb (vmem v admitted) positive = true <-> polar positive (exists v, trace_is key c v /\ In v admitted)).
    { apply eqb_polar. rewrite vmem_in. split; [eauto|]. intros (w & T' & I). rewrite (trace_is_det _ _ _ _ T T'). auto. }
    destruct (Bool.eqb (vmem v admitted) positive); cbn; constructor; auto; [apply X; auto|rewrite <- X; discriminate]. }
  assert (S2 : Selected (fun c => polar positive (exists v, trace_is key c v /\ In v admitted)) (log_of d) (log_of (variants_filter_df positive key admitted d))).
  { apply (keep_sel positive _ (fun c => exists v, trace_is key c v /\ In v admitted)). intros i Hi. rewrite in_map_iff. split.
    - intros ((j & o) & Ej & I). cbn in Ej. subst j. apply filter_In in I. destruct I as (I & B). cbn in B. destruct o as [v|]; [|discriminate]. apply vmem_in in B. exists v. split; auto.
      unfold variants_df in I. apply in_map_iff in I. destruct I as ((j & rs) & [= <- E'] & G). apply groups_in in G. destruct G as (_ & ->). cbn in E'. rewrite map_opt_rows in E'. apply variant_of_ok. exact E'.
    - intros (v & T & I). apply variant_of_ok in T. exists (i, Some v). split; auto. apply filter_In. split; [|cbn; apply vmem_in; auto]. unfold variants_df. apply in_map_iff.
      exists (i, rows_of i d). cbn [fst snd]. rewrite map_opt_rows. split; [f_equal; exact T|apply groups_in; auto]. }
  rewrite (selected_unique _ _ _ _ S1 S2). reflexivity.
Qed.
(** ---- prefixes and suffixes *)
Definition sel (Q : Z -> nat -> bool) (d : df) : df := map snd (filter (fun nr => Q (r_case (snd nr)) (fst nr)) (cumcount d)).
Definition pick {X} (q : nat -> bool) (l : list X) : list X := map snd (filter (fun nx => q (fst nx)) (combine (seq 0 (length l)) l)).
Lemma combine_snoc {X Y} (a : list X) (b : list Y) x y : length a = length b -> combine (a ++ [x]) (b ++ [y]) = combine a b ++ [(x, y)].
Proof. revert b. induction a as [|u a IH]; intros [|v b] H; try discriminate; cbn; auto. rewrite IH; auto. Qed.
Lemma pick_snoc {X} q (l : list X) x : pick q (l ++ [x]) = pick q l ++ if q (length l) then [x] else [].
Proof.
  unfold pick. rewrite app_length. cbn [length]. rewrite Nat.add_1_r, seq_S, combine_snoc by apply seq_length. rewrite filter_app, map_app. cbn [filter Nat.add fst].
  destruct (q (length l)); auto.
Qed.
Lemma rows_of_sel Q i d : rows_of i (sel Q d) = pick (Q i) (rows_of i d).
Proof.
  induction d as [|r d IH] using rev_ind; auto. unfold sel in *. rewrite cumcount_snoc, filter_app, map_app. cbn [filter fst snd].
  assert (A : forall x y, rows_of i (x ++ y) = rows_of i x ++ rows_of i y) by (intros; unfold rows_of; apply filter_app). rewrite A, IH, rows_of_snoc.
  destruct (Z.eqb_spec (r_case r) i) as [<-|N].
  - rewrite pick_snoc. f_equal. destruct (Q (r_case r) _); cbn; auto. unfold rows_of. cbn. rewrite Z.eqb_refl. auto.
  - rewrite app_nil_r. destruct (Q (r_case r) _); cbn [map]; unfold rows_of at 2; cbn; [destruct (Z.eqb_spec (r_case r) i); [contradiction|]|]; apply app_nil_r.
Qed.
Lemma pick_ext {X} p q (l : list X) : (forall n, n < length l -> p n = q n) -> pick p l = pick q l.
Proof. intros H. unfold pick. f_equal. apply filter_ext_in. intros (n, x) I. apply in_combine_l in I. apply in_seq in I. cbn. apply H. lia. Qed.
Lemma pick_map {X Y} (f : X -> Y) q l : map f (pick q l) = pick q (map f l).
Proof. induction l as [|x l IH] using rev_ind; auto. rewrite map_app. cbn [map]. rewrite !pick_snoc, map_app, IH, map_length. destruct (q (length l)); auto. Qed.
Lemma pick_lt {X} p (l : list X) : pick (fun n => n <? p) l = firstn p l.
Proof.
  induction l as [|x l IH] using rev_ind; [destruct p; auto|]. rewrite pick_snoc, IH, firstn_app. f_equal. destruct (Nat.ltb_spec (length l) p) as [H|H].
  - destruct (p - length l) eqn:K; [lia|]. cbn. destruct n; reflexivity.
  - replace (p - length l) with 0 by lia. reflexivity.
Qed.
Lemma pick_ge {X} p (l : list X) : pick (fun n => p <=? n) l = skipn p l.
Proof.
  induction l as [|x l IH] using rev_ind; [destruct p; auto|]. rewrite pick_snoc, IH, skipn_app. f_equal. destruct (Nat.leb_spec p (length l)) as [H|H].
  - replace (p - length l) with 0 by lia. reflexivity.
  - destruct (p - length l) eqn:K; [lia|]. cbn. destruct n; reflexivity.
Qed.
Lemma pick_none {X} (l : list X) : pick (fun _ => false) l = [].
Proof. induction l as [|x l IH] using rev_ind; auto. rewrite pick_snoc, IH. auto. Qed.
Lemma occurrences_snoc key es e v : occurrences key (es ++ [e]) v = occurrences key es v ++ if has key v e then [length es] else [].
Proof.
  unfold occurrences. rewrite app_length. cbn [length]. rewrite Nat.add_1_r, seq_S, filter_app. cbn [filter Nat.add]. f_equal.
  - apply filter_ext_in. intros n I. apply in_seq in I. rewrite nth_error_app1 by lia. auto.
  - rewrite nth_error_app2, Nat.sub_diag by lia. cbn. destruct (has key v e); auto.
Qed.
Lemma cut_position_index key a first c d : cut_position key a first c d = cut_index key a first (evs c d).
Proof.
  unfold cut_position, cut_index. cbv zeta.
  assert (E : map fst (filter (fun nr => Z.eqb (r_case (snd nr)) c && has key a (r_event (snd nr))) (cumcount d)) = occurrences key (evs c d) a).
  { induction d as [|r d IH] using rev_ind; auto. rewrite cumcount_snoc, filter_app, map_app, IH. cbn [filter snd]. unfold evs at 2. rewrite rows_of_snoc.
    destruct (Z.eqb_spec (r_case r) c) as [<-|N]; cbn [andb].
    - rewrite map_app. cbn [map]. rewrite occurrences_snoc, map_length. fold (evs (r_case r) d). destruct (has key a (r_event r)); auto.
    - cbn [map]. rewrite !app_nil_r. auto. }
  rewrite E. auto.
Qed.
Definition nonempty (c : case) : bool := match c_events c with [] => false | _ => true end.
Lemma log_nodup d : NoDup (log_of d).
Proof.
  rewrite log_map. pose proof (dedup_nodup (map r_case d)) as N. induction N as [|i l H N IH]; cbn; constructor; auto. rewrite in_map_iff. intros (j & E & I).
  assert (j = i) by (unfold case_of in E; congruence). subst. auto.
Qed.
Lemma cut_log_perm key a first (g : nat -> list event -> list event) Q d :
  (forall i, In i (map r_case d) -> map r_event (pick (Q i) (rows_of i d)) = match cut_index key a first (evs i d) with Some p => g p (evs i d) | None => [] end) ->
  Permutation (log_of (sel Q d)) (filter nonempty (flat_map (fun c => match cut_index key a first (c_events c) with Some i => [Case (c_attrs c) (g i (c_events c))] | None => [] end) (log_of d))).
Proof.
  intros H. apply NoDup_Permutation; [apply log_nodup| |].
  - apply NoDup_filter. rewrite log_map. pose proof (dedup_nodup (map r_case d)) as N. induction N as [|i l Hi N IH]; cbn [map flat_map]; [constructor|].
    destruct (cut_index key a first (c_events (case_of i d))); cbn [app]; auto. constructor; auto. rewrite in_flat_map. intros (c & I & X). apply in_map_iff in I. destruct I as (j & <- & I).
    cbn in X. destruct (cut_index key a first (evs j d)); [|destruct X]. destruct X as [X|[]]. assert (j = i) by congruence. subst. auto.
  - intros c. rewrite filter_In, in_flat_map, in_log. split.
    + intros (i & I & ->). assert (I' : In i (map r_case d)).
      { apply in_map_iff in I. destruct I as (r & <- & I). unfold sel in I. apply in_map_iff in I. destruct I as ((n & r') & E & I). cbn in E. subst r'. apply filter_In in I. destruct I as (I & _).
        apply in_map. rewrite <- (cumcount_rows d). change r with (snd (n, r)). apply in_map. auto. }
      destruct (evs_ne i (sel Q d) I) as (r & rs & _ & Ee & _). assert (Ev : evs i (sel Q d) = match cut_index key a first (evs i d) with Some p => g p (evs i d) | None => [] end).
      { unfold evs at 1. rewrite rows_of_sel. auto. }
      split.
      * exists (case_of i d). split; [apply in_log; eauto|]. cbn [case_of c_events c_attrs]. destruct (cut_index key a first (evs i d)); [|congruence]. left. unfold case_of. congruence.
      * unfold nonempty. cbn. rewrite Ee. auto.
    + intros ((c0 & L & X) & N). apply in_log in L. destruct L as (i & I & ->). cbn [case_of c_events c_attrs] in X. exists i.
      assert (Ev : evs i (sel Q d) = match cut_index key a first (evs i d) with Some p => g p (evs i d) | None => [] end).
      { unfold evs at 1. rewrite rows_of_sel. auto. }
      destruct (cut_index key a first (evs i d)) as [p|]; [|destruct X]. destruct X as [<-|[]]. split; [|unfold case_of; congruence].
      destruct (in_dec Z.eq_dec i (map r_case (sel Q d))) as [Y|Y]; auto. apply rows_of_nil in Y. unfold evs in Ev at 1. rewrite Y in Ev. cbn in Ev. unfold nonempty in N. cbn in N. rewrite <- Ev in N. discriminate.
Qed.
Lemma prefixes_df_ok key a first strict d : Permutation (log_of (prefixes_df key a first strict d)) (filter nonempty (prefixes key a first strict (log_of d))).
Proof.
  unfold prefixes. rewrite <- (cut_log_perm key a first (fun i es => firstn (if strict then i else i + 1) es)
    (fun i n => match cut_position key a first i d with Some p => if strict then n <? p else n <=? p | None => false end)); [reflexivity|].
  intros i _. rewrite cut_position_index, pick_map. fold (evs i d). destruct (cut_index key a first (evs i d)) as [p|]; [|apply pick_none]. destruct strict.
  - apply pick_lt.
  - rewrite <- pick_lt. apply pick_ext. intros n _. apply eq_true_iff_eq. rewrite Nat.ltb_lt, Nat.leb_le. lia.
Qed.
Lemma suffixes_df_ok key a first strict d : Permutation (log_of (suffixes_df key a first strict d)) (filter nonempty (suffixes key a first strict (log_of d))).
Proof.
  unfold suffixes. rewrite <- (cut_log_perm key a first (fun i es => skipn (if strict then i + 1 else i) es)
    (fun i n => match cut_position key a first i d with Some p => if strict then p <? n else p <=? n | None => false end)); [reflexivity|].
  intros i _. rewrite cut_position_index, pick_map. fold (evs i d). destruct (cut_index key a first (evs i d)) as [p|]; [|apply pick_none]. destruct strict.
  - rewrite <- pick_ge. apply pick_ext. intros n _. apply eq_true_iff_eq. rewrite Nat.ltb_lt, Nat.leb_le. lia.
  - apply pick_ge.
Qed.
