From Coq Require Import List Arith Bool ZArith Lia Permutation.
Import ListNotations.
From Verif Require Import Model_Dict Proofs_Dict Model_Tree Model_Filter Spec_Filter Proofs_Filter Proofs_Filter2 Model_FilterDf Spec_FilterDf Proofs_FilterDf.
Local Open Scope nat_scope.
Local Arguments keqb {K Key} : simpl never.
Local Arguments Z.eqb : simpl never.
Local Arguments Nat.ltb : simpl never.
Local Arguments Nat.leb : simpl never.
(** ---- indexed rows *)
Lemma in_indexed {X} (l : list X) s n x : In (n, x) (combine (seq s (length l)) l) <-> s <= n /\ nth_error l (n - s) = Some x.
Proof.
  revert s. induction l as [|y l IH]; intros s; cbn [length seq combine In].
  - split; [tauto|]. intros (_ & H). destruct (n - s); discriminate.
  - rewrite IH. split.
    + intros [[= <- <-]|(L & E)]; [rewrite Nat.sub_diag; auto|]. split; [lia|]. replace (n - s) with (S (n - S s)) by lia. exact E.
    + intros (L & E). destruct (Nat.eq_dec n s) as [->|]; [rewrite Nat.sub_diag in E; cbn in E; left; congruence|]. right. split; [lia|].
      replace (n - s) with (S (n - S s)) in E by lia. exact E.
Qed.
Lemma indexed_in d n r : In (n, r) (indexed d) <-> nth_error d n = Some r.
Proof. unfold indexed. rewrite in_indexed, Nat.sub_0_r. split; [tauto|]. intros; split; auto; lia. Qed.
Lemma rows_with_in key v d n r : In (n, r) (rows_with key v d) <-> nth_error d n = Some r /\ value key (r_event r) v.
Proof. unfold rows_with. rewrite filter_In, indexed_in. cbn. rewrite has_iff. tauto. Qed.
(** ---- eventually follows *)
Lemma evs_cons_eq r d : evs (r_case r) (r :: d) = r_event r :: evs (r_case r) d.
Proof. unfold evs, rows_of. cbn. rewrite Z.eqb_refl. reflexivity. Qed.
Lemma evs_cons_ne i r d : r_case r <> i -> evs i (r :: d) = evs i d.
Proof. unfold evs, rows_of. cbn. destruct (Z.eqb_spec (r_case r) i); tauto. Qed.
Lemma eventually_row key v vs i l : Eventually key (v :: vs) (evs i l) <->
  exists k r, nth_error l k = Some r /\ r_case r = i /\ value key (r_event r) v /\ Eventually key vs (evs i (skipn (S k) l)).
Proof.
  induction l as [|r l IH].
  - cbn. split; [inversion 1|]. intros (k & r & H & _). destruct k; discriminate.
  - destruct (Z.eq_dec (r_case r) i) as [<-|N].
    + rewrite evs_cons_eq. split.
      * inversion 1; subst.
        -- exists 0, r. auto.
        -- assert (Ev : Eventually key (v :: vs) (evs (r_case r) l)) by auto. apply IH in Ev. destruct Ev as (k & r' & A). exists (S k), r'. exact A.
      * intros (k & r' & E & C & V & Ev). destruct k as [|k]; cbn in E.
        -- assert (r = r') by congruence. subst r'. constructor; auto.
        -- apply ev_skip. apply IH. exists k, r'. auto.
    + rewrite evs_cons_ne by auto. rewrite IH. split.
      * intros (k & r' & A). exists (S k), r'. exact A.
      * intros (k & r' & E & C & V & Ev). destruct k as [|k]; cbn in E; [congruence|]. exists k, r'. auto.
Qed.
Lemma join_next_in key v d j c m : In (c, m) (join_next j (rows_with key v d)) <->
  exists n r, In (c, n) j /\ n < m /\ nth_error d m = Some r /\ r_case r = c /\ value key (r_event r) v.
Proof.
  unfold join_next. rewrite in_flat_map. split.
  - intros ((c' & n) & J & I). apply in_map_iff in I. destruct I as ((m' & r) & [= <- <-] & F). apply filter_In in F. destruct F as (F & B). cbn in B.
    apply andb_true_iff in B. destruct B as (B1 & B2). apply Z.eqb_eq in B1. apply Nat.ltb_lt in B2. apply rows_with_in in F. exists n, r. repeat split; auto; try tauto. 
  - intros (n & r & J & L & E & C & V). exists (c, n). split; auto. apply in_map_iff. exists (m, r). split; auto. apply filter_In. split; [apply rows_with_in; auto|]. cbn.
    apply andb_true_iff. split; [apply Z.eqb_eq; auto|apply Nat.ltb_lt; auto].
Qed.
Lemma nth_skipn {X} n k (l : list X) : nth_error (skipn n l) k = nth_error l (n + k).
Proof. revert l. induction n as [|n IH]; intros [|x l]; cbn; auto. destruct k; reflexivity. Qed.
Lemma skipn_skipn' {X} n k (l : list X) : skipn k (skipn n l) = skipn (n + k) l.
Proof. revert l. induction n as [|n IH]; intros [|x l]; cbn; auto. destruct k; reflexivity. Qed.
Lemma fold_join key vs d j c : (exists m, In (c, m) (fold_left join_next (map (fun v => rows_with key v d) vs) j)) <->
  exists n, In (c, n) j /\ Eventually key vs (evs c (skipn (S n) d)).
Proof.
  revert j. induction vs as [|v vs IH]; intros j; cbn [map fold_left].
  - split; intros (m & H); exists m; [split; [auto|constructor]|tauto].
  - rewrite IH. split.
    + intros (m & J & Ev). apply join_next_in in J. destruct J as (n & r & J & L & E & C & V). exists n. split; auto. apply eventually_row.
      exists (m - S n), r. rewrite nth_skipn, skipn_skipn'. replace (S n + (m - S n)) with m by lia. replace (S n + S (m - S n)) with (S m) by lia. auto.
    + intros (n & J & Ev). apply eventually_row in Ev. destruct Ev as (k & r & E & C & V & Ev). rewrite nth_skipn in E. rewrite skipn_skipn' in Ev. exists (S n + k). split.
      * apply join_next_in. exists n, r. repeat split; auto. lia.
      * replace (S (S n + k)) with (S n + S k) by lia. exact Ev.
Qed.
Lemma eventually_df_ok positive key ts v w vs d :
  exists r, eventually_follows_df positive key (v :: w :: vs) d = Some r /\ eventually_follows positive key ts (v :: w :: vs) None (log_of d) = Some (log_of r).
Proof.
  eexists. split; [reflexivity|]. destruct (follows_total key (log_of d) positive ts (v :: w :: vs)) as (r & E). rewrite E. f_equal. apply follows_ok in E.
  eapply selected_unique; [exact E|]. apply keep_sel. intros i Hi. cbn [case_of c_events]. rewrite eventually_row.
  change (rows_with key w d :: map (fun v0 => rows_with key v0 d) vs) with (map (fun v0 => rows_with key v0 d) (w :: vs)). rewrite in_map_iff. split.
  - intros ((c & m) & Ei & J). cbn in Ei. subst c. destruct (proj1 (fold_join key (w :: vs) d (map (fun ir => (r_case (snd ir), fst ir)) (rows_with key v d)) i)) as (n & J' & Ev); [exists m; exact J|].
    apply in_map_iff in J'. destruct J' as ((n' & r0) & E0 & R). cbn in E0. apply rows_with_in in R. exists n, r0. assert (n' = n) by congruence. assert (r_case r0 = i) by congruence. subst n'. tauto.
  - intros (k & r0 & E0 & C & V & Ev). destruct (proj2 (fold_join key (w :: vs) d (map (fun ir => (r_case (snd ir), fst ir)) (rows_with key v d)) i)) as (m & J).
    + exists k. split; auto. apply in_map_iff. exists (k, r0). cbn. split; [congruence|]. apply rows_with_in. auto.
    + exists (i, m). auto.
Qed.
(** ---- joins with the last row *)
Lemma filter_map_snd {X Y} (q : Y -> bool) (l : list (X * Y)) : map snd (filter (fun x => q (snd x)) l) = filter q (map snd l).
Proof. induction l as [|x l IH]; cbn; auto. destruct (q (snd x)); cbn; rewrite IH; auto. Qed.
Lemma map_snd_indexed d : map snd (indexed d) = d.
Proof. unfold indexed. generalize 0. induction d as [|r d IH]; intros s; cbn; auto. rewrite IH. auto. Qed.
Lemma last_of_some c key v d n r : last_of c (rows_with key v d) = Some (n, r) ->
  nth_error d n = Some r /\ r_case r = c /\ value key (r_event r) v /\ forall m s, n < m -> nth_error d m = Some s -> r_case s = c -> ~ value key (r_event s) v.
Proof.
  unfold last_of. intros H.
  assert (G : forall l s, match rev (filter (fun ir => Z.eqb (r_case (snd ir)) c) (filter (fun ir => has key v (r_event (snd ir))) (combine (seq s (length l)) l))) with
     | [] => forall m x, nth_error l m = Some x -> r_case x = c -> ~ value key (r_event x) v
     | (k, y) :: _ => s <= k /\ nth_error l (k - s) = Some y /\ r_case y = c /\ value key (r_event y) v /\ forall m x, k - s < m -> nth_error l m = Some x -> r_case x = c -> ~ value key (r_event x) v
     end).
  { clear. intros l. induction l as [|x l IH]; intros s; cbn [length seq combine filter].
    - cbn. intros [|m] x; discriminate.
    - specialize (IH (S s)). cbn [snd]. set (f := rev (filter (fun ir => Z.eqb (r_case (snd ir)) c) (filter (fun ir => has key v (r_event (snd ir))) (combine (seq (S s) (length l)) l)))) in *.
      assert (X : rev (filter (fun ir => Z.eqb (r_case (snd ir)) c) (if has key v (r_event x) then (s, x) :: filter (fun ir => has key v (r_event (snd ir))) (combine (seq (S s) (length l)) l)
         else filter (fun ir => has key v (r_event (snd ir))) (combine (seq (S s) (length l)) l))) = f ++ if has key v (r_event x) && Z.eqb (r_case x) c then [(s, x)] else []).
      { destruct (has key v (r_event x)); cbn [filter snd andb]; [|unfold f; rewrite app_nil_r; auto]. destruct (Z.eqb (r_case x) c); cbn [rev]; [reflexivity|unfold f; rewrite app_nil_r; reflexivity]. }
      rewrite X. destruct f as [|(k, y) f'].
      + cbn [app]. destruct (has key v (r_event x) && Z.eqb (r_case x) c) eqn:B.
        * apply andb_true_iff in B. destruct B as (B1 & B2). apply has_iff in B1. apply Z.eqb_eq in B2. rewrite Nat.sub_diag. repeat split; auto.
          intros [|m] z L E; [lia|]. cbn in E. apply (IH m z E).
        * intros [|m] z E C V; cbn in E; [|apply (IH m z E C V)]. assert (x = z) by congruence. subst z. apply has_iff in V. rewrite V, C, Z.eqb_refl in B. discriminate.
      + cbn [app]. destruct IH as (A1 & A2 & A3 & A4 & A5). split; [lia|]. replace (k - s) with (S (k - S s)) by lia. repeat split; auto.
        intros [|m] z L E; [lia|]. cbn in E. apply (A5 m); auto. lia. }
  unfold rows_with, indexed in H. specialize (G d 0). destruct (rev _) as [|(k, y) q] eqn:E; [discriminate|]. cbn in H. injection H as -> ->. rewrite Nat.sub_0_r in G. tauto.
Qed.
Lemma last_of_none c key v d : last_of c (rows_with key v d) = None -> forall r, In r d -> r_case r = c -> ~ value key (r_event r) v.
Proof.
  unfold last_of. intros H r I C V. assert (F : filter (fun ir => Z.eqb (r_case (snd ir)) c) (rows_with key v d) = []).
  { destruct (filter _ _) as [|x q] eqn:E; auto. cbn [rev] in H. destruct (rev q ++ [x]) eqn:E'; [destruct (rev q); discriminate|discriminate]. }
  apply In_nth_error in I. destruct I as (n & I). assert (In (n, r) (filter (fun ir => Z.eqb (r_case (snd ir)) c) (rows_with key v d))).
  { apply filter_In. split; [apply rows_with_in; auto|]. cbn. apply Z.eqb_eq. auto. }
  rewrite F in H0. destruct H0.
Qed.
Lemma joined_in same key res A B d i : In i (joined_df same key res A B d) <-> exists n r m s x y, nth_error d n = Some r /\ r_case r = i /\ value key (r_event r) A /\
  last_of i (rows_with key B d) = Some (m, s) /\ value res (r_event r) x /\ value res (r_event s) y /\ Bool.eqb (Z.eqb x y) same = true.
Proof.
  unfold joined_df. rewrite in_map_iff. split.
  - intros ((n & r) & C & F). cbn in C. apply filter_In in F. destruct F as (F & Q). cbn [snd] in Q. apply rows_with_in in F. rewrite C in Q.
    destruct (last_of i (rows_with key B d)) as [(m, s)|] eqn:L; [|discriminate]. cbn [snd] in Q. unfold col in Q.
    destruct (d_get (r_event r) res) as [x|] eqn:X; [|discriminate]. destruct (d_get (r_event s) res) as [y|] eqn:Y; [|discriminate].
    exists n, r, m, s, x, y. unfold value in *. tauto.
  - intros (n & r & m & s & x & y & E & C & V & L & X & Y & Q). exists (n, r). split; auto. apply filter_In. split; [apply rows_with_in; auto|]. cbn [snd]. rewrite C, L. cbn [snd].
    unfold col, value in *. rewrite X, Y. auto.
Qed.
Lemma performs_row key res i d a x : performs key res (case_of i d) a x <-> exists n r, nth_error d n = Some r /\ r_case r = i /\ value key (r_event r) a /\ value res (r_event r) x.
Proof.
  unfold performs. cbn. split.
  - intros (e & I & V & X). apply in_evs in I. destruct I as (r & I & C & <-). apply In_nth_error in I. destruct I as (n & I). exists n, r. auto.
  - intros (n & r & E & C & V & X). exists (r_event r). split; auto. apply in_evs. exists r. split; auto. eapply nth_error_In; eauto.
Qed.
Lemma persons_df_ok positive key res A d : complete res d -> different_persons positive key res A (log_of d) = Some (log_of (different_persons_df positive key res A d)).
Proof.
  intros Cr. destruct (persons_total key (log_of d) res positive A) as (r & E). rewrite E. f_equal. apply persons_ok in E. eapply selected_unique; [exact E|].
  apply keep_sel. intros i Hi. rewrite joined_in. split.
  - intros (n & r0 & m & s & x & y & E0 & C & V & L & X & Y & Q). apply last_of_some in L. destruct L as (Es & Cs & Vs & _). exists x, y. split.
    + destruct (Z.eqb_spec x y); [discriminate|auto].
    + split; apply performs_row; [exists n, r0|exists m, s]; auto.
  - intros (x & y & N & P1 & P2). apply performs_row in P1, P2. destruct P1 as (n1 & r1 & E1 & C1 & V1 & X1), P2 as (n2 & r2 & E2 & C2 & V2 & X2).
    destruct (last_of i (rows_with key A d)) as [(m, s)|] eqn:L.
    + pose proof (last_of_some _ _ _ _ _ _ L) as (Es & Cs & Vs & _). destruct (Cr s) as (z & Z0); [eapply nth_error_In; eauto|]. destruct (Z.eq_dec x z) as [<-|Nz].
      * exists n2, r2, m, s, y, x. unfold value, col in *. repeat split; auto. destruct (Z.eqb_spec y x); [congruence|reflexivity].
      * exists n1, r1, m, s, x, z. unfold value, col in *. repeat split; auto. destruct (Z.eqb_spec x z); [congruence|reflexivity].
    + exfalso. apply (last_of_none _ _ _ _ L r1); auto. eapply nth_error_In; eauto.
Qed.
Lemma filter_filter {X} (p q : X -> bool) l : filter p (filter q l) = filter (fun x => q x && p x) l.
Proof. induction l as [|x l IH]; cbn; auto. destruct (q x); cbn; [destruct (p x); cbn; rewrite IH; auto|auto]. Qed.
(** all the events with B of a case have the same resource *)
Lemma four_eyes_df_ok positive key res A B d : complete res d ->
  (forall i x y, performs key res (case_of i d) B x -> performs key res (case_of i d) B y -> x = y) ->
  four_eyes positive key res A B (log_of d) = Some (log_of (four_eyes_df positive key res A B d)).
Proof.
  intros Cr U. destruct (four_eyes_total key (log_of d) res positive A B) as (r & E). rewrite E. f_equal. apply four_eyes_ok in E. eapply selected_unique; [exact E|].
  assert (J : forall same i, In i (joined_df same key res A B d) <-> exists x y, performs key res (case_of i d) A x /\ performs key res (case_of i d) B y /\ Bool.eqb (Z.eqb x y) same = true).
  { intros same i. rewrite joined_in. split.
    - intros (n & r0 & m & s & x & y & E0 & C & V & L & X & Y & Q). apply last_of_some in L. destruct L as (Es & Cs & Vs & _). exists x, y.
      split; [|split; auto]; apply performs_row; [exists n, r0|exists m, s]; auto.
    - intros (x & y & P1 & P2 & Q). pose proof P2 as P2'. apply performs_row in P1, P2. destruct P1 as (n1 & r1 & E1 & C1 & V1 & X1), P2 as (n2 & r2 & E2 & C2 & V2 & X2).
      destruct (last_of i (rows_with key B d)) as [(m, s)|] eqn:L.
      + pose proof (last_of_some _ _ _ _ _ _ L) as (Es & Cs & Vs & _). destruct (Cr s) as (z & Z0); [eapply nth_error_In; eauto|].
        assert (z = y) by (apply (U i); [apply performs_row; exists m, s; auto|auto]). subst z. exists n1, r1, m, s, x, y. repeat split; auto.
      + exfalso. apply (last_of_none _ _ _ _ L r2); auto. eapply nth_error_In; eauto. }
  destruct positive; unfold four_eyes_df; cbn [polar].
  - unfold keep. rewrite filter_filter. apply (sel_ids (fun i => Bool.eqb (vmem i (joined_df false key res A B d)) true && Bool.eqb (vmem i (joined_df true key res A B d)) false)).
    intros i Hi. rewrite andb_true_iff, (eqb_polar _ true (In i (joined_df false key res A B d))), (eqb_polar _ false (In i (joined_df true key res A B d))) by apply vmem_in. cbn [polar].
    rewrite !J. split.
    + intros ((x & y & P1 & P2 & Q) & N). split; [eauto|]. split; [eauto|]. intros z Pz Pz'. apply N. exists z, z. repeat split; auto. rewrite Z.eqb_refl. auto.
    + intros ((x & P1) & (y & P2) & N). split.
      * exists x, y. repeat split; auto. destruct (Z.eqb_spec x y) as [<-|]; auto. exfalso. eauto.
      * intros (x' & y' & P1' & P2' & Q). destruct (Z.eqb_spec x' y') as [<-|]; [eauto|discriminate].
  - unfold keep. apply (sel_ids (fun i => Bool.eqb (vmem i (joined_df true key res A B d)) true)). intros i Hi.
    rewrite (eqb_polar _ true (In i (joined_df true key res A B d))) by apply vmem_in. cbn [polar]. rewrite J. split.
    + intros (x & y & P1 & P2 & Q). destruct (Z.eqb_spec x y) as [<-|]; [|discriminate]. repeat split; eauto.
    + intros ((x & P1) & (y & P2) & N). destruct (Z.eq_dec x y) as [<-|Ne]; [exists x, x; repeat split; auto; rewrite Z.eqb_refl; auto|].
      (* decidable: look through the A rows *)
      destruct (in_dec Z.eq_dec i (joined_df true key res A B d)) as [I|I]; [apply J in I; auto|]. exfalso. apply N. intros z Pz Pz'. apply I, J. exists z, z. repeat split; auto. rewrite Z.eqb_refl. auto.
Qed.
