From Coq Require Import List Arith Bool ZArith Lia Permutation.
Import ListNotations.
From Verif Require Import Model_Dict Proofs_Dict Model_Tree Model_Filter Spec_Filter Proofs_Filter Proofs_Filter2 Model_FilterDf Spec_FilterDf Proofs_FilterDf Proofs_FilterDf2 Proofs_FilterDf3.
Local Open Scope nat_scope.
Local Arguments keqb {K Key} : simpl never.
Local Arguments Z.eqb : simpl never.
Local Arguments Nat.ltb : simpl never.
Local Arguments Nat.leb : simpl never.
Lemma contig_split c d : contiguous d -> exists pre rows post, d = pre ++ rows ++ post /\ (forall r, In r pre -> r_case r <> c) /\ (forall r, In r rows -> r_case r = c) /\ (forall r, In r post -> r_case r <> c).
Proof.
  induction d as [|r d IH]; intros H; [exists [], [], []; cbn; tauto|].
  assert (H' : contiguous d) by (intros i j k x y z L1 L2 E1 E2 E3; apply (H (S i) (S j) (S k)); auto; lia).
  destruct (IH H') as (pre & rows & post & E & A & B & C). destruct (Z.eq_dec (r_case r) c) as [Ec|N].
  - destruct rows as [|s rows].
    + exists [], [r], d. repeat split; cbn; try tauto.
      * intros x [<-|[]]. auto.
      * intros x Hx. rewrite E in Hx. cbn in Hx. apply in_app_iff in Hx. destruct Hx; auto.
    + destruct pre as [|p pre].
      * exists [], (r :: s :: rows), post. repeat split; auto; [cbn; rewrite E; auto|]. intros x [<-|Hx]; auto.
      * exfalso. apply (A p); [cbn; auto|]. rewrite <- Ec. apply (H 0 1 (S (length (p :: pre))) r p s); try (cbn; lia); auto.
        -- rewrite E. auto.
        -- cbn [nth_error]. rewrite E, nth_error_app2, Nat.sub_diag; auto.
        -- rewrite Ec. symmetry. apply B. cbn; auto.
  - exists (r :: pre), rows, post. repeat split; auto; [cbn; congruence|]. intros x [<-|Hx]; auto.
Qed.
Lemma filter_all {X} (p : X -> bool) l : (forall x, In x l -> p x = true) -> filter p l = l.
Proof. induction l as [|x l IH]; intros H; cbn; auto. rewrite H by (cbn; auto). f_equal. apply IH. intros; apply H; cbn; auto. Qed.
Lemma filter_none {X} (p : X -> bool) l : (forall x, In x l -> p x = false) -> filter p l = [].
Proof. induction l as [|x l IH]; intros H; cbn; auto. rewrite H by (cbn; auto). apply IH. intros; apply H; cbn; auto. Qed.
Lemma contig_rows c d : contiguous d -> exists m, forall k r, nth_error (rows_of c d) k = Some r -> nth_error d (m + k) = Some r.
Proof.
  intros H. destruct (contig_split c d H) as (pre & rows & post & E & A & B & C). exists (length pre). intros k r Hk.
  assert (R : rows_of c d = rows).
  { unfold rows_of. rewrite E, !filter_app. rewrite (filter_none _ pre), (filter_none _ post), (filter_all _ rows), app_nil_r; auto; intros x Hx.
    - apply Z.eqb_eq; auto.
    - apply Z.eqb_neq; auto.
    - apply Z.eqb_neq; auto. }
  rewrite R in Hk. rewrite E, nth_error_app2 by lia. replace (length pre + k - length pre) with k by lia. rewrite nth_error_app1; auto. apply nth_error_Some. congruence.
Qed.
(** consecutive rows of a case are consecutive in the case *)
Lemma rows_adjacent c d r1 r2 n : nth_error d n = Some r1 -> nth_error d (n + 1) = Some r2 -> r_case r1 = c -> r_case r2 = c ->
  nth_error (rows_of c d) (length (rows_of c (firstn n d))) = Some r1 /\ length (rows_of c (firstn (n + 1) d)) = length (rows_of c (firstn n d)) + 1 /\
  nth_error (rows_of c d) (length (rows_of c (firstn n d)) + 1) = Some r2.
Proof.
  intros E1 E2 C1 C2. assert (P : forall m r, nth_error d m = Some r -> r_case r = c -> nth_error (rows_of c d) (length (rows_of c (firstn m d))) = Some r /\ length (rows_of c (firstn (m + 1) d)) = length (rows_of c (firstn m d)) + 1).
  { intros m r E C. assert (S : d = firstn m d ++ r :: skipn (m + 1) d).
    { clear -E. revert d E. induction m as [|m IH]; intros [|x d] E; cbn in *; try discriminate; [congruence|]. f_equal. apply IH. auto. }
    assert (F : firstn (m + 1) d = firstn m d ++ [r]).
    { clear -E. revert d E. induction m as [|m IH]; intros [|x d] E; cbn in *; try discriminate; [congruence|]. f_equal. apply IH. auto. }
    split.
    - rewrite S at 1. unfold rows_of at 1. rewrite filter_app. fold (rows_of c (firstn m d)). rewrite nth_error_app2, Nat.sub_diag by lia. cbn. rewrite C, Z.eqb_refl. auto.
    - rewrite F, rows_of_snoc, C, Z.eqb_refl, app_length. auto. }
  destruct (P n r1 E1 C1) as (A1 & A2). destruct (P (n + 1) r2 E2 C2) as (B1 & _). rewrite A2 in B1. auto.
Qed.
Lemma evs_nth i d k e : nth_error (evs i d) k = Some e <-> exists r, nth_error (rows_of i d) k = Some r /\ r_event r = e.
Proof. unfold evs. rewrite nth_error_map. destruct (nth_error (rows_of i d) k); cbn; split; [intros [= <-]; eauto|intros (x & [= <-] & <-); auto|discriminate|intros (x & [=] & _)]. Qed.
Lemma row_case i d k r : nth_error (rows_of i d) k = Some r -> r_case r = i.
Proof. intros H. apply nth_error_In in H. apply rows_of_in in H. tauto. Qed.
Lemma abc_df_ok positive key A B C d : contiguous d -> once key B d -> once key C d ->
  A_next_B_next_C positive key A B C (log_of d) = Some (log_of (A_next_B_next_C_df positive key A B C d)).
Proof.
  intros Hc HB HC. destruct (abc_total key (log_of d) positive A B C) as (r & E). rewrite E. f_equal. apply abc_ok in E. eapply selected_unique; [exact E|].
  apply keep_sel. intros i Hi. rewrite in_map_iff. split.
  - intros ((n & r1) & Ei & F). cbn [snd] in Ei. apply filter_In in F. destruct F as (F & Q). apply rows_with_in in F. destruct F as (En & VA). cbn [fst snd] in Q. rewrite Ei in Q.
    destruct (last_of i (rows_with key B d)) as [(m, r2)|] eqn:LB; [|discriminate]. destruct (last_of i (rows_with key C d)) as [(p, r3)|] eqn:LC; [|discriminate].
    cbn [fst] in Q. apply andb_true_iff in Q. rewrite !Nat.eqb_eq in Q. destruct Q as (-> & ->). apply last_of_some in LB, LC. destruct LB as (Em & C2 & VB & _), LC as (Ep & C3 & VC & _).
    destruct (rows_adjacent i d r1 r2 n) as (A1 & A2 & A3); auto. destruct (rows_adjacent i d r2 r3 (n + 1)) as (B1 & B2 & B3); auto. rewrite A2 in B3.
    exists (r_event r1), (r_event r2), (r_event r3). split; auto. apply adjacent3_nth. exists (length (rows_of i (firstn n d))). cbn [case_of c_events]. rewrite !evs_nth. split; [|split]; [exists r1|exists r2|exists r3]; auto.
  - intros (e1 & e2 & e3 & H & VA & VB & VC). apply adjacent3_nth in H. destruct H as (k & H1 & H2 & H3). cbn [case_of c_events] in *. apply evs_nth in H1, H2, H3.
    destruct H1 as (r1 & H1 & <-), H2 as (r2 & H2 & <-), H3 as (r3 & H3 & <-). pose proof (row_case _ _ _ _ H1) as C1. pose proof (row_case _ _ _ _ H2) as C2. pose proof (row_case _ _ _ _ H3) as C3.
    destruct (contig_rows i d Hc) as (m & M). apply M in H1, H2, H3. exists (m + k, r1). split; auto. apply filter_In. split; [apply rows_with_in; auto|]. cbn [fst snd]. rewrite C1.
    destruct (last_of i (rows_with key B d)) as [(p, s)|] eqn:LB. 2:{ exfalso. apply (last_of_none _ _ _ _ LB r2); auto. eapply nth_error_In; eauto. }
    destruct (last_of i (rows_with key C d)) as [(q, t)|] eqn:LC. 2:{ exfalso. apply (last_of_none _ _ _ _ LC r3); auto. eapply nth_error_In; eauto. }
    apply last_of_some in LB, LC. destruct LB as (Ep & Cp & Vp & _), LC as (Eq & Cq & Vq & _).
    assert (p = m + (k + 1)) by (apply (HB p (m + (k + 1)) s r2); unfold col, value in *; auto; congruence). assert (q = m + (k + 1 + 1)) by (apply (HC q (m + (k + 1 + 1)) t r3); unfold col, value in *; auto; congruence).
    subst. cbn [fst]. apply andb_true_iff. rewrite !Nat.eqb_eq. lia.
Qed.
(** ---- paths *)
Lemma in_shifted d r s : In (r, s) (shifted d) <-> exists n, nth_error d n = Some r /\ nth_error d (n + 1) = Some s.
Proof.
  unfold shifted. induction d as [|x d IH].
  - cbn. split; [tauto|]. intros (n & H & _). destruct n; discriminate.
  - cbn [tl]. destruct d as [|y d].
    + cbn. split; [tauto|]. intros ([|n] & _ & H); cbn in H; [discriminate|]. destruct (n + 1); discriminate.
    + change (combine (x :: y :: d) (y :: d)) with ((x, y) :: combine (y :: d) (tl (y :: d))). cbn [In]. rewrite IH. split.
      * intros [[= <- <-]|(n & A & B)]; [exists 0; auto|exists (S n); auto].
      * intros ([|n] & A & B); [left; cbn in A, B; congruence|right; exists n; auto].
Qed.
Lemma paths_core positive key wanted d : complete key d -> contiguous d ->
  paths positive key wanted (log_of d) = Some (log_of (keep positive (map (fun rs => r_case (fst rs)) (filter (fun rs => Z.eqb (r_case (fst rs)) (r_case (snd rs)) &&
    match col key (fst rs), col key (snd rs) with Some a, Some b => vmem (a, b) wanted | _, _ => false end) (shifted d))) d)).
Proof.
  intros Hk Hc. destruct (paths_total key (log_of d) positive wanted (complete_everywhere key d Hk)) as (r & E). rewrite E. f_equal. apply paths_ok in E. eapply selected_unique; [exact E|].
  apply keep_sel. intros i Hi. rewrite in_map_iff. split.
  - intros ((r1 & r2) & Ei & F). cbn [fst] in Ei. apply filter_In in F. destruct F as (F & Q). cbn [fst snd] in Q. apply andb_true_iff in Q. destruct Q as (Q1 & Q2). apply Z.eqb_eq in Q1.
    apply in_shifted in F. destruct F as (n & E1 & E2). destruct (rows_adjacent i d r1 r2 n) as (A1 & A2 & A3); auto; [congruence|].
    unfold col in Q2. destruct (d_get (r_event r1) key) as [a|] eqn:Va; [|discriminate]. destruct (d_get (r_event r2) key) as [b|] eqn:Vb; [|discriminate]. apply vmem_in in Q2.
    exists (r_event r1), (r_event r2), a, b. split; auto. cbn [case_of c_events]. unfold adjacent. unfold evs. clear -A1 A3.
    revert A1 A3. generalize (length (rows_of i (firstn n d))). generalize (rows_of i d). intros l. induction l as [|x l IH]; intros [|k] A B; cbn in *; try discriminate.
    + destruct l as [|y l]; [discriminate|]. cbn in B. injection A as ->. injection B as ->. exists [], (map r_event l). auto.
    + destruct (IH k A B) as (p & s & H). exists (r_event x :: p), s. cbn. rewrite H. auto.
  - intros (e1 & e2 & a & b & (p & s & H) & Va & Vb & W). cbn [case_of c_events] in H.
    assert (N1 : nth_error (evs i d) (length p) = Some e1) by (rewrite H, nth_error_app2, Nat.sub_diag; auto).
    assert (N2 : nth_error (evs i d) (length p + 1) = Some e2) by (rewrite H, nth_error_app2 by lia; replace (length p + 1 - length p) with 1 by lia; auto).
    apply evs_nth in N1, N2. destruct N1 as (r1 & N1 & <-), N2 as (r2 & N2 & <-). pose proof (row_case _ _ _ _ N1) as C1. pose proof (row_case _ _ _ _ N2) as C2.
    destruct (contig_rows i d Hc) as (m & M). apply M in N1, N2. exists (r1, r2). split; auto. apply filter_In. split.
    + apply in_shifted. exists (m + length p). split; auto. rewrite <- Nat.add_assoc. auto.
    + cbn [fst snd]. unfold col, value in *. rewrite C1, C2, Z.eqb_refl, Va, Vb. cbn. apply vmem_in. auto.
Qed.
Lemma insert_in ts r d x : In x (insert_row ts r d) <-> x = r \/ In x d.
Proof. induction d as [|s d IH]; cbn; [intuition|]. destruct (row_leb ts r s); cbn; [intuition|]. rewrite IH. intuition. Qed.
Lemma sort_in ts d x : In x (sort_rows ts d) <-> In x d.
Proof. induction d as [|r d IH]; cbn; [tauto|]. unfold sort_rows in *. cbn. rewrite insert_in, IH. intuition. Qed.
Lemma sort_sorted ts d i j r s : i < j -> nth_error (sort_rows ts d) i = Some r -> nth_error (sort_rows ts d) j = Some s -> (r_case r <= r_case s)%Z.
Proof.
  assert (G : forall q x, (forall i j r s, i < j -> nth_error q i = Some r -> nth_error q j = Some s -> (r_case r <= r_case s)%Z) ->
    forall i j r s, i < j -> nth_error (insert_row ts x q) i = Some r -> nth_error (insert_row ts x q) j = Some s -> (r_case r <= r_case s)%Z).
  { induction q as [|y q IH]; intros x H i' j' r' s' L E1 E2; cbn in E1, E2.
    - destruct j' as [|[|j']]; cbn in E2; [lia|discriminate|discriminate].
    - assert (Hq : forall k z, nth_error q k = Some z -> (r_case y <= r_case z)%Z) by (intros k z Ez; apply (H 0 (S k)); auto; lia).
      destruct (row_leb ts x y) eqn:B.
      + assert (Lxy : (r_case x <= r_case y)%Z). { unfold row_leb in B. destruct (Z.ltb_spec (r_case x) (r_case y)); [lia|]. destruct (Z.ltb_spec (r_case y) (r_case x)); [discriminate|lia]. }
        destruct i' as [|i']; cbn in E1.
        * injection E1 as <-. destruct j' as [|[|j']]; [lia|cbn in E2; injection E2 as <-; auto|]. cbn in E2. specialize (Hq j' s' E2). lia.
        * destruct j' as [|j']; [lia|]. apply (H i' j'); auto; lia.
      + assert (Lyx : (r_case y <= r_case x)%Z). { unfold row_leb in B. destruct (Z.ltb_spec (r_case x) (r_case y)); [discriminate|]. lia. }
        destruct i' as [|i']; cbn in E1.
        * injection E1 as <-. destruct j' as [|j']; [lia|]. cbn in E2. apply nth_error_In in E2. apply insert_in in E2. destruct E2 as [->|I]; auto. apply In_nth_error in I. destruct I as (k & I). eauto.
        * destruct j' as [|j']; [lia|]. apply (IH x) with (i := i') (j := j'); auto; [|lia]. intros a b u v Lab Ea Eb. apply (H (S a) (S b)); auto. lia. }
  revert i j r s. induction d as [|x d IH]; intros i j r s; [destruct i; discriminate|]. apply G. exact IH.
Qed.
Lemma sort_contiguous ts d : contiguous (sort_rows ts d).
Proof.
  intros i j k r s t L1 L2 E1 E2 E3 E. pose proof (sort_sorted ts d i j r s L1 E1 E2). pose proof (sort_sorted ts d j k s t L2 E2 E3). lia.
Qed.
Lemma sort_complete key ts d : complete key d -> complete key (sort_rows ts d).
Proof. intros H r I. apply H. apply sort_in in I. auto. Qed.
Lemma paths_df_sorted positive key ts wanted d : complete key d -> paths positive key wanted (log_of (sort_rows ts d)) = Some (log_of (paths_df positive key ts wanted d)).
Proof. intros H. apply paths_core; [apply sort_complete; auto|apply sort_contiguous]. Qed.
Lemma insert_rows ts i r q : (forall s, In s q -> r_case s = r_case r -> row_leb ts r s = true) -> rows_of i (insert_row ts r q) = rows_of i (r :: q).
Proof.
  induction q as [|s q IH]; intros H; auto. cbn [insert_row]. destruct (row_leb ts r s) eqn:B; auto.
  assert (N : r_case s <> r_case r) by (intros Es; rewrite H in B; cbn; auto; discriminate).
  change (rows_of i (s :: insert_row ts r q)) with (if Z.eqb (r_case s) i then s :: rows_of i (insert_row ts r q) else rows_of i (insert_row ts r q)).
  rewrite IH by (intros; apply H; cbn; auto). unfold rows_of. cbn [filter]. destruct (Z.eqb_spec (r_case r) i), (Z.eqb_spec (r_case s) i); auto. congruence.
Qed.
Lemma sort_rows_of ts i d : chronological ts d -> rows_of i (sort_rows ts d) = rows_of i d.
Proof.
  induction d as [|r d IH]; intros H; auto. change (sort_rows ts (r :: d)) with (insert_row ts r (sort_rows ts d)). rewrite insert_rows.
  - change (rows_of i (r :: sort_rows ts d)) with (if Z.eqb (r_case r) i then r :: rows_of i (sort_rows ts d) else rows_of i (sort_rows ts d)).
    rewrite IH; [reflexivity|]. intros a b u v x y L E1 E2. apply (H (S a) (S b)); auto. lia.
  - intros s I Es. apply (proj1 (sort_in ts d s)) in I. apply In_nth_error in I. destruct I as (n & I). unfold row_leb. rewrite Es, !Z.ltb_irrefl.
    destruct (col ts r) as [a|] eqn:A; auto. destruct (col ts s) as [b|] eqn:B; auto. apply Z.leb_le. apply (H 0 (S n) r s); auto. lia.
Qed.
Lemma sort_log_perm ts d : chronological ts d -> Permutation (log_of (sort_rows ts d)) (log_of d).
Proof.
  intros H. apply NoDup_Permutation; [apply log_nodup|apply log_nodup|]. intros c. rewrite !in_log.
  assert (X : forall i, In i (map r_case (sort_rows ts d)) <-> In i (map r_case d)) by (intros i; rewrite !in_map_iff; split; intros (r & A & B); exists r; rewrite sort_in in *; auto).
  split; intros (i & I & ->); exists i; rewrite X in *; split; auto; unfold case_of, evs; rewrite sort_rows_of; auto.
Qed.
Lemma selected_perm {X} (P : X -> Prop) l l' r r' : Permutation l l' -> Selected P l r -> Selected P l' r' -> Permutation r r'.
Proof.
  intros H. revert r r'. induction H as [|x l l' H IH|x y l|l l2 l3 H1 IH1 H2 IH2]; intros r r' S S'.
  - inversion S; inversion S'; subst. constructor.
  - inversion S as [|a b c P1 S1|a b c P1 S1]; inversion S' as [|a' b' c' P2 S2|a' b' c' P2 S2]; subst; try contradiction; [constructor|]; auto.
  - inversion S as [|a b c P1 S1|a b c P1 S1]; subst; inversion S1 as [|a1 b1 c1 P1' S1'|a1 b1 c1 P1' S1']; subst;
      inversion S' as [|a' b' c' P2 S2|a' b' c' P2 S2]; subst; try contradiction; inversion S2 as [|a2 b2 c2 P2' S2'|a2 b2 c2 P2' S2']; subst; try contradiction;
      rewrite (selected_unique _ _ _ _ S1' S2'); auto. constructor.
  - assert (D : exists q, Selected P l2 q).
    { assert (D : forall x, In x l2 -> P x \/ ~ P x).
      { intros x Hx. apply (Permutation_in _ (Permutation_sym H1)) in Hx. clear -S Hx. induction S as [|y l r Py S IH|y l r Py S IH]; [destruct Hx| |]; destruct Hx as [->|Hx]; auto. }
      clear -D. induction l2 as [|x l IH]; [exists []; constructor|]. destruct IH as (q & Q); [intros; apply D; cbn; auto|]. destruct (D x (or_introl eq_refl)); eexists; [apply sel_keep|apply sel_drop]; eauto. }
    destruct D as (q & Q). rewrite (IH1 r q); auto.
Qed.
Lemma paths_df_ok positive key ts wanted d : complete key d -> chronological ts d ->
  exists r, paths positive key wanted (log_of d) = Some r /\ Permutation r (log_of (paths_df positive key ts wanted d)).
Proof.
  intros H Hch. destruct (paths_total key (log_of d) positive wanted (complete_everywhere key d H)) as (r & E). exists r. split; auto.
  apply paths_ok in E. pose proof (paths_df_sorted positive key ts wanted d H) as E2. apply paths_ok in E2. eapply selected_perm; [|exact E|exact E2]. symmetry. apply sort_log_perm. auto.
Qed.
(** ---- between *)
Section Btw.
Variables (is1 is2 : Z -> bool).
Fixpoint lab (o : option nat) (acts : list Z) (rel : nat) : list (option nat) :=
  match acts with
  | [] => match o with Some k => repeat None k | None => [] end
  | a :: r => match o with
              | Some k => if is2 a then repeat (Some rel) (k + 1) ++ lab None r (rel + 1) else lab (Some (k + 1)) r rel
              | None => if is1 a then lab (Some 1) r rel else None :: lab None r rel
              end
  end.
Lemma assign_0 from v res : assign from v res 0 = res. Proof. reflexivity. Qed.
Lemma assign_repeat o v k res : length res = o -> assign o v (repeat None k ++ res) (o + k) = repeat (Some v) k ++ res.
Proof.
  intros H. induction k as [|k IH].
  - cbn [repeat app]. rewrite Nat.add_0_r. assert (G : forall j r, j <= o -> assign o v r j = r).
    { induction j as [|j IHj]; intros r L; auto. destruct r as [|x r]; auto. cbn. destruct (Nat.leb_spec o j); [lia|]. rewrite IHj by lia. auto. }
    apply G. auto.
  - replace (o + S k) with (S (o + k)) by lia. cbn [repeat app assign]. destruct (Nat.leb_spec o (o + k)); [|lia]. rewrite IH. auto.
Qed.
Lemma repeat_snoc {X} (x : X) k : repeat x k ++ [x] = x :: repeat x k.
Proof. induction k as [|k IH]; cbn; auto. rewrite IH. auto. Qed.
Lemma rev_repeat {X} (x : X) k : rev (repeat x k) = repeat x k.
Proof. induction k as [|k IH]; cbn; auto. rewrite IH, repeat_snoc. auto. Qed.
Lemma between_case_lab acts : (forall j rel res, length res = j -> rev (between_case is1 is2 false acts j rel None res) = rev res ++ lab None acts rel) /\
  (forall k o rel res, length res = o -> rev (between_case is1 is2 false acts (o + k) rel (Some o) (repeat None k ++ res)) = rev res ++ lab (Some k) acts rel).
Proof.
  induction acts as [|a acts (IH1 & IH2)]; split.
  - intros. cbn. rewrite app_nil_r. auto.
  - intros. cbn. rewrite rev_app_distr, rev_repeat. auto.
  - intros j rel res H. cbn [between_case lab]. destruct (is1 a).
    + apply (IH2 1 j rel res H).
    + rewrite IH1 by (cbn; lia). cbn [rev]. rewrite <- app_assoc. auto.
  - intros k o rel res H. cbn [between_case lab]. destruct (is2 a).
    + change (None :: repeat None k ++ res) with (repeat (@None nat) (S k) ++ res). replace (o + k + 1) with (o + S k) by lia. rewrite assign_repeat by auto.
      rewrite IH1 by (rewrite app_length, repeat_length; lia). rewrite rev_app_distr, rev_repeat, <- app_assoc. replace (k + 1) with (S k) by lia. auto.
    + replace (o + k + 1) with (o + S k) by lia. replace (k + 1) with (S k) by lia. apply (IH2 (S k) o rel res H).
Qed.
Definition numbers (L : list (option nat)) : list nat := flat_map (fun o => match o with Some n => [n] | None => [] end) L.
Definition events_at {E} (L : list (option nat)) (es : list E) (n : nat) : list E :=
  flat_map (fun oe => match fst oe with Some m => if Nat.eqb m n then [snd oe] else [] | None => [] end) (combine L es).
Definition decode {E} (L : list (option nat)) (es : list E) : list (list E) := map (events_at L es) (dedup (numbers L)).
Lemma numbers_app a b : numbers (a ++ b) = numbers a ++ numbers b. Proof. apply flat_map_app. Qed.
Lemma lab_ge o acts rel n : In n (numbers (lab o acts rel)) -> rel <= n.
Proof.
  revert o rel. induction acts as [|a acts IH]; intros o rel; cbn [lab].
  - destruct o as [k|]; [|intros []]. assert (G : numbers (repeat None k) = []) by (induction k; cbn; auto). rewrite G. intros [].
  - destruct o as [k|].
    + destruct (is2 a); [|apply IH]. rewrite numbers_app, in_app_iff. intros [H|H].
      * clear -H. induction (k + 1); cbn in H; [destruct H|]. destruct H as [<-|H]; auto.
      * apply IH in H. lia.
    + destruct (is1 a); [apply IH|]. cbn. apply IH.
Qed.
Lemma lab_length o acts rel : length (lab o acts rel) = length acts + match o with Some k => k | None => 0 end.
Proof.
  revert o rel. induction acts as [|a acts IH]; intros o rel; cbn [lab length].
  - destruct o; cbn; auto. rewrite repeat_length. auto.
  - destruct o as [k|].
    + destruct (is2 a); [rewrite app_length, repeat_length, IH; lia|rewrite IH; lia].
    + destruct (is1 a); [rewrite IH; lia|cbn; rewrite IH; lia].
Qed.
Lemma events_at_app {E} a b (x y : list E) n : length a = length x -> events_at (a ++ b) (x ++ y) n = events_at a x n ++ events_at b y n.
Proof.
  intros H. unfold events_at. assert (C : combine (a ++ b) (x ++ y) = combine a x ++ combine b y).
  { revert x H. induction a as [|u a IH]; intros [|v x] H; try discriminate; cbn; auto. rewrite IH; auto. }
  rewrite C. apply flat_map_app.
Qed.
Lemma events_none {E} k (x : list E) n : events_at (repeat None k) x n = [].
Proof. revert x. induction k as [|k IH]; intros [|v x]; cbn; auto. apply IH. Qed.
Lemma events_some {E} v (x : list E) n : events_at (repeat (Some v) (length x)) x n = if Nat.eqb v n then x else [].
Proof.
  induction x as [|y x IH]; [cbn; destruct (Nat.eqb v n); auto|]. change (events_at (repeat (Some v) (length (y :: x))) (y :: x) n) with ((if Nat.eqb v n then [y] else []) ++ events_at (repeat (Some v) (length x)) x n).
  rewrite IH. destruct (Nat.eqb v n); auto.
Qed.
Lemma events_ge {E} L (x : list E) n : (forall m, In m (numbers L) -> n < m) -> events_at L x n = [].
Proof.
  revert x. induction L as [|o L IH]; intros [|v x] H; auto. cbn. destruct o as [m|].
  - destruct (Nat.eqb_spec m n) as [->|]; [exfalso; specialize (H n); cbn in H; specialize (H (or_introl eq_refl)); lia|]. cbn. apply IH. intros; apply H; cbn; auto.
  - cbn. apply IH. auto.
Qed.
Lemma dedup_cons_ge v (l : list nat) k : (forall m, In m l -> v < m) -> dedup (repeat v (S k) ++ l) = v :: dedup l.
Proof.
  intros H. induction l as [|m l IH] using rev_ind.
  - rewrite app_nil_r. induction k as [|k IHk]; auto. replace (repeat v (S (S k))) with (repeat v (S k) ++ [v]) by (rewrite repeat_snoc; auto). rewrite dedup_snoc, IHk.
    assert (X : existsb (fun y => keqb y v) (v :: dedup []) = true) by (apply existsb_exists; exists v; split; [cbn; auto|destruct (keqb_spec v v); auto]). rewrite X. auto.
  - rewrite app_assoc, !dedup_snoc, IH by (intros; apply H; apply in_app_iff; auto).
    assert (X : existsb (fun y => keqb y m) (v :: dedup l) = existsb (fun y => keqb y m) (dedup l)).
    { cbn [existsb]. destruct (keqb_spec v m) as [->|]; auto. exfalso. specialize (H m). rewrite in_app_iff in H. cbn in H. specialize (H (or_intror (or_introl eq_refl))). lia. }
    rewrite X. destruct (existsb (fun y => keqb y m) (dedup l)); reflexivity.
Qed.
Lemma numbers_repeat v k : numbers (repeat (Some v) k) = repeat v k. Proof. induction k; cbn; auto. f_equal. auto. Qed.
Lemma decode_loop key es acts : map_opt (fun e => d_get e key) es = Some acts ->
  (forall rel, between_loop is1 is2 false key es None = Some (decode (lab None acts rel) es)) /\
  (forall pend rel, between_loop is1 is2 false key es (Some pend) = Some (decode (lab (Some (length pend)) acts rel) (pend ++ es))).
Proof.
  revert acts. induction es as [|e es IH]; intros acts M.
  - cbn in M. injection M as <-. split; [reflexivity|]. intros pend rel. cbn [between_loop lab]. f_equal. unfold decode.
    assert (G : numbers (repeat None (length pend)) = []) by (induction (length pend); cbn; auto). rewrite G. auto.
  - cbn [map_opt] in M. destruct (d_get e key) as [a|] eqn:Ea; [|discriminate]. destruct (map_opt (fun e => d_get e key) es) as [acts'|] eqn:M'; [|discriminate]. injection M as <-.
    destruct (IH acts' eq_refl) as (IH1 & IH2). split.
    + intros rel. cbn [between_loop lab]. rewrite Ea. cbn [bind]. destruct (is1 a).
      * apply (IH2 [e] rel).
      * rewrite (IH1 rel). f_equal.
    + intros pend rel. cbn [between_loop lab]. rewrite Ea. cbn [bind]. destruct (is2 a).
      * rewrite (IH1 (rel + 1)). cbn [bind]. f_equal. unfold decode.
        replace (pend ++ e :: es) with ((pend ++ [e]) ++ es) by (rewrite <- app_assoc; auto).
        assert (Lp : length pend + 1 = length (pend ++ [e])) by (rewrite app_length; auto). rewrite numbers_app, numbers_repeat, (Nat.add_1_r (length pend)).
        rewrite dedup_cons_ge by (intros m Hm; apply lab_ge in Hm; lia). cbn [map]. f_equal.
        -- replace (S (length pend)) with (length (pend ++ [e])) by (rewrite app_length; cbn; lia). rewrite events_at_app by (rewrite repeat_length; auto). rewrite events_some, Nat.eqb_refl, events_ge, app_nil_r; auto.
           intros m Hm. apply lab_ge in Hm. lia.
        -- apply map_ext_in. intros n Hn. apply (proj1 (dedup_in _ _)) in Hn. apply lab_ge in Hn.
           replace (S (length pend)) with (length (pend ++ [e])) by (rewrite app_length; cbn; lia). rewrite events_at_app by (rewrite repeat_length; auto). rewrite events_some.
           destruct (Nat.eqb_spec rel n); [lia|]. auto.
      * replace (length pend + 1) with (length (pend ++ [e])) by (rewrite app_length; auto). replace (pend ++ e :: es) with ((pend ++ [e]) ++ es) by (rewrite <- app_assoc; reflexivity). exact (IH2 (pend ++ [e]) rel).
Qed.
End Btw.
Lemma between_df_ok key act1 act2 es : act1 <> act2 -> (forall e, In e es -> exists v, value key e v) ->
  between_df key act1 act2 es = between_loop (fun a => vmem a act1) (fun a => vmem a act2) (keqb act1 act2) key es None.
Proof.
  intros N H. unfold between_df. destruct (map_opt_total (fun e => d_get e key) es) as (acts & M); [intros e He; apply H; auto|]. rewrite M. cbn [bind].
  destruct (keqb_spec act1 act2); [contradiction|]. destruct (decode_loop (fun a => vmem a act1) (fun a => vmem a act2) key es acts M) as (D & _). rewrite (D 0). f_equal.
  cbv zeta. rewrite (proj1 (between_case_lab (fun a => vmem a act1) (fun a => vmem a act2) acts) 0 0 [] eq_refl). reflexivity.
Qed.
