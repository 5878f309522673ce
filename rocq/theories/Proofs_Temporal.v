From Coq Require Import List Arith Bool Reals Lra Lia Permutation.
Import ListNotations.
From Verif Require Import Model_Dict Proofs_Dict Model_Dfg Spec_Dfg Proofs_Dfg Model_Stream Spec_Stream Proofs_Stream Spec_Temporal.
Local Arguments keqb {K Key} : simpl never.

Section Rec.
  Context {N : Type} {NN : Num N}.
  Definition dpair (k : nat * nat) (ei ej : tevent N) : list N :=
    if n_leb (te_end ei) (te_start ej) then if keqb (te_act ei, te_act ej) k then [n_sub (te_start ej) (te_end ei)] else [] else [].
  Fixpoint dtrace (k : nat * nat) (t : ttrace N) : list N :=
    match t with [] => [] | ei :: r => concat (map (dpair k ei) r) ++ dtrace k r end.
  Definition delays (k : nat * nat) (l : list (ttrace N)) : list N := concat (map (dtrace k) l).
  Definition is_rec (d : dict (nat * nat) (list N)) (g : nat * nat -> list N) : Prop :=
    NoDup (d_keys d) /\ forall k, d_get d k = match g k with [] => None | l => Some l end.
  Lemma app_match {A B} (l m : list A) (x : B) (f : list A -> B) : m <> [] -> match l ++ m with [] => x | y => f y end = f (l ++ m).
  Proof. intros H. destruct (l ++ m) eqn:E; auto. apply app_eq_nil in E as [_ E]. congruence. Qed.
  Lemma rec_pair d g ei ej : is_rec d g -> is_rec (recordings_pair d ei ej) (fun k => g k ++ dpair k ei ej).
  Proof.
    intros [Hn H]. unfold recordings_pair, dpair. destruct (n_leb (te_end ei) (te_start ej)).
    2:{ split; auto. intros k. rewrite app_nil_r. auto. }
    set (k0 := (te_act ei, te_act ej)). set (x := n_sub (te_start ej) (te_end ei)). cbn zeta.
    assert (E : exists l, d_get (match d_get d k0 with None => d_set d k0 [] | Some _ => d end) k0 = Some l /\ l = g k0).
    { specialize (H k0). destruct (g k0) eqn:Eg; rewrite H; [exists []|eexists]; split; eauto. apply d_get_set_same. }
    destruct E as (l & E & El). rewrite E. split.
    - apply d_nodup_set. destruct (d_get d k0); auto. apply d_nodup_set; auto.
    - intros k. rewrite d_get_set. destruct (keqb_spec k0 k) as [<-|Hk].
      + rewrite app_match by discriminate. congruence.
      + rewrite app_nil_r. destruct (d_get d k0); auto. rewrite d_get_set_other by auto. auto.
  Qed.
  Lemma is_rec_ext d g g' : is_rec d g -> (forall k, g k = g' k) -> is_rec d g'.
  Proof. intros [H1 H2] E. split; auto. intros k. rewrite H2, E. auto. Qed.
  Lemma rec_row ei r d g : is_rec d g -> is_rec (fold_left (fun d ej => recordings_pair d ei ej) r d) (fun k => g k ++ concat (map (dpair k ei) r)).
  Proof.
    revert d g. induction r as [|ej r IH]; intros d g H; cbn [fold_left map concat]; [eapply is_rec_ext; [exact H|]; intros; rewrite app_nil_r; auto|].
    eapply is_rec_ext; [apply IH, rec_pair, H|]. intros k. cbn beta. rewrite <- app_assoc. auto.
  Qed.
  Lemma rec_trace t d g : is_rec d g -> is_rec (recordings_trace d t) (fun k => g k ++ dtrace k t).
  Proof.
    revert d g. induction t as [|ei r IH]; intros d g H; cbn [recordings_trace dtrace]; [eapply is_rec_ext; [exact H|]; intros; rewrite app_nil_r; auto|].
    eapply is_rec_ext; [apply IH, rec_row, H|]. intros k. cbn beta. rewrite <- app_assoc. auto.
  Qed.
  Lemma rec_log l : is_rec (recordings l) (fun k => delays k l).
  Proof.
    unfold recordings, delays. assert (G : forall d g, is_rec d g -> is_rec (fold_left recordings_trace l d) (fun k => g k ++ concat (map (dtrace k) l))).
    { induction l as [|t l IH]; intros d g H; cbn [fold_left map concat]; [eapply is_rec_ext; [exact H|]; intros; rewrite app_nil_r; auto|].
      eapply is_rec_ext; [apply IH, rec_trace, H|]. intros k. cbn beta. rewrite <- app_assoc. auto. }
    eapply is_rec_ext; [apply (G [] (fun _ => []))|]; auto. split; [constructor|auto].
  Qed.
  Lemma profile_get l k : d_get (discover_profile l) k =
    match delays k l with [] => None | ds => Some (if Nat.ltb 1 (length ds) then (n_mean ds, n_stdev ds) else (nth 0 ds n_zero, n_zero)) end.
  Proof.
    destruct (rec_log l) as [_ H]. unfold discover_profile. specialize (H k). induction (recordings l) as [|[k' r] d IH]; cbn [map d_get fst snd] in *.
    - destruct (delays k l); [auto|discriminate].
    - destruct (keqb k' k); auto. destruct (delays k l) eqn:E; [discriminate|]. injection H as ->. auto.
  Qed.
End Rec.

Local Open Scope R_scope.
(** positions *)
Lemma in_dtrace (a b : nat) (x : R) (t : ttrace R) : In x (dtrace (a, b) t) <->
  exists i j ei ej, nth_error t i = Some ei /\ nth_error t j = Some ej /\ (i < j)%nat /\ te_act ei = a /\ te_act ej = b /\ te_end ei <= te_start ej /\ x = te_start ej - te_end ei.
Proof.
  assert (DP : forall ei ej, In x (dpair (a, b) ei ej) <-> te_act ei = a /\ te_act ej = b /\ te_end ei <= te_start ej /\ x = te_start ej - te_end ei).
  { intros ei ej. unfold dpair. cbn [n_leb numR n_sub]. unfold lebR. destruct (Rle_dec (te_end ei) (te_start ej)) as [L|L]; [|cbn; tauto].
    destruct (keqb_spec (te_act ei, te_act ej) (a, b)) as [E|E].
    - injection E as E1 E2. cbn. split; [intros [<-|[]]; auto|intros (_ & _ & _ & ->); auto].
    - cbn. split; [tauto|]. intros (E1 & E2 & _). apply E. congruence. }
  induction t as [|e t IH]; cbn [dtrace].
  - split; [intros []|]. intros (i & j & ei & ej & H & _). destruct i; discriminate.
  - rewrite in_app_iff, IH, in_concat. split.
    + intros [(y & Hy & Hx)|(i & j & ei & ej & H1 & H2 & H3 & H4)].
      * apply in_map_iff in Hy as (ej & <- & Hj). apply In_nth_error in Hj as (j & Hj). apply DP in Hx. exists 0%nat, (S j), e, ej. repeat split; try tauto; lia.
      * exists (S i), (S j), ei, ej. repeat split; try tauto; lia.
    + intros (i & j & ei & ej & H1 & H2 & H3 & H4). destruct j as [|j]; [lia|]. cbn in H2. destruct i as [|i]; cbn in H1.
      * injection H1 as <-. left. exists (dpair (a, b) e ej). split; [apply in_map; eapply nth_error_In; eauto|]. apply DP. auto.
      * right. exists i, j, ei, ej. repeat split; try tauto; lia.
Qed.
Lemma in_delays a b x l : In x (delays (a, b) l) <-> exists k i j, delay l k i j a b x.
Proof.
  unfold delays. rewrite in_concat. split.
  - intros (y & Hy & Hx). apply in_map_iff in Hy as (t & <- & Ht). apply In_nth_error in Ht as (k & Hk).
    apply in_dtrace in Hx as (i & j & ei & ej & H). exists k, i, j, t, ei, ej. tauto.
  - intros (k & i & j & t & ei & ej & H0 & H). exists (dtrace (a, b) t). split; [apply in_map; eapply nth_error_In; eauto|].
    apply in_dtrace. exists i, j, ei, ej. auto.
Qed.
Lemma dtrace_length (k : nat * nat) (t : ttrace R) : exactly (length (dtrace k t)) (fun p => exists ei ej, nth_error t (fst p) = Some ei /\ nth_error t (snd p) = Some ej /\ (fst p < snd p)%nat /\
   te_act ei = fst k /\ te_act ej = snd k /\ te_end ei <= te_start ej).
Proof.
  assert (DP : forall ei ej, length (dpair k ei ej) = if (lebR (te_end ei) (te_start ej) && keqb (te_act ei, te_act ej) k)%bool then 1%nat else 0%nat).
  { intros ei ej. unfold dpair. cbn [n_leb numR]. destruct (lebR _ _); auto. destruct (keqb _ _); auto. }
  assert (DB : forall ei ej, (lebR (te_end ei) (te_start ej) && keqb (te_act ei, te_act ej) k)%bool = true <-> te_act ei = fst k /\ te_act ej = snd k /\ te_end ei <= te_start ej).
  { intros ei ej. rewrite andb_true_iff, keqb_true. unfold lebR. destruct k as [a b]. cbn [fst snd]. destruct (Rle_dec (te_end ei) (te_start ej)).
    - split; [intros [_ E]; injection E; auto|intros (<- & <- & _); auto].
    - split; [intros [? _]; discriminate|intros (_ & _ & ?); tauto]. }
  induction t as [|e t IH]; cbn [dtrace].
  - apply exactly_0. intros [i j] (ei & ej & H & _). destruct i; discriminate.
  - rewrite app_length. destruct IH as (m & G1 & G2 & G3).
    assert (R0 : exactly (length (concat (map (dpair k e) t))) (fun j => exists ej, nth_error t j = Some ej /\ te_act e = fst k /\ te_act ej = snd k /\ te_end e <= te_start ej)).
    { clear m G1 G2 G3. induction t as [|ej t IH] using rev_ind.
      - apply exactly_0. intros j (ej & H & _). destruct j; discriminate.
      - rewrite map_app, concat_app, app_length. cbn [map concat]. rewrite app_nil_r, DP.
        eapply exactly_snoc with (L := length t); [exact IH| |].
        + intros i (ej' & H & _). apply nth_lt in H. auto.
        + intros i. rewrite DB. split.
          * intros (ej' & H & H'). rewrite nth_error_snoc in H. destruct (Nat.ltb_spec i (length t)); [left; exists ej'; auto|].
            destruct (Nat.eqb_spec i (length t)); [|discriminate]. injection H as ->. auto.
          * intros [(ej' & H & H')|[-> H']].
            -- exists ej'. split; auto. rewrite nth_error_app1; auto. apply nth_lt in H. auto.
            -- exists ej. split; auto. rewrite nth_error_app2, Nat.sub_diag by lia. auto. }
    destruct R0 as (r & F1 & F2 & F3). exists (map (fun j => (0%nat, S j)) r ++ map (fun p => (S (fst p), S (snd p))) m). split; [|split].
    + apply NoDup_app_intro.
      * apply NoDup_map_inj; auto. intros; congruence.
      * apply NoDup_map_inj; auto. intros [] [] E; cbn in E; congruence.
      * intros x. rewrite !in_map_iff. intros (? & <- & _) (? & E & _). discriminate.
    + rewrite app_length, !map_length. lia.
    + intros [i j]. rewrite in_app_iff, !in_map_iff. cbn [fst snd]. split.
      * intros [(j0 & E & Hj)|([i0 j0] & E & Hij)].
        -- injection E as <- <-. apply F3 in Hj as (ej & H). exists e, ej. cbn. repeat split; try tauto; lia.
        -- cbn in E. injection E as <- <-. apply G3 in Hij as (ei & ej & H). cbn [fst snd] in H. exists ei, ej. cbn. repeat split; try tauto; lia.
      * intros (ei & ej & H1 & H2 & H3 & H4). destruct j as [|j]; [lia|]. cbn in H2. destruct i as [|i]; cbn in H1.
        -- injection H1 as <-. left. exists j. split; auto. apply F3. exists ej. auto.
        -- right. exists (i, j). split; auto. apply G3. exists ei, ej. cbn [fst snd]. repeat split; try tauto; lia.
Qed.
Lemma delays_length a b (l : list (ttrace R)) : exactly (length (delays (a, b) l)) (fun p => exists x, delay l (fst (fst p)) (snd (fst p)) (snd p) a b x).
Proof.
  unfold delays. induction l as [|t l IH].
  - apply exactly_0. intros [[k i] j] (x & t & ei & ej & H & _). destruct k; discriminate.
  - cbn [map concat]. rewrite app_length. destruct IH as (m & G1 & G2 & G3). destruct (dtrace_length (a, b) t) as (r & F1 & F2 & F3).
    exists (map (fun p => (0%nat, fst p, snd p)) r ++ map (fun p => (S (fst (fst p)), snd (fst p), snd p)) m). split; [|split].
    + apply NoDup_app_intro.
      * apply NoDup_map_inj; auto. intros [] [] E; cbn in E; congruence.
      * apply NoDup_map_inj; auto. intros [[] ?] [[] ?] E; cbn in E; congruence.
      * intros x. rewrite !in_map_iff. intros (? & <- & _) (? & E & _). discriminate.
    + rewrite app_length, !map_length. lia.
    + intros [[k i] j]. rewrite in_app_iff, !in_map_iff. cbn [fst snd]. split.
      * intros [([i0 j0] & E & Hj)|([[k0 i0] j0] & E & Hij)].
        -- cbn in E. injection E as <- <- <-. apply F3 in Hj as (ei & ej & H). cbn [fst snd] in H. exists (te_start ej - te_end ei), t, ei, ej. cbn. tauto.
        -- cbn in E. injection E as <- <- <-. apply G3 in Hij. exact Hij.
      * intros (x & u & ei & ej & H0 & H). destruct k as [|k]; cbn in H0.
        -- injection H0 as ->. left. exists (i, j). split; auto. apply F3. exists ei, ej. cbn [fst snd]. tauto.
        -- right. exists (k, i, j). split; auto. apply G3. exists x, u, ei, ej. auto.
Qed.

(** sums *)
Lemma sum_le_max l M : (forall x, In x l -> x <= M) -> sumR l <= INR (length l) * M.
Proof.
  induction l as [|x l IH]; intros H; [cbn; lra|]. cbn [sumR fold_right length]. fold (sumR l). rewrite S_INR.
  assert (x <= M) by (apply H; cbn; auto). assert (sumR l <= INR (length l) * M) by (apply IH; intros; apply H; cbn; auto). lra.
Qed.
Lemma sum_opp l : sumR (map Ropp l) = - sumR l.
Proof. induction l as [|x l IH]; cbn; [lra|]. fold (sumR (map Ropp l)). fold (sumR l). lra. Qed.
Lemma INR_pos (l : list R) : l <> [] -> 0 < INR (length l).
Proof. destruct l; [congruence|]. intros _. apply lt_0_INR. cbn. lia. Qed.
Lemma mean_upper l : l <> [] -> exists y, In y l /\ meanR l <= y.
Proof.
  intros Hn. assert (P := INR_pos l Hn). 
  assert (M : exists y, In y l /\ forall x, In x l -> x <= y).
  { clear P. induction l as [|x l IH]; [congruence|]. destruct l as [|x' l]; [exists x; cbn; split; auto; intros y [<-|[]]; lra|].
    destruct IH as (y & H1 & H2); [discriminate|]. destruct (Rle_dec x y) as [L|L].
    - exists y. split; [cbn; auto|]. intros z [<-|Hz]; auto.
    - exists x. split; [cbn; auto|]. intros z [<-|Hz]; [lra|]. specialize (H2 z Hz). lra. }
  destruct M as (y & H1 & H2). exists y. split; auto. unfold meanR.
  apply Rmult_le_reg_r with (INR (length l)); auto. unfold Rdiv. rewrite Rmult_assoc, Rinv_l by lra. rewrite Rmult_1_r, Rmult_comm. apply sum_le_max. auto.
Qed.
Lemma mean_lower l : l <> [] -> exists y, In y l /\ y <= meanR l.
Proof.
  intros Hn. destruct (mean_upper (map Ropp l)) as (y & H1 & H2); [destruct l; [congruence|discriminate]|].
  apply in_map_iff in H1 as (x & <- & Hx). exists x. split; auto. unfold meanR in *. rewrite sum_opp, map_length in H2.
  unfold Rdiv in *. rewrite Ropp_mult_distr_l_reverse in H2. lra.
Qed.
Lemma sum_sq_nonneg l : 0 <= sumR (map (fun x => x * x) l).
Proof. induction l as [|x l IH]; cbn; [lra|]. fold (sumR (map (fun x => x * x) l)). assert (0 <= x * x) by apply Rle_0_sqr. lra. Qed.
Lemma cauchy l : sumR l * sumR l <= INR (length l) * sumR (map (fun x => x * x) l).
Proof.
  induction l as [|x l IH]; [cbn; lra|]. cbn [sumR fold_right length map]. fold (sumR l). fold (sumR (map (fun x => x * x) l)). rewrite S_INR.
  set (S := sumR l) in *. set (Q := sumR (map (fun x => x * x) l)) in *. set (n := INR (length l)) in *.
  assert (0 <= n) by apply pos_INR. assert (0 <= Q) by apply sum_sq_nonneg.
  destruct (Req_dec n 0) as [E|E].
  - rewrite E in *. assert (S = 0). { assert (0 <= S * S) by apply Rle_0_sqr. assert (S * S = 0) by lra. apply Rmult_integral in H2. tauto. } subst. nra.
  - assert (0 < n) by lra. assert (0 <= (n * x - S) * (n * x - S)) by apply Rle_0_sqr.
    assert (0 <= n * (n * (x * x) + Q - 2 * x * S)) by nra.
    assert (0 <= n * (x * x) + Q - 2 * x * S). { apply Rmult_le_reg_l with n; lra. } nra.
Qed.
Lemma sum_shift l m : sumR (map (fun x => x - m) l) = sumR l - INR (length l) * m.
Proof. induction l as [|x l IH]; [cbn; lra|]. cbn [map length]. rewrite S_INR. cbn [sumR fold_right]. fold (sumR (map (fun x => x - m) l)). fold (sumR l). lra. Qed.
Lemma sum_perm_R l l' : Permutation l l' -> sumR l = sumR l'.
Proof. induction 1; cbn; unfold sumR in *; lra. Qed.
(** Samuelson's inequality *)
Lemma samuelson l x : In x l -> INR (length l) * ((x - meanR l) * (x - meanR l)) <=
  (INR (length l) - 1) * sumR (map (fun y => (y - meanR l) * (y - meanR l)) l).
Proof.
  intros Hx. set (m := meanR l). apply in_split in Hx as (l1 & l2 & E). 
  assert (P : Permutation l (x :: l1 ++ l2)) by (rewrite E; apply Permutation_sym, Permutation_middle).
  set (r := l1 ++ l2) in *. assert (Hn : l <> []) by (rewrite E; destruct l1; discriminate). assert (Pos := INR_pos l Hn).
  rewrite (sum_perm_R _ _ (Permutation_map (fun y => (y - m) * (y - m)) P)). cbn [map sumR fold_right]. fold (sumR (map (fun y => (y - m) * (y - m)) r)).
  assert (L : INR (length l) = INR (length r) + 1) by (rewrite (Permutation_length P); cbn [length]; apply S_INR).
  assert (Z : sumR (map (fun y => y - m) r) = - (x - m)).
  { assert (sumR (map (fun y => y - m) l) = 0) by (rewrite sum_shift; unfold m, meanR; field; lra).
    rewrite (sum_perm_R _ _ (Permutation_map (fun y => y - m) P)) in H. cbn [map sumR fold_right] in H. fold (sumR (map (fun y => y - m) r)) in H. lra. }
  assert (C := cauchy (map (fun y => y - m) r)). rewrite map_length, map_map, Z in C. rewrite L. 
  set (Q := sumR (map (fun y => (y - m) * (y - m)) r)) in *. set (n := INR (length r)) in *. nra.
Qed.
Lemma stdev_nonneg l : 0 <= stdevR l. Proof. apply sqrt_pos. Qed.
Lemma dev_bound l x zeta : 0 <= zeta -> (1 < length l)%nat -> In x l -> (INR (length l) - 1) * (INR (length l) - 1) <= zeta * zeta * INR (length l) ->
  Rabs (x - meanR l) <= zeta * stdevR l.
Proof.
  intros Hz Hl Hx Hn. assert (S := samuelson l x Hx). set (m := meanR l) in *. set (Q := sumR (map (fun y => (y - m) * (y - m)) l)) in *.
  set (n := INR (length l)) in *. assert (1 < n) by (unfold n; apply lt_1_INR; auto).
  assert (HQ : 0 <= Q) by (unfold Q; rewrite <- (map_map (fun y => y - m) (fun y => y * y)); apply sum_sq_nonneg).
  apply Rsqr_incr_0_var; [|apply Rmult_le_pos; auto; apply stdev_nonneg]. rewrite <- Rsqr_abs. unfold Rsqr.
  assert (SS : stdevR l * stdevR l = Q / (n - 1)).
  { unfold stdevR. fold m. fold Q. fold n. apply sqrt_sqrt. unfold Rdiv. apply Rmult_le_pos; auto. left. apply Rinv_0_lt_compat. lra. }
  replace (zeta * stdevR l * (zeta * stdevR l)) with (zeta * zeta * (stdevR l * stdevR l)) by ring. rewrite SS.
  set (d := (x - m) * (x - m)) in *. assert (Hd : 0 <= d) by apply Rle_0_sqr.
  apply Rmult_le_reg_l with n; [lra|]. apply Rle_trans with ((n - 1) * Q); auto.
  apply Rle_trans with (((n - 1) * (n - 1)) * (Q / (n - 1))).
  - right. field. lra.
  - replace (n * (zeta * zeta * (Q / (n - 1)))) with (zeta * zeta * n * (Q / (n - 1))) by ring. apply Rmult_le_compat_r; auto.
    unfold Rdiv. apply Rmult_le_pos; auto. left. apply Rinv_0_lt_compat. lra.
Qed.
Lemma dev_const l x zeta : 0 <= zeta -> In x l -> (forall y, In y l -> y = x) -> Rabs (x - meanR l) <= zeta * stdevR l.
Proof.
  intros Hz Hx H. destruct (mean_upper l) as (y & Hy & Ly); [destruct l; [destruct Hx|discriminate]|].
  destruct (mean_lower l) as (z & Hz' & Lz); [destruct l; [destruct Hx|discriminate]|]. rewrite (H y Hy) in Ly. rewrite (H z Hz') in Lz.
  replace (x - meanR l) with 0 by lra. rewrite Rabs_R0. apply Rmult_le_pos; auto. apply stdev_nonneg.
Qed.

Lemma check_trace_nil (p : profile R) zeta (t : ttrace R) :
  (forall i j ei ej, nth_error t i = Some ei -> nth_error t j = Some ej -> (i < j)%nat -> check_pair p zeta ei ej = []) -> check_trace p zeta t = [].
Proof.
  induction t as [|e t IH]; intros H; cbn [check_trace]; auto.
  rewrite IH by (intros i j ei ej H1 H2 H3; apply (H (S i) (S j)); auto; lia). rewrite app_nil_r.
  assert (G : forall ej, In ej t -> check_pair p zeta e ej = []).
  { intros ej Hj. apply In_nth_error in Hj as (j & Hj). apply (H 0%nat (S j)); auto. lia. }
  clear IH H. induction t as [|ej t IH]; cbn; auto. rewrite G, IH; cbn; auto. intros; apply G; cbn; auto.
Qed.
Lemma self_conform (l : list (ttrace R)) zeta :
  (forall a b x, In x (delays (a, b) l) -> (1 < length (delays (a, b) l))%nat -> Rabs (x - meanR (delays (a, b) l)) <= zeta * stdevR (delays (a, b) l)) ->
  forall ds, In ds (conformance (discover_profile l) zeta l) -> ds = [].
Proof.
  intros H ds Hds. unfold conformance in Hds. apply in_map_iff in Hds as (t & <- & Ht). apply check_trace_nil.
  intros i j ei ej Hi Hj Hij. unfold check_pair. cbn [n_leb numR]. unfold lebR. destruct (Rle_dec (te_end ei) (te_start ej)) as [L|]; auto.
  rewrite profile_get. set (a := te_act ei). set (b := te_act ej).
  assert (Hx : In (te_start ej - te_end ei) (delays (a, b) l)).
  { apply in_delays. apply In_nth_error in Ht as (k & Hk). exists k, i, j, t, ei, ej. repeat split; auto. }
  specialize (H a b _ Hx). destruct (delays (a, b) l) as [|d0 ds0] eqn:E; [destruct Hx|]. cbn [n_sub numR n_ltb n_mul n_add n_mean n_stdev n_zero].
  destruct (Nat.ltb_spec 1 (length (d0 :: ds0))) as [Hl|Hl].
  - specialize (H Hl). set (x := te_start ej - te_end ei) in *. set (m := meanR (d0 :: ds0)) in *. set (s := stdevR (d0 :: ds0)) in *.
    unfold ltbR. assert (x - m <= zeta * s /\ - (zeta * s) <= x - m) as [B1 B2].
    { split; [eapply Rle_trans; [apply Rle_abs|exact H]|]. assert (A := Rle_abs (- (x - m))). rewrite Rabs_Ropp in A. lra. }
    destruct (Rlt_dec x (m - zeta * s)); [lra|]. destruct (Rlt_dec (m + zeta * s) x); [lra|]. auto.
  - destruct ds0; [|cbn in Hl; lia]. destruct Hx as [<-|[]]. cbn [nth]. unfold ltbR.
    destruct (Rlt_dec d0 (d0 - zeta * 0)); [lra|]. destruct (Rlt_dec (d0 + zeta * 0) d0); [lra|]. auto.
Qed.
