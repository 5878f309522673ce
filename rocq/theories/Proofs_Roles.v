From Coq Require Import List Arith ZArith QArith Qminmax Bool Permutation Sorted Relations Lia Lqa.
Import ListNotations.
From Verif Require Import Model_Lev Proofs_Lev Model_Dict Proofs_Dict Spec_Eval Proofs_Dfg Model_Roles Spec_Roles Proofs_Sna.
Local Open Scope nat_scope.

(** ---- sums over lists of keys *)
Lemma sum_sub (f : nat -> Q) L R : NoDup L -> NoDup R -> (forall x, In x L -> In x R) -> (forall x, In x R -> ~ In x L -> f x == 0)%Q -> (Qsum (map f L) == Qsum (map f R))%Q.
Proof.
  revert R. induction L as [|x L IH]; intros R NL NR S Z.
  - cbn. symmetry. apply qs_zero. intros y Hy. apply Z; auto.
  - inversion NL; subst. destruct (in_split x R) as (r1 & r2 & ->); [apply S; left; auto|]. rewrite (qs_perm _ _ (Permutation_map f (Permutation_sym (Permutation_middle r1 r2 x)))). cbn [map Qsum].
    apply NoDup_remove in NR as [NR Nx]. rewrite (IH (r1 ++ r2)); auto; [reflexivity| |].
    + intros y Hy. assert (In y (r1 ++ x :: r2)) as Q by (apply S; right; auto). apply in_app_iff in Q as [Q|[->|Q]]; [apply in_app_iff; auto|tauto|apply in_app_iff; auto].
    + intros y Hy HL. apply Z; [apply in_app_iff in Hy as [Hy|Hy]; apply in_app_iff; [auto|right; right; auto]|]. intros [->|Hy']; auto.
Qed.
Lemma fold_qsum l : fold_right Qplus 0%Q l = Qsum l.
Proof. induction l; cbn; congruence. Qed.
Lemma done_sum log A K : NoDup K -> (forall e, In e log -> member (snd e) A = true -> In (fst e) K) -> list_sum (map (done log A) K) = done_all log A.
Proof.
  intros N H. unfold done_all, done. induction log as [|[r a] log IH]; [cbn; clear; induction K; cbn; auto|]. cbn [filter fst snd].
  assert (IH' := IH (fun e He => H e (or_intror He))). destruct (member a A) eqn:E.
  - assert (In r K) as Hr by (apply (H (r, a)); [left; auto|auto]). cbn [length]. rewrite <- IH'. clear -N Hr. induction K as [|k K IHK]; [destruct Hr|]. inversion N; subst. cbn [map list_sum fold_right]. unfold list_sum in *. cbn [fold_right].
    destruct (Nat.eqb_spec r k) as [->|Hn]; cbn [andb length].
    + assert (X : map (fun r => length (if Nat.eqb k r && true then (k, a) :: filter (fun e => Nat.eqb (fst e) r && member (snd e) A) log else filter (fun e => Nat.eqb (fst e) r && member (snd e) A) log)) K = map (fun r => length (filter (fun e => Nat.eqb (fst e) r && member (snd e) A) log)) K).
      { apply map_ext_in. intros y Hy. destruct (Nat.eqb_spec k y) as [->|]; [tauto|]. reflexivity. }
      rewrite X. lia.
    + destruct Hr as [->|Hr]; [congruence|]. specialize (IHK H2 Hr). lia.
  - rewrite <- IH'. f_equal. apply map_ext. intros k. rewrite andb_false_r. reflexivity.
Qed.
Lemma qn_sum l : (Qsum (map qn l) == qn (list_sum l))%Q.
Proof. induction l as [|x l IH]; [reflexivity|]. cbn [map Qsum list_sum fold_right]. unfold list_sum in *. cbn [fold_right]. rewrite IH. symmetry. apply q_nat_add. Qed.
Lemma member_in a A : member a A = true <-> In a A.
Proof. unfold member. rewrite existsb_exists. split; [intros (x & H & E); apply Nat.eqb_eq in E; subst; auto|intros H; exists a; rewrite Nat.eqb_refl; auto]. Qed.
Lemma member_false a A : member a A = false <-> ~ In a A.
Proof. rewrite <- member_in. destruct (member a A); split; congruence. Qed.
Lemma qn_pos n : 0 < n -> (0 < qn n)%Q. Proof. apply q_nat_pos. Qed.
Lemma qn_nonneg n : (0 <= qn n)%Q. Proof. apply q_nat_nonneg. Qed.

Section Log.
  Variable log : list (nat * nat).
  Record rgood (r : role) : Prop := RGood {
    rg_keys : NoDup (d_keys (snd r)); rg_count : forall x, c_get (snd r) x = done log (fst r) x;
    rg_pos : forall x, In x (d_keys (snd r)) <-> 0 < done log (fst r) x;
    rg_acts : forall a, In a (fst r) -> In a (map snd log); rg_sorted : StronglySorted lt (fst r); rg_ne : 0 < done_all log (fst r) }.
  Lemma done_res A x : 0 < done log A x -> In x (resources log).
  Proof.
    unfold done, resources. intros H. apply nodup_In. destruct (filter _ log) as [|e l] eqn:E; [cbn in H; lia|]. assert (In e (filter (fun e => Nat.eqb (fst e) x && member (snd e) A) log)) as Q by (rewrite E; left; auto).
    apply filter_In in Q as [Q1 Q2]. apply andb_prop in Q2 as [Q2 _]. apply Nat.eqb_eq in Q2. subst. apply in_map. auto.
  Qed.
  Lemma keys_sum (d : @counter nat) : forall f, (forall k v, In (k, v) d -> f k = v) -> (count_sum d == Qsum (map (fun k => qn (f k)) (d_keys d)))%Q.
  Proof. intros f H. unfold count_sum, d_keys. rewrite fold_qsum, map_map. apply qs_ext. intros [k v] Hin. cbn. rewrite (H k v Hin). reflexivity. Qed.
  Lemma total_ok r : rgood r -> (count_sum (snd r) == qn (done_all log (fst r)))%Q.
  Proof.
    intros [N C P _ _ _]. rewrite (keys_sum _ (done log (fst r))).
    - rewrite <- (map_map (done log (fst r)) qn), qn_sum, done_sum; [reflexivity|auto|]. intros e He Hm. apply P. unfold done. assert (In e (filter (fun e0 => Nat.eqb (fst e0) (fst e) && member (snd e0) (fst r)) log)) by (apply filter_In; rewrite Nat.eqb_refl; auto). destruct (filter _ log); [destruct H|cbn; lia].
    - intros k v Hin. rewrite <- C. unfold c_get. rewrite (d_in_get _ _ _ N Hin). auto.
  Qed.
  Lemma share_nonneg A x : (0 <= share log A x)%Q.
  Proof. unfold share. change (inject_Z (Z.of_nat (done log A x)) / inject_Z (Z.of_nat (done_all log A)))%Q with (qn (done log A x) / qn (done_all log A))%Q. destruct (done_all log A) as [|n]; [unfold Qdiv; cbn; rewrite Qmult_0_r; lra|]. apply Qle_shift_div_l; [apply qn_pos; lia|]. rewrite Qmult_0_l. apply qn_nonneg. Qed.
  Lemma share_zero A x : ~ 0 < done log A x -> (share log A x == 0)%Q.
  Proof. intros H. unfold share. replace (done log A x) with 0 by lia. cbn. unfold Qdiv. apply Qmult_0_l. Qed.
  Lemma norm_keys (d : @counter nat) : d_keys (normalize d) = d_keys d.
  Proof. unfold normalize, d_keys. rewrite map_map. reflexivity. Qed.
  Lemma norm_val r k v : rgood r -> In (k, v) (normalize (snd r)) -> (v == share log (fst r) k)%Q.
  Proof.
    intros G H. unfold normalize in H. apply in_map_iff in H as ([k' n] & [= <- <-] & Hin). rewrite total_ok by auto. destruct G as [N C P _ _ _]. unfold share. rewrite <- C. cbn [fst snd]. unfold c_get. rewrite (d_in_get _ _ _ N Hin). reflexivity.
  Qed.
  Lemma d_get_none_key {V} (d : dict nat V) k : d_get d k = None -> ~ In k (d_keys d).
  Proof. intros H. apply d_get_none. auto. Qed.
  Lemma inter_ok r1 r2 : rgood r1 -> rgood r2 -> (dict_sum (inter (normalize (snd r1)) (normalize (snd r2))) == Qsum (map (fun x => Qmin (share log (fst r1) x) (share log (fst r2) x)) (resources log)))%Q.
  Proof.
    intros G1 G2. rewrite <- (sum_sub _ (d_keys (normalize (snd r1)))).
    - unfold dict_sum, inter. rewrite fold_qsum. assert (H : forall k v, In (k, v) (normalize (snd r1)) -> (v == share log (fst r1) k)%Q) by (intros; eapply norm_val; eauto). revert H. generalize (normalize (snd r1)). intros d H. induction d as [|[k v] d IH]; [reflexivity|].
      cbn [flat_map d_keys map fst snd]. rewrite map_app, qs_app. fold (d_keys d). rewrite IH by (intros; apply H; right; auto). cbn [Qsum]. apply Qplus_comp; [|reflexivity]. pose proof (H k v (or_introl eq_refl)) as Hv.
      destruct (d_get (normalize (snd r2)) k) as [w|] eqn:E; cbn [map Qsum snd].
      + apply d_get_in in E. apply (norm_val r2) in E; auto. rewrite Hv, E. ring.
      + apply d_get_none_key in E. rewrite norm_keys in E. rewrite (rg_pos _ G2) in E. apply share_zero in E. rewrite E. symmetry. apply Q.min_r. apply share_nonneg.
    - rewrite norm_keys. apply G1.
    - apply NoDup_nodup.
    - intros x. rewrite norm_keys, (rg_pos _ G1). apply done_res.
    - intros x _ Hx. rewrite norm_keys, (rg_pos _ G1) in Hx. apply share_zero in Hx. rewrite Hx. apply Q.min_l. apply share_nonneg.
  Qed.
  Lemma union_ok r1 r2 : rgood r1 -> rgood r2 -> (dict_sum (union (normalize (snd r1)) (normalize (snd r2))) == Qsum (map (fun x => Qmax (share log (fst r1) x) (share log (fst r2) x)) (resources log)))%Q.
  Proof.
    intros G1 G2. rewrite <- (sum_sub _ (d_keys (snd r1) ++ filter (fun k => negb (d_mem (snd r1) k)) (d_keys (snd r2)))).
    - unfold dict_sum, union. rewrite fold_qsum, !map_app, !qs_app. apply Qplus_comp.
      + rewrite map_map. rewrite <- norm_keys. unfold d_keys. rewrite map_map. apply qs_ext. intros [k v] Hin. cbn [fst snd]. pose proof (norm_val r1 k v G1 Hin) as Hv. destruct (d_get (normalize (snd r2)) k) as [w|] eqn:E; cbn [snd].
        * apply d_get_in in E. apply (norm_val r2) in E; auto. rewrite Hv, E. reflexivity.
        * apply d_get_none_key in E. rewrite norm_keys in E. rewrite (rg_pos _ G2) in E. apply share_zero in E. rewrite Hv, E. symmetry. apply Q.max_l. apply share_nonneg.
      + rewrite <- norm_keys with (d := snd r2). assert (H : forall k v, In (k, v) (normalize (snd r2)) -> (v == share log (fst r2) k)%Q) by (intros; eapply norm_val; eauto). revert H. generalize (normalize (snd r2)). intros d H. induction d as [|[k v] d IH]; [reflexivity|].
        cbn [filter d_keys map fst snd]. fold (d_keys d). assert (Em : d_mem (normalize (snd r1)) k = d_mem (snd r1) k).
        { apply eq_true_iff_eq. rewrite !d_mem_in, norm_keys. tauto. }
        rewrite Em. pose proof (H k v (or_introl eq_refl)) as Hv. destruct (d_mem (snd r1) k) eqn:E; cbn [negb map Qsum snd]; rewrite IH by (intros; apply H; right; auto); [reflexivity|]. apply Qplus_comp; [|reflexivity].
        assert (~ In k (d_keys (snd r1))) as Hk by (rewrite <- d_mem_in; congruence). rewrite (rg_pos _ G1) in Hk. apply share_zero in Hk. rewrite Hk, Hv. symmetry. apply Q.max_r. apply share_nonneg.
    - apply NoDup_app_intro; [apply G1|apply NoDup_filter, G2|]. intros x H1 H2. apply filter_In in H2 as [_ H2]. apply negb_true_iff in H2. apply d_mem_in in H1. congruence.
    - apply NoDup_nodup.
    - intros x H. apply in_app_iff in H as [H|H]; [apply (rg_pos _ G1) in H|apply filter_In in H as [H _]; apply (rg_pos _ G2) in H]; eapply done_res; eauto.
    - intros x _ Hx. assert (H1 : ~ In x (d_keys (snd r1))) by (intros H; apply Hx, in_app_iff; auto). assert (H2 : ~ In x (d_keys (snd r2))) by (intros H; apply Hx, in_app_iff; right; apply filter_In; split; auto; apply negb_true_iff; destruct (d_mem (snd r1) x) eqn:E; auto; apply d_mem_in in E; tauto).
      rewrite (rg_pos _ G1) in H1. rewrite (rg_pos _ G2) in H2. apply share_zero in H1, H2. rewrite H1, H2. reflexivity.
  Qed.
  Lemma similarity_ok r1 r2 : rgood r1 -> rgood r2 -> (role_similarity r1 r2 == similarity log (fst r1) (fst r2))%Q.
  Proof. intros G1 G2. unfold role_similarity, similarity. rewrite inter_ok, union_ok by auto. reflexivity. Qed.
  Lemma similarity_sym A B : (similarity log A B == similarity log B A)%Q.
  Proof. unfold similarity. rewrite (qs_ext _ (fun r => Qmin (share log B r) (share log A r))) by (intros; apply Q.min_comm). rewrite (qs_ext (fun r => Qmax (share log A r) (share log B r)) (fun r => Qmax (share log B r) (share log A r))) by (intros; apply Q.max_comm). reflexivity. Qed.

  (** ---- merging *)
  Lemma done_union A B C x : (forall a, In a C <-> In a A \/ In a B) -> (forall a, In a A -> ~ In a B) -> done log C x = done log A x + done log B x.
  Proof.
    intros HC D. unfold done. induction log as [|[r a] l IH]; [reflexivity|]. cbn [filter fst snd]. destruct (Nat.eqb r x); cbn [andb]; [|exact IH].
    destruct (member a C) eqn:EC, (member a A) eqn:EA, (member a B) eqn:EB; rewrite ?member_in, ?member_false in *; rewrite ?HC in *; cbn [length]; try tauto; try lia. destruct (D a EA EB).
  Qed.
  Lemma done_all_union A B C : (forall a, In a C <-> In a A \/ In a B) -> done_all log A <= done_all log C.
  Proof.
    intros HC. unfold done_all. induction log as [|[r a] l IH]; [auto|]. cbn [filter fst snd]. destruct (member a C) eqn:EC, (member a A) eqn:EA; rewrite ?member_in, ?member_false in *; rewrite ?HC in *; cbn [length]; try tauto; lia.
  Qed.
  Lemma get_map (d : @counter nat) (g : nat -> nat) k : d_get (map (fun kv => (fst kv, snd kv + g (fst kv))) d) k = option_map (fun v => v + g k) (d_get d k).
  Proof. induction d as [|[k' v] d IH]; [reflexivity|]. cbn. destruct (Nat.eqb_spec k' k) as [->|]; auto. Qed.
  Lemma d_get_app {V} (d1 d2 : dict nat V) k : d_get (d1 ++ d2) k = match d_get d1 k with Some v => Some v | None => d_get d2 k end.
  Proof. induction d1 as [|[k' v] d IH]; [reflexivity|]. cbn. destruct (Nat.eqb_spec k' k); auto. Qed.
  Lemma d_get_filter {V} (d : dict nat V) (p : nat * V -> bool) k : NoDup (d_keys d) -> d_get (filter p d) k = match d_get d k with Some v => if p (k, v) then Some v else None | None => None end.
  Proof.
    induction d as [|[k' v] d IH]; intros N; [reflexivity|]. inversion N; subst. specialize (IH H2). cbn [filter d_get]. change (keqb k' k) with (Nat.eqb k' k).
    destruct (p (k', v)) eqn:E; cbn [d_get]; change (keqb k' k) with (Nat.eqb k' k); destruct (Nat.eqb_spec k' k) as [->|Hn]; rewrite ?E; auto.
    rewrite IH. destruct (d_get d k) eqn:Ed; auto. exfalso. apply H1. change (In k (d_keys d)). apply d_get_keys. congruence.
  Qed.
  Lemma plus_get (d1 d2 : @counter nat) : NoDup (d_keys d1) -> NoDup (d_keys d2) -> forall k, c_get (c_plus d1 d2) k = c_get d1 k + c_get d2 k.
  Proof.
    intros N1 N2 k. unfold c_plus, c_get at 1. set (m := map (fun kv => (fst kv, snd kv + c_get d2 (fst kv))) d1). assert (Nm : NoDup (d_keys m)) by (unfold m, d_keys; rewrite map_map; exact N1).
    rewrite d_get_app, !d_get_filter by auto. unfold m. rewrite get_map. unfold c_get, d_mem. cbn [snd fst]. destruct (d_get d1 k) as [v1|] eqn:E1; cbn [option_map]; destruct (d_get d2 k) as [v2|] eqn:E2; rewrite ?E1; cbn [negb andb]; rewrite ?andb_true_r, ?andb_false_r; repeat match goal with |- context [Nat.ltb 0 ?x] => destruct (Nat.ltb_spec 0 x) end; try lia; auto.
  Qed.
  Lemma plus_keys (d1 d2 : @counter nat) : NoDup (d_keys d1) -> NoDup (d_keys d2) -> NoDup (d_keys (c_plus d1 d2)).
  Proof.
    intros N1 N2. unfold c_plus, d_keys. rewrite map_app. apply NoDup_app_intro.
    - assert (forall (p : nat * nat -> bool) (d : @counter nat), NoDup (map fst d) -> NoDup (map fst (filter p d))) as F.
      { intros p d. induction d as [|x d IH]; intros N; [constructor|]. inversion N; subst. cbn. destruct (p x); [cbn; constructor; auto|auto]. intros H. apply in_map_iff in H as (y & E & Hy). apply filter_In in Hy as [Hy _]. apply H1. rewrite <- E. apply in_map. auto. }
      apply F. rewrite map_map. exact N1.
    - revert N2. unfold d_keys. generalize (fun kv : nat * nat => Nat.ltb 0 (snd kv) && negb (d_mem d1 (fst kv))). intros p. induction d2 as [|x d IH]; intros N; [constructor|]. inversion N; subst. cbn. destruct (p x); [cbn; constructor; auto|auto]. intros H. apply in_map_iff in H as (y & E & Hy). apply filter_In in Hy as [Hy _]. apply H1. rewrite <- E. apply in_map. auto.
    - intros x H1 H2. apply in_map_iff in H1 as (y & <- & Hy). apply filter_In in Hy as [Hy _]. apply in_map_iff in Hy as (z & <- & Hz). cbn [fst] in H2. apply in_map_iff in H2 as (w & Ew & Hw). apply filter_In in Hw as [_ Hw]. apply andb_prop in Hw as [_ Hw]. apply negb_true_iff in Hw. rewrite Ew in Hw. assert (In (fst z) (d_keys d1)) as Q by (apply in_map; auto). apply d_mem_in in Q. congruence.
  Qed.
  Lemma plus_pos (d1 d2 : @counter nat) k v : In (k, v) (c_plus d1 d2) -> 0 < v.
  Proof. unfold c_plus. rewrite in_app_iff, !filter_In. cbn [fst snd]. intros [[_ H]|[_ H]]; [|apply andb_prop in H as [H _]]; apply Nat.ltb_lt in H; auto. Qed.
  Lemma sorted_lt l : NoDup l -> StronglySorted lt (sorted_by Z.of_nat l) /\ (forall a, In a (sorted_by Z.of_nat l) <-> In a l).
  Proof.
    intros N. pose proof (sorted_by_perm Z.of_nat l) as P. pose proof (sorted_by_sorted Z.of_nat l) as S. assert (N' : NoDup (sorted_by Z.of_nat l)) by (eapply Permutation_NoDup; eauto).
    split; [|intros a; split; apply Permutation_in; auto; apply Permutation_sym; auto]. revert S N'. generalize (sorted_by Z.of_nat l). induction l0 as [|x k IH]; intros S N'; constructor; inversion S; inversion N'; subst; auto.
    rewrite Forall_forall in *. intros y Hy. specialize (H2 y Hy). destruct (Nat.eq_dec x y) as [->|]; [tauto|lia].
  Qed.
  Definition join (r1 r2 : role) : role := (sorted_by Z.of_nat (dedup (fst r1 ++ fst r2)), c_plus (snd r1) (snd r2)).
  Lemma join_acts r1 r2 a : In a (fst (join r1 r2)) <-> In a (fst r1) \/ In a (fst r2).
  Proof. unfold join. cbn [fst]. rewrite (proj2 (sorted_lt _ (dedup_nodup _))), dedup_in, in_app_iff. tauto. Qed.
  Lemma join_good r1 r2 : rgood r1 -> rgood r2 -> (forall a, In a (fst r1) -> ~ In a (fst r2)) -> rgood (join r1 r2).
  Proof.
    intros G1 G2 D. assert (C : forall x, c_get (snd (join r1 r2)) x = done log (fst (join r1 r2)) x).
    { intros x. rewrite (done_union _ _ _ x (join_acts r1 r2) D). cbn [join snd]. rewrite plus_get, (rg_count _ G1), (rg_count _ G2); [auto|apply G1|apply G2]. }
    split; auto.
    - apply plus_keys; [apply G1|apply G2].
    - intros x. rewrite <- C. unfold c_get. split.
      + intros H. apply d_get_keys in H. destruct (d_get (snd (join r1 r2)) x) as [n|] eqn:E; [|congruence]. apply d_get_in in E. exact (plus_pos (snd r1) (snd r2) x n E).
      + intros H. apply d_get_keys. destruct (d_get _ _); [discriminate|lia].
    - intros a H. apply join_acts in H as [H|H]; [apply (rg_acts _ G1)|apply (rg_acts _ G2)]; auto.
    - cbn [join fst]. apply (sorted_lt _ (dedup_nodup _)).
    - pose proof (rg_ne _ G1). pose proof (done_all_union _ _ _ (join_acts r1 r2)). lia.
  Qed.
End Log.

(** ---- positions *)
Lemma del_perm {X} (l : list X) i x : nth_error l i = Some x -> Permutation l (x :: del i l).
Proof. revert i. induction l as [|y l IH]; intros [|i] H; cbn in H; try discriminate; [injection H as ->; apply Permutation_refl|]. unfold del. cbn [firstn skipn app]. rewrite perm_swap. constructor. apply IH. auto. Qed.
Lemma del_nth {X} (l : list X) i j : i < j -> nth_error (del i l) (j - 1) = nth_error l j.
Proof.
  revert i j. induction l as [|y l IH]; intros i j H; [unfold del; rewrite firstn_nil, skipn_nil; cbn; destruct (j - 1), j; reflexivity|]. destruct j as [|j]; [lia|]. destruct i as [|i]; [unfold del; cbn; rewrite Nat.sub_0_r; reflexivity|].
  unfold del. cbn [firstn skipn app]. destruct j as [|j]; [lia|]. replace (S (S j) - 1) with (S (S j - 1)) by lia. cbn [nth_error]. apply (IH i (S j)). lia.
Qed.
Lemma two_perm {X} (l : list X) i j x y : i < j -> nth_error l i = Some x -> nth_error l j = Some y -> Permutation l (x :: y :: del (j - 1) (del i l)).
Proof. intros H Hx Hy. rewrite (del_perm l i x Hx) at 1. constructor. apply del_perm. rewrite del_nth; auto. Qed.
Lemma perm_two {X} (l : list X) x y r : Permutation l (x :: y :: r) -> exists i j, i <> j /\ nth_error l i = Some x /\ nth_error l j = Some y.
Proof.
  intros P. assert (In x l) as H by (eapply Permutation_in; [apply Permutation_sym; exact P|left; auto]). apply in_split in H as (l1 & l2 & ->). apply Permutation_sym, Permutation_cons_app_inv in P.
  assert (In y (l1 ++ l2)) as H by (eapply Permutation_in; [exact P|left; auto]). exists (length l1). assert (E : nth_error (l1 ++ x :: l2) (length l1) = Some x) by (rewrite nth_error_app2, Nat.sub_diag; auto).
  apply in_app_iff in H as [H|H]; apply In_nth_error in H as (j & Hj).
  - exists j. assert (j < length l1) by (apply nth_error_Some; congruence). split; [lia|]. split; auto. rewrite nth_error_app1; auto.
  - exists (length l1 + S j). split; [lia|]. split; auto. rewrite nth_error_app2 by lia. replace (length l1 + S j - length l1) with (S j) by lia. auto.
Qed.
Lemma cands_in roles i j s : In (i, j, s) (cands roles) <-> i < j /\ exists r1 r2, nth_error roles i = Some r1 /\ nth_error roles j = Some r2 /\ s = role_similarity r1 r2.
Proof.
  unfold cands. rewrite in_flat_map. split.
  - intros (i' & Hi & H). apply in_flat_map in H as (j' & Hj & H). apply in_seq in Hi, Hj. destruct (nth_error roles i') as [r1|] eqn:E1; [|destruct H]. destruct (nth_error roles j') as [r2|] eqn:E2; [|destruct H]. destruct H as [[= <- <- <-]|[]]. split; [lia|]. exists r1, r2. auto.
  - intros (H & r1 & r2 & E1 & E2 & ->). assert (j < length roles) by (apply nth_error_Some; congruence). exists i. split; [apply in_seq; lia|]. apply in_flat_map. exists j. split; [apply in_seq; lia|]. rewrite E1, E2. left. auto.
Qed.
