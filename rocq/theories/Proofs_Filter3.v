From Coq Require Import List Arith Bool ZArith QArith Lia Permutation Sorted.
Import ListNotations.
From Verif Require Import Model_Dict Proofs_Dict Model_Tree Model_Filter Spec_Filter Proofs_Filter Spec_Filter2 Proofs_Filter2.
From Verif Require Spec_Dfg Proofs_Dfg.
Local Open Scope nat_scope.
Local Arguments keqb {K Key} : simpl never.
Local Arguments Nat.ltb : simpl never.
Local Arguments Nat.leb : simpl never.
Local Arguments Nat.eqb : simpl never.

Definition desc (x y : list Z * nat) : Prop := snd y <= snd x.
Lemma insert_desc_perm x l : Permutation (insert_desc x l) (x :: l).
Proof.
  induction l as [|y l IH]; cbn; auto. destruct (count_geb x y); auto. rewrite IH. apply perm_swap.
Qed.
Lemma insert_desc_sorted x l : StronglySorted desc l -> StronglySorted desc (insert_desc x l).
Proof.
  assert (T : count_geb x = count_geb x) by auto. intros H. induction H as [|y l H IH F]; cbn; [repeat constructor|].
  destruct (count_geb x y) eqn:E.
  - constructor; [constructor; auto|]. assert (desc x y).
    { unfold count_geb in E. unfold desc. destruct (Nat.ltb_spec (snd y) (snd x)); [lia|]. destruct (Nat.ltb_spec (snd x) (snd y)); [discriminate|lia]. }
    constructor; auto. eapply Forall_impl; [|exact F]. unfold desc in *. intros; lia.
  - constructor; auto. assert (desc y x).
    { unfold count_geb in E. unfold desc. destruct (Nat.ltb_spec (snd y) (snd x)); [discriminate|]. lia. }
    rewrite Forall_forall in *. intros z Hz. apply (Permutation_in _ (insert_desc_perm x l)) in Hz. destruct Hz as [<-|Hz]; auto.
Qed.
Lemma sorted_perm (c : list (list Z * nat)) : Permutation (fold_right insert_desc [] c) c.
Proof. induction c as [|x c IH]; cbn; auto. rewrite insert_desc_perm, IH. auto. Qed.
Lemma sorted_sorted (c : list (list Z * nat)) : StronglySorted desc (fold_right insert_desc [] c).
Proof. induction c; cbn; [constructor|apply insert_desc_sorted; auto]. Qed.
Lemma sorted_app {X} (R : X -> X -> Prop) l k : StronglySorted R (l ++ k) -> forall x y, In x l -> In y k -> R x y.
Proof.
  induction l as [|a l IH]; cbn; intros H x y Hx Hy; [destruct Hx|]. inversion H as [|? ? H1 H2]; subst. destruct Hx as [<-|Hx]; eauto.
  rewrite Forall_forall in H2. apply H2. apply in_app_iff; auto.
Qed.

Section V.
Variables (key : nat) (l : flog) (d : dict (list Z) flog).
Hypothesis Hd : variants key l = Some d.
Variable vcs : list (list Z * case).
Hypothesis Hv : vpairs key l d vcs.
Notation n_of v := (length (of_key v vcs)).
Let vc := sorted_by_count d.
Lemma vc_perm : Permutation vc (counts vcs).
Proof. unfold vc, sorted_by_count. rewrite sorted_perm. rewrite (counts_eq key l d vcs Hv). auto. Qed.
Lemma vc_sorted : StronglySorted desc vc.
Proof. apply sorted_sorted. Qed.
Lemma vc_in v n : In (v, n) vc <-> is_variant key l v /\ n = n_of v.
Proof.
  split.
  - intros H. apply (Permutation_in _ vc_perm) in H. unfold counts in H. apply in_map_iff in H. destruct H as (w & [= -> <-] & H). rewrite <- (ks_in key l d vcs Hv). auto.
  - intros (H & ->). apply (Permutation_in _ (Permutation_sym vc_perm)). apply in_map_iff. exists v. split; auto. apply (ks_in key l d vcs Hv). auto.
Qed.
Lemma vc_nodup : NoDup (map fst vc).
Proof.
  eapply Permutation_NoDup; [apply Permutation_sym, Permutation_map, vc_perm|]. unfold counts. rewrite map_map. cbn. rewrite map_id. apply dedup_nodup.
Qed.
Lemma vc_fst v : In v (map fst vc) <-> is_variant key l v.
Proof.
  rewrite in_map_iff. split; [intros ((w, n) & <- & H); apply vc_in in H; tauto|]. intros H. exists (v, n_of v). split; auto. apply vc_in. auto.
Qed.
Lemma nodup_app_inv {X} (a b : list X) : NoDup (a ++ b) -> NoDup a /\ NoDup b /\ forall x, In x a -> In x b -> False.
Proof.
  induction a as [|x a IH]; cbn; [intros; repeat split; auto; constructor|]. inversion 1 as [|? ? N1 N2]; subst. destruct (IH N2) as (A & B & C).
  rewrite in_app_iff in N1. repeat split; auto.
  - constructor; tauto.
  - intros y [<-|Hy] Hb; [tauto|eauto].
Qed.
Lemma top_k_ok k r : top_k key k l = Some r -> exists vs, cases_of_variants key l vs r /\
  (forall v w n m, In v vs -> ~ In w vs -> variant_count key l v n -> variant_count key l w m -> m <= n) /\
  (length vs = k \/ length vs < k /\ forall v, is_variant key l v -> In v vs).
Proof.
  unfold top_k. rewrite Hd. cbn [bind]. fold vc. intros H.
  destruct (filter_ok key l d Hd vcs Hv true _ _ H) as (vs & C & E). cbn [polar] in E. exists vs. split; auto.
  set (m := Nat.min k (length vc)) in *.
  assert (Sp : vc = firstn m vc ++ skipn m vc) by (symmetry; apply firstn_skipn).
  assert (In1 : forall v, In v vs <-> In v (map fst (firstn m vc))).
  { intros v. rewrite E. split; [tauto|]. intros Hv'. split; auto. apply vc_fst. rewrite Sp, map_app. apply in_app_iff. auto. }
  assert (N := vc_nodup). rewrite Sp, map_app in N. apply nodup_app_inv in N. destruct N as (N1 & N2 & N3).
  assert (L : length vs = m).
  { destruct C as (Nv & _).
    assert (Permutation vs (map fst (firstn m vc))) by (apply NoDup_Permutation; auto). apply Permutation_length in H0. rewrite H0, map_length, firstn_length. unfold m. lia. }
  split.
  - intros v w n n' Hv1 Hw Cv Cw. apply (count_unique key l d vcs Hv) in Cv, Cw. subst n n'.
    destruct (Nat.eq_dec (n_of w) 0) as [->|Nz]; [lia|]. assert (Vw : is_variant key l w) by (apply (count_pos key l d vcs Hv); lia).
    apply In1 in Hv1. apply in_map_iff in Hv1. destruct Hv1 as ((v', n) & <- & Hv1). cbn [fst] in *.
    assert (Vn : In (v', n) vc) by (rewrite Sp; apply in_app_iff; auto). apply vc_in in Vn. destruct Vn as (_ & ->).
    assert (Wi : In (w, n_of w) (firstn m vc ++ skipn m vc)) by (rewrite <- Sp; apply vc_in; auto). apply in_app_iff in Wi. destruct Wi as [Wi|Wi].
    + exfalso. apply Hw. apply In1. apply in_map_iff. exists (w, n_of w). auto.
    + assert (D := vc_sorted). rewrite Sp in D. apply (sorted_app _ _ _ D _ _ Hv1 Wi).
  - unfold m in *. destruct (Nat.le_gt_cases k (length vc)); [left; lia|]. right. split; [lia|]. intros v Hv'. apply In1. rewrite firstn_all2 by lia. apply vc_fst. auto.
Qed.
Lemma d_in v cs : In (v, cs) d <-> is_variant key l v /\ cs = of_key v vcs.
Proof.
  destruct Hv as (_ & _ & E). rewrite E, group_map. rewrite in_map_iff. split.
  - intros (w & [= -> <-] & H). split; auto. apply (ks_in key l d vcs Hv). auto.
  - intros (H & ->). exists v. split; auto. apply (ks_in key l d vcs Hv). auto.
Qed.
Lemma cover_ok (q : nat -> bool) r : variants_filter true key (map fst (filter (fun vc => q (length (snd vc))) d)) l = Some r ->
  exists vs, cases_of_variants key l vs r /\ forall v, In v vs <-> exists n, variant_count key l v n /\ 1 <= n /\ q n = true.
Proof.
  intros H. destruct (filter_ok key l d Hd vcs Hv true _ _ H) as (vs & C & E). cbn [polar] in E. exists vs. split; auto. intros v. rewrite E. rewrite in_map_iff. split.
  - intros (V & (w, cs) & <- & I). apply filter_In in I. cbn in *. destruct I as (I & Q). apply d_in in I. destruct I as (_ & ->).
    exists (n_of w). split; [apply (count_ok key l d vcs Hv)|]. split; auto. apply (count_pos key l d vcs Hv). auto.
  - intros (n & Cn & P & Q). apply (count_unique key l d vcs Hv) in Cn. subst n. assert (V : is_variant key l v) by (apply (count_pos key l d vcs Hv); auto).
    split; auto. exists (v, of_key v vcs). split; auto. apply filter_In. split; auto. apply d_in. auto.
Qed.
Lemma min_coverage_ok p r : by_min_coverage key p l = Some r ->
  exists vs, cases_of_variants key l vs r /\ forall v, In v vs <-> exists n, variant_count key l v n /\ 1 <= n /\ (p * qn (length l) <= qn n)%Q.
Proof.
  unfold by_min_coverage. rewrite Hd. cbn [bind]. intros H. destruct (cover_ok (fun n => Qle_bool (p * qnat (length l)) (qnat n)) r H) as (vs & C & E).
  exists vs. split; auto. intros v. rewrite E. split; intros (n & A & B & Q); exists n; repeat split; auto; apply Qle_bool_iff; auto.
Qed.
Lemma max_coverage_ok p r : by_max_coverage key p l = Some r ->
  exists vs, cases_of_variants key l vs r /\ forall v, In v vs <-> exists n, variant_count key l v n /\ 1 <= n /\ (qn n <= p * qn (length l))%Q.
Proof.
  unfold by_max_coverage. rewrite Hd. cbn [bind]. intros H. destruct (cover_ok (fun n => Qle_bool (qnat n) (p * qnat (length l))) r H) as (vs & C & E).
  exists vs. split; auto. intros v. rewrite E. split; intros (n & A & B & Q); exists n; repeat split; auto; apply Qle_bool_iff; auto.
Qed.
(** ---- percentage *)
Fixpoint lv (p : Q) (total added : nat) (under : option nat) (c : list (list Z * nat)) : list (list Z * nat) :=
  match c with
  | [] => []
  | (v, n) :: r =>
    if match under with Some u => n <? u | None => false end then []
    else (v, n) :: lv p total (added + n) (if Qle_bool p (qnat (added + n) / qnat total) then Some n else under) r
  end.
Lemma lv_loop p total added under c : (forall v n, In (v, n) c -> d_get d v = Some (of_key v vcs)) ->
  percentage_loop p total added under d c = concat (map (fun v => of_key v vcs) (map fst (lv p total added under c))).
Proof.
  revert added under. induction c as [|(v, n) c IH]; intros added under H; cbn; auto. destruct (match under with Some u => n <? u | None => false end); auto.
  cbn. rewrite (H v n) by (cbn; auto). rewrite IH; auto. intros; eapply H; cbn; eauto.
Qed.
Lemma lv_some p total added u c : StronglySorted desc c -> (forall v n, In (v, n) c -> n <= u) -> lv p total added (Some u) c = filter (fun x => u <=? snd x) c.
Proof.
  revert added. induction c as [|(v, n) c IH]; intros added S B; cbn; auto. inversion S as [|? ? S1 S2]; subst.
  destruct (Nat.ltb_spec n u).
  - destruct (Nat.leb_spec u n); [lia|]. symmetry. rewrite Forall_forall in S2.
    destruct (filter (fun x => u <=? snd x) c) as [|y r] eqn:E; auto. exfalso. assert (I : In y (y :: r)) by (cbn; auto). rewrite <- E in I. apply filter_In in I.
    destruct I as (I & Q). apply Nat.leb_le in Q. apply S2 in I. unfold desc in I. cbn in I. lia.
  - assert (n = u) by (specialize (B v n (or_introl eq_refl)); lia). subst n. destruct (Nat.leb_spec u u); [|lia]. f_equal.
    assert (B' : forall v n, In (v, n) c -> n <= u) by (intros; eapply B; cbn; eauto).
    destruct (Qle_bool _ _); apply IH; auto.
Qed.
Lemma qn_le n m : n <= m -> (qn n <= qn m)%Q.
Proof. intros H. unfold qn, Qle. cbn. lia. Qed.
Definition csum (c : list (list Z * nat)) : nat := list_sum (map snd c).
Lemma q_le_div p total k : 0 < total -> Qle_bool p (qnat k / qnat total) = true <-> (p * qn total <= qn k)%Q.
Proof.
  intros T. rewrite Qle_bool_iff. assert (P : (0 < qnat total)%Q) by (unfold qnat, Qlt; cbn; lia). unfold qn. fold (qnat total) (qnat k).
  rewrite <- (Qmult_le_r p (qnat k / qnat total) _ P). rewrite Qmult_comm with (x := (qnat k / qnat total)%Q). rewrite Qmult_div_r; [tauto|]. intros E. rewrite E in P. apply (Qlt_irrefl 0). exact P.
Qed.
Lemma lv_none p total added c : 0 < total -> StronglySorted desc c -> ~ (p * qn total <= qn added)%Q -> (p * qn total <= qn (added + csum c))%Q ->
  exists u, lv p total added None c = filter (fun x => u <=? snd x) c /\ (p * qn total <= qn (added + csum (filter (fun x => u <=? snd x) c)))%Q /\
    ~ (p * qn total <= qn (added + csum (filter (fun x => u <? snd x) c)))%Q.
Proof.
  intros T. revert added. induction c as [|(v, n) c IH]; intros added S A B.
  - exfalso. apply A. unfold csum in B. cbn in B. rewrite Nat.add_0_r in B. exact B.
  - inversion S as [|? ? S1 S2]; subst. rewrite Forall_forall in S2. cbn [lv].
    assert (CS : forall f : list Z * nat -> bool, csum (filter f ((v, n) :: c)) = (if f (v, n) then n else 0) + csum (filter f c)).
    { intros f. cbn [filter]. destruct (f (v, n)); reflexivity. }
    destruct (Qle_bool p (qnat (added + n) / qnat total)) eqn:E.
    + apply q_le_div in E; auto. exists n. rewrite lv_some; auto; [|intros w m Hw; apply S2 in Hw; exact Hw]. cbn [filter snd].
      assert (F : filter (fun x : list Z * nat => n <? snd x) c = []).
      { destruct (filter (fun x : list Z * nat => n <? snd x) c) as [|y r] eqn:F; auto. exfalso. assert (I : In y (y :: r)) by (cbn; auto). rewrite <- F in I.
        apply filter_In in I. destruct I as (I & Q). apply Nat.ltb_lt in Q. apply S2 in I. unfold desc in I. cbn in I. lia. }
      destruct (Nat.leb_spec n n); [|lia]. destruct (Nat.ltb_spec n n); [lia|]. rewrite F. split; auto. split.
      * eapply Qle_trans; [exact E|]. apply qn_le. unfold csum. cbn. lia.
      * unfold csum. cbn. rewrite Nat.add_0_r. exact A.
    + assert (A' : ~ (p * qn total <= qn (added + n))%Q) by (rewrite <- (q_le_div p total (added + n) T); congruence).
      destruct (IH (added + n) S1 A') as (u & L & K1 & K2).
      { unfold csum in *. cbn in B. rewrite <- Nat.add_assoc. exact B. }
      exists u. assert (Un : u <= n).
      { destruct (filter (fun x => u <=? snd x) c) as [|y r] eqn:F.
        - exfalso. apply A'. unfold csum in K1. cbn in K1. rewrite Nat.add_0_r in K1. exact K1.
        - assert (I : In y (y :: r)) by (cbn; auto). rewrite <- F in I. apply filter_In in I. destruct I as (I & Q). apply Nat.leb_le in Q. apply S2 in I. unfold desc in I. cbn in I. lia. }
      rewrite L. rewrite !CS. cbn [filter snd]. destruct (Nat.leb_spec u n); [|lia]. split; auto. split.
      * rewrite Nat.add_assoc. exact K1.
      * intros K. apply K2. eapply Qle_trans; [exact K|]. apply qn_le. cbn [snd]. destruct (u <? n); lia.
Qed.
Lemma filter_perm {X} (f : X -> bool) a b : Permutation a b -> Permutation (filter f a) (filter f b).
Proof. induction 1; cbn; auto; repeat destruct (f _); auto; try constructor; auto. eapply perm_trans; eauto. Qed.
Lemma csum_perm a b : Permutation a b -> csum a = csum b.
Proof. intros H. unfold csum, list_sum. induction H; cbn [map fold_right] in *; lia. Qed.
Lemma csum_groups (f : nat -> bool) : csum (filter (fun x => f (snd x)) vc) = length (filter (fun x => f (n_of (fst x))) vcs).
Proof.
  rewrite (csum_perm _ _ (filter_perm _ _ _ vc_perm)). unfold counts.
  assert (P := concat_groups (fun v => f (n_of v)) vcs (filter (fun v => f (n_of v)) (dedup (map fst vcs)))).
  rewrite <- (map_length snd). rewrite <- (Permutation_length (P ltac:(apply NoDup_filter, dedup_nodup) ltac:(intros k Hk Hf; apply filter_In; rewrite dedup_in; auto) ltac:(intros k Hk; apply filter_In in Hk; tauto))).
  clear P. generalize (dedup (map fst vcs)). intros ks. induction ks as [|k ks IH]; cbn; auto. destruct (f (n_of k)); cbn; auto. rewrite app_length, <- IH. reflexivity.
Qed.
Lemma selected_length P r : Selected P l r -> forall f : list Z * case -> bool, (forall x, In x vcs -> f x = true <-> P (snd x)) -> length r = length (filter f vcs).
Proof.
  destruct Hv as (E & _ & _). rewrite <- E. clear. intros H f Hf. 
  assert (G : Selected P (map snd vcs) (map snd (filter f vcs))).
  { clear H r. induction vcs as [|x k IH]; cbn; [constructor|]. destruct (f x) eqn:Fx; cbn; constructor; try (apply IH; intros; apply Hf; cbn; auto).
    - apply Hf; cbn; auto.
    - rewrite <- Hf; cbn; auto. congruence. }
  rewrite (selected_unique _ _ _ _ H G). apply map_length.
Qed.
Lemma percentage_ok p r : l <> [] -> (0 < p)%Q -> (p <= 1)%Q -> variants_percentage key p l = Some r ->
  exists vs u, cases_of_variants key l vs r /\ (forall v, In v vs <-> exists n, variant_count key l v n /\ 1 <= n /\ u <= n) /\
    (p * qn (length l) <= qn (length r))%Q /\
    forall s, Selected (fun c => exists v n, trace_is key c v /\ variant_count key l v n /\ u < n) l s -> ~ (p * qn (length l) <= qn (length s))%Q.
Proof.
  intros Ne P0 P1. unfold variants_percentage. rewrite Hd. cbn [bind]. fold vc. intros [= <-].
  assert (T : 0 < length l) by (destruct l; cbn; [congruence|lia]).
  assert (Ll : length vcs = length l) by (destruct Hv as (E & _); rewrite <- E, map_length; auto).
  assert (Qp : (0 < qn (length l))%Q) by (unfold qn, Qlt; cbn; lia).
  destruct (lv_none p (length l) 0 vc T vc_sorted) as (u & L & K1 & K2).
  - intros H. apply (Qlt_irrefl 0). eapply Qlt_le_trans; [|exact H]. apply (Qmult_lt_0_compat p (qn (length l))); auto.
  - cbn [Nat.add]. assert (E : csum vc = length l).
    { assert (E0 := csum_groups (fun _ => true)). cbn beta in E0. rewrite <- Ll. transitivity (csum (filter (fun _ => true) vc)).
      - f_equal. clear. induction vc; cbn; congruence.
      - rewrite E0. f_equal. clear. induction vcs; cbn; congruence. }
    rewrite E. rewrite <- (Qmult_1_l (qn (length l))) at 2. apply Qmult_le_compat_r; auto. apply Qlt_le_weak; auto.
  - rewrite lv_loop.
    2:{ intros v n H. apply vc_in in H. destruct H as (H & _). destruct Hv as (_ & _ & E). rewrite E. destruct (group_spec vcs) as (_ & G & _). rewrite G.
        apply (count_pos key l d vcs Hv) in H. destruct (of_key v vcs); auto. cbn in H. lia. }
    rewrite L. set (vs := map fst (filter (fun x => u <=? snd x) vc)).
    assert (Iv : forall v, In v vs <-> is_variant key l v /\ u <= n_of v).
    { intros v. unfold vs. rewrite in_map_iff. split.
      - intros ((w, n) & <- & H). apply filter_In in H. destruct H as (H & Q). apply vc_in in H. destruct H as (H & ->). apply Nat.leb_le in Q. auto.
      - intros (H & Q). exists (v, n_of v). split; auto. apply filter_In. split; [apply vc_in; auto|]. apply Nat.leb_le; auto. }
    assert (Nv : NoDup vs).
    { unfold vs. assert (N := vc_nodup). clear -N. induction vc as [|x c IH]; cbn; [constructor|]. inversion N; subst. destruct (u <=? snd x); cbn; auto.
      constructor; auto. intros H. apply H1. apply in_map_iff in H. destruct H as (y & E & H). apply filter_In in H. rewrite <- E. apply in_map. tauto. }
    exists vs, u. split; [|split; [|split]].
    + apply (groups_ok key l d vcs Hv); auto. intros v H. apply Iv in H. tauto.
    + intros v. rewrite Iv. split.
      * intros (H & Q). exists (n_of v). split; [apply (count_ok key l d vcs Hv)|]. split; auto. apply (count_pos key l d vcs Hv); auto.
      * intros (n & C & Pn & Q). apply (count_unique key l d vcs Hv) in C. subst n. split; auto. apply (count_pos key l d vcs Hv); auto.
    + eapply Qle_trans; [exact K1|]. cbn [Nat.add]. rewrite csum_groups.
      rewrite (Permutation_length (concat_groups (fun v => u <=? n_of v) vcs vs Nv ltac:(intros k Hk Hu; apply Iv; split; [apply (variant_in key l d vcs Hv); auto|apply Nat.leb_le; auto]) ltac:(intros k Hk; apply Iv in Hk; apply Nat.leb_le; tauto))).
      rewrite map_length. apply Qle_refl.
    + intros s Hs H. apply K2. eapply Qle_trans; [exact H|]. cbn [Nat.add]. rewrite (csum_groups (fun n => u <? n)).
      rewrite (selected_length _ _ Hs (fun x => u <? n_of (fst x))); [apply Qle_refl|]. intros (v, c) Hx. cbn [fst snd]. rewrite Nat.ltb_lt.
      assert (Tr : trace_is key c v) by (destruct Hv as (_ & Fa & _); rewrite Forall_forall in Fa; apply Fa in Hx; exact Hx). split.
      * intros Hu. exists v, (n_of v). split; auto. split; auto. apply (count_ok key l d vcs Hv).
      * intros (w & n & Tw & C & Hu). apply (count_unique key l d vcs Hv) in C. subst n. rewrite (trace_is_det _ _ _ _ Tr Tw). auto.
Qed.
End V.
Lemma variants_total key l : everywhere key l -> exists d, variants key l = Some d.
Proof.
  intros H. unfold variants. destruct (map_opt_total (fun c => bind (variant_of key c) (fun v => Some (v, c))) l) as (vcs & ->); [|cbn; eauto].
  intros c Hc. destruct (map_opt_total (fun e => d_get e key) (c_events c)) as (vs & E).
  - intros e He. destruct (H c e Hc He) as (v & Ev). exists v. exact Ev.
  - unfold variant_of. rewrite E. cbn. eauto.
Qed.
