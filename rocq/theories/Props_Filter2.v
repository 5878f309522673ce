(** C47: the variant filters.  C48: prefixes, suffixes and between. *)
From Coq Require Import List Arith Bool ZArith QArith Lia Permutation.
Import ListNotations.
From Verif Require Import Model_Dict Proofs_Dict Model_Tree Model_Filter Spec_Filter Spec_Filter2 Proofs_Filter Proofs_Filter2 Proofs_Filter3 Proofs_Filter4.
Local Open Scope nat_scope.

Lemma have_variants key l (r : flog) (f : dict (list Z) flog -> option flog) : bind (variants key l) f = Some r -> exists d vcs, variants key l = Some d /\ vpairs key l d vcs.
Proof. intros H. apply bind_some in H. destruct H as (d & H & _). destruct (pairs_ex key l d H) as (vcs & Hv). eauto. Qed.
Theorem C47_variants_filter : forall positive key admitted l r, variants_filter positive key admitted l = Some r ->
  exists vs, cases_of_variants key l vs r /\ forall v, In v vs <-> is_variant key l v /\ polar positive (In v admitted).
Proof. intros positive key admitted l r H. destruct (have_variants _ _ _ _ H) as (d & vcs & Hd & Hv). eapply filter_ok; eauto. Qed.
Theorem C47_top_k : forall key k l r, top_k key k l = Some r -> exists vs, cases_of_variants key l vs r /\
  (forall v w n m, In v vs -> ~ In w vs -> variant_count key l v n -> variant_count key l w m -> m <= n) /\
  (length vs = k \/ length vs < k /\ forall v, is_variant key l v -> In v vs).
Proof. intros key k l r H. destruct (have_variants _ _ _ _ H) as (d & vcs & Hd & Hv). eapply top_k_ok; eauto. Qed.
Theorem C47_by_min_coverage : forall key p l r, by_min_coverage key p l = Some r ->
  exists vs, cases_of_variants key l vs r /\ forall v, In v vs <-> exists n, variant_count key l v n /\ 1 <= n /\ (p * qn (length l) <= qn n)%Q.
Proof. intros key p l r H. destruct (have_variants _ _ _ _ H) as (d & vcs & Hd & Hv). eapply min_coverage_ok; eauto. Qed.
Theorem C47_by_max_coverage : forall key p l r, by_max_coverage key p l = Some r ->
  exists vs, cases_of_variants key l vs r /\ forall v, In v vs <-> exists n, variant_count key l v n /\ 1 <= n /\ (qn n <= p * qn (length l))%Q.
Proof. intros key p l r H. destruct (have_variants _ _ _ _ H) as (d & vcs & Hd & Hv). eapply max_coverage_ok; eauto. Qed.
(** The smallest head of the variants by decreasing frequency, ties included, that reaches the requested share of the cases. *)
Theorem C47_percentage : forall key p l r, l <> [] -> (0 < p)%Q -> (p <= 1)%Q -> variants_percentage key p l = Some r ->
  exists vs u, cases_of_variants key l vs r /\ (forall v, In v vs <-> exists n, variant_count key l v n /\ 1 <= n /\ u <= n) /\
    (p * qn (length l) <= qn (length r))%Q /\
    forall s, Selected (fun c => exists v n, trace_is key c v /\ variant_count key l v n /\ u < n) l s -> ~ (p * qn (length l) <= qn (length s))%Q.
Proof. intros key p l r Hl H0 H1 H. destruct (have_variants _ _ _ _ H) as (d & vcs & Hd & Hv). eapply percentage_ok; eauto. Qed.
Theorem C47_total : forall key l, everywhere key l ->
  (forall positive admitted, exists r, variants_filter positive key admitted l = Some r) /\ (forall k, exists r, top_k key k l = Some r) /\
  (forall p, exists r, by_min_coverage key p l = Some r) /\ (forall p, exists r, by_max_coverage key p l = Some r) /\
  (forall p, exists r, variants_percentage key p l = Some r).
Proof.
  intros key l H. destruct (variants_total key l H) as (d & E).
  assert (F : forall positive admitted, exists r, variants_filter positive key admitted l = Some r) by (intros; unfold variants_filter; rewrite E; cbn; eauto).
  unfold top_k, by_min_coverage, by_max_coverage, variants_percentage. rewrite E. cbn [bind]. repeat split; intros; eauto.
Qed.
(** The two modes share the cases among them. *)
Lemma selected_eq {X} (P Q : X -> Prop) l r s : (forall x, P x <-> Q x) -> Selected P l r -> Selected Q l s -> r = s.
Proof. intros E H. revert s. induction H as [|x l r Px H IH|x l r Px H IH]; intros s H'; inversion H'; subst; auto; try (f_equal; auto); exfalso; apply E in Px || (apply Px, E); auto. Qed.
Theorem C47_partition : forall key admitted l p n, variants_filter true key admitted l = Some p -> variants_filter false key admitted l = Some n ->
  Permutation (p ++ n) l.
Proof.
  intros key admitted l p n Hp Hn. destruct (have_variants _ _ _ _ Hp) as (d & vcs & Hd & Hv).
  unfold variants_filter in Hp, Hn. rewrite Hd in Hp, Hn. cbn [bind] in Hp, Hn.
  assert (E : d = group_dict vcs) by apply Hv. assert (L : map snd vcs = l) by apply Hv.
  rewrite E in Hp, Hn.
  rewrite (flat_groups (fun v => Bool.eqb (vmem v admitted) true)) in Hp.
  rewrite (flat_groups (fun v => Bool.eqb (vmem v admitted) false)) in Hn.
  assert (Ep : p = concat (map (fun k => of_key k vcs) (filter (fun v => Bool.eqb (vmem v admitted) true) (dedup (map fst vcs))))) by congruence.
  assert (En : n = concat (map (fun k => of_key k vcs) (filter (fun v => Bool.eqb (vmem v admitted) false) (dedup (map fst vcs))))) by congruence.
  assert (G : forall b, Permutation (concat (map (fun k => of_key k vcs) (filter (fun v => Bool.eqb (vmem v admitted) b) (dedup (map fst vcs)))))
                (map snd (filter (fun vc => Bool.eqb (vmem (fst vc) admitted) b) vcs))).
  { intros b. apply (concat_groups (fun v => Bool.eqb (vmem v admitted) b)).
    - apply NoDup_filter, dedup_nodup.
    - intros k I P. apply filter_In. split; auto. apply dedup_in; auto.
    - intros k I. apply filter_In in I. tauto. }
  rewrite Ep, En, (G true), (G false), <- L, <- map_app. apply Permutation_map. clear.
  induction vcs as [|(v, c) r IH]; cbn; auto. destruct (vmem v admitted); cbn; [constructor; auto|].
  rewrite <- Permutation_middle. constructor; auto.
Qed.

(** ---- C48 *)
Theorem C48_prefixes : forall key a (first strict : bool) l, exists ds, Selected (contains key a) l ds /\
  Forall2 (fun c c' => c_attrs c' = c_attrs c /\ exists i post, cut_pos first key a (c_events c) i /\ c_events c = c_events c' ++ post /\
     length (c_events c') = if strict then i else i + 1) ds (prefixes key a first strict l).
Proof. apply prefixes_ok. Qed.
Theorem C48_suffixes : forall key a (first strict : bool) l, exists ds, Selected (contains key a) l ds /\
  Forall2 (fun c c' => c_attrs c' = c_attrs c /\ exists i pre, cut_pos first key a (c_events c) i /\ c_events c = pre ++ c_events c' /\
     length pre = if strict then i + 1 else i) ds (suffixes key a first strict l).
Proof. apply suffixes_ok. Qed.
(** A prefix and the suffix at the same event, one of them strict, make the case again. *)
Theorem C48_prefix_suffix : forall key a first strict l, Selected (contains key a) l
  (map (fun ps => Case (c_attrs (fst ps)) (c_events (fst ps) ++ c_events (snd ps))) (combine (prefixes key a first strict l) (suffixes key a first (negb strict) l))) /\
  length (prefixes key a first strict l) = length (suffixes key a first (negb strict) l).
Proof. apply prefix_suffix. Qed.
Theorem C48_between : forall key act1 act2 l out, between key act1 act2 l = Some out ->
  Forall2 (fun c segs => segments key act1 act2 (c_events c) segs /\ forall o, segments key act1 act2 (c_events c) o -> o = segs) l out.
Proof.
  intros key act1 act2 l out H. apply between_ok in H. eapply Forall2_weaken; [|exact H]. cbv beta. intros c s S. split; auto.
  intros o O. eapply segments_unique; eauto.
Qed.
Theorem C48_between_total : forall key act1 act2 l, everywhere key l -> exists out, between key act1 act2 l = Some out.
Proof. apply between_total. Qed.

(** Examples: attribute 0 is the activity, 9 the case identifier. *)
Definition tr (i : Z) (acts : list Z) : case := Case [(9, i)] (map (fun a => [(0, a)]) acts).
Definition ex_l : flog := [tr 1 [1; 2; 3]; tr 2 [1; 3]; tr 3 [1; 2; 3]; tr 4 [2; 1; 2; 1; 3]; tr 5 [1; 3]]%Z.
Example ex_l_everywhere : everywhere 0 ex_l.
Proof. intros c e Hc He; cbn in Hc; repeat destruct Hc as [<-|Hc]; try tauto; cbn in He; repeat destruct He as [<-|He]; try tauto; eexists; reflexivity. Qed.
Definition ids (r : option flog) : option (list (option Z)) := option_map (map (fun c => d_get (c_attrs c) 9)) r.
Example ex_variants : ids (variants_filter true 0 [[1; 2; 3]; [7]]%Z ex_l) = Some [Some 1; Some 3]%Z /\
  ids (variants_filter false 0 [[1; 2; 3]; [7]]%Z ex_l) = Some [Some 2; Some 5; Some 4]%Z. Proof. split; reflexivity. Qed.
Example ex_top : ids (top_k 0 1 ex_l) = Some [Some 2; Some 5]%Z. Proof. reflexivity. Qed.
Example ex_min : ids (by_min_coverage 0 (2 # 5) ex_l) = Some [Some 1; Some 3; Some 2; Some 5]%Z. Proof. reflexivity. Qed.
Example ex_max : ids (by_max_coverage 0 (2 # 7) ex_l) = Some [Some 4]%Z. Proof. reflexivity. Qed.
Example ex_percentage : ids (variants_percentage 0 (1 # 3) ex_l) = Some [Some 2; Some 5; Some 1; Some 3]%Z. Proof. reflexivity. Qed.
Definition acts_of (r : flog) : list (list (option Z)) := map (fun c => map (fun e => d_get e 0) (c_events c)) r.
Example ex_prefix : acts_of (prefixes 0 2 false true ex_l) = [[Some 1]; [Some 1]; [Some 2; Some 1]]%Z /\
  acts_of (suffixes 0 2 false false ex_l) = [[Some 2; Some 3]; [Some 2; Some 3]; [Some 2; Some 1; Some 3]]%Z. Proof. split; reflexivity. Qed.
Example ex_between : option_map (map (map (map (fun e => d_get e 0)))) (between 0 [2]%Z [3; 1]%Z ex_l) =
  Some [[[Some 2; Some 3]]; []; [[Some 2; Some 3]]; [[Some 2; Some 1]; [Some 2; Some 1]]; []]%Z. Proof. reflexivity. Qed.
Example ex_between_same : option_map (map (map (map (fun e => d_get e 0)))) (between 0 [1]%Z [1]%Z ex_l) =
  Some [[]; []; []; [[Some 1; Some 2; Some 1]]; []]%Z. Proof. reflexivity. Qed.
Print Assumptions C47_variants_filter.
Print Assumptions C47_top_k.
Print Assumptions C47_by_min_coverage.
Print Assumptions C47_by_max_coverage.
Print Assumptions C47_percentage.
Print Assumptions C47_total.
Print Assumptions C47_partition.
Print Assumptions C48_prefixes.
Print Assumptions C48_suffixes.
Print Assumptions C48_prefix_suffix.
Print Assumptions C48_between.
Print Assumptions C48_between_total.
