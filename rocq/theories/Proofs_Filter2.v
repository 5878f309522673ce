From Coq Require Import List Arith Bool ZArith QArith Lia Permutation Sorted.
Import ListNotations.
From Verif Require Import Model_Dict Proofs_Dict Model_Tree Model_Filter Spec_Filter Proofs_Filter Spec_Filter2.
From Verif Require Spec_Dfg Proofs_Dfg.
Local Open Scope nat_scope.
Local Arguments keqb {K Key} : simpl never.
Local Arguments Nat.ltb : simpl never.
Local Arguments Nat.leb : simpl never.
Local Arguments Nat.eqb : simpl never.

Section Group.
Context {K V : Type} {EK : Key K}.
Definition add1 (d : dict K (list V)) (vc : K * V) : dict K (list V) :=
  d_set d (fst vc) (match d_get d (fst vc) with Some cs => cs | None => [] end ++ [snd vc]).
Definition group_dict (l : list (K * V)) : dict K (list V) := fold_left add1 l [].
Definition of_key (k : K) (l : list (K * V)) : list V := map snd (filter (fun vc => keqb (fst vc) k) l).
Lemma of_key_snoc k l x : of_key k (l ++ [x]) = of_key k l ++ if keqb (fst x) k then [snd x] else [].
Proof. unfold of_key. rewrite filter_app, map_app. cbn. destruct (keqb (fst x) k); reflexivity. Qed.
Lemma of_key_nil k l : of_key k l = [] <-> ~ In k (map fst l).
Proof.
  unfold of_key. split.
  - intros H I. apply in_map_iff in I. destruct I as (x & <- & Hx). assert (In x (filter (fun vc => keqb (fst vc) (fst x)) l)).
    { apply filter_In. split; auto. destruct (keqb_spec (fst x) (fst x)); auto. }
    destruct (filter _ l); [auto|discriminate].
  - intros H. destruct (filter _ l) as [|x r] eqn:E; auto. exfalso. assert (I : In x (x :: r)) by (cbn; auto). rewrite <- E in I. apply filter_In in I.
    destruct I as (I & E'). destruct (keqb_spec (fst x) k); [|discriminate]. subst. apply H. apply in_map; auto.
Qed.
Lemma group_spec l : NoDup (d_keys (group_dict l)) /\ (forall k, d_get (group_dict l) k = match of_key k l with [] => None | cs => Some cs end) /\
  d_keys (group_dict l) = dedup (map fst l).
Proof.
  unfold group_dict. induction l as [|x l (N & G & D)] using rev_ind; [split; [constructor|split; [reflexivity|reflexivity]]|]. rewrite fold_left_app. cbn [fold_left]. split; [|split].
  - unfold add1. apply d_nodup_set; auto.
  - intros k. unfold add1. rewrite d_get_set. rewrite of_key_snoc. destruct (keqb_spec (fst x) k) as [<-|].
    + rewrite G. destruct (of_key (fst x) l); reflexivity.
    + rewrite app_nil_r. apply G.
  - rewrite map_app. cbn [map]. rewrite dedup_snoc, <- D. unfold add1.
    rewrite d_keys_set. reflexivity.
Qed.
Lemma dict_map (d : dict K (list V)) (f : K -> list V) : NoDup (d_keys d) -> (forall k, In k (d_keys d) -> d_get d k = Some (f k)) ->
  d = map (fun k => (k, f k)) (d_keys d).
Proof.
  induction d as [|(k, v) d IH]; intros N G; cbn; auto. inversion N as [|? ? N1 N2]; subst. f_equal.
  - specialize (G k (or_introl eq_refl)). cbn in G. destruct (keqb_spec k k); congruence.
  - apply IH; auto. intros k' Hk. rewrite <- G by (cbn; auto). cbn. destruct (keqb_spec k k'); auto. subst. contradiction.
Qed.
Lemma group_map l : group_dict l = map (fun k => (k, of_key k l)) (dedup (map fst l)).
Proof.
  destruct (group_spec l) as (N & G & D). rewrite <- D. apply dict_map; auto. intros k Hk. rewrite G. rewrite D, dedup_in in Hk.
  destruct (of_key k l) eqn:E; auto. apply of_key_nil in E. contradiction.
Qed.
(** selecting groups *)
Lemma concat_groups (p : K -> bool) l ks : NoDup ks -> (forall k, In k (map fst l) -> p k = true -> In k ks) -> (forall k, In k ks -> p k = true) ->
  Permutation (concat (map (fun k => of_key k l) ks)) (map snd (filter (fun vc => p (fst vc)) l)).
Proof.
  intros N. induction l as [|x l IH] using rev_ind; intros A B.
  - cbn. clear. induction ks; cbn; auto.
  - rewrite filter_app, map_app. cbn [filter map].
    assert (IH' := IH (fun k Hk => A k ltac:(rewrite map_app; apply in_app_iff; auto)) B). clear IH.
    assert (E : Permutation (concat (map (fun k => of_key k (l ++ [x])) ks)) (concat (map (fun k => of_key k l) ks) ++ if p (fst x) then [snd x] else [])).
    { destruct (p (fst x)) eqn:P.
      - assert (I : In (fst x) ks) by (apply A; auto; rewrite map_app; apply in_app_iff; cbn; auto). clear -N I. induction ks as [|k ks IH]; [destruct I|].
        inversion N as [|? ? N1 N2]; subst. cbn [map concat]. rewrite of_key_snoc. destruct (keqb_spec (fst x) k) as [E|E].
        + subst k. assert (E' : map (fun k => of_key k (l ++ [x])) ks = map (fun k => of_key k l) ks).
          { apply map_ext_in. intros k Hk. rewrite of_key_snoc. destruct (keqb_spec (fst x) k); [subst; contradiction|apply app_nil_r]. }
          rewrite E'. rewrite <- !app_assoc. apply Permutation_app_head. apply Permutation_app_comm.
        + rewrite app_nil_r, <- app_assoc. apply Permutation_app_head. apply IH; auto. destruct I; congruence.
      - rewrite app_nil_r. assert (E' : map (fun k => of_key k (l ++ [x])) ks = map (fun k => of_key k l) ks).
        { apply map_ext_in. intros k Hk. rewrite of_key_snoc. destruct (keqb_spec (fst x) k); [|apply app_nil_r]. subst. rewrite B in P by auto. discriminate. }
        rewrite E'. auto. }
    rewrite E. apply Permutation_app; auto. destruct (p (fst x)); auto.
Qed.
Lemma flat_groups (p : K -> bool) l : flat_map (fun vc => if p (fst vc) then snd vc else []) (group_dict l) =
  concat (map (fun k => of_key k l) (filter p (dedup (map fst l)))).
Proof. rewrite group_map. generalize (dedup (map fst l)). intros ks. induction ks as [|k ks IH]; cbn; auto. destruct (p k); cbn; rewrite IH; auto. Qed.
End Group.
Lemma exactly_positions {X} (p : X -> bool) (P : X -> Prop) (l : list X) : (forall x, In x l -> p x = true <-> P x) ->
  Spec_Dfg.exactly (length (filter p l)) (fun i => exists x, nth_error l i = Some x /\ P x).
Proof.
  intros E. exists (filter (fun i => match nth_error l i with Some x => p x | None => false end) (seq 0 (length l))). split; [|split].
  - apply NoDup_filter, seq_NoDup.
  - clear E. assert (G : forall n, length (filter (fun i => match nth_error l (i - n) with Some e => p e | None => false end) (seq n (length l))) =
      length (filter p l)).
    { induction l as [|e es IH]; intros n; auto. cbn [length seq filter]. rewrite Nat.sub_diag. cbn [nth_error].
      pose proof (IH (S n)) as IHn.
      assert (E : filter (fun i => match nth_error (e :: es) (i - n) with Some e0 => p e0 | None => false end) (seq (S n) (length es)) =
                  filter (fun i => match nth_error es (i - S n) with Some e0 => p e0 | None => false end) (seq (S n) (length es))).
      { apply filter_ext_in. intros i Hi. apply in_seq in Hi. replace (i - n) with (S (i - S n)) by lia. reflexivity. }
      rewrite E. destruct (p e); cbn [length]; rewrite IHn; reflexivity. }
    rewrite <- (G 0). f_equal. apply filter_ext. intros i. rewrite Nat.sub_0_r. reflexivity.
  - intros i. rewrite filter_In, in_seq. split.
    + intros (_ & H). destruct (nth_error l i) as [x|] eqn:N; [|discriminate]. exists x. split; auto. apply E; auto. eapply nth_error_In; eauto.
    + intros (x & N & H). split; [assert (i < length l) by (apply nth_error_Some; congruence); lia|]. rewrite N. apply E; auto. eapply nth_error_In; eauto.
Qed.
Lemma trace_is_det key c v w : trace_is key c v -> trace_is key c w -> v = w.
Proof.
  unfold trace_is. intros H. revert w. induction H; intros w' H'; inversion H'; subst; auto. unfold value in *. f_equal; [congruence|auto].
Qed.
Lemma variant_of_ok key c v : variant_of key c = Some v <-> trace_is key c v.
Proof.
  unfold variant_of, trace_is. revert v. induction (c_events c) as [|e es IH]; intros v; cbn.
  - split; [intros [= <-]; constructor|]. inversion 1; auto.
  - split.
    + destruct (d_get e key) as [x|] eqn:E; [|discriminate]. destruct (map_opt (fun e => d_get e key) es) as [r|]; [|discriminate]. intros [= <-].
      constructor; auto. apply IH; auto.
    + inversion 1 as [|? x ? r Hx Hr]; subst. unfold value in Hx. rewrite Hx. apply IH in Hr. rewrite Hr. auto.
Qed.
Lemma vpairs_map key l vcs : map_opt (fun c => bind (variant_of key c) (fun v => Some (v, c))) l = Some vcs ->
  map snd vcs = l /\ Forall (fun vc => trace_is key (snd vc) (fst vc)) vcs.
Proof.
  revert vcs. induction l as [|c k IH]; cbn; intros vcs M.
  - injection M as <-; auto.
  - destruct (variant_of key c) as [v|] eqn:V; [|discriminate]. cbn in M.
    destruct (map_opt (fun c => bind (variant_of key c) (fun v => Some (v, c))) k) as [r|]; [|discriminate]. injection M as <-. destruct (IH _ eq_refl) as (I1 & I2). cbn. split; [f_equal; auto|].
    constructor; auto. apply variant_of_ok; auto.
Qed.
Section Variants.
Variables (key : nat) (l : flog) (d : dict (list Z) flog).
Hypothesis Hd : variants key l = Some d.
Definition vpairs (vcs : list (list Z * case)) : Prop := map snd vcs = l /\ Forall (fun vc => trace_is key (snd vc) (fst vc)) vcs /\ d = group_dict vcs.
Lemma pairs_ex : exists vcs, vpairs vcs.
Proof.
  pose proof Hd as H. unfold variants in H. apply bind_some in H. destruct H as (vcs & M & E). exists vcs. apply vpairs_map in M. destruct M. split; [|split]; auto.
  injection E as E. symmetry. exact E.
Qed.
Variable vcs : list (list Z * case).
Hypothesis Hv : vpairs vcs.
Let ks := dedup (map fst vcs).
Lemma of_key_selected v : Selected (fun c => trace_is key c v) l (of_key v vcs).
Proof.
  destruct Hv as (E & Fa & _). rewrite <- E. clear -Fa. unfold of_key. induction Fa as [|(w, c) r H F IH]; cbn; [constructor|].
  cbn in H. destruct (keqb_spec w v) as [->|N]; cbn; constructor; auto. intros H'. apply N. eapply trace_is_det; eauto.
Qed.
Lemma count_ok v : variant_count key l v (length (of_key v vcs)).
Proof.
  destruct Hv as (E & Fa & _). unfold variant_count, of_key. rewrite map_length. 
  assert (G := exactly_positions (fun vc : list Z * case => keqb (fst vc) v) (fun vc => trace_is key (snd vc) v) vcs).
  rewrite Forall_forall in Fa. destruct G as (L & L1 & L2 & L3).
  - intros (w, c) H. apply Fa in H. cbn in *. destruct (keqb_spec w v) as [->|N]; split; auto; try discriminate. intros H'. exfalso. apply N. eapply trace_is_det; eauto.
  - exists L. split; auto. split; auto. intros i. rewrite L3. rewrite <- E. split.
    + intros (x & N & H). exists (snd x). split; auto. rewrite nth_error_map, N. auto.
    + intros (c & N & H). rewrite nth_error_map in N. destruct (nth_error vcs i) as [x|]; [|discriminate]. injection N as <-. eauto.
Qed.
Lemma count_unique v n : variant_count key l v n -> n = length (of_key v vcs).
Proof. intros H. eapply Proofs_Dfg.exactly_unique; [exact H|apply count_ok]. Qed.
Lemma variant_in v : In v (map fst vcs) <-> is_variant key l v.
Proof.
  destruct Hv as (E & Fa & _). rewrite Forall_forall in Fa. unfold is_variant. rewrite in_map_iff. split.
  - intros ((w, c) & <- & H). exists c. split; [rewrite <- E; apply (in_map snd) in H; auto|]. apply Fa in H. auto.
  - intros (c & H & T). rewrite <- E in H. apply in_map_iff in H. destruct H as ((w, c') & <- & H). exists (w, c'). split; auto. cbn in *. apply Fa in H. eapply trace_is_det; eauto.
Qed.
Lemma count_pos v : 1 <= length (of_key v vcs) <-> is_variant key l v.
Proof.
  rewrite <- variant_in. destruct (of_key v vcs) eqn:E; cbn; [apply of_key_nil in E; split; [lia|tauto]|]. split; [|lia]. intros _.
  destruct (in_dec (list_eq_dec Z.eq_dec) v (map fst vcs)); auto. apply of_key_nil in n. congruence.
Qed.
Lemma groups_ok vs : NoDup vs -> (forall v, In v vs -> is_variant key l v) -> cases_of_variants key l vs (concat (map (fun v => of_key v vcs) vs)).
Proof.
  intros N H. split; auto. exists (map (fun v => of_key v vcs) vs). split; auto. clear N. induction vs as [|v vs IH]; constructor.
  - split; [apply of_key_selected|]. intros E. apply of_key_nil in E. apply E, variant_in, H. cbn; auto.
  - apply IH. intros; apply H; cbn; auto.
Qed.
Lemma ks_in v : In v ks <-> is_variant key l v.
Proof. unfold ks. rewrite dedup_in. apply variant_in. Qed.
Lemma filter_groups (p : list Z -> bool) : flat_map (fun vc => if p (fst vc) then snd vc else []) d = concat (map (fun v => of_key v vcs) (filter p ks)).
Proof. assert (E : d = group_dict vcs) by apply Hv. rewrite E. apply flat_groups. Qed.
Lemma filter_ok positive admitted r : variants_filter positive key admitted l = Some r ->
  exists vs, cases_of_variants key l vs r /\ forall v, In v vs <-> is_variant key l v /\ polar positive (In v admitted).
Proof.
  unfold variants_filter. rewrite Hd. cbn [bind]. intros [= <-]. exists (filter (fun v => Bool.eqb (vmem v admitted) positive) ks).
  rewrite (filter_groups (fun v => Bool.eqb (vmem v admitted) positive)). split.
  - apply groups_ok; [apply NoDup_filter, dedup_nodup|]. intros v H. apply filter_In in H. apply ks_in. tauto.
  - intros v. rewrite filter_In, ks_in. rewrite (eqb_polar _ positive (In v admitted)) by apply vmem_in. tauto.
Qed.
Definition counts := map (fun v => (v, length (of_key v vcs))) ks.
Lemma counts_eq : map (fun vc => (fst vc, length (snd vc))) d = counts.
Proof. assert (E : d = group_dict vcs) by apply Hv. rewrite E. rewrite group_map. unfold counts, ks. rewrite map_map. reflexivity. Qed.
End Variants.
