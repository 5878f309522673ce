From Coq Require Import List Arith ZArith QArith Qminmax Bool Permutation Sorted Relations Lia Lqa.
Import ListNotations.
From Verif Require Import Model_Lev Proofs_Lev Model_Dict Proofs_Dict Spec_Eval Spec_Dfg Proofs_Dfg Model_Roles Spec_Roles Proofs_Sna Proofs_Roles.
Local Open Scope nat_scope.

Section Run.
  Variable log : list (nat * nat).
  Variable srt : list cand -> list cand.
  Variable ord : list role -> list role.
  Variable theta : Q.
  Hypothesis Hperm : forall l, Permutation (srt l) l.
  Hypothesis Hsort : forall l, StronglySorted (fun x y => (snd y <= snd x)%Q) (srt l).
  Hypothesis Hord : forall l, Permutation (ord l) l.
  Variable singles : list (list nat).
  Definition rinv (roles : list role) : Prop :=
    (forall r, In r roles -> rgood log r) /\ NoDup (concat (map fst roles)) /\ (forall a, In a (map snd log) <-> In a (concat (map fst roles))) /\
    exists G, merged log theta singles G /\ Permutation (map fst roles) G.
  Lemma perm_concat {X} (l k : list (list X)) : Permutation l k -> Permutation (concat l) (concat k).
  Proof. induction 1; cbn; auto; [apply Permutation_app_head; auto|rewrite !app_assoc; apply Permutation_app_tail, Permutation_app_comm|eapply Permutation_trans; eauto]. Qed.
  Lemma rinv_perm r r' : Permutation r' r -> rinv r -> rinv r'.
  Proof.
    intros P (A & B & C & G & D & E). assert (Pc : Permutation (concat (map fst r')) (concat (map fst r))) by (apply perm_concat, Permutation_map; auto). split; [|split; [|split]].
    - intros x Hx. apply A. eapply Permutation_in; eauto.
    - eapply Permutation_NoDup; [apply Permutation_sym; exact Pc|auto].
    - intros a. rewrite C. split; apply Permutation_in; auto. apply Permutation_sym; auto.
    - exists G. split; auto. rewrite <- E. apply Permutation_map. auto.
  Qed.
  Lemma best roles i j s l : rinv roles -> srt (cands roles) = (i, j, s) :: l -> forall A B rest, two_of (map fst roles) A B rest -> (similarity log A B <= s)%Q.
  Proof.
    intros (G & _) E A B rest T. unfold two_of in T. apply Permutation_sym, Permutation_map_inv in T as (l3 & El & P). destruct l3 as [|ra [|rb l3]]; try discriminate. cbn in El. injection El as -> -> _.
    apply perm_two in P as (x & y & Hn & Hx & Hy). assert (Ga : rgood log ra) by (apply G; eapply nth_error_In; eauto). assert (Gb : rgood log rb) by (apply G; eapply nth_error_In; eauto).
    assert (H : forall c, In c (cands roles) -> (snd c <= s)%Q).
    { intros c Hc. apply (Permutation_in _ (Permutation_sym (Hperm _))) in Hc. pose proof (Hsort (cands roles)) as S. rewrite E in *. destruct Hc as [<-|Hc]; [cbn; lra|]. inversion S as [|? ? _ F]. rewrite Forall_forall in F. apply (F c Hc). }
    destruct (Nat.lt_total x y) as [L|[->|L]]; [|congruence|].
    - rewrite <- (similarity_ok log ra rb) by auto. apply (H (x, y, role_similarity ra rb)). apply cands_in. split; auto. exists ra, rb. auto.
    - rewrite similarity_sym, <- (similarity_ok log rb ra) by auto. apply (H (y, x, role_similarity rb ra)). apply cands_in. split; auto. exists rb, ra. auto.
  Qed.
  Lemma iteration roles : rinv roles -> let (r, found) := agg_iteration srt ord theta roles in
    if found then rinv r /\ S (length r) = length roles else r = roles /\ forall A B rest, two_of (map fst roles) A B rest -> (similarity log A B <= theta)%Q.
  Proof.
    intros I. unfold agg_iteration. destruct (srt (cands roles)) as [|[[i j] s] l] eqn:E.
    - split; auto. intros A B rest T. exfalso. unfold two_of in T. apply Permutation_sym, Permutation_map_inv in T as (l3 & El & P). destruct l3 as [|ra [|rb l3]]; try discriminate.
      apply perm_two in P as (x & y & Hn & Hx & Hy). assert (Em : cands roles = []) by (apply Permutation_nil; rewrite <- E; apply Hperm).
      destruct (Nat.lt_total x y) as [L|[->|L]]; [|congruence|].
      + assert (In (x, y, role_similarity ra rb) (cands roles)) as Q by (apply cands_in; split; auto; exists ra, rb; auto). rewrite Em in Q. destruct Q.
      + assert (In (y, x, role_similarity rb ra) (cands roles)) as Q by (apply cands_in; split; auto; exists rb, ra; auto). rewrite Em in Q. destruct Q.
    - pose proof (best roles i j s l I E) as Hb. assert (In (i, j, s) (cands roles)) as Q by (eapply Permutation_in; [apply Hperm|rewrite E; left; auto]). apply cands_in in Q as (Hij & r1 & r2 & E1 & E2 & ->).
      rewrite E1, E2. destruct (Qle_bool (role_similarity r1 r2) theta) eqn:Eq; cbn [negb].
      + apply Qle_bool_iff in Eq. split; auto. intros A B rest T. specialize (Hb _ _ _ T). lra.
      + assert (Ht : (theta < role_similarity r1 r2)%Q) by (apply Qnot_le_lt; intros X; apply Qle_bool_iff in X; congruence).
        pose proof (two_perm roles i j r1 r2 Hij E1 E2) as P. fold (join r1 r2). set (rest := del (j - 1) (del i roles)) in *.
        destruct I as (A & B & C & G & D & F). assert (G1 : rgood log r1) by (apply A; eapply nth_error_In; eauto). assert (G2 : rgood log r2) by (apply A; eapply nth_error_In; eauto).
        pose proof (perm_concat _ _ (Permutation_map fst P)) as Pc. cbn [map concat] in Pc. assert (N : NoDup (fst r1 ++ fst r2 ++ concat (map fst rest))) by (eapply Permutation_NoDup; eauto).
        assert (Dj : forall a, In a (fst r1) -> ~ In a (fst r2)).
        { intros a H1 H2. apply in_split in H1 as (u & v & Eu). rewrite Eu, <- app_assoc in N. cbn in N. apply NoDup_remove_2 in N. apply N. apply in_app_iff. right. apply in_app_iff. right. apply in_app_iff. left. auto. }
        split.
        * apply (rinv_perm (join r1 r2 :: rest)); [etransitivity; [apply Hord|]; apply Permutation_sym, Permutation_cons_append|]. split; [|split; [|split]].
          { intros r [<-|Hr]; [apply join_good; auto|]. apply A. eapply Permutation_in; [apply Permutation_sym; exact P|right; right; auto]. }
          { cbn [map concat]. rewrite app_assoc in N. pose proof (sorted_lt (dedup (fst r1 ++ fst r2)) (dedup_nodup _)) as [Sl _]. assert (Nd : forall l : list nat, StronglySorted lt l -> NoDup l).
            { clear. induction 1 as [|x l S IH F]; constructor; auto. rewrite Forall_forall in F. intros Hx. specialize (F x Hx). lia. }
            apply NoDup_app_intro; [apply Nd; exact Sl| |].
            - clear -N. induction (fst r1 ++ fst r2) as [|x l IH]; cbn in N; auto. inversion N; auto.
            - intros a Ha Hr. apply join_acts in Ha. assert (In a (fst r1 ++ fst r2)) as Q by (apply in_app_iff; auto). apply in_split in Q as (u & v & Eu). rewrite Eu, <- app_assoc in N. cbn in N. apply NoDup_remove_2 in N. apply N. apply in_app_iff. right. apply in_app_iff. auto. }
          { intros a. rewrite C. cbn [map concat]. rewrite in_app_iff, join_acts. split; intros H.
            - apply (Permutation_in _ Pc) in H. rewrite !in_app_iff in H. tauto.
            - apply (Permutation_in _ (Permutation_sym Pc)). rewrite !in_app_iff. tauto. }
          { exists (map fst (join r1 r2 :: rest)). split; [|apply Permutation_refl]. eapply rt_trans; [exact D|]. apply rt_step. exists (fst r1), (fst r2), (fst (join r1 r2)), (map fst rest).
            split; [unfold two_of; rewrite <- F; apply (Permutation_map fst) in P; exact P|]. split; [rewrite <- (similarity_ok log r1 r2) by auto; auto|]. split; [intros X Y r T; rewrite <- (similarity_ok log r1 r2) by auto; apply (Hb X Y r); unfold two_of in *; rewrite F; auto|]. split; [apply join_acts|apply Permutation_refl]. }
        * rewrite (Permutation_length (Hord _)), app_length. pose proof (Permutation_length P) as L. cbn in L |- *. lia.
  Qed.
  Lemma loop : forall n roles, length roles < n -> rinv roles -> exists r, agg_loop srt ord theta n roles = Some r /\ rinv r /\ forall A B rest, two_of (map fst r) A B rest -> (similarity log A B <= theta)%Q.
  Proof.
    induction n as [|n IH]; intros roles L I; [lia|]. cbn [agg_loop]. pose proof (iteration roles I) as H. destruct (agg_iteration srt ord theta roles) as [r [|]].
    - destruct H as [H Hl]. apply IH; [lia|auto].
    - destruct H as [-> H]. exists roles. auto.
  Qed.
End Run.

(** the initial roles *)
Lemma init_ok : forall P : @counter (nat * nat), NoDup (d_keys P) -> let m := fold_left init_step P [] in
  NoDup (d_keys m) /\ (forall a, In a (d_keys m) <-> exists r, In (r, a) (d_keys P)) /\ forall a c, d_get m a = Some c -> NoDup (d_keys c) /\ forall r, d_get c r = d_get P (r, a).
Proof.
  induction P as [|[[r a] n] P IH] using rev_ind; intros N.
  - cbn. split; [constructor|]. split; [intros a; split; [intros []|intros (r & [])]|intros a c H; discriminate].
  - cbv zeta. rewrite fold_left_app. cbn [fold_left]. set (m := fold_left init_step P []) in *. unfold d_keys in N. rewrite map_app in N. cbn in N. apply NoDup_remove in N as [N Nr]. rewrite app_nil_r in *. destruct (IH N) as (A & B & C). fold m in A, B, C.
    unfold init_step. cbn [fst snd]. assert (Gp : forall k, d_get (P ++ [((r, a), n)]) k = match d_get P k with Some v => Some v | None => if keqb (r, a) k then Some n else None end).
    { intros k. clear. induction P as [|[k' v] P IH]; [reflexivity|]. cbn [app d_get]. destruct (keqb k' k); auto. }
    assert (Nn : d_get P (r, a) = None) by (apply d_get_none; auto).
    set (c := match d_get m a with Some c => c | None => [] end). assert (Hc : NoDup (d_keys c) /\ forall x, d_get c x = d_get P (x, a)).
    { unfold c. destruct (d_get m a) as [c0|] eqn:E; [apply (C a c0 E)|]. split; [constructor|]. intros x. cbn. symmetry. apply d_get_none. intros H. apply d_get_none in E. apply E, B. exists x. auto. }
    destruct Hc as [Nc Hc]. assert (Em : d_mem c r = false) by (unfold d_mem; rewrite Hc, Nn; auto). rewrite Em. split; [apply d_nodup_set; auto|]. split.
    + intros x. rewrite d_in_keys_set, B. unfold d_keys. rewrite map_app. cbn. split.
      * intros [->|(y & Hy)]; [exists r; apply in_app_iff; right; left; auto|exists y; apply in_app_iff; auto].
      * intros (y & Hy). apply in_app_iff in Hy as [Hy|[[= -> ->]|[]]]; [right; eauto|auto].
    + intros x c' H. rewrite d_get_set in H. change (keqb a x) with (Nat.eqb a x) in H. destruct (Nat.eqb_spec a x) as [->|Hn].
      * injection H as <-. split; [apply d_nodup_set; auto|]. intros y. rewrite d_get_set, Gp, Hc. change (keqb r y) with (Nat.eqb r y). cbn [keqb key_pair key_nat fst snd]. rewrite Nat.eqb_refl, andb_true_r. destruct (Nat.eqb_spec r y) as [->|]; [rewrite Nn; auto|destruct (d_get P (y, x)); auto].
      * destruct (C x c' H) as [C1 C2]. split; auto. intros y. rewrite Gp, C2. cbn [keqb key_pair key_nat fst snd]. destruct (Nat.eqb_spec a x); [congruence|]. rewrite andb_false_r. destruct (d_get P (y, x)); auto.
Qed.
Lemma done_occ log a r : done log [a] r = occ (r, a) log.
Proof.
  unfold done, occ. induction log as [|[x y] l IH]; [reflexivity|]. cbn [filter fst snd member existsb]. cbn [keqb key_pair key_nat fst snd]. rewrite orb_false_r. destruct (Nat.eqb x r), (Nat.eqb y a); cbn [andb length]; auto.
Qed.
(** * C95: organizational roles *)
Theorem C95_roles : forall srt ord theta log,
  (forall l, Permutation (srt l) l) -> (forall l, StronglySorted (fun x y => (snd y <= snd x)%Q) (srt l)) -> (forall l, Permutation (ord l) l) ->
  exists R acts G, discover_roles srt ord theta log = Some R /\
    (NoDup acts /\ (forall a, In a acts <-> In a (map snd log)) /\ merged log theta (map (fun a => [a]) acts) G /\ Permutation (map fst R) G) /\
    (forall A B rest, two_of (map fst R) A B rest -> (similarity log A B <= theta)%Q) /\
    (forall a, In a (map snd log) <-> exists A c, In (A, c) R /\ In a A) /\ NoDup (concat (map fst R)) /\
    (forall A c, In (A, c) R -> StronglySorted lt A /\ NoDup (d_keys c) /\ forall r, c_get c r = done log A r /\ (In r (d_keys c) <-> 0 < done log A r)).
Proof.
  intros srt ord theta log Hp Hs Ho. destruct (init_ok (c_of log) (c_of_nodup log)) as (A & B & C). set (m := fold_left init_step (c_of log) []) in *. cbv zeta in *.
  set (acts := d_keys m). assert (Ei : map fst (init_roles (c_of log)) = map (fun a => [a]) acts) by (unfold init_roles, acts, d_keys; rewrite !map_map; reflexivity).
  assert (Ha : forall a, In a acts <-> In a (map snd log)).
  { intros a. unfold acts. rewrite B. split; [intros (r & H); apply (proj1 (c_of_keys log (r, a))) in H; apply in_map_iff; exists (r, a); split; [reflexivity|exact H]|]. intros H. apply in_map_iff in H as ([r x] & Ex & Hx). cbn in Ex. subst x. exists r. apply c_of_keys. auto. }
  assert (Cc : concat (map (fun a => [a]) acts) = acts) by (clear; induction acts; cbn; congruence).
  assert (I : rinv log theta (map (fun a => [a]) acts) (init_roles (c_of log))).
  { split; [|split; [|split]].
    - intros r Hr. unfold init_roles in Hr. apply in_map_iff in Hr as ([a c] & <- & Hin). cbn [fst snd]. fold m in Hin. assert (In a acts) as Hacts by (apply in_map_iff; exists (a, c); auto).
      pose proof (d_in_get _ _ _ A Hin) as Hg. destruct (C a c Hg) as [N Hc]. assert (Cg : forall x, c_get c x = done log [a] x) by (intros x; unfold c_get; rewrite Hc, done_occ, <- c_get_of; reflexivity).
      split; cbn [fst snd]; auto.
      + intros x. rewrite <- d_get_keys, Hc, d_get_c_of, done_occ. destruct (Nat.eqb_spec (occ (x, a) log) 0); split; intros; try lia; congruence.
      + intros b [<-|[]]. apply Ha. auto.
      + repeat constructor.
      + apply Ha, in_map_iff in Hacts as ([r b] & Eb & Hb). cbn in Eb. subst b. unfold done_all. assert (In (r, a) (filter (fun e => member (snd e) [a]) log)) as Q by (apply filter_In; cbn; rewrite Nat.eqb_refl; auto). destruct (filter _ log); [destruct Q|cbn; lia].
    - rewrite Ei, Cc. exact A.
    - intros a. rewrite Ei, Cc. symmetry. apply Ha.
    - exists (map (fun a => [a]) acts). split; [apply rt_refl|]. rewrite Ei. apply Permutation_refl. }
  assert (I' := rinv_perm log theta _ _ _ (Ho (init_roles (c_of log))) I).
  destruct (loop log srt ord theta Hp Hs Ho (map (fun a => [a]) acts) (S (length (init_roles (c_of log)))) (ord (init_roles (c_of log)))) as (R0 & ER & IR & HR); [rewrite (Permutation_length (Ho _)); lia|exact I'|].
  pose proof (rinv_perm log theta _ _ _ (Ho R0) IR) as (G1 & G2 & G3 & G & G4 & G5). exists (ord R0), acts, G. unfold discover_roles, roles_of. rewrite ER. split; [reflexivity|]. split; [split; [exact A|split; [exact Ha|split; auto]]|]. split; [|split; [|split; [auto|]]].
  - intros X Y rest T. apply (HR X Y rest). unfold two_of in *. rewrite <- T. apply Permutation_map, Permutation_sym, Ho.
  - intros a. rewrite G3, in_concat. split.
    + intros (X & HX & Ha'). apply in_map_iff in HX as ([X' c] & <- & HX). exists X', c. auto.
    + intros (X & c & HX & Ha'). exists X. split; auto. apply in_map_iff. exists (X, c). auto.
  - intros X c HX. destruct (G1 _ HX) as [K1 K2 K3 K4 K5 K6]. cbn [fst snd] in *. auto.
Qed.
Print Assumptions C95_roles.
(** The similarity is a number between 0 and 1, the same in both directions, and 1 exactly for roles with the same shares. *)
Lemma share_all log A : (forall r, share log A r == 0)%Q \/ (Qsum (map (share log A) (resources log)) == 1)%Q.
Proof.
  destruct (done_all log A) as [|n] eqn:E.
  - left. intros r. unfold share. rewrite E. unfold Qdiv. cbn. apply Qmult_0_r.
  - right. rewrite (qs_ext _ (fun r => / qn (done_all log A) * qn (done log A r))%Q).
    2:{ intros r _. unfold share, Qdiv. apply Qmult_comm. }
    rewrite qs_scale, <- (map_map (done log A) qn), qn_sum, done_sum; [|apply NoDup_nodup|intros e He _; apply nodup_In, in_map; auto].
    rewrite Qmult_comm. apply Qmult_inv_r. pose proof (qn_pos (done_all log A)). rewrite E in *. assert (0 < qn (S n))%Q by (apply H; lia). lra.
Qed.
Theorem C95_similarity : forall log A B, (exists r, In r log /\ In (snd r) A) -> (exists r, In r log /\ In (snd r) B) ->
  (0 <= similarity log A B <= 1)%Q /\ (similarity log A B == similarity log B A)%Q /\ ((similarity log A B == 1)%Q <-> forall r, (share log A r == share log B r)%Q).
Proof.
  intros log A B HA HB.
  assert (P1 : forall C, (exists r, In r log /\ In (snd r) C) -> (Qsum (map (share log C) (resources log)) == 1)%Q).
  { intros C ([r a] & Hr & Hc). destruct (share_all log C) as [Z|]; auto. exfalso. assert (D : 0 < done log C r).
    { unfold done. assert (In (r, a) (filter (fun e => Nat.eqb (fst e) r && member (snd e) C) log)) as Q by (apply filter_In; cbn [fst snd]; rewrite Nat.eqb_refl; split; auto; apply member_in; auto). destruct (filter _ log); [destruct Q|cbn; lia]. }
    assert (D2 : 0 < done_all log C) by (unfold done_all; assert (In (r, a) (filter (fun e => member (snd e) C) log)) as Q by (apply filter_In; split; auto; apply member_in; auto); destruct (filter _ log); [destruct Q|cbn; lia]).
    pose proof (Z r) as Zr. unfold share in Zr. pose proof (qn_pos _ D). pose proof (qn_pos _ D2). assert (0 < qn (done log C r) / qn (done_all log C))%Q by (apply Qlt_shift_div_l; [auto|lra]). unfold qn in *. lra. }
  pose proof (P1 A HA) as SA. pose proof (P1 B HB) as SB. split; [|split; [apply similarity_sym|]].
  - unfold similarity. set (mn := Qsum (map (fun r => Qmin (share log A r) (share log B r)) (resources log))). set (mx := Qsum (map (fun r => Qmax (share log A r) (share log B r)) (resources log))).
    assert (0 <= mn)%Q by (apply qs_nonneg; intros x Hx; apply in_map_iff in Hx as (r & <- & _); apply Q.min_glb; apply share_nonneg).
    assert (mn <= mx)%Q by (apply qs_le; intros r _; eapply Qle_trans; [apply Q.le_min_l|apply Q.le_max_l]). assert (1 <= mx)%Q by (rewrite <- SA; apply qs_le; intros r _; apply Q.le_max_l).
    split; [apply Qle_shift_div_l; lra|apply Qle_shift_div_r; lra].
  - unfold similarity. set (f := fun r => Qmin (share log A r) (share log B r)). set (g := fun r => Qmax (share log A r) (share log B r)).
    assert (1 <= Qsum (map g (resources log)))%Q by (rewrite <- SA; apply qs_le; intros r _; apply Q.le_max_l). split.
    + intros E r. assert (Es : (Qsum (map f (resources log)) == Qsum (map g (resources log)))%Q) by (rewrite <- (Qmult_1_l (Qsum (map g (resources log)))), <- E; field; lra).
      assert (Z : forall l, (Qsum (map f l) == Qsum (map g l))%Q -> forall r, In r l -> (share log A r == share log B r)%Q).
      { clear. assert (M : forall r, (f r <= g r)%Q) by (intros r; unfold f, g; eapply Qle_trans; [apply Q.le_min_l|apply Q.le_max_l]). induction l as [|x l IH]; intros E r Hr; [destruct Hr|]. cbn [map Qsum] in E. pose proof (M x). assert (Qsum (map f l) <= Qsum (map g l))%Q by (apply qs_le; auto).
        destruct Hr as [<-|Hr]; [|apply IH; auto; lra]. assert (Ex : (f x == g x)%Q) by lra. unfold f, g in Ex. pose proof (Q.le_min_l (share log A x) (share log B x)). pose proof (Q.le_min_r (share log A x) (share log B x)). pose proof (Q.le_max_l (share log A x) (share log B x)). pose proof (Q.le_max_r (share log A x) (share log B x)). lra. }
      destruct (in_dec Nat.eq_dec r (resources log)) as [Hr|Hr]; [apply (Z _ Es r Hr)|]. rewrite !share_zero; [reflexivity| |]; intros D; apply Hr; eapply done_res; eauto.
    + intros E. rewrite (qs_ext f g); [field; lra|]. intros r _. unfold f, g. rewrite (E r). rewrite Q.min_id, Q.max_id. reflexivity.
Qed.
Print Assumptions C95_similarity.

(** A sorting of candidates by decreasing similarity. *)
Fixpoint ins (x : cand) (l : list cand) : list cand := match l with [] => [x] | y :: r => if Qle_bool (snd y) (snd x) then x :: l else y :: ins x r end.
Definition isort (l : list cand) : list cand := fold_right ins [] l.
Lemma ins_perm x l : Permutation (ins x l) (x :: l).
Proof. induction l as [|y l IH]; cbn; [auto|]. destruct (Qle_bool (snd y) (snd x)); auto. rewrite IH. apply perm_swap. Qed.
Example C95_example_sorting : (forall l, Permutation (isort l) l) /\ (forall l, StronglySorted (fun x y => (snd y <= snd x)%Q) (isort l)).
Proof.
  split; induction l as [|x l IH]; cbn [isort fold_right]; try constructor; fold (isort l).
  - rewrite ins_perm. constructor. auto.
  - clear -IH. induction (isort l) as [|y k IHk]; cbn; [repeat constructor|]. inversion IH as [|? ? S F]; subst. destruct (Qle_bool (snd y) (snd x)) eqn:E.
    + apply Qle_bool_iff in E. constructor; auto. constructor; auto. rewrite Forall_forall in *. intros z Hz. specialize (F z Hz). cbv beta in F. lra.
    + assert ((snd x <= snd y)%Q) by (apply Qlt_le_weak, Qnot_le_lt; intros X; apply Qle_bool_iff in X; congruence). constructor; auto. rewrite Forall_forall in *. intros z Hz. apply (Permutation_in _ (ins_perm x k)) in Hz as [<-|Hz]; auto.
Qed.
(** activities 10 and 11 are done by the resources 1 and 2 in the same proportion, activity 12 by resource 3 *)
Definition small_log : list (nat * nat) := [(1, 10); (2, 10); (1, 11); (2, 11); (3, 12); (1, 12)].
Example C95_example : exists R, discover_roles isort (fun l => l) (65 # 100) small_log = Some R /\ map fst R = [[12]; [10; 11]] /\ map snd R = [[(3, 1); (1, 1)]; [(1, 2); (2, 2)]].
Proof. eexists. split; [vm_compute; reflexivity|]. split; reflexivity. Qed.
Example C95_example_similarity : (similarity small_log [10%nat] [11%nat] == 1)%Q /\ (similarity small_log [10%nat] [12%nat] == 1 # 3)%Q.
Proof. split; vm_compute; reflexivity. Qed.
