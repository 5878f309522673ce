(** Proofs: prefixes of the log, aggregation, end-to-end statements. *)
From stdpp Require Import gmap.
From Coq Require Import ZArith QArith Lia List Permutation.
From Verif Require Import Model_Petri Spec_Petri Proofs_Petri Model_Align Model_Dict Proofs_Dict
  Model_Precision Spec_Precision Proofs_Precision1 Proofs_Precision3.
Import ListNotations.
Local Open Scope nat_scope.

(** ---- sums ---- *)
Lemma lsum_app a b : list_sum (a ++ b) = list_sum a + list_sum b.
Proof. apply list_sum_app. Qed.
Lemma lsum_cons a b : list_sum (a :: b) = a + list_sum b.
Proof. reflexivity. Qed.
Lemma lsum_map_le {A} (F G : A -> nat) l : (forall x, In x l -> F x <= G x) -> list_sum (map F l) <= list_sum (map G l).
Proof.
  induction l as [|x l IH]; intros H; cbn [map]; rewrite ?lsum_cons; [lia|].
  pose proof (H x (or_introl eq_refl)). assert (list_sum (map F l) <= list_sum (map G l)) by (apply IH; intros; apply H; right; assumption). lia.
Qed.
Lemma lsum_map_ext {A} (F G : A -> nat) l : (forall x, In x l -> F x = G x) -> list_sum (map F l) = list_sum (map G l).
Proof. intros H. f_equal. apply map_ext_in, H. Qed.
Lemma lsum_zero {A} (F : A -> nat) l : list_sum (map F l) = 0 <-> forall x, In x l -> F x = 0.
Proof.
  induction l as [|x l IH]; cbn [map]; rewrite ?lsum_cons; [split; [intros _ x []|reflexivity]|]. split.
  - intros H y [<-|Hy]; [lia|]. apply IH; [lia|exact Hy].
  - intros H. rewrite (H x (or_introl eq_refl)). cbn. apply IH. intros y Hy. apply H. right. exact Hy.
Qed.
Lemma lsum_indicator {K} {EK : Key K} (F : K -> nat) x (l : list K) : NoDup l -> In x l ->
  list_sum (map (fun k => F k * if keqb x k then 1 else 0) l) = F x.
Proof.
  induction l as [|k l IH]; intros Hn [].
  - subst k. inversion Hn as [|? ? Hx Hl]; subst. cbn [map]. rewrite lsum_cons, keqb_refl.
    assert (E : list_sum (map (fun k => F k * (if keqb x k then 1 else 0)) l) = 0).
    { apply lsum_zero. intros y Hy. rewrite keqb_neq; [lia|]. intros ->. contradiction. }
    rewrite E. lia.
  - inversion Hn as [|? ? Hx Hl]; subst. cbn [map]. rewrite lsum_cons, IH by assumption.
    rewrite keqb_neq; [lia|]. intros ->. contradiction.
Qed.
Lemma lsum_occ {K} {EK : Key K} (F : K -> nat) (ks l : list K) : NoDup l -> (forall k, In k ks -> In k l) ->
  list_sum (map (fun k => F k * occ k ks) l) = list_sum (map F ks).
Proof.
  intros Hn. induction ks as [|x ks IH]; intros Hk.
  - cbn [map]. apply lsum_zero. intros y _. unfold occ. cbn. lia.
  - cbn [map]. rewrite lsum_cons, <- IH by (intros; apply Hk; right; assumption).
    rewrite <- (lsum_indicator F x l Hn (Hk x (or_introl eq_refl))).
    clear. induction l as [|k l IH]; cbn [map]; [reflexivity|]. rewrite !lsum_cons, IH, occ_cons. lia.
Qed.

(** ---- prefixes ---- *)
Definition pairs (log : list (list nat)) : list (list nat * nat) := flat_map trace_prefixes log.

Lemma fold_flat {A B C} (f : A -> B -> A) (g : C -> list B) l a :
  fold_left (fun a x => fold_left f (g x) a) l a = fold_left f (flat_map g l) a.
Proof. revert a. induction l as [|x l IH]; intros a; cbn; [reflexivity|]. rewrite IH, fold_left_app. reflexivity. Qed.

Lemma log_prefixes_pairs log : log_prefixes log = fold_left add_prefix (pairs log) ([], []).
Proof. apply fold_flat. Qed.

Lemma prefixes_inv (ps : list (list nat * nat)) :
  let st := fold_left add_prefix ps ([], []) in
  snd st = c_of (map fst ps) /\ d_keys (fst st) = d_keys (snd st) /\ NoDup (d_keys (fst st)) /\
  (forall w v, d_get (fst st) w = Some v -> forall a, In a v <-> In (w, a) ps).
Proof.
  induction ps as [|[w a] ps IH] using rev_ind; cbn zeta.
  - cbn. repeat split; try constructor; discriminate.
  - rewrite fold_left_app. cbn [fold_left]. cbn zeta in IH. destruct IH as (I1 & I2 & I3 & I4).
    set (st := fold_left add_prefix ps ([], [])) in *. unfold add_prefix. cbn [fst snd].
    rewrite map_app. cbn [map fst]. split; [rewrite c_of_snoc, <- I1; reflexivity|].
    split; [unfold c_add; rewrite !d_keys_set, I2; reflexivity|].
    split; [apply d_nodup_set, I3|].
    intros w' v'. rewrite d_get_set. destruct (keqb_spec w w') as [<-|Hne].
    + intros [= <-] b. rewrite in_app_iff. cbn [In].
      assert (Hold : In b (match d_get (fst st) w with Some s => s | None => [] end) <-> In (w, b) ps).
      { destruct (d_get (fst st) w) as [s|] eqn:E; [apply I4, E|]. split; [intros []|]. intros H.
        exfalso. apply d_get_none in E. apply E. rewrite I2, I1. apply c_of_keys. apply in_map_iff. exists (w, b). auto. }
      destruct (existsb (Nat.eqb a) _) eqn:Ex.
      * rewrite Hold. split; [auto|]. intros [H|[[= <-]|[]]]; [exact H|].
        apply existsb_exists in Ex as (y & Hy & E). apply Nat.eqb_eq in E. subst y. apply Hold, Hy.
      * rewrite in_app_iff, Hold. cbn [In]. split.
        -- intros [H|[->|[]]]; auto.
        -- intros [H|[[= <-]|[]]]; auto.
    + intros H b. rewrite (I4 _ _ H b), in_app_iff. cbn [In]. split; [auto|]. intros [A|[[= A B]|[]]]; [exact A|congruence].
Qed.

Lemma nth_lookup (l : list nat) i a d : i < length l -> nth i l d = a <-> l !! i = Some a.
Proof.
  revert i. induction l as [|b l IH]; intros [|i] H; cbn in *; try lia.
  - split; congruence.
  - apply IH. lia.
Qed.

Lemma in_pairs log w a : In (w, a) (pairs log) <-> w <> [] /\ exists rest, In (w ++ a :: rest) log.
Proof.
  unfold pairs. rewrite in_flat_map. split.
  - intros (tr & Htr & H). unfold trace_prefixes in H. apply in_map_iff in H as (i & [= <- <-] & Hi).
    apply in_seq in Hi. split.
    + destruct i, tr; cbn in *; try lia; try discriminate.
    + exists (skipn (S i) tr). replace (firstn i tr ++ nth i tr 0 :: skipn (S i) tr) with tr; [exact Htr|].
      rewrite <- (firstn_skipn i tr) at 1. f_equal.
      assert (Hl : i < length tr) by lia. clear Hi Htr. revert i Hl.
      induction tr as [|b tr IH]; intros [|i] Hl; cbn in *; try lia; [reflexivity|]. apply IH. lia.
  - intros (Hne & rest & Hin). eexists. split; [exact Hin|]. unfold trace_prefixes. apply in_map_iff.
    exists (length w). rewrite firstn_app, firstn_all, Nat.sub_diag, app_nil_r. split.
    + f_equal. rewrite app_nth2, Nat.sub_diag by lia. reflexivity.
    + apply in_seq. rewrite app_length. cbn. destruct w; [congruence|]. cbn. lia.
Qed.

Lemma prefixb_spec w tr : prefixb w tr = true <-> exists rest, tr = w ++ rest.
Proof.
  revert tr. induction w as [|a w IH]; intros tr; cbn.
  - split; [eexists; reflexivity|reflexivity].
  - destruct tr as [|b tr].
    + split; [discriminate|]. intros [rest [=]].
    + rewrite andb_true_iff, Nat.eqb_eq, IH. split.
      * intros [-> [rest ->]]. eexists. reflexivity.
      * intros [rest [= -> ->]]. split; [reflexivity|eexists; reflexivity].
Qed.
Lemma continues_spec log w a : existsb (prefixb (w ++ [a])) log = true <-> exists rest, In (w ++ a :: rest) log.
Proof.
  rewrite existsb_exists. split.
  - intros (tr & Htr & H). apply prefixb_spec in H as [rest ->]. rewrite <- app_assoc in Htr. exists rest. exact Htr.
  - intros (rest & H). eexists. split; [exact H|]. apply prefixb_spec. exists rest. rewrite <- app_assoc. reflexivity.
Qed.

Lemma existsb_eqb a l : existsb (Nat.eqb a) l = true <-> In a l.
Proof.
  rewrite existsb_exists. split; [intros (y & Hy & E); apply Nat.eqb_eq in E; subst; exact Hy|].
  intros H. exists a. split; [exact H|apply Nat.eqb_refl].
Qed.

Lemma bool_iff (b c : bool) : (b = true <-> c = true) -> b = c.
Proof. destruct b, c; intuition congruence. Qed.

Lemma escaping_not_in_log log w ls seen :
  (forall a, In a seen <-> exists rest, In (w ++ a :: rest) log) -> escaping ls seen = not_in_log log w ls.
Proof.
  intros H. unfold escaping, not_in_log. apply filter_ext. intros a. f_equal.
  apply bool_iff. rewrite existsb_eqb, continues_spec. apply H.
Qed.
Lemma start_in log a : In a (start_activities log) <-> exists rest, In (a :: rest) log.
Proof.
  unfold start_activities. rewrite dedup_in, in_flat_map. split.
  - intros ([|b tr] & Htr & H); [destruct H|]. destruct H as [->|[]]. eauto.
  - intros (rest & H). exists (a :: rest). split; [exact H|left; reflexivity].
Qed.

(** ---- aggregation ---- *)
Section Agg.
  Variables (act : list nat -> option (list nat)) (init : list nat).
  (** labels counted for a prefix *)
  Definition counted (w : list nat) : list nat :=
    match w with [] => init | _ => match act w with Some ls => ls | None => [] end end.

  Lemma sums_fold cnt (prefixes : list (list nat * list nat)) s :
    fold_left (fun s kv =>
      match act (fst kv) with
      | None => s
      | Some ls => (fst s + length ls * c_get cnt (fst kv), snd s + length (escaping ls (snd kv)) * c_get cnt (fst kv))
      end) prefixes s
    = (fst s + list_sum (map (fun kv => match act (fst kv) with Some ls => length ls | None => 0 end * c_get cnt (fst kv)) prefixes),
       snd s + list_sum (map (fun kv => match act (fst kv) with Some ls => length (escaping ls (snd kv)) | None => 0 end * c_get cnt (fst kv)) prefixes)).
  Proof.
    revert s. induction prefixes as [|[w v] l IH]; intros s; cbn [fold_left map fst snd].
    - destruct s. cbn. f_equal; lia.
    - rewrite IH, !lsum_cons. destruct (act w) as [ls|]; cbn [fst snd]; f_equal; lia.
  Qed.

  Lemma over_split F log : over_prefixes F log = length log * F [] + list_sum (map F (map fst (pairs log))).
  Proof.
    unfold over_prefixes, pairs. induction log as [|tr log IH]; [reflexivity|].
    rewrite (map_cons _ tr log), lsum_cons, IH. cbn [flat_map length]. rewrite !map_app, lsum_app.
    rewrite map_cons, lsum_cons. change (firstn 0 tr) with (@nil nat). unfold trace_prefixes at 2. rewrite !map_map. cbn [fst]. cbn [Nat.mul]. lia.
  Qed.

  Lemma pair_ne log w : In w (map fst (pairs log)) -> w <> [].
  Proof. intros H. apply in_map_iff in H as ([w' a] & <- & H). apply in_pairs in H. apply H. Qed.

  Theorem precision_sums_spec n log :
    precision_sums act init n log
    = (n * length init + list_sum (map (fun w => length (counted w)) (map fst (pairs log))),
       n * length (not_in_log log [] init)
         + list_sum (map (fun w => length (not_in_log log w (counted w))) (map fst (pairs log)))).
  Proof.
    unfold precision_sums. pose proof (prefixes_inv (pairs log)) as HI. cbn zeta in HI. rewrite log_prefixes_pairs.
    destruct (fold_left add_prefix (pairs log) ([], [])) as [prefixes cnt]. cbn [fst snd] in HI.
    destruct HI as (-> & Hk & Hn & Hv). rewrite sums_fold. cbn [fst snd].
    assert (Hstart : escaping init (start_activities log) = not_in_log log [] init).
    { apply escaping_not_in_log. intros a. rewrite start_in. reflexivity. }
    rewrite Hstart.
    assert (Hin : forall w, In w (d_keys prefixes) <-> In w (map fst (pairs log))).
    { intros w. rewrite Hk. apply c_of_keys. }
    assert (Hsum : forall (g : list nat * list nat -> nat) (F : list nat -> nat),
       (forall w v, In (w, v) prefixes -> g (w, v) = F w) ->
       list_sum (map (fun kv => g kv * c_get (c_of (map fst (pairs log))) (fst kv)) prefixes)
       = list_sum (map F (map fst (pairs log)))).
    { intros g F Hg. rewrite <- (lsum_occ F (map fst (pairs log)) (d_keys prefixes) Hn) by (intros k Hk'; apply Hin, Hk').
      unfold d_keys. rewrite map_map. apply lsum_map_ext. intros [w v] Hwv. cbn [fst]. rewrite c_get_of, (Hg w v Hwv). reflexivity. }
    f_equal; f_equal.
    - apply (Hsum (fun kv => match act (fst kv) with Some ls => length ls | None => 0 end)).
      intros w v Hwv. cbn [fst].
      assert (Hne : w <> []). { apply (pair_ne log), Hin. apply (in_map fst) in Hwv. exact Hwv. }
      unfold counted. destruct w; [congruence|]. destruct (act _); reflexivity.
    - apply (Hsum (fun kv => match act (fst kv) with Some ls => length (escaping ls (snd kv)) | None => 0 end)).
      intros w v Hwv. cbn [fst snd].
      assert (Hne : w <> []). { apply (pair_ne log), Hin. apply (in_map fst) in Hwv. exact Hwv. }
      apply (d_in_get _ _ _ Hn) in Hwv.
      assert (Hseen : forall a, In a v <-> exists rest, In (w ++ a :: rest) log).
      { intros a. rewrite (Hv _ _ Hwv a), in_pairs. tauto. }
      unfold counted. destruct w as [|x w]; [congruence|]. destruct (act _) as [ls|]; [|reflexivity].
      rewrite (escaping_not_in_log log (x :: w) ls v Hseen). reflexivity.
  Qed.

  Theorem precision_formula log :
    precision_of act init (length log) log = et_precision counted log.
  Proof.
    unfold precision_of, et_precision. rewrite precision_sums_spec, !over_split. cbn [counted].
    unfold precision_value. cbn [fst snd].
    match goal with |- context [Nat.ltb 0 ?x] => generalize x end. intros x.
    destruct x; reflexivity.
  Qed.
End Agg.

Lemma filter_len {A} (f : A -> bool) l : length (List.filter f l) <= length l.
Proof. induction l as [|x l IH]; cbn; [lia|]. destruct (f x); cbn; lia. Qed.

Lemma ratio_range (e a : nat) : e <= a -> 0 < a ->
  (0 <= 1 - inject_Z (Z.of_nat e) / inject_Z (Z.of_nat a) /\ 1 - inject_Z (Z.of_nat e) / inject_Z (Z.of_nat a) <= 1)%Q.
Proof.
  intros Hle Hpos.
  assert (Ha : (0 < inject_Z (Z.of_nat a))%Q).
  { change 0%Q with (inject_Z 0). rewrite <- Zlt_Qlt. lia. }
  assert (H1 : (inject_Z (Z.of_nat e) / inject_Z (Z.of_nat a) <= 1)%Q).
  { apply Qle_shift_div_r; [exact Ha|]. rewrite Qmult_1_l. rewrite <- Zle_Qle. lia. }
  assert (H2 : (0 <= inject_Z (Z.of_nat e) / inject_Z (Z.of_nat a))%Q).
  { apply Qle_shift_div_l; [exact Ha|]. rewrite Qmult_0_l. change 0%Q with (inject_Z 0). rewrite <- Zle_Qle. lia. }
  split.
  - apply (proj1 (Qle_minus_iff _ _)) in H1. exact H1.
  - apply Qle_minus_iff. setoid_replace (1 + - (1 - inject_Z (Z.of_nat e) / inject_Z (Z.of_nat a)))%Q
      with (inject_Z (Z.of_nat e) / inject_Z (Z.of_nat a))%Q by ring. exact H2.
Qed.
Lemma ratio_one (e a : nat) : 0 < a ->
  (1 - inject_Z (Z.of_nat e) / inject_Z (Z.of_nat a) == 1)%Q <-> e = 0.
Proof.
  intros Hpos.
  assert (Ha : (~ inject_Z (Z.of_nat a) == 0)%Q).
  { change 0%Q with (inject_Z 0). rewrite inject_Z_injective. lia. }
  split.
  - intros H. assert (H1 : (inject_Z (Z.of_nat e) / inject_Z (Z.of_nat a) == 0)%Q).
    { setoid_replace (inject_Z (Z.of_nat e) / inject_Z (Z.of_nat a))%Q
        with (1 - (1 - inject_Z (Z.of_nat e) / inject_Z (Z.of_nat a)))%Q by ring. rewrite H. reflexivity. }
    assert (H2 : (inject_Z (Z.of_nat e) == 0)%Q).
    { rewrite <- (Qmult_div_r (inject_Z (Z.of_nat e)) (inject_Z (Z.of_nat a)) Ha). rewrite H1. ring. }
    change 0%Q with (inject_Z 0) in H2. rewrite inject_Z_injective in H2. lia.
  - intros ->. cbn. unfold Qdiv. rewrite Qmult_0_l. reflexivity.
Qed.

Lemma over_prefixes_le F G log : (forall w, F w <= G w) -> over_prefixes F log <= over_prefixes G log.
Proof.
  intros H. unfold over_prefixes. apply lsum_map_le. intros tr _. apply lsum_map_le. intros i _. apply H.
Qed.
Lemma et_range A log : (0 <= et_precision A log /\ et_precision A log <= 1)%Q.
Proof.
  unfold et_precision. destruct (Nat.eqb_spec (over_prefixes (fun w => length (A w)) log) 0) as [E|E].
  - split; unfold Qle; cbn; lia.
  - apply ratio_range; [|lia]. apply over_prefixes_le. intros w. apply filter_len.
Qed.

Lemma over_zero F log : over_prefixes F log = 0 <->
  forall tr i, In tr log -> (i = 0 \/ i < length tr) -> F (firstn i tr) = 0.
Proof.
  unfold over_prefixes. rewrite lsum_zero. split.
  - intros H tr i Htr Hi. specialize (H tr Htr). rewrite lsum_zero in H. apply H.
    cbn [In]. rewrite in_seq. lia.
  - intros H tr Htr. apply lsum_zero. intros i Hi. apply H; [exact Htr|]. cbn [In] in Hi. rewrite in_seq in Hi. lia.
Qed.
Lemma filter_nil_iff {A} (f : A -> bool) l : length (List.filter f l) = 0 <-> forall x, In x l -> f x = false.
Proof.
  induction l as [|x l IH]; cbn; [split; [intros _ x []|reflexivity]|]. destruct (f x) eqn:E; cbn.
  - split; [lia|]. intros H. rewrite (H x (or_introl eq_refl)) in E. discriminate.
  - rewrite IH. split; [intros H y [<-|Hy]; auto|intros H y Hy; apply H; right; exact Hy].
Qed.

(** a position of the log is a prefix that some case passes through *)
Definition position (log : list (list nat)) (w : list nat) : Prop :=
  exists tr i, In tr log /\ (i = 0 \/ i < length tr) /\ w = firstn i tr.

Lemma et_one A log : (et_precision A log == 1)%Q <->
  forall w a, position log w -> In a (A w) -> log_has_prefix log (w ++ [a]).
Proof.
  assert (G : over_prefixes (fun w => length (not_in_log log w (A w))) log = 0 <->
              forall w a, position log w -> In a (A w) -> log_has_prefix log (w ++ [a])).
  { rewrite over_zero. split.
    - intros H w a (tr & i & Htr & Hi & ->) Ha. specialize (H tr i Htr Hi). unfold not_in_log in H.
      rewrite filter_nil_iff in H. specialize (H a Ha). apply negb_false_iff, continues_spec in H as [rest H].
      exists rest. rewrite <- app_assoc. exact H.
    - intros H tr i Htr Hi. apply filter_nil_iff. intros a Ha. apply negb_false_iff, continues_spec.
      destruct (H (firstn i tr) a) as [rest Hr]; [exists tr, i; auto|exact Ha|].
      rewrite <- app_assoc in Hr. exists rest. exact Hr. }
  rewrite <- G. unfold et_precision.
  destruct (Nat.eqb_spec (over_prefixes (fun w => length (A w)) log) 0) as [E|E].
  - split; [|reflexivity]. intros _.
    pose proof (over_prefixes_le (fun w => length (not_in_log log w (A w))) (fun w => length (A w)) log) as H.
    cbv beta in H. specialize (H (fun w => filter_len _ _)). lia.
  - apply ratio_one. lia.
Qed.

Lemma not_in_log_perm log log' w ls : Permutation log log' -> not_in_log log w ls = not_in_log log' w ls.
Proof.
  intros HP. unfold not_in_log. apply filter_ext. intros a. f_equal. apply bool_iff. rewrite !continues_spec.
  split; intros [r H]; exists r; eapply Permutation_in; try exact H; [exact HP|symmetry; exact HP].
Qed.
Lemma over_perm F log log' : Permutation log log' -> over_prefixes F log = over_prefixes F log'.
Proof.
  intros HP. unfold over_prefixes. generalize (fun tr : list nat => list_sum (map (fun i => F (firstn i tr)) (0 :: seq 1 (length tr - 1)))).
  intros G. induction HP as [|x l l' _ IH|x y l|l1 l2 l3 _ IH1 _ IH2]; cbn [map]; rewrite ?lsum_cons; lia.
Qed.
Lemma et_perm A log log' : Permutation log log' -> et_precision A log = et_precision A log'.
Proof.
  intros HP. unfold et_precision. rewrite !(over_perm _ _ _ HP).
  replace (over_prefixes (fun w => length (not_in_log log w (A w))) log')
    with (over_prefixes (fun w => length (not_in_log log' w (A w))) log'); [reflexivity|].
  unfold over_prefixes. apply lsum_map_ext. intros tr _. apply lsum_map_ext. intros i _.
  rewrite (not_in_log_perm log log' _ _ HP). reflexivity.
Qed.

(** ---- the labels of the model ---- *)
Lemma labels_of_in ts a : In a (labels_of ts) <-> exists t, In t ts /\ t_label t = Some a.
Proof.
  unfold labels_of. rewrite dedup_in, in_flat_map. split; intros (t & Ht & H); exists t; (split; [exact Ht|]).
  - destruct (t_label t) as [b|]; [destruct H as [->|[]]; reflexivity|destruct H].
  - rewrite H. left. reflexivity.
Qed.
Lemma union_labels_in fuel pn ms ls : union_labels fuel pn ms = Some ls ->
  NoDup ls /\ (forall m, In m ms -> exists ts, visible_eventually_enabled fuel pn m = Some ts) /\
  forall a, In a ls <-> exists m ts t, In m ms /\ visible_eventually_enabled fuel pn m = Some ts /\ In t ts /\ t_label t = Some a.
Proof.
  revert ls. induction ms as [|m ms IH]; intros ls; cbn [union_labels].
  - intros [= <-]. split; [constructor|]. split; [intros m []|]. intros a. split; [intros []|]. intros (m & ts & t & [] & _).
  - destruct (visible_eventually_enabled fuel pn m) as [ts|] eqn:E; [|discriminate].
    destruct (union_labels fuel pn ms) as [ls'|] eqn:E2; [|discriminate]. intros [= <-].
    destruct (IH _ eq_refl) as (_ & I1 & I2). split; [apply dedup_nodup|]. split.
    + intros m' [<-|H]; [eauto|apply I1, H].
    + intros a. rewrite dedup_in, in_app_iff, labels_of_in, I2. split.
      * intros [(t & Ht & El)|(m' & ts' & t & H1 & H2 & H3)].
        -- exists m, ts, t. split; [left; reflexivity|auto].
        -- exists m', ts', t. split; [right; exact H1|auto].
      * intros (m' & ts' & t & [<-|H1] & H2 & H3 & H4).
        -- left. exists t. split; [congruence|exact H4].
        -- right. exists m', ts', t. auto.
Qed.

(** ---- strings ---- *)
Lemma split_no_sep sep x r : ~ In sep x -> split_sep sep (x ++ sep :: r) = x :: split_sep sep r.
Proof.
  induction x as [|c x IH]; intros H; cbn [app split_sep].
  - rewrite Nat.eqb_refl. reflexivity.
  - destruct (Nat.eqb_spec c sep) as [->|Hne]; [exfalso; apply H; left; reflexivity|].
    rewrite IH; [reflexivity|]. intros Hi. apply H. right. exact Hi.
Qed.
Lemma split_one sep x : ~ In sep x -> split_sep sep x = [x].
Proof.
  induction x as [|c x IH]; intros H; cbn [split_sep]; [reflexivity|].
  destruct (Nat.eqb_spec c sep) as [->|Hne]; [exfalso; apply H; left; reflexivity|].
  rewrite IH; [reflexivity|]. intros Hi. apply H. right. exact Hi.
Qed.
Lemma split_join sep l : l <> [] -> (forall x, In x l -> ~ In sep x) -> split_sep sep (join_sep sep l) = l.
Proof.
  induction l as [|x l IH]; intros Hne H; [congruence|]. destruct l as [|y l].
  - cbn [join_sep]. apply split_one, H. left. reflexivity.
  - change (join_sep sep (x :: y :: l)) with (x ++ sep :: join_sep sep (y :: l)).
    rewrite split_no_sep by (apply H; left; reflexivity). f_equal. apply IH; [discriminate|].
    intros z Hz. apply H. right. exact Hz.
Qed.
