From Coq Require Import List Arith Bool ZArith QArith Lia Permutation.
Import ListNotations.
From Verif Require Import Model_Dict Proofs_Dict Model_Dfg Spec_Dfg Proofs_Dfg Model_Lev Proofs_Lev Model_Skel Spec_Skel.
Local Open Scope nat_scope.
Local Arguments keqb {K Key} : simpl never.
Local Arguments Nat.ltb : simpl never.

(** Counters with distinct keys and positive values *)
Definition pos_counter {K} {EK : Key K} (c : @counter K) := NoDup (d_keys c) /\ forall k n, In (k, n) c -> 0 < n.
Section Cnt.
  Context {K : Type} {EK : Key K}.
  Implicit Types c d : @counter K.
  Lemma keys_filter (p : K * nat -> bool) c : NoDup (d_keys c) -> NoDup (d_keys (filter p c)).
  Proof.
    unfold d_keys. induction c as [|[k n] c IH]; cbn; intros H; auto. inversion H as [|? ? H1 H2]; subst.
    destruct (p (k, n)); cbn; auto. constructor; auto. intros G. apply H1. apply in_map_iff in G. destruct G as (x & E & G).
    apply in_map_iff. exists x. split; auto. apply filter_In in G. tauto.
  Qed.
  Lemma keep_get c k : NoDup (d_keys c) -> c_get (c_keep_positive c) k = c_get c k.
  Proof.
    unfold c_keep_positive, c_get. induction c as [|[k' n] c IH]; intros H; auto. inversion H as [|? ? H1 H2]; subst. specialize (IH H2).
    cbn [filter snd d_get]. destruct n as [|n].
    - change (Nat.ltb 0 0) with false. cbn iota. rewrite IH. destruct (keqb_spec k' k) as [->|]; auto.
      destruct (d_get c k) eqn:E; auto. exfalso. apply H1. apply d_get_keys. congruence.
    - change (Nat.ltb 0 (S n)) with true. cbn [d_get]. destruct (keqb k' k); auto.
  Qed.
  Lemma keep_pos c : NoDup (d_keys c) -> pos_counter (c_keep_positive c).
  Proof.
    intros H. split; [apply keys_filter; auto|]. intros k n G. apply filter_In in G. destruct G as [_ G]. cbn in G. apply Nat.ltb_lt in G. auto.
  Qed.
  Lemma fold_add_nodup d c : NoDup (d_keys c) -> NoDup (d_keys (fold_left (fun c kn => c_add c (fst kn) (snd kn)) d c)).
  Proof. revert c. induction d as [|x d IH]; intros c H; cbn; auto. apply IH. apply d_nodup_set. auto. Qed.
  Lemma fold_add_get d c k : NoDup (d_keys d) -> c_get (fold_left (fun c kn => c_add c (fst kn) (snd kn)) d c) k = c_get c k + c_get d k.
  Proof.
    revert c. induction d as [|[k' n] d IH]; intros c H; [unfold c_get; cbn; lia|]. inversion H as [|? ? H1 H2]; subst. cbn [fold_left fst snd].
    rewrite IH, c_get_add by auto. unfold c_get. cbn [d_get]. destruct (keqb_spec k' k) as [->|]; [|lia].
    assert (E : d_get d k = None) by (apply d_get_none; auto). rewrite E. lia.
  Qed.
  Lemma fold_sub_nodup d c : NoDup (d_keys c) -> NoDup (d_keys (fold_left (fun c kn => d_set c (fst kn) (c_get c (fst kn) - snd kn)) d c)).
  Proof. revert c. induction d as [|x d IH]; intros c H; cbn; auto. apply IH. apply d_nodup_set. auto. Qed.
  Lemma fold_sub_get d c k : NoDup (d_keys d) -> c_get (fold_left (fun c kn => d_set c (fst kn) (c_get c (fst kn) - snd kn)) d c) k = c_get c k - c_get d k.
  Proof.
    revert c. induction d as [|[k' n] d IH]; intros c H; [unfold c_get; cbn; lia|]. inversion H as [|? ? H1 H2]; subst. cbn [fold_left fst snd].
    rewrite IH by auto. unfold c_get. cbn [d_get]. rewrite d_get_set. destruct (keqb_spec k' k) as [->|]; [|lia].
    assert (E : d_get d k = None) by (apply d_get_none; auto). rewrite E. lia.
  Qed.
  Lemma scale_keys n c : d_keys (c_scale n c) = d_keys c.
  Proof. unfold d_keys, c_scale. rewrite map_map. apply map_ext. auto. Qed.
  Lemma scale_get n c k : c_get (c_scale n c) k = n * c_get c k.
  Proof. unfold c_scale, c_get. induction c as [|[k' m] c IH]; cbn; [lia|]. destruct (keqb k' k); auto. lia. Qed.
  Lemma iadd_spec c d : NoDup (d_keys c) -> NoDup (d_keys d) -> pos_counter (c_iadd c d) /\ forall k, c_get (c_iadd c d) k = c_get c k + c_get d k.
  Proof.
    intros H G. unfold c_iadd. split; [apply keep_pos, fold_add_nodup; auto|]. intros k. rewrite keep_get by (apply fold_add_nodup; auto). apply fold_add_get; auto.
  Qed.
  Lemma isub_spec c d : NoDup (d_keys c) -> NoDup (d_keys d) -> pos_counter (c_isub c d) /\ forall k, c_get (c_isub c d) k = c_get c k - c_get d k.
  Proof.
    intros H G. unfold c_isub. split; [apply keep_pos, fold_sub_nodup; auto|]. intros k. rewrite keep_get by (apply fold_sub_nodup; auto). apply fold_sub_get; auto.
  Qed.
  Lemma pos_in c k n : pos_counter c -> In (k, n) c <-> n = c_get c k /\ 0 < c_get c k.
  Proof.
    intros [H1 H2]. unfold c_get. split.
    - intros G. rewrite (d_in_get _ _ _ H1 G). split; auto. eapply H2; eauto.
    - destruct (d_get c k) eqn:E; [|lia]. intros [-> _]. apply d_get_in; auto.
  Qed.
End Cnt.

Lemma rel_fold (f : trace -> pairs) (v : @counter trace) :
  let R := fold_left (fun ret0 tn => c_iadd ret0 (c_scale (snd tn) (c_of (f (fst tn))))) v [] in
  pos_counter R /\ forall k, c_get R k = list_sum (map (fun tn => snd tn * occ k (f (fst tn))) v).
Proof.
  induction v as [|[t n] v IH] using rev_ind; cbn zeta; [split; [split; [constructor|intros k n []]|auto]|].
  rewrite fold_left_app. cbn [fold_left fst snd]. destruct IH as [IH1 IH2].
  edestruct (iadd_spec (fold_left (fun ret0 tn => c_iadd ret0 (c_scale (snd tn) (c_of (f (fst tn))))) v []) (c_scale n (c_of (f t)))) as [H1 H2].
  - apply IH1.
  - rewrite scale_keys. apply c_of_nodup.
  - split; auto. intros k. rewrite H2, IH2, scale_get, c_get_of, map_app, list_sum_app. cbn. lia.
Qed.
Lemma select_in noise all R x y : pos_counter R ->
  In (x, y) (select noise all R) <-> 0 < c_get R (x, y) /\ enough noise (c_get all x) (c_get R (x, y)) = true.
Proof.
  intros H. unfold select. rewrite in_map_iff. split.
  - intros ([k n] & E & G). cbn in E. subst k. apply filter_In in G. destruct G as [G1 G2]. cbn in G2. apply (pos_in _ _ _ H) in G1. destruct G1 as [-> G1]. auto.
  - intros [G1 G2]. exists ((x, y), c_get R (x, y)). split; auto. apply filter_In. split; auto. apply (pos_in _ _ _ H). auto.
Qed.
Lemma discover_rel_in f l noise x y :
  In (x, y) (discover_rel f (c_of l) (c_of (concat l)) noise) <->
  0 < list_sum (map (fun t : trace => occ (x, y) (f t)) l) /\ enough noise (occ x (concat l)) (list_sum (map (fun t : trace => occ (x, y) (f t)) l)) = true.
Proof.
  unfold discover_rel. destruct (rel_fold f (c_of l)) as [H1 H2]. rewrite select_in by auto. rewrite H2, c_get_of.
  change (c_of l) with (get_variants l). rewrite (variants_sum (fun t => occ (x, y) (f t)) l). tauto.
Qed.
Lemma qnat_le a b : Qle_bool (qnat a) (qnat b) = true <-> a <= b.
Proof. unfold qnat. rewrite Qle_bool_iff, <- Zle_Qle. lia. Qed.
Lemma enough_0 total y : enough 0 total y = true <-> total <= y.
Proof.
  unfold enough. rewrite Qle_bool_iff. assert (E : (qnat total * (1 - 0) == qnat total)%Q) by ring. rewrite E. unfold qnat. rewrite <- Zle_Qle. lia.
Qed.

(** never_together *)
Lemma never_fold (v : @counter trace) R0 : pos_counter R0 ->
  let R := fold_left (fun ret0 tn => c_isub ret0 (c_scale (snd tn) (c_of (t_combos (fst tn))))) v R0 in
  pos_counter R /\ forall k, c_get R k = c_get R0 k - list_sum (map (fun tn => snd tn * occ k (t_combos (fst tn))) v).
Proof.
  intros H0. induction v as [|[t n] v IH] using rev_ind; cbn zeta; [split; auto; intros k; cbn [fold_left map]; change (list_sum []) with 0; lia|].
  rewrite fold_left_app. cbn [fold_left fst snd]. destruct IH as [IH1 IH2].
  edestruct (isub_spec (fold_left (fun ret0 tn => c_isub ret0 (c_scale (snd tn) (c_of (t_combos (fst tn))))) v R0) (c_scale n (c_of (t_combos t)))) as [H1 H2].
  - apply IH1.
  - rewrite scale_keys. apply c_of_nodup.
  - split; auto. intros k. rewrite H2, IH2, scale_get, c_get_of, map_app, list_sum_app. cbn [map fst snd]. change (list_sum [n * occ k (t_combos t)]) with (n * occ k (t_combos t) + 0). lia.
Qed.
Lemma fold_set_get {K V} {EK : Key K} (g : K -> V) l (c : dict K V) k :
  d_get (fold_left (fun c k => d_set c k (g k)) l c) k = if existsb (fun y => keqb y k) l then Some (g k) else d_get c k.
Proof.
  revert c. induction l as [|x l IH]; intros c; cbn; auto. rewrite IH, d_get_set. destruct (existsb _ l); [rewrite orb_true_r; auto|].
  rewrite orb_false_r. destruct (keqb_spec x k) as [->|]; auto.
Qed.
Lemma fold_set_nodup {K V} {EK : Key K} (g : K -> V) l (c : dict K V) : NoDup (d_keys c) -> NoDup (d_keys (fold_left (fun c k => d_set c k (g k)) l c)).
Proof. revert c. induction l as [|x l IH]; intros c H; cbn; auto. apply IH, d_nodup_set; auto. Qed.
Lemma combos_in all x y : In (x, y) (all_combos all) <-> x <> y /\ In x (d_keys all) /\ In y (d_keys all).
Proof.
  unfold all_combos. rewrite in_concat. split.
  - intros (s & H1 & H2). apply in_map_iff in H1. destruct H1 as (x' & <- & Hx). apply in_concat in H2. destruct H2 as (s & H1 & H2).
    apply in_map_iff in H1. destruct H1 as (y' & <- & Hy). destruct (Nat.eqb_spec x' y'); cbn in H2; [tauto|]. destruct H2 as [[= -> ->]|[]]. auto.
  - intros (Hn & Hx & Hy). eexists. split; [apply in_map_iff; exists x; eauto|]. apply in_concat. eexists. split; [apply in_map_iff; exists y; eauto|].
    destruct (Nat.eqb_spec x y); cbn; auto.
Qed.
Lemma t_combos_in t x y : In (x, y) (t_combos t) <-> x <> y /\ In x t /\ In y t.
Proof.
  unfold t_combos. rewrite dedup_in, in_concat. split.
  - intros (s & H1 & H2). apply in_map_iff in H1. destruct H1 as (x' & <- & Hx). apply in_concat in H2. destruct H2 as (s & H1 & H2).
    apply in_map_iff in H1. destruct H1 as (y' & <- & Hy). destruct (Nat.eqb_spec x' y'); cbn in H2; [tauto|]. destruct H2 as [[= -> ->]|[]]. auto.
  - intros (Hn & Hx & Hy). eexists. split; [apply in_map_iff; exists x; eauto|]. apply in_concat. eexists. split; [apply in_map_iff; exists y; eauto|].
    destruct (Nat.eqb_spec x y); cbn; auto.
Qed.
Lemma never_in l noise x y :
  In (x, y) (never_together (c_of l) (c_of (concat l)) noise) <->
  x <> y /\ In x (concat l) /\ In y (concat l) /\
  let n := occ x (concat l) - list_sum (map (fun t : trace => occ (x, y) (t_combos t)) l) in 0 < n /\ enough noise (occ x (concat l)) n = true.
Proof.
  unfold never_together. set (all := c_of (concat l)).
  set (R0 := fold_left (fun c k => d_set c k (c_get all (fst k))) (all_combos all) []).
  assert (N0 : NoDup (d_keys R0)) by (apply (fold_set_nodup (fun k : nat * nat => c_get all (fst k))); constructor).
  assert (G0 : forall k, d_get R0 k = if existsb (fun y => keqb y k) (all_combos all) then Some (c_get all (fst k)) else None).
  { intros k. unfold R0. rewrite (fold_set_get (fun k : nat * nat => c_get all (fst k))). reflexivity. }
  assert (P0 : pos_counter R0).
  { split; auto. intros k n G. apply (d_in_get _ _ _ N0) in G. rewrite G0 in G. destruct (existsb _ _) eqn:E; [|discriminate].
    apply existsb_keqb in E. destruct k as [a b]. apply combos_in in E. destruct E as (_ & E & _). apply (proj1 (c_of_keys _ _)) in E.
    inversion G. cbn. unfold all. rewrite c_get_of. apply occ_pos in E. lia. }
  destruct (never_fold (c_of l) R0 P0) as [H1 H2]. rewrite select_in by auto. rewrite H2.
  change (c_of l) with (get_variants l). rewrite (variants_sum (fun t => occ (x, y) (t_combos t)) l).
  assert (G0' : c_get R0 (x, y) = if existsb (fun z => keqb z (x, y)) (all_combos all) then occ x (concat l) else 0).
  { unfold c_get. rewrite G0. destruct (existsb _ _); auto. cbn [fst]. unfold all. apply c_get_of. }
  rewrite G0'. cbn zeta. replace (c_get all x) with (occ x (concat l)) by (unfold all; rewrite c_get_of; auto).
  destruct (existsb _ _) eqn:E.
  - apply existsb_keqb, combos_in in E. unfold all in E. destruct E as (E1 & E2 & E3). apply (proj1 (c_of_keys _ _)) in E2, E3. cbn [fst]. tauto.
  - assert (E' : ~ In (x, y) (all_combos all)) by (rewrite <- existsb_keqb; congruence). rewrite combos_in in E'. unfold all in E'. rewrite !c_of_keys in E'.
    split; [intros [G _]; cbn in G; lia|]. intros (G1 & G2 & G3 & _). tauto.
Qed.

(** Counts per trace *)
Lemma occ_count a t : occ a t = count_occ Nat.eq_dec t a.
Proof.
  induction t as [|x t IH]; auto. rewrite occ_cons, IH. cbn. change (keqb x a) with (Nat.eqb x a). destruct (Nat.eq_dec x a) as [->|H].
  - rewrite Nat.eqb_refl. auto.
  - apply Nat.eqb_neq in H. rewrite H. auto.
Qed.
Lemma sum_single {A} {EK : Key A} (x : A) (g : A -> nat) l : NoDup l -> (forall y, y <> x -> g y = 0) ->
  list_sum (map g l) = if existsb (fun y => keqb y x) l then g x else 0.
Proof.
  intros Hn Hg. induction l as [|z l IH]; auto. inversion Hn as [|? ? H1 H2]; subst. specialize (IH H2). cbn. unfold list_sum in *. cbn. rewrite IH.
  destruct (keqb_spec z x) as [->|H]; cbn.
  - destruct (existsb _ l) eqn:E; [|lia]. apply existsb_keqb in E. tauto.
  - rewrite (Hg z H). auto.
Qed.
Lemma occ_repeat {A} {EK : Key A} (k k' : A) n : occ k (repeat k' n) = if keqb k' k then n else 0.
Proof. induction n as [|n IH]; [destruct (keqb k' k); reflexivity|]. cbn [repeat]. rewrite occ_cons, IH. destruct (keqb k' k); lia. Qed.
Lemma occ_equivalence x y t : occ (x, y) (t_equivalence t) = if negb (Nat.eqb x y) && Nat.eqb (occ x t) (occ y t) then occ x t else 0.
Proof.
  unfold t_equivalence, t_freq. set (f := c_of t). assert (N : NoDup (d_keys f)) by apply c_of_nodup.
  rewrite occ_concat, map_map. rewrite (sum_single x) by
   (auto; intros x' Hx; rewrite occ_concat, map_map; apply list_sum_zero; intros y' _;
    destruct (negb _ && _); auto; rewrite occ_repeat, keqb_neq by congruence; auto).
  rewrite occ_concat, map_map. rewrite (sum_single y) by
   (auto; intros y' Hy; destruct (negb _ && _); auto; rewrite occ_repeat, keqb_neq by congruence; auto).
  unfold f. rewrite !c_get_of.
  destruct (existsb (fun y0 => keqb y0 x) _) eqn:Ex.
  - destruct (existsb (fun y0 => keqb y0 y) _) eqn:Ey.
    + destruct (negb _ && _); auto. rewrite occ_repeat, keqb_refl. auto.
    + assert (Hy : ~ In y t) by (rewrite <- (c_of_keys t), <- existsb_keqb; congruence). rewrite <- occ_pos in Hy.
      apply existsb_keqb, (proj1 (c_of_keys _ _)), occ_pos in Ex. destruct (Nat.eqb_spec (occ x t) (occ y t)); [lia|]. rewrite andb_false_r. auto.
  - assert (Hy : ~ In x t) by (rewrite <- (c_of_keys t), <- existsb_keqb; congruence). rewrite <- occ_pos in Hy. destruct (negb _ && _); auto. lia.
Qed.
Lemma t_df_adj t : t_df t = adj t. Proof. apply consecutive_adj. Qed.
Lemma occ_df_le x y t : occ (x, y) (adj t) <= occ x t.
Proof.
  induction t as [|a t IH]; auto. destruct t as [|b t]; [cbn; lia|]. change (adj (a :: b :: t)) with ((a, b) :: adj (b :: t)). rewrite (occ_cons (x, y)), (occ_cons x a).
  change (keqb (a, b) (x, y)) with (Nat.eqb a x && Nat.eqb b y). change (keqb a x) with (Nat.eqb a x).
  destruct (Nat.eqb a x), (Nat.eqb b y); cbn [andb]; lia.
Qed.
Lemma occ_df_eq x y t : occ (x, y) (adj t) = occ x t <-> forall i, nth_error t i = Some x -> nth_error t (S i) = Some y.
Proof.
  induction t as [|a t IH]; [split; auto; intros _ [|i]; discriminate|]. destruct t as [|b t].
  - cbn [adj]. rewrite occ_cons. change (occ (x, y) []) with 0. change (occ x []) with 0. change (keqb a x) with (Nat.eqb a x).
    destruct (Nat.eqb_spec a x) as [->|H]; cbn; split; auto; try lia.
    + intros G. specialize (G 0 eq_refl). discriminate.
    + intros _ [|[|i]] G; cbn in G; try discriminate. congruence.
  - change (adj (a :: b :: t)) with ((a, b) :: adj (b :: t)). rewrite (occ_cons (x, y)), (occ_cons x a). pose proof (occ_df_le x y (b :: t)).
    change (keqb (a, b) (x, y)) with (Nat.eqb a x && Nat.eqb b y). change (keqb a x) with (Nat.eqb a x).
    destruct (Nat.eqb_spec a x) as [->|H1].
    + destruct (Nat.eqb_spec b y) as [->|H2]; cbn [andb].
      * split.
        -- intros G [|i] Gi; cbn; auto. apply (proj1 IH); [lia|auto].
        -- intros G. f_equal. apply IH. intros i Gi. apply (G (S i) Gi).
      * split; [lia|]. intros G. specialize (G 0 eq_refl). cbn in G. congruence.
    + cbn [andb]. rewrite !Nat.add_0_l, IH. split.
      * intros G [|i] Gi; [cbn in Gi; congruence|]. apply (G i Gi).
      * intros G i Gi. apply (G (S i) Gi).
Qed.
Lemma nth_seq_map (t : trace) : map (fun i => nth i t 0) (seq 0 (length t)) = t.
Proof.
  induction t as [|a t IH]; auto. cbn [length seq map]. cbn [nth]. f_equal. rewrite <- seq_shift, map_map. apply IH.
Qed.
Lemma occ_seq x t : occ x t = list_sum (map (fun i => if Nat.eqb (nth i t 0) x then 1 else 0) (seq 0 (length t))).
Proof.
  rewrite <- (nth_seq_map t) at 1. generalize (seq 0 (length t)). intros l. induction l as [|i l IH]; auto. cbn [map]. rewrite occ_cons, IH.
  unfold list_sum. cbn. change (keqb (nth i t 0) x) with (Nat.eqb (nth i t 0) x). auto.
Qed.
Lemma occ_rel cmp x y t : occ (x, y) (t_rel cmp t) = list_sum (map (fun i => if Nat.eqb (nth i t 0) x then
   list_sum (map (fun j => if cmp i j && Nat.eqb (nth j t 0) y then 1 else 0) (seq 0 (length t))) else 0) (seq 0 (length t))).
Proof.
  unfold t_rel. rewrite occ_concat, map_map. f_equal. apply map_ext. intros i. rewrite occ_concat, map_map.
  generalize (seq 0 (length t)). intros l. induction l as [|j l IH]; [destruct (Nat.eqb _ _); auto|]. cbn [map]. unfold list_sum in *. cbn [fold_right].
  rewrite IH. destruct (cmp i j); cbn [andb]; [|change (occ (x, y) []) with 0; destruct (Nat.eqb _ _); auto]. rewrite occ_cons. change (keqb (nth i t 0, nth j t 0) (x, y)) with (Nat.eqb (nth i t 0) x && Nat.eqb (nth j t 0) y).
  change (occ (x, y) []) with 0. destruct (Nat.eqb (nth i t 0) x); cbn [andb]; [|auto]. destruct (Nat.eqb (nth j t 0) y); lia.
Qed.
Lemma sum_le {A} (f g : A -> nat) l : (forall x, In x l -> f x <= g x) -> list_sum (map f l) <= list_sum (map g l).
Proof. unfold list_sum. induction l as [|x l IH]; cbn; intros H; auto. pose proof (H x (or_introl eq_refl)). assert (forall y, In y l -> f y <= g y) by auto. specialize (IH H1). lia. Qed.
Lemma sum_le_eq {A} (f g : A -> nat) l : (forall x, In x l -> f x <= g x) -> list_sum (map g l) <= list_sum (map f l) -> forall x, In x l -> f x = g x.
Proof.
  induction l as [|x l IH]; [intros _ _ x []|]. intros H1 H2. unfold list_sum in *. cbn in H2. pose proof (H1 x (or_introl eq_refl)).
  assert (H3 : forall y, In y l -> f y <= g y) by (intros; apply H1; right; auto). pose proof (sum_le f g l H3) as H4. unfold list_sum in H4.
  intros y [->|Hy]; [lia|]. apply IH; auto. lia.
Qed.
Lemma sum_pos {A} (f : A -> nat) l : 0 < list_sum (map f l) <-> exists x, In x l /\ 0 < f x.
Proof.
  unfold list_sum. induction l as [|x l IH]; cbn; [split; [lia|intros (x & [] & _)]|]. split.
  - intros H. destruct (f x) eqn:E; [|exists x; split; auto; lia]. destruct (proj1 IH) as (y & Hy & G); [lia|]. exists y. auto.
  - intros (y & [->|Hy] & G); [lia|]. assert (0 < fold_right Nat.add 0 (map f l)) by (apply IH; eauto). lia.
Qed.
Lemma in_nth (t : trace) i x : nth_error t i = Some x <-> i < length t /\ nth i t 0 = x.
Proof.
  split.
  - intros H. assert (L : i < length t) by (apply nth_error_Some; congruence). split; auto. apply nth_error_nth; auto.
  - intros [L <-]. apply nth_error_nth'; auto.
Qed.
Lemma rel_in cmp x y t : In (x, y) (t_rel cmp t) <-> exists i j, cmp i j = true /\ nth_error t i = Some x /\ nth_error t j = Some y.
Proof.
  rewrite <- occ_pos, occ_rel. split.
  - intros H. apply sum_pos in H. destruct H as (i & Hi & G). destruct (Nat.eqb_spec (nth i t 0) x); [|lia]. apply sum_pos in G. destruct G as (j & Hj & G).
    exists i, j. rewrite in_seq in Hi, Hj. destruct (cmp i j); cbn in G; [|lia]. destruct (Nat.eqb_spec (nth j t 0) y); [|lia]. rewrite !in_nth. repeat split; auto; lia.
  - intros (i & j & Hc & H1 & H2). apply in_nth in H1, H2. apply sum_pos. exists i. rewrite in_seq. split; [lia|]. destruct H1 as [L1 ->], H2 as [L2 E2]. rewrite Nat.eqb_refl.
    apply sum_pos. exists j. rewrite in_seq, Hc, E2, Nat.eqb_refl. cbn. lia.
Qed.
Lemma occ_rel_ge cmp x y t : (forall i, nth_error t i = Some x -> exists j, cmp i j = true /\ nth_error t j = Some y) -> occ x t <= occ (x, y) (t_rel cmp t).
Proof.
  intros H. rewrite occ_seq, occ_rel. apply sum_le. intros i Hi. apply in_seq in Hi. destruct (Nat.eqb_spec (nth i t 0) x) as [E|]; auto.
  destruct (H i) as (j & Hc & Hj); [apply in_nth; lia|]. apply in_nth in Hj. destruct Hj as [Lj Ej]. apply sum_pos. exists j. rewrite in_seq, Hc, Ej, Nat.eqb_refl. cbn. lia.
Qed.
Lemma nodup_occ x t : NoDup t -> occ x t <= 1.
Proof. intros H. rewrite occ_count. apply (proj1 (NoDup_count_occ Nat.eq_dec t)). auto. Qed.
Lemma rel_term_le (cmp : nat -> nat -> bool) i y t : NoDup t -> list_sum (map (fun j => if cmp i j && Nat.eqb (nth j t 0) y then 1 else 0) (seq 0 (length t))) <= 1.
Proof.
  intros H. etransitivity; [|apply (nodup_occ y t H)]. rewrite occ_seq. apply sum_le. intros j _. destruct (cmp i j), (Nat.eqb (nth j t 0) y); cbn; auto.
Qed.
Lemma occ_rel_le cmp x y t : NoDup t -> occ (x, y) (t_rel cmp t) <= occ x t.
Proof.
  intros H. rewrite occ_seq, occ_rel. apply sum_le. intros i _. destruct (Nat.eqb _ _); auto. apply rel_term_le; auto.
Qed.
Lemma occ_rel_eq cmp x y t : NoDup t -> occ (x, y) (t_rel cmp t) = occ x t ->
  forall i, nth_error t i = Some x -> exists j, cmp i j = true /\ nth_error t j = Some y.
Proof.
  intros H E i Hi. apply in_nth in Hi. destruct Hi as [Li Ei].
  rewrite occ_seq, occ_rel in E.
  pose proof (sum_le_eq (fun i => if Nat.eqb (nth i t 0) x then list_sum (map (fun j => if cmp i j && Nat.eqb (nth j t 0) y then 1 else 0) (seq 0 (length t))) else 0)
                        (fun i => if Nat.eqb (nth i t 0) x then 1 else 0) (seq 0 (length t))) as G.
  assert (G1 : forall i, In i (seq 0 (length t)) -> (if Nat.eqb (nth i t 0) x then list_sum (map (fun j => if cmp i j && Nat.eqb (nth j t 0) y then 1 else 0) (seq 0 (length t))) else 0) <= (if Nat.eqb (nth i t 0) x then 1 else 0)).
  { intros i' _. destruct (Nat.eqb _ _); auto. apply rel_term_le; auto. }
  specialize (G G1). rewrite E in G. specialize (G (le_n _) i). rewrite in_seq in G. specialize (G ltac:(lia)). rewrite Ei, Nat.eqb_refl in G.
  assert (P : 0 < list_sum (map (fun j => if cmp i j && Nat.eqb (nth j t 0) y then 1 else 0) (seq 0 (length t)))) by lia.
  apply sum_pos in P. destruct P as (j & Hj & P). apply in_seq in Hj. exists j. destruct (cmp i j); cbn in P; [|lia]. destruct (Nat.eqb_spec (nth j t 0) y); [|lia].
  split; auto. apply in_nth. lia.
Qed.
Lemma in_occurs l a : In a (concat l) <-> occurs l a.
Proof. rewrite in_concat. unfold occurs. firstorder. Qed.
Lemma occ_0 {A} {EK : Key A} (k : A) l : ~ In k l -> occ k l = 0.
Proof. rewrite <- occ_pos. lia. Qed.

(** Discovery at noise 0 *)
Lemma exact_rel (f : trace -> pairs) (P : trace -> Prop) l x y :
  (forall t, In t l -> occ (x, y) (f t) <= occ x t) -> (forall t, In t l -> occ (x, y) (f t) = occ x t <-> P t) ->
  In (x, y) (discover_rel f (c_of l) (c_of (concat l)) 0) <-> occurs l x /\ forall t, In t l -> P t.
Proof.
  intros H1 H2. rewrite discover_rel_in, enough_0, occ_concat. split.
  - intros [G1 G2].
    pose proof (sum_le_eq (fun t : trace => occ (x, y) (f t)) (occ x) l H1 G2) as E. split.
    + apply sum_pos in G1. destruct G1 as (t & Ht & G). exists t. split; auto. apply occ_pos. rewrite <- E by auto. auto.
    + intros t Ht. apply H2; auto.
  - intros [G1 G2]. assert (E : list_sum (map (fun t : trace => occ (x, y) (f t)) l) = list_sum (map (occ x) l)).
    { f_equal. apply map_ext_in. intros t Ht. apply H2; auto. }
    rewrite E. split; auto. rewrite <- occ_concat. apply occ_pos, in_occurs; auto.
Qed.
Theorem equivalence_spec l x y : In (x, y) (discover_rel t_equivalence (c_of l) (c_of (concat l)) 0) <-> equivalent l x y.
Proof.
  destruct (Nat.eq_dec x y) as [->|Hn].
  - split; [|intros [H _]; congruence]. rewrite discover_rel_in. intros [H _]. apply sum_pos in H. destruct H as (t & _ & H). rewrite occ_equivalence, Nat.eqb_refl in H. cbn in H. lia.
  - rewrite (exact_rel _ (fun t => In x t -> count_occ Nat.eq_dec t x = count_occ Nat.eq_dec t y)).
    + unfold equivalent. tauto.
    + intros t _. rewrite occ_equivalence. destruct (_ && _); lia.
    + intros t _. rewrite occ_equivalence. assert (E : Nat.eqb x y = false) by (apply Nat.eqb_neq; auto). rewrite E. cbn. rewrite <- !occ_count.
      destruct (Nat.eqb_spec (occ x t) (occ y t)) as [E1|E1]; [tauto|]. rewrite <- occ_pos. lia.
Qed.
Theorem df_spec l x y : In (x, y) (discover_rel t_df (c_of l) (c_of (concat l)) 0) <-> always_next l x y.
Proof.
  rewrite (exact_rel _ (fun t => forall i, nth_error t i = Some x -> nth_error t (S i) = Some y)).
  - unfold always_next. firstorder.
  - intros t _. rewrite t_df_adj. apply occ_df_le.
  - intros t _. rewrite t_df_adj. apply occ_df_eq.
Qed.
Theorem never_spec l x y : In (x, y) (never_together (c_of l) (c_of (concat l)) 0) <-> excludes l x y.
Proof.
  rewrite never_in. cbn zeta. rewrite enough_0, !in_occurs. unfold excludes. split.
  - intros (H1 & H2 & H3 & H4 & H5). repeat split; auto. intros t Ht [Hx Hy].
    assert (P : 0 < list_sum (map (fun t : trace => occ (x, y) (t_combos t)) l)) by (apply sum_pos; exists t; split; auto; apply occ_pos, t_combos_in; auto). lia.
  - intros (H1 & H2 & H3 & H4). repeat split; auto.
    + rewrite list_sum_zero; [apply in_occurs, occ_pos in H2; lia|]. intros t Ht. apply occ_0. rewrite t_combos_in. intros G. apply (H4 t Ht). tauto.
    + rewrite list_sum_zero; [lia|]. intros t Ht. apply occ_0. rewrite t_combos_in. intros G. apply (H4 t Ht). tauto.
Qed.
Lemma rel_sound cmp l x y : no_repetitions l -> In (x, y) (discover_rel (t_rel cmp) (c_of l) (c_of (concat l)) 0) ->
  occurs l x /\ forall t i, In t l -> nth_error t i = Some x -> exists j, cmp i j = true /\ nth_error t j = Some y.
Proof.
  intros H. rewrite discover_rel_in, enough_0, occ_concat. intros [G1 G2].
  assert (H1 : forall t, In t l -> occ (x, y) (t_rel cmp t) <= occ x t) by (intros t Ht; apply occ_rel_le; auto).
  pose proof (sum_le_eq (fun t : trace => occ (x, y) (t_rel cmp t)) (occ x) l H1 G2) as E. split.
  - apply sum_pos in G1. destruct G1 as (t & Ht & G). exists t. split; auto. apply occ_pos. rewrite <- E by auto. auto.
  - intros t i Ht. apply occ_rel_eq; auto.
Qed.
Lemma rel_complete cmp l x y : occurs l x -> (forall t i, In t l -> nth_error t i = Some x -> exists j, cmp i j = true /\ nth_error t j = Some y) ->
  In (x, y) (discover_rel (t_rel cmp) (c_of l) (c_of (concat l)) 0).
Proof.
  intros H1 H2. rewrite discover_rel_in, enough_0, occ_concat.
  assert (G : list_sum (map (occ x) l) <= list_sum (map (fun t : trace => occ (x, y) (t_rel cmp t)) l)).
  { apply sum_le. intros t Ht. apply occ_rel_ge. eauto. }
  split; auto. apply in_occurs, occ_pos in H1. rewrite occ_concat in H1. lia.
Qed.
Lemma rel_some cmp l noise x y : In (x, y) (discover_rel (t_rel cmp) (c_of l) (c_of (concat l)) noise) ->
  exists t i j, In t l /\ cmp i j = true /\ nth_error t i = Some x /\ nth_error t j = Some y.
Proof.
  rewrite discover_rel_in. intros [H _]. apply sum_pos in H. destruct H as (t & Ht & H). apply occ_pos, rel_in in H. destruct H as (i & j & H). eauto 10.
Qed.
