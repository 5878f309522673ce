(** Replay of a log, and the fitness evaluation. *)
From stdpp Require Import gmap.
From Coq Require Import ZArith QArith Lia Lqa.
From Verif Require Import Model_Petri Spec_Petri Proofs_Petri Model_Lev Proofs_Lev Model_Dict Proofs_Dict Model_Replay Spec_Replay Proofs_Replay1 Proofs_Replay2 Proofs_Replay3 Proofs_Replay4.
Local Open Scope Z_scope.

Section Core.
  Context (pn : petri_net (option nat)) (lim : limits).
  Context (tord aord : list ptrans -> list ptrans) (pord kord : list nat -> list nat).
  Context (paths : dict nat (dict nat (list ptrans))) (o1 o2 : Z).

  Definition sim (a b : rstate) : Prop :=
    s_mark a = s_mark b /\ s_act a = s_act b /\ s_prob a = s_prob b /\ s_missing a = s_missing b /\
    s_consumed a = s_consumed b /\ s_produced a = s_produced b.
  Lemma sim_mark a b : sim a b -> s_mark a = s_mark b. Proof. intros H; apply H. Qed.
  Lemma sim_count t a b : sim a b -> sim (count o1 t a) (count o2 t b).
  Proof. intros (A & B & C & D & E & F). unfold sim, count. cbn. repeat split; congruence. Qed.
  Lemma sim_set m act a b : sim a b -> sim (set_mark m act a) (set_mark m act b).
  Proof. intros (A & B & C & D & E & F). unfold sim, set_mark. cbn. repeat split; congruence. Qed.
  Lemma sim_fire t a b : sim a b -> sim (r_fire pn t a) (r_fire pn t b).
  Proof. intros (A & B & C & D & E & F). unfold sim, r_fire, set_mark. cbn. repeat split; congruence. Qed.
  Lemma sim_count_fold ts : forall a b, sim a b ->
    sim (fold_left (fun s u => count o1 u s) ts a) (fold_left (fun s u => count o2 u s) ts b).
  Proof. induction ts as [|t ts IH]; intros a b H; cbn [fold_left]; [exact H|]. apply IH, sim_count, H. Qed.
  Lemma sim_walk t a b : sim a b -> sim (walk pn lim pord paths o1 t a) (walk pn lim pord paths o2 t b).
  Proof.
    intros H. pose proof H as (A & B & C & D & E & F). unfold walk. rewrite A, B.
    destruct (is_enabled t pn (s_mark b)); [exact H|]. apply sim_count_fold, sim_set, H.
  Qed.
  Lemma sim_force t a b : sim a b -> sim (force t a) (force t b).
  Proof.
    intros (A & B & C & D & E & F). unfold force. rewrite A. destruct (add_missing_tokens t (s_mark b)) as [[m miss] added].
    unfold sim. cbn. repeat split; congruence.
  Qed.
  Lemma sim_event o t a b : sim a b ->
    sim (fst (replay_event pn lim pord paths o1 o t a)) (fst (replay_event pn lim pord paths o2 o t b)) /\
    snd (replay_event pn lim pord paths o1 o t a) = snd (replay_event pn lim pord paths o2 o t b).
  Proof.
    intros H. unfold replay_event.
    assert (H1 : sim (if walk_hidden o then walk pn lim pord paths o1 t a else a) (if walk_hidden o then walk pn lim pord paths o2 t b else b)).
    { destruct (walk_hidden o); [apply sim_walk, H|exact H]. }
    set (a1 := if walk_hidden o then walk pn lim pord paths o1 t a else a) in *.
    set (b1 := if walk_hidden o then walk pn lim pord paths o2 t b else b) in *.
    cbn zeta. rewrite <- (sim_mark _ _ H1). destruct (is_enabled t pn (s_mark a1)) eqn:En; cbn [negb andb].
    - assert (H3 : sim (count o1 t a1) (count o2 t b1)) by (apply sim_count, H1).
      rewrite <- (sim_mark _ _ H3). change (s_mark (count o1 t a1)) with (s_mark a1). rewrite En. cbn [fst snd].
      split; [apply sim_fire, H3|reflexivity].
    - destruct (stop_when_unfit o); cbn [fst snd].
      + split; [|reflexivity]. destruct H1 as (A & B & C & D & E & F). unfold sim. cbn. repeat split; congruence.
      + assert (H3 : sim (count o1 t (force t a1)) (count o2 t (force t b1))) by (apply sim_count, sim_force, H1).
        rewrite <- (sim_mark _ _ H3). destruct (is_enabled t pn (s_mark (count o1 t (force t a1)))); cbn [fst snd];
          (split; [|reflexivity]); [apply sim_fire, H3|exact H3].
  Qed.
  Lemma sim_events o tr : forall a b un1 un2, sim a b ->
    sim (fst (replay_events pn lim tord pord paths o1 o tr a un1)) (fst (replay_events pn lim tord pord paths o2 o tr b un2)).
  Proof.
    induction tr as [|x tr IH]; intros a b un1 un2 H; cbn [replay_events]; [exact H|].
    rewrite <- (sim_mark _ _ H). destruct (choose pn tord x (s_mark a)) as [t|]; [|apply IH, H].
    pose proof (sim_event o t a b H) as [H1 H2].
    destruct (replay_event pn lim pord paths o1 o t a) as [a' st], (replay_event pn lim pord paths o2 o t b) as [b' st'].
    cbn [fst snd] in H1, H2. subst st'. destruct st; [exact H1|apply IH, H1].
  Qed.
  Lemma sim_fire_enabled t a b : sim a b -> sim (fire_enabled pn o1 a t) (fire_enabled pn o2 b t).
  Proof.
    intros H. unfold fire_enabled. rewrite <- (sim_mark _ _ H). destruct (is_enabled t pn (s_mark a)); [|exact H].
    apply sim_count, sim_fire, H.
  Qed.
  Lemma sim_fold {A} (f g : rstate -> A -> rstate) : (forall x a b, sim a b -> sim (f a x) (g b x)) ->
    forall l a b, sim a b -> sim (fold_left f l a) (fold_left g l b).
  Proof. intros H. induction l as [|x l IH]; intros a b Hs; cbn [fold_left]; [exact Hs|]. apply IH, H, Hs. Qed.
  Lemma sim_groups fm gs : forall a b, sim a b -> sim (final_groups pn o1 fm gs a) (final_groups pn o2 fm gs b).
  Proof.
    induction gs as [|g gs IH]; intros a b H; cbn [final_groups]; [exact H|].
    assert (H1 : sim (fold_left (fire_enabled pn o1) g a) (fold_left (fire_enabled pn o2) g b)).
    { apply sim_fold; [|exact H]. intros x u v. apply sim_fire_enabled. }
    rewrite <- (sim_mark _ _ H1). destruct (break_condition _ fm); [exact H1|apply IH, H1].
  Qed.
  Lemma sim_final1 n fm : forall a b, sim a b -> sim (final1 pn pord paths o1 n fm a) (final1 pn pord paths o2 n fm b).
  Proof.
    induction n as [|n IH]; intros a b H; cbn [final1]; [exact H|]. rewrite <- (sim_mark _ _ H).
    destruct (break_condition (s_mark a) fm); [exact H|]. apply IH, sim_groups, H.
  Qed.
  Lemma sim_prefix g : forall a b, sim a b -> sim (fire_prefix pn o1 g a) (fire_prefix pn o2 g b).
  Proof.
    induction g as [|t g IH]; intros a b H; cbn [fire_prefix]; [exact H|]. rewrite <- (sim_mark _ _ H).
    destruct (is_enabled t pn (s_mark a)); [|exact H]. apply IH, sim_fire_enabled, H.
  Qed.
  Lemma sim_final2 fm a b : sim a b -> sim (final2 pn lim kord paths o1 fm a) (final2 pn lim kord paths o2 fm b).
  Proof.
    intros H. unfold final2. rewrite <- (sim_mark _ _ H). destruct (break_condition (s_mark a) fm); [exact H|].
    destruct (m_places fm) as [|sink [|? ?]]; try exact H.
    induction (l_final2 lim) as [|n IH]; cbn [Nat.iter nat_rect]; [exact H|].
    apply (sim_fold (fun s g => fire_prefix pn o1 g s) (fun s g => fire_prefix pn o2 g s)); [|exact IH].
    intros x u v. apply sim_prefix.
  Qed.
  Lemma sim_finish o im fm un1 un2 a b : unknown_unfit o = false -> sim a b ->
    same_result (finish o1 o im fm un1 a) (finish o2 o im fm un2 b).
  Proof.
    intros Ho (A & B & C & D & E & F). unfold same_result, finish. cbn. rewrite Ho, A, B, C, D, E, F. cbn [andb].
    repeat split; reflexivity.
  Qed.
  Lemma sim_trace o im fm un1 un2 st1 st2 tr : unknown_unfit o = false ->
    same_result (fst (apply_trace pn lim tord pord kord paths o1 o im fm un1 st1 tr))
                (fst (apply_trace pn lim tord pord kord paths o2 o im fm un2 st2 tr)).
  Proof.
    intros Ho. destruct st1 as [[[c p] m] r], st2 as [[[c' p'] m'] r']. unfold apply_trace.
    pose proof (sim_events o tr (RState im [] [] 0 0 (m_sum im) c p m r) (RState im [] [] 0 0 (m_sum im) c' p' m' r') un1 un2) as H.
    destruct (replay_events pn lim tord pord paths o1 o tr _ un1) as [a u1], (replay_events pn lim tord pord paths o2 o tr _ un2) as [b u2].
    cbn [fst] in *. assert (H1 : sim a b) by (apply H; repeat split; reflexivity).
    apply sim_finish; [exact Ho|]. destruct (reach_through_hidden o); [|exact H1]. apply sim_final2, sim_final1, H1.
  Qed.
End Core.

(** variants *)
Lemma variants_fold l : forall (d : dict (list nat) (list nat)) (done : list (nat * list nat)),
  (forall v i, (exists k, d_get d v = Some k /\ In i k) <-> In (i, v) done) -> List.NoDup (d_keys d) ->
  let d' := fold_left (fun d (it : nat * list nat) =>
      match d_get d it.2 with
      | Some l => d_set d it.2 (l ++ [it.1])
      | None => d_set d it.2 [it.1]
      end) l d in
  (forall v i, (exists k, d_get d' v = Some k /\ In i k) <-> In (i, v) (done ++ l)) /\ List.NoDup (d_keys d').
Proof.
  induction l as [|[j w] l IH]; intros d done Hd Hn; cbn [fold_left]; [rewrite app_nil_r; split; assumption|].
  replace (done ++ (j, w) :: l) with ((done ++ [(j, w)]) ++ l) by (rewrite <- app_assoc; reflexivity).
  apply IH.
  - intros v i. cbn [snd fst]. rewrite in_app_iff, <- Hd. cbn [In].
    destruct (d_get d w) as [k|] eqn:E; rewrite d_get_set.
    + destruct (keqb_spec w v) as [<-|Hne].
      * rewrite E. split.
        -- intros [k' [[= <-] Hi]]. apply in_app_iff in Hi as [Hi|[<-|[]]]; [left; exists k; auto|right; left; reflexivity].
        -- intros [[k' [[= <-] Hi]]|[[= <-]|[]]]; exists (k ++ [j]); (split; [reflexivity|]); apply in_app_iff; [left; exact Hi|right; left; reflexivity].
      * split; [auto|]. intros [H|[[= _ ->]|[]]]; [exact H|congruence].
    + destruct (keqb_spec w v) as [<-|Hne].
      * rewrite E. split.
        -- intros [k' [[= <-] [<-|[]]]]. right. left. reflexivity.
        -- intros [[k' [H _]]|[[= <-]|[]]]; [discriminate|]. exists [j]. split; [reflexivity|left; reflexivity].
      * split; [auto|]. intros [H|[[= _ ->]|[]]]; [exact H|congruence].
  - cbn [snd]. destruct (d_get d w); apply d_nodup_set, Hn.
Qed.
Lemma combine_seq_in {A} (l : list A) : forall b i x, In (i, x) (combine (seq b (length l)) l) <-> (b <= i)%nat /\ nth_error l (i - b) = Some x.
Proof.
  induction l as [|y l IH]; intros b i x; cbn [length seq combine In].
  - split; [intros []|]. intros [_ H]. destruct (i - b)%nat; discriminate.
  - rewrite IH. split.
    + intros [[= <- <-]|[Hle Hn]]; [rewrite Nat.sub_diag; split; [lia|reflexivity]|].
      split; [lia|]. replace (i - b)%nat with (S (i - S b)) by lia. exact Hn.
    + intros [Hle Hn]. destruct (Nat.eq_dec b i) as [<-|Hne].
      * rewrite Nat.sub_diag in Hn. injection Hn as <-. left. reflexivity.
      * right. split; [lia|]. replace (i - b)%nat with (S (i - S b)) in Hn by lia. exact Hn.
Qed.
Lemma variants_spec log :
  (forall v k i, In (v, k) (variants_of log) -> In i k -> nth_error log i = Some v) /\
  (forall i v, nth_error log i = Some v -> exists k, In (v, k) (variants_of log) /\ In i k).
Proof.
  destruct (variants_fold (combine (seq 0 (length log)) log) [] []) as [H Hn].
  { intros v i. split; [intros [k [E _]]; discriminate|intros []]. }
  { constructor. }
  fold (variants_of log) in H, Hn. cbn [app] in H. split.
  - intros v k i Hin Hi. assert (E : In (i, v) (combine (seq 0 (length log)) log)).
    { apply H. exists k. split; [|exact Hi]. apply d_in_get; assumption. }
    apply combine_seq_in in E as [_ E]. rewrite Nat.sub_0_r in E. exact E.
  - intros i v E. destruct (proj2 (H v i)) as [k [Hk Hi]].
    { apply combine_seq_in. rewrite Nat.sub_0_r. split; [lia|exact E]. }
    exists k. split; [apply d_get_in, Hk|exact Hi].
Qed.

Section Log.
  Context (pn : petri_net (option nat)) (lim : limits).
  Context (tord aord : list ptrans -> list ptrans) (pord kord : list nat -> list nat).
  Context (vord : list (list nat * list nat) -> list (list nat * list nat)).
  Hypothesis Hvord : forall l, Permutation (vord l) l.

  Lemma apply_log_cases o im fm log : unknown_unfit o = false ->
    exists rs, fst (apply_log pn lim tord aord pord kord vord o im fm log) = Some rs /\
    List.Forall2 (fun tr r => same_result r (replay pn lim tord aord pord kord o im fm tr)) log rs.
  Proof.
    intros Ho. unfold apply_log.
    set (f := fun '(results, unknown, stats) (vc : list nat * list nat) =>
        let '(r, unknown') := apply_trace pn lim tord pord kord (hidden_paths pn lim aord) (Z.of_nat (length vc.2)) o im fm unknown stats vc.1 in
        (fold_left (fun d i => d_set d i r) vc.2 results, unknown', (r_pc r, r_pp r, r_pm r, r_pr r))).
    destruct (variants_spec log) as [V1 V2].
    assert (HF : forall vs results un st,
      (forall v k i, In (v, k) vs -> In i k -> nth_error log i = Some v) ->
      (forall i r, d_get results i = Some r -> exists tr, nth_error log i = Some tr /\ same_result r (replay pn lim tord aord pord kord o im fm tr)) ->
      let '(results', _, _) := fold_left f vs (results, un, st) in
      (forall i r, d_get results' i = Some r -> exists tr, nth_error log i = Some tr /\ same_result r (replay pn lim tord aord pord kord o im fm tr)) /\
      (forall i, (d_get results i <> None \/ exists v k, In (v, k) vs /\ In i k) -> d_get results' i <> None)).
    { induction vs as [|[v k] vs IH]; intros results un st Hv Hr.
      - cbn. split; [exact Hr|]. intros i [H|(v & k & [] & _)]. exact H.
      - cbn [fold_left]. unfold f at 2. cbn [fst snd].
        pose proof (sim_trace pn lim tord pord kord (hidden_paths pn lim aord) (Z.of_nat (length k)) 1 o im fm un [] st (∅, ∅, ∅, ∅) v Ho) as HS.
        destruct (apply_trace pn lim tord pord kord (hidden_paths pn lim aord) (Z.of_nat (length k)) o im fm un st v) as [r un']. cbn [fst] in HS.
        set (results1 := fold_left (fun d i => d_set d i r) k results).
        assert (G : forall k results i, d_get (fold_left (fun d i => d_set d i r) k results) i = if existsb (Nat.eqb i) k then Some r else d_get results i).
        { clear. induction k as [|j k IH]; intros results i; cbn [fold_left existsb]; [reflexivity|]. rewrite IH, d_get_set.
          destruct (existsb (Nat.eqb i) k); [rewrite orb_true_r; reflexivity|].
          destruct (keqb_spec j i) as [->|Hne]; [rewrite Nat.eqb_refl; reflexivity|].
          destruct (Nat.eqb_spec i j); [congruence|reflexivity]. }
        specialize (IH results1 un' (r_pc r, r_pp r, r_pm r, r_pr r) (fun v' k' i H => Hv v' k' i (or_intror H))).
        assert (Hr1 : forall i r0, d_get results1 i = Some r0 -> exists tr, nth_error log i = Some tr /\ same_result r0 (replay pn lim tord aord pord kord o im fm tr)).
        { intros i r0. unfold results1. rewrite G. destruct (existsb (Nat.eqb i) k) eqn:Ex; [|apply Hr].
          intros [= <-]. apply existsb_exists in Ex as [j [Hj E]]. apply Nat.eqb_eq in E. subst j.
          exists v. split; [apply (Hv v k i (or_introl eq_refl) Hj)|exact HS]. }
        specialize (IH Hr1). destruct (fold_left f vs _) as [[results' ?] ?]. destruct IH as [A B]. split; [exact A|].
        intros i Hi. apply B. unfold results1. rewrite G. destruct (existsb (Nat.eqb i) k) eqn:Ex; [left; discriminate|].
        destruct Hi as [Hi|(v' & k' & [[= <- <-]|Hin] & Hi)]; [left; exact Hi| |right; exists v', k'; auto].
        exfalso. assert (existsb (Nat.eqb i) k = true); [|congruence]. apply existsb_exists. exists i. split; [exact Hi|apply Nat.eqb_refl]. }
    pose proof (HF (vord (variants_of log)) [] [] (∅, ∅, ∅, ∅)) as HG. clear HF.
    match type of HG with ?P -> _ => assert (HP : P) end.
    { intros v k i Hin Hi. apply (V1 v k i); [exact (Permutation_in _ (Hvord _) Hin)|exact Hi]. }
    specialize (HG HP). clear HP.
    match type of HG with ?P -> _ => assert (HP : P) end.
    { intros i r H. discriminate. }
    specialize (HG HP). clear HP.
    destruct (fold_left f (vord (variants_of log)) ([], [], (∅, ∅, ∅, ∅))) as [[results un] st] eqn:EF.
    match type of HG with context [fold_left f ?a ?b] => replace (fold_left f a b) with (results, un, st) in HG by (symmetry; exact EF) end.
    destruct HG as [A B].
    cbn [fst].
    assert (Hall : forall i tr, nth_error log i = Some tr -> exists r, d_get results i = Some r /\ same_result r (replay pn lim tord aord pord kord o im fm tr)).
    { intros i tr Hi. destruct (V2 i tr Hi) as [k [Hin Hk]].
      destruct (d_get results i) as [r|] eqn:E.
      - destruct (A i r E) as [tr' [E' S]]. rewrite Hi in E'. injection E' as <-. exists r. auto.
      - exfalso. apply (B i); [|exact E]. right. exists tr, k. split; [exact (Permutation_in _ (Permutation_sym (Hvord _)) Hin)|exact Hk]. }
    clear - Hall. assert (H : forall (l : list (list nat)) (b : nat), (forall i tr, nth_error l i = Some tr -> exists r, d_get results (b + i)%nat = Some r /\ same_result r (replay pn lim tord aord pord kord o im fm tr)) ->
      exists rs, mapM (fun i => d_get results i) (seq b (length l)) = Some rs /\ List.Forall2 (fun tr r => same_result r (replay pn lim tord aord pord kord o im fm tr)) l rs).
    { induction l as [|tr l IH]; intros b Hl; cbn [length seq mapM].
      - exists []. split; [reflexivity|constructor].
      - destruct (Hl 0%nat tr eq_refl) as [r [E HSr]]. rewrite Nat.add_0_r in E.
        destruct (IH (S b)) as [rs [E2 F]].
        { intros i t Hi. replace (S b + i)%nat with (b + S i)%nat by lia. apply Hl. exact Hi. }
        exists (r :: rs). split; [|constructor; assumption].
        cbn. rewrite E. cbn. rewrite E2. reflexivity. }
    apply H. intros i tr Hi. apply Hall. exact Hi.
  Qed.
End Log.

(** evaluation *)
Lemma zsum_of_zsum {A} (f : A -> Z) l : zsum_of f l = zsum f l.
Proof. unfold zsum_of. rewrite fold_add. lia. Qed.
Fixpoint qsum {A} (f : A -> Q) (l : list A) : Q := match l with [] => 0%Q | x :: r => (f x + qsum f r)%Q end.
Lemma fold_qsum {A} (f : A -> Q) l : forall z, (fold_left (fun s x => (s + f x)%Q) l z == z + qsum f l)%Q.
Proof. induction l as [|x l IH]; intros z; cbn [fold_left qsum]; [ring|]. rewrite IH. ring. Qed.
Lemma qsum_bounds {A} (f : A -> Q) l : (forall x, In x l -> 0 <= f x <= 1)%Q -> (0 <= qsum f l <= inject_Z (Z.of_nat (length l)))%Q.
Proof.
  induction l as [|x l IH]; intros H; cbn [qsum length]; [split; discriminate|].
  assert (H1 : (0 <= f x <= 1)%Q) by (apply H; left; reflexivity).
  assert (H2 : (0 <= qsum f l <= inject_Z (Z.of_nat (length l)))%Q) by (apply IH; intros y Hy; apply H; right; exact Hy).
  rewrite Nat2Z.inj_succ, <- Z.add_1_l, inject_Z_plus. change (inject_Z 1) with 1%Q. split; lra.
Qed.
Lemma qsum_full {A} (f : A -> Q) l : (forall x, In x l -> 0 <= f x <= 1)%Q ->
  ((qsum f l == inject_Z (Z.of_nat (length l)))%Q <-> forall x, In x l -> (f x == 1)%Q).
Proof.
  induction l as [|x l IH]; intros H; cbn [qsum length]; [split; [intros _ y []|reflexivity]|].
  assert (H1 : (0 <= f x <= 1)%Q) by (apply H; left; reflexivity).
  assert (H2 : (forall y, In y l -> 0 <= f y <= 1)%Q) by (intros y Hy; apply H; right; exact Hy).
  pose proof (qsum_bounds f l H2) as H3. specialize (IH H2).
  rewrite Nat2Z.inj_succ, <- Z.add_1_l, inject_Z_plus. change (inject_Z 1) with 1%Q. split.
  - intros E. assert (E1 : (qsum f l == inject_Z (Z.of_nat (length l)))%Q) by lra.
    intros y [<-|Hy]; [lra|]. apply (proj1 IH E1 y Hy).
  - intros Hall. rewrite (proj2 IH); [|intros y Hy; apply Hall; right; exact Hy]. rewrite (Hall x (or_introl eq_refl)). reflexivity.
Qed.
Lemma filter_len_le {A} (f : A -> bool) l : (length (List.filter f l) <= length l)%nat.
Proof. induction l as [|x l IH]; cbn; [lia|]. destruct (f x); cbn; lia. Qed.
Lemma filter_full {A} (f : A -> bool) l : length (List.filter f l) = length l <-> forall x, In x l -> f x = true.
Proof.
  induction l as [|x l IH]; cbn [List.filter length]; [split; [intros _ y []|reflexivity]|].
  pose proof (filter_len_le f l) as HL. destruct (f x) eqn:E; cbn [length].
  - split; [intros H y [<-|Hy]; [exact E|apply IH; [lia|exact Hy]]|intros H; f_equal; apply IH; intros y Hy; apply H; right; exact Hy].
  - split; [intros H; lia|intros H; rewrite (H x (or_introl eq_refl)) in E; discriminate].
Qed.
Lemma inject_div_one a b : 0 < b -> (inject_Z a / inject_Z b == 1)%Q <-> a = b.
Proof.
  intros H3. assert (Hb : ~ (inject_Z b == 0)%Q) by (intros E; apply (inject_Z_injective b 0) in E; lia). split.
  - intros E. apply inject_Z_injective. rewrite <- (Qmult_div_r (inject_Z a) _ Hb), E. ring.
  - intros ->. field. exact Hb.
Qed.
Lemma Forall2_in_r' {A B} {P : A -> B -> Prop} {l k} : List.Forall2 P l k -> forall y, In y k -> exists x, In x l /\ P x y.
Proof. induction 1 as [|a b l k Hab F IH]; intros y Hy; [destruct Hy|]. destruct Hy as [<-|Hy]; [exists a; split; [left; reflexivity|exact Hab]|]. destruct (IH y Hy) as (x & Hx & HP). exists x. split; [right; exact Hx|exact HP]. Qed.
