(** What the replay of one trace returns. *)
From stdpp Require Import gmap.
From Coq Require Import ZArith QArith Lia Lqa.
From Verif Require Import Model_Petri Spec_Petri Proofs_Petri Model_Lev Proofs_Lev Model_Dict Proofs_Dict Model_Replay Spec_Replay Proofs_Replay1 Proofs_Replay2 Proofs_Replay3.
Local Open Scope Z_scope.

Section T.
  Context (pn : petri_net (option nat)) (lim : limits).
  Context (tord aord : list ptrans -> list ptrans) (pord kord : list nat -> list nat).
  Context (im fm : marking) (o : options).
  Hypothesis Hs : simple_net pn.
  Hypothesis Htord : forall l, Permutation (tord l) l.
  Hypothesis Haord : forall l, Permutation (aord l) l.
  Hypothesis Him : proper im.
  Hypothesis Hfm : proper fm.
  Let paths := hidden_paths pn lim aord.

  Section Occ.
  Context (occ : Z) (bc bp bm br : marking).
  Let s0 := RState im [] [] 0 0 (m_sum im) bc bp bm br.
  Lemma init_inv : inv pn occ im bc bp bm br s0.
  Proof.
    unfold s0. constructor; unfold act_in, act_out, pl_in, pl_out;
      cbn [zsum s_act s_mark s_prob s_missing s_consumed s_produced s_pc s_pp s_pm s_pr]; rewrite ?m_sum_total; intros; try lia;
      try assumption; try reflexivity; constructor.
  Qed.

  Definition end_state (s : rstate) : rstate :=
    if reach_through_hidden o then final2 pn lim kord paths occ fm (final1 pn pord paths occ (l_final1 lim) fm s) else s.
  Lemma end_ok s : final_ok pn occ im bc bp bm br s (end_state s).
  Proof.
    unfold end_state. destruct (reach_through_hidden o); [|apply final_refl].
    assert (Hp : paths_ok pn paths) by (apply hidden_paths_ok; exact Haord).
    eapply (final_trans pn tord); [apply (final1_ok pn tord)|apply (final2_ok pn lim tord)]; assumption.
  Qed.

  Lemma apply_trace_state un tr : exists s un',
    apply_trace pn lim tord pord kord paths occ o im fm un (bc, bp, bm, br) tr = (finish occ o im fm un' s, un') /\
    ((inv pn occ im bc bp bm br s /\ exists v, known_part pn tr v /\ visible (s_act s) = v) \/
     (stop_when_unfit o = true /\ proper (s_mark s) /\ 0 < s_missing s)).
  Proof.
    unfold apply_trace. fold s0.
    pose proof (events_inv pn lim tord pord paths Hs Htord (hidden_paths_ok pn aord Haord lim) occ im bc bp bm br o tr s0 un init_inv) as H.
    destruct (replay_events pn lim tord pord paths occ o tr s0 un) as [s1 un'].
    exists (end_state s1), un'. split; [reflexivity|]. pose proof (end_ok s1) as He.
    destruct H as [[I [v [Hk Hv]]]|(Ho & Hp & Hm)].
    - left. destruct (He (i_proper _ _ _ _ _ _ _ _ I)) as (_ & _ & _ & HI & new & Ha & Hn). split; [apply HI, I|].
      exists v. split; [exact Hk|]. rewrite Ha, visible_app, (visible_hidden _ _ Hn), app_nil_r. exact Hv.
    - right. destruct (He Hp) as (Hp' & Hm' & _). split; [exact Ho|]. split; [exact Hp'|]. rewrite Hm'. exact Hm.
  Qed.
  End Occ.

  Notation replay' := (replay pn lim tord aord pord kord o im fm).

  (** fields of the result *)
  Lemma counts tr : stop_when_unfit o = false -> let r := replay' tr in
    r_consumed r = total fm + zsum (fun t => arcs_total (t_in t)) (r_act r) /\
    r_produced r = total im + zsum (fun t => arcs_total (t_out t)) (r_act r) /\
    r_remaining r = excess (r_reached r) fm /\
    0 <= r_missing r /\ r_missing r <= r_consumed r /\ 0 <= r_remaining r /\ r_remaining r <= r_produced r /\
    proper (r_reached r) /\
    excess fm (r_reached r) <= r_missing r /\
    r_produced r + r_missing r <= r_consumed r + r_remaining r /\
    (unit_weights pn -> r_produced r + r_missing r = r_consumed r + r_remaining r).
  Proof.
    intros Hst. cbn zeta. unfold replay.
    destruct (apply_trace_state 1 ∅ ∅ ∅ ∅ [] tr) as (s & un & E & H). fold paths. rewrite E. cbn [fst].
    destruct H as [[I _]|(Hx & _)]; [|congruence].
    pose proof (i_proper _ _ _ _ _ _ _ _ I) as Hp. pose proof (i_miss _ _ _ _ _ _ _ _ I) as Hm.
    pose proof (i_miss0 _ _ _ _ _ _ _ _ I) as Hm0. pose proof (i_tot _ _ _ _ _ _ _ _ I) as Ht.
    pose proof (i_cons _ _ _ _ _ _ _ _ I) as Hc. pose proof (i_prod _ _ _ _ _ _ _ _ I) as Hpr.
    pose proof (i_unit _ _ _ _ _ _ _ _ I) as Hu.
    pose proof (excess_balance _ _ Hp Hfm) as HB. pose proof (excess_nonneg (s_mark s) fm) as N1.
    pose proof (excess_nonneg fm (s_mark s)) as N2. pose proof (excess_le_total _ _ Hp Hfm) as L1.
    pose proof (excess_le_total _ _ Hfm Hp) as L2.
    unfold finish. cbn [r_consumed r_produced r_remaining r_missing r_act r_reached].
    rewrite remaining_excess by exact Hp. rewrite !m_sum_total, final_missing_total.
    unfold act_in in Hc. unfold act_out in Hpr. rewrite Hc in *. rewrite Hpr in *.
    repeat split; try lia; try assumption. intros U. specialize (Hu U). lia.
  Qed.

  Lemma places tr : stop_when_unfit o = false -> forall occ,
    let r := fst (apply_trace pn lim tord pord kord paths occ o im fm [] (∅, ∅, ∅, ∅) tr) in
    forall p,
    tokens (r_pc r) p = (tokens fm p + zsum (fun t => weight (t_in t) p) (r_act r)) * occ /\
    tokens (r_pp r) p = (tokens im p + zsum (fun t => weight (t_out t) p) (r_act r)) * occ /\
    tokens (r_pr r) p = Z.max 0 (tokens (r_reached r) p - tokens fm p) * occ /\
    (unit_weights pn -> occ = 1 -> tokens (r_pp r) p + tokens (r_pm r) p = tokens (r_pc r) p + tokens (r_pr r) p).
  Proof.
    intros Hst occ. cbn zeta. intros p.
    destruct (apply_trace_state occ ∅ ∅ ∅ ∅ [] tr) as (s & un & E & H). rewrite E. cbn [fst].
    destruct H as [[I _]|(Hx & _)]; [|congruence].
    pose proof (i_proper _ _ _ _ _ _ _ _ I) as Hp.
    pose proof (i_pc _ _ _ _ _ _ _ _ I p) as Hc. pose proof (i_pp _ _ _ _ _ _ _ _ I p) as Hpp.
    pose proof (i_pr _ _ _ _ _ _ _ _ I) as Hpr. pose proof (i_pm _ _ _ _ _ _ _ _ I) as Hpm.
    rewrite tokens_empty in Hc, Hpp.
    unfold finish. cbn [r_pc r_pp r_pr r_pm r_act r_reached].
    assert (ER : tokens (fold_left (fun c (kv : nat * Z) => bump c kv.1 (left_over fm kv.1 kv.2 * occ)) (map_to_list (s_mark s)) (s_pr s)) p
      = Z.max 0 (tokens (s_mark s) p - tokens fm p) * occ).
    { rewrite (tokens_bump_list (fun q v => left_over fm q v * occ)), (entries_at (fun q v => left_over fm q v * occ)), Hpr, tokens_empty.
      unfold tokens at 1. destruct (s_mark s !! p) as [v|] eqn:Ev.
      - rewrite (left_over_tokens (s_mark s) fm p v Hp Ev). lia.
      - pose proof (proper_nonneg fm p Hfm). rewrite Z.max_l by lia. lia. }
    rewrite ER, !tokens_bump_all, Hc, Hpp. unfold pl_in, pl_out in *.
    split; [lia|]. split; [lia|]. split; [reflexivity|]. intros U ->.
    specialize (Hpm U p). rewrite tokens_empty in Hpm. rewrite (final_missing_tokens _ _ _ Hfm).
    destruct (decide (is_Some (fm !! p))) as [HS|HS].
    - rewrite bool_decide_eq_true_2 by exact HS. lia.
    - rewrite bool_decide_eq_false_2 by exact HS.
      assert (tokens fm p = 0) by (unfold tokens; destruct (fm !! p); [exfalso; apply HS; eauto|reflexivity]).
      pose proof (proper_nonneg _ p Hp). lia.
  Qed.

  Lemma fit_run tr : let r := replay' tr in
    r_missing r = excess fm (r_reached r) \/ (r_fit r = true) ->
    exists v, known_part pn tr v /\ visible (r_act r) = v /\ run pn im (r_act r) (r_reached r).
  Proof.
    cbn zeta. unfold replay.
    destruct (apply_trace_state 1 ∅ ∅ ∅ ∅ [] tr) as (s & un & E & H). fold paths. rewrite E. cbn [fst].
    unfold finish. cbn [r_fit r_act r_reached r_missing]. rewrite m_sum_total, final_missing_total. intros Hf.
    assert (Hm : s_missing s = 0).
    { destruct Hf as [Hf|Hf]; [lia|].
      destruct (unknown_unfit o && _); [discriminate|]. destruct (consider_remaining o).
      - apply andb_true_iff in Hf as [Hf _]. apply Z.eqb_eq, Hf.
      - apply Z.eqb_eq, Hf. }
    destruct H as [[I [v [Hk Hv]]]|(_ & _ & Hx)]; [|lia].
    exists v. split; [exact Hk|]. split; [exact Hv|]. apply (i_run _ _ _ _ _ _ _ _ I), Hm.
  Qed.
  Lemma all_proper tr : proper (r_reached (replay' tr)).
  Proof.
    unfold replay. destruct (apply_trace_state 1 ∅ ∅ ∅ ∅ [] tr) as (s & un & E & H). fold paths. rewrite E. cbn.
    destruct H as [[I _]|(_ & Hp & _)]; [apply (i_proper _ _ _ _ _ _ _ _ I)|exact Hp].
  Qed.
  Lemma missing_bounds tr : let r := replay' tr in
    0 <= excess fm (r_reached r) <= r_missing r /\ r_remaining r = excess (r_reached r) fm.
  Proof.
    cbn zeta. unfold replay. destruct (apply_trace_state 1 ∅ ∅ ∅ ∅ [] tr) as (s & un & E & H). fold paths. rewrite E.
    unfold finish. cbn [fst r_reached r_missing r_remaining]. rewrite m_sum_total, final_missing_total.
    pose proof (excess_nonneg fm (s_mark s)).
    destruct H as [[I _]|(_ & Hp & Hx)].
    - pose proof (i_miss0 _ _ _ _ _ _ _ _ I). pose proof (i_proper _ _ _ _ _ _ _ _ I) as Hp. rewrite remaining_excess by exact Hp. lia.
    - rewrite remaining_excess by exact Hp. lia.
  Qed.
  Lemma fit_flag tr : r_fit (replay' tr) = true -> consider_remaining o = true -> r_remaining (replay' tr) = 0.
  Proof.
    unfold replay. destruct (apply_trace_state 1 ∅ ∅ ∅ ∅ [] tr) as (s & un & E & _). fold paths. rewrite E.
    unfold finish. cbn [fst r_fit r_remaining]. intros Hf Hc. rewrite Hc in Hf.
    destruct (unknown_unfit o && _); [discriminate|]. apply andb_true_iff in Hf as [_ Hf]. apply Z.eqb_eq, Hf.
  Qed.
  Lemma fitness_formula tr : let r := replay' tr in
    r_fitness r = trace_fitness (r_missing r) (r_consumed r) (r_remaining r) (r_produced r).
  Proof.
    cbn zeta. unfold replay. destruct (apply_trace_state 1 ∅ ∅ ∅ ∅ [] tr) as (s & un & E & _). fold paths. rewrite E. reflexivity.
  Qed.
  Lemma visible_known tr : stop_when_unfit o = false -> known_part pn tr (visible (r_act (replay' tr))).
  Proof.
    intros Hst. unfold replay. destruct (apply_trace_state 1 ∅ ∅ ∅ ∅ [] tr) as (s & un & E & H). fold paths. rewrite E. cbn.
    destruct H as [[I [v [Hk Hv]]]|(Hx & _)]; [|congruence]. rewrite Hv. exact Hk.
  Qed.

  (** completeness *)
  Lemma events_follow ts : distinct_labels pn -> List.Forall (fun t => t_label t <> None) ts ->
    forall occ s un m', proper (s_mark s) -> run pn (s_mark s) ts m' -> exists s',
      replay_events pn lim tord pord paths occ o (visible ts) s un = (s', un) /\
      s_mark s' = m' /\ s_act s' = s_act s ++ ts /\ s_missing s' = s_missing s /\ s_prob s' = s_prob s.
  Proof.
    intros Hd. induction ts as [|t ts IH]; intros HF occ s un m' Hp R; inversion R; subst.
    - exists s. cbn. rewrite app_nil_r. auto.
    - inversion HF as [|? ? Hl HF']; subst.
      match goal with F : fires _ _ _ _ |- _ => rename F into Fi end.
      match goal with R : run _ ?m ts _ |- _ => rename R into R1; rename m into mm end.
      cbn [visible]. destruct (t_label t) as [a|] eqn:El; [|congruence].
      cbn [replay_events].
      destruct Fi as (Hin & Hen & Hpm & Htk).
      pose proof (proj2 (en_iff pn Hs t _ Hin Hp) Hen) as Een.
      destruct (choose_enabled pn tord Htord a (s_mark s) t Hin El Een) as [u [Hu Heu]].
      destruct (choose_some pn tord Htord _ _ _ Hu) as [Hiu Hlu].
      assert (u = t) by (apply (Hd u t a); assumption). subst u. rewrite Hu.
      unfold replay_event, walk. cbn zeta. rewrite Een. cbn [negb andb].
      assert (E1 : (if walk_hidden o then s else s) = s) by (destruct (walk_hidden o); reflexivity). rewrite E1, Een.
      cbn [negb andb]. change (s_mark (count occ t s)) with (s_mark s). rewrite Een. cbv iota.
      assert (Em : exec pn t (s_mark s) = mm).
      { apply (fires_det pn t (s_mark s)); [apply exec_fires; assumption|repeat split; assumption]. }
      destruct (IH HF' occ (r_fire pn t (count occ t s)) un m') as (s' & E & A & B & C & D).
      + cbn. rewrite Em. exact Hpm.
      + cbn. rewrite Em. exact R1.
      + exists s'. split; [exact E|]. split; [exact A|]. cbn in B, C, D. rewrite B, <- app_assoc. auto.
  Qed.
  Lemma break_self : break_condition fm fm = true.
  Proof.
    unfold break_condition, m_places. apply forallb_forall. intros p Hp. apply in_map_iff in Hp as [[q v] [<- Hin]].
    apply elem_of_list_In, elem_of_map_to_list in Hin. cbn. rewrite Hin. reflexivity.
  Qed.
  Lemma complete ts tr : distinct_labels pn -> List.Forall (fun t => t_label t <> None) ts ->
    run pn im ts fm -> visible ts = tr -> let r := replay' tr in
    r_fit r = true /\ (r_fitness r == 1)%Q /\ r_act r = ts /\ r_reached r = fm /\ r_missing r = 0 /\ r_remaining r = 0 /\ r_prob r = [].
  Proof.
    intros Hd HF R <-. cbn zeta. unfold replay, apply_trace. fold paths.
    destruct (events_follow ts Hd HF 1 (RState im [] [] 0 0 (m_sum im) ∅ ∅ ∅ ∅) [] fm Him R) as (s & E & A & B & C & D).
    rewrite E. cbn in B, C, D.
    assert (E2 : (if reach_through_hidden o then final2 pn lim kord paths 1 fm (final1 pn pord paths 1 (l_final1 lim) fm s) else s) = s).
    { destruct (reach_through_hidden o); [|reflexivity].
      assert (E3 : final1 pn pord paths 1 (l_final1 lim) fm s = s).
      { destruct (l_final1 lim); [reflexivity|]. cbn [final1]. rewrite A, break_self. reflexivity. }
      rewrite E3. unfold final2. rewrite A, break_self. reflexivity. }
    rewrite E2. unfold finish. cbn [fst r_fit r_fitness r_act r_reached r_missing r_remaining r_prob].
    assert (Hp : proper (s_mark s)) by (rewrite A; exact Hfm).
    rewrite remaining_excess by exact Hp. rewrite !m_sum_total, final_missing_total, A, B, C, D.
    assert (Ez : excess fm fm = 0).
    { apply excess_zero. intros p v Hv. unfold tokens. rewrite Hv. lia. }
    rewrite Ez. cbn [negb andb]. rewrite andb_false_r.
    repeat split; try reflexivity.
    - destruct (consider_remaining o); reflexivity.
    - unfold trace_fitness. destruct ((0 <? s_consumed s + total fm) && (0 <? s_produced s)); [|reflexivity].
      unfold Qdiv. change (inject_Z (0 + 0)) with 0%Q. change (inject_Z 0) with 0%Q. ring.
  Qed.
End T.

(** fitness values *)
Lemma inject_div_range a b : 0 <= a -> a <= b -> 0 < b -> (0 <= inject_Z a / inject_Z b /\ inject_Z a / inject_Z b <= 1)%Q.
Proof.
  intros H1 H2 H3.
  assert (Hb : (0 < inject_Z b)%Q) by (change 0%Q with (inject_Z 0); rewrite <- Zlt_Qlt; exact H3). split.
  - apply Qle_shift_div_l; [exact Hb|]. rewrite Qmult_0_l. change 0%Q with (inject_Z 0). rewrite <- Zle_Qle. exact H1.
  - apply Qle_shift_div_r; [exact Hb|]. rewrite Qmult_1_l, <- Zle_Qle. exact H2.
Qed.
Lemma inject_div_zero a b : 0 < b -> (inject_Z a / inject_Z b == 0)%Q <-> a = 0.
Proof.
  intros H3. assert (Hb : ~ (inject_Z b == 0)%Q) by (intros E; apply (inject_Z_injective b 0) in E; lia). split.
  - intros E. apply (inject_Z_injective a 0). change (inject_Z 0) with 0%Q.
    rewrite <- (Qmult_div_r (inject_Z a) _ Hb), E. ring.
  - intros ->. unfold Qdiv. change (inject_Z 0) with 0%Q. ring.
Qed.
Lemma trace_fitness_range m c r p : 0 <= m -> m <= c -> 0 <= r -> r <= p ->
  (0 <= trace_fitness m c r p /\ trace_fitness m c r p <= 1)%Q.
Proof.
  intros H1 H2 H3 H4. unfold trace_fitness. destruct (Z.ltb_spec 0 c); [|cbn; split; discriminate].
  destruct (Z.ltb_spec 0 p); [|cbn; split; discriminate]. cbn [andb].
  destruct (inject_div_range m c) as [A B]; try assumption. destruct (inject_div_range r p) as [C D]; try assumption.
  split; lra.
Qed.
Lemma trace_fitness_one m c r p : 0 <= m -> m <= c -> 0 <= r -> r <= p -> 0 < c -> 0 < p ->
  (trace_fitness m c r p == 1)%Q <-> m = 0 /\ r = 0.
Proof.
  intros H1 H2 H3 H4 Hc Hp. unfold trace_fitness.
  replace (0 <? c) with true by (symmetry; apply Z.ltb_lt, Hc). replace (0 <? p) with true by (symmetry; apply Z.ltb_lt, Hp). cbn [andb].
  rewrite <- (inject_div_zero m c Hc), <- (inject_div_zero r p Hp).
  destruct (inject_div_range m c) as [A B]; try assumption. destruct (inject_div_range r p) as [C D]; try assumption.
  split; [intros E; split; lra|intros [E1 E2]; rewrite E1, E2; ring].
Qed.
