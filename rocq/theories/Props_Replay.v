(** Properties C51-C55: token-based replay.  [lim] ranges over all values of the technical limits, the
    orders [tord], [aord] (sets of transitions), [pord], [kord] (places), [vord] (variants) are arbitrary. *)
From stdpp Require Import gmap.
From Coq Require Import ZArith QArith Lia Lqa.
From Verif Require Import Model_Petri Spec_Petri Proofs_Petri Model_Dict Proofs_Dict Model_Replay Spec_Replay Proofs_Replay1 Proofs_Replay2 Proofs_Replay3 Proofs_Replay4 Proofs_Replay5 Proofs_Replay6.
Local Open Scope Z_scope.

Definition any_order {A} (f : list A -> list A) : Prop := forall l, Permutation (f l) l.

(** C51: what the four counters mean. *)
Theorem C51_counts pn lim tord aord pord kord o im fm tr :
  simple_net pn -> any_order tord -> any_order aord -> proper im -> proper fm -> stop_when_unfit o = false ->
  let r := replay pn lim tord aord pord kord o im fm tr in
  r_consumed r = total fm + zsum (fun t => arcs_total (t_in t)) (r_act r) /\
  r_produced r = total im + zsum (fun t => arcs_total (t_out t)) (r_act r) /\
  r_remaining r = excess (r_reached r) fm /\
  excess fm (r_reached r) <= r_missing r /\
  r_produced r + r_missing r <= r_consumed r + r_remaining r /\
  known_part pn tr (visible (r_act r)).
Proof.
  intros Hs Ht Ha Hi Hf Ho r.
  destruct (counts pn lim tord aord pord kord im fm o Hs Ht Ha Hi Hf tr Ho) as (A & B & C & D & E & F & G & H & I & J & K).
  repeat split; try assumption. exact (visible_known pn lim tord aord pord kord im fm o Hs Ht Ha Hi tr Ho).
Qed.

(** C51: p + m = c + r when all arcs have weight 1. *)
Theorem C51_balance pn lim tord aord pord kord o im fm tr :
  simple_net pn -> unit_weights pn -> any_order tord -> any_order aord -> proper im -> proper fm -> stop_when_unfit o = false ->
  let r := replay pn lim tord aord pord kord o im fm tr in
  r_produced r + r_missing r = r_consumed r + r_remaining r.
Proof.
  intros Hs Hu Ht Ha Hi Hf Ho r.
  destruct (counts pn lim tord aord pord kord im fm o Hs Ht Ha Hi Hf tr Ho) as (A & B & C & D & E & F & G & H & I & J & K).
  apply K, Hu.
Qed.

(** C51: the same for every single place (statistics of enable_pltr_fitness) of a trace that occurs once. *)
Theorem C51_places pn lim tord aord pord kord o im fm tr :
  simple_net pn -> any_order tord -> any_order aord -> proper im -> proper fm -> stop_when_unfit o = false ->
  let r := replay pn lim tord aord pord kord o im fm tr in
  forall p,
  tokens (r_pc r) p = tokens fm p + zsum (fun t => weight (t_in t) p) (r_act r) /\
  tokens (r_pp r) p = tokens im p + zsum (fun t => weight (t_out t) p) (r_act r) /\
  tokens (r_pr r) p = Z.max 0 (tokens (r_reached r) p - tokens fm p) /\
  (unit_weights pn -> tokens (r_pp r) p + tokens (r_pm r) p = tokens (r_pc r) p + tokens (r_pr r) p).
Proof.
  intros Hs Ht Ha Hi Hf Ho r p.
  destruct (places pn lim tord aord pord kord im fm o Hs Ht Ha Hi Hf tr Ho 1 p) as (A & B & C & D).
  repeat split; try (unfold r, replay; lia). intros U. exact (D U eq_refl).
Qed.

(** C51: in the replay of a log, the consumed, produced and remaining tokens of each place are summed over
    all the cases. *)
Theorem C51_log_places pn lim tord aord pord kord vord o im fm log p :
  simple_net pn -> any_order tord -> any_order aord -> any_order vord -> proper im -> proper fm ->
  stop_when_unfit o = false -> unknown_unfit o = false ->
  let '(c, pr, m, r) := snd (apply_log pn lim tord aord pord kord vord o im fm log) in
  let one tr := replay pn lim tord aord pord kord o im fm tr in
  tokens c p = zsum (fun tr => tokens (r_pc (one tr)) p) log /\
  tokens pr p = zsum (fun tr => tokens (r_pp (one tr)) p) log /\
  tokens r p = zsum (fun tr => tokens (r_pr (one tr)) p) log.
Proof. intros Hs Ht Ha Hv Hi Hf Hst Ho. exact (log_places pn lim tord aord pord kord vord Hv im fm o Hs Ht Ha Hi Hf Hst Ho log p). Qed.

(** C51: fitness values lie between 0 and 1, and 1 means that no token is missing or remaining. *)
Theorem C51_fitness pn lim tord aord pord kord o im fm tr :
  simple_net pn -> any_order tord -> any_order aord -> proper im -> proper fm -> stop_when_unfit o = false ->
  let r := replay pn lim tord aord pord kord o im fm tr in
  0 <= r_missing r <= r_consumed r /\ 0 <= r_remaining r <= r_produced r /\
  (0 <= r_fitness r /\ r_fitness r <= 1)%Q /\
  (im <> ∅ -> fm <> ∅ ->
     (r_fitness r == (1#2) * (1 - inject_Z (r_missing r) / inject_Z (r_consumed r))
                     + (1#2) * (1 - inject_Z (r_remaining r) / inject_Z (r_produced r)))%Q /\
     ((r_fitness r == 1)%Q <-> r_missing r = 0 /\ r_remaining r = 0)).
Proof.
  intros Hs Ht Ha Hi Hf Ho r.
  destruct (counts pn lim tord aord pord kord im fm o Hs Ht Ha Hi Hf tr Ho) as (A & B & C & D & E & F & G & H & I & J & K).
  fold r in A, B, C, D, E, F, G, H, I, J, K.
  pose proof (fitness_formula pn lim tord aord pord kord im fm o Hs Ht Ha Hi tr) as EF. cbn zeta in EF. fold r in EF.
  split; [lia|]. split; [lia|]. split; [rewrite EF; apply trace_fitness_range; assumption|].
  intros Hni Hnf.
  assert (HT : forall m : marking, proper m -> m <> ∅ -> 0 < total m).
  { intros m Hm Hne. apply map_choose in Hne as (p & v & Hp).
    pose proof (entries_delete (fun _ v => v) m p v Hp) as ED. cbv beta in ED.
    assert (0 <= entries (fun _ v => v) (delete p m)).
    { apply entries_nonneg. intros q w Hq. apply lookup_delete_Some in Hq as [_ Hq]. specialize (Hm q w Hq). lia. }
    specialize (Hm p v Hp). rewrite total_entries. lia. }
  assert (HN : forall f : ptrans -> list (nat * Z), (forall t, In t (n_trans pn) -> simple_arcs (f t)) ->
     List.Forall (fun t => In t (n_trans pn)) (r_act r) -> 0 <= zsum (fun t => arcs_total (f t)) (r_act r)).
  { intros f Hsf HF. apply zsum_nonneg. intros t Hin. apply zsum_nonneg. intros [q w] Hw. cbn.
    rewrite Forall_forall in HF. pose proof (proj2 (Hsf t (HF t (proj2 (elem_of_list_In _ _) Hin))) q w Hw). lia. }
  assert (HF : List.Forall (fun t => In t (n_trans pn)) (r_act r)).
  { unfold r, replay. destruct (apply_trace_state pn lim tord aord pord kord im fm o Hs Ht Ha Hi 1 ∅ ∅ ∅ ∅ [] tr) as (s & un & E0 & H0).
    rewrite E0. cbn. destruct H0 as [[I0 _]|(X & _)]; [apply (i_net _ _ _ _ _ _ _ _ I0)|congruence]. }
  pose proof (HT im Hi Hni). pose proof (HT fm Hf Hnf).
  pose proof (HN t_in (fun t Hin => proj1 (Hs t Hin)) HF). pose proof (HN t_out (fun t Hin => proj2 (Hs t Hin)) HF).
  assert (Hc : 0 < r_consumed r) by lia. assert (Hp : 0 < r_produced r) by lia. split.
  - rewrite EF. unfold trace_fitness. rewrite (proj2 (Z.ltb_lt _ _) Hc), (proj2 (Z.ltb_lt _ _) Hp). reflexivity.
  - rewrite EF. apply trace_fitness_one; assumption.
Qed.

(** C52: no missing and no remaining token: the activated transitions lead from the initial to the final
    marking and spell the trace without the activities unknown to the model. *)
Theorem C52_perfect pn lim tord aord pord kord o im fm tr :
  simple_net pn -> any_order tord -> any_order aord -> proper im -> proper fm ->
  let r := replay pn lim tord aord pord kord o im fm tr in
  r_missing r = 0 -> r_remaining r = 0 ->
  run pn im (r_act r) fm /\ r_reached r = fm /\ known_part pn tr (visible (r_act r)) /\
  (List.Forall (known pn) tr -> accepts pn im fm tr).
Proof.
  intros Hs Ht Ha Hi Hf r Hm Hr.
  destruct (missing_bounds pn lim tord aord pord kord im fm o Hs Ht Ha Hi tr) as [B1 B2]. cbn zeta in *. fold r in B1, B2.
  assert (E1 : excess fm (r_reached r) = 0) by lia. rewrite Hr in B2. symmetry in B2.
  pose proof (all_proper pn lim tord aord pord kord im fm o Hs Ht Ha Hi tr) as Hp. fold r in Hp.
  pose proof (excess_eq _ _ Hp Hf B2 E1) as E.
  destruct (fit_run pn lim tord aord pord kord im fm o Hs Ht Ha Hi tr) as (v & Hk & Hv & R).
  { left. fold r. lia. }
  fold r in Hv, R. rewrite E in R. split; [exact R|]. split; [exact E|]. rewrite Hv. split; [exact Hk|].
  intros HF. exists (r_act r). split; [exact R|]. rewrite Hv. clear - Hk HF.
  induction Hk as [|a w v Ha Hk IH|a w v Ha Hk IH]; [reflexivity| |]; inversion HF; subst.
  - f_equal. apply IH. assumption.
  - contradiction.
Qed.

(** C52: the trace_is_fit flag: the activated transitions are a firing sequence of the net spelling the
    trace, and (when remaining tokens are considered) stop in a part of the final marking. *)
Theorem C52_fit pn lim tord aord pord kord o im fm tr :
  simple_net pn -> any_order tord -> any_order aord -> proper im -> proper fm ->
  let r := replay pn lim tord aord pord kord o im fm tr in
  r_fit r = true ->
  run pn im (r_act r) (r_reached r) /\ known_part pn tr (visible (r_act r)) /\
  (consider_remaining o = true -> forall p, tokens (r_reached r) p <= tokens fm p).
Proof.
  intros Hs Ht Ha Hi Hf r Hfit.
  destruct (fit_run pn lim tord aord pord kord im fm o Hs Ht Ha Hi tr (or_intror Hfit)) as (v & Hk & Hv & R).
  fold r in Hv, R. rewrite Hv. split; [exact R|]. split; [exact Hk|]. intros Hc p.
  pose proof (fit_flag pn lim tord aord pord kord im fm o Hs Ht Ha Hi tr Hfit Hc) as Hz. fold r in Hz.
  destruct (missing_bounds pn lim tord aord pord kord im fm o Hs Ht Ha Hi tr) as [_ B2]. cbn zeta in B2. fold r in B2.
  rewrite Hz in B2. symmetry in B2. pose proof (proj1 (excess_zero _ _) B2 p) as H.
  unfold tokens at 1. destruct (r_reached r !! p) as [w|] eqn:E; [apply H; reflexivity|apply proper_nonneg, Hf].
Qed.

(** C52: for nets with a single final token in which every transition produces something, trace_is_fit
    means that the final marking is reached. *)
Theorem C52_fit_sink pn lim tord aord pord kord o im sink tr :
  simple_net pn -> any_order tord -> any_order aord -> proper im -> im <> ∅ ->
  (forall t, In t (n_trans pn) -> t_out t <> []) -> consider_remaining o = true ->
  let fm := {[ sink := 1 ]} in
  let r := replay pn lim tord aord pord kord o im fm tr in
  r_fit r = true ->
  run pn im (r_act r) fm /\ known_part pn tr (visible (r_act r)) /\
  (List.Forall (known pn) tr -> accepts pn im fm tr).
Proof.
  intros Hs Ht Ha Hi Hne Hout Hc fm r Hfit.
  assert (Hf : proper fm) by (apply proper_singleton; lia).
  destruct (C52_fit pn lim tord aord pord kord o im fm tr Hs Ht Ha Hi Hf Hfit) as (R & Hk & Hle).
  fold r in R, Hk, Hle. specialize (Hle Hc).
  assert (Hnz : forall ts m m', proper m -> m <> ∅ -> run pn m ts m' -> exists p, 0 < tokens m' p).
  { induction ts as [|t ts IH]; intros m m' Hm Hmne Hr; inversion Hr; subst.
    - apply map_choose in Hmne as (p & v & Hp). exists p. unfold tokens. rewrite Hp. apply (Hm p v Hp).
    - match goal with F : fires _ _ _ ?m1, R : run _ ?m1 _ _ |- _ => destruct F as (Hin & Hen & Hp1 & Htk); apply (IH m1 m' Hp1); [|exact R] end.
      intros ->. destruct (t_out t) as [|[q w] l] eqn:Eo; [apply (Hout t Hin), Eo|].
      specialize (Htk q). rewrite tokens_empty in Htk. specialize (Hen q).
      assert (E : weight (t_out t) q = w).
      { apply weight_in; [apply (Hs t Hin)|rewrite Eo; left; reflexivity]. }
      assert (0 < w) by (apply (proj2 (proj2 (Hs t Hin)) q w); rewrite Eo; left; reflexivity).
      rewrite <- Eo in Htk. lia. }
  destruct (Hnz _ _ _ Hi Hne R) as [p Hp].
  assert (Ep : p = sink).
  { destruct (Nat.eq_dec p sink) as [->|Hn]; [reflexivity|]. specialize (Hle p). unfold fm in Hle. rewrite tokens_singleton in Hle.
    destruct (Nat.eqb_spec sink p); [congruence|lia]. }
  subst p. pose proof (all_proper pn lim tord aord pord kord im fm o Hs Ht Ha Hi tr) as Hpr. fold r in Hpr.
  assert (E : r_reached r = fm).
  { apply proper_ext; [exact Hpr|exact Hf|]. intros q. specialize (Hle q). pose proof (proper_nonneg _ q Hpr).
    unfold fm in *. rewrite tokens_singleton in *. destruct (Nat.eqb_spec sink q) as [Eq|]; [rewrite <- Eq in *; lia|lia]. }
  rewrite E in R. split; [exact R|]. split; [exact Hk|]. intros HF. exists (r_act r). split; [exact R|].
  clear - Hk HF. induction Hk as [|a w v Ha Hk IH|a w v Ha Hk IH]; [reflexivity| |]; inversion HF; subst.
  - f_equal. apply IH. assumption.
  - contradiction.
Qed.

(** C52: a trace spelled by a firing sequence of visible, uniquely labelled transitions from the initial
    to the final marking is replayed perfectly, through exactly these transitions, whatever the options. *)
Theorem C52_complete pn lim tord aord pord kord o im fm ts :
  simple_net pn -> distinct_labels pn -> any_order tord -> any_order aord -> proper im -> proper fm ->
  run pn im ts fm -> List.Forall (fun t => t_label t <> None) ts ->
  let r := replay pn lim tord aord pord kord o im fm (visible ts) in
  r_fit r = true /\ (r_fitness r == 1)%Q /\ r_act r = ts /\ r_reached r = fm /\
  r_missing r = 0 /\ r_remaining r = 0 /\ r_prob r = [].
Proof.
  intros Hs Hd Ht Ha Hi Hf R HF r.
  exact (complete pn lim tord aord pord kord im fm o Hs Ht Hi Hf ts (visible ts) Hd HF R eq_refl).
Qed.

(** C53: replaying a log gives one result per case, in the order of the log: the result of replaying that
    case alone. *)
Theorem C53_cases pn lim tord aord pord kord vord o im fm log :
  any_order vord -> unknown_unfit o = false ->
  exists rs, fst (apply_log pn lim tord aord pord kord vord o im fm log) = Some rs /\
  List.Forall2 (fun tr r => same_result r (replay pn lim tord aord pord kord o im fm tr)) log rs.
Proof. intros Hv Ho. exact (apply_log_cases pn lim tord aord pord kord vord Hv o im fm log Ho). Qed.

(** C53: hence permuting the log permutes the results. *)
Theorem C53_order pn lim tord aord pord kord vord o im fm log log' rs :
  any_order vord -> unknown_unfit o = false -> Permutation log log' ->
  fst (apply_log pn lim tord aord pord kord vord o im fm log) = Some rs ->
  exists rs' rs'', fst (apply_log pn lim tord aord pord kord vord o im fm log') = Some rs' /\
    Permutation rs rs'' /\ List.Forall2 same_result rs'' rs'.
Proof.
  intros Hv Ho HP E.
  destruct (C53_cases pn lim tord aord pord kord vord o im fm log Hv Ho) as (r1 & E1 & F1). rewrite E in E1. injection E1 as <-.
  destruct (C53_cases pn lim tord aord pord kord vord o im fm log' Hv Ho) as (r2 & E2 & F2).
  assert (H : forall l l' (HP : Permutation l l') r, List.Forall2 (fun tr x => same_result x (replay pn lim tord aord pord kord o im fm tr)) l r ->
     exists r', Permutation r r' /\ List.Forall2 (fun tr x => same_result x (replay pn lim tord aord pord kord o im fm tr)) l' r').
  { clear. induction 1 as [|x l l' HP IH|x y l|l1 l2 l3 H1 IH1 H2 IH2]; intros r F.
    - inversion F; subst. exists []. split; constructor.
    - inversion F as [|? b ? rl Hb Fl]; subst. destruct (IH rl Fl) as (r' & P & F'). exists (b :: r'). split; constructor; assumption.
    - inversion F as [|? b ? rl Hb Fl]; subst. inversion Fl as [|? c ? rl2 Hc Fl2]; subst.
      exists (c :: b :: rl2). split; [constructor|]. constructor; [assumption|]. constructor; assumption.
    - destruct (IH1 r F) as (r' & P & F'). destruct (IH2 r' F') as (r'' & P' & F''). exists r''. split; [eapply Permutation_trans; eassumption|exact F'']. }
  destruct (H log log' HP rs F1) as (r' & P & F'). exists r2, r'. split; [exact E2|]. split; [exact P|].
  clear - F' F2. revert r2 F2. induction F' as [|tr x l r Hx F IH]; intros r2 F2; inversion F2; subst; constructor; [|apply IH; assumption].
  match goal with H : same_result ?y _ |- same_result _ ?y => destruct H as (?&?&?&?&?&?&?&?&?) end.
  destruct Hx as (?&?&?&?&?&?&?&?&?). unfold same_result. repeat split; congruence.
Qed.

(** C54: the evaluation of the replay of a log. *)
Theorem C54_ranges pn lim tord aord pord kord vord o im fm log rs :
  simple_net pn -> any_order tord -> any_order aord -> any_order vord -> proper im -> proper fm ->
  stop_when_unfit o = false -> unknown_unfit o = false ->
  fst (apply_log pn lim tord aord pord kord vord o im fm log) = Some rs ->
  let '(perc, avg, logf) := evaluate rs in
  (0 <= perc <= inject_Z 100 /\ 0 <= avg <= 1 /\ 0 <= logf <= 1)%Q.
Proof.
  intros Hs Ht Ha Hv Hi Hf Hst Ho E.
  destruct (C53_cases pn lim tord aord pord kord vord o im fm log Hv Ho) as (r1 & E1 & F). rewrite E in E1. injection E1 as <-. clear E.
  assert (HA : forall r, In r rs -> 0 <= r_missing r <= r_consumed r /\ 0 <= r_remaining r <= r_produced r /\ (0 <= r_fitness r <= 1)%Q).
  { intros r Hin. apply (Forall2_in_r' F) in Hin as (tr & _ & S).
    destruct (C51_fitness pn lim tord aord pord kord o im fm tr Hs Ht Ha Hi Hf Hst) as (A & B & C & _).
    destruct S as (_ & S2 & _ & _ & _ & S6 & S7 & S8 & S9). rewrite S2, S6, S7, S8, S9. auto. }
  unfold evaluate. rewrite !zsum_of_zsum.
  destruct (Z.ltb_spec 0 (Z.of_nat (length rs))) as [Hn|]; [|repeat split; discriminate].
  destruct (Z.ltb_spec 0 (zsum r_consumed rs)) as [Hc|]; [|repeat split; discriminate].
  destruct (Z.ltb_spec 0 (zsum r_produced rs)) as [Hp|]; [|repeat split; discriminate]. cbn [andb].
  assert (HN : (0 < inject_Z (Z.of_nat (length rs)))%Q) by (change 0%Q with (inject_Z 0); rewrite <- Zlt_Qlt; exact Hn).
  pose proof (filter_len_le r_fit rs) as HL.
  assert (Hm0 : 0 <= zsum r_missing rs) by (apply zsum_nonneg; intros r Hr; apply HA, Hr).
  assert (Hm1 : zsum r_missing rs <= zsum r_consumed rs) by (apply zsum_le; intros r Hr; apply HA, Hr).
  assert (Hr0 : 0 <= zsum r_remaining rs) by (apply zsum_nonneg; intros r Hr; apply HA, Hr).
  assert (Hr1 : zsum r_remaining rs <= zsum r_produced rs) by (apply zsum_le; intros r Hr; apply HA, Hr).
  destruct (inject_div_range _ _ Hm0 Hm1 Hc). destruct (inject_div_range _ _ Hr0 Hr1 Hp).
  destruct (inject_div_range (Z.of_nat (length (List.filter r_fit rs))) (Z.of_nat (length rs))) as [Q1 Q2]; [lia|lia|exact Hn|].
  assert (HB : (0 <= qsum r_fitness rs <= inject_Z (Z.of_nat (length rs)))%Q) by (apply qsum_bounds; intros r Hr; apply HA, Hr).
  split; [|split; [|split; lra]].
  - assert (EQ : (inject_Z 100 * inject_Z (Z.of_nat (length (List.filter r_fit rs))) / inject_Z (Z.of_nat (length rs))
       == inject_Z 100 * (inject_Z (Z.of_nat (length (List.filter r_fit rs))) / inject_Z (Z.of_nat (length rs))))%Q) by (unfold Qdiv; ring).
    rewrite EQ. change (inject_Z 100) with (100 # 1)%Q. split; lra.
  - rewrite fold_qsum, Qplus_0_l. split.
    + apply Qle_shift_div_l; [exact HN|]. rewrite Qmult_0_l. apply HB.
    + apply Qle_shift_div_r; [exact HN|]. rewrite Qmult_1_l. apply HB.
Qed.

(** C54: the perfect values: percentage 100 = all cases fit; log fitness 1 = no missing and no remaining
    token in any case = average fitness 1. *)
Theorem C54_perfect pn lim tord aord pord kord vord o im fm log rs :
  simple_net pn -> any_order tord -> any_order aord -> any_order vord -> proper im -> proper fm -> im <> ∅ -> fm <> ∅ ->
  stop_when_unfit o = false -> unknown_unfit o = false -> log <> [] ->
  fst (apply_log pn lim tord aord pord kord vord o im fm log) = Some rs ->
  let '(perc, avg, logf) := evaluate rs in
  ((perc == inject_Z 100)%Q <-> forall r, In r rs -> r_fit r = true) /\
  ((logf == 1)%Q <-> forall r, In r rs -> r_missing r = 0 /\ r_remaining r = 0) /\
  ((avg == 1)%Q <-> forall r, In r rs -> r_missing r = 0 /\ r_remaining r = 0).
Proof.
  intros Hs Ht Ha Hv Hi Hf Hni Hnf Hst Ho Hlog E.
  destruct (C53_cases pn lim tord aord pord kord vord o im fm log Hv Ho) as (r1 & E1 & F). rewrite E in E1. injection E1 as <-. clear E.
  assert (HA : forall r, In r rs -> 0 <= r_missing r <= r_consumed r /\ 0 <= r_remaining r <= r_produced r /\ (0 <= r_fitness r <= 1)%Q /\
     0 < r_consumed r /\ 0 < r_produced r /\ ((r_fitness r == 1)%Q <-> r_missing r = 0 /\ r_remaining r = 0)).
  { intros r Hin. apply (Forall2_in_r' F) in Hin as (tr & _ & S).
    destruct (C51_fitness pn lim tord aord pord kord o im fm tr Hs Ht Ha Hi Hf Hst) as (A & B & C & D).
    destruct (C51_counts pn lim tord aord pord kord o im fm tr Hs Ht Ha Hi Hf Hst) as (CC & CP & _).
    destruct S as (_ & S2 & _ & _ & _ & S6 & S7 & S8 & S9). rewrite S2, S6, S7, S8, S9.
    do 3 (split; [assumption|]). destruct (D Hni Hnf) as [_ D2].
    assert (HT : forall m : marking, proper m -> m <> ∅ -> 0 < total m).
    { clear. intros m Hm Hne. apply map_choose in Hne as (p & v & Hp).
      pose proof (entries_delete (fun _ v => v) m p v Hp) as ED. cbv beta in ED.
      assert (0 <= entries (fun _ v => v) (delete p m)).
      { apply entries_nonneg. intros q w Hq. apply lookup_delete_Some in Hq as [_ Hq]. specialize (Hm q w Hq). lia. }
      specialize (Hm p v Hp). rewrite total_entries. lia. }
    assert (HF : List.Forall (fun t => In t (n_trans pn)) (r_act (replay pn lim tord aord pord kord o im fm tr))).
    { unfold replay. destruct (apply_trace_state pn lim tord aord pord kord im fm o Hs Ht Ha Hi 1 ∅ ∅ ∅ ∅ [] tr) as (s & un & E0 & H0).
      rewrite E0. cbn. destruct H0 as [[I0 _]|(X & _)]; [apply (i_net _ _ _ _ _ _ _ _ I0)|congruence]. }
    assert (HN : forall f : ptrans -> list (nat * Z), (forall t, In t (n_trans pn) -> simple_arcs (f t)) ->
      0 <= zsum (fun t => arcs_total (f t)) (r_act (replay pn lim tord aord pord kord o im fm tr))).
    { intros f Hsf. apply zsum_nonneg. intros t Hin. apply zsum_nonneg. intros [q w] Hw. cbn.
      rewrite Forall_forall in HF. pose proof (proj2 (Hsf t (HF t (proj2 (elem_of_list_In _ _) Hin))) q w Hw). lia. }
    pose proof (HT im Hi Hni). pose proof (HT fm Hf Hnf).
    pose proof (HN t_in (fun t Hin => proj1 (Hs t Hin))). pose proof (HN t_out (fun t Hin => proj2 (Hs t Hin))).
    cbn zeta in CC, CP. split; [lia|]. split; [lia|]. exact D2. }
  assert (Hne : rs <> []) by (intros ->; inversion F; subst; congruence).
  assert (Hn : 0 < Z.of_nat (length rs)) by (destruct rs; [congruence|cbn [length]; lia]).
  assert (HS : forall (f g : result -> Z), (forall r, In r rs -> 0 < f r) -> 0 < zsum f rs).
  { intros f _ Hpos. destruct rs as [|r rs']; [congruence|]. cbn [zsum]. pose proof (Hpos r (or_introl eq_refl)).
    assert (0 <= zsum f rs') by (apply zsum_nonneg; intros x Hx; pose proof (Hpos x (or_intror Hx)); lia). lia. }
  pose proof (HS r_consumed r_consumed (fun r Hr => proj1 (proj2 (proj2 (proj2 (HA r Hr)))))) as Hc.
  pose proof (HS r_produced r_produced (fun r Hr => proj1 (proj2 (proj2 (proj2 (proj2 (HA r Hr))))))) as Hp. clear HS.
  unfold evaluate. rewrite !zsum_of_zsum, (proj2 (Z.ltb_lt _ _) Hn), (proj2 (Z.ltb_lt _ _) Hc), (proj2 (Z.ltb_lt _ _) Hp). cbn [andb].
  assert (HN : ~ (inject_Z (Z.of_nat (length rs)) == 0)%Q) by (intros EQ; apply (proj1 (inject_Z_injective (Z.of_nat (length rs)) 0)) in EQ; lia).
  split; [|split].
  - rewrite <- filter_full. split.
    + intros EQ. apply Nat2Z.inj. apply (proj1 (inject_div_one _ _ Hn)).
      assert (EQ2 : (inject_Z 100 * (inject_Z (Z.of_nat (length (List.filter r_fit rs))) / inject_Z (Z.of_nat (length rs))) == inject_Z 100)%Q)
        by (rewrite <- EQ at 2; unfold Qdiv; ring).
      change (inject_Z 100) with (100 # 1)%Q in EQ2. lra.
    + intros EQ. rewrite EQ. field. exact HN.
  - assert (Hm0 : 0 <= zsum r_missing rs) by (apply zsum_nonneg; intros r Hr; apply HA, Hr).
    assert (Hm1 : zsum r_missing rs <= zsum r_consumed rs) by (apply zsum_le; intros r Hr; apply HA, Hr).
    assert (Hr0 : 0 <= zsum r_remaining rs) by (apply zsum_nonneg; intros r Hr; apply HA, Hr).
    assert (Hr1 : zsum r_remaining rs <= zsum r_produced rs) by (apply zsum_le; intros r Hr; apply HA, Hr).
    pose proof (trace_fitness_one _ _ _ _ Hm0 Hm1 Hr0 Hr1 Hc Hp) as HO. unfold trace_fitness in HO.
    rewrite (proj2 (Z.ltb_lt _ _) Hc), (proj2 (Z.ltb_lt _ _) Hp) in HO. cbn [andb] in HO. rewrite HO.
    assert (Z0 : forall f : result -> Z, (forall r, In r rs -> 0 <= f r) -> (zsum f rs = 0 <-> forall r, In r rs -> f r = 0)).
    { clear. induction rs as [|x rs IH]; intros f Hf0; cbn [zsum]; [split; [intros _ r []|reflexivity]|].
      pose proof (Hf0 x (or_introl eq_refl)) as H1. assert (H2 : forall r, In r rs -> 0 <= f r) by (intros r Hr; apply Hf0; right; exact Hr).
      pose proof (zsum_nonneg f rs H2). specialize (IH f H2). split.
      - intros HH r [<-|Hr]; [lia|]. apply IH; [lia|exact Hr].
      - intros HH. rewrite (HH x (or_introl eq_refl)), (proj2 IH); [reflexivity|]. intros r Hr. apply HH. right. exact Hr. }
    rewrite (Z0 r_missing (fun r Hr => proj1 (proj1 (HA r Hr)))), (Z0 r_remaining (fun r Hr => proj1 (proj1 (proj2 (HA r Hr))))).
    split; [intros [A B] r Hr; auto|intros H; split; intros r Hr; apply (H r Hr)].
  - rewrite fold_qsum, Qplus_0_l.
    assert (HB : forall r, In r rs -> (0 <= r_fitness r <= 1)%Q) by (intros r Hr; apply HA, Hr).
    split.
    + intros EQ r Hr. apply (HA r Hr). apply (proj1 (qsum_full r_fitness rs HB)); [|exact Hr].
      rewrite <- (Qmult_div_r (qsum r_fitness rs) _ HN), EQ. ring.
    + intros H. assert (EQ : (qsum r_fitness rs == inject_Z (Z.of_nat (length rs)))%Q).
      { apply (qsum_full r_fitness rs HB). intros r Hr. apply (HA r Hr), (H r Hr). }
      rewrite EQ. field. exact HN.
Qed.

(** C55: the table of shortest silent paths: every stored path leads from place to place through silent
    transitions, and no silent path (of a length within the recursion limit) is shorter. *)
Theorem C55_paths pn lim aord p q g : any_order aord ->
  path_lookup (hidden_paths pn lim aord) p q = Some g ->
  silent_path pn p g q /\ forall ts, silent_path pn p ts q -> (length g <= length ts)%nat \/ (S (l_paths lim) < length ts)%nat.
Proof.
  intros Ha H. split; [exact (hidden_paths_sound pn aord Ha lim p q g H)|]. intros ts Hts.
  destruct (Nat.le_gt_cases (length ts) (S (l_paths lim))) as [Hle|Hgt]; [left|right; exact Hgt].
  unfold path_lookup in H. destruct (d_get (hidden_paths pn lim aord) p) as [d|] eqn:E; [|discriminate].
  assert (E' : d = paths_from pn aord (S (l_paths lim)) p [] []).
  { apply d_get_in in E. unfold hidden_paths in E. apply in_map_iff in E as [p' [E _]]. congruence. }
  subst d. destruct (paths_min pn aord Ha (S (l_paths lim)) p ltac:(lia) ts q Hts Hle) as [g' [Hg' Hl]].
  rewrite H in Hg'. injection Hg' as <-. exact Hl.
Qed.
(** C55: and every silent path within the limit is represented. *)
Theorem C55_found pn lim aord p q ts : any_order aord -> In p (n_places pn) ->
  silent_path pn p ts q -> (length ts <= S (l_paths lim))%nat ->
  exists g, path_lookup (hidden_paths pn lim aord) p q = Some g.
Proof.
  intros Ha Hp Hts Hle. unfold path_lookup. rewrite (hidden_paths_get pn aord lim p Hp).
  destruct (paths_min pn aord Ha (S (l_paths lim)) p ltac:(lia) ts q Hts Hle) as [g [Hg _]]. exists g. exact Hg.
Qed.

(** ** Concrete cases and refutations of stronger claims *)
Definition ids {A} (l : list A) : list A := l.
Lemma any_ids {A} : any_order (@ids A). Proof. intros l. apply Permutation_refl. Qed.
Definition std_lim := Limits 50 2 5 5 100.
Definition play pn o im fm tr := replay pn std_lim ids ids ids ids o im fm tr.
Definition summary r := (r_fit r, r_missing r, r_consumed r, r_remaining r, r_produced r, map t_id (r_act r)).

Ltac small_arcs := split; cbn;
  [repeat (constructor; [cbn; intuition lia|]); constructor
  |intros ? ? Hin; cbn in Hin; repeat (destruct Hin as [[= <- <-]|Hin]; [lia|]); contradiction].
Ltac small_net := intros t Ht; cbn in Ht; repeat (destruct Ht as [<-|Ht]; [split; small_arcs|]); contradiction.

(** p0 -a-> p1 -tau-> p2 -b-> p3 *)
Definition tau_net : petri_net (option nat) := Net [0; 1; 2; 3]%nat
  [Trans 0 (Some 1%nat) [(0%nat, 1)] [(1%nat, 1)]; Trans 1 None [(1%nat, 1)] [(2%nat, 1)];
   Trans 2 (Some 2%nat) [(2%nat, 1)] [(3%nat, 1)]].
Lemma tau_net_simple : simple_net tau_net. Proof. small_net. Qed.
Lemma tau_net_unit : unit_weights tau_net.
Proof. intros t Ht p w H. cbn in Ht. repeat (destruct Ht as [<-|Ht]; [cbn in H; intuition congruence|]). contradiction. Qed.

Example C51_example :
  simple_net tau_net /\ unit_weights tau_net /\
  summary (play tau_net default_options {[ 0%nat := 1 ]} {[ 3%nat := 1 ]} [1; 2]%nat) = (true, 0, 4, 0, 4, [0; 1; 2]%nat) /\
  summary (play tau_net default_options {[ 0%nat := 1 ]} {[ 3%nat := 1 ]} [2; 2]%nat) = (false, 2, 3, 2, 3, [2; 2]%nat) /\
  summary (play tau_net default_options {[ 0%nat := 1 ]} {[ 3%nat := 1 ]} [1]%nat) = (false, 1, 2, 1, 2, [0]%nat).
Proof. split; [exact tau_net_simple|]. split; [exact tau_net_unit|]. repeat split; vm_compute; reflexivity. Qed.

Ltac small_marking := solve [apply proper_singleton; lia | apply proper_insert; [apply proper_singleton; lia|lia]].

(** With arc weights above 1 the counters need not balance: a transition that lacks one of two tokens gets
    two tokens added, but one is counted. *)
Theorem C51_balance_refuted : exists pn im fm tr,
  simple_net pn /\ proper im /\ proper fm /\
  let r := play pn default_options im fm tr in
  r_produced r + r_missing r <> r_consumed r + r_remaining r.
Proof.
  exists (Net [0; 1]%nat [Trans 0 (Some 1%nat) [(0%nat, 2)] [(1%nat, 1)]]), {[ 0%nat := 1 ]}, {[ 1%nat := 1 ]}, [1%nat].
  split; [small_net|]. split; [small_marking|]. split; [small_marking|]. vm_compute. discriminate.
Qed.

(** The missing tokens of a place are counted once per variant, the other statistics once per case. *)
Theorem C51_places_refuted : exists pn im fm log p,
  simple_net pn /\ unit_weights pn /\ proper im /\ proper fm /\
  let '(c, p', m, r) := snd (apply_log pn std_lim ids ids ids ids ids default_options im fm log) in
  tokens p' p + tokens m p <> tokens c p + tokens r p.
Proof.
  exists tau_net, {[ 0%nat := 1 ]}, {[ 3%nat := 1 ]}, [[2]; [2]]%nat, 2%nat.
  split; [exact tau_net_simple|]. split; [exact tau_net_unit|]. split; [small_marking|]. split; [small_marking|].
  vm_compute. discriminate.
Qed.

(** When the replay stops at the first problem, the fitness can be negative. *)
Theorem C51_fitness_refuted : exists pn im fm tr,
  simple_net pn /\ unit_weights pn /\ proper im /\ proper fm /\
  (r_fitness (play pn (Options true true true true false) im fm tr) < 0)%Q.
Proof.
  exists tau_net, {[ 0%nat := 1 ]}, {[ 3%nat := 1 ]}, [2%nat].
  split; [exact tau_net_simple|]. split; [exact tau_net_unit|]. split; [small_marking|]. split; [small_marking|].
  vm_compute. reflexivity.
Qed.

Example C52_example :
  simple_net tau_net /\
  (forall t, In t (n_trans tau_net) -> t_out t <> []) /\
  r_fit (play tau_net default_options {[ 0%nat := 1 ]} {[ 3%nat := 1 ]} [1; 9; 2]%nat) = true /\
  accepts tau_net {[ 0%nat := 1 ]} {[ 3%nat := 1 ]} [1; 2]%nat.
Proof.
  assert (Ho : forall t, In t (n_trans tau_net) -> t_out t <> []).
  { intros t Ht. cbn in Ht. repeat (destruct Ht as [<-|Ht]; [discriminate|]). contradiction. }
  split; [exact tau_net_simple|]. split; [exact Ho|]. split; [vm_compute; reflexivity|].
  refine (proj2 (proj2 (C52_fit_sink tau_net std_lim ids ids ids ids default_options {[ 0%nat := 1 ]} 3%nat [1; 2]%nat
    tau_net_simple any_ids any_ids _ _ Ho eq_refl _)) _).
  - small_marking.
  - intros E. apply (f_equal (lookup 0%nat)) in E. discriminate.
  - vm_compute. reflexivity.
  - repeat constructor.
    + exists (Trans 0 (Some 1%nat) [(0%nat, 1)] [(1%nat, 1)]). split; [left; reflexivity|reflexivity].
    + exists (Trans 2 (Some 2%nat) [(2%nat, 1)] [(3%nat, 1)]). split; [right; right; left; reflexivity|reflexivity].
Qed.

(** trace_is_fit does not mean that the final marking is reached: the missing tokens of the final marking
    are counted after the flag is computed. *)
Theorem C52_fit_refuted : exists pn im fm tr,
  simple_net pn /\ unit_weights pn /\ proper im /\ proper fm /\
  let r := play pn default_options im fm tr in
  r_fit r = true /\ r_reached r <> fm /\ 0 < r_missing r /\ (r_fitness r < 1)%Q.
Proof.
  exists (Net [0; 1; 2]%nat [Trans 0 (Some 1%nat) [(0%nat, 1)] [(1%nat, 1)]]), {[ 0%nat := 1 ]}, (<[1%nat := 1]> {[ 2%nat := 1 ]}), [1%nat].
  split; [small_net|]. split.
  { intros t Ht p w H. cbn in Ht. repeat (destruct Ht as [<-|Ht]; [cbn in H; intuition congruence|]). contradiction. }
  split; [small_marking|]. split; [small_marking|]. split; [vm_compute; reflexivity|]. split.
  - intros E. apply (f_equal (lookup 2%nat)) in E. vm_compute in E. discriminate.
  - split; vm_compute; reflexivity.
Qed.

(** With duplicate labels an accepted trace can be judged unfit. *)
Theorem C52_complete_refuted : exists pn im fm tr,
  simple_net pn /\ unit_weights pn /\ proper im /\ proper fm /\ accepts pn im fm tr /\
  r_fit (play pn default_options im fm tr) = false.
Proof.
  exists (Net [0; 1; 2; 3]%nat [Trans 0 (Some 1%nat) [(0%nat, 1)] [(1%nat, 1)]; Trans 1 (Some 1%nat) [(0%nat, 1)] [(2%nat, 1)];
    Trans 2 (Some 2%nat) [(2%nat, 1)] [(3%nat, 1)]]), {[ 0%nat := 1 ]}, {[ 3%nat := 1 ]}, [1; 2]%nat.
  assert (Hs : simple_net (Net [0; 1; 2; 3]%nat [Trans 0 (Some 1%nat) [(0%nat, 1)] [(1%nat, 1)]; Trans 1 (Some 1%nat) [(0%nat, 1)] [(2%nat, 1)];
    Trans 2 (Some 2%nat) [(2%nat, 1)] [(3%nat, 1)]])) by small_net.
  split; [exact Hs|]. split.
  { intros t Ht p w H. cbn in Ht. repeat (destruct Ht as [<-|Ht]; [cbn in H; intuition congruence|]). contradiction. }
  split; [small_marking|]. split; [small_marking|]. split; [|vm_compute; reflexivity].
  exists [Trans 1 (Some 1%nat) [(0%nat, 1)] [(2%nat, 1)]; Trans 2 (Some 2%nat) [(2%nat, 1)] [(3%nat, 1)]]. split; [|reflexivity].
  assert (HP : forall p, proper {[ p := 1 ]}) by (intros p; small_marking).
  assert (HT : forall p q, tokens {[ p := 1 ]} q = if Nat.eqb p q then 1 else 0) by (intros p q; apply tokens_singleton).
  econstructor; [|econstructor; [|constructor]]; (split; [cbn; auto|]);
    [instantiate (1 := {[ 2%nat := 1 ]})|]; (split; [|split; [apply HP|]]); intros p; rewrite ?HT; cbn [t_in t_out weight];
    repeat match goal with |- context [Nat.eqb ?x p] => destruct (Nat.eqb_spec x p) end; subst; try lia; congruence.
Qed.

Example C53_example :
  option_map (map r_fit) (fst (apply_log tau_net std_lim ids ids ids ids (@rev _) default_options {[ 0%nat := 1 ]} {[ 3%nat := 1 ]} [[1; 2]; [2]; [1; 2]]%nat))
  = Some [true; false; true].
Proof. vm_compute. reflexivity. Qed.

(** With CONSIDER_ACTIVITIES_NOT_IN_MODEL_IN_FITNESS the result of a case depends on the other cases: one
    unknown activity makes all the cases replayed afterwards unfit. *)
Theorem C53_refuted : exists pn im fm log o rs,
  simple_net pn /\ proper im /\ proper fm /\ unknown_unfit o = true /\
  fst (apply_log pn std_lim ids ids ids ids ids o im fm log) = Some rs /\
  exists i tr r, nth_error log i = Some tr /\ nth_error rs i = Some r /\ r_fit r = false /\ r_fit (play pn o im fm tr) = true.
Proof.
  exists tau_net, {[ 0%nat := 1 ]}, {[ 3%nat := 1 ]}, [[9]; [1; 2]]%nat, (Options true true false true true).
  eexists. split; [exact tau_net_simple|]. split; [small_marking|]. split; [small_marking|]. split; [reflexivity|].
  split; [vm_compute; reflexivity|]. exists 1%nat, [1; 2]%nat. eexists. split; [reflexivity|]. split; [reflexivity|].
  split; vm_compute; reflexivity.
Qed.

Example C54_example : exists rs,
  fst (apply_log tau_net std_lim ids ids ids ids ids default_options {[ 0%nat := 1 ]} {[ 3%nat := 1 ]} [[1; 2]; [2]]%nat) = Some rs /\
  let '(perc, avg, logf) := evaluate rs in (perc == inject_Z 50 /\ avg == 3#4 /\ logf == 5#6)%Q.
Proof. eexists. split; [vm_compute; reflexivity|]. vm_compute. auto. Qed.

(** For an empty initial or final marking the evaluation can be 0 although every trace fitness is 1. *)
Theorem C54_perfect_refuted : exists pn im fm log rs,
  simple_net pn /\ proper im /\ proper fm /\ log <> [] /\
  fst (apply_log pn std_lim ids ids ids ids ids default_options im fm log) = Some rs /\
  (forall r, In r rs -> r_fit r = true /\ (r_fitness r == 1)%Q) /\
  let '(perc, avg, logf) := evaluate rs in (perc == 0 /\ avg == 0 /\ logf == 0)%Q.
Proof.
  exists tau_net, ∅, ∅, [[]]. eexists. split; [exact tau_net_simple|].
  assert (H0 : proper ∅) by (intros p v H; rewrite lookup_empty in H; discriminate).
  split; [exact H0|]. split; [exact H0|]. split; [discriminate|]. split; [vm_compute; reflexivity|].
  split; [|vm_compute; auto]. intros r [<-|[]]. split; reflexivity.
Qed.

Example C55_example :
  option_map (map t_id) (path_lookup (hidden_paths tau_net std_lim ids) 1 2) = Some [1%nat] /\
  silent_path tau_net 1 [Trans 1 None [(1%nat, 1)] [(2%nat, 1)]] 2.
Proof. split; [vm_compute; reflexivity|]. constructor; cbn; auto. Qed.
Print Assumptions C51_counts.
Print Assumptions C51_balance.
Print Assumptions C51_places.
Print Assumptions C51_fitness.
Print Assumptions C52_perfect.
Print Assumptions C52_fit.
Print Assumptions C52_fit_sink.
Print Assumptions C52_complete.
Print Assumptions C53_cases.
Print Assumptions C53_order.
Print Assumptions C54_ranges.
Print Assumptions C54_perfect.
Print Assumptions C55_paths.
Print Assumptions C55_found.
Print Assumptions C51_balance_refuted.
Print Assumptions C51_places_refuted.
Print Assumptions C51_fitness_refuted.
Print Assumptions C52_fit_refuted.
Print Assumptions C52_complete_refuted.
Print Assumptions C53_refuted.
Print Assumptions C54_perfect_refuted.
Print Assumptions C51_log_places.
