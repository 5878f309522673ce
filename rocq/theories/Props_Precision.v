(** Property theorems C68 (ETConformance precision). *)
From stdpp Require Import gmap.
From Coq Require Import ZArith QArith Lia List Permutation.
From Verif Require Import Model_Petri Spec_Petri Proofs_Petri Model_Align Model_Dict Proofs_Dict Model_Precision Spec_Precision
  Proofs_Precision1 Proofs_Precision2 Proofs_Precision3 Proofs_Precision4.
Import ListNotations.
Local Open Scope Z_scope.

(** ---- Visible transitions eventually enabled ---- *)
Theorem C68_eventually_enabled_sound : forall fuel pn m r,
  distinct_ids pn -> simple_net pn -> proper m ->
  visible_eventually_enabled fuel pn m = Some r ->
  forall t, In t r -> eventually_enabled pn m t.
Proof. intros fuel pn m r Hid Hs Hm. apply visible_sound; assumption. Qed.
Print Assumptions C68_eventually_enabled_sound.

Theorem C68_eventually_enabled_exact : forall fuel pn m r,
  distinct_ids pn -> simple_net pn -> proper m -> no_silent_concurrency pn m ->
  visible_eventually_enabled fuel pn m = Some r ->
  forall t, In t r <-> eventually_enabled pn m t.
Proof.
  intros fuel pn m r Hid Hs Hm HU E t. split; [eapply visible_sound|eapply visible_complete]; eassumption.
Qed.
Print Assumptions C68_eventually_enabled_exact.

Theorem C68_eventually_enabled_terminates : forall pn m l,
  distinct_ids pn -> simple_net pn -> proper m -> (forall m', silently pn m m' -> In m' l) ->
  exists fuel, visible_eventually_enabled fuel pn m <> None.
Proof. intros pn m l Hid Hs Hm Hl. eexists. apply (visible_terminates pn m Hid Hs Hm l Hl). Qed.
Print Assumptions C68_eventually_enabled_terminates.

(** Nets in which every transition moves one token (state machines) satisfy the condition. *)
Definition state_machine (pn : petri_net (option nat)) : Prop :=
  forall t, In t (n_trans pn) -> exists p q, t_in t = [(p, 1)] /\ t_out t = [(q, 1)].
Lemma sm_fires pn t p m' : state_machine pn -> fires pn t {[ p := 1 ]} m' ->
  t_in t = [(p, 1)] /\ exists q, t_out t = [(q, 1)] /\ m' = {[ q := 1 ]}.
Proof.
  intros Hsm (Hin & He & Hp & Ht). destruct (Hsm t Hin) as (p' & q & E1 & E2).
  assert (p' = p) as ->.
  { specialize (He p'). rewrite E1, tokens_singleton in He. cbn in He. rewrite Nat.eqb_refl in He.
    destruct (Nat.eqb_spec p p'); [auto|lia]. }
  split; [exact E1|]. exists q. split; [exact E2|].
  apply proper_ext; [exact Hp|apply proper_singleton; lia|]. intros x. rewrite Ht, E1, E2, !tokens_singleton. cbn [weight].
  destruct (Nat.eqb_spec p x), (Nat.eqb_spec q x); lia.
Qed.
Lemma sm_run pn ts m m' : state_machine pn -> run pn m ts m' -> forall p, m = {[ p := 1 ]} -> exists q, m' = {[ q := 1 ]}.
Proof.
  intros Hsm Hr. induction Hr as [|m t m1 ts m2 Hf Hr IH]; intros p ->; [eauto|].
  destruct (sm_fires _ _ _ _ Hsm Hf) as (_ & q & _ & ->). eapply IH. reflexivity.
Qed.
Theorem C68_state_machine : forall pn p, state_machine pn -> no_silent_concurrency pn {[ p := 1 ]}.
Proof.
  intros pn p Hsm t m1 m2 Ht _ (ts1 & Hr1 & _) (ts2 & Hr2 & _) H1 H2.
  destruct (sm_run _ _ _ _ Hsm Hr1 p eq_refl) as [q1 ->]. destruct (sm_run _ _ _ _ Hsm Hr2 p eq_refl) as [q2 ->].
  destruct (Hsm t Ht) as (p' & q & E & _). specialize (H1 p'). specialize (H2 p').
  rewrite E, tokens_singleton in H1, H2. cbn in H1, H2. rewrite Nat.eqb_refl in H1, H2.
  destruct (Nat.eqb_spec q1 p'), (Nat.eqb_spec q2 p'); subst; auto; lia.
Qed.
Print Assumptions C68_state_machine.

(** ---- The markings in which a prefix stops ---- *)
Theorem C68_prefix_markings : forall fuel pn im fm w r,
  simple_net pn -> unit_weights pn -> proper im -> silent_have_input pn ->
  prefix_markings fuel w pn im fm = Some r ->
  match r with
  | None => forall m k, ~ spells pn im w m k
  | Some ms => ms <> [] /\ forall m, In m (map original_marking ms) <-> shortest pn im w m
  end.
Proof. intros fuel pn im fm w r Hs Hu Hi Hin. apply prefix_markings_correct; assumption. Qed.
Print Assumptions C68_prefix_markings.

Theorem C68_prefix_markings_terminates : forall pn im fm w l,
  simple_net pn -> unit_weights pn -> proper im -> silent_have_input pn ->
  (forall m, reachable pn im m -> In m l) -> exists fuel, prefix_markings fuel w pn im fm <> None.
Proof. intros pn im fm w l Hs Hu Hi Hin. apply prefix_markings_terminates; assumption. Qed.
Print Assumptions C68_prefix_markings_terminates.

(** ---- The value, for any way of finding the activated labels (alignments or token replay) ---- *)
Definition labels_at (act : list nat -> option (list nat)) (init w : list nat) : list nat :=
  match w with [] => init | _ => match act w with Some ls => ls | None => [] end end.

Theorem C68_formula : forall act init log,
  precision_of act init (len_event_log log) log = et_precision (labels_at act init) log.
Proof. intros act init log. apply precision_formula. Qed.
Print Assumptions C68_formula.

Theorem C68_range : forall act init n log,
  (0 <= precision_of act init n log /\ precision_of act init n log <= 1)%Q.
Proof.
  intros act init n log. unfold precision_of. rewrite precision_sums_spec. unfold precision_value. cbn [fst snd].
  match goal with |- context [Nat.ltb 0 ?x] => destruct (Nat.ltb_spec 0 x) as [H|H] end.
  - apply ratio_range; [|exact H]. apply Nat.add_le_mono.
    + apply Nat.mul_le_mono_l, filter_len.
    + apply lsum_map_le. intros w _. apply filter_len.
  - split; unfold Qle; cbn; lia.
Qed.
Print Assumptions C68_range.

Theorem C68_one_iff : forall act init log,
  (precision_of act init (len_event_log log) log == 1)%Q <->
  forall tr i a, In tr log -> (i = 0%nat \/ (i < length tr)%nat) -> In a (labels_at act init (firstn i tr)) ->
    log_has_prefix log (firstn i tr ++ [a]).
Proof.
  intros act init log. rewrite C68_formula, et_one. split.
  - intros H tr i a Htr Hi Ha. apply H; [exists tr, i; auto|exact Ha].
  - intros H w a (tr & i & Htr & Hi & ->) Ha. apply H; assumption.
Qed.
Print Assumptions C68_one_iff.

Theorem C68_case_order : forall act init log log',
  Permutation log log' ->
  precision_of act init (len_event_log log) log = precision_of act init (len_event_log log') log'.
Proof. intros act init log log' HP. rewrite !C68_formula. apply et_perm, HP. Qed.
Print Assumptions C68_case_order.

(** The strings used as keys identify the prefix as long as no activity contains the separator. *)
Theorem C68_prefix_key : forall sep w, w <> [] -> (forall a, In a w -> ~ In sep a) ->
  split_sep sep (join_sep sep w) = w.
Proof. intros sep w. apply split_join. Qed.
Print Assumptions C68_prefix_key.

(** ---- Alignment-based precision, end to end ---- *)
Definition align_labels (fuel : nat) (pn : petri_net (option nat)) (im fm : marking) (w : list nat) : list nat :=
  labels_at (fun w => match align_activated fuel pn im fm w with Some r => r | None => None end)
            (match visible_eventually_enabled fuel pn im with Some ts => labels_of ts | None => [] end) w.

Lemma spells_snoc pn im w m k a : spells pn im w m k -> can_do pn m a -> proper im -> simple_net pn ->
  exists ts m', run pn im ts m' /\ visible ts = w ++ [a].
Proof.
  intros (ts & Hr & Hv & _) (t & (Ht & _ & m' & (us & Hu & Hvu) & He) & El) Him Hs.
  assert (Hm' : proper m') by (eapply run_proper; [|exact Hu]; eapply run_proper; [exact Him|exact Hr]).
  pose proof (weak_execute_fires pn t m' (Hs t Ht) Hm' Ht He) as Hf.
  exists (ts ++ us ++ [t]), (weak_execute t m'). split.
  - eapply run_app; [exact Hr|]. eapply run_app; [exact Hu|]. econstructor; [exact Hf|constructor].
  - rewrite !visible_app, Hv, Hvu. cbn. rewrite El. reflexivity.
Qed.

Section EndToEnd.
  Variables (fuel : nat) (pn : petri_net (option nat)) (im fm : marking).
  Hypothesis Hid : distinct_ids pn.
  Hypothesis Hs : simple_net pn.
  Hypothesis Hu : unit_weights pn.
  Hypothesis Him : proper im.
  Hypothesis Hin : silent_have_input pn.

  Lemma shortest_proper w m : shortest pn im w m -> proper m.
  Proof. intros (k & (ts & Hr & _) & _). eapply run_proper; [exact Him|exact Hr]. Qed.

  Lemma align_labels_sound w a : In a (align_labels fuel pn im fm w) ->
    (w = [] /\ can_do pn im a) \/ (w <> [] /\ exists m, shortest pn im w m /\ can_do pn m a).
  Proof.
    unfold align_labels, labels_at. destruct w as [|x w].
    - intros H. left. split; [reflexivity|]. destruct (visible_eventually_enabled fuel pn im) as [ts|] eqn:E; [|destruct H].
      apply labels_of_in in H as (t & Ht & El). exists t. split; [|exact El]. eapply visible_sound; eassumption.
    - intros H. right. split; [discriminate|]. unfold align_activated in H.
      destruct (prefix_markings fuel (x :: w) pn im fm) as [[ms|]|] eqn:E; [|destruct H|destruct H].
      destruct (union_labels fuel pn (map original_marking ms)) as [ls|] eqn:E2; [|destruct H]. cbn [option_map] in H.
      apply (prefix_markings_correct pn im fm (x :: w) Hs Hu Him Hin) in E. destruct E as [_ Hms].
      destruct (union_labels_in _ _ _ _ E2) as (_ & _ & Hls). apply Hls in H as (m & ts & t & Hm & Ev & Ht & El).
      apply Hms in Hm. exists m. split; [exact Hm|]. exists t. split; [|exact El].
      eapply visible_sound; try eassumption. eapply shortest_proper, Hm.
  Qed.

  Lemma align_labels_complete log q w a : align_precision fuel pn im fm log = Some q ->
    position log w ->
    (w = [] /\ no_silent_concurrency pn im /\ can_do pn im a) \/
    (w <> [] /\ exists m, shortest pn im w m /\ no_silent_concurrency pn m /\ can_do pn m a) ->
    In a (align_labels fuel pn im fm w).
  Proof.
    unfold align_precision. destruct (visible_eventually_enabled fuel pn im) as [ts|] eqn:E; [|discriminate].
    destruct (forallb _ _) eqn:Ef; [|discriminate]. intros _ Hpos Hc. unfold align_labels, labels_at. rewrite E.
    destruct Hc as [(-> & HU & t & He & El)|(Hne & m & Hsh & HU & t & He & El)].
    - apply labels_of_in. exists t. split; [|exact El]. eapply visible_complete; eassumption.
    - destruct w as [|x w]; [congruence|].
      assert (Hk : In (x :: w) (d_keys (log_prefixes log).1)).
      { rewrite log_prefixes_pairs. destruct (prefixes_inv (pairs log)) as (I1 & I2 & _ & _).
        cbv zeta in I1, I2. rewrite I2, I1. apply c_of_keys.
        destruct Hpos as (tr & i & Htr & Hi & Ew). apply in_map_iff.
        exists (x :: w, nth i tr 0%nat). split; [reflexivity|]. unfold pairs. apply in_flat_map. exists tr. split; [exact Htr|].
        unfold trace_prefixes. apply in_map_iff. exists i. rewrite Ew. split; [reflexivity|]. apply in_seq.
        destruct i; [discriminate|]. destruct Hi; lia. }
      rewrite forallb_forall in Ef. specialize (Ef _ Hk). unfold align_activated in *.
      destruct (prefix_markings fuel (x :: w) pn im fm) as [[ms|]|] eqn:Ep; [| |discriminate].
      + destruct (union_labels fuel pn (map original_marking ms)) as [ls|] eqn:E2; [|discriminate]. cbn [option_map].
        apply (prefix_markings_correct pn im fm (x :: w) Hs Hu Him Hin) in Ep. destruct Ep as [_ Hms].
        destruct (union_labels_in _ _ _ _ E2) as (_ & Hex & Hls). apply Hls.
        apply Hms in Hsh as Hm. destruct (Hex _ Hm) as [us Eu]. exists m, us, t. split; [exact Hm|]. split; [exact Eu|].
        split; [|exact El]. apply (visible_complete pn m Hid Hs (shortest_proper _ _ Hsh) HU fuel us Eu t He).
      + exfalso. apply (prefix_markings_correct pn im fm (x :: w) Hs Hu Him Hin) in Ep. cbn in Ep.
        destruct Hsh as (k & Hsp & _). eapply Ep, Hsp.
  Qed.

  Lemma align_precision_value log q : align_precision fuel pn im fm log = Some q ->
    q = et_precision (align_labels fuel pn im fm) log.
  Proof.
    unfold align_precision, align_labels. destruct (visible_eventually_enabled fuel pn im) as [ts|]; [|discriminate].
    destruct (forallb _ _); [|discriminate]. intros [= <-]. apply C68_formula.
  Qed.
End EndToEnd.

Lemma labels_of_nodup ts : NoDup (labels_of ts).
Proof. apply dedup_nodup. Qed.
Lemma align_labels_nodup fuel pn im fm w : NoDup (align_labels fuel pn im fm w).
Proof.
  unfold align_labels, labels_at. destruct w as [|x w].
  - destruct (visible_eventually_enabled fuel pn im); [apply dedup_nodup|constructor].
  - unfold align_activated. destruct (prefix_markings fuel (x :: w) pn im fm) as [[ms|]|]; [|constructor|constructor].
    destruct (union_labels fuel pn (map original_marking ms)) as [ls|] eqn:E; [|constructor].
    apply union_labels_in in E. apply E.
Qed.

(** The value is the textbook formula for a set of labels per prefix; each of these labels is a next step after a
    shortest run spelling the prefix, and all of them are counted when silent transitions are not concurrent. *)
Theorem C68_align_precision : forall fuel pn im fm log q,
  distinct_ids pn -> simple_net pn -> unit_weights pn -> proper im -> silent_have_input pn ->
  align_precision fuel pn im fm log = Some q ->
  exists A : list nat -> list nat,
    q = et_precision A log /\ (forall w, NoDup (A w)) /\
    (forall a, In a (A []) -> can_do pn im a) /\
    (forall w a, w <> [] -> In a (A w) -> exists m, shortest pn im w m /\ can_do pn m a) /\
    (forall a, log <> [] -> no_silent_concurrency pn im -> can_do pn im a -> In a (A [])) /\
    (forall tr i m a, In tr log -> (0 < i < length tr)%nat -> shortest pn im (firstn i tr) m ->
       no_silent_concurrency pn m -> can_do pn m a -> In a (A (firstn i tr))).
Proof.
  intros fuel pn im fm log q Hid Hs Hu Him Hin E. exists (align_labels fuel pn im fm).
  split; [apply align_precision_value, E|]. split; [intros w; apply align_labels_nodup|]. split; [|split; [|split]].
  - intros a Ha. destruct (align_labels_sound fuel pn im fm Hid Hs Hu Him Hin _ _ Ha) as [[_ H]|[H _]]; [exact H|congruence].
  - intros w a Hne Ha. destruct (align_labels_sound fuel pn im fm Hid Hs Hu Him Hin _ _ Ha) as [[H _]|[_ H]]; [congruence|exact H].
  - intros a Hl HU Hc. eapply (align_labels_complete fuel pn im fm Hid Hs Hu Him Hin); [exact E| |left; auto].
    destruct log as [|tr log]; [congruence|]. exists tr, 0%nat. split; [left; reflexivity|]. auto.
  - intros tr i m a Htr Hi Hsh HU Hc.
    eapply (align_labels_complete fuel pn im fm Hid Hs Hu Him Hin); [exact E| |right].
    + exists tr, i. split; [exact Htr|]. split; [lia|reflexivity].
    + split; [destruct tr, i; cbn in *; try lia; discriminate|]. exists m. auto.
Qed.
Print Assumptions C68_align_precision.

(** A value below one is always justified: some case passes through [w], the net can spell [w] and then [a], and no
    case does. *)
Theorem C68_align_below_one : forall fuel pn im fm log q,
  distinct_ids pn -> simple_net pn -> unit_weights pn -> proper im -> silent_have_input pn ->
  align_precision fuel pn im fm log = Some q -> (q < 1)%Q ->
  exists w a, log_has_prefix log w /\ ~ log_has_prefix log (w ++ [a]) /\
    exists ts m, run pn im ts m /\ visible ts = w ++ [a].
Proof.
  intros fuel pn im fm log q Hid Hs Hu Him Hin E Hlt.
  pose proof (align_precision_value fuel pn im fm log q E) as Eq.
  assert (Hno : ~ (forall w a, position log w -> In a (align_labels fuel pn im fm w) -> log_has_prefix log (w ++ [a]))).
  { intros H. apply et_one in H. rewrite <- Eq in H. rewrite H in Hlt. revert Hlt. apply Qlt_irrefl. }
  (* the offending position is found by search *)
  assert (Hdec : forall tr i, (exists a, In a (align_labels fuel pn im fm (firstn i tr)) /\ existsb (prefixb (firstn i tr ++ [a])) log = false)
                 \/ (forall a, In a (align_labels fuel pn im fm (firstn i tr)) -> existsb (prefixb (firstn i tr ++ [a])) log = true)).
  { intros tr i. generalize (align_labels fuel pn im fm (firstn i tr)). intros l. induction l as [|b l IH].
    - right. intros a [].
    - destruct (existsb (prefixb (firstn i tr ++ [b])) log) eqn:Eb.
      + destruct IH as [(a & Ha & H)|H]; [left; exists a; split; [right; exact Ha|exact H]|].
        right. intros a [<-|Ha]; auto.
      + left. exists b. split; [left; reflexivity|exact Eb]. }
  assert (Hpos : (exists tr i a, In tr log /\ (i = 0 \/ i < length tr)%nat /\
                    In a (align_labels fuel pn im fm (firstn i tr)) /\ existsb (prefixb (firstn i tr ++ [a])) log = false)
                 \/ (forall tr i a, In tr log -> (i = 0 \/ i < length tr)%nat ->
                       In a (align_labels fuel pn im fm (firstn i tr)) -> existsb (prefixb (firstn i tr ++ [a])) log = true)).
  { assert (G : forall sub, (forall tr, In tr sub -> In tr log) ->
      (exists tr i a, In tr sub /\ (i = 0 \/ i < length tr)%nat /\
         In a (align_labels fuel pn im fm (firstn i tr)) /\ existsb (prefixb (firstn i tr ++ [a])) log = false)
      \/ (forall tr i a, In tr sub -> (i = 0 \/ i < length tr)%nat ->
            In a (align_labels fuel pn im fm (firstn i tr)) -> existsb (prefixb (firstn i tr ++ [a])) log = true)).
    { induction sub as [|tr sub IH]; intros Hsub; [right; intros tr i a []|].
      assert (Hn : forall n, (exists i a, (i < n)%nat /\ In a (align_labels fuel pn im fm (firstn i tr)) /\ existsb (prefixb (firstn i tr ++ [a])) log = false)
                  \/ (forall i a, (i < n)%nat -> In a (align_labels fuel pn im fm (firstn i tr)) -> existsb (prefixb (firstn i tr ++ [a])) log = true)).
      { induction n as [|n IHn]; [right; intros; lia|]. destruct IHn as [(i & a & Hi & H)|H]; [left; exists i, a; split; [lia|exact H]|].
        destruct (Hdec tr n) as [(a & Ha & Hf)|Hd]; [left; exists n, a; split; [lia|auto]|].
        right. intros i a Hi Ha. destruct (Nat.eq_dec i n) as [->|]; [apply Hd, Ha|apply H; [lia|exact Ha]]. }
      destruct (Hn (Nat.max 1 (length tr))) as [(i & a & Hi & H)|H].
      - left. exists tr, i, a. split; [left; reflexivity|]. split; [lia|exact H].
      - destruct IH as [(tr' & i & a & Htr & H')|H']; [intros; apply Hsub; right; assumption| |].
        + left. exists tr', i, a. split; [right; exact Htr|exact H'].
        + right. intros tr' i a [<-|Htr] Hi Ha; [apply H; [lia|exact Ha]|eapply H'; eassumption]. }
    apply G. auto. }
  destruct Hpos as [(tr & i & a & Htr & Hi & Ha & Hf)|Hall].
  - exists (firstn i tr), a. split; [exists (skipn i tr); rewrite firstn_skipn; exact Htr|]. split.
    + intros [rest Hr]. rewrite <- app_assoc in Hr.
      assert (existsb (prefixb (firstn i tr ++ [a])) log = true) by (apply continues_spec; exists rest; exact Hr). congruence.
    + destruct (align_labels_sound fuel pn im fm Hid Hs Hu Him Hin _ _ Ha) as [[Ew Hc]|[Hne (m & (k & Hsp & _) & Hc)]].
      * rewrite Ew. eapply (spells_snoc pn im [] im 0); try eassumption. exists []. split; [constructor|auto].
      * eapply spells_snoc; eassumption.
  - exfalso. apply Hno. intros w a (tr & i & Htr & Hi & ->) Ha.
    specialize (Hall tr i a Htr Hi Ha). apply continues_spec in Hall as [rest H]. exists rest. rewrite <- app_assoc. exact H.
Qed.
Print Assumptions C68_align_below_one.

(** ---- Termination of the whole computation ---- *)
Lemma ee_mono pn fuel : forall fuel' st r, (fuel <= fuel')%nat -> ee_loop fuel pn st = Some r -> ee_loop fuel' pn st = Some r.
Proof.
  induction fuel as [|fuel IH]; intros fuel' st r Hle.
  - destruct fuel'; [auto|]. cbn [ee_loop]. destruct (ee_queue st); [auto|discriminate].
  - destruct fuel' as [|fuel']; [lia|]. cbn [ee_loop]. destruct (ee_queue st); [auto|]. apply IH. lia.
Qed.
Lemma pl_mono pn stop cost fuel : forall fuel' closed open ret r, (fuel <= fuel')%nat ->
  prefix_loop fuel pn stop cost closed open ret = Some r -> prefix_loop fuel' pn stop cost closed open ret = Some r.
Proof.
  induction fuel as [|fuel IH]; intros fuel' closed open ret r Hle.
  - destruct fuel'; [auto|]. cbn [prefix_loop]. destruct open; [auto|discriminate].
  - destruct fuel' as [|fuel']; [lia|]. cbn [prefix_loop]. destruct open; [auto|].
    destruct (heap_pop _) as [[curr rest]|]; [|auto].
    destruct (match ret with Some (_, c) => c <? d_g curr | None => false end); [auto|].
    destruct (bool_decide _); [apply IH; lia|]. destruct (m_leb stop (d_m curr)); apply IH; lia.
Qed.
Lemma union_total pn fuel0 ms : (forall m, In m ms -> exists fuel, visible_eventually_enabled fuel pn m <> None) ->
  exists fuel, (fuel0 <= fuel)%nat /\ forall f, (fuel <= f)%nat -> union_labels f pn ms <> None.
Proof.
  induction ms as [|m ms IH]; intros H.
  - exists fuel0. split; [lia|]. discriminate.
  - destruct IH as (f1 & Hf1 & H1); [intros; apply H; right; assumption|].
    destruct (H m (or_introl eq_refl)) as [f2 H2]. exists (Nat.max f1 f2). split; [lia|]. intros f Hf. cbn [union_labels].
    destruct (visible_eventually_enabled f2 pn m) as [r|] eqn:E; [|congruence].
    unfold visible_eventually_enabled in *. rewrite (ee_mono pn f2 f _ r) by (try exact E; lia).
    specialize (H1 f ltac:(lia)). destruct (union_labels f pn ms); [discriminate|congruence].
Qed.

Theorem C68_align_terminates : forall pn im fm log l,
  distinct_ids pn -> simple_net pn -> unit_weights pn -> proper im -> silent_have_input pn ->
  (forall m, reachable pn im m -> In m l) -> exists fuel, align_precision fuel pn im fm log <> None.
Proof.
  intros pn im fm log l Hid Hs Hu Him Hin Hl.
  assert (Hvis : forall m, reachable pn im m -> exists fuel, visible_eventually_enabled fuel pn m <> None).
  { intros m [ts Hr]. apply (C68_eventually_enabled_terminates pn m l Hid Hs).
    - eapply run_proper; [exact Him|exact Hr].
    - intros m' (us & Hus & _). apply Hl. exists (ts ++ us). eapply run_app; eassumption. }
  assert (Hact : forall w, exists fuel, forall f, (fuel <= f)%nat -> align_activated f pn im fm w <> None).
  { intros w. destruct (prefix_markings_terminates pn im fm w Hs Hu Him Hin l Hl) as [f1 H1].
    destruct (prefix_markings f1 w pn im fm) as [r|] eqn:E; [|congruence].
    assert (Em : forall f, (f1 <= f)%nat -> prefix_markings f w pn im fm = Some r).
    { intros f Hf. rewrite prefix_markings_unfold in *. eapply pl_mono; [exact Hf|exact E]. }
    destruct r as [ms|].
    - pose proof (prefix_markings_correct pn im fm w Hs Hu Him Hin f1 _ E) as [_ Hms].
      destruct (union_total pn f1 (map original_marking ms)) as (f2 & Hf2 & H2).
      + intros m Hm. apply Hvis. apply Hms in Hm as (k & (ts & Hr & _) & _). exists ts. exact Hr.
      + exists f2. intros f Hf. unfold align_activated. rewrite Em by lia. specialize (H2 f Hf).
        destruct (union_labels f pn _); [discriminate|congruence].
    - exists f1. intros f Hf. unfold align_activated. rewrite Em by lia. discriminate. }
  assert (Hall : forall ws, exists fuel, forall f w, (fuel <= f)%nat -> In w ws -> align_activated f pn im fm w <> None).
  { induction ws as [|w ws IH]; [exists 0%nat; intros f w _ []|].
    destruct IH as [f1 H1]. destruct (Hact w) as [f2 H2]. exists (Nat.max f1 f2). intros f w' Hf [<-|Hw]; [apply H2; lia|apply H1; [lia|exact Hw]]. }
  destruct (Hvis im) as [f1 H1]; [exists []; constructor|].
  destruct (Hall (d_keys (log_prefixes log).1)) as [f2 H2]. exists (Nat.max f1 f2). unfold align_precision.
  destruct (visible_eventually_enabled f1 pn im) as [r|] eqn:E; [|congruence].
  unfold visible_eventually_enabled in *. rewrite (ee_mono pn f1 (Nat.max f1 f2) _ r) by (try exact E; lia).
  replace (forallb _ _) with true; [discriminate|]. symmetry. apply forallb_forall. intros w Hw.
  specialize (H2 (Nat.max f1 f2) w ltac:(lia) Hw). destruct (align_activated _ _ _ _ w); [reflexivity|congruence].
Qed.
Print Assumptions C68_align_terminates.

(** ---- Examples and findings ---- *)
(** a (b | tau d): after a both b and d can come. *)
Definition e_a : transition (option nat) := Trans 0 (Some 7%nat) [(0%nat, 1)] [(1%nat, 1)].
Definition e_b : transition (option nat) := Trans 1 (Some 8%nat) [(1%nat, 1)] [(3%nat, 1)].
Definition e_tau : transition (option nat) := Trans 2 None [(1%nat, 1)] [(2%nat, 1)].
Definition e_d : transition (option nat) := Trans 3 (Some 9%nat) [(2%nat, 1)] [(3%nat, 1)].
Definition e_net := Net [0; 1; 2; 3]%nat [e_a; e_b; e_tau; e_d].
(** two concurrent silent transitions and a visible one needing the start of the first and the end of the second *)
Definition c_t0 : transition (option nat) := Trans 0 None [(0%nat, 1)] [(2%nat, 1)].
Definition c_t1 : transition (option nat) := Trans 1 None [(1%nat, 1)] [(3%nat, 1)].
Definition c_a : transition (option nat) := Trans 2 (Some 7%nat) [(0%nat, 1); (3%nat, 1)] [(4%nat, 1)].
Definition c_net := Net [0; 1; 2; 3; 4]%nat [c_t0; c_t1; c_a].
(** a c | tau a b *)
Definition s_a : transition (option nat) := Trans 0 (Some 7%nat) [(0%nat, 1)] [(1%nat, 1)].
Definition s_c : transition (option nat) := Trans 1 (Some 8%nat) [(1%nat, 1)] [(4%nat, 1)].
Definition s_tau : transition (option nat) := Trans 2 None [(0%nat, 1)] [(2%nat, 1)].
Definition s_a2 : transition (option nat) := Trans 3 (Some 7%nat) [(2%nat, 1)] [(3%nat, 1)].
Definition s_b : transition (option nat) := Trans 4 (Some 9%nat) [(3%nat, 1)] [(4%nat, 1)].
Definition s_net := Net [0; 1; 2; 3; 4]%nat [s_a; s_c; s_tau; s_a2; s_b].

Local Ltac fires_tac := split; [cbn; tauto|split; [|split; [apply proper_singleton; lia|]]];
  [intros p; cbn [t_in weight e_a e_b e_tau e_d s_a s_c s_tau s_a2 s_b]; rewrite ?tokens_singleton; repeat destruct (Nat.eqb _ p); lia
  |intros p; cbn [t_in t_out weight e_a e_b e_tau e_d s_a s_c s_tau s_a2 s_b]; rewrite !tokens_singleton; repeat destruct (Nat.eqb _ p); lia].
Lemma sm_simple pn : state_machine pn -> simple_net pn.
Proof.
  intros H t Ht. destruct (H t Ht) as (p & q & E1 & E2). unfold simple_trans. rewrite E1, E2.
  split; split; cbn; try (constructor; [intros []|constructor]); intros x w [[= <- <-]|[]]; lia.
Qed.
Lemma sm_unit pn : state_machine pn -> unit_weights pn.
Proof.
  intros H t Ht p w. destruct (H t Ht) as (x & y & E1 & E2). rewrite E1, E2. cbn. intuition congruence.
Qed.
Lemma sm_input pn : state_machine pn -> silent_have_input pn.
Proof. intros H t Ht _. destruct (H t Ht) as (x & y & E1 & _). rewrite E1. discriminate. Qed.

Local Ltac sm_tac := let t := fresh in let H := fresh in intros t H; cbn in H;
  repeat (destruct H as [<-|H]; [do 2 eexists; split; reflexivity|]); destruct H.

Example C68_example :
  distinct_ids e_net /\ simple_net e_net /\ unit_weights e_net /\ proper {[ 0%nat := 1 ]} /\ silent_have_input e_net /\
  no_silent_concurrency e_net {[ 0%nat := 1 ]} /\
  (exists r, visible_eventually_enabled 50 e_net {[ 1%nat := 1 ]} = Some r /\ labels_of r = [9; 8]%nat) /\
  align_precision 50 e_net {[ 0%nat := 1 ]} {[ 3%nat := 1 ]} [[7; 8]; [7; 8]]%nat = Some (4 # 6)%Q.
Proof.
  assert (Hsm : state_machine e_net) by sm_tac.
  split; [vm_compute; repeat constructor; cbn; intuition lia|]. split; [apply sm_simple, Hsm|]. split; [apply sm_unit, Hsm|].
  split; [apply proper_singleton; lia|]. split; [apply sm_input, Hsm|]. split; [apply C68_state_machine, Hsm|].
  split; [eexists; split; vm_compute; reflexivity|]. vm_compute. reflexivity.
Qed.

Theorem C68_eventually_enabled_refuted : exists pn m t fuel r,
  distinct_ids pn /\ simple_net pn /\ unit_weights pn /\ proper m /\ eventually_enabled pn m t /\
  visible_eventually_enabled fuel pn m = Some r /\ ~ In t r.
Proof.
  exists c_net, {[ 0%nat := 1; 1%nat := 1 ]}, c_a, 50%nat, [].
  split; [vm_compute; repeat constructor; cbn; intuition lia|].
  assert (Hu : unit_weights c_net).
  { intros t Ht p w H; cbn in Ht; destruct Ht as [<-|[<-|[<-|[]]]]; cbn in H; intuition congruence. }
  split.
  { intros t Ht. assert (Hw := Hu t Ht). cbn in Ht. destruct Ht as [<-|[<-|[<-|[]]]];
      (split; split; [cbn; repeat constructor; cbn; intuition lia
                     |intros p w Hp; rewrite (Hw p w) by tauto; lia
                     |cbn; repeat constructor; cbn; intuition lia
                     |intros p w Hp; rewrite (Hw p w) by tauto; lia]). }
  assert (Hp : proper {[ 0%nat := 1; 1%nat := 1 ]}).
  { apply proper_insert; [apply proper_singleton; lia|lia]. }
  split; [exact Hu|]. split; [exact Hp|]. split; [|split; [vm_compute; reflexivity|intros []]].
  split; [cbn; tauto|]. split; [discriminate|]. exists {[ 0%nat := 1; 3%nat := 1 ]}. split.
  - exists [c_t1]. split; [|reflexivity]. econstructor; [|constructor].
    assert (Hp2 : proper {[ 0%nat := 1; 3%nat := 1 ]}) by (apply proper_insert; [apply proper_singleton; lia|lia]).
    split; [cbn; tauto|]. split; [|split; [exact Hp2|]].
    + intros p. cbn [t_in c_t1 weight]. rewrite tokens_insert, tokens_singleton.
      destruct (Nat.eqb_spec 1 p), (Nat.eqb_spec 0 p); lia.
    + intros p. cbn [t_in t_out c_t1 weight]. rewrite !tokens_insert, !tokens_singleton.
      destruct (Nat.eqb_spec 1 p), (Nat.eqb_spec 0 p), (Nat.eqb_spec 3 p); lia.
  - intros p. cbn [t_in c_a weight]. rewrite tokens_insert, tokens_singleton.
    destruct (Nat.eqb_spec 0 p), (Nat.eqb_spec 3 p); lia.
Qed.
Print Assumptions C68_eventually_enabled_refuted.

(** Only the markings of the shortest runs count: value 1 although the net can continue a log prefix differently. *)
Theorem C68_all_continuations_refuted : exists fuel pn im fm log q w a ts m,
  distinct_ids pn /\ simple_net pn /\ unit_weights pn /\ proper im /\ silent_have_input pn /\
  no_silent_concurrency pn im /\ align_precision fuel pn im fm log = Some q /\ (q == 1)%Q /\
  log_has_prefix log w /\ run pn im ts m /\ visible ts = w ++ [a] /\ ~ log_has_prefix log (w ++ [a]).
Proof.
  assert (Hsm : state_machine s_net) by sm_tac.
  exists 50%nat, s_net, {[ 0%nat := 1 ]}, {[ 4%nat := 1 ]}, [[7; 8]]%nat, (2 # 2)%Q, [7%nat], 9%nat, [s_tau; s_a2; s_b], {[ 4%nat := 1 ]}.
  split; [vm_compute; repeat constructor; cbn; intuition lia|]. split; [apply sm_simple, Hsm|]. split; [apply sm_unit, Hsm|].
  split; [apply proper_singleton; lia|]. split; [apply sm_input, Hsm|]. split; [apply C68_state_machine, Hsm|].
  split; [vm_compute; reflexivity|]. split; [reflexivity|]. split; [exists [8%nat]; left; reflexivity|]. split; [|split; [reflexivity|]].
  - apply (run_cons s_net _ s_tau {[ 2%nat := 1 ]}); [fires_tac|].
    apply (run_cons s_net _ s_a2 {[ 3%nat := 1 ]}); [fires_tac|].
    apply (run_cons s_net _ s_b {[ 4%nat := 1 ]}); [fires_tac|constructor].
  - intros [rest [[= ]|[]]].
Qed.
Print Assumptions C68_all_continuations_refuted.

(** A data frame is weighted by its rows in the empty prefix, so the value differs from that of the same log. *)
Theorem C68_dataframe_refuted : exists act init log,
  ~ (precision_of act init (len_dataframe log) log == precision_of act init (len_event_log log) log)%Q.
Proof. exists (fun _ => Some [9]%nat), [7; 8]%nat, [[7; 9]]%nat. vm_compute. discriminate. Qed.
Print Assumptions C68_dataframe_refuted.

(** An activity that contains the separator is torn apart. *)
Theorem C68_prefix_key_refuted : exists sep w w', w <> [] /\ w <> w' /\ join_sep sep w = join_sep sep w' /\
  split_sep sep (join_sep sep w) <> w.
Proof. exists 44%nat, [[1; 44; 2]]%nat, [[1]; [2]]%nat. cbn. repeat split; discriminate. Qed.
Print Assumptions C68_prefix_key_refuted.
