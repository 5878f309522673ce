(** Properties C32 and C33: log skeletons. *)
From Coq Require Import List Arith Bool ZArith QArith Lia.
Import ListNotations.
From Verif Require Import Model_Dict Model_Dfg Spec_Dfg Model_Skel Spec_Skel Proofs_Skel Proofs_Skel2 Proofs_Dict Proofs_Dfg.
Local Open Scope nat_scope.

(** ** C32: the noise-free skeleton contains exactly the relations of the log *)
Theorem C32_equivalence : forall l a b, In (a, b) (sk_equivalence (discover_skel 0 l)) <-> equivalent l a b.
Proof. intros. apply equivalence_spec. Qed.
Theorem C32_never_together : forall l a b, In (a, b) (sk_never_together (discover_skel 0 l)) <-> excludes l a b.
Proof. intros. apply never_spec. Qed.
Theorem C32_directly_follows : forall l a b, In (a, b) (sk_directly_follows (discover_skel 0 l)) <-> always_next l a b.
Proof. intros. apply df_spec. Qed.
(** the frequencies of an activity are the numbers of its occurrences in the traces *)
Theorem C32_activ_freq : forall l a,
  (forall s, d_get (sk_activ_freq (discover_skel 0 l)) a = Some s -> occurs l a /\ forall n, In n s <-> exists t, In t l /\ count t a = n) /\
  (d_get (sk_activ_freq (discover_skel 0 l)) a = None -> ~ occurs l a).
Proof.
  intros l a. destruct (activ_freq_spec l (length l) (le_n _)) as [_ H]. specialize (H a). unfold discover_skel, discover_skel_gen. cbn [sk_activ_freq].
  destruct (d_get _ a); split; intros; try congruence. match goal with E : Some _ = Some _ |- _ => inversion E; subst; auto end.
Qed.
(** always-after and always-before contain every relation of the log, and no other one if no trace repeats an activity *)
Theorem C32_always_after_complete : forall l a b, always_later l a b -> In (a, b) (sk_always_after (discover_skel 0 l)).
Proof.
  intros l a b [H1 H2]. apply rel_complete; auto. intros t i Ht Hi. destruct (H2 t i Ht Hi) as (j & Hj & G). exists j. rewrite Nat.ltb_lt. auto.
Qed.
Theorem C32_always_before_complete : forall l a b, always_earlier l a b -> In (a, b) (sk_always_before (discover_skel 0 l)).
Proof.
  intros l a b [H1 H2]. apply rel_complete; auto. intros t i Ht Hi. destruct (H2 t i Ht Hi) as (j & Hj & G). exists j. rewrite Nat.ltb_lt. auto.
Qed.
Theorem C32_always_after_exact : forall l a b, no_repetitions l -> In (a, b) (sk_always_after (discover_skel 0 l)) <-> always_later l a b.
Proof.
  intros l a b Hn. split; [|apply C32_always_after_complete]. intros H. apply rel_sound in H; auto. destruct H as [H1 H2]. split; auto.
  intros t i Ht Hi. destruct (H2 t i Ht Hi) as (j & Hj & G). apply Nat.ltb_lt in Hj. eauto.
Qed.
Theorem C32_always_before_exact : forall l a b, no_repetitions l -> In (a, b) (sk_always_before (discover_skel 0 l)) <-> always_earlier l a b.
Proof.
  intros l a b Hn. split; [|apply C32_always_before_complete]. intros H. apply rel_sound in H; auto. destruct H as [H1 H2]. split; auto.
  intros t i Ht Hi. destruct (H2 t i Ht Hi) as (j & Hj & G). apply Nat.ltb_lt in Hj. eauto.
Qed.
(** Every trace of the log fits the skeleton discovered from it: all the constraints if no trace repeats an
    activity, all but always-after and always-before for every log. *)
Lemma skel_proper l : proper_skel (discover_skel 0 l).
Proof.
  intros a s H. destruct (activ_freq_spec l (length l) (le_n _)) as [N G]. specialize (G a).
  unfold discover_skel, discover_skel_gen in H. cbn [sk_activ_freq] in H. rewrite (d_in_get _ _ _ N H) in G. destruct G as [(t & Ht & Ha) G].
  intros ->. apply (proj2 (G (count t a))). eauto.
Qed.
Lemma skel_satisfies l t k : In t l -> (k <> Kalways_after /\ k <> Kalways_before) \/ no_repetitions l -> satisfies t (discover_skel 0 l) k.
Proof.
  intros Ht Hk. destruct k; cbn [satisfies].
  - intros a b H Ha. apply C32_equivalence in H. destruct H as (H1 & H2 & H3). auto.
  - intros a b H Ha. destruct Hk as [[Hk _]|Hk]; [congruence|]. apply C32_always_after_exact in H; auto. destruct H as [_ H].
    apply In_nth_error in Ha. destruct Ha as (i & Hi). destruct (H t i Ht Hi) as (j & Hj & G). eauto.
  - intros a b H Ha. destruct Hk as [[_ Hk]|Hk]; [congruence|]. apply C32_always_before_exact in H; auto. destruct H as [_ H].
    apply In_nth_error in Ha. destruct Ha as (i & Hi). destruct (H t i Ht Hi) as (j & Hj & G). eauto.
  - intros a b H _. apply C32_never_together in H. destruct H as (_ & _ & _ & H). auto.
  - intros a b H Ha. apply C32_directly_follows in H. destruct H as [_ H]. apply In_nth_error in Ha. destruct Ha as (i & Hi). eauto.
  - destruct (activ_freq_spec l (length l) (le_n _)) as [N G]. split.
    + intros a Ha. specialize (G a). unfold discover_skel, discover_skel_gen. cbn [sk_activ_freq]. destruct (d_get _ a) as [s|].
      * exists s. split; auto. apply G. eauto.
      * exfalso. apply G. exists t. auto.
    + intros a s H Ha. specialize (G a). unfold discover_skel, discover_skel_gen in H. cbn [sk_activ_freq] in H. rewrite (d_in_get _ _ _ N H) in G.
      apply G. exists t. split; auto. apply count_occ_not_In. auto.
Qed.
Theorem C32_self_conformance : forall l t consid, In t l -> (~ In Kalways_after consid /\ ~ In Kalways_before consid) \/ no_repetitions l ->
  exists r, apply_actlist consid (discover_skel 0 l) t = Some r /\ r_fit r = true /\ (r_fitness r == 1)%Q /\ r_devs r = [].
Proof.
  intros l t consid Ht Hc. destruct (actlist_total consid _ t (skel_proper l)) as (r & Er). exists r. split; auto.
  destruct (actlist_spec _ _ _ _ Er) as (_ & _ & H1 & H2 & H3).
  assert (F : r_fit r = true).
  { apply H3. intros k Hk. apply skel_satisfies; auto. destruct Hc as [[G1 G2]|Hc]; [|auto]. left. split; intros ->; auto. }
  rewrite H1, H2. auto.
Qed.
(** Finding: always-after counts pairs of positions instead of positions, so the log <a,b,b>, <a> yields "b always
    after a" although its second trace has no b, and that trace does not fit. *)
Theorem C32_always_after_refuted : exists l a b t r, In (a, b) (sk_always_after (discover_skel 0 l)) /\ ~ always_later l a b /\
  In t l /\ apply_actlist all_kinds (discover_skel 0 l) t = Some r /\ r_fit r = false.
Proof.
  exists [[1; 2; 2]; [1]], 1, 2, [1]. eexists. split; [vm_compute; auto|]. split; [|split; [right; left; reflexivity|split; [vm_compute; reflexivity|reflexivity]]].
  intros [_ H]. destruct (H [1] 0) as (j & Hj & G); [right; left; auto|auto|]. destruct j as [|[|j]]; cbn in G; [lia|discriminate|discriminate].
Qed.
(** A larger noise threshold keeps more relations. *)
Theorem C32_noise_monotone : forall l (noise noise' : Q), (noise <= noise')%Q -> forall p,
  (In p (sk_equivalence (discover_skel noise l)) -> In p (sk_equivalence (discover_skel noise' l))) /\
  (In p (sk_always_after (discover_skel noise l)) -> In p (sk_always_after (discover_skel noise' l))) /\
  (In p (sk_always_before (discover_skel noise l)) -> In p (sk_always_before (discover_skel noise' l))) /\
  (In p (sk_never_together (discover_skel noise l)) -> In p (sk_never_together (discover_skel noise' l))) /\
  (In p (sk_directly_follows (discover_skel noise l)) -> In p (sk_directly_follows (discover_skel noise' l))).
Proof. intros l noise noise' H p. repeat split; try (apply rel_mono; auto). apply never_mono; auto. Qed.
(** With a noise threshold a relation is kept iff it holds for that share of the occurrences of its first activity. *)
Theorem C32_equivalence_noise : forall l noise a b n total, exactly total (fun p => at_pos l (fst p) (snd p) a) ->
  exactly n (fun q => exists t, nth_error l (fst q) = Some t /\ nth_error t (snd q) = Some a /\ count t a = count t b) ->
  In (a, b) (sk_equivalence (discover_skel noise l)) <-> a <> b /\ 0 < n /\ (qnat total * (1 - noise) <= qnat n)%Q.
Proof. intros. apply equivalence_noise; auto. Qed.
Theorem C32_directly_follows_noise : forall l noise a b n total, exactly total (fun p => at_pos l (fst p) (snd p) a) ->
  exactly n (fun q => at_pos l (fst q) (snd q) a /\ at_pos l (fst q) (S (snd q)) b) ->
  In (a, b) (sk_directly_follows (discover_skel noise l)) <-> 0 < n /\ (qnat total * (1 - noise) <= qnat n)%Q.
Proof. intros. apply df_noise; auto. Qed.
(** With a noise threshold the frequencies kept for an activity cover that share of the traces of an event log. *)
Theorem C32_activ_freq_noise : forall l noise a s, (0 <= noise)%Q -> d_get (sk_activ_freq (discover_skel noise l)) a = Some s ->
  (qnat (length l) * (1 - noise) <= qnat (length (filter (fun t => existsb (Nat.eqb (count t a)) s) l)))%Q /\
  forall n, In n s -> exists t, In t l /\ count t a = n.
Proof.
  intros l noise a s Hq H. apply coverage in H; auto. destruct H as [H1 H2]. split; auto. eapply Qle_trans; [exact H1|]. apply Qle_bool_iff, qnat_le.
  erewrite filter_ext; [apply le_n|]. intros t. unfold memn. clear. induction s as [|x s IH]; cbn [existsb]; auto. rewrite IH. f_equal. apply Nat.eqb_sym.
Qed.
(** For a dataframe the result is the same at noise 0. *)
Theorem C32_dataframe : forall l, (forall t, In t l -> t <> []) -> discover_skel_df 0 l = discover_skel 0 l.
Proof.
  intros l H. unfold discover_skel_df, discover_skel, discover_skel_gen. f_equal. rewrite !freq_len; auto. apply events_ge. auto.
Qed.
(** Finding: with a noise threshold it is not, since len(dataframe) is the number of events. *)
Theorem C32_dataframe_noise_refuted : exists l noise, (forall t, In t l -> t <> []) /\
  sk_activ_freq (discover_skel_df noise l) <> sk_activ_freq (discover_skel noise l).
Proof.
  exists [[1; 1; 1]; [1; 1; 1]; [1; 1; 1]; [1]], (1 # 2). split; [intros t [<-|[<-|[<-|[<-|[]]]]]; discriminate|]. vm_compute. discriminate.
Qed.
Example skel_ex : apply_actlist all_kinds (discover_skel 0 [[1; 2; 3]; [1; 3]]) [1; 3] =
  apply_actlist all_kinds (discover_skel 0 [[1; 2; 3]; [1; 3]]) [1; 2; 3] -> False.
Proof. vm_compute. discriminate. Qed.
Example skel_ex2 : no_repetitions [[1; 2; 3]; [1; 3]] /\ In (1, 3) (sk_equivalence (discover_skel 0 [[1; 2; 3]; [1; 3]])) /\
  In (2, 3) (sk_always_after (discover_skel 0 [[1; 2; 3]; [1; 3]])) /\ ~ In (1, 2) (sk_always_after (discover_skel 0 [[1; 2; 3]; [1; 3]])).
Proof.
  split; [intros t [<-|[<-|[]]]; repeat constructor; cbn; lia|]. split; [vm_compute; auto|]. split; [vm_compute; auto|].
  vm_compute. intuition congruence.
Qed.

(** ** C33: the fitness of a trace lies between 0 and 1, and is 1 exactly when all the considered constraints hold *)
Theorem C33_total : forall consid m t, proper_skel m -> exists r, apply_actlist consid m t = Some r.
Proof. intros. apply actlist_total; auto. Qed.
Theorem C33_fitness_range : forall consid m t r, apply_actlist consid m t = Some r -> (0 <= r_fitness r <= 1)%Q.
Proof. intros consid m t r H. destruct (actlist_spec _ _ _ _ H) as (H1 & H2 & _). auto. Qed.
Theorem C33_fit : forall consid m t r, apply_actlist consid m t = Some r ->
  (r_fit r = true <-> forall k, In k consid -> satisfies t m k) /\ (r_fit r = true <-> (r_fitness r == 1)%Q) /\ (r_fit r = true <-> r_devs r = []).
Proof. intros consid m t r H. destruct (actlist_spec _ _ _ _ H) as (_ & _ & H1 & H2 & H3). intuition. Qed.
(** The result for a log is the list of the results of its traces, although equal traces are checked only once. *)
Theorem C33_log : forall consid m l, apply_log consid m l = map (apply_actlist consid m) l.
Proof. intros. apply apply_log_map. Qed.
Example skel_ex3 : exists r, apply_actlist all_kinds (discover_skel 0 [[1; 2; 3]; [1; 3]]) [2; 1; 4] = Some r /\ r_fit r = false /\ (0 < r_fitness r < 1)%Q.
Proof. eexists. split; [vm_compute; reflexivity|]. split; [reflexivity|]. split; reflexivity. Qed.
Print Assumptions C32_self_conformance.
Print Assumptions C32_activ_freq_noise.
Print Assumptions C33_fit.
Print Assumptions C33_log.
Print Assumptions C32_equivalence.
Print Assumptions C32_never_together.
Print Assumptions C32_directly_follows.
Print Assumptions C32_activ_freq.
Print Assumptions C32_always_after_complete.
Print Assumptions C32_always_before_complete.
Print Assumptions C32_always_after_exact.
Print Assumptions C32_always_before_exact.
Print Assumptions C32_always_after_refuted.
Print Assumptions C32_noise_monotone.
Print Assumptions C32_equivalence_noise.
Print Assumptions C32_directly_follows_noise.
Print Assumptions C32_dataframe.
Print Assumptions C32_dataframe_noise_refuted.
Print Assumptions C33_total.
Print Assumptions C33_fitness_range.
