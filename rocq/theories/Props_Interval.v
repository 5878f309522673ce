(** C74-C77: statistics on interval logs. *)
From Coq Require Import List Arith ZArith QArith Bool Lia Permutation Sorted.
Import ListNotations.
From Verif Require Import Model_Dict Model_Lev Model_Interval Spec_Interval Spec_Dfg Proofs_Dict Proofs_Dfg Proofs_Lev Proofs_Interval1 Proofs_Interval2 Proofs_Interval3.
From Verif Require Proofs_Precision4.
Local Open Scope nat_scope.

(** * C74: concurrent activities *)
(** The number reported for two activities is the number of pairs of events (of the same trace) with these activities whose
    intervals share an instant (share more than an instant, if strict). *)
Theorem C74_count : forall strict l a b, (forall t e, In t l -> In e t -> forward e) -> a <= b ->
  exactly (c_get (concurrent_activities strict l) (a, b)) (fun p : nat * (nat * nat) => let '(k, (i, j)) := p in
    i < j /\ exists e1 e2, event_at l k i e1 /\ event_at l k j e2 /\ share strict e1 e2 /\ ((ie_act e1 = a /\ ie_act e2 = b) \/ (ie_act e1 = b /\ ie_act e2 = a))).
Proof.
  intros strict l a b Hf Hab. rewrite concurrent_of, c_get_of, occ_flat by auto. eapply exactly_ext; [|apply exactly_list; intros t _; apply (ckeys_count strict t a b Hab)].
  intros [k [i j]]. cbn [fst snd]. unfold event_at. split.
  - intros (t & Ht & Hij & e1 & e2 & A & B & C). split; auto. exists e1, e2. eauto 8.
  - intros (Hij & e1 & e2 & (t & Ht & A) & (t' & Ht' & B) & C). rewrite Ht in Ht'. injection Ht' as <-. exists t. split; auto. split; auto. exists e1, e2. tauto.
Qed.
Print Assumptions C74_count.
(** Pairs that never overlap have no entry, and every entry is an ordered pair with a positive number. *)
Theorem C74_entries : forall strict l a b, (forall t e, In t l -> In e t -> forward e) ->
  (In (a, b) (d_keys (concurrent_activities strict l)) <-> 0 < c_get (concurrent_activities strict l) (a, b)) /\
  (In (a, b) (d_keys (concurrent_activities strict l)) -> a <= b).
Proof.
  intros strict l a b Hf. rewrite concurrent_of, c_of_keys, c_get_of by auto. split; [rewrite <- (occ_pos (a, b)); lia|].
  intros H. apply in_flat_map in H as (t & _ & H). unfold ckeys in H. apply in_map_iff in H as (p & E & _). unfold ckey, sorted_pair in E. destruct (Nat.leb_spec (ie_act (fst p)) (ie_act (snd p))); injection E as <- <-; lia.
Qed.
Print Assumptions C74_entries.
(** Without "start before completion" the loop stops too early: the third event overlaps the first and is missed. *)
Theorem C74_backward_refuted : exists l, ~ exactly (c_get (concurrent_activities false l) (1, 3)) (fun p : nat * (nat * nat) => let '(k, (i, j)) := p in
    i < j /\ exists e1 e2, event_at l k i e1 /\ event_at l k j e2 /\ share false e1 e2 /\ ((ie_act e1 = 1 /\ ie_act e2 = 3) \/ (ie_act e1 = 3 /\ ie_act e2 = 1))).
Proof.
  exists [[Iev 1 0 10; Iev 2 2 1; Iev 3 4 5]]. intros (L & _ & E & H). destruct L as [|? ?]; [|discriminate]. apply (H (0, (0, 2))). split; [lia|]. exists (Iev 1 0 10), (Iev 3 4 5).
  split; [exists [Iev 1 0 10; Iev 2 2 1; Iev 3 4 5]; auto|]. split; [exists [Iev 1 0 10; Iev 2 2 1; Iev 3 4 5]; auto|]. split; [exists 4%Z; cbn; lia|]. left; auto.
Qed.
Print Assumptions C74_backward_refuted.
Definition ex_ilog : ilog := [[Iev 1 0 10; Iev 2 5 7; Iev 2 10 12]; [Iev 2 3 4; Iev 1 1 2]].
Example ex_ilog_forward : forall t e, In t ex_ilog -> In e t -> forward e.
Proof. intros t e Ht He. cbn in Ht. destruct Ht as [<-|[<-|[]]]; cbn in He; repeat destruct He as [<-|He]; try destruct He; unfold forward; cbn; lia. Qed.
Example ex_concurrent : concurrent_activities false ex_ilog = [((1, 2), 2)] /\ concurrent_activities true ex_ilog = [((1, 2), 1)].
Proof. split; reflexivity. Qed.

(** * C75: eventually follows *)
(** The number for (a, b) is the number of pairs of an event a and a later event b (of the same trace) that starts when or after
    the first is completed. *)
Theorem C75_count : forall l a b, exactly (c_get (eventually_follows false l) (a, b)) (fun p : nat * (nat * nat) => let '(k, (i, j)) := p in
    exists e1 e2, event_at l k i e1 /\ event_at l k j e2 /\ ie_act e1 = a /\ ie_act e2 = b /\ earlier i j e1 e2 /\ (ie_end e1 <= ie_start e2)%Z).
Proof.
  intros l a b. rewrite efg_of, c_get_of, occ_flat. eapply exactly_ext; [|apply exactly_list; intros t _; apply (fkeys_all t a b)].
  intros [k [i j]]. cbn [fst snd]. unfold event_at. split.
  - intros (t & Ht & e1 & e2 & A & B & C). exists e1, e2. eauto 8.
  - intros (e1 & e2 & (t & Ht & A) & (t' & Ht' & B) & C). rewrite Ht in Ht'. injection Ht' as <-. exists t. split; auto. exists e1, e2. tauto.
Qed.
Print Assumptions C75_count.
(** With keep_first_following every event is paired with the first such event only. *)
Theorem C75_first : forall l a b, exactly (c_get (eventually_follows true l) (a, b)) (fun p : nat * (nat * nat) => let '(k, (i, j)) := p in
    exists e1 e2, event_at l k i e1 /\ event_at l k j e2 /\ ie_act e1 = a /\ ie_act e2 = b /\ earlier i j e1 e2 /\ (ie_end e1 <= ie_start e2)%Z /\
      forall j' e', event_at l k j' e' -> earlier i j' e1 e' -> (ie_end e1 <= ie_start e')%Z -> j' = j \/ earlier j j' e2 e').
Proof.
  intros l a b. rewrite efg_of, c_get_of, occ_flat. eapply exactly_ext; [|apply exactly_list; intros t _; apply (fkeys_first t a b)].
  intros [k [i j]]. cbn [fst snd]. unfold event_at. split.
  - intros (t & Ht & e1 & e2 & A & B & C1 & C2 & C3 & C4 & C5). exists e1, e2. repeat (split; [eauto|]). intros j' e' (t' & Ht' & Hj). rewrite Ht in Ht'. injection Ht' as <-. eauto.
  - intros (e1 & e2 & (t & Ht & A) & (t' & Ht' & B) & C1 & C2 & C3 & C4 & C5). rewrite Ht in Ht'. injection Ht' as <-. exists t. split; auto. exists e1, e2. repeat (split; [auto|]). eauto.
Qed.
Print Assumptions C75_first.
(** For a log of instantaneous events in the order of time, the computation on the variants gives the same numbers. *)
Theorem C75_variants : forall l, (forall t e, In t l -> In e t -> ie_start e = ie_end e) -> (forall t, In t l -> StronglySorted (fun a b => (ie_start a <= ie_start b)%Z) t) ->
  same_dict (eventually_follows_uvcl (c_of (map (map ie_act) l))) (eventually_follows false l).
Proof.
  intros l He Hs k.
  assert (Hsort : forall t, StronglySorted (fun a b => (ie_start a <= ie_start b)%Z) t -> sorted_by ie_start t = t).
  { induction 1 as [|x t H IH HF]; cbn; [auto|]. rewrite IH. destruct t as [|y t]; cbn; auto. inversion HF; subst. destruct (Z.leb_spec (ie_start x) (ie_start y)); auto; lia. }
  assert (Hk : forall t, In t l -> fkeys false t = opairs (map ie_act t)).
  { intros t Ht. unfold fkeys. rewrite (Hsort t (Hs t Ht)), opairs_map. unfold fkey. f_equal. pose proof (Hs t Ht) as Hst. assert (He' : forall e, In e t -> ie_start e = ie_end e) by eauto. clear - Hst He'.
    induction Hst as [|x t Hst IH HF]; [reflexivity|]. cbn [opairs]. rewrite filter_app, IH by (intros; apply He'; right; auto). f_equal. rewrite Forall_forall in HF. assert (Hx := He' x (or_introl eq_refl)). clear - HF Hx.
    induction t as [|y t IH]; cbn; auto. unfold leadsb at 1. pose proof (HF y (or_introl eq_refl)). destruct (Z.leb_spec (ie_end x) (ie_start y)); [|lia]. f_equal. apply IH. intros; apply HF; right; auto. }
  assert (E : eventually_follows false l = c_of (flat_map opairs (map (map ie_act) l))).
  { rewrite efg_of. f_equal. rewrite flat_map_concat_map, flat_map_concat_map, map_map. f_equal. apply map_ext_in. auto. }
  rewrite E. clear E Hk Hsort He Hs. generalize (map (map ie_act) l) as vs. clear l. intros vs.
  assert (EC : c_get (eventually_follows_uvcl (c_of vs)) k = occ k (flat_map opairs vs)).
  { rewrite uvcl_get, occ_flat. rewrite <- (Proofs_Precision4.lsum_occ (fun t => occ k (opairs t)) vs (d_keys (c_of vs))); [|apply c_of_nodup|intros t; apply c_of_keys].
    f_equal. unfold d_keys. rewrite map_map. apply map_ext_in. intros [t f] Ht. cbn [fst snd]. f_equal. rewrite <- c_get_of. unfold c_get. rewrite (d_in_get _ _ _ (c_of_nodup vs) Ht). auto. }
  rewrite d_get_c_of, c_get_d, EC. destruct (Nat.eqb_spec (occ k (flat_map opairs vs)) 0) as [E0|E0].
  - destruct (d_mem _ k) eqn:Em; auto. exfalso. apply d_mem_in, uvcl_keys in Em as (t & f & Ht & Hk). assert (In k (flat_map opairs vs)); [|apply occ_pos in H; lia].
    apply in_flat_map. exists t. split; auto. apply c_of_keys. apply (in_map fst) in Ht. exact Ht.
  - destruct (d_mem _ k) eqn:Em; auto. exfalso. assert (In k (flat_map opairs vs)) as Hk by (apply occ_pos; lia). apply in_flat_map in Hk as (t & Ht & Hk).
    assert (d_mem (eventually_follows_uvcl (c_of vs)) k = true); [|congruence]. apply d_mem_in, uvcl_keys. apply c_of_keys in Ht. unfold d_keys in Ht. apply in_map_iff in Ht as ([t' f] & <- & Ht). eauto.
Qed.
Print Assumptions C75_variants.
Example ex_follows : eventually_follows false ex_ilog = [((1, 2), 2); ((2, 2), 1)] /\ eventually_follows true ex_ilog = [((1, 2), 2); ((2, 2), 1)].
Proof. split; reflexivity. Qed.
Example ex_variants : let l := [[Iev 1 0 0; Iev 2 1 1; Iev 1 1 1]; [Iev 1 5 5; Iev 2 6 6; Iev 1 7 7]] in
  eventually_follows false l = [((1, 2), 2); ((1, 1), 2); ((2, 1), 2)] /\ eventually_follows true l = [((1, 2), 2); ((2, 1), 2)] /\
  eventually_follows_uvcl (c_of (map (map ie_act) l)) = [((1, 2), 2); ((1, 1), 2); ((2, 1), 2)].
Proof. repeat split. Qed.

(** * C76: cycle time *)
(** The cycle time is the time during which some event was running before the last uninterrupted period, divided by the number
    of instances. *)
Theorem C76_cycle_time : forall events n, events <> [] -> (forall a b, In (a, b) events -> (a <= b)%Z) -> 0 < n ->
  exists p st, cycle_time events n = Some (inject_Z (Z.of_nat p) / inject_Z (Z.of_nat n))%Q /\ last_period events st /\ exactly p (fun x => busy events x /\ (x < st)%Z).
Proof. apply cycle_time_ok. Qed.
Print Assumptions C76_cycle_time.
(** In particular it does not depend on the order of the events. *)
Theorem C76_order : forall events events' n, Permutation events events' -> (forall a b, In (a, b) events -> (a <= b)%Z) -> cycle_time events n = cycle_time events' n.
Proof.
  intros events events' n HP Hf. assert (Hin : forall x, In x events <-> In x events') by (intros x; split; apply Permutation_in; auto; symmetry; auto).
  destruct (list_eq_dec (fun x y : Z * Z => ltac:(decide equality; apply Z.eq_dec)) events []) as [->|Hne]; [apply Permutation_nil in HP; subst; auto|].
  assert (Hne' : events' <> []) by (intros ->; apply Permutation_sym, Permutation_nil in HP; congruence).
  destruct n as [|n].
  { unfold cycle_time. destruct (sorted_by fst (sorted_by snd events)) as [|[a b] r]; [|destruct (fold_left ct_step r _) as [[? ?] ?]]; (destruct (sorted_by fst (sorted_by snd events')) as [|[a' b'] r']; [|destruct (fold_left ct_step r' _) as [[? ?] ?]]); reflexivity. }
  destruct (cycle_time_ok events (S n) Hne Hf) as (p & st & -> & (A1 & A2 & A3) & A4); [lia|].
  destruct (cycle_time_ok events' (S n) Hne') as (p' & st' & -> & (B1 & B2 & B3) & B4); [intros a b H; apply Hf, Hin; auto|lia|].
  assert (st = st').
  { destruct A1 as (b & A1), B1 as (b' & B1). destruct (Z.lt_trichotomy st st') as [Hl|[Hl|Hl]]; auto; exfalso.
    - apply Hin in B1. destruct (A3 _ _ B1 Hl) as (x & y & Hx & H1 & H2). apply Hin in Hx. specialize (B2 _ _ Hx H1). lia.
    - apply Hin in A1. destruct (B3 _ _ A1 Hl) as (x & y & Hx & H1 & H2). apply Hin in Hx. specialize (A2 _ _ Hx H1). lia. }
  subst st'. repeat f_equal. eapply exactly_unique; [exact A4|]. eapply exactly_ext; [|exact B4]. intros x. unfold busy. split; intros [(u & v & Hu & Hv) Hw]; (split; [exists u, v; split; [apply Hin; auto|auto]|auto]).
Qed.
Print Assumptions C76_order.
(** It is not the whole time of production: the last period is missing, so one event of ten units counts nothing. *)
Theorem C76_total_refuted : exists events n, (forall a b, In (a, b) events -> (a <= b)%Z) /\ (exists x, cycle_time events n = Some x /\ x == 0)%Q /\ exactly 10 (busy events).
Proof.
  exists [(0, 10)]%Z, 1. split; [intros a b [E|[]]; injection E as <- <-; lia|]. split; [eexists; split; [reflexivity|reflexivity]|]. eapply exactly_ext; [|apply (exactly_range 0 10)]. intros x. unfold busy. cbv beta. split.
  - intros Hx. exists 0%Z, 10%Z. split; [left; auto|auto].
  - intros (a & b & [E|[]] & Hx). injection E as <- <-. auto.
Qed.
Print Assumptions C76_total_refuted.
Example ex_cycle : cycle_time [(7, 9); (0, 2); (1, 5)]%Z 2 = Some (5 # 2)%Q.
Proof. reflexivity. Qed.

(** * C77: overlap of cases *)
Lemma forall2_nth_error {A B} (R : A -> B -> Prop) (l : list A) (l' : list B) (H : Forall2 R l l') : forall k x y, nth_error l k = Some x -> nth_error l' k = Some y -> R x y.
Proof. induction H as [|x y l l' H HR IH]; intros [|k] u v Hu Hv; try discriminate; cbn in *; [injection Hu as <-; injection Hv as <-; exact H|exact (IH k _ _ Hu Hv)]. Qed.
(** If no two cases have the same span, the number for a case is the number of cases (itself included) whose span, widened by
    epsilon, meets its own. *)
Theorem C77_count : forall eps l, (0 < eps)%Z -> (forall t, In t l -> t <> [] /\ forall e, In e t -> forward e) ->
  exists spans ns, Forall2 span l spans /\ case_overlap eps l = Some ns /\ length ns = length l /\
    (NoDup spans -> forall k p n, nth_error spans k = Some p -> nth_error ns k = Some n -> exactly n (fun j => exists q, nth_error spans j = Some q /\ near eps p q)).
Proof.
  intros eps l Heps Hl. destruct (points_of_spans l) as (ps & E & HF); [intros t Ht; apply (Hl t Ht)|].
  destruct (overlap_ok eps ps) as (ns & En & HN).
  { intros p Hp. assert (exists t, In t l /\ span t p) as (t & Ht & Hs). { clear - HF Hp. induction HF as [|t q l ps H HF IH]; [destruct Hp|]. destruct Hp as [->|Hp]; [exists t; split; [left|]; auto|]. destruct (IH Hp) as (u & Hu & Hs). exists u. split; [right|]; auto. }
    destruct Hs as (_ & M1 & (e & He & <-) & _). specialize (M1 e He). destruct (Hl t Ht) as [_ Hf]. specialize (Hf e He). unfold forward in Hf. lia. }
  exists ps, ns. split; auto. split; [unfold case_overlap; rewrite E; auto|].
  assert (L1 : length ps = length l) by (clear - HF; induction HF; cbn; auto). assert (L2 : length ns = length ps) by (clear - HN; induction HN; cbn; auto).
  split; [congruence|]. intros Hnd k p n Hp Hn.
  assert (HE : exactly n (fun q => In q ps /\ near eps p q)).
  { exact (forall2_nth_error _ _ _ HN _ _ _ Hp Hn). }
  destruct HE as (L & N & LL & HL). assert (Hpos : forall q, In q ps -> exists j, nth_error ps j = Some q) by (intros q Hq; apply In_nth_error; auto).
  clear - Hnd N LL HL Hpos. subst n.
  assert (G : forall L, NoDup L -> (forall q, In q L -> In q ps) -> exists J, NoDup J /\ length J = length L /\ forall j, In j J <-> exists q, nth_error ps j = Some q /\ In q L).
  { clear L N HL. induction L as [|q L IH]; intros N Hs.
    - exists []. split; [constructor|]. split; auto. intros j. split; [intros []|intros (q & _ & [])].
    - inversion N; subst. destruct IH as (J & NJ & LJ & EJ); [auto|intros; apply Hs; right; auto|]. destruct (Hpos q) as (j & Hj); [apply Hs; left; auto|]. exists (j :: J). split; [|split; [cbn; auto|]].
      + constructor; auto. intros Hin. apply EJ in Hin as (q' & Hq' & Hin). congruence.
      + intros j'. cbn. rewrite EJ. split; [intros [<-|(q' & A & B)]; [exists q; auto|exists q'; auto]|]. intros (q' & A & [<-|B]); [left|right; eauto].
        destruct (Nat.eq_dec j j') as [|Hne]; auto. exfalso. apply Hne. eapply NoDup_nth_error; [exact Hnd| |congruence]. apply nth_error_Some. congruence. }
  destruct (G L N) as (J & NJ & LJ & EJ); [intros q Hq; apply HL in Hq; tauto|]. exists J. split; auto. split; auto. intros j. rewrite EJ. split; intros (q & A & B); exists q; split; auto; [apply HL in B; tauto|].
  apply HL. split; auto. eapply nth_error_In; eauto.
Qed.
Print Assumptions C77_count.
(** Cases with the same span are counted once: two simultaneous cases are reported as one. *)
Theorem C77_same_span_refuted : exists l, length l = 2 /\ (forall t, In t l -> t <> [] /\ forall e, In e t -> forward e) /\ case_overlap 1 l = Some [1; 1] /\
  exists p, Forall2 span l [p; p] /\ near 1 p p.
Proof.
  exists [[Iev 1 0 100]; [Iev 2 0 100]]. split; auto. split; [intros t [<-|[<-|[]]]; (split; [discriminate|]); intros e [<-|[]]; unfold forward; cbn; lia|]. split; [reflexivity|].
  exists (0, 100)%Z. split; [|unfold near; cbn; lia]. repeat constructor; cbn; try (eexists; split; [left; reflexivity|reflexivity]); intros e [<-|[]]; cbn; lia.
Qed.
Print Assumptions C77_same_span_refuted.
Example ex_overlap : case_overlap 1 [[Iev 1 0 10; Iev 2 20 30]; [Iev 1 12 15]; [Iev 1 31 40]; [Iev 1 100 100]] = Some [3; 2; 2; 1].
Proof. reflexivity. Qed.
