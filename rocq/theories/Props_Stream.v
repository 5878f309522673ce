(** C30, C31, C39: streaming conformance and temporal profiles. *)
From Coq Require Import List Arith Bool Lia Permutation ZArith Reals Lra.
Import ListNotations.
From Verif Require Import Model_Dict Model_Dfg Spec_Dfg Model_Stream Spec_Stream Spec_Temporal Proofs_Dfg Proofs_Stream Proofs_Temporal Proofs_Temporal2.

(** C30.  After every stream, for every case whose first event has a known activity, the counter is
    the number of its deviating events. *)
Theorem C30_counts_deviations : forall fp evs c a t, case_trace evs c = a :: t -> In a (fp_acts fp) ->
  exists n, d_get (f_dev (fp_run fp evs)) c = Some n /\ exactly n (deviating fp (case_trace evs c)).
Proof.
  intros fp evs c a t E Ha. destruct (last_known_ex fp (case_trace evs c)) as (p & Hp); [exists 0, a; rewrite E; split; auto|].
  destruct (fp_deviations fp evs c p Hp) as (n & H1 & H2). exists n. split; auto. eapply exactly_ext; [|exact H2]. intros i. split; [tauto|].
  intros H. split; auto. exists 0, a. split; [lia|]. rewrite E. split; auto.
Qed.
Print Assumptions C30_counts_deviations.
(** In general the events before the first known activity are not counted. *)
Theorem C30_counts_from_first_known : forall fp evs c p, last_known fp (case_trace evs c) p ->
  exists n, d_get (f_dev (fp_run fp evs)) c = Some n /\
    exactly n (fun i => deviating fp (case_trace evs c) i /\ exists j b, j <= i /\ known fp (case_trace evs c) j b).
Proof. exact fp_deviations. Qed.
Print Assumptions C30_counts_from_first_known.
(** get_status and terminate report that counter, and the end activity. *)
Theorem C30_status : forall fp evs c p, last_known fp (case_trace evs c) p ->
  exists n, d_get (f_dev (fp_run fp evs)) c = Some n /\
    (get_status (fp_run fp evs) c = Some true <-> n = 0) /\
    (fst (terminate fp (fp_run fp evs) c) = Some true <-> n = 0 /\ In p (fp_ends fp)) /\
    get_status (fp_run fp evs) c <> None /\ fst (terminate fp (fp_run fp evs) c) <> None.
Proof.
  intros fp evs c p H. destruct (fp_status fp evs c p H) as (n & H1 & H2 & H3). exists n. split; auto. rewrite H2, H3.
  split; [|split; [|split; discriminate]].
  - destruct (Nat.eqb_spec n 0); split; congruence.
  - rewrite <- mem_in. destruct (Nat.eqb_spec n 0), (mem p (fp_ends fp)); cbn; split; try congruence; try tauto; intros [? ?]; congruence.
Qed.
Print Assumptions C30_status.
(** Terminating a case forgets it: afterwards its events are those of a new case; the other cases are not affected. *)
Theorem C30_terminate_forgets : forall fp evs c p evs', last_known fp (case_trace evs c) p ->
  let s := fold_left (fp_process fp) evs' (snd (terminate fp (fp_run fp evs) c)) in
  (d_get (f_dev s) c = d_get (f_dev (fp_run fp evs')) c /\ get_status s c = get_status (fp_run fp evs') c /\
   fst (terminate fp s c) = fst (terminate fp (fp_run fp evs') c)) /\
  (forall c', c' <> c -> d_get (f_dev s) c' = d_get (f_dev (fp_run fp (evs ++ evs'))) c' /\ get_status s c' = get_status (fp_run fp (evs ++ evs')) c' /\
   fst (terminate fp s c') = fst (terminate fp (fp_run fp (evs ++ evs')) c')).
Proof.
  intros fp evs c p evs' H s. assert (K : d_get (f_case (fp_run fp evs)) c <> None).
  { destruct (C30_status fp evs c p H) as (n & _ & _ & _ & G & _). unfold get_status in G. destruct (d_get (f_case (fp_run fp evs)) c); congruence. }
  split.
  - destruct (run_local fp evs' (snd (terminate fp (fp_run fp evs) c)) f_init c) as (A & B);
      try (destruct (terminate_get fp (fp_run fp evs) c c K) as (T1 & T2); rewrite Nat.eqb_refl in T1, T2; [rewrite T1 || rewrite T2]; reflexivity).
    split; [exact B|]. exact (same_answers fp s (fp_run fp evs') c A B).
  - intros c' N. assert (E : fp_run fp (evs ++ evs') = fold_left (fp_process fp) evs' (fp_run fp evs)) by (unfold fp_run; apply fold_left_app). rewrite E.
    destruct (run_local fp evs' (snd (terminate fp (fp_run fp evs) c)) (fp_run fp evs) c') as (A & B);
      try (destruct (terminate_get fp (fp_run fp evs) c c' K) as (T1 & T2); assert (F : Nat.eqb c c' = false) by (apply Nat.eqb_neq; auto); rewrite F in T1, T2; first [exact T1|exact T2]).
    split; [exact B|]. exact (same_answers fp s _ c' A B).
Qed.
Print Assumptions C30_terminate_forgets.
(** Finding: deviations before the first known activity are forgotten. *)
Definition fp_ab := Fp [1; 2] [1] [2] [(1, 2)].
Definition late := [Event (Some 0) (Some 9); Event (Some 0) (Some 9); Event (Some 0) (Some 1); Event (Some 0) (Some 2)].
Theorem C30_unknown_start_refuted : exists fp evs c n, d_get (f_dev (fp_run fp evs)) c = Some n /\ ~ exactly n (deviating fp (case_trace evs c)).
Proof.
  exists fp_ab, late, 0, 0. split; [reflexivity|]. intros (l & _ & Hl & H). destruct l; [|discriminate]. apply (H 0).
  exists 9. split; [reflexivity|]. left. cbn. lia.
Qed.
Print Assumptions C30_unknown_start_refuted.
Example ex_fp : d_get (f_dev (fp_run fp_ab [Event (Some 0) (Some 1); Event (Some 5) (Some 2); Event (Some 0) (Some 7); Event (Some 0) (Some 1); Event (Some 0) (Some 2)])) 0 = Some 2. Proof. reflexivity. Qed.
Example ex_term : fst (terminate fp_ab (fp_run fp_ab [Event (Some 0) (Some 1); Event (Some 0) (Some 2)]) 0) = Some true. Proof. reflexivity. Qed.

(** C31.  For every number type (the operations are arbitrary, so this covers floating point): after every stream, the
    deviations reported for a case are those of the batch check of the events received for it (in the order
    in which they are found); cases without deviations are not reported. *)
Theorem C31_stream_equals_batch : forall (N : Type) (NN : Num N) (p : profile N) (zeta : N) (evs : list (sevent N)) c,
  match d_get (t_result (t_run p zeta evs)) c with
  | Some ds => ds <> [] /\ Permutation ds (check_trace p zeta (case_events evs c))
  | None => check_trace p zeta (case_events evs c) = []
  end.
Proof. intros. apply stream_batch. Qed.
Print Assumptions C31_stream_equals_batch.
#[local] Instance numZ : Num Z := {| n_zero := 0%Z; n_max := 9223372036854775807%Z; n_add := Z.add; n_sub := Z.sub; n_mul := Z.mul; n_div := Z.div; n_abs := Z.abs;
  n_leb := Z.leb; n_ltb := Z.ltb; n_mean := fun l => (fold_right Z.add 0 l / Z.of_nat (length l))%Z; n_stdev := fun _ => 0%Z |}.
Definition ex_profile : profile Z := [((1, 2), (10%Z, 2%Z)); ((1, 1), (5%Z, 0%Z))].
Definition ev (c a : nat) (s : Z) : sevent Z := Some (c, TE a s s).
Definition ex_stream := [ev 0 1 0; ev 1 1 0; ev 0 1 6; None; ev 1 2 12; ev 0 2 40].
Example ex_temporal : t_result (t_run ex_profile 2%Z ex_stream) = [(0, [(1, 1, 6%Z, 9223372036854775807%Z); (1, 2, 40%Z, 15%Z); (1, 2, 34%Z, 12%Z)])]. Proof. reflexivity. Qed.
Example ex_temporal_batch : conformance ex_profile 2%Z [case_events ex_stream 0; case_events ex_stream 1] = [[(1, 1, 6%Z, 9223372036854775807%Z); (1, 2, 40%Z, 15%Z); (1, 2, 34%Z, 12%Z)]; []]. Proof. reflexivity. Qed.

(** C39 *)
Theorem C39_profile_average : forall (l : list (ttrace R)) a b m s, d_get (discover_profile l) (a, b) = Some (m, s) ->
  (0 <= s)%R /\ (exists k i j x, delay l k i j a b x /\ (x <= m)%R) /\ (exists k i j x, delay l k i j a b x /\ (m <= x)%R).
Proof.
  intros l a b m s. rewrite profile_get. assert (D := fun x => in_delays a b x l). destruct (delays (a, b) l) as [|d0 ds] eqn:E; [discriminate|].
  assert (G : (exists x, In x (d0 :: ds) /\ (x <= m)%R) -> (exists x, In x (d0 :: ds) /\ (m <= x)%R) -> (exists k i j x, delay l k i j a b x /\ (x <= m)%R) /\ (exists k i j x, delay l k i j a b x /\ (m <= x)%R)).
  { intros (x & Hx & Lx) (y & Hy & Ly). apply D in Hx as (k & i & j & Hx). apply D in Hy as (k' & i' & j' & Hy). split; eauto 10. }
  cbv zeta. destruct (Nat.ltb_spec 1 (length (d0 :: ds))) as [L|L]; intros H; assert (Hm := f_equal (fun o => match o with Some p => fst p | None => 0%R end) H); assert (Hs := f_equal (fun o => match o with Some p => snd p | None => 0%R end) H); cbn [fst snd] in Hm, Hs; subst m s.
  - split; [apply stdev_nonneg|]. apply G; [apply mean_lower; discriminate|apply mean_upper; discriminate].
  - split; [cbn; lra|]. apply G; exists d0; cbn; split; auto; lra.
Qed.
Print Assumptions C39_profile_average.
Theorem C39_profile_pairs : forall (l : list (ttrace R)) a b, d_get (discover_profile l) (a, b) <> None <-> exists k i j x, delay l k i j a b x.
Proof.
  intros l a b. rewrite profile_get. split.
  - intros H. destruct (delays (a, b) l) as [|d0 ds] eqn:E; [congruence|]. assert (Hx : In d0 (delays (a, b) l)) by (rewrite E; cbn; auto).
    apply in_delays in Hx as (k & i & j & Hx). eauto.
  - intros (k & i & j & x & H). assert (Hx : In x (delays (a, b) l)) by (apply in_delays; eauto). destruct (delays (a, b) l); [destruct Hx|discriminate].
Qed.
Print Assumptions C39_profile_pairs.
(** The profile is exact: the average and the sample standard deviation (0 for one recording) of the delays of the pair, each counted
    once per pair of positions. *)
Theorem C39_profile_exact : forall (l : list (ttrace R)) a b m s, d_get (discover_profile l) (a, b) = Some (m, s) ->
  exists ps xs, NoDup ps /\ Forall2 (fun p x => delay l (fst (fst p)) (snd (fst p)) (snd p) a b x) ps xs /\
    (forall k i j x, delay l k i j a b x -> In (k, i, j) ps) /\
    m = meanR xs /\ ((1 < length xs)%nat -> s = stdevR xs) /\ (length xs = 1%nat -> s = 0%R).
Proof.
  intros l a b m s. rewrite profile_get. destruct (delays_positions a b l) as (ps & N & Fa & C).
  destruct (delays (a, b) l) as [|d0 ds] eqn:E; [discriminate|]. cbv zeta. intros H. exists ps, (d0 :: ds). split; [auto|]. split; [auto|]. split; [auto|]. revert H.
  destruct (Nat.ltb_spec 1 (length (d0 :: ds))) as [L|L]; intros H; assert (Hm := f_equal (fun o => match o with Some p => fst p | None => 0%R end) H);
    assert (Hs := f_equal (fun o => match o with Some p => snd p | None => 0%R end) H); cbn [fst snd] in Hm, Hs; subst m s.
  - split; [reflexivity|]. split; [reflexivity|]. lia.
  - destruct ds; [|cbn in L; lia]. split; [unfold meanR, sumR; cbn; field|]. split; [cbn; lia|reflexivity].
Qed.
Print Assumptions C39_profile_exact.
(** The deviations reported for a trace: one for each pair of positions whose delay is outside mean +- zeta * standard deviation. *)
Theorem C39_deviations_exact : forall (p : profile R) zeta (l : list (ttrace R)) k ds, nth_error (conformance p zeta l) k = Some ds ->
  exists ps, NoDup ps /\
  Forall2 (fun ij d => let '(a, b, x, z) := d in delay l k (fst ij) (snd ij) a b x /\ exists m s, d_get p (a, b) = Some (m, s) /\
    (x < m - zeta * s \/ m + zeta * s < x)%R /\ z = (if Rlt_dec 0 s then Rabs (x - m) / s else IZR (2 ^ 63 - 1))%R) ps ds /\
  forall i j a b x m s, delay l k i j a b x -> d_get p (a, b) = Some (m, s) -> (x < m - zeta * s \/ m + zeta * s < x)%R -> In (i, j) ps.
Proof.
  intros p zeta l k ds H. unfold conformance in H. rewrite nth_error_map in H. destruct (nth_error l k) as [t|] eqn:E; [|discriminate]. injection H as <-.
  apply check_positions. exact E.
Qed.
Print Assumptions C39_deviations_exact.
(** A log with constant delays does not deviate from its own profile. *)
Theorem C39_constant_delays : forall (l : list (ttrace R)) zeta, (0 <= zeta)%R ->
  (forall a b k i j x k' i' j' x', delay l k i j a b x -> delay l k' i' j' a b x' -> x = x') ->
  forall ds, In ds (conformance (discover_profile l) zeta l) -> ds = [].
Proof.
  intros l zeta Hz H. apply self_conform. intros a b x Hx _. apply dev_const; auto. intros y Hy.
  apply in_delays in Hx as (k & i & j & Hx). apply in_delays in Hy as (k' & i' & j' & Hy). eapply H; eauto.
Qed.
Print Assumptions C39_constant_delays.
(** No log deviates from its own profile if each pair has few recordings: (n-1)^2 <= zeta^2 * n (Samuelson's inequality). *)
Theorem C39_self_conformance : forall (l : list (ttrace R)) zeta, (0 <= zeta)%R ->
  (forall a b n, exactly n (fun p => exists x, delay l (fst (fst p)) (snd (fst p)) (snd p) a b x) -> ((INR n - 1) * (INR n - 1) <= zeta * zeta * INR n)%R \/ n = 0) ->
  forall ds, In ds (conformance (discover_profile l) zeta l) -> ds = [].
Proof.
  intros l zeta Hz H. apply self_conform. intros a b x Hx Hl. apply dev_bound; auto. destruct (H a b _ (delays_length a b l)) as [?|E]; auto. lia.
Qed.
Print Assumptions C39_self_conformance.
(** With the default zeta = 6 that is every log with at most 37 recordings per pair. *)
Theorem C39_self_conformance_default : forall (l : list (ttrace R)),
  (forall a b n, exactly n (fun p => exists x, delay l (fst (fst p)) (snd (fst p)) (snd p) a b x) -> n <= 37) ->
  forall ds, In ds (conformance (discover_profile l) 6%R l) -> ds = [].
Proof.
  intros l H. apply C39_self_conformance; [lra|]. intros a b n Hn. specialize (H a b n Hn). destruct n as [|n]; auto. left.
  assert (INR (S n) <= INR 37)%R by (apply le_INR; auto). rewrite S_INR in *. assert (0 <= INR n)%R by apply pos_INR.
  replace (INR 37) with 37%R in * by (rewrite INR_IZR_INZ; reflexivity). nra.
Qed.
Print Assumptions C39_self_conformance_default.
(** a log with two traces and delays 1 and 3 between 1 and 2: mean 2, standard deviation sqrt 2 *)
Definition ex_tlog : list (ttrace R) := [[TE 1 0 0; TE 2 1 1]; [TE 1 0 0; TE 2 3 3]]%R.
Example ex_profile_R : d_get (discover_profile ex_tlog) (1, 2) = Some (meanR [1 - 0; 3 - 0], stdevR [1 - 0; 3 - 0])%R.
Proof.
  rewrite profile_get. unfold delays, ex_tlog. cbn [map dtrace concat dpair te_end te_start te_act app]. unfold dpair. cbn [n_leb numR te_end te_start te_act n_sub]. unfold lebR.
  destruct (Rle_dec 0 1); [|lra]. destruct (Rle_dec 0 3); [|lra]. cbn. reflexivity.
Qed.
Example ex_delay : delay ex_tlog 1 0 1 1 2 3%R.
Proof. exists [TE 1 0 0; TE 2 3 3]%R, (TE 1 0 0)%R, (TE 2 3 3)%R. cbn. repeat split; auto; lra. Qed.
