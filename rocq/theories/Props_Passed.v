(** C112: performance DFG, passed times and service times. *)
From Coq Require Import List Arith Bool ZArith QArith Lqa Lia.
From Verif Require Import Spec_Passed Model_Passed Proofs_Passed.
Import ListNotations.
Open Scope nat_scope.

(** The performance DFG has exactly the pairs of activities that directly follow each other, each once; the value is the measure of the waiting times of all occurrences of the pair. *)
Theorem C112_performance : forall m log,
  NoDup (map fst (performance m log)) /\
  (forall a b, waits (between a b) log <> [] <-> exists q, In (a, b, q) (performance m log)) /\
  forall a b q, In (a, b, q) (performance m log) -> describes m (waits (between a b) log) q.
Proof.
  intros m log. unfold performance. rewrite couples_pairs. destruct (group_ok pair_eqb pair_eqb_iff (pairs log)) as [N I]. split; [rewrite map_map; auto|]. split.
  - intros a b. rewrite <- vals_waits. split.
    + intros H. exists (aggregate m (vals pair_eqb (a, b) (pairs log))). apply in_map_iff. exists ((a, b), vals pair_eqb (a, b) (pairs log)). split; auto. apply I. split; auto. unfold vals in H. destruct (filter _ _) as [|c r] eqn:F; [cbn in H; congruence|]. assert (J : In c (filter (fun c => pair_eqb (fst c) (a, b)) (pairs log))) by (rewrite F; left; auto).
      apply filter_In in J as [J1 J2]. apply pair_eqb_iff in J2. rewrite <- J2. apply in_map; auto.
    + intros (q & H). apply in_map_iff in H as ((k & l) & E & H). cbn [fst snd] in E. injection E as -> _. apply entry_vals in H as [<- H]. auto.
  - intros a b q H. apply in_map_iff in H as ((k & l) & E & H). cbn [fst snd] in E. injection E as -> <-. apply entry_vals in H as [V H]. rewrite vals_waits in V. rewrite <- V. apply aggregate_describes; auto.
Qed.
Print Assumptions C112_performance.
(** The frequency DFG counts the same occurrences. *)
Theorem C112_frequency : forall log a b, frequency log (a, b) = length (waits (between a b) log).
Proof. intros. rewrite frequency_vals, vals_waits. auto. Qed.
Print Assumptions C112_frequency.

(** The passed times of an activity: an entry for each succeeding (preceding) activity, with the average waiting time and the number of occurrences; the overall value is the average
    over all single occurrences (0 if there is none). *)
Theorem C112_post : forall log a,
  (forall b q n, In (b, q, n) (fst (post log a)) <-> waits (between a b) log <> [] /\ q = average (waits (between a b) log) /\ n = length (waits (between a b) log)) /\
  (snd (post log a) == average (waits (fun x _ => Nat.eqb x a) log))%Q.
Proof.
  intros log a. split; [|apply side_average]. intros b q n. destruct (C112_performance Mmean log) as (_ & I & D). unfold post, side. cbn [fst]. rewrite in_map_iff. split.
  - intros (((x & y) & r) & E & H). cbn [fst snd] in E. injection E as -> -> <-. apply filter_In in H as [H Q]. cbn [fst snd] in Q. apply Nat.eqb_eq in Q. subst x. split; [apply I; eauto|]. split; [apply (D _ _ _ H)|apply C112_frequency].
  - intros (H & -> & ->). apply I in H as (q & H). exists (a, b, q). cbn [fst snd]. rewrite C112_frequency. split; [rewrite (D _ _ _ H); auto|]. apply filter_In. split; auto. apply Nat.eqb_refl.
Qed.
Print Assumptions C112_post.
Theorem C112_pre : forall log a,
  (forall b q n, In (b, q, n) (fst (pre log a)) <-> waits (between b a) log <> [] /\ q = average (waits (between b a) log) /\ n = length (waits (between b a) log)) /\
  (snd (pre log a) == average (waits (fun _ y => Nat.eqb y a) log))%Q.
Proof.
  intros log a. split; [|apply side_average]. intros b q n. destruct (C112_performance Mmean log) as (_ & I & D). unfold pre, side. cbn [fst]. rewrite in_map_iff. split.
  - intros (((x & y) & r) & E & H). cbn [fst snd] in E. injection E as -> -> <-. apply filter_In in H as [H Q]. cbn [fst snd] in Q. apply Nat.eqb_eq in Q. subst y. split; [apply I; eauto|]. split; [apply (D _ _ _ H)|apply C112_frequency].
  - intros (H & -> & ->). apply I in H as (q & H). exists (b, a, q). cbn [fst snd]. rewrite C112_frequency. split; [rewrite (D _ _ _ H); auto|]. apply filter_In. split; auto. apply Nat.eqb_refl.
Qed.
Print Assumptions C112_pre.

(** The average waiting time is between the least and the greatest one, and none is negative. *)
Lemma sum_between l lo hi : (forall y, In y l -> (lo <= y <= hi)%Z) -> (lo * Z.of_nat (length l) <= sum l <= hi * Z.of_nat (length l))%Z.
Proof.
  induction l as [|x l IH]; intros H; [cbn; lia|]. rewrite sum_cons. cbn [length]. pose proof (H x (or_introl eq_refl)). specialize (IH (fun y Hy => H y (or_intror Hy))). rewrite Nat2Z.inj_succ. lia.
Qed.
Theorem C112_bounds : forall log a b lo q hi, In (a, b, lo) (performance Mmin log) -> In (a, b, q) (performance Mmean log) -> In (a, b, hi) (performance Mmax log) -> (0 <= lo /\ lo <= q /\ q <= hi)%Q.
Proof.
  intros log a b lo q hi H1 H2 H3. pose proof (proj2 (proj1 (proj2 (C112_performance Mmin log)) a b) (ex_intro (fun q => In (a, b, q) (performance Mmin log)) lo H1)) as N. apply C112_performance in H1 as (zl & I1 & -> & L). apply C112_performance in H2. apply C112_performance in H3 as (zh & _ & -> & H). cbn [describes] in H2. subst q.
  set (l := waits (between a b) log) in *. assert (P : (0 < inject_Z (Z.of_nat (length l)))%Q) by (change 0%Q with (inject_Z 0); rewrite <- Zlt_Qlt; destruct l; [congruence|cbn [length]; lia]).
  destruct (sum_between l zl zh) as [B1 B2]; [intros y Hy; split; auto|]. split; [|split].
  - change 0%Q with (inject_Z 0). rewrite <- Zle_Qle. unfold l, waits in I1. apply in_map_iff in I1 as (c & <- & I1). apply filter_In in I1 as [I1 _]. unfold pairs in I1. apply in_flat_map in I1 as (t & _ & I1). apply in_flat_map in I1 as (i & _ & I1). unfold wait_at in I1. destruct (nth_error t i), (nth_error t (S i)); try destruct I1 as [<-|[]]; try destruct I1. cbn [snd]. lia.
  - unfold average. apply Qle_shift_div_l; auto. rewrite <- inject_Z_mult, <- Zle_Qle. auto.
  - unfold average. apply Qle_shift_div_r; auto. rewrite <- inject_Z_mult, <- Zle_Qle. auto.
Qed.
Print Assumptions C112_bounds.

(** The service times: every activity of the log once, with the measure of the durations of its events. *)
Theorem C112_service : forall m log,
  NoDup (map fst (service_time m log)) /\
  (forall a, (exists t e, In t log /\ In e t /\ act e = a) <-> exists q, In (a, q) (service_time m log)) /\
  forall a q, In (a, q) (service_time m log) -> describes m (durations a log) q.
Proof.
  intros m log. unfold service_time. set (cs := map (fun e => (act e, (stamp e - start e)%Z)) (concat log)). destruct (group_ok Nat.eqb Nat.eqb_eq cs) as [N I]. split; [rewrite map_map; auto|].
  assert (K : forall a, (exists t e, In t log /\ In e t /\ act e = a) <-> In a (map fst cs)).
  { intros a. unfold cs. rewrite map_map, in_map_iff. cbn [fst]. split; [intros (t & e & H1 & H2 & E); exists e; split; auto; apply in_concat; eauto|]. intros (e & E & H). apply in_concat in H as (t & H1 & H2). eauto. }
  assert (V : forall a, vals Nat.eqb a cs = durations a log).
  { intros a. unfold vals, cs, durations. clear. induction (concat log) as [|e l IH]; auto. cbn [map filter fst]. destruct (Nat.eqb (act e) a); cbn [map snd]; rewrite IH; auto. }
  split.
  - intros a. rewrite K. split; [intros H; exists (aggregate m (durations a log)); apply in_map_iff; exists (a, durations a log); split; auto; apply I; auto|]. intros (q & H). apply in_map_iff in H as ((k & l) & E & H). cbn [fst snd] in E. injection E as -> _. apply I in H. apply H.
  - intros a q H. apply in_map_iff in H as ((k & l) & E & H). cbn [fst snd] in E. injection E as -> <-. apply I in H as [H ->]. rewrite V. apply aggregate_describes. apply K in H as (t & e & H1 & H2 & E). unfold durations. intros Z0. apply map_eq_nil in Z0.
    assert (J : In e (filter (fun e => Nat.eqb (act e) a) (concat log))) by (apply filter_In; split; [apply in_concat; eauto|apply Nat.eqb_eq; auto]). rewrite Z0 in J. destruct J.
Qed.
Print Assumptions C112_service.

(** Two cases; the second event of the first case starts before the end of the first one: this counts as 0. *)
Example C112_example : let log : list (list event) := [[(1, (0, 10)%Z); (2, (8, 20)%Z); (3, (26, 30)%Z)]; [(1, (0, 10)%Z); (2, (14, 20)%Z); (1, (22, 23)%Z)]] in
  performance Mmean log = [(1, 2, (4 # 2)%Q); (2, 3, (6 # 1)%Q); (2, 1, (2 # 1)%Q)] /\ performance Mmin log = [(1, 2, (0 # 1)%Q); (2, 3, (6 # 1)%Q); (2, 1, (2 # 1)%Q)]
  /\ fst (post log 2) = [(3, (6 # 1)%Q, 1); (1, (2 # 1)%Q, 1)] /\ (snd (post log 2) == 4)%Q /\ waits (between 1 2) log = [0; 4]%Z /\ service_time Mmax log = [(1, (10 # 1)%Q); (2, (12 # 1)%Q); (3, (4 # 1)%Q)].
Proof. vm_compute. repeat split. Qed.
