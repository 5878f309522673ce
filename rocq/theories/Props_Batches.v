(** C107: discovery of batches. *)
From Coq Require Import List Arith ZArith Bool Permutation Lia.
From Verif Require Import Model_Batches Spec_Batches Proofs_Batches.
Import ListNotations.
Open Scope Z_scope.

(** the detection ends; every event is in an interval and nothing else is, each interval reaches from the first start to the last end of its events, and
    each interval begins more than the merge distance after the end of all intervals before it *)
Theorem C107_intervals (d : Z) (events : list ev) : 0 <= d -> (forall e, In e events -> st e <= et e) ->
  exists l, intervals d events = Some l /\ (forall e, In e events <-> exists b, In b l /\ In e (evs b)) /\ (forall b, In b l -> spans b) /\
    forall i j a b, (i < j)%nat -> nth_error l i = Some a -> nth_error l j = Some b -> hi a + d < lo b.
Proof.
  intros D W. destruct (intervals_good events d) as (l & E & [G1 G2] & A). exists l. split; [auto|]. split; [auto|]. split; [auto|]. apply sep_all; auto. intros x Hx. apply spans_le; auto. intros e He. apply W, G2. eauto.
Qed.
Print Assumptions C107_intervals.

(** no event is in two intervals, and events that are at most the merge distance apart are in the same one *)
Theorem C107_together (d : Z) (events : list ev) (l : list iv) : 0 <= d -> (forall e, In e events -> st e <= et e) -> intervals d events = Some l ->
  (forall i j a b e, nth_error l i = Some a -> nth_error l j = Some b -> In e (evs a) -> In e (evs b) -> i = j) /\
  (forall e f, In e events -> In f events -> close d e f -> exists b, In b l /\ In e (evs b) /\ In f (evs b)).
Proof.
  intros D W E. destruct (C107_intervals d events D W) as (l' & E' & C & S & A). rewrite E in E'. injection E' as <-.
  assert (X : forall i j a b e f, nth_error l i = Some a -> nth_error l j = Some b -> In e (evs a) -> In f (evs b) -> close d e f -> i = j).
  { intros i j a b e f Hi Hj He Hf (C1 & C2). destruct (S a (nth_error_In _ _ Hi)) as (_ & _ & _ & Ba). destruct (S b (nth_error_In _ _ Hj)) as (_ & _ & _ & Bb). specialize (Ba e He). specialize (Bb f Hf). destruct (lt_eq_lt_dec i j) as [[L|L]|L]; auto; exfalso; [specialize (A i j a b L Hi Hj)|specialize (A j i b a L Hj Hi)]; lia. }
  split.
  - intros i j a b e Hi Hj Ha Hb. apply (X i j a b e e); auto. assert (In e events) by (apply C; exists a; split; [eapply nth_error_In; eauto|auto]). specialize (W e H). split; lia.
  - intros e f He Hf Q. apply C in He as (a & Ia & He). apply C in Hf as (b & Ib & Hf). apply In_nth_error in Ia as (i & Hi). apply In_nth_error in Ib as (j & Hj). assert (i = j) by (apply (X i j a b e f); auto). subst j. assert (a = b) by congruence. subst b. exists a. split; [eapply nth_error_In; eauto|auto].
Qed.
Print Assumptions C107_together.

(** what is reported: exactly the intervals with at least the minimum number of events; an event that is close to enough others is in a reported batch with them *)
Theorem C107_reported (d : Z) (m : nat) (events : list ev) : 0 <= d -> (forall e, In e events -> st e <= et e) ->
  exists r, detect_single d m events = Some r /\
    (forall t b, In (t, b) r -> spans b /\ (m <= length (evs b))%nat /\ incl (evs b) events /\ forall e, In e events -> (exists f, In f (evs b) /\ close d e f) -> In e (evs b)) /\
    (forall s, NoDup s -> incl s events -> (m <= length s)%nat -> s <> [] -> (forall e f, In e s -> In f s -> close d e f) -> exists t b, In (t, b) r /\ incl s (evs b)).
Proof.
  intros D W. destruct (C107_intervals d events D W) as (l & E & C & S & A). destruct (C107_together d events l D W E) as [T1 T2]. unfold detect_single. rewrite E. eexists. split; [reflexivity|]. split.
  - intros t b H. apply in_map_iff in H as (x & Q & H). injection Q as _ ->. apply filter_In in H as [H L]. apply Nat.leb_le in L. split; [auto|]. split; [auto|]. split; [intros e He; apply C; eauto|].
    intros e He (f & Hf & Q). assert (F : In f events) by (apply C; eauto). destruct (T2 e f He F Q) as (b' & Hb & H1 & H2). apply In_nth_error in H as (i & Hi). apply In_nth_error in Hb as (j & Hj). assert (i = j) by (apply (T1 i j b b' f); auto). subst j. assert (b = b') by congruence. subst b'. exact H1.
  - intros s N I L NE Q. destruct s as [|e s]; [congruence|]. assert (He : In e events) by (apply I; left; auto). apply C in He as (b & Hb & He). assert (IS : incl (e :: s) (evs b)).
    { intros f Hf. destruct (T2 e f) as (b' & Hb' & H1 & H2); [apply I; left; auto|apply I; auto|apply Q; [left; auto|auto]|]. apply In_nth_error in Hb as (i & Hi). apply In_nth_error in Hb' as (j & Hj). assert (i = j) by (apply (T1 i j b b' e); auto). subst j. assert (b = b') by congruence. subst b'. exact H2. }
    exists (check_type b), b. split; [|exact IS]. apply in_map_iff. exists b. split; auto. apply filter_In. split; auto. apply Nat.leb_le. pose proof (NoDup_incl_length N IS). lia.
Qed.
Print Assumptions C107_reported.

(** the types are the documented ones; [l] is the list of the events of the batch in the order of start, end and case *)
Theorem C107_types (b : iv) (l : list ev) : evs b <> [] -> Permutation (evs b) l -> in_order l ->
  (check_type b = Simultaneous <-> same_start (evs b) /\ same_end (evs b)) /\
  (check_type b = BatchingStart <-> same_start (evs b) /\ ~ same_end (evs b)) /\
  (check_type b = BatchingEnd <-> ~ same_start (evs b) /\ same_end (evs b)) /\
  (check_type b = Sequential <-> ~ same_start (evs b) /\ ~ same_end (evs b) /\ one_by_one l) /\
  (check_type b = Concurrent <-> ~ same_start (evs b) /\ ~ same_end (evs b) /\ ~ one_by_one l).
Proof.
  intros N P O. assert (E : sorted_events (evs b) = l). { apply order_unique; auto; [apply srt_order, sorted_srt|]. rewrite <- sorted_perm. exact P. }
  assert (NL : l <> []) by (intros ->; symmetry in P; apply Permutation_nil in P; auto). unfold check_type. rewrite E. pose proof (same_iff st l NL) as S1. pose proof (same_iff et l NL) as S2. pose proof (sequential_iff l) as S3.
  assert (F : forall f : ev -> Z, (forall x y, In x l -> In y l -> f x = f y) <-> (forall x y, In x (evs b) -> In y (evs b) -> f x = f y)) by (intros f; split; intros H x y Hx Hy; apply H; (rewrite P; assumption) || (rewrite <- P; assumption)).
  rewrite F in S1, S2. fold (same_start (evs b)) in S1. fold (same_end (evs b)) in S2.
  destruct (minimum (map st l) =? maximum (map st l)), (minimum (map et l) =? maximum (map et l)), (sequential l); cbn [andb]; (split; [|split; [|split; [|split]]]); (split; [intros H; try discriminate H|intros H]); intuition congruence.
Qed.
Print Assumptions C107_types.

(** ** a concrete case *)
Definition ex : list ev := [Ev 0 10 1; Ev 10 20 3; Ev 5000 5010 2].
Example C107_example : (forall e, In e ex -> st e <= et e) /\ detect_single 900 2 ex = Some [(Sequential, Iv 0 20 [Ev 0 10 1; Ev 10 20 3])].
Proof. split; [intros e [<- |[<- |[<- |[]]]]; cbn; lia|vm_compute; reflexivity]. Qed.
(** ** findings *)
(** events far away from each other are reported as a batch: the list that is scanned for neighbours is a heap, not a sorted list.  Here the events come in the order of
    time, the merge distance is 900 and the last event begins 19999 after everything else has ended. *)
Theorem C107_far_refuted : exists events r t b e, (forall i j a c, (i < j)%nat -> nth_error events i = Some a -> nth_error events j = Some c -> st a <= et a < st c) /\
  detect_single 900 2 events = Some r /\ In (t, b) r /\ In e (evs b) /\ (2 <= length (evs b))%nat /\ forall f, In f events -> f = e \/ et f + 19999 <= st e.
Proof.
  exists [Ev 0 1 1; Ev 10000 10001 2; Ev 20000 20001 3; Ev 20100 20101 4; Ev 40000 40001 5; Ev 60000 60001 6]. eexists. exists Concurrent, (Iv 20000 60001 [Ev 40000 40001 5; Ev 60000 60001 6; Ev 20000 20001 3; Ev 20100 20101 4]), (Ev 60000 60001 6). split; [|split; [vm_compute; reflexivity|]].
  - intros i j a c L Hi Hj. destruct i as [|[|[|[|[|[|i]]]]]], j as [|[|[|[|[|[|j]]]]]]; cbn in Hi, Hj; try (destruct i; discriminate); try (destruct j; discriminate); try (exfalso; lia); injection Hi as <-; injection Hj as <-; cbn; lia.
  - split; [left; reflexivity|]. split; [right; left; reflexivity|]. split; [cbn; lia|]. intros f [<- |[<- |[<- |[<- |[<- |[<- |[]]]]]]]; cbn; (left; reflexivity) || (right; lia).
Qed.
Print Assumptions C107_far_refuted.
