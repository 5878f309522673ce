(** C38: the case filters keep exactly the cases they describe.  In every theorem, [Some r] is a run of the filter that ends without
    exception; the [_total] theorem gives conditions under which there is none. *)
From Coq Require Import List Arith Bool ZArith QArith Lia Permutation.
Import ListNotations.
From Verif Require Import Model_Dict Model_Tree Model_Filter Spec_Filter Proofs_Filter.
Local Open Scope nat_scope.

Theorem C38_start_activities : forall positive key admitted l r, start_activities positive key admitted l = Some r ->
  Selected (fun c => exists e v, first_is c e /\ value key e v /\ polar positive (In v admitted)) l r.
Proof. intros. apply start_ok. assumption. Qed.
Theorem C38_end_activities : forall positive key admitted l r, end_activities positive key admitted l = Some r ->
  Selected (fun c => exists e v, last_is c e /\ value key e v /\ polar positive (In v admitted)) l r.
Proof. intros. apply end_ok. assumption. Qed.
Theorem C38_eventually_follows : forall positive key ts values l r, eventually_follows positive key ts values None l = Some r ->
  Selected (fun c => polar positive (Eventually key values (c_events c))) l r.
Proof. intros. eapply follows_ok. eassumption. Qed.
Theorem C38_A_next_B_next_C : forall positive key A B C l r, A_next_B_next_C positive key A B C l = Some r ->
  Selected (fun c => polar positive (exists e1 e2 e3, adjacent3 (c_events c) e1 e2 e3 /\ value key e1 A /\ value key e2 B /\ value key e3 C)) l r.
Proof. intros. apply abc_ok. assumption. Qed.
Theorem C38_four_eyes : forall positive key res A B l r, four_eyes positive key res A B l = Some r ->
  Selected (fun c => (exists x, performs key res c A x) /\ (exists x, performs key res c B x) /\
     polar positive (forall x, performs key res c A x -> performs key res c B x -> False)) l r.
Proof. intros. apply four_eyes_ok. assumption. Qed.
Theorem C38_different_persons : forall positive key res A l r, different_persons positive key res A l = Some r ->
  Selected (fun c => polar positive (exists x y, x <> y /\ performs key res c A x /\ performs key res c A y)) l r.
Proof. intros. apply persons_ok. assumption. Qed.
Theorem C38_paths : forall positive key wanted l r, paths positive key wanted l = Some r ->
  Selected (fun c => polar positive (exists e1 e2 a b, adjacent (c_events c) e1 e2 /\ value key e1 a /\ value key e2 b /\ In (a, b) wanted)) l r.
Proof. intros. apply paths_ok. assumption. Qed.
Theorem C38_path_performance : forall positive key ts a b lo hi l r, path_performance positive key ts (a, b) lo hi l = Some r ->
  Selected (fun c => polar positive (exists e1 e2 t1 t2, adjacent (c_events c) e1 e2 /\ value key e1 a /\ value key e2 b /\
     value ts e1 t1 /\ value ts e2 t2 /\ (lo <= t2 - t1 <= hi)%Z)) l r.
Proof. intros. apply performance_ok. assumption. Qed.
Theorem C38_rework : forall positive key a m l r, rework positive key a m l = Some r ->
  Selected (fun c => polar positive (exists n, occurs key c a n /\ 1 <= n /\ m <= n)) l r.
Proof. intros. apply rework_ok. assumption. Qed.
Theorem C38_repetitions : forall key a m M l r, repetitions key a m M l = Some r -> Selected (fun c => exists n, occurs key c a n /\ m <= n <= M) l r.
Proof. intros. apply repetitions_ok. assumption. Qed.
Theorem C38_attribute_values : forall positive key values l r, attribute_values positive key values l = Some r ->
  Selected (fun c => c_events c <> [] /\ polar positive (exists e v, In e (c_events c) /\ value key e v /\ In v values)) l r.
Proof. intros. apply attribute_ok. assumption. Qed.
Theorem C38_trace_attribute : forall positive key values l r, trace_attribute positive key values l = Some r ->
  Selected (fun c => polar positive (exists v, d_get (c_attrs c) key = Some v /\ In v values)) l r.
Proof. intros. apply trace_attribute_ok. assumption. Qed.
(** Case identifiers must be distinct (the filter goes through the set of the identifiers). *)
Theorem C38_numeric : forall positive idk key filters lo hi l r,
  (forall c c' i, In c l -> In c' l -> d_get (c_attrs c) idk = Some i -> d_get (c_attrs c') idk = Some i -> c = c') ->
  numeric positive idk key filters lo hi l = Some r ->
  Selected (fun c => exists e, In e (c_events c) /\ (forall k v, In (k, v) filters -> value k e v) /\
     exists x, value key e x /\ polar positive (lo <= x <= hi)%Z) l r.
Proof. intros. eapply numeric_ok; eassumption. Qed.
Theorem C38_case_size : forall m M l r, case_size m M l = Some r ->
  Selected (fun c => m <= length (c_events c) /\ forall k, M = Some k -> length (c_events c) <= k) l r.
Proof. intros. apply case_size_ok. assumption. Qed.
Theorem C38_ncases : forall n l, exists s, l = ncases n l ++ s /\ length (ncases n l) = Nat.min (length l) n.
Proof. apply ncases_ok. Qed.
Theorem C38_case_performance : forall ts lo hi l r, case_performance ts lo hi l = Some r ->
  Selected (fun c => exists e1 e2 t1 t2, first_is c e1 /\ last_is c e2 /\ value ts e1 t1 /\ value ts e2 t2 /\ (lo <= t2 - t1 <= hi)%Z) l r.
Proof. intros. apply case_performance_ok. assumption. Qed.
Theorem C38_traces_contained : forall ts dt1 dt2 l r, traces_contained ts dt1 dt2 l = Some r ->
  Selected (fun c => exists e1 e2 t1 t2, first_is c e1 /\ last_is c e2 /\ value ts e1 t1 /\ value ts e2 t2 /\ (dt1 <= t1)%Z /\ (t2 <= dt2)%Z) l r.
Proof. intros. apply contained_ok. assumption. Qed.
(** For an interval and cases whose last event is not before the first one, "intersecting" is: some instant lies in the interval and in
    the case. *)
Theorem C38_traces_intersecting : forall ts dt1 dt2 l r, (dt1 <= dt2)%Z ->
  (forall c e1 e2 t1 t2, In c l -> first_is c e1 -> last_is c e2 -> value ts e1 t1 -> value ts e2 t2 -> (t1 <= t2)%Z) ->
  traces_intersecting ts dt1 dt2 l = Some r ->
  Selected (fun c => exists e1 e2 t1 t2, first_is c e1 /\ last_is c e2 /\ value ts e1 t1 /\ value ts e2 t2 /\
     exists t, (dt1 <= t <= dt2)%Z /\ (t1 <= t <= t2)%Z) l r.
Proof. intros. apply intersecting_ok; assumption. Qed.
Theorem C38_trace_attribute_time : forall key dt1 dt2 l r, trace_attribute_time key dt1 dt2 l = Some r ->
  Selected (fun c => exists v, d_get (c_attrs c) key = Some v /\ (dt1 <= v <= dt2)%Z) l r.
Proof. intros. apply trace_time_ok. assumption. Qed.
Theorem C38_attribute_in_timeframe : forall key v ts dt1 dt2 l r, attribute_in_timeframe key v ts dt1 dt2 l = Some r ->
  Selected (fun c => exists e t, In e (c_events c) /\ value key e v /\ value ts e t /\ (dt1 <= t <= dt2)%Z) l r.
Proof. intros. apply timeframe_ok. assumption. Qed.

(** None of them raises an exception on a log whose events have the attributes the filter reads. *)
Theorem C38_total : forall key ts res idk l, everywhere key l -> everywhere ts l ->
  (forall c, In c l -> exists i, d_get (c_attrs c) idk = Some i) ->
  (forall p s, exists r, start_activities p key s l = Some r) /\ (forall p s, exists r, end_activities p key s l = Some r) /\
  (forall p vs, exists r, eventually_follows p key ts vs None l = Some r) /\ (forall p A B C, exists r, A_next_B_next_C p key A B C l = Some r) /\
  (forall p A B, exists r, four_eyes p key res A B l = Some r) /\ (forall p A, exists r, different_persons p key res A l = Some r) /\
  (forall p w, exists r, paths p key w l = Some r) /\ (forall p a b lo hi, exists r, path_performance p key ts (a, b) lo hi l = Some r) /\
  (forall p a m, exists r, rework p key a m l = Some r) /\ (forall a m M, exists r, repetitions key a m M l = Some r) /\
  (forall p vs, exists r, attribute_values p key vs l = Some r) /\ (forall p k vs, exists r, trace_attribute p k vs l = Some r) /\
  (forall p f lo hi, exists r, numeric p idk key f lo hi l = Some r) /\ (forall m M, exists r, case_size m M l = Some r) /\
  (forall lo hi, exists r, case_performance ts lo hi l = Some r) /\ (forall d1 d2, exists r, traces_contained ts d1 d2 l = Some r) /\
  (forall d1 d2, exists r, traces_intersecting ts d1 d2 l = Some r) /\ (forall k d1 d2, exists r, trace_attribute_time k d1 d2 l = Some r) /\
  (forall v d1 d2, exists r, attribute_in_timeframe key v ts d1 d2 l = Some r).
Proof.
  intros key ts res idk l K T I. repeat apply conj; intros.
  - apply start_total; auto.
  - apply end_total; auto.
  - apply follows_total.
  - apply abc_total.
  - apply four_eyes_total.
  - apply persons_total.
  - apply paths_total; auto.
  - apply performance_total; auto.
  - apply rework_total; auto.
  - apply choose_total; eauto.
  - apply choose_total; eauto.
  - apply choose_total; eauto.
  - apply numeric_total; auto.
  - apply choose_total; eauto.
  - apply (first_last_total l ts (fun a b => (lo <=? b - a)%Z && (b - a <=? hi)%Z)); auto.
  - apply (first_last_total l ts (fun a b => (d1 <=? a)%Z && (b <=? d2)%Z)); auto.
  - apply intersecting_total; auto.
  - apply choose_total; eauto.
  - apply timeframe_total; auto.
Qed.

(** The two modes of a filter split the log: each case, unmodified, is in exactly one of the two results. *)
Theorem C38_partition : forall key ts res l p n,
  (forall vs, eventually_follows true key ts vs None l = Some p -> eventually_follows false key ts vs None l = Some n -> Splits l p n) /\
  (forall A B C, A_next_B_next_C true key A B C l = Some p -> A_next_B_next_C false key A B C l = Some n -> Splits l p n) /\
  (forall A, different_persons true key res A l = Some p -> different_persons false key res A l = Some n -> Splits l p n) /\
  (forall w, paths true key w l = Some p -> paths false key w l = Some n -> Splits l p n) /\
  (forall a b lo hi, path_performance true key ts (a, b) lo hi l = Some p -> path_performance false key ts (a, b) lo hi l = Some n -> Splits l p n) /\
  (forall a m, rework true key a m l = Some p -> rework false key a m l = Some n -> Splits l p n) /\
  (forall vs, trace_attribute true key vs l = Some p -> trace_attribute false key vs l = Some n -> Splits l p n).
Proof.
  intros key ts res l p n. repeat apply conj; intros.
  - eapply selected_splits; [|eapply follows_ok; eassumption|eapply follows_ok; eassumption]. cbn. tauto.
  - eapply selected_splits; [|eapply abc_ok; eassumption|eapply abc_ok; eassumption]. cbn. tauto.
  - eapply selected_splits; [|eapply persons_ok; eassumption|eapply persons_ok; eassumption]. cbn. tauto.
  - eapply selected_splits; [|eapply paths_ok; eassumption|eapply paths_ok; eassumption]. cbn. tauto.
  - eapply selected_splits; [|eapply performance_ok; eassumption|eapply performance_ok; eassumption]. cbn. tauto.
  - eapply selected_splits; [|eapply rework_ok; eassumption|eapply rework_ok; eassumption]. cbn. tauto.
  - eapply selected_splits; [|eapply trace_attribute_ok; eassumption|eapply trace_attribute_ok; eassumption]. cbn. tauto.
Qed.
(** Start activities, end activities and attribute values: in neither mode a case without events is kept; the others are split.
    Four eyes: in neither mode a case is kept in which A or B was not executed by anybody; the others are split. *)
Lemma splits_of {X} (D P Q : X -> Prop) l d p n : (forall x, In x l -> P x -> D x) -> (forall x, In x l -> Q x <-> D x /\ ~ P x) ->
  Selected D l d -> Selected P l p -> Selected Q l n -> Splits d p n.
Proof.
  intros PD QE H. revert p n. induction H as [|x l d Dx H IH|x l d Dx H IH]; intros p n HP HQ; inversion HP as [|a b c' P1 P2|a b c' P1 P2]; subst;
    inversion HQ as [|a' b' c'' Q1 Q2|a' b' c'' Q1 Q2]; subst; try constructor; try (apply IH; auto; intros; [apply PD|apply QE]; cbn; auto).
  - exfalso. apply QE in Q1; cbn; tauto.
  - exfalso. apply Q1, QE; cbn; auto.
  - exfalso. apply Dx, PD; cbn; auto.
  - exfalso. apply Dx, PD; cbn; auto.
  - exfalso. apply QE in Q1; cbn; tauto.
Qed.
Theorem C38_partition_nonempty : forall key l d p n, Selected (fun c => c_events c <> []) l d ->
  (forall s, start_activities true key s l = Some p -> start_activities false key s l = Some n -> Splits d p n) /\
  (forall s, end_activities true key s l = Some p -> end_activities false key s l = Some n -> Splits d p n) /\
  (forall vs, attribute_values true key vs l = Some p -> attribute_values false key vs l = Some n -> Splits d p n).
Proof.
  intros key l d p n D. repeat apply conj; intros s P Q.
  - assert (T : forall c, In c l -> c_events c <> [] -> exists e v, first_is c e /\ value key e v).
    { intros c Hc Ne. destruct (c_events c) as [|e es] eqn:E; [tauto|]. exists e. unfold first_is, value. rewrite E.
      unfold start_activities in P. clear -P Hc E. revert p P. induction l as [|c' l IH]; intros p P; [destruct Hc|]. cbn [choose] in P.
      destruct Hc as [->|Hc].
      - rewrite E in P. destruct (d_get e key) as [v|]; [|discriminate]. exists v. eauto.
      - destruct (match c_events c' with [] => _ | _ => _ end); [|discriminate].
        destruct (choose _ l) eqn:C; [|discriminate]. eapply IH; eauto. }
    eapply splits_of; [| |exact D|apply (start_ok _ _ _ _ _ P)|apply (start_ok _ _ _ _ _ Q)]; cbn [polar].
    + intros c _ (e & v & (es & E) & _). congruence.
    + intros c Hc. split.
      * intros (e & v & (es & E) & V & N). split; [congruence|]. intros (e' & v' & (es' & E') & V' & I). unfold value in *.
        assert (e' = e) by congruence. subst e'. assert (v' = v) by congruence. subst v'. tauto.
      * intros (Ne & N). destruct (T c Hc Ne) as (e & v & F & V). exists e, v. repeat split; auto. intros I. apply N. eauto.
  - assert (T : forall c, In c l -> c_events c <> [] -> exists e v, last_is c e /\ value key e v).
    { intros c Hc Ne. destruct (c_events c) as [|e0 es] eqn:E; [tauto|]. destruct (last_ex e0 es) as (e & Le). exists e.
      assert (La : last_is c e) by (apply last_event_iff; rewrite E; exact Le). unfold value.
      unfold end_activities in P. clear -P Hc E Le La. revert p P. induction l as [|c' l IH]; intros p P; [destruct Hc|]. cbn [choose] in P.
      destruct Hc as [->|Hc].
      - rewrite E, Le in P. cbn [bind] in P. destruct (d_get e key) as [v|]; [|discriminate]. exists v. eauto.
      - destruct (match c_events c' with [] => _ | _ => _ end); [|discriminate].
        destruct (choose _ l) eqn:C; [|discriminate]. eapply IH; eauto. }
    eapply splits_of; [| |exact D|apply (end_ok _ _ _ _ _ P)|apply (end_ok _ _ _ _ _ Q)]; cbn [polar].
    + intros c _ (e & v & (es & E) & _) Z. rewrite E in Z. destruct es; discriminate.
    + intros c Hc. split.
      * intros (e & v & L & V & N). split; [destruct L as (es & ->); destruct es; discriminate|]. intros (e' & v' & L' & V' & I). unfold value in *.
        apply last_event_iff in L, L'. assert (e' = e) by congruence. subst e'. assert (v' = v) by congruence. subst v'. tauto.
      * intros (Ne & N). destruct (T c Hc Ne) as (e & v & F & V). exists e, v. repeat split; auto. intros I. apply N. eauto.
  - eapply splits_of; [| |exact D|apply (attribute_ok _ _ _ _ _ P)|apply (attribute_ok _ _ _ _ _ Q)]; cbn [polar]; intros; tauto.
Qed.
Theorem C38_partition_four_eyes : forall key res A B l d p n,
  Selected (fun c => (exists x, performs key res c A x) /\ (exists x, performs key res c B x)) l d ->
  four_eyes true key res A B l = Some p -> four_eyes false key res A B l = Some n -> Splits d p n.
Proof.
  intros key res A B l d p n D P Q.
  eapply splits_of; [| |exact D|apply (four_eyes_ok _ _ _ _ _ _ _ P)|apply (four_eyes_ok _ _ _ _ _ _ _ Q)]; cbn [polar]; intros; tauto.
Qed.

(** Outside these statements: the modes of the numeric attribute filter overlap (a case with a value inside and a value outside the
    interval is kept by both). *)
Definition num_case : case := Case [(9, 1%Z)] [[(0, 5%Z)]; [(0, 50%Z)]].
Theorem C38_numeric_modes_refuted : exists l p n, numeric true 9 0 [] 0 10 l = Some p /\ numeric false 9 0 [] 0 10 l = Some n /\ ~ Splits l p n.
Proof. exists [num_case], [num_case], [num_case]. repeat split. intros H. inversion H as [|a b c d H0|a b c d H0]; inversion H0. Qed.
(** The eventually-follows filter with timestamp bounds reads the timestamps of the first events of the trace (trace[i], trace[i+1])
    instead of those of the matched events: a case in which B occurs 5 after A is kept under the bounds [100, 200]. *)
Definition ef_case : case := Case [] [[(0, 3%Z); (1, 0%Z)]; [(0, 1%Z); (1, 150%Z)]; [(0, 2%Z); (1, 155%Z)]].
Theorem C38_eventually_follows_time_refuted : exists key ts A B lo hi l r c, eventually_follows true key ts [A; B] (Some [(lo, hi)]) l = Some r /\ In c r /\
  (forall i j e1 e2 t1 t2, nth_error (c_events c) i = Some e1 -> nth_error (c_events c) j = Some e2 -> i < j -> value key e1 A -> value key e2 B ->
     value ts e1 t1 -> value ts e2 t2 -> ~ (lo <= t2 - t1 <= hi)%Z).
Proof.
  exists 0, 1, 1%Z, 2%Z, 100%Z, 200%Z, [ef_case], [ef_case], ef_case. split; [reflexivity|]. split; [cbn; auto|].
  intros i j e1 e2 t1 t2 H1 H2 L V1 V2 T1 T2. unfold value in *.
  destruct i as [|[|[|[|i]]]]; cbn in H1; try discriminate; injection H1 as <-; cbn in V1; try discriminate.
  destruct j as [|[|[|[|j]]]]; cbn in H2; try discriminate; injection H2 as <-; cbn in V2; try discriminate.
  cbn in T1, T2. injection T1 as <-. injection T2 as <-. lia.
Qed.
(** A log to which the theorems apply: attribute 0 is the activity, 1 the timestamp, 2 the resource, 9 the case identifier. *)
Definition ev (a t r : Z) : event := [(0, a); (1, t); (2, r)].
Local Notation "'ev'' a t r" := (ev a%Z t%Z r%Z) (at level 10, a, t, r at next level).
Definition ex_log : flog := [Case [(9, 1%Z)] [ev' 1 0 7; ev' 2 10 8; ev' 3 20 7]; Case [(9, 2%Z)] [ev' 1 0 7; ev' 3 5 7; ev' 2 9 7; ev' 2 12 8];
  Case [(9, 3%Z)] [ev' 2 3 7; ev' 3 30 9]].
Example ex_everywhere : everywhere 0 ex_log /\ everywhere 1 ex_log.
Proof. split; intros c e Hc He; cbn in Hc; repeat destruct Hc as [<-|Hc]; try tauto; cbn in He; repeat destruct He as [<-|He]; try tauto; eexists; reflexivity. Qed.
Example ex_follows : option_map (map c_attrs) (eventually_follows true 0 1 [1; 2; 3]%Z None ex_log) = Some [[(9, 1%Z)]].
Proof. reflexivity. Qed.
Example ex_follows_neg : option_map (map c_attrs) (eventually_follows false 0 1 [1; 2; 3]%Z None ex_log) = Some [[(9, 2%Z)]; [(9, 3%Z)]].
Proof. reflexivity. Qed.
Example ex_four : option_map (map c_attrs) (four_eyes true 0 2 1 2 ex_log) = Some [[(9, 1%Z)]] /\
  option_map (map c_attrs) (four_eyes false 0 2 1 2 ex_log) = Some [[(9, 2%Z)]].
Proof. split; reflexivity. Qed.
Example ex_abc : option_map (map c_attrs) (A_next_B_next_C true 0 1 3 2 ex_log) = Some [[(9, 2%Z)]]. Proof. reflexivity. Qed.
Example ex_rework : option_map (map c_attrs) (rework true 0 2 2 ex_log) = Some [[(9, 2%Z)]]. Proof. reflexivity. Qed.
Example ex_intersecting : option_map (map c_attrs) (traces_intersecting 1 14 25 ex_log) = Some [[(9, 1%Z)]; [(9, 3%Z)]]. Proof. reflexivity. Qed.
Example ex_numeric : option_map (map c_attrs) (numeric true 9 1 [(0, 2%Z)] 4 11 ex_log) = Some [[(9, 1%Z)]; [(9, 2%Z)]]. Proof. reflexivity. Qed.

Print Assumptions C38_start_activities.
Print Assumptions C38_total.
Print Assumptions C38_partition.
Print Assumptions C38_partition_nonempty.
Print Assumptions C38_partition_four_eyes.
Print Assumptions C38_numeric.
Print Assumptions C38_traces_intersecting.
Print Assumptions C38_eventually_follows_time_refuted.
Print Assumptions C38_end_activities.
Print Assumptions C38_eventually_follows.
Print Assumptions C38_A_next_B_next_C.
Print Assumptions C38_four_eyes.
Print Assumptions C38_different_persons.
Print Assumptions C38_paths.
Print Assumptions C38_path_performance.
Print Assumptions C38_rework.
Print Assumptions C38_repetitions.
Print Assumptions C38_attribute_values.
Print Assumptions C38_trace_attribute.
Print Assumptions C38_case_size.
Print Assumptions C38_ncases.
Print Assumptions C38_case_performance.
Print Assumptions C38_traces_contained.
Print Assumptions C38_trace_attribute_time.
Print Assumptions C38_attribute_in_timeframe.
Print Assumptions C38_numeric_modes_refuted.
