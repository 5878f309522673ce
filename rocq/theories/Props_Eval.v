(** Property theorems C69 (alignment-based log fitness), C70 (generalization and simplicity). *)
From stdpp Require Import gmap.
From Coq Require Import ZArith QArith Qminmax Reals Lia Lqa List Permutation.
From Verif Require Import Model_Petri Spec_Petri Proofs_Petri Model_Align Spec_Align Proofs_Sync Model_Dict Proofs_Dict
  Props_Align Model_Eval Spec_Eval Proofs_Eval.
Import ListNotations.

(** ---- C69 ---- *)
(** [fitting] = the aligned traces with fitness 1. *)
Theorem C69_formula : forall l, present l <> [] ->
  let n := inject_Z (Z.of_nat (length (present l))) in
  let '(perc, avg, logf) := evaluate_alignments l in
  (exists fitting others, Permutation (present l) (fitting ++ others) /\
     (forall a, In a fitting -> al_fitness a == 1)%Q /\ (forall a, In a others -> ~ al_fitness a == 1)%Q /\
     (perc == inject_Z 100 * inject_Z (Z.of_nat (length fitting)) / n)%Q) /\
  (avg == Qsum (map al_fitness (present l)) / n)%Q /\
  ((0 < Zsum (map al_bwc (present l)))%Z ->
     (logf == 1 - inject_Z (Zsum (map al_cost (present l))) / inject_Z (Zsum (map al_bwc (present l))))%Q) /\
  ((Zsum (map al_bwc (present l)) <= 0)%Z -> (logf == 1)%Q).
Proof.
  intros l Hne n. unfold evaluate_alignments. destruct (ev_fold l (Sums 0 0 0 0)) as (A & B & C & D). cbv zeta in *.
  destruct (Nat.ltb_spec 0 (length (present l))) as [_|Hl]; [|destruct (present l); [contradiction|cbn in Hl; lia]].
  cbn [s_fit s_fitness s_bwc s_cost] in *. split; [|split; [|split]].
  - exists (List.filter (fun a => Qeq_bool (al_fitness a) 1) (present l)), (List.filter (fun a => negb (Qeq_bool (al_fitness a) 1)) (present l)).
    split; [|split; [|split]].
    + clear. induction (present l) as [|a r IH]; [constructor|]. cbn [List.filter]. destruct (Qeq_bool (al_fitness a) 1); cbn [negb app].
      * constructor. exact IH.
      * rewrite IH at 1. apply Permutation_middle.
    + intros a Ha. apply filter_In in Ha as [_ Ha]. apply Qeq_bool_iff, Ha.
    + intros a Ha. apply filter_In in Ha as [_ Ha]. intros E. apply Qeq_bool_iff in E. rewrite E in Ha. discriminate.
    + rewrite A. reflexivity.
  - rewrite B, Qplus_0_l. reflexivity.
  - rewrite C, D, !Z.add_0_l. intros H. apply Z.ltb_lt in H. rewrite H. reflexivity.
  - rewrite C, Z.add_0_l. intros H. apply Z.ltb_ge in H. rewrite H. ring.
Qed.
Print Assumptions C69_formula.

Theorem C69_case_order : forall l l', Permutation l l' ->
  let '(perc, avg, logf) := evaluate_alignments l in let '(perc', avg', logf') := evaluate_alignments l' in
  (perc == perc' /\ avg == avg' /\ logf == logf')%Q.
Proof.
  intros l l' P. apply present_perm in P. unfold evaluate_alignments.
  destruct (ev_fold l (Sums 0 0 0 0)) as (A & B & C & D), (ev_fold l' (Sums 0 0 0 0)) as (A' & B' & C' & D'). cbv zeta in *.
  rewrite <- (Permutation_length P). destruct (Nat.ltb 0 (length (present l))); [|repeat split; reflexivity].
  rewrite A, A', B, B', C, C', D, D'. rewrite (Zsum_perm _ _ (Permutation_map al_bwc P)), (Zsum_perm _ _ (Permutation_map al_cost P)),
    (Qsum_perm _ _ (Permutation_map al_fitness P)).
  assert (length (List.filter (fun a => Qeq_bool (al_fitness a) 1) (present l)) = length (List.filter (fun a => Qeq_bool (al_fitness a) 1) (present l'))) as ->.
  { clear -P. induction P; cbn; auto; repeat match goal with |- context [if ?b then _ else _] => destruct b end; cbn; lia. }
  repeat split; reflexivity.
Qed.
Print Assumptions C69_case_order.

(** For any alignments whose fitness is in [0,1] and whose cost is at most their worst cost. *)
Theorem C69_ranges : forall l,
  (forall a, In (Some a) l -> (0 <= al_fitness a <= 1)%Q /\ (0 <= al_cost a <= al_bwc a)%Z) ->
  let '(perc, avg, logf) := evaluate_alignments l in
  (0 <= perc <= inject_Z 100 /\ 0 <= avg <= 1 /\ 0 <= logf <= 1)%Q /\
  (present l <> [] ->
    ((perc == inject_Z 100)%Q <-> forall a, In (Some a) l -> (al_fitness a == 1)%Q) /\
    ((avg == 1)%Q <-> forall a, In (Some a) l -> (al_fitness a == 1)%Q) /\
    ((logf == 1)%Q <-> forall a, In (Some a) l -> al_cost a = 0%Z)).
Proof.
  intros l H.
  assert (Hp : forall a, In a (present l) <-> In (Some a) l).
  { intros a. unfold present. rewrite in_flat_map. split; [intros ([b|] & Hb & Hi); cbn in Hi; [destruct Hi as [<-|[]]; exact Hb|destruct Hi]|
      intros Hi; exists (Some a); split; [exact Hi|left; reflexivity]]. }
  unfold evaluate_alignments. destruct (ev_fold l (Sums 0 0 0 0)) as (A & B & C & D). cbv zeta in *.
  destruct (Nat.ltb_spec 0 (length (present l))) as [Hl|Hl].
  2: { split; [|intros X; destruct (present l); [contradiction|cbn in Hl; lia]]. change (inject_Z 100) with (100#1). lra. }
  cbn [s_fit s_fitness s_bwc s_cost] in *. set (n := inject_Z (Z.of_nat (length (present l)))).
  assert (Hn : (0 < n)%Q) by (apply Zpos_Q; lia).
  assert (F1 : forall x, In x (map al_fitness (present l)) -> (0 <= x <= 1)%Q).
  { intros x Hx. apply in_map_iff in Hx as (a & <- & Ha). apply H, Hp, Ha. }
  destruct (Qsum_range _ F1) as [G1 G2]. rewrite map_length in G2. fold n in G2.
  pose proof (filter_le (fun a => Qeq_bool (al_fitness a) 1) (present l)) as Hf.
  assert (K1 : forall a, In a (present l) -> (0 <= al_cost a)%Z) by (intros a Ha; apply Hp, H in Ha; lia).
  assert (K2 : (Zsum (map al_cost (present l)) <= Zsum (map al_bwc (present l)))%Z) by (apply Zsum_le; intros a Ha; apply Hp, H in Ha; lia).
  pose proof (Zsum_nonneg al_cost _ K1) as K3. pose proof (Zsum_zero al_cost _ K1) as K4.
  rewrite A, B, C, D, ?Z.add_0_l, ?Qplus_0_l, ?Nat.add_0_l. fold n.
  set (k := length (List.filter _ _)) in *.
  assert (Hk : (0 <= inject_Z (Z.of_nat k) <= n)%Q) by (split; [change 0%Q with (inject_Z 0)|]; apply Zle_Q; lia).
  pose proof (Qdiv_range _ _ Hn Hk) as R1. pose proof (Qdiv_range _ _ Hn (conj G1 G2)) as R2.
  assert (E100 : (inject_Z 100 * inject_Z (Z.of_nat k) / n == inject_Z 100 * (inject_Z (Z.of_nat k) / n))%Q) by (field; lra).
  assert (I100 : (inject_Z 100 == 100#1)%Q) by reflexivity.
  set (lf := (1 - (if (0 <? Zsum (map al_bwc (present l)))%Z then _ else 0))%Q).
  assert (L : (0 <= lf <= 1)%Q /\ ((lf == 1)%Q <-> Zsum (map al_cost (present l)) = 0%Z)).
  { unfold lf. destruct (Z.ltb_spec 0 (Zsum (map al_bwc (present l)))) as [Hb|Hb].
    - apply Zpos_Q in Hb. assert (Hc : (0 <= inject_Z (Zsum (map al_cost (present l))) <= inject_Z (Zsum (map al_bwc (present l))))%Q).
      { split; [change 0%Q with (inject_Z 0)|]; apply Zle_Q; lia. }
      pose proof (Qdiv_range _ _ Hb Hc) as [X Y]. split; [lra|]. split.
      + intros E. assert (E0 : (inject_Z (Zsum (map al_cost (present l))) / inject_Z (Zsum (map al_bwc (present l))) == 0)%Q) by lra.
        assert (E1 : (inject_Z (Zsum (map al_cost (present l))) == 0)%Q).
        { rewrite <- (Qmult_div_r (inject_Z (Zsum (map al_cost (present l)))) (inject_Z (Zsum (map al_bwc (present l))))), E0 by lra. ring. }
        change 0%Q with (inject_Z 0) in E1. apply (proj1 (inject_Z_injective _ _)) in E1. exact E1.
      + intros ->. field. lra.
    - split; [lra|]. split; [intros _; lia|intros _; ring]. }
  destruct L as [L1 L2]. rewrite E100. split; [rewrite I100; lra|]. intros _.
  assert (Hall : forall (P : aligned -> Prop), (forall a, In a (present l) -> P a) <-> (forall a, In (Some a) l -> P a)).
  { intros P. split; intros X a Ha; apply X, Hp, Ha. }
  split; [|split].
  - rewrite <- Hall. transitivity (k = length (present l)).
    + split.
      * intros E. assert (E1 : (inject_Z (Z.of_nat k) / n == 1)%Q) by (rewrite I100 in E; lra).
        apply (proj1 (Qdiv_one _ _ Hn)) in E1. apply (proj1 (inject_Z_injective _ _)) in E1. lia.
      * intros ->. fold n. field. lra.
    + unfold k. rewrite filter_full. split; intros X a Ha; apply Qeq_bool_iff, X, Ha.
  - rewrite <- Hall, Qdiv_one by exact Hn. unfold n. rewrite <- (map_length al_fitness), Qsum_full by exact F1. split.
    + intros X a Ha. apply X, in_map, Ha.
    + intros X x Hx. apply in_map_iff in Hx as (a & <- & Ha). apply X, Ha.
  - rewrite <- Hall, L2. exact K4.
Qed.
Print Assumptions C69_ranges.

(** End to end, for the alignments computed by the Dijkstra variant. *)
Definition aligned_log (fuel : nat) pn im fm (bwc : Z) (log : list (list nat)) (rs : list (option aligned)) : Prop :=
  Forall2 (fun tr r => exists n, dijkstra_apply fuel tr pn im fm = SFound n /\ r = Some (aligned_of tr (d_g n) bwc)) log rs.
(** The net accepts the trace without silent moves. *)
Definition accepts_visibly pn im fm (trace : list nat) : Prop :=
  exists ts, run pn im ts fm /\ map t_label ts = map Some trace.

Lemma zero_alignment pn im fm trace g : is_alignment pn im fm trace g -> align_cost g = 0%Z -> accepts_visibly pn im fm trace.
Proof.
  intros (HL & HT & ts & Hr & Hm) Hc. exists ts. split; [exact Hr|]. rewrite Hm, <- HT. clear -HL Hc.
  induction g as [|x g IH]; [reflexivity|]. inversion HL as [|? ? Hx HL']; subst. cbn [align_cost] in Hc.
  pose proof (align_cost_nonneg g). pose proof (move_cost_nonneg x).
  destruct Hx as [a|[a|]|a]; cbn [move_cost] in *; try lia. cbn [model_part log_part map]. f_equal. apply IH; [exact HL'|lia].
Qed.
Lemma visibly_visible pn im fm trace ts : run pn im ts fm -> map t_label ts = map Some trace -> visible ts = trace /\ silent ts = 0%Z.
Proof.
  intros _. revert trace. induction ts as [|t ts IH]; intros [|a tr] E; try discriminate; [split; reflexivity|].
  injection E as E1 E2. destruct (IH _ E2) as [I1 I2]. cbn [visible silent]. rewrite E1. rewrite I1, I2. split; reflexivity.
Qed.
Lemma Forall2_in {A B} (P : A -> B -> Prop) l l' y : Forall2 P l l' -> In y l' -> exists x, In x l /\ P x y.
Proof. induction 1; intros []; [subst; eexists; split; [left; reflexivity|assumption]|]. destruct IHForall2 as (z & ? & ?); auto. exists z. split; [right|]; assumption. Qed.
Lemma Forall2_in_l {A B} (P : A -> B -> Prop) l l' x : Forall2 P l l' -> In x l -> exists y, In y l' /\ P x y.
Proof. induction 1; intros []; [subst; eexists; split; [left; reflexivity|assumption]|]. destruct IHForall2 as (z & ? & ?); auto. exists z. split; [right|]; assumption. Qed.

Theorem C69_log_fitness : forall fuel fuel' pn im fm log bwc rs,
  simple_net pn -> unit_weights pn -> proper im -> proper fm ->
  best_worst_cost fuel' pn im fm = Some bwc -> aligned_log fuel pn im fm bwc log rs -> log <> [] ->
  let '(perc, avg, logf) := evaluate_alignments rs in
  (0 <= perc <= inject_Z 100 /\ 0 <= avg <= 1 /\ 0 <= logf <= 1)%Q /\
  ((logf == 1)%Q <-> forall tr, In tr log -> accepts_visibly pn im fm tr) /\
  ((forall tr, In tr log -> 10000 <= 10000 * Z.of_nat (length tr) + bwc)%Z ->
     ((perc == inject_Z 100)%Q <-> (avg == 1)%Q) /\
     ((perc == inject_Z 100)%Q -> forall tr, In tr log -> accepts pn im fm tr) /\
     ((forall tr, In tr log -> exists ts, run pn im ts fm /\ visible ts = tr /\ (silent ts < 10000)%Z) -> (perc == inject_Z 100)%Q)).
Proof.
  intros fuel fuel' pn im fm log bwc rs Hs Hu Hi Hf Hb HA Hne.
  assert (Hbwc : exists n0, dijkstra_apply fuel' [] pn im fm = SFound n0 /\ d_g n0 = bwc).
  { unfold best_worst_cost in Hb. destruct (dijkstra_apply fuel' [] pn im fm) as [n0| |]; try discriminate. exists n0. cbn in Hb. injection Hb as Hb. auto. }
  destruct Hbwc as (n0 & E0 & Eb). pose proof (dijkstra_apply_correct pn im fm [] Hs Hu Hi Hf fuel') as H0. rewrite E0 in H0. destruct H0 as [[HA0 _] HC0].
  assert (HB : (0 <= bwc)%Z) by (rewrite <- Eb, HC0; apply align_cost_nonneg).
  assert (W : forall a, In (Some a) rs -> (0 <= al_fitness a <= 1)%Q /\ (0 <= al_cost a <= al_bwc a)%Z).
  { intros a Ha. destruct (Forall2_in _ _ _ _ HA Ha) as (tr & _ & n & En & [= ->]).
    split; [apply (C15_fitness pn im fm tr fuel fuel' n bwc Hs Hu Hi Hf En Hb)|].
    pose proof (dijkstra_apply_correct pn im fm tr Hs Hu Hi Hf fuel) as H. rewrite En in H. destruct H as [[_ Hopt] HC].
    destruct (worst_alignment _ _ _ tr _ HA0) as (gw & Hgw & Hcw). pose proof (Hopt _ Hgw) as Hle.
    cbn [aligned_of al_cost al_bwc]. unfold STD_MODEL_LOG_MOVE_COST. rewrite <- HC, Hcw, <- HC0, Eb in Hle.
    rewrite HC at 1. pose proof (align_cost_nonneg (alignment_of n)). lia. }
  assert (Hpres : present rs <> []).
  { destruct HA as [|tr r log' rs' (n & _ & ->) _]; [contradiction|discriminate]. }
  pose proof (C69_ranges rs W) as R. destruct (evaluate_alignments rs) as [[perc avg] logf]. destruct R as [R1 R2].
  destruct (R2 Hpres) as (P1 & P2 & P3). split; [exact R1|]. split.
  - rewrite P3. split.
    + intros X tr Htr. destruct (Forall2_in_l _ _ _ _ HA Htr) as (r & Hr & n & En & ->).
      specialize (X _ Hr). cbn [aligned_of al_cost] in X. pose proof (dijkstra_apply_correct pn im fm tr Hs Hu Hi Hf fuel) as H. rewrite En in H.
      destruct H as [[HAl _] HC]. rewrite HC in X. eapply zero_alignment; eassumption.
    + intros X a Ha. destruct (Forall2_in _ _ _ _ HA Ha) as (tr & Htr & n & En & [= ->]). cbn [aligned_of al_cost].
      pose proof (dijkstra_apply_correct pn im fm tr Hs Hu Hi Hf fuel) as H. rewrite En in H. destruct H as [[_ Hopt] HC].
      destruct (X tr Htr) as (ts & Hr & Hm). destruct (visibly_visible _ _ _ _ _ Hr Hm) as [Hv Hsil].
      destruct (fitting_alignment _ _ _ _ _ Hr Hv) as (g & Hg & Hc). specialize (Hopt g Hg). rewrite Hc, Hsil, <- HC in Hopt.
      pose proof (align_cost_nonneg (alignment_of n)). rewrite <- HC in H. lia.
  - intros Hden. split; [rewrite P1, P2; reflexivity|]. split.
    + intros X tr Htr. destruct (Forall2_in_l _ _ _ _ HA Htr) as (r & Hr & n & En & ->). apply P1 with (a := aligned_of tr (d_g n) bwc) in X; [|exact Hr].
      apply (C15_fitness pn im fm tr fuel fuel' n bwc Hs Hu Hi Hf En Hb); [apply Hden, Htr|exact X].
    + intros X. apply P1. intros a Ha. destruct (Forall2_in _ _ _ _ HA Ha) as (tr & Htr & n & En & [= ->]).
      destruct (X tr Htr) as (ts & Hr & Hv & Hsil).
      destruct (C15_fitness pn im fm tr fuel fuel' n bwc Hs Hu Hi Hf En Hb) as [_ Y]. destruct (Y (Hden tr Htr)) as [_ Y2]. apply (Y2 ts); assumption.
Qed.
Print Assumptions C69_log_fitness.

Example C69_example : exists rs, aligned_log 100 ex_net ex_im ex_fm 20001 [[7; 8]; [7; 9]]%nat rs /\
  best_worst_cost 100 ex_net ex_im ex_fm = Some 20001%Z /\
  let '(perc, avg, logf) := evaluate_alignments rs in (perc == 50#1 /\ avg == 3#4 /\ logf == 1 - (20002 # 80002))%Q.
Proof.
  eexists. split; [|split].
  - constructor; [eexists; split; [vm_compute; reflexivity|reflexivity]|]. constructor; [eexists; split; [vm_compute; reflexivity|reflexivity]|constructor].
  - vm_compute. reflexivity.
  - vm_compute. auto.
Qed.

(** Finding: a log all of whose traces fit (and are reported as fitting) has log fitness below 1 as soon
    as the net needs a silent transition, since the unrounded cost of silent moves is summed up. *)
Theorem C69_fitting_log_refuted : exists fuel pn im fm log bwc rs,
  simple_net pn /\ unit_weights pn /\ proper im /\ proper fm /\ best_worst_cost fuel pn im fm = Some bwc /\
  aligned_log fuel pn im fm bwc log rs /\ log <> [] /\ (forall tr, In tr log -> accepts pn im fm tr) /\
  let '(perc, avg, logf) := evaluate_alignments rs in (perc == inject_Z 100 /\ avg == 1 /\ logf < 1)%Q.
Proof.
  exists 100%nat, ex_net, ex_im, ex_fm, [[7; 8]]%nat, 20001%Z. eexists. split; [exact ex_simple|]. split; [exact ex_unit|].
  split; [apply proper_singleton; lia|]. split; [apply proper_singleton; lia|]. split; [vm_compute; reflexivity|].
  assert (HA : aligned_log 100 ex_net ex_im ex_fm 20001 [[7; 8]]%nat [Some (aligned_of [7; 8]%nat 1 20001)]).
  { constructor; [eexists; split; [vm_compute; reflexivity|vm_compute; reflexivity]|constructor]. }
  split; [exact HA|]. split; [discriminate|]. split.
  - pose proof (C69_log_fitness 100 100 ex_net ex_im ex_fm [[7; 8]]%nat 20001 [Some (aligned_of [7; 8]%nat 1 20001)] ex_simple ex_unit) as X.
    assert (Hp : proper ex_im) by (apply proper_singleton; lia). assert (Hq : proper ex_fm) by (apply proper_singleton; lia).
    specialize (X Hp Hq ltac:(vm_compute; reflexivity) HA ltac:(discriminate)).
    destruct (evaluate_alignments _) as [[perc avg] logf] eqn:E in X. destruct X as (_ & _ & X).
    destruct X as (_ & X & _); [intros tr [<-|[]]; vm_compute; discriminate|]. apply X. vm_compute in E. injection E as <- _ _. vm_compute. reflexivity.
  - vm_compute. auto.
Qed.
Print Assumptions C69_fitting_log_refuted.

(** An empty log (or no alignable trace) gets 0 everywhere, and a log of empty traces of a net that
    accepts the empty trace gets percentage 0 although log fitness is 1. *)
Theorem C69_empty_traces_refuted : exists fuel pn im fm log bwc rs,
  simple_net pn /\ unit_weights pn /\ proper im /\ proper fm /\ best_worst_cost fuel pn im fm = Some bwc /\
  aligned_log fuel pn im fm bwc log rs /\ log <> [] /\ (forall tr, In tr log -> accepts pn im fm tr) /\
  let '(perc, avg, logf) := evaluate_alignments rs in (perc == 0 /\ avg == 0 /\ logf == 1)%Q.
Proof.
  exists 100%nat, ex_net, ex_im, ex_im, [[]], 0%Z. eexists. split; [exact ex_simple|]. split; [exact ex_unit|].
  split; [apply proper_singleton; lia|]. split; [apply proper_singleton; lia|]. split; [vm_compute; reflexivity|].
  split; [constructor; [eexists; split; [vm_compute; reflexivity|reflexivity]|constructor]|]. split; [discriminate|]. split.
  - intros tr [<-|[]]. exists []. split; [constructor|reflexivity].
  - vm_compute. auto.
Qed.
Print Assumptions C69_empty_traces_refuted.

(** ---- C70: generalization ---- *)
Theorem C70_generalization_formula : forall ts acts,
  NoDup ts -> ts <> [] -> (forall t tr, In tr acts -> In t tr -> In t ts) ->
  generalization ts acts = generalization_spec ts acts.
Proof.
  intros ts acts Hn Hne Hin. apply generalization_eq; [assumption..|]. intros t Ht. apply in_concat in Ht as (tr & H1 & H2). eapply Hin; eassumption.
Qed.
Print Assumptions C70_generalization_formula.

(** In [0,1); 0 exactly if no transition fired twice. *)
Theorem C70_generalization_range : forall ts acts,
  NoDup ts -> ts <> [] -> (forall t tr, In tr acts -> In t tr -> In t ts) ->
  (0 <= generalization ts acts < 1)%R /\
  (generalization ts acts = 0%R <-> forall t, In t ts -> (fired t acts <= 1)%nat).
Proof.
  intros ts acts Hn Hne Hin. rewrite C70_generalization_formula by assumption. unfold generalization_spec.
  set (f := fun t => (1 / sqrt (INR (Nat.max 1 (fired t acts))))%R).
  assert (Hl : (0 < INR (length ts))%R). { apply lt_0_INR. destruct ts; [contradiction|cbn; lia]. }
  assert (F1 : forall t, In t ts -> (f t <= 1)%R) by (intros t _; apply (term_range (fired t acts))).
  assert (F2 : (0 < Rsum (map f ts))%R).
  { destruct ts as [|t ts]; [contradiction|]. cbn. pose proof (proj1 (term_range (fired t acts))) as X. fold (f t) in X.
    assert (0 <= Rsum (map f ts))%R.
    { clear. induction ts as [|u ts IH]; cbn; [Lra.lra|]. pose proof (proj1 (term_range (fired u acts))) as X. change (0 < f u)%R in X. Lra.lra. }
    change (0 < f t)%R in X. Lra.lra. }
  assert (F3 : (Rsum (map f ts) <= INR (length ts))%R) by (rewrite <- Rsum_const; apply Rsum_le; exact F1).
  assert (E : (Rsum (map f ts) = (Rsum (map f ts) / INR (length ts)) * INR (length ts))%R) by (field; Lra.lra).
  set (q := (Rsum (map f ts) / INR (length ts))%R) in *.
  assert (0 < q)%R by (apply Rdiv_lt_0_compat; assumption).
  assert (q <= 1)%R by (apply Rmult_le_reg_r with (INR (length ts)); Lra.lra).
  split; [Lra.lra|]. transitivity (Rsum (map f ts) = INR (length ts)).
  - split; intros X; [|assert (q = 1)%R by (apply Rmult_eq_reg_r with (INR (length ts)); Lra.lra); Lra.lra].
    assert (q = 1)%R by Lra.lra. rewrite E, H1. ring.
  - rewrite Rsum_full by exact F1. split; intros X t Ht; apply (term_one (fired t acts)), X, Ht.
Qed.
Print Assumptions C70_generalization_range.

(** Replaying more traces never decreases generalization; the order of the traces is irrelevant. *)
Theorem C70_generalization_monotone : forall ts acts more,
  NoDup ts -> ts <> [] -> (forall t tr, In tr (acts ++ more) -> In t tr -> In t ts) ->
  (generalization ts acts <= generalization ts (acts ++ more))%R.
Proof.
  intros ts acts more Hn Hne Hin. rewrite !C70_generalization_formula; try assumption.
  2: { intros t tr H1 H2. eapply Hin; [apply in_or_app; left|]; eassumption. }
  unfold generalization_spec.
  assert (Hl : (0 < INR (length ts))%R). { apply lt_0_INR. destruct ts; [contradiction|cbn; lia]. }
  assert (X : (Rsum (map (fun t => 1 / sqrt (INR (Nat.max 1 (fired t (acts ++ more))))) ts) <=
               Rsum (map (fun t => 1 / sqrt (INR (Nat.max 1 (fired t acts)))) ts))%R).
  { apply Rsum_le. intros t _. apply term_mono. unfold fired. rewrite concat_app, count_occ_app. lia. }
  apply Rplus_le_compat_l, Ropp_le_contravar. unfold Rdiv. apply Rmult_le_compat_r; [|exact X].
  left. apply Rinv_0_lt_compat, Hl.
Qed.
Print Assumptions C70_generalization_monotone.
Theorem C70_generalization_order : forall ts acts acts',
  NoDup ts -> ts <> [] -> (forall t tr, In tr acts -> In t tr -> In t ts) -> Permutation acts acts' ->
  generalization ts acts = generalization ts acts'.
Proof.
  intros ts acts acts' Hn Hne Hin P. rewrite !C70_generalization_formula; try assumption.
  2: { intros t tr H1 H2. eapply Hin; [eapply Permutation_in; [symmetry; exact P|exact H1]|exact H2]. }
  unfold generalization_spec. do 2 f_equal. f_equal. apply map_ext. intros t. unfold fired.
  assert (Permutation (concat acts) (concat acts')) as Q.
  { clear -P. induction P; cbn; auto; [apply Permutation_app_head; assumption| |etransitivity; eassumption].
    rewrite !app_assoc. apply Permutation_app_tail, Permutation_app_comm. }
  rewrite (proj1 (Permutation_count_occ Nat.eq_dec _ _) Q). reflexivity.
Qed.
Print Assumptions C70_generalization_order.

Example C70_generalization_example :
  NoDup [1; 2; 3]%nat /\ (forall t tr, In tr [[1; 2]; [1; 2]; [1]; [1]]%nat -> In t tr -> In t [1; 2; 3]%nat) /\
  generalization [1; 2; 3]%nat [[1; 2]; [1; 2]; [1]; [1]]%nat = (1 - (1 / 2 + 1 / sqrt 2 + 1) / 3)%R.
Proof.
  assert (Hn : NoDup [1; 2; 3]%nat) by (repeat constructor; cbn; intuition lia).
  assert (Hi : forall t tr, In tr [[1; 2]; [1; 2]; [1]; [1]]%nat -> In t tr -> In t [1; 2; 3]%nat).
  { cbn. intros t tr H1 H2. intuition (subst; cbn in *; intuition). }
  split; [exact Hn|]. split; [exact Hi|]. rewrite C70_generalization_formula; [|exact Hn|discriminate|exact Hi].
  unfold generalization_spec, fired. cbn [map Rsum concat app length].
  change (count_occ Nat.eq_dec [1; 2; 1; 2; 1; 1] 1)%nat with 4%nat. change (count_occ Nat.eq_dec [1; 2; 1; 2; 1; 1] 2)%nat with 2%nat.
  change (count_occ Nat.eq_dec [1; 2; 1; 2; 1; 1] 3)%nat with 0%nat. cbn [Nat.max].
  replace (INR 4) with (2 * 2)%R by (cbn; ring). rewrite sqrt_square by Lra.lra. replace (INR 2) with 2%R by (cbn; ring).
  replace (INR 1) with 1%R by reflexivity. replace (INR 3) with 3%R by (cbn; ring). rewrite sqrt_1. assert (sqrt 2 <> 0)%R by (apply Rgt_not_eq, sqrt_lt_R0; Lra.lra).
  field. assumption.
Qed.

(** ---- C70: simplicity ---- *)
(** 1 / (1 + max(0, mean degree - k)) where the mean degree is twice the number of arcs over the number
    of nodes; hence in (0,1], and 1 exactly if the mean degree is at most k. *)
Definition mean_degree {L} (pn : petri_net L) : Q :=
  (inject_Z (Z.of_nat (2 * arc_count pn)) / inject_Z (Z.of_nat (length (n_places pn) + length (n_trans pn))))%Q.
Theorem C70_simplicity : forall L (pn : petri_net L) k, closed_net pn -> (n_places pn <> [] \/ n_trans pn <> []) ->
  (simplicity k pn == 1 / (1 + Qmax (mean_degree pn - k) 0))%Q /\
  (0 < simplicity k pn <= 1)%Q /\
  ((simplicity k pn == 1)%Q <-> (mean_degree pn <= k)%Q).
Proof.
  intros L pn k Hc Hne.
  assert (E : (simplicity k pn == 1 / (1 + Qmax (mean_degree pn - k) 0))%Q).
  { unfold simplicity, mean_degree. destruct (map (degree_place pn) (n_places pn) ++ map degree_trans (n_trans pn)) as [|d ds] eqn:Ed.
    - exfalso. apply app_eq_nil in Ed as [E1 E2]. apply map_eq_nil in E1, E2. destruct Hne; contradiction.
    - rewrite <- Ed, list_sum_app, app_length, !map_length, degree_sum by exact Hc.
      change (list_sum (map degree_trans (n_trans pn))) with (arc_count pn).
      replace (arc_count pn + arc_count pn)%nat with (2 * arc_count pn)%nat by lia. reflexivity. }
  split; [exact E|].
  assert (M : (0 <= Qmax (mean_degree pn - k) 0)%Q) by apply Q.le_max_r.
  assert (M2 : ((Qmax (mean_degree pn - k) 0 == 0)%Q <-> (mean_degree pn <= k)%Q)).
  { split; intros H; [pose proof (Q.le_max_l (mean_degree pn - k) 0); lra|apply Q.max_r; lra]. }
  set (d := Qmax (mean_degree pn - k) 0) in *. rewrite E. split; [split|].
  - apply Qlt_shift_div_l; lra.
  - apply Qle_shift_div_r; lra.
  - rewrite Qdiv_one by lra. rewrite <- M2. split; intros; lra.
Qed.
Print Assumptions C70_simplicity.
(** With the same nodes, more arcs never make the net simpler. *)
Theorem C70_simplicity_arcs : forall L (pn pn' : petri_net L) k, closed_net pn -> closed_net pn' ->
  (n_places pn <> [] \/ n_trans pn <> []) ->
  length (n_places pn') = length (n_places pn) -> length (n_trans pn') = length (n_trans pn) ->
  (arc_count pn <= arc_count pn')%nat -> (simplicity k pn' <= simplicity k pn)%Q.
Proof.
  intros L pn pn' k Hc Hc' Hne Ep Et Ha.
  assert (Hne' : n_places pn' <> [] \/ n_trans pn' <> []).
  { destruct Hne as [H|H]; [left|right]; intros X; apply H, length_zero_iff_nil; rewrite X in *; cbn in *; lia. }
  destruct (C70_simplicity L pn k Hc Hne) as (E & _), (C70_simplicity L pn' k Hc' Hne') as (E' & _). rewrite E, E'.
  assert (M : (mean_degree pn <= mean_degree pn')%Q).
  { unfold mean_degree. rewrite Ep, Et. unfold Qdiv. apply Qmult_le_compat_r; [apply Zle_Q; lia|].
    apply Qinv_le_0_compat. change 0%Q with (inject_Z 0). apply Zle_Q. lia. }
  assert (M2 : (0 <= Qmax (mean_degree pn - k) 0 <= Qmax (mean_degree pn' - k) 0)%Q).
  { split; [apply Q.le_max_r|]. apply Q.max_le_compat_r. lra. }
  set (d := Qmax (mean_degree pn - k) 0) in *. set (d' := Qmax (mean_degree pn' - k) 0) in *.
  apply Qle_shift_div_l; [lra|]. assert (X : (1 / (1 + d') * (1 + d) == (1 + d) / (1 + d'))%Q) by (field; lra). rewrite X.
  apply Qle_shift_div_r; lra.
Qed.
Print Assumptions C70_simplicity_arcs.
Example C70_simplicity_example : closed_net ex_net /\ (mean_degree ex_net == 12 # 7)%Q /\ (simplicity (1#1) ex_net == 7 # 12)%Q.
Proof.
  split; [|split; vm_compute; reflexivity]. split; [repeat constructor; cbn; intuition lia|].
  cbn. intros t a H1 H2. intuition (subst; cbn in *; intuition (subst; cbn; auto)).
Qed.
