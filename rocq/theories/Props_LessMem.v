(** Property theorems C67 (the memory-saving alignment search, default without LP solver). *)
From stdpp Require Import gmap.
From Coq Require Import ZArith QArith Lia Permutation.
From Verif Require Import Model_Petri Spec_Petri Model_Align Spec_Align Model_Lev Model_LessMem Spec_LessMem
  Proofs_Petri Proofs_Dijkstra Proofs_LessMem Proofs_LessMem2 Props_Align.
Local Open Scope Z_scope.

Lemma std_costs_ok pn trace : costs_ok (std_costs pn trace) pn trace.
Proof.
  split; [cbn; unfold STD_SYNC_COST; lia|]. split.
  - intros t _. cbn. unfold std_model_cost, STD_SYNC_COST, STD_MODEL_LOG_MOVE_COST, STD_TAU_COST.
    destruct (t_label t); [lia|]. destruct (List.filter _ _); lia.
  - intros i _. cbn. unfold STD_MODEL_LOG_MOVE_COST. lia.
Qed.

(** Whatever is returned is an alignment, and its cost is the sum of the costs of its moves. *)
Theorem C67_valid : forall fuel pn im fm trace cs n,
  simple_net pn -> proper im -> costs_ok cs pn trace ->
  lm_search pn fm trace cs fuel im = LFound n ->
  exists ms, Forall tm_ok ms /\ tm_log ms = trace /\ run pn im (tm_trans ms) fm /\
    map tm_label ms = lm_alignment trace n /\ l_cost n = tm_cost cs 0 ms.
Proof.
  intros fuel pn im fm trace cs n Hs Hi Hc E.
  pose proof (lm_loop_sound pn im fm trace cs Hs Hi Hc fuel [] _ 0 (inv_init pn im fm trace cs)) as H.
  unfold lm_search in E. cbn [closed_of map] in H. rewrite E in H. destruct H as ((_ & ms & H1 & H2 & H3 & H4 & H5) & Hm & Hp & _).
  exists ms. rewrite Hp, take_ge in H2 by lia. rewrite Hm in H3. auto.
Qed.
Print Assumptions C67_valid.

Lemma tm_is_alignment pn im fm ms : Forall tm_ok ms -> run pn im (tm_trans ms) fm ->
  is_alignment pn im fm (tm_log ms) (map tm_label ms).
Proof.
  intros Hok Hr. split; [|split].
  - clear Hr. induction Hok as [|[a t|a|t] ms Hm Hok IH]; cbn [map tm_label]; [constructor| | |]; (constructor; [|exact IH]).
    + cbn in Hm. rewrite Hm. constructor.
    + constructor.
    + constructor.
  - clear Hr. induction Hok as [|[a t|a|t] ms Hm Hok IH]; cbn; [reflexivity|f_equal; exact IH|f_equal; exact IH|exact IH].
  - exists (tm_trans ms). split; [exact Hr|]. clear Hr.
    induction Hok as [|[a t|a|t] ms Hm Hok IH]; cbn; [reflexivity|f_equal; exact IH|exact IH|f_equal; exact IH].
Qed.

Lemma tm_cost_default pn trace ms p : Forall tm_ok ms ->
  exists s, tm_cost (std_costs pn trace) p ms = 10000 * deviations (map tm_label ms) + s /\
    0 <= s <= silent_moves (map tm_label ms).
Proof.
  intros Hok. revert p. induction Hok as [|[a t|a|t] ms Hm Hok IH]; intros p; cbn [map tm_label tm_cost deviations silent_moves].
  - exists 0. lia.
  - destruct (IH (S p)) as (s & E & Hs). exists s. cbn [c_sync std_costs]. unfold STD_SYNC_COST. lia.
  - destruct (IH (S p)) as (s & E & Hs). exists s. cbn [c_log std_costs]. unfold STD_MODEL_LOG_MOVE_COST. lia.
  - destruct (IH p) as (s & E & Hs). cbn [c_model std_costs]. unfold std_model_cost.
    destruct (t_label t) as [a|]; [exists s; unfold STD_MODEL_LOG_MOVE_COST; lia|].
    destruct (List.filter _ _); [exists s|exists (s + 1); unfold STD_TAU_COST]; lia.
Qed.

(** With the default costs: 10000 per visible deviation plus at most 1 per silent move. *)
Theorem C67_valid_default : forall fuel pn im fm trace n,
  simple_net pn -> proper im -> lm_apply fuel trace pn im fm = LFound n ->
  is_alignment pn im fm trace (lm_alignment trace n) /\
  10000 * deviations (lm_alignment trace n) <= l_cost n
    <= 10000 * deviations (lm_alignment trace n) + silent_moves (lm_alignment trace n).
Proof.
  intros fuel pn im fm trace n Hs Hi E.
  destruct (C67_valid _ _ _ _ _ _ _ Hs Hi (std_costs_ok pn trace) E) as (ms & H1 & H2 & H3 & H4 & H5).
  rewrite <- H4. split; [rewrite <- H2; apply tm_is_alignment; auto|].
  destruct (tm_cost_default pn trace ms 0 H1) as (s & E1 & Hs1). lia.
Qed.
Print Assumptions C67_valid_default.

(** A cost below that of one deviation proves that the net accepts the trace. *)
Theorem C67_fit_sound : forall fuel pn im fm trace n,
  simple_net pn -> proper im -> lm_apply fuel trace pn im fm = LFound n ->
  l_cost n < 10000 -> accepts pn im fm trace.
Proof.
  intros fuel pn im fm trace n Hs Hi E Hlt.
  destruct (C67_valid _ _ _ _ _ _ _ Hs Hi (std_costs_ok pn trace) E) as (ms & H1 & H2 & H3 & H4 & H5).
  exists (tm_trans ms). split; [exact H3|].
  assert (Hdev : deviations (map tm_label ms) <= 0) by (destruct (tm_cost_default pn trace ms 0 H1) as (s & E1 & Hs1); lia).
  rewrite <- H2. clear -H1 Hdev.
  assert (Hnn : forall g, 0 <= deviations g).
  { induction g as [|[[|l] [|[l'|]]] g IH]; cbn [deviations]; try lia. }
  induction H1 as [|[a t|a|t] ms Hm Hok IH]; cbn [map tm_label deviations] in Hdev.
  - reflexivity.
  - cbn in Hm. cbn. rewrite Hm in *. f_equal. apply IH. exact Hdev.
  - specialize (Hnn (map tm_label ms)). lia.
  - cbn. destruct (t_label t); [specialize (Hnn (map tm_label ms)); lia|]. apply IH. exact Hdev.
Qed.
Print Assumptions C67_fit_sound.

(** The cost never exceeds that of skipping the whole trace and executing the cheapest run of the net. *)
Theorem C67_cost_bound : forall fuel pn im fm trace cs n ts,
  simple_net pn -> proper im -> costs_ok cs pn trace ->
  lm_search pn fm trace cs fuel im = LFound n -> run pn im ts fm ->
  l_cost n <= skip_cost cs (length trace) + run_cost (c_model cs) ts.
Proof.
  intros fuel pn im fm trace cs n ts Hs Hi Hc E Hr.
  pose proof (lm_loop_sound pn im fm trace cs Hs Hi Hc fuel [] _ 0 (inv_init pn im fm trace cs)) as H.
  unfold lm_search in E. cbn [closed_of map] in H. rewrite E in H. apply H, Hr.
Qed.
Print Assumptions C67_cost_bound.

Lemma skip_default pn trace k : skip_cost (std_costs pn trace) k = 10000 * Z.of_nat k.
Proof.
  unfold skip_cost. cbn [c_log std_costs].
  assert (H : forall l : list nat, zsum (fun _ => STD_MODEL_LOG_MOVE_COST) l = 10000 * Z.of_nat (length l)).
  { induction l as [|x l IH]; cbn [zsum length]; unfold STD_MODEL_LOG_MOVE_COST in *; lia. }
  rewrite H, seq_length. reflexivity.
Qed.
Lemma run_cost_default pn trace (ts : list (transition (option nat))) :
  10000 * Z.of_nat (length (visible ts)) <= run_cost (std_model_cost pn trace) ts
    <= 10000 * Z.of_nat (length (visible ts)) + Z.of_nat (length ts - length (visible ts)).
Proof.
  assert (Hle : (length (visible ts) <= length ts)%nat).
  { induction ts as [|t ts IH]; cbn; [lia|]. destruct (t_label t); cbn; lia. }
  induction ts as [|t ts IH]; cbn [run_cost visible length]; [lia|].
  assert (Hle' : (length (visible ts) <= length ts)%nat).
  { clear. induction ts as [|t ts IH]; cbn; [lia|]. destruct (t_label t); cbn; lia. }
  specialize (IH Hle').
  assert (Hc : match t_label t with Some _ => std_model_cost pn trace t = 10000 | None => 0 <= std_model_cost pn trace t <= 1 end).
  { unfold std_model_cost, STD_MODEL_LOG_MOVE_COST, STD_TAU_COST. destruct (t_label t); [reflexivity|]. destruct (List.filter _ _); lia. }
  destruct (t_label t) eqn:E; cbn [length]; lia.
Qed.

(** An exhausted search means that the final marking is unreachable, so that there is no alignment. *)
Theorem C67_none_means_none : forall fuel pn im fm trace,
  simple_net pn -> proper im -> lm_apply fuel trace pn im fm = LExhausted ->
  ~ reachable pn im fm /\ forall g, ~ is_alignment pn im fm trace g.
Proof.
  intros fuel pn im fm trace Hs Hi E.
  pose proof (lm_loop_sound pn im fm trace _ Hs Hi (std_costs_ok pn trace) fuel [] _ 0 (inv_init pn im fm trace _)) as H.
  unfold lm_apply, lm_search in E. cbn [closed_of map] in H. rewrite E in H. split.
  - intros [ts Hr]. exact (H ts Hr).
  - intros g (_ & _ & ts & Hr & _). exact (H ts Hr).
Qed.
Print Assumptions C67_none_means_none.

(** The search ends on every net with finitely many reachable markings, for every cost setting. *)
Theorem C67_terminates : forall pn im fm trace cs (l : list marking),
  simple_net pn -> proper im -> costs_ok cs pn trace -> (forall m, reachable pn im m -> In m l) ->
  exists fuel, lm_search pn fm trace cs fuel im <> LInterrupted.
Proof. intros pn im fm trace cs l Hs Hi Hc Hl. exact (lm_search_terminates pn im fm trace cs Hs Hi Hc l Hl). Qed.
Print Assumptions C67_terminates.

(** The best worst cost is exact: 10000 times the least number of visible transitions of a complete run. *)
Theorem C67_best_worst_exact : forall fuel pn im fm c,
  simple_net pn -> proper im -> lm_best_worst_cost fuel pn im fm = Some c ->
  (exists ts, run pn im ts fm /\ c = 10000 * Z.of_nat (length (visible ts))) /\
  (forall ts, run pn im ts fm -> c <= 10000 * Z.of_nat (length (visible ts))).
Proof.
  intros fuel pn im fm c Hs Hi E. unfold lm_best_worst_cost in E.
  destruct (lm_apply fuel [] pn im fm) as [n| |] eqn:Ea; try discriminate. injection E as <-.
  assert (Hz : forall ts : list (transition (option nat)), run_cost (std_model_cost pn []) ts = 10000 * Z.of_nat (length (visible ts))).
  { induction ts as [|t ts IH]; cbn [run_cost visible length]; [lia|]. rewrite IH. unfold std_model_cost.
    destruct (t_label t) eqn:El; cbn [length]; [unfold STD_MODEL_LOG_MOVE_COST; lia|].
    match goal with |- context [List.filter ?f ?l] => assert (Hnil : List.filter f l = []) end; [|rewrite Hnil; lia].
    generalize (enabled_transitions pn (arc_dict (t_in t))). intros l. induction l as [|u l IHl]; cbn; [reflexivity|].
    destruct (t_label u); exact IHl. }
  split.
  - destruct (C67_valid _ _ _ _ _ _ _ Hs Hi (std_costs_ok pn []) Ea) as (ms & H1 & H2 & H3 & H4 & H5).
    exists (tm_trans ms). split; [exact H3|]. rewrite H5, <- Hz. clear -H2.
    induction ms as [|[a t|a|t] ms IH]; cbn in *; try discriminate; [reflexivity|]. rewrite IH by exact H2. reflexivity.
  - intros ts Hr. pose proof (C67_cost_bound _ _ _ _ _ _ _ _ Hs Hi (std_costs_ok pn []) Ea Hr) as H.
    cbn [length] in H. rewrite skip_default in H. cbn [c_model std_costs] in H. rewrite Hz in H. lia.
Qed.
Print Assumptions C67_best_worst_exact.

(** Consequently the fitness derived from the two costs lies between 0 and 1 (for runs with fewer than 10000
    silent transitions). *)
Theorem C67_fitness_range : forall fuel fuel' pn im fm trace n bwc ts,
  simple_net pn -> proper im -> lm_apply fuel trace pn im fm = LFound n ->
  lm_best_worst_cost fuel' pn im fm = Some bwc ->
  run pn im ts fm -> bwc = 10000 * Z.of_nat (length (visible ts)) ->
  Z.of_nat (length ts - length (visible ts)) < 10000 ->
  (0 <= trace_fitness trace (l_cost n) bwc <= 1)%Q.
Proof.
  intros fuel fuel' pn im fm trace n bwc ts Hs Hi E Eb Hr Ebwc Hsil.
  pose proof (C67_cost_bound _ _ _ _ _ _ _ _ Hs Hi (std_costs_ok pn trace) E Hr) as Hub.
  rewrite skip_default in Hub. cbn [c_model std_costs] in Hub. pose proof (run_cost_default pn trace ts) as Hrc.
  pose proof (C67_valid_default _ _ _ _ _ _ Hs Hi E) as [_ [Hlb _]].
  assert (Hnn : forall g, 0 <= deviations g).
  { induction g as [|[[|l] [|[l'|]]] g IH]; cbn [deviations]; try lia. }
  specialize (Hnn (lm_alignment trace n)).
  unfold trace_fitness. unfold STD_MODEL_LOG_MOVE_COST. subst bwc.
  set (k := length (visible ts)) in *. set (len := length trace) in *.
  replace (10000 * Z.of_nat len + 10000 * Z.of_nat k) with ((Z.of_nat len + Z.of_nat k) * 10000) by lia.
  rewrite Z.div_mul by lia.
  assert (Hd : 0 <= l_cost n / 10000 <= Z.of_nat len + Z.of_nat k).
  { split; [apply Z.div_pos; lia|].
    assert (l_cost n / 10000 < Z.of_nat len + Z.of_nat k + 1); [|lia].
    apply Z.div_lt_upper_bound; lia. }
  destruct (Z.gtb_spec (Z.of_nat len + Z.of_nat k) 0) as [Hpos|Hpos]; [|split; discriminate].
  set (a := l_cost n / 10000) in *. set (d := Z.of_nat len + Z.of_nat k) in *.
  assert (Hq : (0 < inject_Z d)%Q) by (change 0%Q with (inject_Z 0); rewrite <- Zlt_Qlt; lia).
  assert (H1 : (0 <= inject_Z a / inject_Z d)%Q).
  { apply Qle_shift_div_l; [exact Hq|]. rewrite Qmult_0_l. change 0%Q with (inject_Z 0). rewrite <- Zle_Qle. lia. }
  assert (H2 : (inject_Z a / inject_Z d <= 1)%Q).
  { apply Qle_shift_div_r; [exact Hq|]. rewrite Qmult_1_l. rewrite <- Zle_Qle. lia. }
  set (q := (inject_Z a / inject_Z d)%Q) in *. split.
  - apply (Qplus_le_l _ _ q). ring_simplify. exact H2.
  - apply (Qplus_le_l _ _ (q - 1)). ring_simplify. exact H1.
Qed.
Print Assumptions C67_fitness_range.

(** On deterministic nets without silent transitions every fitting trace gets cost 0. *)
Theorem C67_deterministic_fit : forall pn im fm trace,
  simple_net pn -> proper im -> deterministic_from pn im -> accepts pn im fm trace ->
  exists fuel n, lm_apply fuel trace pn im fm = LFound n /\ l_cost n = 0.
Proof. intros pn im fm trace Hs Hi Hd Ha. exact (det_apply pn im fm trace Hs Hi Hd Ha). Qed.
Print Assumptions C67_deterministic_fit.

(** Examples: the net of Props_Align (a, tau, b in sequence). *)
Example C67_example :
  simple_net ex_net /\ proper ex_im /\ costs_ok (std_costs ex_net [7; 9]%nat) ex_net [7; 9]%nat /\
  (exists n, lm_apply 100 [7; 9]%nat ex_net ex_im ex_fm = LFound n /\ l_cost n = 20000 /\
     lm_alignment [7; 9]%nat n = [(Lab (Some 7%nat), Lab (Some 7%nat)); (Lab (Some 9%nat), Skip); (Skip, Lab None); (Skip, Lab (Some 8%nat))]) /\
  lm_best_worst_cost 100 ex_net ex_im ex_fm = Some 20000 /\
  lm_apply 100 [7; 9]%nat ex_net ex_im {[ 3%nat := 2 ]} = LExhausted.
Proof.
  split; [exact ex_simple|]. split; [apply proper_singleton; lia|]. split; [apply std_costs_ok|]. split; [|split; vm_compute; reflexivity].
  destruct (lm_apply 100 [7; 9]%nat ex_net ex_im ex_fm) as [n| |] eqn:E; [|vm_compute in E; discriminate|vm_compute in E; discriminate].
  exists n. split; [reflexivity|]. vm_compute in E. injection E as <-. split; vm_compute; reflexivity.
Qed.

Definition opt_x : transition (option nat) := Trans 0 (Some 7%nat) [(0%nat, 1)] [(1%nat, 1)].
Definition opt_tau : transition (option nat) := Trans 1 None [(0%nat, 1)] [(1%nat, 1)].
Definition opt_last : transition (option nat) := Trans 2 (Some 7%nat) [(1%nat, 1)] [(2%nat, 1)].
Definition dn_a : transition (option nat) := Trans 0 (Some 7%nat) [(0%nat, 1)] [(1%nat, 1)].
Definition dn_b : transition (option nat) := Trans 1 (Some 8%nat) [(1%nat, 1)] [(2%nat, 1)].
Definition dn_c : transition (option nat) := Trans 2 (Some 9%nat) [(0%nat, 1)] [(2%nat, 1)].
Definition dn_a2 : transition (option nat) := Trans 3 (Some 7%nat) [(2%nat, 1)] [(3%nat, 1)].
Definition dn_b2 : transition (option nat) := Trans 4 (Some 8%nat) [(3%nat, 1)] [(4%nat, 1)].
Local Ltac fires_tac := split; [cbn; tauto|split; [|split; [apply proper_singleton; lia|]]];
  [intros p; cbn [t_in weight opt_x opt_tau opt_last dn_a dn_b dn_c dn_a2 dn_b2]; rewrite ?tokens_singleton; repeat destruct (Nat.eqb _ p); lia
  |intros p; cbn [t_in t_out weight opt_x opt_tau opt_last dn_a dn_b dn_c dn_a2 dn_b2]; rewrite !tokens_singleton; repeat destruct (Nat.eqb _ p); lia].
Local Ltac simple_tac :=
  let t := fresh in let H := fresh in intros t H; cbn in H;
  repeat (destruct H as [<-|H]; [split; split; cbn; [repeat constructor; cbn; tauto|intros ? ? [[= <- <-]|[]]; lia
                                      |repeat constructor; cbn; tauto|intros ? ? [[= <- <-]|[]]; lia]|]); destruct H.
(** x? x: an optional x followed by x.  The trace x fits, but the move together with the first x closes the
    marking after it, and skipping the optional x is never tried. *)
Definition opt_net := Net [0; 1; 2]%nat [opt_x; opt_tau; opt_last].

Theorem C67_fitting_trace_refuted : exists fuel pn im fm trace n,
  simple_net pn /\ unit_weights pn /\ proper im /\ proper fm /\ accepts pn im fm trace /\
  lm_apply fuel trace pn im fm = LFound n /\ l_cost n = 10000 /\
  (exists g, is_alignment pn im fm trace g /\ align_cost g = 1).
Proof.
  destruct (lm_apply 100 [7%nat] opt_net {[ 0%nat := 1 ]} {[ 2%nat := 1 ]}) as [n| |] eqn:E;
    [|vm_compute in E; discriminate|vm_compute in E; discriminate].
  exists 100%nat, opt_net, {[ 0%nat := 1 ]}, {[ 2%nat := 1 ]}, [7%nat], n.
  assert (Hrun : run opt_net {[ 0%nat := 1 ]} [opt_tau; opt_last] {[ 2%nat := 1 ]}).
  { apply (run_cons opt_net _ opt_tau {[ 1%nat := 1 ]}).
    - fires_tac.
    - apply (run_cons opt_net _ opt_last {[ 2%nat := 1 ]}); [fires_tac|constructor]. }
  split; [simple_tac|]. split; [intros t Ht p w H; cbn in Ht; destruct Ht as [<-|[<-|[<-|[]]]]; cbn in H; intuition congruence|].
  split; [apply proper_singleton; lia|]. split; [apply proper_singleton; lia|].
  split; [exists [opt_tau; opt_last]; split; [exact Hrun|reflexivity]|]. split; [exact E|].
  split; [vm_compute in E; injection E as <-; reflexivity|].
  exists [(Skip, Lab None); (Lab (Some 7%nat), Lab (Some 7%nat))]. split; [|reflexivity].
  split; [repeat constructor|]. split; [reflexivity|]. exists [opt_tau; opt_last]. auto.
Qed.
Print Assumptions C67_fitting_trace_refuted.

(** Deterministic, no silent transition: (a b | c) a b.  For the trace a b the search pays two model moves at the
    end instead of the single model move c. *)
Definition dn_net := Net [0; 1; 2; 3; 4]%nat [dn_a; dn_b; dn_c; dn_a2; dn_b2].

Theorem C67_optimal_refuted : exists fuel pn im fm trace n,
  simple_net pn /\ unit_weights pn /\ proper im /\ proper fm /\
  lm_apply fuel trace pn im fm = LFound n /\
  (forall t, In t (n_trans pn) -> t_label t <> None) /\
  (exists g, is_alignment pn im fm trace g /\ align_cost g = 10000) /\ l_cost n = 20000.
Proof.
  destruct (lm_apply 100 [7; 8]%nat dn_net {[ 0%nat := 1 ]} {[ 4%nat := 1 ]}) as [n| |] eqn:E;
    [|vm_compute in E; discriminate|vm_compute in E; discriminate].
  exists 100%nat, dn_net, {[ 0%nat := 1 ]}, {[ 4%nat := 1 ]}, [7; 8]%nat, n.
  split; [simple_tac|]. split; [intros t Ht p w H; cbn in Ht; destruct Ht as [<-|[<-|[<-|[<-|[<-|[]]]]]]; cbn in H; intuition congruence|].
  split; [apply proper_singleton; lia|]. split; [apply proper_singleton; lia|]. split; [exact E|].
  split; [intros t Ht; cbn in Ht; destruct Ht as [<-|[<-|[<-|[<-|[<-|[]]]]]]; discriminate|].
  split; [|vm_compute in E; injection E as <-; reflexivity].
  exists [(Skip, Lab (Some 9%nat)); (Lab (Some 7%nat), Lab (Some 7%nat)); (Lab (Some 8%nat), Lab (Some 8%nat))].
  split; [|reflexivity]. split; [repeat constructor|]. split; [reflexivity|]. exists [dn_c; dn_a2; dn_b2].
  split; [|reflexivity]. apply (run_cons dn_net _ dn_c {[ 2%nat := 1 ]}); [fires_tac|].
  apply (run_cons dn_net _ dn_a2 {[ 3%nat := 1 ]}); [fires_tac|].
  apply (run_cons dn_net _ dn_b2 {[ 4%nat := 1 ]}); [fires_tac|constructor].
Qed.
Print Assumptions C67_optimal_refuted.

(** The hypothesis of C67_deterministic_fit is met by a net with a choice: (a b | c), where the labels differ. *)
Definition dd_net := Net [0; 1; 2]%nat [dn_a; dn_b; dn_c].
Example C67_deterministic_example :
  simple_net dd_net /\ deterministic_from dd_net {[ 0%nat := 1 ]} /\
  accepts dd_net {[ 0%nat := 1 ]} {[ 2%nat := 1 ]} [7; 8]%nat.
Proof.
  split; [simple_tac|]. split.
  - split.
    + intros t Ht; cbn in Ht; destruct Ht as [<-|[<-|[<-|[]]]]; discriminate.
    + intros m t u _ Ht Hu _ _. cbn in Ht, Hu.
      destruct Ht as [<-|[<-|[<-|[]]]], Hu as [<-|[<-|[<-|[]]]]; cbn; congruence.
  - exists [dn_a; dn_b]. split; [|reflexivity]. apply (run_cons dd_net _ dn_a {[ 1%nat := 1 ]}); [fires_tac|].
    apply (run_cons dd_net _ dn_b {[ 2%nat := 1 ]}); [fires_tac|constructor].
Qed.
