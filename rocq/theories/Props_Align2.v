(** Property theorems C14 (A-star) and C16 (alignments of a log). *)
From stdpp Require Import gmap.
From Coq Require Import ZArith QArith Lia Lqa.
From Verif Require Import Model_Petri Spec_Petri Model_Align Spec_Align Model_AStar Spec_AStar Model_AlignLog
  Proofs_Petri Proofs_Dijkstra Proofs_Sync Proofs_AStar Proofs_AlignLog.
Local Open Scope Q_scope.

(** C14: the alignment returned by A* is valid and no alignment of cost at most 10^15 is cheaper; if no
    alignment is returned (empty queue, or IndexError on the empty heap) there is none of cost at most 10^15. *)
Theorem C14_astar_optimal : forall pn im fm trace lp pop pushpop fuel,
  simple_net pn -> unit_weights pn -> distinct_ids pn -> proper im -> proper fm ->
  (let '(tn, tim, tfm) := construct_trace_net trace in
   let '(sn, sim, sfm) := construct tn tim tfm pn im fm in
   lp_optimal sn sfm (fun t => inject_Z (std_cost (t_label t))) (lp sn sfm) /\ lp_gap (lp sn sfm)) ->
  heap_ok pop pushpop ->
  match astar_apply lp pop pushpop fuel trace pn im fm with
  | AFound n => is_alignment pn im fm trace (a_alignment_of n) /\
                a_g n == inject_Z (align_cost (a_alignment_of n)) /\
                forall g, is_alignment pn im fm trace g -> (align_cost g <= 10 ^ 15)%Z ->
                          (align_cost (a_alignment_of n) <= align_cost g)%Z
  | AExhausted | AError => forall g, is_alignment pn im fm trace g -> (10 ^ 15 < align_cost g)%Z
  | AInterrupted => True
  end.
Proof.
  intros pn im fm trace lp pop pushpop fuel Hs Hu Hd Hi Hf [Hlp Hg] Hh.
  exact (astar_apply_correct pn im fm trace lp pop pushpop Hs Hu Hd Hi Hf Hlp Hg Hh fuel).
Qed.
Print Assumptions C14_astar_optimal.

(** The same on any product-like net and any non-negative costs. *)
Theorem C14_astar_search : forall pn ini fin cost lp pop pushpop fuel,
  simple_net pn -> unit_weights pn -> distinct_ids pn -> proper ini ->
  (forall t, In t (n_trans pn) -> 0 <= cost t) ->
  lp_optimal pn fin cost lp -> lp_gap lp -> heap_ok pop pushpop ->
  match astar_search pn fin cost lp pop pushpop fuel ini with
  | AFound n => run pn ini (rev (a_path n)) fin /\ a_g n == qrun_cost cost (rev (a_path n)) /\
                forall ts, run pn ini ts fin -> qrun_cost cost ts <= inject_Z (10 ^ 15) ->
                           a_g n <= qrun_cost cost ts
  | AExhausted | AError => forall ts, run pn ini ts fin -> inject_Z (10 ^ 15) < qrun_cost cost ts
  | AInterrupted => True
  end.
Proof.
  intros pn ini fin cost lp pop pushpop fuel Hs Hu Hd Hi Hc Hlp Hg Hh.
  exact (astar_search_sound pn ini fin cost lp pop pushpop Hs Hu Hd Hi Hc Hlp Hg Hh fuel).
Qed.
Print Assumptions C14_astar_search.

Theorem C14_astar_terminates : forall pn im fm trace lp pop pushpop (l : list marking),
  simple_net pn -> unit_weights pn -> distinct_ids pn -> proper im -> proper fm ->
  (let '(tn, tim, tfm) := construct_trace_net trace in
   let '(sn, sim, sfm) := construct tn tim tfm pn im fm in
   lp_optimal sn sfm (fun t => inject_Z (std_cost (t_label t))) (lp sn sfm) /\ lp_gap (lp sn sfm)) ->
  heap_ok pop pushpop ->
  (forall m, reachable pn im m -> In m l) ->
  exists fuel, astar_apply lp pop pushpop fuel trace pn im fm <> AInterrupted.
Proof.
  intros pn im fm trace lp pop pushpop l Hs Hu Hd Hi Hf [Hlp Hg] Hh.
  exact (astar_apply_terminates pn im fm trace lp pop pushpop Hs Hu Hd Hi Hlp Hg Hh l).
Qed.
Print Assumptions C14_astar_terminates.

(** Dijkstra and A* agree on the cost. *)
Theorem C14_astar_dijkstra_agree : forall pn im fm trace lp pop pushpop fuel fuel' n k,
  simple_net pn -> unit_weights pn -> distinct_ids pn -> proper im -> proper fm ->
  (let '(tn, tim, tfm) := construct_trace_net trace in
   let '(sn, sim, sfm) := construct tn tim tfm pn im fm in
   lp_optimal sn sfm (fun t => inject_Z (std_cost (t_label t))) (lp sn sfm) /\ lp_gap (lp sn sfm)) ->
  heap_ok pop pushpop ->
  astar_apply lp pop pushpop fuel trace pn im fm = AFound n ->
  dijkstra_apply fuel' trace pn im fm = SFound k -> (d_g k <= 10 ^ 15)%Z ->
  a_g n == inject_Z (d_g k).
Proof.
  intros pn im fm trace lp pop pushpop fuel fuel' n k Hs Hu Hd Hi Hf Hlp Hh E1 E2 Hle.
  pose proof (C14_astar_optimal pn im fm trace lp pop pushpop fuel Hs Hu Hd Hi Hf Hlp Hh) as H. rewrite E1 in H.
  destruct H as (HA & -> & Hopt).
  pose proof (dijkstra_apply_correct pn im fm trace Hs Hu Hi Hf fuel') as H. rewrite E2 in H.
  destruct H as [[HA' Hopt'] HC]. apply inject_Z_injective.
  specialize (Hopt _ HA'). specialize (Hopt' _ HA). rewrite HC in Hle |- *. specialize (Hopt Hle). lia.
Qed.
Print Assumptions C14_astar_dijkstra_agree.

(** The hypotheses are met: an exact LP oracle for the product of the trace <7> and a net with one
    transition labelled 7. *)
Definition exl_t : transition (option nat) := Trans 0 (Some 7%nat) [(0%nat, 1%Z)] [(1%nat, 1%Z)].
Definition exl_net : petri_net (option nat) := Net [0; 1]%nat [exl_t].
Definition exl_im : marking := {[ 0%nat := 1%Z ]}.
Definition exl_fm : marking := {[ 1%nat := 1%Z ]}.
Definition exl_lp (sn : petri_net slabel) (fin m : marking) : option (Q * list Q) :=
  let a := (tokens m 0 - tokens fin 0)%Z in
  let b := (tokens m 1 - tokens fin 1)%Z in
  let s := Z.min a b in
  if ((0 <=? a) && (0 <=? b) && (a =? tokens fin 2 - tokens m 2) && (b =? tokens fin 3 - tokens m 3))%Z
  then Some (inject_Z (10000 * (a - s) + 10000 * (b - s)), [inject_Z (a - s); inject_Z (b - s); inject_Z s])
  else None.

Lemma exl_rows :
  let row p := map (fun t => inject_Z (incidence t p)) (n_trans (snet exl_net [7%nat])) in
  row 0%nat = [-1; 0; -1] /\ row 2%nat = [1; 0; 1] /\ row 1%nat = [0; -1; -1] /\ row 3%nat = [0; 1; 1] /\
  map (fun t => inject_Z (std_cost (t_label t))) (n_trans (snet exl_net [7%nat])) = [10000; 10000; 0] /\
  n_places (snet exl_net [7%nat]) = [0; 2; 1; 3]%nat /\ length (n_trans (snet exl_net [7%nat])) = 3%nat.
Proof. vm_compute. repeat split. Qed.

Lemma exl_feasible fin m x :
  feasible (snet exl_net [7%nat]) fin m x <->
  exists u l s, x = [u; l; s] /\ 0 <= u /\ 0 <= l /\ 0 <= s /\
    u + s == inject_Z (tokens m 0 - tokens fin 0) /\ u + s == inject_Z (tokens fin 2 - tokens m 2) /\
    l + s == inject_Z (tokens m 1 - tokens fin 1) /\ l + s == inject_Z (tokens fin 3 - tokens m 3).
Proof.
  assert (Hsub : forall a b, inject_Z (a - b) == inject_Z a - inject_Z b)
    by (intros; unfold Z.sub; rewrite inject_Z_plus, inject_Z_opp; reflexivity).
  split.
  - destruct exl_rows as (R0 & R2 & R1 & R3 & _ & RP & RL). intros (Hl & Hp & He). rewrite RL in Hl. rewrite RP in He.
    destruct x as [|u [|l [|s [|? ?]]]]; try discriminate. exists u, l, s.
    pose proof (He 0%nat ltac:(cbn; auto)) as E0. pose proof (He 2%nat ltac:(cbn; auto)) as E2.
    pose proof (He 1%nat ltac:(cbn; auto)) as E1. pose proof (He 3%nat ltac:(cbn; auto)) as E3.
    rewrite R0 in E0. rewrite R1 in E1. rewrite R2 in E2. rewrite R3 in E3. cbn [qdot] in E0, E1, E2, E3.
    rewrite Hsub in E0, E1, E2, E3. rewrite !Hsub.
    split; [reflexivity|]. split; [apply Hp; cbn; auto|]. split; [apply Hp; cbn; auto|]. split; [apply Hp; cbn; auto|].
    repeat split; lra.
  - destruct exl_rows as (R0 & R2 & R1 & R3 & _ & RP & RL).
    intros (u & l & s & -> & H1 & H2 & H3 & E0 & E2 & E1 & E3). rewrite Hsub in E0, E1, E2, E3.
    split; [rewrite RL; reflexivity|]. split; [intros v [<-|[<-|[<-|[]]]]; assumption|].
    rewrite RP. intros p Hp. cbn in Hp.
    destruct Hp as [<-|[<-|[<-|[<-|[]]]]]; rewrite ?R0, ?R1, ?R2, ?R3; cbn [qdot]; rewrite Hsub; lra.
Qed.

Lemma exl_lp_ok : lp_optimal (snet exl_net [7%nat]) (sfm exl_fm [7%nat])
    (fun t => inject_Z (std_cost (t_label t))) (exl_lp (snet exl_net [7%nat]) (sfm exl_fm [7%nat])) /\
  lp_gap (exl_lp (snet exl_net [7%nat]) (sfm exl_fm [7%nat])).
Proof.
  set (fin := sfm exl_fm [7%nat]).
  assert (Hsub : forall a b, inject_Z (a - b) == inject_Z a - inject_Z b)
    by (intros; unfold Z.sub; rewrite inject_Z_plus, inject_Z_opp; reflexivity).
  split.
  - intros m. unfold exl_lp. set (a := (tokens m 0 - tokens fin 0)%Z). set (b := (tokens m 1 - tokens fin 1)%Z).
    destruct ((0 <=? a) && (0 <=? b) && (a =? tokens fin 2 - tokens m 2) && (b =? tokens fin 3 - tokens m 3))%Z eqn:Ec.
    + rewrite !andb_true_iff, !Z.leb_le, !Z.eqb_eq in Ec. destruct Ec as [[[Ha Hb] Ha2] Hb2].
      set (s := Z.min a b). split; [|split].
      * apply exl_feasible. exists (inject_Z (a - s)), (inject_Z (b - s)), (inject_Z s).
        split; [reflexivity|]. fold a b. rewrite <- Ha2, <- Hb2.
        rewrite <- !inject_Z_plus.
        repeat split; try (apply inject_Z_injective; lia);
          change 0 with (inject_Z 0); rewrite <- Zle_Qle; subst s; lia.
      * unfold lp_cost. destruct exl_rows as (_ & _ & _ & _ & -> & _). cbn [qdot]. rewrite inject_Z_plus, !inject_Z_mult.
        change (inject_Z 10000) with (10000 # 1). ring.
      * intros y Hy. apply exl_feasible in Hy as (u & l & s' & -> & H1 & H2 & H3 & E0 & _ & E1 & _).
        fold a in E0. fold b in E1. unfold lp_cost. destruct exl_rows as (_ & _ & _ & _ & -> & _). cbn [qdot].
        rewrite inject_Z_plus, !inject_Z_mult, !Hsub.
        assert (Hs : inject_Z s == inject_Z a \/ inject_Z s == inject_Z b).
        { subst s. destruct (Z.min_spec a b) as [[_ ->]|[_ ->]]; [left|right]; reflexivity. }
        change (inject_Z 10000) with (10000 # 1). change (inject_Z 0) with 0.
        destruct Hs as [->| ->]; rewrite <- E0, <- E1; lra.
    + intros y Hy. apply exl_feasible in Hy as (u & l & s' & -> & H1 & H2 & H3 & E0 & E2 & E1 & E3).
      rewrite <- not_true_iff_false in Ec. apply Ec. rewrite !andb_true_iff, !Z.leb_le, !Z.eqb_eq. subst a b.
      repeat split.
      * rewrite Zle_Qle, <- E0. change (inject_Z 0) with 0. lra.
      * rewrite Zle_Qle, <- E1. change (inject_Z 0) with 0. lra.
      * apply inject_Z_injective. rewrite <- E0, <- E2. reflexivity.
      * apply inject_Z_injective. rewrite <- E1, <- E3. reflexivity.
  - intros m h x E v k Hv Hlt. unfold exl_lp in E.
    destruct (_ && _); [|discriminate]. injection E as <- <-.
    assert (Hz : exists z, v = inject_Z z) by (destruct Hv as [<-|[<-|[<-|[]]]]; eauto).
    destruct Hz as [z ->]. rewrite <- Zlt_Qlt in Hlt.
    assert (Hle : (z <= k - 1)%Z) by lia. rewrite Zle_Qle, Hsub in Hle. change (inject_Z 1) with 1 in Hle. lra.
Qed.

Example C14_example :
  match astar_apply exl_lp min_pop min_pushpop 20 [7%nat] exl_net exl_im exl_fm with
  | AFound n => a_alignment_of n = [(Lab (Some 7%nat), Lab (Some 7%nat))] /\ a_g n == 0
  | _ => False
  end /\ heap_ok min_pop min_pushpop.
Proof. split; [vm_compute; split; reflexivity|exact min_heap_ok]. Qed.

(** C16 *)
Theorem C16_log_is_pointwise : forall (C R : Type) (acts : C -> list nat) (align : C -> R) (log : list C),
  (forall c c', acts c = acts c' -> align c = align c') ->
  apply_log acts align log = Some (map align log).
Proof. intros C R acts align log H. exact (apply_log_correct acts align H log). Qed.
Print Assumptions C16_log_is_pointwise.

(** With the Dijkstra aligner (which reads only the activities of the case). *)
Theorem C16_dijkstra_log : forall (C : Type) (acts : C -> list nat) (log : list C) fuel pn im fm,
  apply_log acts (fun c => align_result (dijkstra_apply fuel (acts c) pn im fm)) log =
  Some (map (fun c => align_result (dijkstra_apply fuel (acts c) pn im fm)) log).
Proof. intros. apply apply_log_correct. intros c c' ->. reflexivity. Qed.
Print Assumptions C16_dijkstra_log.

Example C16_example :
  variants_structure fst [([1; 2], 0); ([3], 1); ([1; 2], 2)]%nat = ([([1; 2], [0; 2]); ([3], [1])], [([1; 2], 0); ([3], 1)])%nat /\
  apply_log fst (fun c => length (fst c)) [([1; 2], 0); ([3], 1); ([1; 2], 2)]%nat = Some [2; 1; 2]%nat.
Proof. split; reflexivity. Qed.
