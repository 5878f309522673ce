(** Proofs: trace nets and reachability graphs. *)
From stdpp Require Import gmap.
From Coq Require Import ZArith Lia.
From Verif Require Import Model_Petri Spec_Petri Proofs_Petri.
Local Open Scope Z_scope.

(** ---- Trace nets ---- *)
Definition tn_trans (i a : nat) : transition (option nat) := Trans i (Some a) [(i, 1)] [(S i, 1)].

Lemma trace_net_trans_lookup k tr i a :
  tr !! i = Some a <-> trace_net_trans k tr !! i = Some (tn_trans (k + i) a) /\ True.
Proof.
  revert k i. induction tr as [|b tr IH]; intros k i; cbn [trace_net_trans].
  - rewrite !lookup_nil. split; [discriminate|intros [? _]; discriminate].
  - destruct i as [|i]; cbn.
    + rewrite Nat.add_0_r. split; [intros [= ->]; auto|]. intros [H _]. inversion H. reflexivity.
    + rewrite (IH (S k) i). replace (S k + i)%nat with (k + S i)%nat by lia. reflexivity.
Qed.

Lemma trace_net_in k tr t :
  In t (trace_net_trans k tr) -> exists i a, tr !! i = Some a /\ t = tn_trans (k + i) a.
Proof.
  revert k. induction tr as [|b tr IH]; intros k; cbn [trace_net_trans]; [intros []|].
  intros [<-|H].
  - exists 0%nat, b. rewrite Nat.add_0_r. auto.
  - destruct (IH _ H) as (i & a & E & ->). exists (S i), a. split; [exact E|].
    f_equal. lia.
Qed.

Lemma trace_net_in_iff tr t :
  In t (trace_net_trans 0 tr) <-> exists i a, tr !! i = Some a /\ t = tn_trans i a.
Proof.
  split; [apply trace_net_in|]. intros (i & a & E & ->).
  apply (trace_net_trans_lookup 0) in E as [E _]. apply elem_of_list_In. eapply elem_of_list_lookup_2. exact E.
Qed.

Lemma tn_fires tr pl i t m' :
  fires (Net pl (trace_net_trans 0 tr)) t {[ i := 1 ]} m' <->
  exists a, tr !! i = Some a /\ t = tn_trans i a /\ m' = {[ S i := 1 ]}.
Proof.
  split.
  - intros (Hin & He & Hp & Ht). cbn [n_trans] in Hin.
    apply trace_net_in_iff in Hin as (j & a & E & ->).
    specialize (He j). cbn [tn_trans t_in weight] in He. rewrite Nat.eqb_refl, tokens_singleton in He.
    destruct (Nat.eqb_spec i j) as [->|]; [|lia].
    exists a. split; [exact E|]. split; [reflexivity|].
    apply proper_ext; [exact Hp|apply proper_singleton; lia|].
    intros p. rewrite Ht, !tokens_singleton. cbn [tn_trans t_in t_out weight].
    destruct (Nat.eqb_spec j p), (Nat.eqb_spec (S j) p); lia.
  - intros (a & E & -> & ->). repeat split.
    + cbn [n_trans]. apply trace_net_in_iff. eauto.
    + intros p. cbn [tn_trans t_in weight]. rewrite tokens_singleton. destruct (Nat.eqb_spec i p); lia.
    + apply proper_singleton. lia.
    + intros p. rewrite !tokens_singleton. cbn [tn_trans t_in t_out weight].
      destruct (Nat.eqb_spec i p), (Nat.eqb_spec (S i) p); lia.
Qed.

Lemma singleton_1_inj (i j : nat) : ({[ i := 1 ]} : marking) = {[ j := 1 ]} -> i = j.
Proof.
  intros H. assert (E : tokens {[ i := 1 ]} j = tokens {[ j := 1 ]} j) by (rewrite H; reflexivity).
  rewrite !tokens_singleton, Nat.eqb_refl in E. destruct (Nat.eqb_spec i j); [assumption|lia].
Qed.

Lemma trace_net_drop k tr i : drop i (trace_net_trans k tr) = trace_net_trans (k + i) (drop i tr).
Proof.
  revert k i. induction tr as [|b tr IH]; intros k i; destruct i as [|i]; cbn; try reflexivity.
  - rewrite Nat.add_0_r. reflexivity.
  - rewrite IH. f_equal. lia.
Qed.

Lemma tn_run_inv tr pl m ts m' :
  run (Net pl (trace_net_trans 0 tr)) m ts m' ->
  forall i, m = {[ i := 1 ]} -> m' = {[ length tr := 1 ]} -> (i <= length tr)%nat ->
  ts = drop i (trace_net_trans 0 tr).
Proof.
  intros H. induction H as [m|m t m1 ts m2 Hf Hr IH]; intros i -> E Hle.
  - apply singleton_1_inj in E as ->. rewrite trace_net_drop, drop_all. reflexivity.
  - apply tn_fires in Hf as (a & Ea & -> & ->).
    pose proof (lookup_lt_Some _ _ _ Ea) as Hlt.
    rewrite (IH (S i) eq_refl E ltac:(lia)).
    rewrite !trace_net_drop. cbn [Nat.add].
    rewrite (drop_S tr a i Ea). reflexivity.
Qed.

Lemma tn_run_exists tr pl i :
  (i <= length tr)%nat ->
  run (Net pl (trace_net_trans 0 tr)) {[ i := 1 ]} (drop i (trace_net_trans 0 tr)) {[ length tr := 1 ]}.
Proof.
  intros Hle. remember (length tr - i)%nat as n eqn:En. revert i Hle En.
  induction n as [|n IH]; intros i Hle En.
  - assert (i = length tr) as -> by lia. rewrite trace_net_drop, drop_all. constructor.
  - destruct (tr !! i) as [a|] eqn:Ea; [|apply lookup_ge_None in Ea; lia].
    rewrite trace_net_drop, (drop_S tr a i Ea). cbn [trace_net_trans Nat.add].
    econstructor.
    + apply tn_fires. exists a. split; [exact Ea|]. split; reflexivity.
    + specialize (IH (S i) ltac:(lia) ltac:(lia)). rewrite trace_net_drop in IH. exact IH.
Qed.

Lemma visible_trace_net k tr : visible (trace_net_trans k tr) = tr.
Proof. revert k. induction tr as [|a tr IH]; intros k; cbn; [reflexivity|]. rewrite IH. reflexivity. Qed.

Lemma trace_net_run_unique tr ts :
  let '(net, im, fm) := construct_trace_net tr in
  run net im ts fm <-> ts = n_trans net.
Proof.
  unfold construct_trace_net. cbn [n_trans]. split.
  - intros H. apply (tn_run_inv tr _ _ _ _ H 0%nat); [reflexivity|reflexivity|lia].
  - intros ->. apply (tn_run_exists tr _ 0%nat). lia.
Qed.

Lemma trace_net_accepts tr w :
  let '(net, im, fm) := construct_trace_net tr in accepts net im fm w <-> w = tr.
Proof.
  pose proof (trace_net_run_unique tr) as HU. unfold construct_trace_net in *. unfold accepts. split.
  - intros (ts & Hr & <-). apply HU in Hr as ->. apply visible_trace_net.
  - intros ->. exists (trace_net_trans 0 tr). split; [apply HU; reflexivity|apply visible_trace_net].
Qed.

(** ---- Reachability graph ---- *)
Section Reach.
  Context {L : Type} (pn : petri_net L) (im : marking).
  Hypothesis Hsimple : simple_net pn.
  Hypothesis Him : proper im.

  Lemma reachable_proper m : reachable pn im m -> proper m.
  Proof. intros [ts Hr]. eapply run_proper; eassumption. Qed.

  Lemma enabled_fires m t :
    proper m -> In t (enabled_transitions pn m) <-> exists m', fires pn t m m'.
  Proof.
    intros Hm. unfold enabled_transitions. rewrite filter_In. split.
    - intros [Hin He]. exists (weak_execute t m). apply weak_execute_fires; auto.
      unfold is_enabled in He. rewrite in_trans_in in He by exact Hin. cbn [negb] in He.
      pose proof (proj1 (forallb_arcs m (t_in t)) He) as He2. unfold enabled_at.
      apply (proj1 (enabled_arcs_iff _ _ (proj1 (Hsimple t Hin)) Hm)). exact He2.
    - intros [m' (Hin & He & _)]. split; [exact Hin|].
      unfold is_enabled. rewrite in_trans_in by exact Hin. cbn [negb].
      apply forallb_arcs. apply (proj2 (enabled_arcs_iff _ _ (proj1 (Hsimple t Hin)) Hm)). exact He.
  Qed.

  Lemma enabled_weak m t : proper m -> In t (enabled_transitions pn m) -> fires pn t m (weak_execute t m).
  Proof.
    intros Hm Hin. apply enabled_fires in Hin as [m' Hf]; [|exact Hm].
    pose proof Hf as (Hi & He & _). apply weak_execute_fires; auto.
  Qed.

  Lemma flow_visit_fold m ts st :
    NoDup (rs_inc st) -> (forall x, x ∈ rs_active st -> x ∈ rs_inc st) ->
    exists new,
      rs_inc (fold_left (flow_visit m) ts st) = rs_inc st ++ new /\
      rs_active (fold_left (flow_visit m) ts st) = rev new ++ rs_active st /\
      rs_out (fold_left (flow_visit m) ts st) = rs_out st ++ map (fun t => (m, t, weak_execute t m)) ts /\
      NoDup (rs_inc st ++ new) /\
      (forall t, In t ts -> weak_execute t m ∈ rs_inc st ++ new) /\
      (forall x, x ∈ new -> exists t, In t ts /\ x = @weak_execute L t m).
  Proof.
    revert st. induction ts as [|t ts IH]; intros st Hnd Hsub; cbn [fold_left map].
    - exists []. rewrite !app_nil_r. cbn. repeat split; auto.
      + intros t [].
      + intros x Hx. inversion Hx.
    - unfold flow_visit at 2 4 6.
      destruct (bool_decide (weak_execute t m ∈ rs_inc st)) eqn:Ein.
      + apply bool_decide_eq_true in Ein.
        destruct (IH (Flow (rs_inc st) (rs_out st ++ [(m, t, weak_execute t m)]) (rs_active st)))
          as (new & E1 & E2 & E3 & E4 & E5 & E6); [exact Hnd|exact Hsub|].
        cbn [rs_inc rs_out rs_active] in *. exists new.
        split; [exact E1|]. split; [exact E2|]. split; [rewrite E3, <- app_assoc; reflexivity|].
        split; [exact E4|]. split.
        * intros u [<-|Hu]; [|apply E5, Hu]. apply elem_of_app. left. exact Ein.
        * intros x Hx. destruct (E6 x Hx) as (u & Hu & ->). exists u. split; [right; exact Hu|reflexivity].
      + apply bool_decide_eq_false in Ein.
        rewrite bool_decide_eq_false_2 by (intros H; apply Ein, Hsub, H).
        destruct (IH (Flow (rs_inc st ++ [weak_execute t m]) (rs_out st ++ [(m, t, weak_execute t m)])
                           (weak_execute t m :: rs_active st)))
          as (new & E1 & E2 & E3 & E4 & E5 & E6).
        { cbn [rs_inc]. apply NoDup_app. split; [exact Hnd|]. split.
          - intros x Hx Hx'. apply elem_of_list_singleton in Hx' as ->. contradiction.
          - apply NoDup_singleton. }
        { cbn [rs_inc rs_active]. intros x Hx. apply elem_of_app. apply elem_of_cons in Hx as [->|Hx].
          - right. apply elem_of_list_singleton. reflexivity.
          - left. apply Hsub, Hx. }
        cbn [rs_inc rs_out rs_active] in *. exists (weak_execute t m :: new).
        rewrite <- app_assoc in E1, E4. cbn [app] in E1, E4.
        split; [exact E1|]. split.
        { rewrite E2. cbn [rev]. rewrite <- app_assoc. reflexivity. }
        split; [rewrite E3, <- app_assoc; reflexivity|].
        split; [exact E4|]. split.
        * intros u [<-|Hu].
          -- apply elem_of_app. right. left.
          -- specialize (E5 u Hu). rewrite <- app_assoc in E5. exact E5.
        * intros x Hx. apply elem_of_cons in Hx as [->|Hx].
          -- exists t. split; [left; reflexivity|reflexivity].
          -- destruct (E6 x Hx) as (u & Hu & ->). exists u. split; [right; exact Hu|reflexivity].
  Qed.

  Record FInv (st : flow_state L) : Prop := {
    fi_nd : NoDup (rs_inc st);
    fi_nda : NoDup (rs_active st);
    fi_sub : forall x, x ∈ rs_active st -> x ∈ rs_inc st;
    fi_im : im ∈ rs_inc st;
    fi_reach : forall x, x ∈ rs_inc st -> reachable pn im x;
    fi_done : forall x t x', x ∈ rs_inc st -> ~ x ∈ rs_active st -> fires pn t x x' ->
              (x, t, x') ∈ rs_out st /\ x' ∈ rs_inc st;
    fi_out : forall x t x', (x, t, x') ∈ rs_out st -> x ∈ rs_inc st /\ fires pn t x x'
  }.

  Lemma reachable_step m t m' : reachable pn im m -> fires pn t m m' -> reachable pn im m'.
  Proof.
    intros [ts Hr] Hf. exists (ts ++ [t]). eapply run_app; [exact Hr|]. econstructor; [exact Hf|constructor].
  Qed.

  Lemma finv_step st m rest :
    FInv st -> rs_active st = m :: rest ->
    let st' := fold_left (flow_visit m) (enabled_transitions pn m) (Flow (rs_inc st) (rs_out st) rest) in
    FInv st' /\ (length (rs_inc st') - length (rs_active st') = S (length (rs_inc st) - length (rs_active st)))%nat
    /\ (length (rs_active st) <= length (rs_inc st))%nat.
  Proof.
    intros HI Ea st'. destruct HI as [Hnd Hnda Hsub Hi Hreach Hdone Hout].
    rewrite Ea in Hnda, Hsub. apply NoDup_cons in Hnda as [Hmr Hnda].
    assert (Hm : m ∈ rs_inc st) by (apply Hsub; left).
    assert (Hmp : proper m) by (apply reachable_proper, Hreach, Hm).
    destruct (flow_visit_fold m (enabled_transitions pn m) (Flow (rs_inc st) (rs_out st) rest))
      as (new & E1 & E2 & E3 & E4 & E5 & E6).
    { exact Hnd. }
    { cbn. intros x Hx. apply Hsub. right. exact Hx. }
    fold st' in E1, E2, E3. cbn [rs_inc rs_out rs_active] in *.
    assert (Hle : (length (rs_active st) <= length (rs_inc st))%nat).
    { rewrite Ea. apply submseteq_length. apply NoDup_submseteq.
      - apply NoDup_cons. split; assumption.
      - exact Hsub. }
    split; [|split; [|exact Hle]].
    - constructor.
      + rewrite E1. exact E4.
      + rewrite E2. apply NoDup_app. apply NoDup_app in E4 as (_ & Hdis & Hndn).
        split; [|split; [|exact Hnda]].
        * rewrite rev_alt. rewrite <- reverse_Permutation in Hndn. exact Hndn.
        * intros x Hx Hx'. apply elem_of_list_In, in_rev, elem_of_list_In in Hx.
          apply (Hdis x); [|exact Hx]. apply Hsub. right. exact Hx'.
      + rewrite E1, E2. intros x Hx. apply elem_of_app in Hx as [Hx|Hx]; apply elem_of_app.
        * right. apply elem_of_list_In, in_rev, elem_of_list_In. exact Hx.
        * left. apply Hsub. right. exact Hx.
      + rewrite E1. apply elem_of_app. left. exact Hi.
      + rewrite E1. intros x Hx. apply elem_of_app in Hx as [Hx|Hx]; [apply Hreach, Hx|].
        destruct (E6 x Hx) as (t & Ht & ->). eapply reachable_step; [apply Hreach, Hm|].
        apply enabled_weak; assumption.
      + rewrite E1, E2, E3. intros x t x' Hx Hna Hf.
        apply elem_of_app in Hx as [Hx|Hx].
        * destruct (decide (x = m)) as [->|Hne].
          -- assert (Ht : In t (enabled_transitions pn m)) by (apply enabled_fires; eauto).
             pose proof (enabled_weak m t Hmp Ht) as Hw.
             rewrite (fires_det _ _ _ _ _ Hf Hw). split; [|apply E5, Ht].
             apply elem_of_app. right. apply elem_of_list_In, in_map_iff. exists t. auto.
          -- destruct (Hdone x t x' Hx) as [H1 H2]; [|exact Hf|].
             ++ rewrite Ea. intros Hin. apply elem_of_cons in Hin as [->|Hin]; [contradiction|].
                apply Hna. apply elem_of_app. right. exact Hin.
             ++ split; apply elem_of_app; left; assumption.
        * exfalso. apply Hna. apply elem_of_app. left. apply elem_of_list_In, in_rev. rewrite rev_involutive.
          apply elem_of_list_In. exact Hx.
      + rewrite E1, E3. intros x t x' Hx. apply elem_of_app in Hx as [Hx|Hx].
        * destruct (Hout _ _ _ Hx). split; [apply elem_of_app; left; assumption|assumption].
        * apply elem_of_list_In, in_map_iff in Hx as (u & [= <- <- <-] & Hu).
          split; [apply elem_of_app; left; exact Hm|]. apply enabled_weak; assumption.
    - rewrite E1, E2, Ea, !app_length, rev_length. cbn [length]. rewrite Ea in Hle. cbn [length] in Hle. lia.
  Qed.

  Lemma flow_loop_inv fuel st st' : FInv st -> flow_loop fuel pn st = Some st' -> FInv st' /\ rs_active st' = [].
  Proof.
    revert st. induction fuel as [|fuel IH]; intros st HI H; cbn [flow_loop] in H;
      destruct (rs_active st) as [|m rest] eqn:Ea.
    - injection H as <-. auto.
    - discriminate.
    - injection H as <-. auto.
    - apply (IH _ (proj1 (finv_step st m rest HI Ea)) H).
  Qed.

  Lemma finv_init : FInv (Flow [im] [] [im]).
  Proof.
    constructor; cbn [rs_inc rs_out rs_active].
    - apply NoDup_singleton.
    - apply NoDup_singleton.
    - auto.
    - left.
    - intros x Hx. apply elem_of_list_singleton in Hx as ->. exists []. constructor.
    - intros x t x' Hx Hn. contradiction.
    - intros x t x' Hx. inversion Hx.
  Qed.

  Lemma reachability_graph_exact fuel S E :
    reachability_graph fuel pn im = Some (S, E) ->
    List.NoDup S /\ (forall m, In m S <-> reachable pn im m) /\
    (forall m t m', In (m, t, m') E <-> reachable pn im m /\ fires pn t m m').
  Proof.
    unfold reachability_graph. destruct (flow_loop fuel pn _) as [st|] eqn:EL; [|discriminate].
    intros [= <- <-]. destruct (flow_loop_inv _ _ _ finv_init EL) as [[Hnd _ _ Hi Hreach Hdone Hout] Hact].
    assert (Hclosed : forall m ts m', run pn m ts m' -> m ∈ rs_inc st -> m' ∈ rs_inc st).
    { intros m ts m' Hr. induction Hr as [m|m t m1 ts m2 Hf Hr IH]; intros Hin; [exact Hin|].
      apply IH. apply (Hdone m t m1 Hin); [|exact Hf]. rewrite Hact. intros H. inversion H. }
    split; [apply NoDup_ListNoDup, Hnd|]. split.
    - intros m. rewrite <- elem_of_list_In. split; [apply Hreach|]. intros [ts Hr]. eapply Hclosed; eassumption.
    - intros m t m'. rewrite <- elem_of_list_In. split.
      + intros H. destruct (Hout _ _ _ H). auto.
      + intros [[ts Hr] Hf]. apply Hdone; [eapply Hclosed; eassumption| |exact Hf].
        rewrite Hact. intros H. inversion H.
  Qed.

  Lemma flow_loop_terminates (l : list marking) :
    (forall m, reachable pn im m -> In m l) ->
    forall fuel st, FInv st ->
    (length l <= fuel + (length (rs_inc st) - length (rs_active st)))%nat ->
    flow_loop fuel pn st <> None.
  Proof.
    intros Hl. induction fuel as [|fuel IH]; intros st HI Hf; cbn [flow_loop];
      destruct (rs_active st) as [|m rest] eqn:Ea; try discriminate.
    - exfalso. destruct (finv_step st m rest HI Ea) as (_ & _ & Hle). rewrite Ea in *. cbn [length] in *.
      assert ((length (rs_inc st) <= length l)%nat).
      { apply submseteq_length, NoDup_submseteq; [apply HI|].
        intros x Hx. apply elem_of_list_In, Hl, HI, Hx. }
      lia.
    - destruct (finv_step st m rest HI Ea) as (HI' & Hc & Hle). apply IH; [exact HI'|].
      rewrite Hc, Ea. cbn [length] in *. lia.
  Qed.

  Lemma reachability_graph_terminates (l : list marking) :
    (forall m, reachable pn im m -> In m l) -> exists S E, reachability_graph (length l) pn im = Some (S, E).
  Proof.
    intros Hl. unfold reachability_graph.
    pose proof (flow_loop_terminates l Hl (length l) (Flow [im] [] [im]) finv_init) as H.
    destruct (flow_loop _ _ _) as [st|]; [eauto|]. exfalso. apply H; [|reflexivity]. cbn. lia.
  Qed.
End Reach.
