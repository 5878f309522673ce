(** Proofs: the markings found for a prefix are those of the shortest runs spelling it. *)
From stdpp Require Import gmap.
From Coq Require Import ZArith Lia List.
From Verif Require Import Model_Petri Spec_Petri Proofs_Petri Proofs_Petri2 Model_Align Spec_Align Proofs_Dijkstra
  Proofs_Sync Model_Dict Proofs_Dict Model_Precision Spec_Precision Proofs_Precision1 Proofs_Precision2.
Import ListNotations.
Local Open Scope Z_scope.

Lemma silent_steps_app a b : silent_steps (a ++ b) = silent_steps a + silent_steps b.
Proof. induction a as [|t a IH]; cbn [app silent_steps]; [lia|]. rewrite IH. lia. Qed.

Section Prefix.
  Variables (pn : petri_net (option nat)) (im fm : marking) (trace : list nat).
  Hypothesis Hs : simple_net pn.
  Hypothesis Hu : unit_weights pn.
  Hypothesis Him : proper im.
  Hypothesis Hfm : proper fm.
  Hypothesis Hinp : silent_have_input pn.

  Notation sn := (snet pn trace).
  Notation rn := (rnet sn).
  Notation cost := (fun t : transition slabel => std_cost (t_label t)).
  Notation pos i m := (sync_marking {[ i := 1 ]} m).

  Lemma allowed_upper t : allowed (copy_upper t) = false.
  Proof. reflexivity. Qed.
  Lemma allowed_lower t : allowed (copy_lower t) = true <-> t_label t = None.
  Proof.
    unfold allowed, copy_lower, is_log_move, is_model_move. cbn [t_label fst snd].
    rewrite (bool_decide_eq_true_2 (Skip = Skip)) by reflexivity.
    rewrite (bool_decide_eq_false_2 (Lab (t_label t) = Skip)) by discriminate. cbn [negb andb orb].
    destruct (t_label t) as [a|].
    - rewrite (bool_decide_eq_false_2 (Lab (Some a) = Lab None)) by congruence. cbn. split; congruence.
    - rewrite (bool_decide_eq_true_2 (Lab None = Lab None)) by reflexivity. cbn. split; congruence.
  Qed.
  Lemma allowed_sync t1 t2 : allowed (sync_trans t1 t2) = true.
  Proof. reflexivity. Qed.
  Lemma cost_lower t : t_label t = None -> cost (copy_lower t) = 1.
  Proof. intros E. unfold copy_lower. cbn [t_label]. rewrite E. reflexivity. Qed.
  Lemma cost_sync t1 t2 a : t_label t1 = Some a -> t_label t2 = Some a -> cost (sync_trans t1 t2) = 0.
  Proof. intros E1 E2. unfold sync_trans. cbn [t_label]. rewrite E1, E2. reflexivity. Qed.

  Lemma pos_proper i m : proper m -> proper (pos i m).
  Proof. intros Hm. apply sync_marking_proper; [apply proper_singleton; lia|exact Hm]. Qed.

  (** one step of the restricted product *)
  Lemma rn_step i m T M' : proper m -> fires rn T (pos i m) M' ->
    (exists t m', T = copy_lower t /\ t_label t = None /\ fires pn t m m' /\ M' = pos i m') \/
    (exists a t m', T = sync_trans (tn_trans i a) t /\ trace !! i = Some a /\ t_label t = Some a /\ fires pn t m m' /\
                    M' = pos (S i) m').
  Proof.
    intros Hm Hf. assert (Hal : allowed T = true) by (destruct Hf as [Hin _]; apply rn_in in Hin; apply Hin).
    assert (Hf' : fires sn T (pos i m) M').
    { destruct Hf as (Hin & H). split; [apply rn_in in Hin; apply Hin|exact H]. }
    destruct (prod_step_inv _ _ _ (tn_simple trace) Hs (tn_unit trace) Hu _ _ _ {[ i := 1 ]} m
                (proper_singleton i 1 ltac:(lia)) Hm (sync_marking_side _ _) Hf')
      as (m1' & m2' & P1 & P2 & HS & H).
    assert (PM : proper M') by apply Hf.
    destruct H as [(t & -> & _)|[(t & -> & -> & Hft)|(t1 & t2 & -> & El & Hf1 & Hf2)]].
    - rewrite allowed_upper in Hal. discriminate.
    - left. apply allowed_lower in Hal. exists t, m2'. repeat (split; [assumption || reflexivity|]).
      apply side_unique; assumption.
    - right. apply tn_fires in Hf1 as (a & Ea & -> & ->). exists a, t2, m2'.
      repeat (split; [assumption || reflexivity|]). split; [symmetry; exact El|]. split; [exact Hf2|].
      apply side_unique; assumption.
  Qed.

  Lemma take_snoc (l : list nat) i a : l !! i = Some a -> firstn (S i) l = firstn i l ++ [a].
  Proof.
    revert i. induction l as [|b l IH]; intros [|i]; cbn; try discriminate; [intros [= ->]; reflexivity|].
    intros H. f_equal. apply IH, H.
  Qed.

  Lemma rn_run_inv Ts M : run rn (sim im) Ts M ->
    exists i ts m, (i <= length trace)%nat /\ M = pos i m /\ run pn im ts m /\ visible ts = firstn i trace /\
      silent_steps ts = run_cost cost Ts.
  Proof.
    revert M. induction Ts as [|T Ts IH] using rev_ind; intros M Hr.
    - inversion Hr; subst. exists 0%nat, [], im. repeat split; [lia|constructor].
    - apply run_app_inv in Hr as (M1 & Hr1 & Hr2). inversion Hr2 as [|? ? M2 ? ? Hf Hr3]; subst.
      inversion Hr3; subst. destruct (IH _ Hr1) as (i & ts & m & Hi & -> & Hr & Hv & Hc).
      assert (Hm : proper m) by (eapply run_proper; [exact Him|exact Hr]).
      assert (Hrun : forall t m', fires pn t m m' -> run pn im (ts ++ [t]) m').
      { intros t m' Hft. eapply run_app; [exact Hr|]. econstructor; [exact Hft|constructor]. }
      destruct (rn_step _ _ _ _ Hm Hf) as [(t & m' & -> & El & Hft & ->)|(a & t & m' & -> & Ea & El & Hft & ->)].
      + exists i, (ts ++ [t]), m'. split; [exact Hi|]. split; [reflexivity|]. split; [apply Hrun, Hft|].
        split; [rewrite visible_app, Hv; cbn; rewrite El; apply app_nil_r|].
        rewrite silent_steps_app, Hc, rcost_app. cbn [silent_steps run_cost]. rewrite El, cost_lower by exact El. lia.
      + exists (S i), (ts ++ [t]), m'. split; [apply lookup_lt_Some in Ea; exact Ea|]. split; [reflexivity|].
        split; [apply Hrun, Hft|].
        split; [rewrite visible_app, Hv, (take_snoc _ _ _ Ea); cbn; rewrite El; reflexivity|].
        rewrite silent_steps_app, Hc, rcost_app. cbn [silent_steps run_cost].
        rewrite El, (cost_sync (tn_trans i a) t a eq_refl El). lia.
  Qed.

  Lemma rn_run_exists ts m : run pn im ts m -> forall i, (i <= length trace)%nat -> visible ts = firstn i trace ->
    exists Ts, run rn (sim im) Ts (pos i m) /\ run_cost cost Ts = silent_steps ts.
  Proof.
    revert m. induction ts as [|t ts IH] using rev_ind; intros m Hr i Hi Hv.
    - inversion Hr; subst. destruct i; [|destruct trace; [cbn in Hi; lia|discriminate]].
      exists []. split; [constructor|reflexivity].
    - apply run_app_inv in Hr as (m1 & Hr1 & Hr2). inversion Hr2 as [|? ? m2 ? ? Hf Hr3]; subst.
      inversion Hr3; subst. rewrite visible_app in Hv. cbn [visible] in Hv.
      assert (Hm1 : proper m1) by (eapply run_proper; [exact Him|exact Hr1]).
      assert (Hm : proper m) by apply Hf.
      destruct (t_label t) as [a|] eqn:El.
      + destruct i as [|i]; [cbn in Hv; destruct (visible ts); discriminate|].
        destruct (trace !! i) as [b|] eqn:Eb; [|apply lookup_ge_None in Eb; lia].
        rewrite (take_snoc _ _ _ Eb) in Hv. apply app_inj_tail in Hv as [Hv ->].
        destruct (IH _ Hr1 i ltac:(lia) Hv) as (Ts & HT & HC).
        assert (Hfi : fires sn (sync_trans (tn_trans i b) t) (pos i m1) (pos (S i) m)).
        { apply (prod_step_sync _ _ _ (tn_unit trace) Hu _ {[ i := 1 ]} m1); auto.
          - apply sync_marking_side.
          - apply proper_singleton. lia.
          - apply tn_fires. exists b. auto. }
        exists (Ts ++ [sync_trans (tn_trans i b) t]). split.
        * eapply run_app; [exact HT|]. econstructor; [|constructor].
          destruct Hfi as [Hin Hrest]. split; [apply rn_in; split; [exact Hin|apply allowed_sync]|exact Hrest].
        * rewrite rcost_app, HC, silent_steps_app. cbn [run_cost silent_steps].
          rewrite El, (cost_sync (tn_trans i b) t b eq_refl El). lia.
      + rewrite app_nil_r in Hv. destruct (IH _ Hr1 i Hi Hv) as (Ts & HT & HC).
        assert (Hfi : fires sn (copy_lower t) (pos i m1) (pos i m)).
        { apply (prod_step_lower _ _ _ Hu _ {[ i := 1 ]} m1); auto.
          - apply sync_marking_side.
          - apply proper_singleton. lia. }
        exists (Ts ++ [copy_lower t]). split.
        * eapply run_app; [exact HT|]. econstructor; [|constructor].
          destruct Hfi as [Hin Hrest]. split; [apply rn_in; split; [exact Hin|apply allowed_lower, El]|exact Hrest].
        * rewrite rcost_app, HC, silent_steps_app. cbn [run_cost silent_steps]. rewrite El, cost_lower by exact El. lia.
  Qed.

  (** ---- the stop marking ---- *)
  Lemma fold_even_lookup (l : list (nat * Z)) (acc : marking) n :
    (forall k v v', In (k, v) l -> In (k, v') l -> v = v') ->
    fold_left (fun acc kv => if Nat.even kv.1 then <[kv.1 := kv.2]> acc else acc) l acc !! n
    = if Nat.even n then match List.find (fun kv => Nat.eqb kv.1 n) l with Some kv => Some kv.2 | None => acc !! n end
      else acc !! n.
  Proof.
    revert acc. induction l as [|[k v] l IH]; intros acc Hd; cbn [fold_left List.find fst snd].
    - destruct (Nat.even n); reflexivity.
    - rewrite IH by (intros k0 v0 v1 A B; eapply Hd; right; eassumption).
      destruct (Nat.even n) eqn:En.
      + destruct (Nat.eqb_spec k n) as [->|Hne].
        * rewrite En. destruct (List.find _ l) as [[k' v']|] eqn:Ef; [|apply lookup_insert].
          apply find_some in Ef as [Hin E]. cbn in E. apply Nat.eqb_eq in E. subst k'. cbn. f_equal.
          eapply (Hd n); [right; exact Hin|left; reflexivity].
        * destruct (List.find _ l) as [[k' v']|]; [reflexivity|]. destruct (Nat.even k); [|reflexivity].
          apply lookup_insert_ne. exact Hne.
      + destruct (Nat.even k) eqn:Ek; [|reflexivity]. apply lookup_insert_ne. congruence.
  Qed.
  Lemma map_to_list_func (m : marking) k v v' : In (k, v) (map_to_list m) -> In (k, v') (map_to_list m) -> v = v'.
  Proof.
    intros A B. apply elem_of_list_In, elem_of_map_to_list in A. apply elem_of_list_In, elem_of_map_to_list in B.
    congruence.
  Qed.
  Lemma find_map_to_list (m : marking) n :
    match List.find (fun kv : nat * Z => Nat.eqb kv.1 n) (map_to_list m) with Some kv => Some kv.2 | None => None end = m !! n.
  Proof.
    destruct (List.find _ _) as [[k v]|] eqn:E.
    - apply find_some in E as [Hin E]. cbn in E. apply Nat.eqb_eq in E. subst k.
      apply elem_of_list_In, elem_of_map_to_list in Hin. cbn. congruence.
    - destruct (m !! n) as [v|] eqn:En; [|reflexivity].
      apply elem_of_map_to_list in En. apply elem_of_list_In in En.
      pose proof (find_none _ _ E _ En) as H. cbn in H. rewrite Nat.eqb_refl in H. discriminate.
  Qed.

  Lemma even_p1 p : Nat.even (p1_map p) = true.
  Proof. unfold p1_map. rewrite Nat.even_mul. reflexivity. Qed.
  Lemma even_p2 p : Nat.even (p2_map p) = false.
  Proof. unfold p2_map. rewrite Nat.even_add, Nat.even_mul. reflexivity. Qed.

  Lemma stop_marking_eq : stop_marking (sfm fm trace) = {[ p1_map (length trace) := 1 ]}.
  Proof.
    apply map_eq. intros n. unfold stop_marking. rewrite fold_even_lookup by apply map_to_list_func.
    rewrite lookup_empty, find_map_to_list.
    destruct (place_cases n) as [[p ->]|[p ->]].
    - rewrite even_p1. unfold sfm. rewrite sync_marking_lookup1.
      destruct (Nat.eq_dec (length trace) p) as [->|Hne].
      + rewrite !lookup_singleton. reflexivity.
      + rewrite !lookup_singleton_ne; auto. intros E. apply p1_inj in E. contradiction.
    - rewrite even_p2. rewrite lookup_singleton_ne; [reflexivity|]. apply p12_ne.
  Qed.

  Lemma stop_iff i m : proper m -> m_leb (stop_marking (sfm fm trace)) (pos i m) = true <-> i = length trace.
  Proof.
    intros Hm. rewrite stop_marking_eq, m_leb_iff.
    - split.
      + intros H. specialize (H (p1_map (length trace))). rewrite tokens_singleton, Nat.eqb_refl in H.
        rewrite (proj1 (sync_marking_side {[ i := 1 ]} m (length trace))), tokens_singleton in H.
        destruct (Nat.eqb_spec i (length trace)); [assumption|lia].
      + intros -> p. rewrite tokens_singleton. destruct (Nat.eqb_spec (p1_map (length trace)) p) as [<-|].
        * rewrite (proj1 (sync_marking_side _ m (length trace))), tokens_singleton, Nat.eqb_refl. lia.
        * apply proper_nonneg, pos_proper, Hm.
    - apply proper_singleton. lia.
    - apply pos_proper, Hm.
  Qed.

  (** ---- back to the original net ---- *)
  Lemma original_pos i m : original_marking (pos i m) = m.
  Proof.
    apply map_eq. intros p. unfold original_marking.
    assert (G : forall (l : list (nat * Z)) (acc : marking),
      (forall k v v', In (k, v) l -> In (k, v') l -> v = v') ->
      fold_left (fun acc kv => if Nat.even kv.1 then acc else <[(kv.1 / 2)%nat := kv.2]> acc) l acc !! p
      = match List.find (fun kv => Nat.eqb kv.1 (p2_map p)) l with Some kv => Some kv.2 | None => acc !! p end).
    { induction l as [|[k v] l IH]; intros acc Hd; cbn [fold_left List.find fst snd]; [reflexivity|].
      rewrite IH by (intros k0 v0 v1 A B; eapply Hd; right; eassumption).
      destruct (Nat.eqb_spec k (p2_map p)) as [->|Hne].
      - rewrite even_p2. destruct (List.find _ l) as [[k' v']|] eqn:Ef.
        + apply find_some in Ef as [Hin E]. cbn in E. apply Nat.eqb_eq in E. subst k'. cbn. f_equal.
          eapply (Hd (p2_map p)); [right; exact Hin|left; reflexivity].
        + replace (p2_map p / 2)%nat with p; [apply lookup_insert|].
          unfold p2_map. rewrite Nat.add_comm, Nat.mul_comm, Nat.div_add by lia. reflexivity.
      - destruct (List.find _ l) as [[k' v']|]; [reflexivity|].
        destruct (place_cases k) as [[q ->]|[q ->]]; [rewrite even_p1; reflexivity|]. rewrite even_p2.
        apply lookup_insert_ne. intros E. apply Hne. f_equal. rewrite <- E.
        unfold p2_map. rewrite Nat.add_comm, Nat.mul_comm, Nat.div_add by lia. reflexivity. }
    rewrite G by apply map_to_list_func. rewrite lookup_empty, find_map_to_list. apply sync_marking_lookup2.
  Qed.

  (** ---- the search on the product ---- *)
  Lemma rn_inputs t : In t (n_trans rn) -> t_in t <> [].
  Proof.
    intros Ht. apply rn_in in Ht as [Ht Ha]. apply prod_in in Ht as [(u & _ & ->)|[(u & Hu' & ->)|(u1 & u2 & H1 & _ & _ & ->)]].
    - rewrite allowed_upper in Ha. discriminate.
    - apply allowed_lower in Ha. pose proof (Hinp u Hu' Ha) as Hne. unfold copy_lower, copy_arcs. cbn [t_in].
      destruct (t_in u); [congruence|discriminate].
    - cbn [n_trans tnet] in H1. apply trace_net_in_iff in H1 as (i & a & _ & ->). discriminate.
  Qed.
  Lemma rn_leave M t M' : reachable rn (sim im) M -> m_leb (stop_marking (sfm fm trace)) M = true ->
    fires rn t M M' -> 0 < cost t.
  Proof.
    intros [Ts Hr] Hst Hf. apply rn_run_inv in Hr as (i & ts & m & Hi & -> & Hr & _).
    assert (Hm : proper m) by (eapply run_proper; [exact Him|exact Hr]).
    apply stop_iff in Hst; [|exact Hm]. subst i.
    destruct (rn_step _ _ _ _ Hm Hf) as [(u & m' & -> & El & _)|(a & u & m' & _ & Ea & _)].
    - rewrite cost_lower by exact El. lia.
    - apply lookup_lt_Some in Ea. lia.
  Qed.

  Lemma prefix_markings_unfold fuel : prefix_markings fuel trace pn im fm
    = prefix_loop fuel sn (stop_marking (sfm fm trace)) cost [] [DNode 0 (sim im) [] 0] None.
  Proof. reflexivity. Qed.

  Lemma firstn_length_all : firstn (length trace) trace = trace.
  Proof. apply firstn_all. Qed.

  Theorem prefix_markings_correct fuel r : prefix_markings fuel trace pn im fm = Some r ->
    match r with
    | None => forall m k, ~ spells pn im trace m k
    | Some ms => ms <> [] /\ forall m, In m (map original_marking ms) <-> shortest pn im trace m
    end.
  Proof.
    rewrite prefix_markings_unfold. intros H.
    assert (HP : presult sn (sim im) (stop_marking (sfm fm trace)) cost r).
    { eapply (prefix_loop_correct sn (sim im) (stop_marking (sfm fm trace)) cost) with (cd := []); [..|exact H].
      - apply (prod_simple _ _ _ (tn_simple trace) Hs).
      - apply pos_proper, Him.
      - intros t _. apply std_cost_nonneg.
      - apply rn_inputs.
      - apply rn_leave.
      - apply pinv_init. }
    assert (Hfw : forall m k, spells pn im trace m k -> exists Ts, run rn (sim im) Ts (pos (length trace) m) /\ run_cost cost Ts = k).
    { intros m k (ts & Hr & Hv & <-). apply rn_run_exists; [exact Hr|lia|]. rewrite firstn_all. exact Hv. }
    assert (Hbw : forall Ts M, run rn (sim im) Ts M -> m_leb (stop_marking (sfm fm trace)) M = true ->
               exists m, M = pos (length trace) m /\ spells pn im trace m (run_cost cost Ts)).
    { intros Ts M HT Hst. destruct (rn_run_inv _ _ HT) as (i & ts & m & Hi & -> & Hr & Hv & Hc).
      assert (Hm : proper m) by (eapply run_proper; [exact Him|exact Hr]).
      apply stop_iff in Hst; [|exact Hm]. subst i. exists m. split; [reflexivity|]. exists ts.
      rewrite firstn_all in Hv. auto. }
    assert (Hspm : forall m k, spells pn im trace m k -> proper m).
    { intros m k (ts & Hr & _). eapply run_proper; [exact Him|exact Hr]. }
    destruct r as [ms|]; cbn [presult] in HP.
    - destruct HP as (Hne & c & Hmin & Hms). split; [destruct Hne as [m Hm]; intros ->; destruct Hm|].
      intros m. rewrite in_map_iff. split.
      + intros (M & <- & HM). apply Hms in HM as (Hst & Ts & HT & Hc).
        destruct (Hbw _ _ HT Hst) as (m & -> & Hsp). rewrite original_pos. exists c. rewrite Hc in Hsp. split; [exact Hsp|].
        intros m' k' Hsp'. destruct (Hfw _ _ Hsp') as (Ts' & HT' & <-).
        apply (Hmin _ _ HT'). apply stop_iff; [eapply Hspm; eassumption|reflexivity].
      + intros (k & Hsp & Hk). exists (pos (length trace) m). split; [apply original_pos|].
        apply Hms. destruct (Hfw _ _ Hsp) as (Ts & HT & HC).
        assert (Hst : m_leb (stop_marking (sfm fm trace)) (pos (length trace) m) = true)
          by (apply stop_iff; [eapply Hspm; eassumption|reflexivity]).
        split; [exact Hst|]. exists Ts. split; [exact HT|].
        pose proof (Hmin _ _ HT Hst) as Hle.
        destruct Hne as [M0 HM0]. destruct (proj1 (Hms M0) HM0) as (Hst0 & Ts0 & HT0 & Hc0).
        destruct (Hbw _ _ HT0 Hst0) as (m0 & _ & Hsp0). specialize (Hk _ _ Hsp0). lia.
    - intros m k Hsp. destruct (Hfw _ _ Hsp) as (Ts & HT & _). pose proof (HP _ _ HT) as Hf.
      assert (Hst : m_leb (stop_marking (sfm fm trace)) (pos (length trace) m) = true)
        by (apply stop_iff; [eapply Hspm; eassumption|reflexivity]).
      congruence.
  Qed.

  Theorem prefix_markings_terminates (l : list marking) :
    (forall m, reachable pn im m -> In m l) -> exists fuel, prefix_markings fuel trace pn im fm <> None.
  Proof.
    intros Hl.
    set (L := flat_map (fun i => map (fun m => pos i m) l) (seq 0 (S (length trace)))).
    exists (1 + length L * length (n_trans sn))%nat. rewrite prefix_markings_unfold.
    apply (prefix_loop_terminates sn (sim im) (stop_marking (sfm fm trace)) cost) with (l := L) (cd := []).
    - apply (prod_simple _ _ _ (tn_simple trace) Hs).
    - apply pos_proper, Him.
    - intros t _. apply std_cost_nonneg.
    - apply rn_inputs.
    - intros M [Ts HT]. destruct (rn_run_inv _ _ HT) as (i & ts & m & Hi & -> & Hr & _).
      apply in_flat_map. exists i. split; [apply in_seq; lia|].
      apply in_map_iff. exists m. split; [reflexivity|]. apply Hl. exists ts. exact Hr.
    - apply pinv_init.
    - constructor.
    - intros m [].
    - cbn [length]. rewrite Nat.sub_0_r. generalize (length L * length (n_trans sn))%nat. lia.
  Qed.
End Prefix.
