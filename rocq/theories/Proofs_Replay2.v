(** Invariants of token-based replay. *)
From stdpp Require Import gmap.
From Coq Require Import ZArith QArith Lia.
From Verif Require Import Model_Petri Spec_Petri Proofs_Petri Model_Lev Proofs_Lev Model_Dict Proofs_Dict Model_Replay Spec_Replay Proofs_Replay1.
Local Open Scope Z_scope.

(** a silent transition of the net *)
Definition hid (pn : petri_net (option nat)) (t : ptrans) : Prop := In t (n_trans pn) /\ t_label t = None.
Definition paths_ok (pn : petri_net (option nat)) (paths : dict nat (dict nat (list ptrans))) : Prop :=
  forall p d q g, d_get paths p = Some d -> d_get d q = Some g -> List.Forall (hid pn) g.

Lemma visible_app ts us : visible (ts ++ us) = visible ts ++ visible us.
Proof. induction ts as [|t ts IH]; cbn; [reflexivity|]. rewrite IH. destruct (t_label t); reflexivity. Qed.
Lemma visible_hidden pn ts : List.Forall (hid pn) ts -> visible ts = [].
Proof. induction 1 as [|t ts [_ Ht] _ IH]; cbn; [reflexivity|]. rewrite Ht. exact IH. Qed.

Section R.
  Context (pn : petri_net (option nat)) (lim : limits).
  Context (tord aord : list ptrans -> list ptrans) (pord kord : list nat -> list nat).
  Context (paths : dict nat (dict nat (list ptrans))).
  Hypothesis Hs : simple_net pn.
  Hypothesis Htord : forall l, Permutation (tord l) l.
  Hypothesis Hpaths : paths_ok pn paths.

  Lemma en_iff t m : In t (n_trans pn) -> proper m -> is_enabled t pn m = true <-> enabled_at t m.
  Proof.
    intros Hin Hm. unfold is_enabled, enabled_at. rewrite in_trans_in by exact Hin. cbn [negb].
    rewrite forallb_arcs. apply enabled_arcs_iff; [apply (Hs t Hin)|exact Hm].
  Qed.
  Lemma exec_fires t m : In t (n_trans pn) -> proper m -> is_enabled t pn m = true -> fires pn t m (exec pn t m).
  Proof.
    intros Hin Hm He. pose proof (proj1 (en_iff t m Hin Hm) He) as Ha. unfold exec, execute. rewrite He. cbn [negb].
    repeat split; [exact Hin|exact Ha|apply fired_proper; [apply Hs, Hin|exact Hm|exact Ha]|].
    intros p. apply fired_marking.
  Qed.

  Lemma path_lookup_ok p q g : path_lookup paths p q = Some g -> List.Forall (hid pn) g.
  Proof.
    unfold path_lookup. destruct (d_get paths p) as [d|] eqn:E; [|discriminate]. intros H. exact (Hpaths p d q g E H).
  Qed.
  Lemma groups_ok m targets : List.Forall (List.Forall (hid pn)) (hidden_groups pord paths m targets).
  Proof.
    apply Forall_forall. intros g Hg. apply elem_of_list_In in Hg. unfold hidden_groups in Hg.
    apply (Permutation_in _ (Permutation_sym (sorted_by_perm _ _))) in Hg.
    apply in_concat in Hg as [l [Hl Hg]]. apply in_map_iff in Hl as [p1 [<- _]].
    apply in_concat in Hg as [l [Hl Hg]]. apply in_map_iff in Hl as [p2 [<- _]].
    destruct (path_lookup paths p1 p2) as [g'|] eqn:E; [|destruct Hg].
    destruct Hg as [<-|[]]. exact (path_lookup_ok p1 p2 _ E).
  Qed.
  Lemma connections_ok m sink : List.Forall (List.Forall (hid pn)) (connections kord paths m sink).
  Proof.
    apply Forall_forall. intros g Hg. apply elem_of_list_In in Hg. unfold connections in Hg.
    apply (Permutation_in _ (Permutation_sym (sorted_by_perm _ _))) in Hg.
    apply in_concat in Hg as [l [Hl Hg]]. apply in_map_iff in Hl as [p1 [<- _]].
    destruct (path_lookup paths p1 sink) as [g'|] eqn:E; [|destruct Hg].
    destruct Hg as [<-|[]]. exact (path_lookup_ok p1 sink _ E).
  Qed.
  Lemma Forall_concat_hid gs : List.Forall (List.Forall (hid pn)) gs -> List.Forall (hid pn) (concat gs).
  Proof. induction 1; cbn; [constructor|]. apply Forall_app_2; assumption. Qed.

  (** The search through hidden transitions only fires enabled silent transitions. *)
  Definition hsteps (s s' : hstate) : Prop :=
    exists new, h_act s' = h_act s ++ new /\ run pn (h_mark s) new (h_mark s') /\ List.Forall (hid pn) new.
  Lemma hsteps_refl s : hsteps s s.
  Proof. exists []. rewrite app_nil_r. repeat split; constructor. Qed.
  Lemma hsteps_vis s vis : hsteps s (HState (h_mark s) (h_act s) vis).
  Proof. exists []. cbn. rewrite app_nil_r. repeat split; constructor. Qed.
  Lemma hsteps_trans a b c : hsteps a b -> hsteps b c -> hsteps a c.
  Proof.
    intros [n1 (E1 & R1 & F1)] [n2 (E2 & R2 & F2)]. exists (n1 ++ n2).
    rewrite E2, E1, <- app_assoc. split; [reflexivity|].
    split; [eapply run_app; eassumption|apply Forall_app_2; assumption].
  Qed.
  Lemma hsteps_proper s s' : proper (h_mark s) -> hsteps s s' -> proper (h_mark s').
  Proof. intros H [n (_ & R & _)]. eapply run_proper; eassumption. Qed.
  Lemma h_fire_steps t s : hid pn t -> proper (h_mark s) -> is_enabled t pn (h_mark s) = true -> hsteps s (h_fire pn t s).
  Proof.
    intros Ht Hm He. exists [t]. cbn. split; [reflexivity|]. split; [|repeat constructor; apply Ht].
    econstructor; [apply exec_fires; [apply Ht|exact Hm|exact He]|constructor].
  Qed.

  Lemma eh_group_ok t g : List.Forall (hid pn) g -> forall s, proper (h_mark s) ->
    let '(s', g', _) := eh_group pn t g s in hsteps s s' /\ List.Forall (hid pn) g'.
  Proof.
    induction 1 as [|t3 g H3 Hg IH]; intros s Hm; cbn [eh_group].
    - split; [apply hsteps_refl|constructor].
    - set (f := negb (same_trans t3 t) && is_enabled t3 pn (h_mark s) && negb (visited t3 s)).
      assert (H1 : hsteps s (if f then h_fire pn t3 s else s)).
      { destruct f eqn:Ef; [|apply hsteps_refl]. apply h_fire_steps; [exact H3|exact Hm|].
        unfold f in Ef. destruct (is_enabled t3 pn (h_mark s)); [reflexivity|].
        rewrite andb_false_r in Ef. discriminate. }
      set (s1 := if f then h_fire pn t3 s else s) in *.
      assert (Hm1 : proper (h_mark s1)) by (eapply hsteps_proper; eassumption).
      destruct (is_enabled t pn (h_mark s1)); [split; assumption|].
      specialize (IH s1 Hm1). destruct (eh_group pn t g s1) as [[s2 g2] ch]. destruct IH as [H2 Hg2].
      split; [eapply hsteps_trans; eassumption|exact Hg2].
  Qed.
  Lemma eh_loop_ok r t : forall gs s, List.Forall (List.Forall (hid pn)) gs -> proper (h_mark s) -> hsteps s (eh_loop pn r t gs s).
  Proof.
    induction r as [|r IH]; intros gs s Hg Hm; cbn [eh_loop]; [destruct gs; apply hsteps_refl|].
    destruct Hg as [|g gs H1 Hg]; [apply hsteps_refl|].
    pose proof (eh_group_ok t g H1 s Hm) as H. destruct (eh_group pn t g s) as [[s1 g1] ch]. destruct H as [Hst Hg1].
    destruct (is_enabled t pn (h_mark s1)); [exact Hst|]. destruct ch; [|exact Hst].
    eapply hsteps_trans; [exact Hst|]. apply IH; [|eapply hsteps_proper; eassumption].
    apply Forall_app_2; [exact Hg|repeat constructor; exact Hg1].
  Qed.
  Lemma apply_hidden_ok d : forall t s, proper (h_mark s) -> hsteps s (apply_hidden pn lim pord paths d t s).
  Proof.
    induction d as [|d IH]; intros t s Hm; cbn [apply_hidden]; [apply hsteps_refl|].
    destruct (visited t s); [apply hsteps_refl|].
    set (wanted := places_with_missing t (h_mark s)).
    pose proof (groups_ok (h_mark s) wanted) as Hg.
    destruct (hidden_groups pord paths (h_mark s) wanted) as [|g0 gs0]; [apply hsteps_vis|].
    set (s0 := HState (h_mark s) (h_act s) (t :: h_vis s)).
    set (s1 := eh_loop pn (l_rounds lim) t (g0 :: gs0) s0).
    assert (H1 : hsteps s s1).
    { eapply hsteps_trans; [apply (hsteps_vis s (t :: h_vis s))|]. apply eh_loop_ok; [exact Hg|exact Hm]. }
    assert (Hm1 : proper (h_mark s1)) by (eapply hsteps_proper; eassumption).
    set (fo := fun s t4 => if negb (same_trans t4 t) && negb (visited t4 s) then
              let s' := if is_enabled t4 pn (h_mark s) then s else apply_hidden pn lim pord paths d t4 s in
              if is_enabled t4 pn (h_mark s') then h_fire pn t4 s' else s'
            else s).
    assert (Hfo : forall l, List.Forall (hid pn) l -> forall s, proper (h_mark s) -> hsteps s (fold_left fo l s)).
    { clear - IH Hs. induction 1 as [|t4 l H4 Hl IHl]; intros s Hm; cbn [fold_left]; [apply hsteps_refl|].
      assert (H1 : hsteps s (fo s t4)).
      { unfold fo. destruct (negb (same_trans t4 t) && negb (visited t4 s)); [|apply hsteps_refl]. cbn zeta.
        assert (Ha : hsteps s (if is_enabled t4 pn (h_mark s) then s else apply_hidden pn lim pord paths d t4 s)).
        { destruct (is_enabled t4 pn (h_mark s)); [apply hsteps_refl|apply IH, Hm]. }
        set (s' := if is_enabled t4 pn (h_mark s) then s else apply_hidden pn lim pord paths d t4 s) in *.
        destruct (is_enabled t4 pn (h_mark s')) eqn:E; [|exact Ha].
        eapply hsteps_trans; [exact Ha|]. apply h_fire_steps; [exact H4|eapply hsteps_proper; eassumption|exact E]. }
      eapply hsteps_trans; [exact H1|]. apply IHl. eapply hsteps_proper; eassumption. }
    set (s2 := if is_enabled t pn (h_mark s1) then s1 else fold_left fo (concat (hidden_groups pord paths (h_mark s1) wanted)) s1).
    assert (H2 : hsteps s s2).
    { unfold s2. destruct (is_enabled t pn (h_mark s1)); [exact H1|].
      eapply hsteps_trans; [exact H1|]. apply Hfo; [|exact Hm1]. apply Forall_concat_hid, groups_ok. }
    change (hsteps s (if is_enabled t pn (h_mark s2) then s2
      else if m_eqb (h_mark s) (h_mark s2) then s2 else apply_hidden pn lim pord paths d t s2)).
    destruct (is_enabled t pn (h_mark s2)); [exact H2|]. destruct (m_eqb (h_mark s) (h_mark s2)); [exact H2|].
    eapply hsteps_trans; [exact H2|]. apply IH. exact (hsteps_proper s s2 Hm H2).
  Qed.

  (** choice of the transition *)
  Lemma choose_some a m t : choose pn tord a m = Some t -> In t (n_trans pn) /\ t_label t = Some a.
  Proof.
    unfold choose. destruct (trans_map pn tord a) as [t0|] eqn:E0; [|discriminate].
    assert (Hl : forall u, labelled a u = true -> t_label u = Some a).
    { intros u. unfold labelled. destruct (t_label u) as [b|]; [|discriminate].
      destruct (Nat.eqb_spec b a) as [->|]; [reflexivity|discriminate]. }
    destruct (List.filter (labelled a) (tord (enabled_transitions pn m))) as [|u us] eqn:E; intros [= <-].
    - unfold trans_map in E0. apply List.find_some in E0 as [Hin H0]. split; [|apply Hl, H0].
      apply in_rev in Hin. exact (Permutation_in _ (Htord _) Hin).
    - assert (Hin : In u (List.filter (labelled a) (tord (enabled_transitions pn m)))) by (rewrite E; left; reflexivity).
      apply filter_In in Hin as [Hin H0]. split; [|apply Hl, H0].
      apply (Permutation_in _ (Htord _)) in Hin. apply filter_In in Hin. apply Hin.
  Qed.
  Lemma choose_none a m : choose pn tord a m = None -> ~ known pn a.
  Proof.
    unfold choose. destruct (trans_map pn tord a) as [t0|] eqn:E0.
    - destruct (List.filter _ _); discriminate.
    - intros _ [t [Hin Hl]]. unfold trans_map in E0.
      assert (H : labelled a t = false).
      { apply (List.find_none _ _ E0 t). rewrite <- in_rev. exact (Permutation_in _ (Permutation_sym (Htord _)) Hin). }
      unfold labelled in H. rewrite Hl, Nat.eqb_refl in H. discriminate.
  Qed.
  Lemma choose_enabled a m t : In t (n_trans pn) -> t_label t = Some a -> is_enabled t pn m = true ->
    exists u, choose pn tord a m = Some u /\ is_enabled u pn m = true.
  Proof.
    intros Hin Hl He. destruct (choose pn tord a m) as [u|] eqn:E.
    - exists u. split; [reflexivity|]. unfold choose in E. destruct (trans_map pn tord a); [|discriminate].
      destruct (List.filter (labelled a) (tord (enabled_transitions pn m))) as [|v vs] eqn:F.
      + exfalso. assert (H : In t []).
        { rewrite <- F. apply filter_In. split; [|unfold labelled; rewrite Hl; apply Nat.eqb_refl].
          apply (Permutation_in _ (Permutation_sym (Htord _))). apply filter_In. auto. }
        destruct H.
      + injection E as <-. assert (H : In v (List.filter (labelled a) (tord (enabled_transitions pn m)))) by (rewrite F; left; reflexivity).
        apply filter_In in H as [H _]. apply (Permutation_in _ (Htord _)) in H. apply filter_In in H. apply H.
    - exfalso. apply (choose_none _ _ E). exists t. auto.
  Qed.

  (** the replay of one trace *)
  Context (occ : Z) (im : marking) (bc bp bm br : marking).
  Definition act_in (s : rstate) : Z := zsum (fun t => arcs_total (t_in t)) (s_act s).
  Definition act_out (s : rstate) : Z := zsum (fun t => arcs_total (t_out t)) (s_act s).
  Definition pl_in (s : rstate) (p : nat) : Z := zsum (fun t => weight (t_in t) p) (s_act s).
  Definition pl_out (s : rstate) (p : nat) : Z := zsum (fun t => weight (t_out t) p) (s_act s).
  Record inv (s : rstate) : Prop := {
    i_proper : proper (s_mark s);
    i_net : List.Forall (fun t => In t (n_trans pn)) (s_act s);
    i_cons : s_consumed s = act_in s;
    i_prod : s_produced s = total im + act_out s;
    i_miss0 : 0 <= s_missing s;
    i_miss : s_missing s <= total (s_mark s) + s_consumed s - s_produced s;
    i_tot : total (s_mark s) <= s_produced s;
    i_unit : unit_weights pn -> s_missing s = total (s_mark s) + s_consumed s - s_produced s;
    i_pc : forall p, tokens (s_pc s) p = tokens bc p + pl_in s p * occ;
    i_pp : forall p, tokens (s_pp s) p = tokens bp p + pl_out s p * occ;
    i_pm : unit_weights pn -> forall p, tokens (s_mark s) p = tokens im p + pl_out s p - pl_in s p + (tokens (s_pm s) p - tokens bm p);
    i_pm0 : forall p, tokens bm p <= tokens (s_pm s) p;
    i_pr : s_pr s = br;
    i_run : s_missing s = 0 -> run pn im (s_act s) (s_mark s) }.

  Lemma count_fold ts : forall s,
    let s' := fold_left (fun s u => count occ u s) ts s in
    s_mark s' = s_mark s /\ s_act s' = s_act s /\ s_prob s' = s_prob s /\ s_missing s' = s_missing s /\
    s_consumed s' = s_consumed s + zsum (fun t => arcs_total (t_in t)) ts /\
    s_produced s' = s_produced s + zsum (fun t => arcs_total (t_out t)) ts /\
    s_pm s' = s_pm s /\ s_pr s' = s_pr s /\
    (List.Forall (fun t => In t (n_trans pn)) ts ->
      (forall p, tokens (s_pc s') p = tokens (s_pc s) p + zsum (fun t => weight (t_in t) p) ts * occ) /\
      (forall p, tokens (s_pp s') p = tokens (s_pp s) p + zsum (fun t => weight (t_out t) p) ts * occ)).
  Proof.
    induction ts as [|t ts IH]; intros s; cbn [fold_left zsum].
    - cbn zeta. repeat split; try lia; intros; lia.
    - specialize (IH (count occ t s)). cbn zeta in *.
      set (s' := fold_left (fun s u => count occ u s) ts (count occ t s)) in *.
      destruct IH as (E1 & E2 & E3 & E4 & E5 & E6 & E7 & E8 & E9).
      unfold count in E1, E2, E3, E4, E5, E6, E7, E8, E9. cbn in E1, E2, E3, E4, E7, E8.
      cbn [s_consumed s_produced s_pc s_pp] in E5, E6, E9.
      rewrite arc_sum_total in E5, E6.
      do 4 (split; [assumption|]). split; [lia|]. split; [lia|]. do 2 (split; [assumption|]).
      intros HF. inversion HF as [|x l Hin HF']; subst. destruct (E9 HF') as [Ea Eb].
      destruct (Hs t Hin) as [[Hn1 _] [Hn2 _]]. split; intros p.
      + rewrite Ea, tokens_bump_all, tokens_arc_map by exact Hn1. lia.
      + rewrite Eb, tokens_bump_all, tokens_arc_map by exact Hn2. lia.
  Qed.

  Lemma run_total ts : forall m m', proper m -> run pn m ts m' ->
    total m' = total m - zsum (fun t => arcs_total (t_in t)) ts + zsum (fun t => arcs_total (t_out t)) ts.
  Proof.
    induction ts as [|t ts IH]; intros m m' Hm H; inversion H; subst; cbn [zsum]; [lia|].
    match goal with F : fires _ _ _ ?m1, R : run _ ?m1 _ _ |- _ =>
      rewrite (IH m1 m' (proj1 (proj2 (proj2 F))) R), (total_fires pn t m m1 Hs Hm F) end. lia.
  Qed.
  Lemma run_tokens ts : forall m m' p, run pn m ts m' ->
    tokens m' p = tokens m p - zsum (fun t => weight (t_in t) p) ts + zsum (fun t => weight (t_out t) p) ts.
  Proof.
    induction ts as [|t ts IH]; intros m m' p H; inversion H; subst; cbn [zsum]; [lia|].
    match goal with F : fires _ _ _ ?m1, R : run _ ?m1 _ _ |- _ =>
      rewrite (IH m1 m' p R), (proj2 (proj2 (proj2 F)) p) end. lia.
  Qed.

  Lemma zsum_snoc {A} (f : A -> Z) l x : zsum f (l ++ [x]) = zsum f l + f x.
  Proof. rewrite zsum_app. cbn [zsum]. lia. Qed.

  Lemma advance s ts m' : inv s -> run pn (s_mark s) ts m' ->
    inv (fold_left (fun s u => count occ u s) ts (set_mark m' (s_act s ++ ts) s)).
  Proof.
    intros I R. pose proof (count_fold ts (set_mark m' (s_act s ++ ts) s)) as H. cbn zeta in H.
    set (s' := fold_left (fun s u => count occ u s) ts (set_mark m' (s_act s ++ ts) s)) in *.
    destruct H as (E1 & E2 & E3 & E4 & E5 & E6 & E7 & E8 & E9). cbn in E1, E2, E3, E4, E7, E8.
    cbn [set_mark s_consumed s_produced s_pc s_pp] in E5, E6, E9.
    assert (Hn : List.Forall (fun t => In t (n_trans pn)) ts).
    { apply Forall_forall. intros t Ht. apply elem_of_list_In in Ht. eapply run_in; eassumption. }
    destruct (E9 Hn) as [Ea Eb]. clearbody s'. pose proof (run_total ts _ _ (i_proper s I) R) as HT.
    destruct I as [I1 I2 I3 I4 I5 I6 I7 I8 I9 I10 I11 I11b I12 I13].
    assert (HA : act_in s' = act_in s + zsum (fun t => arcs_total (t_in t)) ts) by (unfold act_in; rewrite E2, zsum_app; reflexivity).
    assert (HB : act_out s' = act_out s + zsum (fun t => arcs_total (t_out t)) ts) by (unfold act_out; rewrite E2, zsum_app; reflexivity).
    assert (HN : 0 <= zsum (fun t => arcs_total (t_in t)) ts).
    { apply zsum_nonneg. intros t Ht. apply zsum_nonneg. intros [p w] Hw. cbn.
      rewrite Forall_forall in Hn. pose proof (proj2 (proj1 (Hs t (Hn t (proj2 (elem_of_list_In _ _) Ht)))) p w Hw). lia. }
    constructor.
    - rewrite E1. eapply run_proper; eassumption.
    - rewrite E2. apply Forall_app_2; assumption.
    - rewrite E5, HA. lia.
    - rewrite E6, HB. lia.
    - rewrite E4. exact I5.
    - rewrite E4, E1, E5, E6. lia.
    - rewrite E1, E6. lia.
    - intros U. rewrite E4, E1, E5, E6, (I8 U). lia.
    - intros p. unfold pl_in. rewrite Ea, I9, E2, zsum_app. unfold pl_in. lia.
    - intros p. unfold pl_out. rewrite Eb, I10, E2, zsum_app. unfold pl_out. lia.
    - intros U p. unfold pl_in, pl_out. rewrite E1, E7, E2, !zsum_app, (run_tokens ts _ _ p R), (I11 U p). unfold pl_in, pl_out. lia.
    - rewrite E7. exact I11b.
    - rewrite E8. exact I12.
    - rewrite E4, E1, E2. intros H. eapply run_app; [apply I13, H|exact R].
  Qed.

  Lemma force_inv t s : In t (n_trans pn) -> inv s -> is_enabled t pn (s_mark s) = false ->
    is_enabled t pn (s_mark (force t s)) = true /\
    inv (r_fire pn t (count occ t (force t s))) /\ 0 < s_missing (force t s).
  Proof.
    intros Hin I He. destruct I as [I1 I2 I3 I4 I5 I6 I7 I8 I9 I10 I11 I11b I12 I13].
    pose proof (add_missing_spec t (s_mark s) (Hs t Hin) I1) as H. unfold force.
    destruct (add_missing_tokens t (s_mark s)) as [[m2 miss] added].
    destruct H as (Hp & Ht & Hmi & Hle & Htot & Hu & Had & Hpos).
    assert (Hpos' : 0 < miss).
    { apply Hpos. destruct (List.Forall_Exists_dec (fun a : nat * Z => weight (t_in t) a.1 <= tokens (s_mark s) a.1)
        (fun a => Z_le_dec (weight (t_in t) a.1) (tokens (s_mark s) a.1)) (t_in t)) as [HF|HE].
      - exfalso. assert (E : is_enabled t pn (s_mark s) = true); [|congruence].
        apply (proj2 (en_iff t _ Hin I1)). intros p. destruct (in_dec Nat.eq_dec p (map fst (t_in t))) as [Hi|Hi].
        + apply in_map_iff in Hi as [a [<- Ha]]. rewrite Forall_forall in HF. apply HF, elem_of_list_In, Ha.
        + rewrite weight_notin by exact Hi. apply proper_nonneg, I1.
      - apply List.Exists_exists in HE as [a [_ Ha]]. exists a.1. lia. }
    assert (En : is_enabled t pn m2 = true).
    { apply (proj2 (en_iff t m2 Hin Hp)). intros p. rewrite Ht. pose proof (proper_nonneg _ p I1).
      destruct (Z.ltb_spec (tokens (s_mark s) p) (weight (t_in t) p)); lia. }
    pose proof (exec_fires t m2 Hin Hp En) as F. pose proof (total_fires pn t m2 _ Hs Hp F) as HT.
    destruct (Hs t Hin) as [[Hn1 Hw1] [Hn2 _]].
    cbn [s_mark s_missing]. split; [exact En|]. split; [|lia]. unfold r_fire, set_mark, count.
    assert (HA : arc_sum (t_in t) = arcs_total (t_in t)) by apply arc_sum_total.
    assert (HB : arc_sum (t_out t) = arcs_total (t_out t)) by apply arc_sum_total.
    constructor; cbn [s_mark s_act s_prob s_missing s_consumed s_produced s_pc s_pp s_pm s_pr];
      unfold act_in, act_out, pl_in, pl_out; cbn [s_act].
    - apply F.
    - apply Forall_app_2; [exact I2|repeat constructor; exact Hin].
    - rewrite zsum_snoc, HA, I3. reflexivity.
    - rewrite zsum_snoc, HB, I4. unfold act_out. lia.
    - lia.
    - rewrite HT, HA, HB. lia.
    - rewrite HT, HB. lia.
    - intros U. rewrite HT, HA, HB, (I8 U), (Hu (fun p w Hi => U t Hin p w (or_introl Hi))). lia.
    - intros p. rewrite tokens_bump_all, tokens_arc_map, zsum_snoc, I9 by exact Hn1. unfold pl_in. lia.
    - intros p. rewrite tokens_bump_all, tokens_arc_map, zsum_snoc, I10 by exact Hn2. unfold pl_out. lia.
    - intros U p. rewrite (proj2 (proj2 (proj2 F)) p), !zsum_snoc, Ht.
      rewrite tokens_bump_all, Had. pose proof (I11 U p) as Q. unfold pl_in, pl_out in Q.
      destruct (Z.ltb_spec (tokens (s_mark s) p) (weight (t_in t) p)) as [Hlt|]; [|lia].
      pose proof (proper_nonneg _ p I1). destruct (in_dec Nat.eq_dec p (map fst (t_in t))) as [Hi|Hi].
      + apply in_map_iff in Hi as [[q w] [E Hi]]. cbn in E. subst q.
        rewrite (weight_in _ _ _ Hn1 Hi) in *. rewrite (U t Hin p w (or_introl Hi)) in *. lia.
      + rewrite weight_notin in Hlt by exact Hi. lia.
    - intros p. rewrite tokens_bump_all, Had. specialize (I11b p). destruct (Z.ltb_spec (tokens (s_mark s) p) (weight (t_in t) p)); lia.
    - exact I12.
    - intros E. lia.
  Qed.

  Lemma walk_inv t s : inv s -> inv (walk pn lim pord paths occ t s) /\
    exists new, s_act (walk pn lim pord paths occ t s) = s_act s ++ new /\ List.Forall (hid pn) new.
  Proof.
    intros I. unfold walk. destruct (is_enabled t pn (s_mark s)).
    - split; [exact I|]. exists []. rewrite app_nil_r. split; [reflexivity|constructor].
    - destruct (apply_hidden_ok (l_hidden lim) t (HState (s_mark s) (s_act s) []) (i_proper s I)) as [new (E & R & F)].
      set (h := apply_hidden pn lim pord paths (l_hidden lim) t (HState (s_mark s) (s_act s) [])) in *.
      cbn [h_act h_mark] in E, R. rewrite E, drop_app. split; [apply advance; assumption|].
      exists new. split; [|exact F]. pose proof (count_fold new (set_mark (h_mark h) (s_act s ++ new) s)) as H.
      cbn zeta in H. destruct H as (_ & -> & _). reflexivity.
  Qed.

  Lemma event_inv o t s : In t (n_trans pn) -> inv s ->
    let '(s', stop) := replay_event pn lim pord paths occ o t s in
    if stop : bool then stop_when_unfit o = true /\ proper (s_mark s') /\ 0 < s_missing s'
    else inv s' /\ exists new, s_act s' = s_act s ++ new ++ [t] /\ List.Forall (hid pn) new.
  Proof.
    intros Hin I. unfold replay_event.
    assert (H1 : inv (if walk_hidden o then walk pn lim pord paths occ t s else s) /\
      exists new, s_act (if walk_hidden o then walk pn lim pord paths occ t s else s) = s_act s ++ new /\ List.Forall (hid pn) new).
    { destruct (walk_hidden o); [apply walk_inv, I|]. split; [exact I|]. exists []. rewrite app_nil_r. split; [reflexivity|constructor]. }
    set (s1 := if walk_hidden o then walk pn lim pord paths occ t s else s) in *. destruct H1 as [I1 [new [Ea Fn]]].
    destruct (is_enabled t pn (s_mark s1)) eqn:En; cbn [negb andb].
    - cbn [count s_mark]. rewrite En.
      pose proof (exec_fires t _ Hin (i_proper _ I1) En) as F.
      assert (R : run pn (s_mark s1) [t] (exec pn t (s_mark s1))) by (econstructor; [exact F|constructor]).
      split; [exact (advance s1 [t] _ I1 R)|].
      exists new. cbn. rewrite Ea, <- app_assoc. split; [reflexivity|exact Fn].
    - destruct (stop_when_unfit o) eqn:Eo.
      + cbn. split; [reflexivity|]. split; [apply I1|]. pose proof (i_miss0 _ I1). lia.
      + destruct (force_inv t s1 Hin I1 En) as (En2 & I2 & _).
        assert (Em : s_mark (count occ t (force t s1)) = s_mark (force t s1)) by reflexivity.
        rewrite Em, En2. split; [exact I2|]. exists new. split; [|exact Fn].
        unfold force. destruct (add_missing_tokens t (s_mark s1)) as [[? ?] ?]. cbn. rewrite Ea, <- app_assoc. reflexivity.
  Qed.

  Lemma events_inv o tr : forall s un, inv s ->
    let '(s', _) := replay_events pn lim tord pord paths occ o tr s un in
    (inv s' /\ exists v, known_part pn tr v /\ visible (s_act s') = visible (s_act s) ++ v)
    \/ (stop_when_unfit o = true /\ proper (s_mark s') /\ 0 < s_missing s').
  Proof.
    induction tr as [|a tr IH]; intros s un I; cbn [replay_events].
    - left. split; [exact I|]. exists []. rewrite app_nil_r. split; [constructor|reflexivity].
    - destruct (choose pn tord a (s_mark s)) as [t|] eqn:E.
      + destruct (choose_some _ _ _ E) as [Hin Hl].
        pose proof (event_inv o t s Hin I) as H.
        destruct (replay_event pn lim pord paths occ o t s) as [s1 stop]. destruct stop; [right; exact H|].
        destruct H as [I1 [new [Ea Fn]]]. specialize (IH s1 un I1).
        destruct (replay_events pn lim tord pord paths occ o tr s1 un) as [s' un'].
        destruct IH as [[I' [v [Hk Hv]]]|H]; [left|right; exact H].
        split; [exact I'|]. exists (a :: v). split; [constructor; [exists t; auto|exact Hk]|].
        rewrite Hv, Ea, !visible_app, (visible_hidden _ _ Fn). cbn [visible app]. rewrite Hl, <- app_assoc. reflexivity.
      + specialize (IH s (un ++ [a]) I). destruct (replay_events pn lim tord pord paths occ o tr s (un ++ [a])) as [s' un'].
        destruct IH as [[I' [v [Hk Hv]]]|H]; [left|right; exact H].
        split; [exact I'|]. exists v. split; [|exact Hv]. apply kp_skip; [eapply choose_none, E|exact Hk].
  Qed.

  (** the final phases only fire enabled silent transitions *)
  Definition final_ok (s s' : rstate) : Prop :=
    proper (s_mark s) ->
    proper (s_mark s') /\ s_missing s' = s_missing s /\ s_prob s' = s_prob s /\ (inv s -> inv s') /\
    exists new, s_act s' = s_act s ++ new /\ List.Forall (hid pn) new.
  Lemma final_refl s : final_ok s s.
  Proof. intros H. do 4 (split; [auto; reflexivity|]). exists []. rewrite app_nil_r. split; [reflexivity|constructor]. Qed.
  Lemma final_trans a b c : final_ok a b -> final_ok b c -> final_ok a c.
  Proof.
    intros H1 H2 Hp. destruct (H1 Hp) as (P1 & M1 & Q1 & V1 & n1 & A1 & F1).
    destruct (H2 P1) as (P2 & M2 & Q2 & V2 & n2 & A2 & F2).
    split; [exact P2|]. split; [congruence|]. split; [congruence|]. split; [tauto|].
    exists (n1 ++ n2). rewrite A2, A1, <- app_assoc. split; [reflexivity|apply Forall_app_2; assumption].
  Qed.
  Lemma fire_enabled_ok t s : hid pn t -> final_ok s (fire_enabled pn occ s t).
  Proof.
    intros Ht. unfold fire_enabled. destruct (is_enabled t pn (s_mark s)) eqn:E; [|apply final_refl].
    intros Hp. pose proof (exec_fires t _ (proj1 Ht) Hp E) as F.
    assert (R : run pn (s_mark s) [t] (exec pn t (s_mark s))) by (econstructor; [exact F|constructor]).
    split; [apply F|]. split; [reflexivity|]. split; [reflexivity|].
    split; [intros I; exact (advance s [t] _ I R)|]. exists [t]. split; [reflexivity|repeat constructor; apply Ht].
  Qed.
  Lemma fold_final {A} (f : rstate -> A -> rstate) (P : A -> Prop) :
    (forall x s, P x -> final_ok s (f s x)) -> forall l s, List.Forall P l -> final_ok s (fold_left f l s).
  Proof.
    intros Hf. induction l as [|x l IH]; intros s HF; cbn [fold_left]; [apply final_refl|].
    inversion HF; subst. apply (final_trans _ (f s x)); [apply Hf; assumption|apply IH; assumption].
  Qed.
  Lemma final_groups_ok fm gs : forall s, List.Forall (List.Forall (hid pn)) gs -> final_ok s (final_groups pn occ fm gs s).
  Proof.
    induction gs as [|g gs IH]; intros s HF; cbn [final_groups]; [apply final_refl|].
    inversion HF as [|? ? Hg Hgs]; subst.
    assert (H1 : final_ok s (fold_left (fire_enabled pn occ) g s)).
    { apply (fold_final _ (hid pn)); [intros x u Hx; apply fire_enabled_ok, Hx|assumption]. }
    destruct (break_condition _ fm); [exact H1|]. eapply final_trans; [exact H1|apply IH; exact Hgs].
  Qed.
  Lemma final1_ok n fm : forall s, final_ok s (final1 pn pord paths occ n fm s).
  Proof.
    induction n as [|n IH]; intros s; cbn [final1]; [apply final_refl|].
    destruct (break_condition (s_mark s) fm); [apply final_refl|].
    eapply final_trans; [apply final_groups_ok, groups_ok|apply IH].
  Qed.
  Lemma fire_prefix_ok g : forall s, List.Forall (hid pn) g -> final_ok s (fire_prefix pn occ g s).
  Proof.
    induction g as [|t g IH]; intros s HF; cbn [fire_prefix]; [apply final_refl|]. inversion HF; subst.
    destruct (is_enabled t pn (s_mark s)); [|apply final_refl].
    apply (final_trans _ (fire_enabled pn occ s t)); [apply fire_enabled_ok; assumption|apply IH; assumption].
  Qed.
  Lemma final2_ok fm s : final_ok s (final2 pn lim kord paths occ fm s).
  Proof.
    unfold final2. destruct (break_condition (s_mark s) fm); [apply final_refl|].
    destruct (m_places fm) as [|sink [|? ?]]; try apply final_refl.
    pose proof (connections_ok (s_mark s) sink) as HF.
    set (cs := connections kord paths (s_mark s) sink) in *.
    induction (l_final2 lim) as [|n IH]; cbn [Nat.iter nat_rect]; [apply final_refl|].
    eapply final_trans; [exact IH|].
    apply (fold_final (fun s g => fire_prefix pn occ g s) (List.Forall (hid pn))); [|exact HF].
    intros g u Hg. apply fire_prefix_ok, Hg.
  Qed.
End R.
