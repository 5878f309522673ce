(** Proofs about the maximal decomposition. *)
From stdpp Require Import gmap.
From Coq Require Import ZArith List Arith Bool Lia.
Import ListNotations.
From Verif Require Import Model_Petri Model_Graph Model_Wfnet Model_IM Model_Decomp Spec_Petri Spec_Murata Spec_Wfnet Spec_Decomp Proofs_Petri Proofs_Graph.
From Verif Require Proofs_IM1 Props_Murata Props_Wfnet Proofs_Dfg.
Local Open Scope Z_scope.
Local Arguments smem : simpl never.

Lemma filter_keep (f g : nat -> bool) (l : list nat) : (forall x, f x = g x) -> List.filter f l = List.filter g l.
Proof. intros E. apply filter_ext. auto. Qed.
Lemma nodup_concat_pos {X} (cs : list (list X)) : List.NoDup (concat cs) -> forall i j c c' x, nth_error cs i = Some c -> nth_error cs j = Some c' -> In x c -> In x c' -> i = j.
Proof.
  induction cs as [|a cs IH]; intros N i j c c' x Hi Hj Hx Hx'; [destruct i; discriminate|]. cbn [concat] in N.
  assert (N2 : List.NoDup (concat cs)) by (eapply Proofs_IM1.NoDup_app_r; eauto).
  destruct i as [|i], j as [|j]; cbn in Hi, Hj; auto.
  - injection Hi as <-. exfalso. eapply (Proofs_IM1.NoDup_app_disj a (concat cs) x); eauto. apply in_concat. exists c'. split; auto. eapply nth_error_In; eauto.
  - injection Hj as <-. exfalso. eapply (Proofs_IM1.NoDup_app_disj a (concat cs) x); eauto. apply in_concat. exists c. split; auto. eapply nth_error_In; eauto.
  - f_equal. eapply IH; eauto.
Qed.
Lemma nodup_concat_filter {X} (f : list X -> bool) (cs : list (list X)) : List.NoDup (concat cs) -> List.NoDup (concat (List.filter f cs)).
Proof.
  induction cs as [|a cs IH]; intros N; [constructor|]. cbn [concat] in N. assert (N2 := Proofs_IM1.NoDup_app_r _ _ N). assert (N1 := Proofs_IM1.NoDup_app_l _ _ N). cbn. destruct (f a); auto. cbn.
  apply Proofs_Dfg.NoDup_app_intro; auto. intros x Hx Hy. eapply (Proofs_IM1.NoDup_app_disj a (concat cs) x); eauto. apply in_concat in Hy as (c & Hc & Hy). apply filter_In in Hc as [Hc _]. apply in_concat. eauto.
Qed.
Section D.
  Variable name : node -> nat.
  Variable text : nat -> nat.
  Variable net : petri_net (option nat).
  Hypothesis Hnames : forall x y, is_node net x -> is_node net y -> name x = name y -> x = y.
  Hypothesis Harc : arcs_on_places net.
  Notation comp_net := (comp_net name net).
  Notation comp_marking := (comp_marking name).
  Notation comp_trans := (comp_trans name).
  Notation kept := (kept name text net).
  Notation comps := (graph_components name text net).

  Lemma g_ends a b : In (a, b) (g_edges name text net) -> In a (g_nodes name text net) /\ In b (g_nodes name text net).
  Proof. intros Hin. unfold g_nodes. split; rewrite !in_app_iff; right; right; right; apply in_flat_map; exists (a, b); cbn; auto. Qed.
  Lemma comps_partition : List.NoDup (concat comps) /\ (forall x, In x (concat comps) <-> In x (g_nodes name text net)) /\
    (forall c x y, In c comps -> In x c -> In (x, y) (g_edges name text net) \/ In (y, x) (g_edges name text net) -> In y c).
  Proof. destruct (Proofs_IM1.components_partition _ _ g_ends) as (A & B & _ & C). auto. Qed.
  Lemma kept_pos i j c c' x : nth_error kept i = Some c -> nth_error kept j = Some c' -> In x c -> In x c' -> i = j.
  Proof. apply nodup_concat_pos. apply nodup_concat_filter. apply comps_partition. Qed.
  Lemma kept_comp c : In c kept -> In c comps.
  Proof. intros Hc. apply filter_In in Hc. tauto. Qed.
  Lemma same_kept c c' x : In c kept -> In c' kept -> In x c -> In x c' -> c = c'.
  Proof. intros Hc Hc' Hx Hx'. apply In_nth_error in Hc as [i Hi]. apply In_nth_error in Hc' as [j Hj]. assert (i = j) by (eapply kept_pos; eauto). congruence. Qed.
  Lemma kept_with_place c p : In c comps -> In p (n_places net) -> In (name (PNode p)) c -> In c kept.
  Proof.
    intros Hc Hp Hin. apply filter_In. split; auto. unfold not_empty, Model_Decomp.comp_net. cbn [n_places n_trans].
    assert (F : In p (List.filter (in_comp name c) (n_places net))) by (apply filter_In; split; auto; apply smem_in; auto). destruct (List.filter _ (n_places net)); [contradiction|auto].
  Qed.
  Lemma place_comp p : In p (n_places net) -> exists c, In c kept /\ In (name (PNode p)) c.
  Proof.
    intros Hp. destruct comps_partition as (_ & B & _). assert (X : In (name (PNode p)) (concat comps)) by (apply B; unfold g_nodes; rewrite in_app_iff; left; apply in_map_iff; eauto).
    apply in_concat in X as (c & Hc & Hin). exists c. split; auto. eapply kept_with_place; eauto.
  Qed.
  Lemma silent_comp t : In t (n_trans net) -> t_label t = None -> exists c, In c kept /\ In (t_name name t) c.
  Proof.
    intros Ht Hl. destruct comps_partition as (_ & B & _).
    assert (S : In t (silent_trans net)) by (apply filter_In; rewrite Hl; auto).
    assert (X : In (t_name name t) (concat comps)) by (apply B; unfold g_nodes; rewrite !in_app_iff; right; left; apply in_map_iff; eauto).
    apply in_concat in X as (c & Hc & Hin). exists c. split; auto. apply filter_In. split; auto. unfold not_empty, Model_Decomp.comp_net. cbn [n_places n_trans].
    assert (F : In (comp_trans c t) (map (comp_trans c) (List.filter (touches name c) (n_trans net)))). { apply in_map, filter_In. split; auto. unfold touches. apply orb_true_iff. left. apply smem_in. auto. }
    destruct (List.filter _ (n_places net)); auto. destruct (map _ _); [contradiction|auto].
  Qed.
  Lemma node_eqb_ok x y : node_eqb x y = true <-> x = y.
  Proof. destruct x, y; cbn; rewrite ?Nat.eqb_eq; split; intros; try congruence; discriminate. Qed.
  Lemma inserted_iff x : is_inserted net x = true <-> In x (inserted net).
  Proof. unfold is_inserted. rewrite existsb_exists. split; [intros (y & Hy & E); apply node_eqb_ok in E; congruence|intros Hx; exists x; split; auto; apply node_eqb_ok; auto]. Qed.
  (** A silent transition next to a place of a component is named in it. *)
  Lemma silent_next c t p w : In c comps -> In t (n_trans net) -> t_label t = None -> In (p, w) (t_in t) \/ In (p, w) (t_out t) -> In (name (PNode p)) c -> In (t_name name t) c.
  Proof.
    intros Hc Ht Hl Hin Hp. destruct comps_partition as (_ & _ & C). apply (C c (name (PNode p))); auto.
    assert (S : In (TNode (t_id t)) (inserted net)) by (unfold inserted; rewrite !in_app_iff; right; left; apply in_map_iff; exists t; split; auto; apply filter_In; rewrite Hl; auto).
    assert (P : In (PNode p) (inserted net)) by (unfold inserted; rewrite !in_app_iff; left; apply in_map; eapply Harc; eauto).
    unfold g_edges. rewrite !in_app_iff. destruct Hin as [Hin|Hin]; [left|right]; right; apply in_map_iff.
    - exists (PNode p, TNode (t_id t)). split; auto. apply filter_In. split; [|cbn [fst snd]; apply andb_true_iff; split; apply inserted_iff; auto]. apply Props_Wfnet.arcs_iff. exists t, w. split; auto. left. exists p. auto.
    - exists (TNode (t_id t), PNode p). split; auto. apply filter_In. split; [|cbn [fst snd]; apply andb_true_iff; split; apply inserted_iff; auto]. apply Props_Wfnet.arcs_iff. exists t, w. split; auto. right. exists p. auto.
  Qed.
  Lemma touches_iff c t : touches name c t = true <-> In (t_name name t) c \/ exists p w, (In (p, w) (t_in t) \/ In (p, w) (t_out t)) /\ In (name (PNode p)) c.
  Proof.
    unfold touches. rewrite orb_true_iff, smem_in, existsb_exists. split; (intros [A|B]; [left; auto|right]).
    - destruct B as ([p w] & Hin & B). exists p, w. split; [apply in_app_iff; auto|apply smem_in; auto].
    - destruct B as (p & w & Hin & B). exists (p, w). split; [apply in_app_iff; auto|apply smem_in; auto].
  Qed.
  Lemma silent_unique c c' t : In c kept -> In c' kept -> In t (n_trans net) -> t_label t = None -> touches name c t = true -> touches name c' t = true -> c = c'.
  Proof.
    intros Hc Hc' Ht Hl H1 H2. assert (G : forall c, In c kept -> touches name c t = true -> In (t_name name t) c).
    { intros d Hd Hx. apply touches_iff in Hx as [Hx|(p & w & A & B)]; auto. eapply silent_next; eauto. apply kept_comp; auto. }
    eapply same_kept; [exact Hc|exact Hc'|apply G; auto|apply G; auto].
  Qed.

  Hypothesis Hunit : unit_weights net.
  Hypothesis Hsim : simple_net net.
  Lemma weight_comp c l p : (forall q w, In (q, w) l -> w = 1) -> weight (comp_arcs name c l) p = if in_comp name c p then weight l p else 0.
  Proof.
    induction l as [|[q w] l IH]; intros Hl; [cbn; destruct (in_comp name c p); auto|]. unfold comp_arcs in *. cbn [List.filter fst]. assert (w = 1) as -> by (eapply Hl; left; eauto).
    assert (IH' := IH (fun q w Hq => Hl q w (or_intror Hq))). destruct (in_comp name c q) eqn:E; cbn [map weight fst]; rewrite IH'; destruct (Nat.eqb_spec q p) as [->|]; try rewrite E; destruct (in_comp name c p); lia.
  Qed.
  Lemma comp_tokens c m p : tokens (comp_marking c m) p = if in_comp name c p then tokens m p else 0.
  Proof.
    unfold tokens, Model_Decomp.comp_marking. destruct (in_comp name c p) eqn:E.
    - destruct (m !! p) as [v|] eqn:L; [rewrite (proj2 (map_filter_lookup_Some _ _ _ _) (conj L E)); auto|]. destruct (base.filter _ m !! p) eqn:F; auto. apply map_filter_lookup_Some in F as [F _]. congruence.
    - destruct (base.filter _ m !! p) eqn:F; auto. apply map_filter_lookup_Some in F as [_ F]. cbn in F. congruence.
  Qed.
  Lemma comp_proper c m : proper m -> proper (comp_marking c m).
  Proof. intros Hm p v L. apply map_filter_lookup_Some in L as [L _]. eapply Hm; eauto. Qed.
  Lemma unit_in t : In t (n_trans net) -> forall q w, In (q, w) (t_in t) -> w = 1.
  Proof. intros Ht q w Hin. eapply (Hunit t Ht); eauto. Qed.
  Lemma unit_out t : In t (n_trans net) -> forall q w, In (q, w) (t_out t) -> w = 1.
  Proof. intros Ht q w Hin. eapply (Hunit t Ht); eauto. Qed.
  Lemma weight_pos (l : list (nat * Z)) p : (forall q w, In (q, w) l -> w = 1) -> weight l p <> 0 -> exists w, In (p, w) l.
  Proof. induction l as [|[q w] l IH]; intros Hl Hw; [cbn in Hw; congruence|]. cbn [weight] in Hw. destruct (Nat.eqb_spec q p) as [->|]; [exists w; left; auto|]. destruct IH as [w' Hw']; [intros; eapply Hl; right; eauto|lia|]. exists w'. right; auto. Qed.
  Lemma untouched c t p : In t (n_trans net) -> touches name c t = false -> in_comp name c p = true -> weight (t_in t) p = 0 /\ weight (t_out t) p = 0.
  Proof.
    intros Ht Hf Hp. apply smem_in in Hp. split.
    - destruct (Z.eq_dec (weight (t_in t) p) 0) as [|Hn]; auto. apply weight_pos in Hn as [w Hw]; [|apply unit_in; auto]. rewrite (proj2 (touches_iff c t)) in Hf; [discriminate|]. right. exists p, w. auto.
    - destruct (Z.eq_dec (weight (t_out t) p) 0) as [|Hn]; auto. apply weight_pos in Hn as [w Hw]; [|apply unit_out; auto]. rewrite (proj2 (touches_iff c t)) in Hf; [discriminate|]. right. exists p, w. auto.
  Qed.
  Definition project (c : list nat) (ts : list (transition (option nat))) : list (transition (option nat)) := map (comp_trans c) (List.filter (touches name c) ts).
  Lemma comp_fires c t m m' : fires net t m m' -> touches name c t = true -> fires (comp_net c) (comp_trans c t) (comp_marking c m) (comp_marking c m').
  Proof.
    intros (Ht & He & Hp & HT) Htc. split; [apply in_map, filter_In; auto|]. split; [|split; [apply comp_proper; auto|]]; intros p; cbn [Model_Decomp.comp_trans t_in t_out]; rewrite !weight_comp, !comp_tokens by (apply unit_in || apply unit_out; auto).
    - destruct (in_comp name c p); [apply He|lia].
    - destruct (in_comp name c p); [apply HT|lia].
  Qed.
  Lemma comp_stays c t m m' : fires net t m m' -> proper m -> touches name c t = false -> comp_marking c m' = comp_marking c m.
  Proof.
    intros (Ht & He & Hp & HT) Hm Htc. apply proper_ext; try (apply comp_proper; auto). intros p. rewrite !comp_tokens. destruct (in_comp name c p) eqn:E; auto. destruct (untouched c t p Ht Htc E) as [A B]. rewrite HT. lia.
  Qed.
  Lemma run_comp c ts : forall m m', proper m -> run net m ts m' -> run (comp_net c) (comp_marking c m) (project c ts) (comp_marking c m').
  Proof.
    induction ts as [|t ts IH]; intros m m' Hm Hr; inversion Hr as [|? ? mm ? ? F R]; subst; [constructor|]. assert (Hmm : proper mm) by apply F. unfold project. cbn [List.filter]. destruct (touches name c t) eqn:E.
    - cbn [map]. econstructor; [apply comp_fires; eauto|]. apply IH; auto.
    - rewrite <- (comp_stays c t m mm F Hm E). apply IH; auto.
  Qed.
  Lemma runs_join ts : forall m m', proper m -> proper m' -> marks_places net m -> marks_places net m' -> (forall t, In t ts -> In t (n_trans net)) ->
    (forall c, In c kept -> run (comp_net c) (comp_marking c m) (project c ts) (comp_marking c m')) -> run net m ts m'.
  Proof.
    induction ts as [|t ts IH]; intros m m' Hm Hm' Pm Pm' Hts Hc.
    - assert (m = m') as ->; [|constructor]. apply proper_ext; auto. intros p. destruct (in_dec Nat.eq_dec p (n_places net)) as [Hp|Hp].
      + destruct (place_comp p Hp) as (c & Kc & Hin). specialize (Hc c Kc). inversion Hc as [? E|]. apply smem_in in Hin. assert (T := comp_tokens c m p). assert (T' := comp_tokens c m' p). unfold in_comp in T, T'. rewrite Hin in T, T'. rewrite <- T, <- T'. congruence.
      + unfold tokens. destruct (m !! p) eqn:E1; [exfalso; eapply Hp, Pm; eauto|]. destruct (m' !! p) eqn:E2; [exfalso; eapply Hp, Pm'; eauto|]. auto.
    - assert (Ht : In t (n_trans net)) by (apply Hts; left; auto).
      assert (En : enabled_at t m).
      { intros p. assert (Nm : 0 <= tokens m p). { unfold tokens. destruct (m !! p) eqn:E; [apply Hm in E; lia|lia]. }
        destruct (Z.eq_dec (weight (t_in t) p) 0) as [|Hn]; [lia|]. destruct (weight_pos _ p (unit_in t Ht) Hn) as [w Hw]. destruct (place_comp p) as (c & Kc & Hin); [eapply Harc; eauto|].
        specialize (Hc c Kc). unfold project in Hc. cbn [List.filter] in Hc. assert (Tc : touches name c t = true) by (apply touches_iff; right; exists p, w; auto). rewrite Tc in Hc. cbn [map] in Hc.
        inversion Hc as [|? ? mm ? ? (_ & He & _) _]; subst. specialize (He p). cbn [Model_Decomp.comp_trans t_in] in He. rewrite weight_comp, comp_tokens in He by (apply unit_in; auto). apply smem_in in Hin. unfold in_comp in He. rewrite Hin in He. auto. }
      pose proof (fired_marking t m) as FM. pose proof (fired_proper t m (Hsim t Ht) Hm En) as FP. set (mm := fold_left produce (t_out t) (fold_left consume (t_in t) m)) in *.
      assert (F : fires net t m mm) by (repeat split; auto). econstructor; [exact F|]. assert (Pmm : marks_places net mm) by (apply (Props_Murata.fires_marks net t m mm); auto). apply (IH mm m' FP Hm' Pmm Pm'); [intros u Hu; apply Hts; right; auto|].
      intros c Kc. specialize (Hc c Kc). unfold project in Hc. cbn [List.filter] in Hc. destruct (touches name c t) eqn:Tc.
      + cbn [map] in Hc. inversion Hc as [|? ? m1 ? ? F1 R1]; subst. rewrite (fires_det _ _ _ _ _ (comp_fires c t m mm F Tc) F1). exact R1.
      + rewrite (comp_stays c t m mm F Hm Tc). exact Hc.
  Qed.
  (** The projection is what the component sees. *)
  Hypothesis Hids : distinct_ids net.
  Lemma comp_has c i : In i (map t_id (n_trans (comp_net c))) <-> exists t, In t (n_trans net) /\ t_id t = i /\ touches name c t = true.
  Proof.
    unfold Model_Decomp.comp_net. cbn [n_trans]. rewrite map_map. cbn. rewrite in_map_iff. split.
    - intros (t & E & Hin). apply filter_In in Hin. exists t. tauto.
    - intros (t & A & B & C). exists t. split; auto. apply filter_In. auto.
  Qed.
  Lemma id_inj t u : In t (n_trans net) -> In u (n_trans net) -> t_id t = t_id u -> t = u.
  Proof. intros A B E. unfold distinct_ids in Hids. revert A B Hids. generalize (n_trans net). induction l as [|a l IH]; [contradiction|]. cbn. intros [->|A] [->|B] N; auto; inversion N; subst; auto; exfalso; [apply H1; rewrite E; apply in_map; auto|apply H1; rewrite <- E; apply in_map; auto]. Qed.
  Lemma project_seen c ts : (forall t, In t ts -> In t (n_trans net)) -> seen_by (comp_net c) ts (project c ts).
  Proof.
    intros Hts. split.
    - intros u Hu. apply in_map_iff in Hu as (t & <- & Ht). apply filter_In in Ht as [A B]. apply in_map, filter_In. auto.
    - exists (fun i => smem i (map t_id (n_trans (comp_net c)))). split; [intros i; apply smem_in|].
      unfold project. rewrite map_map. cbn [Model_Decomp.comp_trans t_id]. induction ts as [|t ts IH]; [reflexivity|]. cbn [List.filter map].
      assert (E : smem (t_id t) (map t_id (n_trans (comp_net c))) = touches name c t).
      { apply eq_true_iff_eq. rewrite smem_in, comp_has. split; [|intros X; exists t; split; [apply Hts; left; auto|auto]]. intros (u & A & B & C). rewrite (id_inj t u); auto. apply Hts. left. auto. }
      rewrite E. destruct (touches name c t); cbn [map]; rewrite IH; auto; intros u Hu; apply Hts; right; auto.
  Qed.
  Lemma seen_project c ts us : (forall t, In t ts -> In t (n_trans net)) -> seen_by (comp_net c) ts us -> us = project c ts.
  Proof.
    intros Hts (Hus & has & Hh & E). destruct (project_seen c ts Hts) as (Hps & has' & Hh' & E').
    assert (Q : map t_id us = map t_id (project c ts)) by (rewrite E, E'; apply filter_keep; intros x; apply eq_true_iff_eq; rewrite Hh, Hh'; tauto).
    assert (I : forall t u, In t (n_trans (comp_net c)) -> In u (n_trans (comp_net c)) -> t_id t = t_id u -> t = u).
    { intros t u A B X. apply in_map_iff in A as (t0 & <- & A). apply in_map_iff in B as (u0 & <- & B). apply filter_In in A as [A _]. apply filter_In in B as [B _]. cbn in X. rewrite (id_inj t0 u0); auto. }
    clear E E' Hh Hh'. revert Q Hus Hps. generalize (project c ts) as vs. induction us as [|u us IH]; intros [|v vs] Q Hus Hps; try discriminate; auto. cbn in Q. injection Q as Q1 Q2. f_equal; [apply I; auto; [apply Hus|apply Hps]; left; auto|].
    apply IH; auto; intros x Hx; [apply Hus|apply Hps]; right; auto.
  Qed.
End D.
