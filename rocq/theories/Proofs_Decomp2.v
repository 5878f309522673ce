(** Decomposition and traces: composing runs of the components. *)
From stdpp Require Import gmap.
From Coq Require Import ZArith List Arith Bool Lia.
Import ListNotations.
From Verif Require Import Model_Petri Model_Graph Model_Wfnet Model_IM Model_Decomp Spec_Petri Spec_Murata Spec_Wfnet Spec_Decomp Proofs_Petri Proofs_Graph Proofs_Decomp.
Local Open Scope nat_scope.
Local Arguments smem : simpl never.
Notation tr := (transition (option nat)).
Definition is_silent (t : tr) : bool := match t_label t with None => true | Some _ => false end.
(** The leading silent transitions, and the rest. *)
Fixpoint lead (us : list tr) : list tr := match us with [] => [] | u :: r => if is_silent u then u :: lead r else [] end.
Fixpoint rest (us : list tr) : list tr := match us with [] => [] | u :: r => if is_silent u then rest r else us end.
Lemma lead_rest us : us = lead us ++ rest us.
Proof. induction us as [|u us IH]; [reflexivity|]. cbn. destruct (is_silent u); auto. cbn. congruence. Qed.
Lemma lead_silent us u : In u (lead us) -> t_label u = None.
Proof. induction us as [|v us IH]; [contradiction|]. cbn. unfold is_silent at 1. destruct (t_label v) eqn:E; [contradiction|]. intros [<-|Hu]; auto. Qed.
Lemma visible_app us vs : visible (us ++ vs) = visible us ++ visible vs.
Proof. induction us as [|u us IH]; [reflexivity|]. cbn. destruct (t_label u); rewrite IH; auto. Qed.
Lemma visible_silent us : (forall u, In u us -> t_label u = None) -> visible us = [].
Proof. induction us as [|u us IH]; intros Hs; [reflexivity|]. cbn. rewrite (Hs u) by (left; auto). apply IH. intros; apply Hs; right; auto. Qed.
Lemma visible_rest us : visible (rest us) = visible us.
Proof. rewrite (lead_rest us) at 2. rewrite visible_app, (visible_silent (lead us)); auto. intros u. apply lead_silent. Qed.
Lemma rest_nil us : visible us = [] -> rest us = [].
Proof. rewrite <- visible_rest. destruct (rest us) as [|u r] eqn:E; auto. assert (Hn : is_silent u = false). { clear -E. induction us as [|v us IH]; [discriminate|]. cbn in E. destruct (is_silent v) eqn:S; auto. congruence. } cbn. unfold is_silent in Hn. destruct (t_label u); discriminate. Qed.
Lemma rest_cons us a w : visible us = a :: w -> exists u r, rest us = u :: r /\ t_label u = Some a /\ visible r = w.
Proof.
  rewrite <- visible_rest. destruct (rest us) as [|u r] eqn:E; [discriminate|]. assert (Hn : is_silent u = false). { clear -E. induction us as [|v us IH]; [discriminate|]. cbn in E. destruct (is_silent v) eqn:S; auto. congruence. }
  cbn. unfold is_silent in Hn. destruct (t_label u) eqn:L; [|discriminate]. intros [= <- <-]. exists u, r. auto.
Qed.

Section C.
  Variable name : node -> nat.
  Variable text : nat -> nat.
  Variable net : petri_net (option nat).
  Hypothesis Harc : arcs_on_places net.
  Hypothesis Hids : distinct_ids net.
  Hypothesis Hlab : unique_labels net.
  Notation comp_net := (comp_net name net).
  Notation comp_trans := (comp_trans name).
  Notation kept := (kept name text net).
  Notation project := (project name).
  Lemma project_app c ts us : project c (ts ++ us) = project c ts ++ project c us.
  Proof. unfold Proofs_Decomp.project. rewrite filter_app, map_app. auto. Qed.
  (** The transition of the net behind a transition of a component. *)
  Definition lift (u : tr) : tr := match find (fun t => Nat.eqb (t_id t) (t_id u)) (n_trans net) with Some t => t | None => u end.
  Lemma lift_ok c u : In u (n_trans (comp_net c)) -> In (lift u) (n_trans net) /\ touches name c (lift u) = true /\ u = comp_trans c (lift u).
  Proof.
    intros Hu. apply in_map_iff in Hu as (t & <- & Ht). apply filter_In in Ht as [Ht Tc]. unfold lift. cbn [Model_Decomp.comp_trans t_id].
    destruct (find _ (n_trans net)) as [t'|] eqn:F.
    - apply find_some in F as [Ht' E]. apply Nat.eqb_eq in E. rewrite (id_inj net Hids t' t Ht' Ht E). auto.
    - exfalso. apply (find_none _ _ F) in Ht. rewrite Nat.eqb_refl in Ht. discriminate.
  Qed.
  Lemma project_lift c us : (forall u, In u us -> In u (n_trans (comp_net c))) -> project c (map lift us) = us.
  Proof.
    induction us as [|u us IH]; intros Hu; [reflexivity|]. destruct (lift_ok c u) as (_ & T & E); [apply Hu; left; auto|]. unfold Proofs_Decomp.project. cbn [map List.filter]. rewrite T. cbn [map]. rewrite <- E. f_equal. apply IH. intros; apply Hu; right; auto.
  Qed.
  Lemma project_other c d us : In c kept -> In d kept -> c <> d -> (forall u, In u us -> In u (n_trans (comp_net d)) /\ t_label u = None) -> project c (map lift us) = [].
  Proof.
    intros Hc Hd Hn. induction us as [|u us IH]; intros Hu; [reflexivity|]. destruct (Hu u (or_introl eq_refl)) as [A B]. destruct (lift_ok d u A) as (I & T & E). unfold Proofs_Decomp.project. cbn [map List.filter].
    assert (L : t_label (lift u) = None) by (rewrite E in B; exact B). destruct (touches name c (lift u)) eqn:T'; [exfalso; apply Hn; apply (silent_unique name text net Harc c d (lift u)); auto|]. apply IH. intros; apply Hu; right; auto.
  Qed.
  Lemma project_silents (us : list nat -> list tr) cs : List.NoDup cs -> incl cs kept -> (forall c u, In c kept -> In u (us c) -> In u (n_trans (comp_net c)) /\ t_label u = None) ->
    forall c, In c kept -> project c (concat (map (fun d => map lift (us d)) cs)) = if in_dec (list_eq_dec Nat.eq_dec) c cs then us c else [].
  Proof.
    induction cs as [|d cs IH]; intros Hn Hi Hu c Hc; [reflexivity|]. inversion Hn as [|? ? Hd Hn']; subst. cbn [map concat]. rewrite project_app, (IH Hn' (fun x Hx => Hi x (or_intror Hx)) Hu c Hc).
    destruct (list_eq_dec Nat.eq_dec c d) as [->|Hne].
    - rewrite project_lift by (intros u Hin; apply (Hu d u); auto). destruct (in_dec _ d cs) as [|_]; [contradiction|]. destruct (in_dec _ d (d :: cs)) as [_|Hx]; [apply app_nil_r|exfalso; apply Hx; left; auto].
    - rewrite (project_other c d (us d)); auto; [|apply Hi; left; auto|intros u Hin; apply Hu; auto; apply Hi; left; auto]. cbn [app].
      destruct (in_dec (list_eq_dec Nat.eq_dec) c cs) as [i1|n1], (in_dec (list_eq_dec Nat.eq_dec) c (d :: cs)) as [i2|n2]; auto; exfalso; [apply n2; right; auto|destruct i2; auto].
  Qed.
  Lemma kept_nodup : (forall c, In c kept -> c <> []) -> List.NoDup kept.
  Proof.
    intros Hne. apply NoDup_nth_error. intros i j Hi E. destruct (nth_error kept i) as [c|] eqn:Ei; [|apply nth_error_None in Ei; lia]. assert (Hc := nth_error_In _ _ Ei). specialize (Hne c Hc). destruct c as [|x c]; [congruence|].
    symmetry in E. eapply (kept_pos name text net i j); eauto; left; auto.
  Qed.
  Lemma kept_nonempty c : In c kept -> c <> [].
  Proof.
    intros Hc. apply filter_In in Hc as [Hc _]. destruct (Proofs_IM1.components_partition _ _ (g_ends name text net)) as (_ & _ & N & _). intros ->. eapply (proj1 (List.Forall_forall _ _) N); eauto.
  Qed.
  Lemma label_comp c t a : In t (n_trans net) -> t_label t = Some a -> (labelled (comp_net c) a <-> touches name c t = true).
  Proof.
    intros Ht L. split.
    - intros (u & Hu & Lu). apply in_map_iff in Hu as (v & <- & Hv). apply filter_In in Hv as [Hv Tv]. cbn in Lu. rewrite (Hlab t v a); auto.
    - intros T. exists (comp_trans c t). split; [apply in_map, filter_In; auto|auto].
  Qed.
  Lemma visible_project c ts has : (forall a, has a = true <-> labelled (comp_net c) a) -> (forall t, In t ts -> In t (n_trans net)) -> visible (project c ts) = List.filter has (visible ts).
  Proof.
    intros Hh. induction ts as [|t ts IH]; intros Hts; [reflexivity|]. unfold Proofs_Decomp.project in *. cbn [List.filter visible]. specialize (IH (fun x Hx => Hts x (or_intror Hx))).
    destruct (t_label t) as [a|] eqn:L.
    - assert (B : has a = touches name c t) by (apply eq_true_iff_eq; rewrite Hh; apply label_comp; auto; apply Hts; left; auto). cbn [List.filter]. rewrite B. destruct (touches name c t); cbn [map visible Model_Decomp.comp_trans t_label]; rewrite ?L, IH; auto.
    - destruct (touches name c t); cbn [map visible Model_Decomp.comp_trans t_label]; rewrite ?L, IH; auto.
  Qed.
  Definition has (c : list nat) (a : nat) : bool := existsb (fun t => match t_label t with Some b => Nat.eqb a b | None => false end) (n_trans (comp_net c)).
  Lemma has_iff c a : has c a = true <-> labelled (comp_net c) a.
  Proof. unfold has. rewrite existsb_exists. split; intros (t & Ht & E); exists t; (split; [auto|]); [destruct (t_label t); [apply Nat.eqb_eq in E; congruence|discriminate]|rewrite E; apply Nat.eqb_refl]. Qed.
  Lemma compose w : (forall a, In a w -> labelled net a) -> forall us : list nat -> list tr, (forall c, In c kept -> (forall u, In u (us c) -> In u (n_trans (comp_net c))) /\ visible (us c) = List.filter (has c) w) ->
    exists ts, (forall t, In t ts -> In t (n_trans net)) /\ visible ts = w /\ forall c, In c kept -> project c ts = us c.
  Proof.
    assert (KN : List.NoDup kept) by (apply kept_nodup, kept_nonempty).
    induction w as [|a w IH]; intros Hw us Hus.
    - set (ts := concat (map (fun d => map lift (us d)) kept)). assert (S : forall c u, In c kept -> In u (us c) -> In u (n_trans (comp_net c)) /\ t_label u = None).
      { intros c u Hc Hu. destruct (Hus c Hc) as [A B]. split; [auto|]. rewrite (lead_rest (us c)), (rest_nil _ B), app_nil_r in Hu. apply lead_silent in Hu. auto. }
      exists ts. assert (L : forall t, In t ts -> In t (n_trans net) /\ t_label t = None).
      { intros t Ht. unfold ts in Ht. apply in_concat in Ht as (l & Hl & Ht). apply in_map_iff in Hl as (c & <- & Hc). apply in_map_iff in Ht as (u & <- & Hu). destruct (S c u Hc Hu) as [A B]. destruct (lift_ok c u A) as (I & _ & E). split; auto. rewrite E in B. exact B. }
      split; [intros t Ht; apply L; auto|]. split; [apply visible_silent; intros u Hu; apply L; auto|]. intros c Hc. unfold ts. rewrite (project_silents us kept KN (fun x Hx => Hx) S c Hc). destruct (in_dec _ c kept); [auto|contradiction].
    - destruct (Hw a (or_introl eq_refl)) as (ta & Hta & La).
      assert (S : forall c u, In c kept -> In u (lead (us c)) -> In u (n_trans (comp_net c)) /\ t_label u = None).
      { intros c u Hc Hu. split; [|apply lead_silent in Hu; auto]. apply (Hus c Hc). rewrite (lead_rest (us c)). apply in_app_iff. auto. }
      set (ts0 := concat (map (fun d => map lift (lead (us d))) kept)).
      assert (L : forall t, In t ts0 -> In t (n_trans net) /\ t_label t = None).
      { intros t Ht. unfold ts0 in Ht. apply in_concat in Ht as (l & Hl & Ht). apply in_map_iff in Hl as (c & <- & Hc). apply in_map_iff in Ht as (u & <- & Hu). destruct (S c u Hc Hu) as [A B]. destruct (lift_ok c u A) as (I & _ & E). split; auto. rewrite E in B. exact B. }
      assert (P0 : forall c, In c kept -> project c ts0 = lead (us c)).
      { intros c Hc. unfold ts0. rewrite (project_silents (fun d => lead (us d)) kept KN (fun x Hx => Hx) S c Hc). destruct (in_dec _ c kept); [auto|contradiction]. }
      set (vs := fun c => if touches name c ta then tl (rest (us c)) else rest (us c)).
      assert (R : forall c, In c kept -> rest (us c) = (if touches name c ta then [comp_trans c ta] else []) ++ vs c /\ (forall u, In u (vs c) -> In u (n_trans (comp_net c))) /\ visible (vs c) = List.filter (has c) w).
      { intros c Hc. destruct (Hus c Hc) as [A B]. assert (Rin : forall u, In u (rest (us c)) -> In u (n_trans (comp_net c))) by (intros u Hu; apply A; rewrite (lead_rest (us c)); apply in_app_iff; auto).
        assert (Ha : has c a = touches name c ta) by (apply eq_true_iff_eq; rewrite has_iff; apply label_comp; auto). cbn [List.filter] in B. rewrite Ha in B. unfold vs. destruct (touches name c ta) eqn:T.
        - apply rest_cons in B as (u & r & E & Lu & V). rewrite E in *. cbn [tl app]. split; [f_equal|split; [intros x Hx; apply Rin; right; auto|auto]]. destruct (lift_ok c u (Rin u (or_introl eq_refl))) as (I & _ & Eu). rewrite Eu. f_equal. apply (Hlab _ _ a); auto. rewrite Eu in Lu. exact Lu.
        - split; [reflexivity|]. split; [auto|]. rewrite visible_rest. auto. }
      destruct (IH (fun x Hx => Hw x (or_intror Hx)) vs) as (ts & I & V & P); [intros c Hc; apply R; auto|]. exists (ts0 ++ ta :: ts). split; [|split].
      + intros t Ht. apply in_app_iff in Ht as [Ht|[<-|Ht]]; auto. apply L; auto.
      + rewrite visible_app, (visible_silent ts0) by (intros u Hu; apply L; auto). cbn. rewrite La, V. auto.
      + intros c Hc. rewrite project_app, (P0 c Hc). change (ta :: ts) with ([ta] ++ ts). rewrite project_app, (P c Hc). rewrite (lead_rest (us c)) at 2. f_equal. destruct (R c Hc) as (E & _). rewrite E. f_equal. unfold Proofs_Decomp.project. cbn. destruct (touches name c ta); auto.
  Qed.
End C.
