(** Shortest silent paths, and what the replay of one trace returns. *)
From stdpp Require Import gmap.
From Coq Require Import ZArith QArith Lia.
From Verif Require Import Model_Petri Spec_Petri Proofs_Petri Model_Lev Proofs_Lev Model_Dict Proofs_Dict Model_Replay Spec_Replay Proofs_Replay1 Proofs_Replay2.
Local Open Scope Z_scope.

Section Paths.
  Context (pn : petri_net (option nat)) (aord : list ptrans -> list ptrans).
  Hypothesis Haord : forall l, Permutation (aord l) l.

  Lemma consumers_in p t : In t (consumers pn aord p) <-> In t (n_trans pn) /\ In p (map fst (t_in t)).
  Proof.
    unfold consumers. split.
    - intros H. apply (Permutation_in _ (Haord _)) in H. apply filter_In in H as [Hin H]. split; [exact Hin|].
      apply existsb_exists in H as [a [Ha E]]. apply Nat.eqb_eq in E. apply in_map_iff. exists a. auto.
    - intros [Hin H]. apply (Permutation_in _ (Permutation_sym (Haord _))). apply filter_In. split; [exact Hin|].
      apply in_map_iff in H as [a [E Ha]]. apply existsb_exists. exists a. split; [exact Ha|]. apply Nat.eqb_eq, E.
  Qed.
  Lemma silent_none t : silent t = true <-> t_label t = None.
  Proof. unfold silent. destruct (t_label t); split; congruence. Qed.

  Definition paths_body (fuel' : nat) (actual : list ptrans) (t : ptrans) (d : dict nat (list ptrans)) (a : nat * Z) :=
    let better := match d_get d (fst a) with
                  | None => true
                  | Some l => Nat.ltb (length actual + 1) (length l)
                  end in
    if better then paths_from pn aord fuel' (fst a) (d_set d (fst a) (actual ++ [t])) (actual ++ [t]) else d.
  Lemma paths_from_S fuel cur d actual :
    paths_from pn aord (S fuel) cur d actual =
    fold_left (fun d t => if silent t then fold_left (paths_body fuel actual t) (t_out t) d else d) (consumers pn aord cur) d.
  Proof. reflexivity. Qed.

  (** soundness *)
  Section Sound.
    Variable p0 : nat.
    Definition sound (d : dict nat (list ptrans)) : Prop := forall q g, d_get d q = Some g -> silent_path pn p0 g q.
    Definition at_place (actual : list ptrans) (cur : nat) : Prop :=
      (actual = [] /\ cur = p0) \/ silent_path pn p0 actual cur.
    Lemma extend actual cur t q : at_place actual cur -> In t (consumers pn aord cur) -> silent t = true ->
      In q (map fst (t_out t)) -> silent_path pn p0 (actual ++ [t]) q.
    Proof.
      intros Ha Ht Hl Hq. apply consumers_in in Ht as [Hin Hc]. apply silent_none in Hl.
      destruct Ha as [[-> ->]|Ha]; [apply sp_one; assumption|]. eapply sp_snoc; eassumption.
    Qed.
    Lemma paths_sound fuel : forall cur d actual, sound d -> at_place actual cur -> sound (paths_from pn aord fuel cur d actual).
    Proof.
      induction fuel as [|fuel IH]; intros cur d actual Hd Ha; [exact Hd|]. rewrite paths_from_S.
      assert (Hc : forall t, In t (consumers pn aord cur) -> In t (consumers pn aord cur)) by auto.
      revert d Hd Hc. generalize (consumers pn aord cur) at 1 3. intros l.
      induction l as [|t l IHl]; intros d Hd Hc; cbn [fold_left]; [exact Hd|].
      apply IHl; [|intros u Hu; apply Hc; right; exact Hu].
      destruct (silent t) eqn:Es; [|exact Hd].
      assert (Ho : forall a, In a (t_out t) -> In a (t_out t)) by auto.
      revert d Hd Ho. generalize (t_out t) at 1 3. intros outs.
      induction outs as [|a outs IHo]; intros d Hd Ho; cbn [fold_left]; [exact Hd|].
      apply IHo; [|intros b Hb; apply Ho; right; exact Hb]. unfold paths_body. cbn zeta.
      assert (Hp : silent_path pn p0 (actual ++ [t]) (fst a)).
      { eapply extend; [exact Ha|apply Hc; left; reflexivity|exact Es|]. apply in_map. apply Ho. left. reflexivity. }
      destruct (match d_get d (fst a) with Some l0 => Nat.ltb (length actual + 1) (length l0) | None => true end); [|exact Hd].
      apply IH; [|right; exact Hp]. intros q g. rewrite d_get_set. destruct (keqb_spec (fst a) q) as [<-|]; [|apply Hd].
      intros [= <-]. exact Hp.
    Qed.
  End Sound.

  (** minimality *)
  Section Min.
    Variable B : nat.
    Definition edge (q : nat) (t : ptrans) (r : nat) : Prop :=
      In t (n_trans pn) /\ t_label t = None /\ In q (map fst (t_in t)) /\ In r (map fst (t_out t)).
    Definition atmost (d : dict nat (list ptrans)) (q n : nat) : Prop :=
      exists g, d_get d q = Some g /\ (length g <= n)%nat.
    Definition closed (d : dict nat (list ptrans)) (q : nat) : Prop :=
      forall g, d_get d q = Some g -> (length g < B)%nat -> forall t r, edge q t r -> atmost d r (length g + 1).
    Definition post (d d' : dict nat (list ptrans)) : Prop :=
      (forall q n, atmost d q n -> atmost d' q n) /\
      (forall q g', d_get d' q = Some g' -> (exists g, d_get d q = Some g /\ length g = length g') \/ closed d' q).
    Lemma post_refl d : post d d.
    Proof. split; [auto|]. intros q g H. left. exists g. auto. Qed.
    Lemma post_trans d d1 d2 : post d d1 -> post d1 d2 -> post d d2.
    Proof.
      intros [M1 C1] [M2 C2]. split; [auto|]. intros q g2 H2.
      destruct (C2 q g2 H2) as [[g1 [H1 E1]]|]; [|right; assumption].
      destruct (C1 q g1 H1) as [[g [H E]]|Hc]; [left; exists g; split; [exact H|congruence]|].
      right. intros g Hg Hlt t r He. rewrite H2 in Hg. injection Hg as <-. apply M2.
      rewrite <- E1. rewrite <- E1 in Hlt. exact (Hc g1 H1 Hlt t r He).
    Qed.
    Lemma paths_post fuel : forall cur d actual, (length actual + fuel = B)%nat ->
      let d' := paths_from pn aord fuel cur d actual in
      post d d' /\ (fuel <> 0%nat -> forall t r, edge cur t r -> atmost d' r (length actual + 1)).
    Proof.
      induction fuel as [|fuel IH]; intros cur d actual HB; [split; [apply post_refl|congruence]|].
      cbn zeta. rewrite paths_from_S.
      assert (H : forall l d, let d' := fold_left (fun d t => if silent t then fold_left (paths_body fuel actual t) (t_out t) d else d) l d in
        post d d' /\ forall t r, In t l -> edge cur t r -> atmost d' r (length actual + 1)).
      { induction l as [|t l IHl]; intros d1; cbn zeta; cbn [fold_left]; [split; [apply post_refl|intros t r []]|].
        set (d2 := if silent t then fold_left (paths_body fuel actual t) (t_out t) d1 else d1).
        assert (H2 : post d1 d2 /\ forall r, edge cur t r -> atmost d2 r (length actual + 1)).
        { unfold d2. destruct (silent t) eqn:Es.
          - assert (Ho : forall outs d, post d (fold_left (paths_body fuel actual t) outs d) /\
              forall r, In r (map fst outs) -> atmost (fold_left (paths_body fuel actual t) outs d) r (length actual + 1)).
            { induction outs as [|a outs IHo]; intros e; cbn [fold_left map]; [split; [apply post_refl|intros r []]|].
              assert (Hb : post e (paths_body fuel actual t e a) /\ atmost (paths_body fuel actual t e a) (fst a) (length actual + 1)).
              { unfold paths_body. cbn zeta.
                destruct (match d_get e (fst a) with Some l0 => Nat.ltb (length actual + 1) (length l0) | None => true end) eqn:Eb.
                - set (e1 := d_set e (fst a) (actual ++ [t])).
                  assert (HB' : (length (actual ++ [t]) + fuel = B)%nat) by (rewrite app_length; cbn; lia).
                  destruct (IH (fst a) e1 (actual ++ [t]) HB') as [[M C] Hcl].
                  assert (Hq : atmost e1 (fst a) (length actual + 1)).
                  { exists (actual ++ [t]). unfold e1. rewrite d_get_set. destruct (keqb_spec (fst a) (fst a)); [|congruence].
                    split; [reflexivity|rewrite app_length; cbn; lia]. }
                  split; [|apply M, Hq]. split.
                  + intros q n [g [Hg Hn]]. apply M. unfold e1. destruct (Nat.eq_dec (fst a) q) as [<-|Hne].
                    * rewrite Hg in Eb. apply Nat.ltb_lt in Eb. exists (actual ++ [t]). rewrite d_get_set.
                      destruct (keqb_spec (fst a) (fst a)); [|congruence]. split; [reflexivity|rewrite app_length; cbn; lia].
                    * exists g. rewrite d_get_set. destruct (keqb_spec (fst a) q); [congruence|]. auto.
                  + intros q g' Hg'. destruct (C q g' Hg') as [[g [Hg E]]|]; [|right; assumption].
                    unfold e1 in Hg. rewrite d_get_set in Hg. destruct (keqb_spec (fst a) q) as [<-|Hne].
                    * right. injection Hg as <-. intros g Hg0 Hlt t' r He. rewrite Hg' in Hg0. injection Hg0 as <-.
                      rewrite <- E. apply (Hcl ltac:(rewrite app_length in E; cbn in E; lia) t' r He).
                    * left. exists g. auto.
                - split; [apply post_refl|]. destruct (d_get e (fst a)) as [g|] eqn:Eg; [|discriminate].
                  apply Nat.ltb_ge in Eb. exists g. auto. }
              destruct Hb as [P1 A1]. destruct (IHo (paths_body fuel actual t e a)) as [P2 A2].
              split; [eapply post_trans; eassumption|]. intros r [<-|Hr]; [apply P2, A1|apply A2, Hr]. }
            destruct (Ho (t_out t) d1) as [P A]. split; [exact P|]. intros r (_ & _ & _ & Hr). apply A, Hr.
          - split; [apply post_refl|]. intros r (_ & Hl & _). apply silent_none in Hl. congruence. }
        destruct H2 as [P1 A1]. destruct (IHl d2) as [P2 A2]. split; [eapply post_trans; eassumption|].
        intros u r [<-|Hu] He; [apply P2, A1, He|apply (A2 u r Hu He)]. }
      destruct (H (consumers pn aord cur) d) as [P A]. split; [exact P|]. intros _ t r He.
      apply (A t r); [|exact He]. apply consumers_in. split; apply He.
    Qed.
    Lemma paths_min p : (0 < B)%nat -> forall ts q, silent_path pn p ts q -> (length ts <= B)%nat ->
      atmost (paths_from pn aord B p [] []) q (length ts).
    Proof.
      intros HB. destruct (paths_post B p [] [] (eq_refl)) as [[M C] A]. cbn zeta in *.
      set (d := paths_from pn aord B p [] []) in *. clearbody d.
      assert (HC : forall q, closed d q).
      { intros q g Hg. destruct (C q g Hg) as [[g0 [H0 _]]|H]; [discriminate|]. apply (H g Hg). }
      intros ts q Hp. induction Hp as [p t q Hin Hl Hi Ho|p ts r t q Hp IH Hin Hl Hi Ho]; intros Hlen.
      - apply (A ltac:(lia) t q). repeat split; assumption.
      - rewrite app_length in *. cbn [length] in *. destruct (IH A ltac:(lia)) as [g [Hg Hle]].
        destruct (HC r g Hg ltac:(lia) t q) as [g' [Hg' Hle']]; [repeat split; assumption|].
        exists g'. split; [exact Hg'|lia].
    Qed.
  End Min.

  Lemma hidden_paths_get lim p : In p (n_places pn) ->
    d_get (hidden_paths pn lim aord) p = Some (paths_from pn aord (S (l_paths lim)) p [] []).
  Proof.
    unfold hidden_paths. induction (n_places pn) as [|q l IH]; intros H; [destruct H|]. cbn [map d_get].
    destruct (keqb_spec q p) as [->|Hne]; [reflexivity|]. destruct H as [->|H]; [congruence|]. apply IH, H.
  Qed.
  Lemma hidden_paths_sound lim p q g : path_lookup (hidden_paths pn lim aord) p q = Some g -> silent_path pn p g q.
  Proof.
    unfold path_lookup. destruct (d_get (hidden_paths pn lim aord) p) as [d|] eqn:E; [|discriminate]. intros H.
    assert (E' : d = paths_from pn aord (S (l_paths lim)) p [] []).
    { apply d_get_in in E. unfold hidden_paths in E. apply in_map_iff in E as [p' [E _]]. congruence. }
    subst d. assert (Hs0 : sound p []) by (intros ? ? ?; discriminate).
    exact (paths_sound p (S (l_paths lim)) p [] [] Hs0 (or_introl (conj eq_refl eq_refl)) q g H).
  Qed.
  Lemma silent_path_hid p g q : silent_path pn p g q -> List.Forall (hid pn) g.
  Proof.
    induction 1; [repeat constructor; assumption|]. apply Forall_app_2; [assumption|repeat constructor; assumption].
  Qed.
  Lemma hidden_paths_ok lim : paths_ok pn (hidden_paths pn lim aord).
  Proof.
    intros p d q g Hd Hg. apply (silent_path_hid p g q). apply (hidden_paths_sound lim). unfold path_lookup. rewrite Hd. exact Hg.
  Qed.
End Paths.
