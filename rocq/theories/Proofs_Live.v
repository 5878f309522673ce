From Coq Require Import List Arith Lia Permutation Bool.
Import ListNotations.
From Verif Require Import Model_Live.

Section Proofs.
  Context {event observer : Type}.
  Notation st := (@Model_Live.st event observer).
  Variables (n : nat) (obs : list observer).
  Definition jobs (es : list event) : list (event * observer) := flat_map (fun e => map (pair e) obs) es.
  Lemma jobs_app a b : jobs (a ++ b) = jobs a ++ jobs b. Proof. apply flat_map_app. Qed.

  Ltac unf := unfold append, deliver, stop_check, stop_finish, start, notify in *.
  Ltac brk := repeat (match goal with
    | |- context [match waiters ?s with _ => _ end] => destruct (waiters s) as [|[|] ?] eqn:?
    | |- context [match state ?s with _ => _ end] => destruct (state s) eqn:?
    | |- context [match dq ?s with _ => _ end] => destruct (dq s) eqn:?
    | |- context [if closed ?s then _ else _] => destruct (closed s) eqn:?
    end; cbn [dq state man stop waiters queue running closed processed accepted] in *).

  (** What notify does not change *)
  Lemma notify_same (s : st) : dq (notify s) = dq s /\ state (notify s) = state s /\ queue (notify s) = queue s /\ running (notify s) = running s /\
    closed (notify s) = closed s /\ processed (notify s) = processed s /\ accepted (notify s) = accepted s.
  Proof. unfold notify. destruct (waiters s) as [|[|] ?]; cbn; repeat split; auto. Qed.

  (** Intended runs: the pool is closed only from shutdown() on, with the deque empty for ever. *)
  Record inv (s : st) : Prop := {
    i_perm : Permutation (processed s ++ running s ++ queue s ++ jobs (dq s)) (jobs (accepted s));
    i_order : n = 1 -> processed s ++ running s ++ queue s ++ jobs (dq s) = jobs (accepted s);
    i_run : length (running s) <= n }.
  Lemma inv_notify (s : st) : inv s -> inv (notify s).
  Proof. destruct (notify_same s) as (E1 & E2 & E3 & E4 & E5 & E6 & E7). intros []. constructor; rewrite ?E1, ?E3, ?E4, ?E6, ?E7; auto. Qed.
  Definition not_crashing (s : st) : Prop := closed s = true -> dq s = [].
  Lemma inv_env (s s' : st) : inv s -> env_step s s' -> inv s'.
  Proof.
    intros H Hs. inversion Hs as [e s0 L|s0 L M|s0 E]; subst; clear Hs.
    - unfold append. destruct (state s) eqn:Es; auto; apply inv_notify; destruct H; constructor; cbn; auto;
        try (intros; rewrite !jobs_app, !app_assoc); try (rewrite jobs_app, !app_assoc in *; auto).
      all: try (rewrite <- (i_order0 ltac:(auto)), !app_assoc; auto).
      all: try (apply Permutation_app_tail; rewrite <- !app_assoc; auto).
    - destruct H; constructor; cbn; auto.
    - destruct H; constructor; cbn; auto.
  Qed.
  Lemma inv_int (s s' : st) : not_crashing s -> inv s -> int_step n obs s s' -> inv s'.
  Proof.
    intros NC H Hs. inversion Hs as [s0 L M|s0 L E|s0 E Q R|s0 t q E L|s0 t r1 r2 E]; subst; clear Hs.
    - unfold deliver. destruct (dq s) as [|e r] eqn:D.
      + assert (G := inv_notify s H). destruct (state (notify s)); destruct G; constructor; cbn; auto.
      + unfold not_crashing in NC. rewrite D in NC. destruct (closed s); [specialize (NC eq_refl); discriminate|].
        destruct H; constructor; cbn; auto; rewrite D in *; cbn [jobs flat_map] in *; rewrite <- ?app_assoc in *; auto.
    - unfold stop_check. destruct (dq s) eqn:D; destruct H; constructor; cbn; auto; rewrite D in *; auto.
    - unfold stop_finish. destruct (state s); [|apply inv_notify|]; destruct H; constructor; cbn; auto.
    - destruct H; constructor; cbn; rewrite E in *; auto.
      + rewrite <- app_assoc. auto.
      + rewrite <- app_assoc. auto.
      + rewrite app_length. cbn. lia.
    - destruct H; constructor; cbn; rewrite E in *; auto.
      + eapply perm_trans; [|exact i_perm0]. rewrite <- !app_assoc. apply Permutation_app_head. cbn [app].
        apply Permutation_middle.
      + intros ->. specialize (i_order0 eq_refl). rewrite app_length in i_run0. cbn in i_run0. destruct r1; [|cbn in i_run0; lia].
        cbn [app] in *. rewrite <- app_assoc. auto.
      + rewrite app_length in *. cbn in *. lia.
  Qed.

  (** The control part of intended runs. *)
  Record ctl (s : st) : Prop := {
    c_man : man s = Ready \/ man s = Waiting \/ man s = Returned;
    c_state : state s = Active \/ state s = Finished;
    c_fin : state s = Finished <-> stop s = Stopped;
    c_ret : man s = Returned -> state s = Finished;
    c_closed : closed s = true <-> stop s = Shutting \/ stop s = Stopped;
    c_empty : closed s = true -> dq s = [];
    c_idle : stop s = Stopped -> queue s = [] /\ running s = [];
    c_wait : waiters s = match man s, stop s with Waiting, _ => [MailMan] | _, Blocked => [Stopper] | _, _ => [] end;
    c_both : man s = Waiting -> stop s <> Blocked /\ dq s = [] /\ state s = Active }.
  Ltac fin := repeat split; try (intros; try discriminate; auto; congruence || tauto); try (intros [?|?]; congruence).
  Lemma ctl_env (s s' : st) : ctl s -> env_step s s' -> ctl s'.
  Proof.
    intros H Hs. inversion Hs as [e s0 [L L'] |s0 L M|s0 E]; subst; clear Hs; destruct H as [A B C D E' F I G J].
    - unfold append. destruct B as [B|B]; rewrite B in *.
      2:{ constructor; rewrite ?B; auto. }
      assert (closed s = false). { destruct (closed s); auto. destruct (proj1 E' eq_refl) as [X|X]; [congruence|]. apply C in X. discriminate. }
      unfold notify; cbn [waiters dq state man stop queue running closed processed accepted].
      destruct A as [A|[A|A]].
      + rewrite A in *. rewrite G. destruct (stop s) eqn:S; constructor; cbn; rewrite ?S, ?A; auto; try congruence; try tauto; fin.
      + rewrite A in *. rewrite G. destruct (J eq_refl) as (J1 & J2 & J3). destruct (stop s) eqn:S; constructor; cbn; rewrite ?S, ?A; auto; try congruence; try tauto; fin.
      + apply D in A. congruence.
    - destruct A as [A|[A|A]]; congruence.
    - constructor; cbn; rewrite ?E in *; auto.
      + rewrite C. split; congruence.
      + rewrite E'. split; intros [?|?]; congruence.
      + congruence.
      + intros X. destruct (J X) as (? & ? & ?). repeat split; auto; congruence.
  Qed.
  Lemma ctl_int (s s' : st) : ctl s -> int_step n obs s s' -> ctl s'.
  Proof.
    intros H Hs. inversion Hs as [s0 [L L'] M|s0 [L L'] E|s0 E Q R|s0 t q E L|s0 t r1 r2 E]; subst; clear Hs; destruct H as [A B C D E' F I G J].
    - unfold deliver. rewrite M in G. destruct (dq s) as [|e r] eqn:Dq.
      + unfold notify. rewrite G. destruct (stop s) eqn:S; cbn [waiters dq state man stop queue running closed processed accepted]; try congruence;
          destruct B as [B|B]; rewrite B; try (rewrite (proj1 C B) in S; discriminate); constructor; cbn; rewrite ?S, ?B, ?Dq; auto; try congruence; try tauto; fin.
        all: try (destruct C as [C1 C2]; rewrite S in *; specialize (C2 eq_refl); congruence).
        all: try (destruct E' as [E1 E2]; intuition congruence).
        all: rewrite G; reflexivity.
      + destruct (closed s) eqn:Cl; [specialize (F eq_refl); discriminate|].
        constructor; cbn; rewrite ?Cl; auto; try congruence; try tauto; fin.
        all: try (intros X; destruct E' as [E1 E2]; specialize (E2 (or_intror X)); congruence).
        all: exfalso; destruct E' as [_ E2]; specialize (E2 (or_intror H)); discriminate.
    - unfold stop_check. rewrite E in G. assert (Cl : closed s = false). { destruct (closed s); auto. destruct (proj1 E' eq_refl); congruence. }
      assert (Ac : state s = Active). { destruct B as [B|B]; auto. apply C in B. congruence. }
      destruct (dq s) as [|e r] eqn:Dq.
      + constructor; cbn; rewrite ?E, ?Dq, ?Ac in *; auto; try congruence; try tauto; fin.
        all: try (intros X; destruct (J X) as (? & ? & ?); auto; congruence).
      + constructor; cbn; rewrite ?E, ?Dq, ?Ac, ?Cl in *; auto; try congruence; try tauto; fin.
        all: try (intros X; destruct (J X) as (? & ? & ?); auto; congruence).
        all: try (intros [?|?]; discriminate).
        all: try (destruct (J ltac:(assumption)) as (? & ? & ?); discriminate).
        rewrite G. destruct A as [A|[A|A]]; rewrite A; auto. destruct (J A) as (? & ? & ?). discriminate.
    - unfold stop_finish. assert (Ac : state s = Active). { destruct B as [B|B]; auto. apply C in B. congruence. }
      rewrite Ac. unfold notify. cbn [waiters dq state man stop queue running closed processed accepted]. rewrite E in G. rewrite G.
      assert (Cl : closed s = true) by (apply E'; auto).
      destruct A as [A|[A|A]]; rewrite A in *; constructor; cbn; rewrite ?A; auto; try congruence; try tauto; fin.
    - constructor; cbn; auto. intros X. destruct (I X). congruence.
    - constructor; cbn; auto. intros X. destruct (I X) as [_ I2]. rewrite E in I2. destruct r1; discriminate.
  Qed.

  Lemma pre_reach (s : st) : reach n obs s -> stop s = NotCalled ->
    inv s /\ closed s = false /\ ((man s = NotStarted /\ state s = Inactive /\ waiters s = []) \/ ctl s).
  Proof.
    induction 1 as [|s s' Hr IH Hs|s s' Hr IH Hs]; intros E.
    - split; [constructor; cbn; auto; lia|]. split; auto.
    - assert (E0 : stop s = NotCalled). { inversion Hs; subst; unfold append, start, notify in E; cbn in E; auto; try discriminate.
        destruct (state s), (waiters s) as [|[|] ?]; cbn in E; auto; discriminate. }
      destruct (IH E0) as (I1 & I2 & I3). split; [eapply inv_env; eauto|].
      inversion Hs as [e s0 [L L']|s0 L M|s0 EE]; subst.
      + split. { unfold append. destruct (state s) eqn:St; auto; match goal with |- closed (notify ?x) = _ => destruct (notify_same x) as (? & ? & ? & ? & -> & ? & ?) end; auto. }
        destruct I3 as [(M1 & M2 & M3)|I3]; [left|right; eapply ctl_env; eauto].
        unfold append, notify. rewrite M2. cbn. rewrite M3. cbn. auto.
      + split; auto. right. destruct I3 as [(M1 & M2 & M3)|[A]]; [|destruct A as [?|[?|?]]; congruence].
        constructor; cbn; auto; try congruence; try tauto; try (rewrite E0; split; congruence); try (rewrite E0, M3; auto).
        rewrite I2, E0. split; [discriminate|intros [?|?]; discriminate].
      + discriminate.
    - assert (E0 : stop s = NotCalled). { inversion Hs as [s0 L M|s0 L EE|s0 EE Q R|s0 t q EE L|s0 t r1 r2 EE]; subst; cbn in E; auto; try congruence.
        - unfold deliver, notify in E. destruct (dq s); [destruct (waiters s) as [|[|] ?]; cbn in E; destruct (state s); cbn in E; auto; discriminate|].
          destruct (closed s); cbn in E; auto.
        - unfold stop_check in E. destruct (dq s); discriminate.
        - unfold stop_finish, notify in E. destruct (state s); cbn in E; try discriminate. destruct (waiters s) as [|[|] ?]; discriminate. }
      destruct (IH E0) as (I1 & I2 & I3). split; [eapply inv_int; eauto; unfold not_crashing; congruence|].
      split.
      { inversion Hs as [s0 L M|s0 L EE|s0 EE Q R|s0 t q EE L|s0 t r1 r2 EE]; subst; cbn; auto; try congruence.
        unfold deliver, notify. destruct (dq s); [destruct (waiters s) as [|[|] ?]; cbn; destruct (state s); auto|]. destruct (closed s); auto. }
      destruct I3 as [(M1 & M2 & M3)|I3]; [left|right; eapply ctl_int; eauto].
      inversion Hs as [s0 L M|s0 L EE|s0 EE Q R|s0 t q EE L|s0 t r1 r2 EE]; subst; cbn; auto; congruence.
  Qed.
  Lemma started (s : st) : reach_started n obs s -> inv s /\ ctl s.
  Proof.
    induction 1 as [s Hr E M A|s s' Hr [I1 I2] Hs|s s' Hr [I1 I2] Hs].
    - destruct (pre_reach s Hr E) as (I1 & _ & [(M1 & _)|I3]); auto. congruence.
    - split; [eapply inv_env; eauto|eapply ctl_env; eauto].
    - split; [|eapply ctl_int; eauto]. eapply inv_int; eauto. exact (c_empty s I2).
  Qed.

  (** Safety *)
  Theorem at_stop (s : st) : reach_started n obs s -> stop s = Stopped -> Permutation (processed s) (jobs (accepted s)).
  Proof.
    intros H E. destruct (started s H) as [[P _ _] C]. destruct (c_idle s C E) as [Q R].
    assert (D : dq s = []) by (apply (c_empty s C), (c_closed s C); auto). rewrite Q, R, D in P. cbn in P. rewrite app_nil_r in P. auto.
  Qed.
  Theorem at_most (s : st) : reach_started n obs s -> exists rest, Permutation (processed s ++ rest) (jobs (accepted s)).
  Proof. intros H. destruct (started s H) as [[P _ _] C]. eexists. exact P. Qed.
  Theorem in_order (s : st) : n = 1 -> reach_started n obs s -> exists rest, processed s ++ rest = jobs (accepted s).
  Proof. intros E H. destruct (started s H) as [[_ O _] C]. eexists. apply O. exact E. Qed.
  Theorem no_crash (s : st) : reach_started n obs s -> man s <> Crashed.
  Proof. intros H. destruct (started s H) as [_ C]. destruct (c_man s C) as [?|[?|?]]; congruence. Qed.

  (** Progress *)
  Definition done (s : st) : Prop := stop s = Stopped /\ man s = Returned.
  Theorem progress (s : st) : 0 < n -> reach_started n obs s -> stop s <> NotCalled -> ~ done s -> exists s', int_step n obs s s'.
  Proof.
    intros Hn H Hc Hd. destruct (started s H) as [I C]. destruct C as [A B Cf D E' F Id G J].
    destruct (running s) as [|t r] eqn:R; [|eexists; apply (step_receive n obs s t [] r); auto].
    destruct (queue s) as [|t q] eqn:Q; [|eexists; eapply (step_take n obs s t q); auto; rewrite R; cbn; lia].
    destruct (stop s) eqn:S; try congruence.
    - eexists. apply step_check; auto. split; [congruence|destruct A as [?|[?|?]]; congruence].
    - destruct A as [A|[A|A]].
      + eexists. apply step_deliver; auto. split; congruence.
      + destruct (J A). congruence.
      + apply D in A. apply Cf in A. congruence.
    - eexists. apply step_finish; auto.
    - destruct A as [A|[A|A]].
      + eexists. apply step_deliver; auto. split; congruence.
      + destruct (J A) as (? & ? & X). rewrite (proj2 Cf eq_refl) in X. discriminate.
      + exfalso. apply Hd. split; auto.
  Qed.
  Definition w_man (m : mailman) : nat := match m with Ready => 2 | _ => 0 end.
  Definition w_stop (x : stopper) : nat := match x with Checking => 5 | Blocked => 4 | Shutting => 3 | _ => 0 end.
  Definition measure (s : st) : nat :=
    length (dq s) * (2 * length obs + 1) + 2 * length (queue s) + length (running s) + w_man (man s) + w_stop (stop s).
  Lemma measure_dec (s s' : st) : ctl s -> int_step n obs s s' -> measure s' < measure s.
  Proof.
    intros C Hs. destruct C as [A B Cf D E' F Id G J]. unfold measure.
    inversion Hs as [s0 [L L'] M|s0 [L L'] E|s0 E Q R|s0 t q E L|s0 t r1 r2 E]; subst; clear Hs.
    - unfold deliver. rewrite M in *. destruct (dq s) as [|e r] eqn:Dq.
      + unfold notify. rewrite G. destruct (stop s) eqn:S; try congruence; cbn [waiters dq state man stop queue running closed processed accepted];
          destruct B as [B|B]; rewrite B; cbn; rewrite ?S, ?Dq; cbn; lia.
      + destruct (closed s); [specialize (F eq_refl); discriminate|]. cbn. rewrite app_length, map_length. lia.
    - unfold stop_check. destruct (dq s) eqn:Dq; cbn; rewrite ?Dq, ?E; cbn; lia.
    - unfold stop_finish. destruct (state s) eqn:S; cbn; rewrite ?E; cbn; try lia.
      unfold notify. cbn. rewrite G, E. destruct A as [A|[A|A]]; rewrite A; cbn; rewrite ?A; cbn; lia.
    - cbn. rewrite E, app_length. cbn. lia.
    - cbn. rewrite E, !app_length. cbn. lia.
  Qed.
  Theorem terminates (s : st) : reach_started n obs s -> Acc (fun b a => int_step n obs a b) s.
  Proof.
    remember (measure s) as m eqn:Em. revert s Em. induction m as [m IH] using lt_wf_ind. intros s -> H. constructor. intros s' Hs.
    apply (IH (measure s')); auto; [|eapply rs_int; eauto]. apply measure_dec; auto. apply (started s H).
  Qed.
End Proofs.
