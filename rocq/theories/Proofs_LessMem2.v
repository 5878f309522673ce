(** Deterministic nets: fitting traces are aligned without deviations. *)
From stdpp Require Import gmap.
From Coq Require Import ZArith Lia Permutation Sorted.
From Verif Require Import Model_Petri Spec_Petri Model_Align Spec_Align Model_Lev Model_LessMem Spec_LessMem
  Proofs_Petri Proofs_Dijkstra Proofs_Lev Proofs_LessMem.
Local Open Scope Z_scope.

Definition lexle (a b : lnode) : Prop := l_cost a < l_cost b \/ (l_cost a = l_cost b /\ (l_pos b <= l_pos a)%nat).
Lemma lnode_lt_lex a b : lnode_lt a b = true -> lexle a b.
Proof.
  unfold lnode_lt, lexle. destruct (Z.ltb_spec (l_cost a) (l_cost b)); [lia|].
  destruct (Z.ltb_spec (l_cost b) (l_cost a)); [discriminate|].
  destruct (Nat.ltb_spec (l_pos b) (l_pos a)); [lia|]. destruct (Nat.ltb_spec (l_pos a) (l_pos b)); [discriminate|lia].
Qed.
Lemma lnode_nlt_lex a b : lnode_lt a b = false -> lexle b a.
Proof.
  unfold lnode_lt, lexle. destruct (Z.ltb_spec (l_cost a) (l_cost b)); [discriminate|].
  destruct (Z.ltb_spec (l_cost b) (l_cost a)); [lia|].
  destruct (Nat.ltb_spec (l_pos b) (l_pos a)); [discriminate|]. destruct (Nat.ltb_spec (l_pos a) (l_pos b)); lia.
Qed.
Lemma lheap_pop_lex h x r : lheap_pop h = Some (x, r) -> forall n, In n h -> lexle x n.
Proof.
  revert x r. induction h as [|a h IH]; intros x r; cbn [lheap_pop]; [discriminate|].
  destruct (lheap_pop h) as [[y r']|] eqn:E.
  - specialize (IH y r' eq_refl). destruct (lnode_lt y a) eqn:El; intros [= <- <-] n [<-|Hn].
    + apply lnode_lt_lex, El.
    + apply IH, Hn.
    + unfold lexle. lia.
    + apply lnode_nlt_lex in El. specialize (IH n Hn). unfold lexle in *. lia.
  - apply lheap_pop_none in E. subst h. intros [= <- <-] n [<-|[]]. unfold lexle. lia.
Qed.

Section Det.
  Context (pn : petri_net (option nat)) (im fm : marking) (trace : list nat).
  Context (Hsn : simple_net pn) (Him : proper im) (Hdet : deterministic_from pn im).
  Let cs := std_costs pn trace.

  Definition DetInv (i : nat) (m : marking) (closed : list (marking * nat)) (open : list lnode) : Prop :=
    (exists n, In n open /\ l_cost n = 0 /\ l_pos n = i /\ l_m n = m) /\
    (forall n, In n open -> 0 <= l_cost n) /\
    (forall n, In n open -> l_cost n = 0 -> (l_pos n <= i)%nat /\ (l_pos n = i -> l_m n = m)) /\
    (forall m q, In (m, q) closed -> (q < i)%nat).

  Lemma det_loop ts : forall fuel i m closed open cnt,
    (length ts < fuel)%nat -> (i <= length trace)%nat -> reachable pn im m -> run pn m ts fm -> visible ts = drop i trace ->
    DetInv i m closed open -> exists n, lm_loop pn fm trace cs fuel closed open cnt = LFound n /\ l_cost n = 0.
  Proof.
    induction ts as [|t ts IH]; intros fuel i m closed open cnt Hfuel Hi Hreach Hrun Hvis ((n0 & Hn0 & Ec0 & Ep0 & Em0) & Hnn & Hz & Hcl);
      (destruct fuel as [|fuel]; [cbn in Hfuel; lia|]); cbn [lm_loop];
      (destruct open as [|x open]; [destruct Hn0|]); set (op := x :: open) in *;
      (destruct (lheap_pop op) as [[curr rest]|] eqn:Hp; [|apply lheap_pop_none in Hp; discriminate]);
      pose proof (lheap_pop_spec _ _ _ Hp) as (H1 & H2 & _);
      (assert (Hcur : In curr op) by (apply H1; auto));
      pose proof (lheap_pop_lex _ _ _ Hp _ Hn0) as Hlex; pose proof (Hnn _ Hcur) as Hcn;
      (assert (Ec : l_cost curr = 0) by (unfold lexle in Hlex; lia));
      destruct (Hz _ Hcur Ec) as [Hple Hpm];
      (assert (Ep : l_pos curr = i) by (unfold lexle in Hlex; lia));
      pose proof (Hpm Ep) as Em;
      (assert (Echk : forall m' p, (i <= p)%nat -> check_closed closed m' p = false) by
         (intros m' p Hle; destruct (check_closed closed m' p) eqn:E; [|reflexivity];
          apply check_closed_true in E as (q & Hin & Hq); specialize (Hcl _ _ Hin); lia));
      rewrite Echk by lia.
    - inversion Hrun; subst. assert (El : l_pos curr = length trace).
      { cbn in Hvis. symmetry in Hvis. apply (f_equal length) in Hvis. rewrite drop_length in Hvis. cbn in Hvis. lia. }
      rewrite El, Nat.eqb_refl. rewrite bool_decide_eq_true_2 by assumption. cbn. exists curr. auto.
    - inversion Hrun as [|? ? m1 ? ? Hf Hr]; subst m0 t0 ts0 m2.
      assert (Hmp : proper m) by (destruct Hreach as [us Hus]; exact (run_proper _ _ _ _ Him Hus)).
      cbn [visible] in Hvis. destruct (t_label t) as [a|] eqn:Elab; [|exfalso; exact (proj1 Hdet _ (proj1 Hf) Elab)].
      assert (Hnth : nth_error trace i = Some a).
      { rewrite <- (take_drop i trace), <- Hvis. rewrite nth_error_app2; rewrite take_length; [|lia].
        replace (i - Nat.min i (length trace))%nat with 0%nat by lia. reflexivity. }
      assert (Hilt : (i < length trace)%nat) by (apply nth_error_Some; rewrite Hnth; discriminate).
      rewrite Ep. replace (Nat.eqb i (length trace)) with false by (symmetry; apply Nat.eqb_neq; lia).
      rewrite andb_false_r. destruct (expand _ _ _ _ _ _ _) as [open' cnt'] eqn:Ee.
      pose proof (expand_spec pn trace cs _ _ _ _ _ _ Ee) as (X1 & X2 & X3 & _ & _).
      assert (Hen : In t (lm_enabled pn m)).
      { apply (lm_enabled_iff pn m t Hsn Hmp). split; [apply Hf|apply Hf]. }
      assert (E1 : m1 = next_marking m t).
      { eapply fires_det; [exact Hf|]. apply next_marking_fires; auto; [apply Hsn, Hf|apply Hf|apply Hf]. }
      assert (Hsync : is_sync trace i t = true).
      { unfold is_sync. rewrite Hnth. apply bool_decide_eq_true_2, Elab. }
      assert (Huniq : forall u, In u (lm_enabled pn m) -> is_sync trace i u = true -> u = t).
      { intros u Hu Hs. unfold is_sync in Hs. rewrite Hnth in Hs. apply bool_decide_eq_true in Hs.
        apply (lm_enabled_iff pn m u Hsn Hmp) in Hu as [Hu1 Hu2].
        apply (proj2 Hdet m); auto; [apply Hf|apply Hf|congruence]. }
      rewrite Em, Ep in *.
      apply (IH fuel (S i) m1).
      + cbn in Hfuel. lia.
      + lia.
      + destruct Hreach as [us Hus]. exists (us ++ [t]). eapply run_app; [exact Hus|]. econstructor; [exact Hf|constructor].
      + exact Hr.
      + assert (Hd : drop i trace = a :: drop (S i) trace).
        { apply drop_S. clear -Hnth. revert i Hnth. induction trace as [|y l IHl]; intros [|i]; cbn; try discriminate; auto. }
        rewrite Hd in Hvis. injection Hvis. auto.
      + split; [|split; [|split]].
        * destruct (X3 t Hen) as [(u & Hu & Hsu & _ & Eu & [Hc|(n & Hn & En & Hpn & Hcn')])|[Hc _]]; [|
            |congruence].
          -- exfalso. unfold check_closed, closed_at in Hc. cbn [List.find fst] in Hc.
             destruct (bool_decide (m = next_marking m t)).
             ++ cbn [snd] in Hc. apply Nat.leb_le in Hc. lia.
             ++ pose proof (Echk (next_marking m t) (S i) ltac:(lia)) as Hk. unfold check_closed, closed_at in Hk.
                clear -Hk Hc. set (F := List.find _ _) in *. destruct F; congruence.
          -- pose proof (X2 n Hn) as HX. exists n. split; [exact Hn|].
             change (c_sync cs) with 0 in *. assert (Hc0 : l_cost curr = 0) by assumption.
             destruct HX as [H|[(u' & k & Ht & Hs & ->)|[(u' & k & Ht & ->)|(k & Hlt & ->)]]].
             ++ assert (Hnop : In n op) by (apply H1; auto). specialize (Hnn _ Hnop). destruct (Hz _ Hnop ltac:(lia)). lia.
             ++ cbn in *. rewrite (Huniq _ Ht Hs) in *. repeat split; auto; lia.
             ++ cbn in Hpn. lia.
             ++ cbn in Hcn'. unfold STD_MODEL_LOG_MOVE_COST in Hcn'. lia.
        * intros n Hn. assert (Hc0 : l_cost curr = 0) by assumption.
          destruct (X2 n Hn) as [H|[(u' & k & Ht & Hs & ->)|[(u' & k & Ht & ->)|(k & Hlt & ->)]]].
          -- apply Hnn, H1. auto.
          -- cbn. unfold STD_SYNC_COST. lia.
          -- cbn. assert (Hpos : 0 <= std_model_cost pn trace u').
             { unfold std_model_cost. destruct (t_label u'); [unfold STD_MODEL_LOG_MOVE_COST; lia|].
               destruct (List.filter _ _); unfold STD_TAU_COST; lia. }
             lia.
          -- cbn. unfold STD_MODEL_LOG_MOVE_COST. lia.
        * intros n Hn Hn0'. assert (Hc0 : l_cost curr = 0) by assumption.
          destruct (X2 n Hn) as [H|[(u' & k & Ht & Hs & ->)|[(u' & k & Ht & ->)|(k & Hlt & ->)]]].
          -- assert (Hnop : In n op) by (apply H1; auto). destruct (Hz _ Hnop Hn0'). split; lia.
          -- cbn. rewrite (Huniq _ Ht Hs). split; [lia|]. auto.
          -- cbn in Hn0'. apply (lm_enabled_iff pn m u' Hsn Hmp) in Ht as [Ht _].
             pose proof (proj1 Hdet _ Ht) as Hlab. unfold std_model_cost in Hn0'.
             destruct (t_label u'); [unfold STD_MODEL_LOG_MOVE_COST in Hn0'; lia|congruence].
          -- cbn in Hn0'. unfold STD_MODEL_LOG_MOVE_COST in Hn0'. lia.
        * intros m' q [[= <- <-]|Hin]; [lia|]. specialize (Hcl _ _ Hin). lia.
  Qed.

  Lemma det_apply : accepts pn im fm trace ->
    exists fuel n, lm_apply fuel trace pn im fm = LFound n /\ l_cost n = 0.
  Proof.
    intros (ts & Hr & Hv). exists (S (length ts)). unfold lm_apply, lm_search.
    apply (det_loop ts _ 0 im); auto; [lia|exists []; constructor|].
    split; [|split; [|split]].
    - eexists. split; [left; reflexivity|]. cbn. auto.
    - intros n [<-|[]]. cbn. lia.
    - intros n [<-|[]]. cbn. auto.
    - intros m q [].
  Qed.
End Det.
