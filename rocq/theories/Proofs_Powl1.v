(** Orders of POWL models: the closure as a boolean matrix, and the transitive reduction of an acyclic relation. *)
From Coq Require Import List Arith Lia Bool Relation_Operators Wf_nat.
Import ListNotations.
From Verif Require Import Model_Rel Spec_Rel Proofs_Rel Model_Powl Spec_Powl.

Lemma closure_bounds n e i j : closure n e i j -> i < n /\ j < n.
Proof. intros H. induction H as [x y (Hx & Hy & _)|x y z _ IH1 _ IH2]; tauto. Qed.
Lemma closure_trans n e i j k : closure n e i j -> closure n e j k -> closure n e i k.
Proof. intros H1 H2. eapply t_trans; eauto. Qed.
Definition lt (n : nat) (e : rel) : rel := fun i j =>
  match add_transitive_edges (n * n + 1) n e with Some e' => (i <? n) && (j <? n) && e' i j | None => false end.
Lemma lt_iff n e i j : lt n e i j = true <-> closure n e i j.
Proof.
  unfold lt. destruct (closure_terminates n e) as (e' & E). rewrite E. rewrite <- (closure_correct n e _ _ E). unfold on.
  rewrite !andb_true_iff, !Nat.ltb_lt. tauto.
Qed.
Lemma lt_false n e i j : lt n e i j = false <-> ~ closure n e i j.
Proof. rewrite <- lt_iff. destruct (lt n e i j); split; intros; congruence. Qed.
Definition rank (n : nat) (e : rel) (k : nat) : nat := length (filter (fun i => lt n e i k) (seq 0 n)).
Lemma rank_lt n e i j : acyclic n e -> lt n e i j = true -> rank n e i < rank n e j.
Proof.
  intros Ha H. unfold rank. apply (filter_strict _ _ _ i).
  - intros x _ Hx. apply lt_iff. apply lt_iff in H, Hx. eapply closure_trans; eauto.
  - apply lt_iff, closure_bounds in H. apply in_seq. lia.
  - apply lt_false. apply Ha.
  - auto.
Qed.
Lemma rank_le n e k : rank n e k <= n.
Proof.
  unfold rank. apply Nat.le_trans with (length (seq 0 n)); [|rewrite seq_length; auto].
  induction (seq 0 n) as [|z l IH]; cbn; [auto|]. destruct (lt n e z k); cbn; lia.
Qed.
Lemma acyclic_irreflexive n e : acyclic n e -> is_irreflexive n e = true.
Proof. intros H. apply irreflexive_iff. intros i Hi. apply (H i). apply t_step. exact Hi. Qed.
Lemma reduced_iff n e i k : acyclic n e ->
  (on n (reduced n e) i k <-> on n e i k /\ ~ exists j, on n e i j /\ on n e j k).
Proof.
  intros Ha. unfold reduced, get_transitive_reduction. rewrite (acyclic_irreflexive n e Ha). unfold on at 1. rewrite reduce_fold by auto. split.
  - intros (Hi & Hk & He & Hn). split; [split; auto|]. intros (j & (Hi1 & Hj & E1) & (_ & Hk1 & E2)). apply Hn. exists j.
    split; [apply in_triples; auto|]. split; [|split; [|auto]].
    + intros ->. apply (Ha j), t_step. split; auto.
    + intros ->. apply (Ha k), t_step. split; auto.
  - intros ((Hi & Hk & He) & Hn). repeat split; auto. intros (j & Hj & H1 & H2 & E1 & E2). apply Hn. exists j. apply in_triples in Hj. unfold on. tauto.
Qed.
Lemma reduced_on n e i k : acyclic n e -> on n (reduced n e) i k -> on n e i k.
Proof. intros Ha H. apply reduced_iff in H as [H _]; auto. Qed.
Definition mids (n : nat) (e : rel) (i k : nat) : nat := length (filter (fun j => lt n e i j && lt n e j k) (seq 0 n)).
Lemma reduced_covers n e : acyclic n e -> forall i k, on n e i k -> closure n (reduced n e) i k.
Proof.
  intros Ha i k. remember (mids n e i k) as b eqn:Eb. revert i k Eb. induction b as [b IH] using lt_wf_ind. intros i k -> Hik.
  destruct (exists_mid n e i k) as [(j & H1 & H2)|Hn]; [|apply t_step, reduced_iff; auto].
  assert (C1 : closure n e i j) by (apply t_step; auto). assert (C2 : closure n e j k) by (apply t_step; auto).
  assert (Hj : In j (seq 0 n)) by (destruct H1 as (_ & Hj & _); apply in_seq; lia).
  eapply closure_trans; [apply (IH (mids n e i j))|apply (IH (mids n e j k))]; auto; unfold mids; apply (filter_strict _ _ _ j); auto;
    rewrite ?andb_true_iff, ?andb_false_iff, ?lt_iff, ?lt_false; auto.
  - intros x _. rewrite !andb_true_iff, !lt_iff. intros [G1 G2]. split; auto. eapply closure_trans; eauto.
  - intros x _. rewrite !andb_true_iff, !lt_iff. intros [G1 G2]. split; auto. eapply closure_trans; eauto.
Qed.
Lemma reduced_closure n e i k : acyclic n e -> (closure n (reduced n e) i k <-> closure n e i k).
Proof.
  intros Ha. split; intros H.
  - eapply clos_mono; [|exact H]. intros x y. apply reduced_on; auto.
  - induction H as [x y H|x y z _ IH1 _ IH2]; [apply reduced_covers; auto|eapply closure_trans; eauto].
Qed.
