(** Proofs for C108: matching of starts and completions. *)
From Coq Require Import List Arith ZArith Bool Permutation Sorting.Sorted Lia.
From Verif Require Import Model_Lifecycle Spec_Lifecycle.
Import ListNotations.
Open Scope Z_scope.

Section p.
Context {A : Type}.
Implicit Types (l : list (event A)) (m : nat -> option nat).

Definition comp_at l p : bool := match nth_error l p with Some e => is_complete (trans e) | None => false end.
Lemma completions_eq l : completions l = filter (comp_at l) (seq 0 (length l)).
Proof. reflexivity. Qed.
Lemma nth_snoc_old l e p : (p < length l)%nat -> nth_error (l ++ [e]) p = nth_error l p.
Proof. intros; apply nth_error_app1; auto. Qed.
Lemma nth_snoc_new l e : nth_error (l ++ [e]) (length l) = Some e.
Proof. rewrite nth_error_app2 by lia. rewrite Nat.sub_diag. reflexivity. Qed.
Lemma completions_snoc l e : completions (l ++ [e]) = completions l ++ (if is_complete (trans e) then [length l] else []).
Proof.
  unfold completions. rewrite app_length, Nat.add_1_r, seq_S, filter_app, Nat.add_0_l. f_equal.
  - apply filter_ext_in. intros p H. apply in_seq in H. rewrite nth_snoc_old by lia. reflexivity.
  - cbn [filter]. rewrite nth_snoc_new. destruct (is_complete (trans e)); reflexivity.
Qed.
Lemma completions_filter l : Forall2 (fun p e => nth_error l p = Some e) (completions l) (filter (fun e => is_complete (trans e)) l).
Proof.
  induction l as [|e l IH] using rev_ind; [constructor|]. rewrite completions_snoc, filter_app. apply Forall2_app.
  - assert (W : forall p, In p (completions l) -> (p < length l)%nat) by (intros p H; apply filter_In in H as [H _]; apply in_seq in H; lia).
    revert W IH. generalize (completions l) (filter (fun e => is_complete (trans e)) l). intros ps es W F. induction F; constructor; [rewrite nth_snoc_old; auto; apply W; left; auto|apply IHF; intros; apply W; right; auto].
  - cbn [filter]. destruct (is_complete (trans e)); constructor; auto. apply nth_snoc_new.
Qed.

(** the queue of a key: the starts that wait *)
Definition queue l m (k : nat) (f : list nat) (q : list (event A)) : Prop :=
  StronglySorted lt f /\ Forall2 (fun p e => nth_error l p = Some e) f q /\ forall p, In p f <-> waits l m k (length l) p.
Definition inv l m (pend : nat -> list (event A)) (out : list (interval A)) : Prop :=
  fifo l m /\ (forall k, exists f, queue l m k f (pend k)) /\ Forall2 (made l m) (completions l) out.

Lemma waits_old l e m m' k p q : (p <= length l)%nat -> (forall p', (p' < p)%nat -> m' p' = m p') -> waits (l ++ [e]) m' k p q <-> waits l m k p q.
Proof.
  intros L Q. unfold waits. split; intros (H1 & (s & H2 & H3) & H4); (split; [auto|]); (split; [exists s; split; auto|]).
  - rewrite <- (nth_snoc_old l e q) by lia. auto.
  - intros p' H. rewrite <- Q by auto. auto.
  - rewrite nth_snoc_old by lia. auto.
  - intros p' H. rewrite Q by auto. auto.
Qed.
Lemma waits_bound l m k p q : waits l m k p q -> (q < length l)%nat.
Proof. intros (_ & (s & H & _) & _). apply nth_error_Some. congruence. Qed.
Lemma made_old l e m m' p i : (p < length l)%nat -> m' p = m p -> (forall q, m p = Some q -> (q < length l)%nat) -> made l m p i -> made (l ++ [e]) m' p i.
Proof.
  intros L Q W (x & H1 & H2 & H3 & H4 & H5). exists x. split; [rewrite nth_snoc_old; auto|]. do 3 (split; [auto|]). rewrite Q. destruct (m p) as [q|]; auto.
  destruct H5 as (s & S1 & S2). exists s. split; auto. rewrite nth_snoc_old; auto.
Qed.
Lemma Forall2_impl {X Y} (P Q : X -> Y -> Prop) a b : (forall x y, In x a -> P x y -> Q x y) -> Forall2 P a b -> Forall2 Q a b.
Proof. intros H F. induction F; constructor; [apply H; [left|]; auto|apply IHF; intros; apply H; [right|]; auto]. Qed.

Lemma fifo_snoc l m m' e : fifo l m -> (forall p, (p < length l)%nat -> m' p = m p) -> (forall p, (length l < p)%nat -> m' p = None) ->
  (trans e = Complete -> match m' (length l) with Some q => waits l m (key e) (length l) q /\ forall q', waits l m (key e) (length l) q' -> (q <= q')%nat | None => forall q, ~ waits l m (key e) (length l) q end) ->
  (trans e <> Complete -> m' (length l) = None) -> fifo (l ++ [e]) m'.
Proof.
  intros [F1 F2] Q O C N. split.
  - intros p x Hx Tx. assert (L : (p < length (l ++ [e]))%nat) by (apply nth_error_Some; congruence). rewrite app_length in L. cbn in L.
    assert (Qp : forall p', (p' < p)%nat -> m' p' = m p') by (intros; apply Q; lia).
    destruct (Nat.eq_dec p (length l)) as [->|Np].
    + rewrite nth_snoc_new in Hx. injection Hx as <-. specialize (C Tx). destruct (m' (length l)) as [q|].
      * destruct C as [C1 C2]. split; [apply (waits_old l e m m'); auto|]. intros q' W. apply C2. apply (waits_old l e m m') in W; auto.
      * intros q W. apply (waits_old l e m m') in W; auto. exact (C q W).
    + rewrite nth_snoc_old in Hx by lia. specialize (F1 p x Hx Tx). rewrite Q by lia. destruct (m p) as [q|].
      * destruct F1 as [C1 C2]. split; [apply (waits_old l e m m'); auto; lia|]. intros q' W. apply C2. apply (waits_old l e m m') in W; auto; lia.
      * intros q W. apply (waits_old l e m m') in W; auto; [exact (F1 q W)|lia].
  - intros p q H. destruct (lt_eq_lt_dec p (length l)) as [[L|L]|L].
    + rewrite Q in H by auto. destruct (F2 p q H) as (x & Hx & Tx). exists x. rewrite nth_snoc_old; auto.
    + subst p. exists e. rewrite nth_snoc_new. split; auto. destruct (trans e) eqn:T; auto; rewrite N in H; congruence.
    + rewrite O in H by auto. discriminate.
Qed.
Lemma Forall2_nth_snoc l e f q : Forall2 (fun p x => nth_error l p = Some x) f q -> Forall2 (fun p x => nth_error (l ++ [e]) p = Some x) f q.
Proof. apply Forall2_impl. intros p x _ H. rewrite nth_snoc_old; auto. apply nth_error_Some. congruence. Qed.
Lemma SSorted_snoc (f : list nat) n : StronglySorted lt f -> (forall p, In p f -> (p < n)%nat) -> StronglySorted lt (f ++ [n]).
Proof.
  intros S W. induction S as [|x f S IH F]; cbn; constructor; [constructor|constructor|apply IH; intros; apply W; right; auto|]. apply Forall_app. split; auto. constructor; auto. apply W. left; auto.
Qed.

Theorem run_inv l : exists m, (forall p, (length l <= p)%nat -> m p = None) /\ let s := fold_left step l (fun _ => [], []) in inv l m (fst s) (snd s).
Proof.
  induction l as [|e l IH] using rev_ind.
  - exists (fun _ => None). split; auto. cbn. split; [split; [intros p x H; destruct p; discriminate|discriminate]|]. split; [|constructor].
    intros k. exists []. split; [constructor|]. split; [constructor|]. intros p. split; [intros []|intros W; apply waits_bound in W; cbn in W; lia].
  - destruct IH as (m & O & F & P & M). rewrite fold_left_app. cbn [fold_left]. destruct (fold_left step l (fun _ => [], [])) as [pend out]. cbn [fst snd] in *.
    assert (WM : forall p q, m p = Some q -> (q < length l)%nat).
    { intros p q H. destruct F as [F1 F2]. destruct (F2 p q H) as (x & Hx & Tx). specialize (F1 p x Hx Tx). rewrite H in F1. destruct F1 as [F1 _]. eapply waits_bound; eauto. }
    assert (WC : forall p, In p (completions l) -> (p < length l)%nat) by (intros p H; apply filter_In in H as [H _]; apply in_seq in H; lia).
    assert (LW : forall m' k p, (forall p', (p' < length l)%nat -> m' p' = m p') -> waits (l ++ [e]) m' k (length (l ++ [e])) p <->
       (waits l m k (length l) p \/ p = length l /\ trans e = Start /\ key e = k) /\ m' (length l) <> Some p).
    { intros m' k p Q. unfold waits. rewrite app_length, Nat.add_1_r. split.
      - intros (L & (s & H1 & H2 & H3) & H4). split; [|apply H4; lia]. destruct (Nat.eq_dec p (length l)) as [->|Np].
        + rewrite nth_snoc_new in H1. injection H1 as <-. auto.
        + left. split; [lia|]. split; [exists s; rewrite nth_snoc_old in H1 by lia; auto|]. intros p' H. rewrite <- Q by auto. apply H4. lia.
      - intros [[(L & (s & H1 & H2 & H3) & H4)|(-> & H2 & H3)] N].
        + split; [lia|]. split; [exists s; rewrite nth_snoc_old by lia; auto|]. intros p' H. destruct (Nat.eq_dec p' (length l)) as [->|]; auto. rewrite Q by lia. apply H4. lia.
        + split; [lia|]. split; [exists e; rewrite nth_snoc_new; auto|]. intros p' H. destruct (Nat.eq_dec p' (length l)) as [->|]; auto. rewrite Q by lia. intros E. apply WM in E. lia. }
    assert (KEEP : trans e <> Complete -> (forall p, (length (l ++ [e]) <= p)%nat -> m p = None) /\ fifo (l ++ [e]) m /\ Forall2 (made (l ++ [e]) m) (completions (l ++ [e])) out).
    { intros T. split; [intros p H; apply O; rewrite app_length in H; lia|]. split; [apply (fifo_snoc l m m); auto; [intros; apply O; lia|congruence]|].
      rewrite completions_snoc. replace (is_complete (trans e)) with false by (destruct (trans e); auto; congruence). rewrite app_nil_r. eapply Forall2_impl; [|exact M]. intros p i Hp H. apply (made_old l e m m); auto. intros q; apply WM. }
    unfold step. destruct (trans e) eqn:T.
    + destruct KEEP as (K1 & K2 & K3); [discriminate|]. exists m. split; [exact K1|]. cbn [fst snd]. split; [exact K2|]. split; [|exact K3].
      intros k. destruct (P k) as (f & S1 & S2 & S3). destruct (Nat.eqb_spec k (key e)) as [->|Nk].
      * exists (f ++ [length l]). split; [apply SSorted_snoc; auto; intros p H; apply S3 in H; destruct H; auto|]. split; [apply Forall2_app; [apply Forall2_nth_snoc; auto|constructor; [apply nth_snoc_new|constructor]]|].
        intros p. rewrite (LW m (key e) p) by auto. rewrite in_app_iff, S3. cbn. rewrite O by lia. split; [intros [H|[H|[]]]; (split; [|congruence]); auto|intros [[H|(H & _)] _]; auto].
      * exists f. split; auto. split; [apply Forall2_nth_snoc; auto|]. intros p. rewrite (LW m k p) by auto. rewrite S3, (O (length l)) by lia. split; [intros H; split; [auto|discriminate]|intros [[H|(_ & _ & H)] _]; [auto|congruence]].
    + destruct (pend (key e)) as [|b r] eqn:E.
      * exists m. split; [intros p H; apply O; rewrite app_length in H; lia|]. cbn [fst snd]. destruct (P (key e)) as (f & S1 & S2 & S3). rewrite E in S2. inversion S2; subst f.
        split; [apply (fifo_snoc l m m); auto; [intros; apply O; lia|rewrite T; rewrite O by lia; intros _ q H; apply S3 in H; auto]|]. split.
        -- intros k. destruct (P k) as (f & R1 & R2 & R3). exists f. split; auto. split; [apply Forall2_nth_snoc; auto|]. intros p. rewrite (LW m k p) by auto. rewrite R3, (O (length l)) by lia. split; [intros H; split; [auto|discriminate]|intros [[H|(_ & H & _)] _]; [auto|congruence]].
        -- rewrite completions_snoc, T. apply Forall2_app; [eapply Forall2_impl; [|exact M]; intros p i Hp H; apply (made_old l e m m); auto; intros q; apply WM|].
           constructor; [|constructor]. exists e. split; [apply nth_snoc_new|]. cbn. do 3 (split; [auto|]). rewrite O by lia. auto.
      * destruct (P (key e)) as (f & S1 & S2 & S3). rewrite E in S2. inversion S2 as [|q0 b' f' r' B1 B2]; subst. set (m' := fun p => if (p =? length l)%nat then Some q0 else m p).
        assert (Q : forall p, (p < length l)%nat -> m' p = m p) by (intros p H; unfold m'; destruct (Nat.eqb_spec p (length l)); auto; lia).
        assert (Ql : m' (length l) = Some q0) by (unfold m'; rewrite Nat.eqb_refl; auto).
        assert (W0 : waits l m (key e) (length l) q0) by (apply S3; left; auto).
        exists m'. split; [intros p H; rewrite app_length in H; cbn in H; unfold m'; destruct (Nat.eqb_spec p (length l)); [lia|apply O; lia]|]. cbn [fst snd]. inversion S1 as [|x y SS1 SF]; subst. split; [|split].
        -- apply (fifo_snoc l m m'); auto; [intros p H; unfold m'; destruct (Nat.eqb_spec p (length l)); [lia|apply O; lia]| |congruence].
           intros _. rewrite Ql. split; auto. intros q' H. apply S3 in H as [<-|H]; [lia|]. rewrite Forall_forall in SF. specialize (SF q' H). lia.
        -- intros k. destruct (Nat.eqb_spec k (key e)) as [->|Nk].
           ++ exists f'. split; auto. split; [apply Forall2_nth_snoc; auto|]. intros p. rewrite (LW m' (key e) p) by auto. rewrite Ql. rewrite Forall_forall in SF. split.
              ** intros H. split; [left; apply S3; right; auto|]. intros X. injection X as <-. specialize (SF q0 H). lia.
              ** intros [[H|(_ & H & _)] N]; [|congruence]. apply S3 in H as [<-|H]; [congruence|auto].
           ++ destruct (P k) as (f & R1 & R2 & R3). exists f. split; auto. split; [apply Forall2_nth_snoc; auto|]. intros p. rewrite (LW m' k p) by auto. rewrite Ql, R3. split; [intros H; split; [auto|]|intros [[H|(_ & H & _)] _]; [auto|congruence]].
              intros X. injection X as <-. destruct H as (_ & (s & X1 & _ & X2) & _), W0 as (_ & (s' & Y1 & _ & Y2) & _). congruence.
        -- rewrite completions_snoc, T. apply Forall2_app; [eapply Forall2_impl; [|exact M]; intros p i Hp H; apply (made_old l e m m'); auto; intros q; apply WM|].
           constructor; [|constructor]. exists e. split; [apply nth_snoc_new|]. cbn. do 3 (split; [auto|]). rewrite Ql. exists b. rewrite nth_snoc_old; [auto|]. apply nth_error_Some. congruence.
    + destruct KEEP as (K1 & K2 & K3); [discriminate|]. exists m. split; [exact K1|]. cbn [fst snd]. split; [exact K2|]. split; [|exact K3].
      intros k. destruct (P k) as (f & S1 & S2 & S3). exists f. split; auto. split; [apply Forall2_nth_snoc; auto|]. intros p. rewrite (LW m k p) by auto. rewrite S3, (O (length l)) by lia. split; [intros H; split; [auto|discriminate]|intros [[H|(_ & H & _)] _]; [auto|congruence]].
Qed.

(** ** sorting by start *)
Lemma insert_perm (x : interval A) t : Permutation (insert x t) (x :: t).
Proof. induction t as [|y t IH]; cbn; auto. destruct (st x <=? st y); auto. rewrite IH. apply perm_swap. Qed.
Lemma sort_perm (t : list (interval A)) : Permutation (sort_start t) t.
Proof. induction t as [|y t IH]; cbn; auto. rewrite insert_perm. auto. Qed.
Lemma insert_SS (x : interval A) t : StronglySorted (fun a b => st a <= st b) t -> StronglySorted (fun a b => st a <= st b) (insert x t).
Proof.
  intros S. induction S as [|y t S IH F]; cbn; [constructor; constructor|]. destruct (Z.leb_spec (st x) (st y)).
  - constructor; [constructor; auto|]. constructor; auto. eapply Forall_impl; [|exact F]. cbn. intros. lia.
  - constructor; auto. rewrite (Forall_forall) in F |- *. intros z Hz. rewrite insert_perm in Hz. destruct Hz as [<-|Hz]; [lia|auto].
Qed.
Lemma sort_SS (t : list (interval A)) : StronglySorted (fun a b => st a <= st b) (sort_start t).
Proof. induction t; cbn; [constructor|apply insert_SS; auto]. Qed.
Lemma SS_nth {X} (R : X -> X -> Prop) t : StronglySorted R t <-> forall i j a b, (i < j)%nat -> nth_error t i = Some a -> nth_error t j = Some b -> R a b.
Proof.
  split.
  - intros S. induction S as [|x t S IH F]; intros i j a b L Hi Hj; [destruct i; discriminate|]. destruct j as [|j]; [lia|]. destruct i as [|i]; cbn in *.
    + injection Hi as <-. rewrite Forall_forall in F. apply F. eapply nth_error_In; eauto.
    + apply (IH i j); auto; lia.
  - induction t as [|x t IH]; intros H; constructor; [apply IH; intros i j a b L Hi Hj; apply (H (S i) (S j)); auto; lia|].
    apply Forall_forall. intros y Hy. apply In_nth_error in Hy as (j & Hj). apply (H O (S j)); auto; lia.
Qed.
Lemma insert_stable (x : interval A) t z : filter (fun i => st i =? z) (insert x t) = filter (fun i => st i =? z) (x :: t).
Proof.
  induction t as [|y t IH]; cbn; auto. destruct (Z.leb_spec (st x) (st y)); cbn; auto. rewrite IH. cbn. destruct (Z.eqb_spec (st x) z), (Z.eqb_spec (st y) z); auto; lia.
Qed.
Lemma sort_stable (t : list (interval A)) z : filter (fun i => st i =? z) (sort_start t) = filter (fun i => st i =? z) t.
Proof. induction t; cbn [sort_start fold_right]; auto. fold (sort_start t). rewrite insert_stable. cbn. rewrite IHt. auto. Qed.
End p.
