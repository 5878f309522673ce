(** Exact content of the temporal profile and of the deviations, by positions. *)
From Coq Require Import List Arith Bool Lia Reals Lra.
Import ListNotations.
From Verif Require Import Model_Dict Proofs_Dict Model_Dfg Spec_Dfg Model_Stream Spec_Stream Spec_Temporal Proofs_Dfg Proofs_Stream Proofs_Temporal.
Local Open Scope nat_scope.

Section Pairs.
Context {X Y : Type}.
Variable f : X -> X -> list Y.
Hypothesis f1 : forall a b, length (f a b) <= 1.
Fixpoint pt (t : list X) : list Y := match t with [] => [] | e :: r => concat (map (f e) r) ++ pt r end.
Lemma row e (r : list X) n : exists js, NoDup js /\ Forall2 (fun j y => n <= j /\ exists ej, nth_error r (j - n) = Some ej /\ In y (f e ej)) js (concat (map (f e) r)) /\
  forall j ej y, nth_error r j = Some ej -> In y (f e ej) -> In (n + j) js.
Proof.
  revert n. induction r as [|x r IH]; intros n; cbn.
  - exists []. split; [constructor|]. split; [constructor|]. intros [|j]; discriminate.
  - destruct (IH (S n)) as (js & N & Fa & C). assert (L : length (f e x) <= 1) by apply f1. destruct (f e x) as [|y [|]] eqn:E; cbn in L; [| |lia].
    + exists js. split; auto. cbn. split.
      * clear -Fa. induction Fa as [|j y js ys (Hn & ej & H) F IH]; constructor; auto. split; [lia|]. exists ej. replace (j - n) with (S (j - S n)) by lia. auto.
      * intros [|j] ej z; cbn; intros H Hz; [injection H as ->; rewrite E in Hz; destruct Hz|]. replace (n + S j) with (S n + j) by lia. eauto.
    + exists (n :: js). split; [|split].
      * constructor; auto. intros H. clear -H Fa. induction Fa as [|j y js ys (Hn & _) F IH]; [destruct H|]. destruct H; [lia|auto].
      * cbn. constructor; [split; auto; exists x; rewrite Nat.sub_diag; split; auto; rewrite E; cbn; auto|].
        clear -Fa. induction Fa as [|j y js ys (Hn & ej & H) F IH]; constructor; auto. split; [lia|]. exists ej. replace (j - n) with (S (j - S n)) by lia. auto.
      * intros [|j] ej z; cbn; intros H Hz; [left; lia|]. right. replace (n + S j) with (S n + j) by lia. eauto.
Qed.
Lemma pt_positions t : exists ps, NoDup ps /\
  Forall2 (fun p y => exists ei ej, nth_error t (fst p) = Some ei /\ nth_error t (snd p) = Some ej /\ fst p < snd p /\ In y (f ei ej)) ps (pt t) /\
  forall i j ei ej y, nth_error t i = Some ei -> nth_error t j = Some ej -> i < j -> In y (f ei ej) -> In (i, j) ps.
Proof.
  induction t as [|e r (ps & N & Fa & C)]; cbn [pt].
  - exists []. split; [constructor|]. split; [constructor|]. intros [|i]; discriminate.
  - destruct (row e r 1) as (js & N' & Fa' & C'). exists (map (fun j => (0, j)) js ++ map (fun p => (S (fst p), S (snd p))) ps). split; [|split].
    + apply NoDup_app_intro.
      * apply NoDup_map_inj; auto. congruence.
      * apply NoDup_map_inj; auto. intros [] [] E; cbn in E; congruence.
      * intros x. rewrite !in_map_iff. intros (? & <- & _) (? & E & _). discriminate.
    + apply Forall2_app.
      * clear -Fa'. induction Fa' as [|j y js ys (Hn & ej & H & Hy) F IH]; cbn; constructor; auto. exists e, ej. cbn. repeat split; auto; try lia.
        destruct j; [lia|]. cbn in H. rewrite Nat.sub_0_r in H. auto.
      * clear -Fa. induction Fa as [|p y js ys (ei & ej & H1 & H2 & H3 & H4) F IH]; cbn; constructor; auto. exists ei, ej. cbn. repeat split; auto; lia.
    + intros [|i] [|j] ei ej y; cbn; intros H1 H2 H3 H4; try lia; apply in_app_iff.
      * injection H1 as <-. left. apply in_map_iff. exists (1 + j). split; auto. eapply C'; eauto.
      * right. apply in_map_iff. exists (i, j). split; auto. eapply (C i j); eauto. lia.
Qed.
End Pairs.
Lemma Forall2_impl {A B} (P Q : A -> B -> Prop) l k : (forall x y, P x y -> Q x y) -> Forall2 P l k -> Forall2 Q l k.
Proof. intros H. induction 1; constructor; auto. Qed.
Lemma Forall2_in_r {A B} (P : A -> B -> Prop) l k y : Forall2 P l k -> In y k -> exists x, In x l /\ P x y.
Proof. induction 1; intros [].
  - subst. eexists; cbn; eauto.
  - destruct IHForall2 as (z & ? & ?); auto. exists z. cbn. auto.
Qed.
Lemma Forall2_in_l {A B} (P : A -> B -> Prop) l k x : Forall2 P l k -> In x l -> exists y, In y k /\ P x y.
Proof. induction 1; intros [].
  - subst. eexists; cbn; eauto.
  - destruct IHForall2 as (z & ? & ?); auto. exists z. cbn. auto.
Qed.
Lemma dtrace_pt k (t : ttrace R) : dtrace k t = pt (dpair k) t.
Proof. induction t; cbn; congruence. Qed.
Lemma check_pt p zeta (t : ttrace R) : check_trace p zeta t = pt (check_pair p zeta) t.
Proof. induction t; cbn; congruence. Qed.
Local Open Scope R_scope.
Lemma dpair_in (a b : nat) ei ej (x : R) : In x (dpair (a, b) ei ej) <-> te_act ei = a /\ te_act ej = b /\ te_end ei <= te_start ej /\ x = te_start ej - te_end ei.
Proof.
  unfold dpair. cbn [n_leb numR n_sub]. unfold lebR. destruct (Rle_dec (te_end ei) (te_start ej)) as [L|L]; [|cbn; tauto].
  destruct (keqb_spec (te_act ei, te_act ej) (a, b)) as [E|E].
  - injection E as E1 E2. cbn. split; [intros [<-|[]]; auto|intros (_ & _ & _ & ->); auto].
  - cbn. split; [tauto|]. intros (E1 & E2 & _). apply E. congruence.
Qed.
Lemma delays_positions a b (l : list (ttrace R)) : exists ps, NoDup ps /\
  Forall2 (fun p x => delay l (fst (fst p)) (snd (fst p)) (snd p) a b x) ps (delays (a, b) l) /\
  forall k i j x, delay l k i j a b x -> In (k, i, j) ps.
Proof.
  unfold delays. induction l as [|t l (ps & N & Fa & C)]; cbn [map concat].
  - exists []. split; [constructor|]. split; [constructor|]. intros k i j x (t & ei & ej & H & _). destruct k; discriminate.
  - destruct (pt_positions (dpair (a, b))) with (t := t) as (qs & N' & Fa' & C').
    { intros ei ej. unfold dpair. destruct (n_leb _ _); [destruct (keqb _ _)|]; cbn; lia. }
    exists (map (fun p => (0%nat, fst p, snd p)) qs ++ map (fun p => (S (fst (fst p)), snd (fst p), snd p)) ps). split; [|split].
    + apply NoDup_app_intro.
      * apply NoDup_map_inj; auto. intros [] [] E; cbn in E; congruence.
      * apply NoDup_map_inj; auto. intros [[] ?] [[] ?] E; cbn in E; congruence.
      * intros x. rewrite !in_map_iff. intros (? & <- & _) (? & E & _). discriminate.
    + apply Forall2_app.
      * rewrite dtrace_pt. clear -Fa'. induction Fa' as [|p x qs xs (ei & ej & H1 & H2 & H3 & H4) F IH]; cbn [map]; constructor; auto.
        apply dpair_in in H4. exists t, ei, ej. cbn. tauto.
      * clear -Fa. induction Fa as [|p x qs xs H F IH]; cbn [map]; constructor; auto.
    + intros k i j x (u & ei & ej & H0 & H1 & H2 & H3 & H4). apply in_app_iff. destruct k as [|k]; cbn in H0.
      * injection H0 as ->. left. apply in_map_iff. exists (i, j). split; auto. eapply C'; eauto. apply dpair_in. exact H4.
      * right. apply in_map_iff. exists (k, i, j). split; auto. apply (C k i j x). exists u, ei, ej. auto.
Qed.
Lemma check_in p zeta ei ej a b (x z : R) : In (a, b, x, z) (check_pair p zeta ei ej) <->
  te_act ei = a /\ te_act ej = b /\ te_end ei <= te_start ej /\ x = te_start ej - te_end ei /\
  exists m s, d_get p (a, b) = Some (m, s) /\ (x < m - zeta * s \/ m + zeta * s < x) /\ z = (if Rlt_dec 0 s then Rabs (x - m) / s else IZR (2 ^ 63 - 1)).
Proof.
  unfold check_pair. cbn [n_leb numR]. unfold lebR. destruct (Rle_dec (te_end ei) (te_start ej)) as [L|L]; [|cbn [In]; tauto].
  split.
  - destruct (d_get p (te_act ei, te_act ej)) as [(m, s)|] eqn:E; [|intros []]. cbn [n_sub n_add n_mul n_ltb numR n_zero n_div n_abs n_max]. cbv zeta. unfold ltbR.
    intros H. assert (D : te_start ej - te_end ei < m - zeta * s \/ m + zeta * s < te_start ej - te_end ei).
    { destruct (Rlt_dec _ (m - zeta * s)); auto. destruct (Rlt_dec (m + zeta * s) _); auto. destruct H. }
    destruct (_ || _)%bool; [|destruct H]. destruct H as [H|[]]. injection H as <- <- <- <-. repeat split; auto. exists m, s. repeat split; auto.
    destruct (Rlt_dec 0 s); auto.
  - intros (<- & <- & _ & -> & m & s & E & D & ->). rewrite E. cbn [n_sub n_add n_mul n_ltb numR n_zero n_div n_abs n_max]. cbv zeta. unfold ltbR.
    replace ((if Rlt_dec (te_start ej - te_end ei) (m - zeta * s) then true else false) || (if Rlt_dec (m + zeta * s) (te_start ej - te_end ei) then true else false))%bool with true.
    + left. destruct (Rlt_dec 0 s); auto.
    + destruct (Rlt_dec _ (m - zeta * s)); auto. destruct (Rlt_dec (m + zeta * s) _); auto. tauto.
Qed.
Lemma check_positions p zeta (l : list (ttrace R)) k t : nth_error l k = Some t -> exists ps, NoDup ps /\
  Forall2 (fun ij d => let '(a, b, x, z) := d in delay l k (fst ij) (snd ij) a b x /\ exists m s, d_get p (a, b) = Some (m, s) /\
    (x < m - zeta * s \/ m + zeta * s < x) /\ z = (if Rlt_dec 0 s then Rabs (x - m) / s else IZR (2 ^ 63 - 1))) ps (check_trace p zeta t) /\
  forall i j a b x m s, delay l k i j a b x -> d_get p (a, b) = Some (m, s) -> (x < m - zeta * s \/ m + zeta * s < x) -> In (i, j) ps.
Proof.
  intros Ht. rewrite check_pt. destruct (pt_positions (check_pair p zeta)) with (t := t) as (ps & N & Fa & C).
  { intros ei ej. unfold check_pair. destruct (n_leb _ _); [|cbn; lia]. destruct (d_get _ _) as [(?, ?)|]; [|cbn; lia]. cbv zeta. destruct (_ || _)%bool; cbn; lia. }
  exists ps. split; auto. split.
  - eapply Forall2_impl; [|exact Fa]. intros (i, j) (((a, b), x), z) (ei & ej & H1 & H2 & H3 & H4). apply check_in in H4. destruct H4 as (A & B & L & X & R).
    split; [|exact R]. exists t, ei, ej. auto 10.
  - intros i j a b x m s (t2 & ei & ej & H0 & H1 & H2 & H3 & A & B & L & X) E D. assert (t2 = t) by congruence. subst t2.
    apply (C i j ei ej (a, b, x, if Rlt_dec 0 s then Rabs (x - m) / s else IZR (2 ^ 63 - 1))); auto. apply check_in. repeat split; auto. exists m, s. auto.
Qed.
