(** Interval semantics of nets labelled with languages: transitions start, emit letters and finish. *)
From Coq Require Import List Arith Lia Permutation Bool.
Import ListNotations.
From Verif Require Import Model_Tree Model_ToTree.

Definition word := list nat.
Definition op := (tr * word)%type.
Definition cfg := (list nat * list op)%type.
Definition ceq (c d : cfg) : Prop := Permutation (fst c) (fst d) /\ Permutation (snd c) (snd d).

Definition cnt (l : list nat) (p : nat) : nat := count_occ Nat.eq_dec l p.
Lemma cnt_app l m p : cnt (l ++ m) p = cnt l p + cnt m p.
Proof. apply count_occ_app. Qed.
Lemma perm_cnt l m : Permutation l m <-> forall p, cnt l p = cnt m p.
Proof. apply (Permutation_count_occ Nat.eq_dec). Qed.
Lemma cnt_in l p : In p l <-> 0 < cnt l p.
Proof. unfold cnt. rewrite (count_occ_In Nat.eq_dec). lia. Qed.
Lemma cnt_notin l p : ~ In p l -> cnt l p = 0.
Proof. intros. apply count_occ_not_In; auto. Qed.
Lemma cnt_nodup l p : NoDup l -> In p l -> cnt l p = 1.
Proof. intros. pose proof (proj1 (NoDup_count_occ Nat.eq_dec l) H p). pose proof (proj1 (cnt_in l p) H0). unfold cnt in *. lia. Qed.
Lemma cnt_le1 l p : NoDup l -> cnt l p <= 1.
Proof. intros. apply (proj1 (NoDup_count_occ Nat.eq_dec l) H). Qed.
Lemma sub_split : forall l m, (forall p, cnt l p <= cnt m p) -> exists r, Permutation m (l ++ r).
Proof.
  induction l as [|a l IH]; intros m H; [exists m; reflexivity|].
  assert (Hin : In a m). { apply cnt_in. specialize (H a). unfold cnt in *. cbn in H. destruct (Nat.eq_dec a a); [lia|congruence]. }
  apply in_split in Hin as (m1 & m2 & ->). destruct (IH (m1 ++ m2)) as (r & Hr).
  { intros p. specialize (H p). rewrite cnt_app in *. unfold cnt in *. cbn in H. destruct (Nat.eq_dec a p); lia. }
  exists r. cbn. rewrite <- Permutation_middle. constructor. auto.
Qed.

Section Sem.
  Variable lng : tr -> word -> Prop.
  Variable T : list tr.
  Variable i : nat.

  (** lazy: the word is checked when the transition finishes *)
  Inductive lstep : cfg -> word -> cfg -> Prop :=
  | l_start m ops x m2 ops2 : In x T -> Permutation m (pre x ++ m2) -> Permutation ops2 ((x, []) :: ops) -> lstep (m, ops) [] (m2, ops2)
  | l_emit m ops x v a r m2 ops2 : Permutation ops ((x, v) :: r) -> Permutation m m2 -> Permutation ops2 ((x, v ++ [a]) :: r) ->
      lstep (m, ops) [a] (m2, ops2)
  | l_finish m ops x v r m2 ops2 : Permutation ops ((x, v) :: r) -> lng x v -> Permutation m2 (post x ++ m) -> Permutation ops2 r ->
      lstep (m, ops) [] (m2, ops2).
  (** early: the word is chosen when the transition starts *)
  Inductive estep : cfg -> word -> cfg -> Prop :=
  | e_start m ops x w m2 ops2 : In x T -> lng x w -> Permutation m (pre x ++ m2) -> Permutation ops2 ((x, w) :: ops) -> estep (m, ops) [] (m2, ops2)
  | e_emit m ops x a w r m2 ops2 : Permutation ops ((x, a :: w) :: r) -> Permutation m m2 -> Permutation ops2 ((x, w) :: r) ->
      estep (m, ops) [a] (m2, ops2)
  | e_finish m ops x r m2 ops2 : Permutation ops ((x, []) :: r) -> Permutation m2 (post x ++ m) -> Permutation ops2 r ->
      estep (m, ops) [] (m2, ops2).
  Inductive lreach : cfg -> word -> Prop :=
  | lr_init m : Permutation m [i] -> lreach (m, []) []
  | lr_step c w u d : lreach c w -> lstep c u d -> lreach d (w ++ u).
  Inductive ereach : cfg -> word -> Prop :=
  | er_init m : Permutation m [i] -> ereach (m, []) []
  | er_step c w u d : ereach c w -> estep c u d -> ereach d (w ++ u).
  Definition lacc (o : nat) (w : word) : Prop := lreach ([o], []) w.
  Definition eacc (o : nat) (w : word) : Prop := ereach ([o], []) w.

  Lemma lreach_eq c w d : lreach c w -> ceq c d -> lreach d w.
  Proof.
    intros H [E1 E2]. destruct d as [m o]. cbn in *. inversion H; subst; cbn in *.
    - apply Permutation_nil in E2. subst. constructor. rewrite <- E1. auto.
    - eapply lr_step; eauto. inversion H1; subst; cbn in *.
      + eapply l_start; eauto; [rewrite H3, E1; reflexivity|rewrite <- E2; auto].
      + eapply l_emit; eauto; [rewrite H3; auto|rewrite <- E2; auto].
      + eapply l_finish; eauto; [rewrite <- E1; auto|rewrite <- E2; auto].
  Qed.
  Lemma ereach_eq c w d : ereach c w -> ceq c d -> ereach d w.
  Proof.
    intros H [E1 E2]. destruct d as [m o]. cbn in *. inversion H; subst; cbn in *.
    - apply Permutation_nil in E2. subst. constructor. rewrite <- E1. auto.
    - eapply er_step; eauto. inversion H1; subst; cbn in *.
      + eapply e_start; eauto; [rewrite H4, E1; reflexivity|rewrite <- E2; auto].
      + eapply e_emit; eauto; [rewrite H3; auto|rewrite <- E2; auto].
      + eapply e_finish; eauto; [rewrite <- E1; auto|rewrite <- E2; auto].
  Qed.

  Lemma Forall2_perm {X Y} (P : X -> Y -> Prop) l l' m : Permutation l l' -> Forall2 P l' m -> exists m', Permutation m' m /\ Forall2 P l m'.
  Proof.
    intros HP. revert m. induction HP; intros k H.
    - inversion H; subst. exists []. auto.
    - inversion H; subst. destruct (IHHP _ H4) as (m' & A & B). exists (y :: m'). auto.
    - inversion H; subst. inversion H4; subst. exists (y1 :: y0 :: l'0). split; [constructor|auto].
    - destruct (IHHP2 _ H) as (m' & A & B). destruct (IHHP1 _ B) as (m2 & C & D). exists m2. split; auto. rewrite C; auto.
  Qed.

  Definition resid (a b : op) : Prop := fst a = fst b /\ lng (fst a) (snd a ++ snd b).
  (** Both semantics accept the same words. *)
  Lemma lazy_early : forall c w, lreach c w -> forall rs, Forall2 resid (snd c) rs -> ereach (fst c, rs) w.
  Proof.
    induction 1 as [m Hm|c w u d H IH S]; intros rs F; cbn in *.
    - inversion F; subst. constructor; auto.
    - inversion S; subst; cbn in *.
      + destruct (Forall2_perm _ _ _ rs (Permutation_sym H2) F) as (rs' & P & F'). inversion F'; subst.
        destruct y as [y r]. destruct H5 as [E L]. cbn in E, L. subst y. eapply er_step; [apply IH; eauto|].
        eapply e_start; eauto. rewrite P. reflexivity.
      + destruct (Forall2_perm _ _ _ rs (Permutation_sym H2) F) as (rs' & P & F'). inversion F'; subst.
        destruct y as [y q]. destruct H5 as [E L]. cbn in E, L. subst y. rewrite <- app_assoc in L.
        assert (F2 : Forall2 resid ((x, v) :: r) ((x, a :: q) :: l')) by (constructor; auto; split; auto).
        destruct (Forall2_perm _ _ _ _ H0 F2) as (rs2 & P2 & F3). eapply er_step; [apply IH; eauto|].
        eapply e_emit; eauto. rewrite P. reflexivity.
      + destruct (Forall2_perm _ _ _ rs (Permutation_sym H3) F) as (rs' & P & F').
        assert (F2 : Forall2 resid ((x, v) :: r) ((x, []) :: rs')) by (constructor; auto; split; cbn; auto; rewrite app_nil_r; auto).
        destruct (Forall2_perm _ _ _ _ H0 F2) as (rs2 & P2 & F3). eapply er_step; [apply IH; eauto|].
        eapply e_finish; eauto. rewrite P. reflexivity.
  Qed.
  Lemma early_lazy : forall c w, ereach c w -> exists ops, Forall2 resid ops (snd c) /\ lreach (fst c, ops) w.
  Proof.
    assert (FS : forall l m, Forall2 resid l m -> Forall2 (fun b a => resid a b) m l) by (induction 1; constructor; auto).
    assert (FS' : forall l m, Forall2 (fun b a => resid a b) l m -> Forall2 resid m l) by (induction 1; constructor; auto).
    induction 1 as [m Hm|c w u d H IH S]; cbn in *.
    - exists []. split; auto. constructor; auto.
    - destruct IH as (ops0 & F & R). apply FS in F. inversion S; subst; cbn in *.
      + assert (F2 : Forall2 (fun b a => resid a b) ((x, w0) :: ops) ((x, []) :: ops0)) by (constructor; auto; split; auto).
        destruct (Forall2_perm _ _ _ _ H3 F2) as (q & P & F3). exists q. split; [apply FS'; auto|]. eapply lr_step; [exact R|]. eapply l_start; eauto.
      + destruct (Forall2_perm _ _ _ _ (Permutation_sym H0) F) as (q & P & F'). inversion F'; subst. destruct y as [y v]. destruct H5 as [E L]. cbn in E, L. subst y.
        assert (F2 : Forall2 (fun b a => resid a b) ((x, w0) :: r) ((x, v ++ [a]) :: l')) by (constructor; auto; split; auto; cbn; rewrite <- app_assoc; auto).
        destruct (Forall2_perm _ _ _ _ H2 F2) as (q2 & P2 & F3). exists q2. split; [apply FS'; auto|]. eapply lr_step; [exact R|]. eapply l_emit; eauto. rewrite <- P. reflexivity.
      + destruct (Forall2_perm _ _ _ _ (Permutation_sym H0) F) as (q & P & F'). inversion F'; subst. destruct y as [y v]. destruct H5 as [E L]. cbn in E, L. subst y. rewrite app_nil_r in L.
        destruct (Forall2_perm _ _ _ _ H2 H7) as (q2 & P2 & F3). exists q2. split; [apply FS'; auto|]. eapply lr_step; [exact R|]. eapply l_finish; eauto. rewrite <- P. reflexivity.
  Qed.
  Lemma acc_iff o w : lacc o w <-> eacc o w.
  Proof.
    split; intros H.
    - apply (lazy_early _ _ H []). constructor.
    - destruct (early_lazy _ _ H) as (ops & F & R). cbn in *. inversion F; subst. auto.
  Qed.

  (** ** Local runs of the early semantics *)
  Inductive erun : cfg -> word -> cfg -> Prop :=
  | run_eq c d : ceq c d -> erun c [] d
  | run_step c u c1 w d : estep c u c1 -> erun c1 w d -> erun c (u ++ w) d.
  Lemma ceq_sym c d : ceq c d -> ceq d c.
  Proof. intros [A B]; split; symmetry; auto. Qed.
  Lemma ceq_trans c d e : ceq c d -> ceq d e -> ceq c e.
  Proof. intros [A B] [C D]; split; etransitivity; eauto. Qed.
  Lemma erun_eq_r c w d e : erun c w d -> ceq d e -> erun c w e.
  Proof. induction 1; intros; [constructor; eapply ceq_trans; eauto|econstructor; eauto]. Qed.
  Lemma estep_eq_l c u d c' : estep c u d -> ceq c c' -> exists d', estep c' u d' /\ ceq d d'.
  Proof.
    intros S [E1 E2]. destruct c' as [m' o']. inversion S; subst; cbn in *.
    - exists (m2, (x, w) :: o'). split; [eapply e_start; eauto; rewrite <- E1; auto|]. split; cbn; auto. rewrite H2, E2. auto.
    - exists (m', (x, w) :: r). split; [eapply e_emit; eauto; rewrite <- E2; auto|]. split; cbn; auto. rewrite <- H0. auto.
    - exists (post x ++ m', r). split; [eapply e_finish; eauto; rewrite <- E2; auto|]. split; cbn; auto. rewrite H0, E1. auto.
  Qed.
  Lemma erun_eq_l c w d c' : erun c w d -> ceq c c' -> erun c' w d.
  Proof.
    intros H. revert c'. induction H; intros c' E.
    - constructor. eapply ceq_trans; [apply ceq_sym; eauto|auto].
    - destruct (estep_eq_l _ _ _ _ H E) as (d' & S & E'). econstructor; eauto.
  Qed.
  Lemma erun_trans c u d w e : erun c u d -> erun d w e -> erun c (u ++ w) e.
  Proof.
    induction 1; intros R; cbn.
    - eapply erun_eq_l; eauto. apply ceq_sym; auto.
    - rewrite <- app_assoc. econstructor; eauto.
  Qed.
  Lemma erun_one c u d : estep c u d -> erun c u d.
  Proof. intros. rewrite <- (app_nil_r u). econstructor; eauto. constructor. split; auto. Qed.
  Lemma erun_frame c w d : erun c w d -> forall k r, erun (fst c ++ k, snd c ++ r) w (fst d ++ k, snd d ++ r).
  Proof.
    induction 1; intros k r.
    - destruct H as [A B]. constructor. split; cbn; [rewrite A|rewrite B]; auto.
    - econstructor; [|apply IHerun]. clear - H. inversion H; subst; cbn.
      + eapply e_start; eauto; [rewrite H2, app_assoc; reflexivity|rewrite H3; reflexivity].
      + eapply e_emit with (x := x) (w := w) (r := r0 ++ r); [rewrite H0|rewrite H1|rewrite H2]; reflexivity.
      + eapply e_finish with (x := x) (r := r0 ++ r); [rewrite H0|rewrite H1, app_assoc|rewrite H2]; reflexivity.
  Qed.
  Lemma ereach_run c w u d : ereach c w -> erun c u d -> ereach d (w ++ u).
  Proof.
    intros H R. revert w H. induction R; intros v Hc.
    - rewrite app_nil_r. eapply ereach_eq; eauto.
    - rewrite app_assoc. apply IHR. econstructor; eauto.
  Qed.

  (** ** Markings only *)
  Inductive areach : list nat -> Prop :=
  | ar_init m : Permutation m [i] -> areach m
  | ar_fire m x k m2 : areach m -> In x T -> Permutation m (pre x ++ k) -> Permutation m2 (post x ++ k) -> areach m2.
  Definition safe : Prop := forall m, areach m -> forall p, cnt m p <= 1.
  Lemma areach_eq m m2 : areach m -> Permutation m m2 -> areach m2.
  Proof. intros H E. inversion H; subst; [constructor; rewrite <- E; auto|eapply ar_fire; eauto; rewrite <- E; auto]. Qed.
  Definition pres (ops : list op) : list nat := flat_map (fun o => pre (fst o)) ops.
  Definition posts (ops : list op) : list nat := flat_map (fun o => post (fst o)) ops.
  Lemma pres_perm a b : Permutation a b -> Permutation (pres a) (pres b).
  Proof. intros. unfold pres. apply Permutation_flat_map; auto. Qed.
  Lemma posts_perm a b : Permutation a b -> Permutation (posts a) (posts b).
  Proof. intros. unfold posts. apply Permutation_flat_map; auto. Qed.
  Lemma lreach_in c w : lreach c w -> forall x v, In (x, v) (snd c) -> In x T.
  Proof.
    induction 1 as [m Hm|c w u d H IH S]; cbn; intros y v Hy; [easy|]. inversion S; subst; cbn in *.
    - apply (Permutation_in _ H2) in Hy. destruct Hy as [E|Hy]; [congruence|eauto].
    - apply (Permutation_in _ H2) in Hy. destruct Hy as [E|Hy]; [injection E as <- <-; eapply IH; eapply Permutation_in; [symmetry; eauto|left; eauto]|].
      eapply IH. eapply Permutation_in; [symmetry; eauto|right; eauto].
    - eapply IH. eapply Permutation_in; [symmetry; eauto|]. right. eapply Permutation_in; eauto.
  Qed.
  Lemma lreach_marks c w : lreach c w -> areach (fst c ++ pres (snd c)) /\ areach (fst c ++ posts (snd c)).
  Proof.
    intros Hc. assert (HI := lreach_in _ _ Hc). induction Hc as [m Hm|c w u d H IH S]; cbn.
    - rewrite app_nil_r. split; constructor; auto.
    - specialize (IH (lreach_in _ _ H)). destruct IH as [A B]. inversion S; subst; cbn in *.
      + split.
        * eapply areach_eq; [exact A|]. rewrite (pres_perm _ _ H2), H1. cbn. rewrite (Permutation_app_comm (pre x) m2), <- app_assoc. auto.
        * eapply ar_fire with (x := x) (k := m2 ++ posts ops); [exact B|auto|rewrite H1, app_assoc; auto|].
          rewrite (posts_perm _ _ H2). cbn. rewrite !app_assoc. apply Permutation_app_tail. apply Permutation_app_comm.
      + split; [eapply areach_eq; [exact A|]|eapply areach_eq; [exact B|]].
        * rewrite (pres_perm _ _ H0), (pres_perm _ _ H2), H1. auto.
        * rewrite (posts_perm _ _ H0), (posts_perm _ _ H2), H1. auto.
      + split.
        * eapply ar_fire with (x := x) (k := m ++ pres r); [exact A| | |].
          { eapply (lreach_in _ _ H). cbn. eapply Permutation_in; [symmetry; eauto|]. left; eauto. }
          { rewrite (pres_perm _ _ H0). cbn. rewrite !app_assoc. apply Permutation_app_tail. apply Permutation_app_comm. }
          { rewrite H2, (pres_perm _ _ H3), app_assoc. auto. }
        * eapply areach_eq; [exact B|]. rewrite H2, (posts_perm _ _ H0), (posts_perm _ _ H3). cbn. rewrite !app_assoc. apply Permutation_app_tail. apply Permutation_app_comm.
  Qed.
  Lemma safe_marks c w : safe -> lreach c w -> forall p, cnt (fst c) p + cnt (pres (snd c)) p <= 1 /\ cnt (fst c) p + cnt (posts (snd c)) p <= 1.
  Proof. intros Hs H p. destruct (lreach_marks _ _ H) as [A B]. apply (Hs _) with (p := p) in A, B. rewrite cnt_app in A, B. auto. Qed.
End Sem.

Lemma areach_lreach T i m : areach T i m -> lreach (fun _ _ => True) T i (m, []) [].
Proof.
  induction 1.
  - constructor; auto.
  - change (@nil nat) with (@nil nat ++ @nil nat). eapply lr_step with (c := (k, [(x, [])])).
    + change (@nil nat) with (@nil nat ++ @nil nat). eapply lr_step; [exact IHareach|]. eapply l_start; eauto.
    + eapply l_finish; eauto.
Qed.
