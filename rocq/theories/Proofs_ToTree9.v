(** Leaf-labelled nets: interval semantics = atomic firing; bridge to markings. *)
From Coq Require Import List Arith Lia Permutation Bool.
Import ListNotations.
From Verif Require Import Model_Graph Model_Tree Spec_Tree Model_ToTree Proofs_ToTree1 Proofs_ToTree2 Proofs_ToTree3 Proofs_ToTree4 Proofs_ToTree5 Proofs_ToTree6.

Section Atomic.
  Variables (T : list tr) (i : nat).
  Inductive aw : list nat -> word -> Prop :=
  | aw_init m : Permutation m [i] -> aw m []
  | aw_fire m w x k m2 u : aw m w -> In x T -> Permutation m (pre x ++ k) -> Permutation m2 (post x ++ k) -> L x u -> aw m2 (w ++ u).
  Lemma aw_eq m w m2 : aw m w -> Permutation m m2 -> aw m2 w.
  Proof. intros H P. inversion H; subst; [constructor; rewrite <- P; auto|]. eapply aw_fire; eauto. rewrite <- P; auto. Qed.
  Lemma aw_ereach m w : aw m w -> ereach L T i (m, []) w.
  Proof.
    induction 1 as [m Hm|m w x k m2 u H IH Hx P1 P2 Hl]; [constructor; auto|].
    apply (ereach_run _ _ _ _ _ _ _ IH).
    assert (EM : forall v, erun L T ([], [(x, v)]) v ([], [(x, [])])).
    { induction v as [|a v IHv]; [constructor; split; auto|]. change (a :: v) with ([a] ++ v) at 2. eapply erun_trans; [apply r_emit|auto]. }
    assert (R : erun L T (pre x, []) u (post x, [])).
    { eapply then_run; [apply r_start; eauto|]. rewrite <- (app_nil_r u) at 2. eapply erun_trans; [apply EM|apply r_fin]. }
    apply (erun_frame _ _ _ _ _) with (k := k) (r := []) in R. cbn [fst snd app] in R.
    eapply erun_eq_l; [eapply erun_eq_r; [exact R|]|]; split; cbn; auto; symmetry; auto.
  Qed.
  Hypothesis leaf : forall x, In x T -> exists l, lab x = Leaf l.
  Lemma leaf_cons x a v : In x T -> L x (a :: v) -> v = [].
  Proof. intros Hx Hl. destruct (leaf x Hx) as [l E]. unfold L in Hl. rewrite E in Hl. inversion Hl; auto. Qed.
  Definition hh (c : op) : list nat := match snd c with [] => post (fst c) | _ :: _ => pre (fst c) end.
  Lemma hh_perm a b : Permutation a b -> Permutation (flat_map hh a) (flat_map hh b).
  Proof. intros. apply Permutation_flat_map; auto. Qed.
  Lemma ereach_aw c w : ereach L T i c w -> aw (fst c ++ flat_map hh (snd c)) w /\ forall x a v, In (x, a :: v) (snd c) -> In x T /\ L x (a :: v).
  Proof.
    induction 1 as [m Hm|c w u d H [IH1 IH2] S]; [cbn; rewrite app_nil_r; split; [constructor; auto|easy]|].
    inversion S as [m ops x v m2 ops2 Hx Hl P1 P2|m ops x a v r m2 ops2 P1 P2 P3|m ops x r m2 ops2 P1 P2 P3]; subst; cbn [fst snd] in *.
    - split.
      + destruct v as [|a v].
        * eapply aw_fire; [exact IH1|exact Hx| | |exact Hl].
          -- instantiate (1 := m2 ++ flat_map hh ops). rewrite P1, <- app_assoc. reflexivity.
          -- rewrite (hh_perm _ _ P2). cbn [flat_map hh snd fst]. rewrite !app_assoc. apply Permutation_app_tail. apply Permutation_app_comm.
        * rewrite app_nil_r. eapply aw_eq; [exact IH1|]. rewrite P1, (hh_perm _ _ P2). cbn [flat_map hh snd fst]. rewrite !app_assoc. apply Permutation_app_tail. apply Permutation_app_comm.
      + intros y b z Hy. rewrite P2 in Hy. destruct Hy as [E|Hy]; [injection E as -> ->; auto|apply IH2; auto].
    - destruct (IH2 x a v) as [Hx Hl]; [rewrite P1; left; auto|]. pose proof (leaf_cons x a v Hx Hl) as ->. split.
      + eapply aw_fire; [exact IH1|exact Hx| | |exact Hl].
        * instantiate (1 := m ++ flat_map hh r). rewrite (hh_perm _ _ P1). cbn [flat_map hh snd fst]. rewrite !app_assoc. apply Permutation_app_tail. apply Permutation_app_comm.
        * rewrite P2, (hh_perm _ _ P3). cbn [flat_map hh snd fst]. rewrite !app_assoc. apply Permutation_app_tail. apply Permutation_app_comm.
      + intros y b z Hy. rewrite P3 in Hy. destruct Hy as [E|Hy]; [discriminate|]. apply IH2. rewrite P1. right; auto.
    - split.
      + rewrite app_nil_r. eapply aw_eq; [exact IH1|]. rewrite (hh_perm _ _ P1), P2, (hh_perm _ _ P3). cbn [flat_map hh snd fst]. rewrite !app_assoc. apply Permutation_app_tail. apply Permutation_app_comm.
      + intros y b z Hy. apply IH2. rewrite P1. right. rewrite <- P3. auto.
  Qed.
  Lemma aw_lacc o w : aw [o] w <-> lacc L T i o w.
  Proof.
    rewrite acc_iff. split; [apply aw_ereach|]. intros H. apply ereach_aw in H as [H _]. cbn in H. auto.
  Qed.
  Lemma aw_areach m : areach T i m <-> exists w, aw m w.
  Proof.
    split.
    - induction 1 as [m Hm|m x k m2 H [w IH] Hx P1 P2]; [exists []; constructor; auto|].
      destruct (leaf x Hx) as [[a|] E]; [exists (w ++ [a])|exists (w ++ [])]; eapply aw_fire; eauto; unfold L; rewrite E; constructor.
    - intros [w H]. induction H; [constructor; auto|eapply ar_fire; eauto].
  Qed.
  Lemma siphon_empty S m : siphon T S -> ~ S i -> areach T i m -> forall p, S p -> ~ In p m.
  Proof.
    intros HS Hi. induction 1 as [m Hm|m x k m2 H IH Hx P1 P2]; intros p Hp Hin.
    - rewrite Hm in Hin. destruct Hin as [<- |[]]. auto.
    - rewrite P2 in Hin. apply in_app_iff in Hin as [Hin|Hin].
      + destruct (HS x p Hx Hin Hp) as (q & Q1 & Q2). apply (IH q Q2). rewrite P1. apply in_app_iff; auto.
      + apply (IH p Hp). rewrite P1. apply in_app_iff; auto.
  Qed.
End Atomic.
