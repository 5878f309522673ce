(** Shuffles and the language of process trees: basic facts. *)
From Coq Require Import List Arith Lia Permutation.
Import ListNotations.
From Verif Require Import Model_Tree Spec_Tree.

Lemma split_app {X} (x1 : list X) y x2 l1 l2 : x1 ++ y :: x2 = l1 ++ l2 ->
  (exists k, l1 = x1 ++ y :: k /\ x2 = k ++ l2) \/ (exists k, l2 = k ++ y :: x2 /\ x1 = l1 ++ k).
Proof.
  revert l1. induction x1 as [|z x1 IH]; intros [|b l1] E; cbn in *.
  - right. exists []. subst. auto.
  - inversion E; subst. left. exists l1. auto.
  - right. exists (z :: x1). subst. auto.
  - inversion E; subst. destruct (IH _ H1) as [(k & -> & ->)|(k & -> & ->)]; [left|right]; exists k; auto.
Qed.

Section Sh.
  Context {A : Type}.
  Implicit Types (w u v : list A) (ws l : list (list A)).

  Lemma shuffle_perm ws ws' u : Permutation ws ws' -> shuffle ws u -> shuffle ws' u.
  Proof.
    intros HP H. revert ws' HP. induction H as [ws Hn|l1 a w l2 u H IH]; intros ws' HP.
    - constructor. intros w Hw. apply Hn. eapply Permutation_in; [symmetry; exact HP|exact Hw].
    - assert (Hin : In (a :: w) ws') by (eapply Permutation_in; [exact HP|apply in_elt]).
      apply in_split in Hin as (k1 & k2 & ->). constructor. apply IH.
      apply Permutation_app_inv in HP.
      apply Permutation_elt. exact HP.
  Qed.

  Lemma shuffle_nil_elt l1 l2 u : shuffle (l1 ++ [] :: l2) u <-> shuffle (l1 ++ l2) u.
  Proof.
    assert (G1 : forall l u, shuffle ([] :: l) u -> shuffle l u).
    { intros l u0 H. remember ([] :: l) as ws eqn:E. revert l E.
      induction H as [ws Hn|k1 a w k2 u1 H IH]; intros l E; subst.
      - constructor. intros w Hw. apply Hn. right; auto.
      - destruct k1 as [|x k1]; cbn in E; [discriminate|]. inversion E; subst. constructor. apply IH. reflexivity. }
    assert (G2 : forall l u, shuffle l u -> shuffle ([] :: l) u).
    { induction 1 as [ws Hn|k1 a w k2 u0 H IH].
      - constructor. intros w [<-|Hw]; auto.
      - apply (sh_cons ([] :: k1)). exact IH. }
    split; intros H.
    - apply G1. eapply shuffle_perm; [|exact H]. symmetry. apply Permutation_middle.
    - apply G2 in H. eapply shuffle_perm; [|exact H]. apply Permutation_middle.
  Qed.

  Lemma shuffle_split ws l u : shuffle (ws ++ l) u <-> exists v, shuffle ws v /\ shuffle (v :: l) u.
  Proof.
    split.
    - intros H. remember (ws ++ l) as k eqn:E. revert ws l E.
      induction H as [k Hn|l1 a w l2 u H IH]; intros ws l E; subst.
      + exists []. split; constructor; intros w Hw; [apply Hn, in_or_app; auto|].
        destruct Hw as [<-|Hw]; auto. apply Hn, in_or_app; auto.
      + destruct (split_app _ _ _ _ _ E) as [(k & -> & ->)|(k & -> & ->)].
        * destruct (IH (l1 ++ w :: k) l) as (v & Hv & Hu); [rewrite <- app_assoc; reflexivity|].
          exists (a :: v). split; [constructor; auto|]. apply (sh_cons []). exact Hu.
        * destruct (IH ws (k ++ w :: l2)) as (v & Hv & Hu); [rewrite <- app_assoc; reflexivity|].
          exists v. split; [auto|]. apply (sh_cons (v :: k)). exact Hu.
    - intros (v & Hv & Hu). remember (v :: l) as k eqn:E. revert ws v l E Hv.
      induction Hu as [k Hn|l1 a w l2 u H IH]; intros ws v l E Hv; subst.
      + assert (v = []) by (apply Hn; left; auto). subst. inversion Hv; subst.
        constructor. intros w Hw. apply in_app_or in Hw as [Hw|Hw]; auto. apply Hn. right; auto.
      + destruct l1 as [|x l1]; cbn in E; inversion E; subst.
        * inversion Hv as [|k1 a' w' k2 u' Hv' E1]; subst.
          rewrite <- app_assoc. cbn. constructor. specialize (IH (k1 ++ w' :: k2) w l eq_refl Hv').
          rewrite <- app_assoc in IH. exact IH.
        * rewrite app_assoc. constructor. rewrite <- app_assoc. apply (IH _ v); auto.
  Qed.

  Lemma shuffle_flatten l1 ws l2 u :
    shuffle (l1 ++ ws ++ l2) u <-> exists v, shuffle ws v /\ shuffle (l1 ++ v :: l2) u.
  Proof.
    split.
    - intros H. assert (H' : shuffle (ws ++ l1 ++ l2) u).
      { eapply shuffle_perm; [|exact H]. rewrite !app_assoc. apply Permutation_app_tail, Permutation_app_comm. }
      apply shuffle_split in H' as (v & Hv & Hu). exists v. split; auto.
      eapply shuffle_perm; [|exact Hu]. apply Permutation_middle.
    - intros (v & Hv & Hu). assert (H' : shuffle (ws ++ l1 ++ l2) u).
      { apply shuffle_split. exists v. split; auto. eapply shuffle_perm; [|exact Hu]. symmetry. apply Permutation_middle. }
      eapply shuffle_perm; [|exact H']. rewrite !app_assoc. apply Permutation_app_tail, Permutation_app_comm.
  Qed.

  Lemma shuffle_one w u : shuffle [w] u <-> u = w.
  Proof.
    split.
    - intros H. remember [w] as ws eqn:E. revert w E. induction H as [ws Hn|l1 a w l2 u H IH]; intros w0 E; subst.
      + symmetry. apply Hn. left; auto.
      + destruct l1 as [|x [|? ?]]; cbn in E; try discriminate. inversion E; subst. f_equal. apply IH. reflexivity.
    - intros ->. induction w as [|a w IH]; [constructor; intros ? [<-|[]]; auto|].
      apply (sh_cons [] a w []). exact IH.
  Qed.

  Lemma shuffle_nils ws : (forall w, In w ws -> w = []) -> shuffle ws [].
  Proof. constructor. auto. Qed.
  Lemma shuffle_nil_inv ws : shuffle ws [] -> forall w, In w ws -> w = [].
  Proof. inversion 1; auto. Qed.

  Lemma shuffle_empty u : shuffle [] u -> u = [].
  Proof. inversion 1 as [|l1 a w l2 u0 H0 E]; subst; auto. destruct l1; discriminate. Qed.

  Lemma shuffle_snoc l1 w l2 u a : shuffle (l1 ++ w :: l2) u -> shuffle (l1 ++ (w ++ [a]) :: l2) (u ++ [a]).
  Proof.
    intros H. remember (l1 ++ w :: l2) as ws eqn:E. revert l1 w l2 E.
    induction H as [ws Hn|k1 b w' k2 u H IH]; intros l1 w l2 E; subst.
    - assert (w = []) by (apply Hn, in_elt). subst w. cbn.
      apply sh_cons. constructor. auto.
    - cbn. destruct (split_app _ _ _ _ _ E) as [(k & -> & ->)|(k & Ek & ->)].
      + rewrite <- app_assoc. cbn. constructor.
        specialize (IH (k1 ++ w' :: k) w l2). rewrite <- !app_assoc in IH. cbn in IH. apply IH. reflexivity.
      + destruct k as [|x k]; cbn in Ek; inversion Ek; subst.
        * cbn. rewrite app_nil_r in *. constructor. apply (IH l1 w' k2). reflexivity.
        * rewrite app_comm_cons, app_assoc. constructor. rewrite <- app_assoc. cbn.
          apply IH. rewrite <- app_assoc. reflexivity.
  Qed.

  Lemma shuffle_length ws u : shuffle ws u -> length u = length (concat ws).
  Proof.
    induction 1 as [ws Hn|l1 a w l2 u H IH].
    - induction ws as [|w ws IH]; [reflexivity|]. cbn. rewrite app_length, <- IH; [|intros; apply Hn; right; auto].
      rewrite (Hn w); [reflexivity|left; auto].
    - cbn. rewrite IH, !concat_app, !app_length. cbn. lia.
  Qed.
  Lemma shuffle_In ws u x : shuffle ws u -> (In x u <-> exists w, In w ws /\ In x w).
  Proof.
    induction 1 as [ws Hn|l1 a w l2 u H IH].
    - split; [intros []|]. intros (w & Hw & Hx). rewrite (Hn _ Hw) in Hx. destruct Hx.
    - cbn. rewrite IH. split.
      + intros [<-|(v & Hv & Hx)]; [exists (a :: w); split; [apply in_elt|left; auto]|].
        apply in_app_or in Hv as [Hv|[<-|Hv]].
        * exists v. split; auto. apply in_or_app; auto.
        * exists (a :: w). split; [apply in_elt|right; auto].
        * exists v. split; auto. apply in_or_app; right; right; auto.
      + intros (v & Hv & Hx). apply in_app_or in Hv as [Hv|[<-|Hv]].
        * right. exists v. split; auto. apply in_or_app; auto.
        * destruct Hx as [<-|Hx]; [left; auto|right]. exists w. split; [apply in_elt|auto].
        * right. exists v. split; auto. apply in_or_app; right; right; auto.
  Qed.
  (** concatenation is one of the interleavings *)
  Lemma shuffle_concat ws : shuffle ws (concat ws).
  Proof.
    induction ws as [|w ws IH]; [apply shuffle_nils; intros ? []|]. cbn.
    induction w as [|a w IHw]; cbn.
    - apply (shuffle_nil_elt []). exact IH.
    - apply (sh_cons []). exact IHw.
  Qed.
End Sh.

(** Induction over trees. *)
Section TreeInd.
  Context {A : Type} (P : tree A -> Prop).
  Hypothesis HL : forall l, P (Leaf l).
  Hypothesis HN : forall o cs, Forall P cs -> P (Node o cs).
  Fixpoint tree_ind2 (t : tree A) : P t :=
    match t with
    | Leaf l => HL l
    | Node o cs => HN o cs ((fix go cs : Forall P cs :=
                               match cs with [] => Forall_nil _ | c :: r => Forall_cons c (tree_ind2 c) (go r) end) cs)
    end.
End TreeInd.

(** Characterisation of the language of each operator. *)
Inductive iterate {A} (D R : list A -> Prop) : list A -> Prop :=
| it_exit w : D w -> iterate D R w
| it_redo w v w' : D w -> R v -> iterate D R w' -> iterate D R (w ++ v ++ w').

Section Lang.
  Context {A : Type}.
  Implicit Types (t : tree A) (cs : list (tree A)) (w : list A).

  Lemma lang_tau w : lang (@Leaf A None) w <-> w = [].
  Proof. split; [inversion 1; auto|intros ->; constructor]. Qed.
  Lemma lang_act (a : A) w : lang (Leaf (Some a)) w <-> w = [a].
  Proof. split; [inversion 1; auto|intros ->; constructor]. Qed.
  Lemma lang_seq cs w : lang (Node Sequence cs) w <-> exists ws, Forall2 lang cs ws /\ w = concat ws.
  Proof. split; [inversion 1; subst; eauto|intros (ws & H & ->); constructor; auto]. Qed.
  Lemma lang_xor cs w : lang (Node Xor cs) w <-> exists c, In c cs /\ lang c w.
  Proof. split; [inversion 1; subst; eauto|intros (c & H & H'); econstructor; eauto]. Qed.
  Lemma lang_par cs w : lang (Node Parallel cs) w <-> exists ws, Forall2 lang cs ws /\ shuffle ws w.
  Proof. split; [inversion 1; subst; eauto|intros (ws & H & H'); econstructor; eauto]. Qed.
  Lemma lang_or cs w : lang (Node Or cs) w <->
    exists cs' ws, select cs cs' /\ cs' <> [] /\ Forall2 lang cs' ws /\ shuffle ws w.
  Proof. split; [inversion 1; subst; eauto 8|intros (cs' & ws & H1 & H2 & H3 & H4); econstructor; eauto]. Qed.
  Lemma lang_int cs w : lang (Node Interleaving cs) w <->
    exists cs' ws, Permutation cs cs' /\ Forall2 lang cs' ws /\ w = concat ws.
  Proof. split; [inversion 1; subst; eauto 8|intros (cs' & ws & H1 & H2 & ->); econstructor; eauto]. Qed.
  Lemma lang_loop d rs w : lang (Node Loop (d :: rs)) w <->
    iterate (lang d) (fun v => exists r, In r rs /\ lang r v) w.
  Proof.
    split.
    - intros H. remember (Node Loop (d :: rs)) as t eqn:E.
      induction H as [| | | | | | |d' rs' w H _|d' rs' r w v w' Hd _ Hr Hv _ Hl IH]; try discriminate; inversion E; subst.
      + constructor; auto.
      + apply it_redo; eauto.
    - induction 1 as [w H|w v w' Hd (r & Hr & Hv) _ IH]; [apply L_loop_exit; auto|eapply L_loop_redo; eauto].
  Qed.
  Lemma lang_loop_nil w : ~ lang (@Node A Loop []) w.
  Proof. inversion 1. Qed.

  Lemma iterate_mono (D R D' R' : list A -> Prop) w :
    (forall w, D w -> D' w) -> (forall w, R w -> R' w) -> iterate D R w -> iterate D' R' w.
  Proof. intros HD HR. induction 1; [constructor; auto|apply it_redo; auto]. Qed.

  (** congruence *)
  Lemma Forall2_lang_impl cs cs' ws : Forall2 (fun c c' => forall w, lang c w -> lang c' w) cs cs' ->
    Forall2 lang cs ws -> Forall2 lang cs' ws.
  Proof. intros H. revert ws. induction H; inversion 1; subst; constructor; auto. Qed.

  Lemma select_impl {X} (R : X -> X -> Prop) l k l' : Forall2 R l k -> select l l' ->
    exists k', select k k' /\ Forall2 R l' k'.
  Proof.
    intros HF H. revert k HF. induction H as [|x l l' H IH|x l l' H IH]; intros k HF; inversion HF as [|? y ? k0 HR HF0]; subst.
    - exists []. split; constructor.
    - destruct (IH _ HF0) as (k' & ? & ?). exists k'. split; auto. constructor; auto.
    - destruct (IH _ HF0) as (k' & ? & ?). exists (y :: k'). split; [apply sel_take|constructor]; auto.
  Qed.
  Lemma perm_impl {X} (R : X -> X -> Prop) l k l' : Forall2 R l k -> Permutation l l' ->
    exists k', Permutation k k' /\ Forall2 R l' k'.
  Proof.
    intros HF H. revert k HF. induction H; intros k HF.
    - inversion HF; subst. exists []. split; constructor.
    - inversion HF as [|? y ? k0 HR HF0]; subst. destruct (IHPermutation _ HF0) as (k' & ? & ?). exists (y :: k'). split; constructor; auto.
    - inversion HF as [|? y1 ? k0 HR HF0]; subst. inversion HF0 as [|? y2 ? k1 HR' HF1]; subst. exists (y2 :: y1 :: k1). split; [apply perm_swap|repeat constructor; auto].
    - destruct (IHPermutation1 _ HF) as (k1 & ? & HF1). destruct (IHPermutation2 _ HF1) as (k2 & ? & ?).
      exists k2. split; auto. etransitivity; eauto.
  Qed.

  Lemma lang_mono o cs cs' w : Forall2 (fun c c' => forall w, lang c w -> lang c' w) cs cs' ->
    lang (Node o cs) w -> lang (Node o cs') w.
  Proof.
    intros HF. destruct o.
    - rewrite !lang_seq. intros (ws & H & ->). exists ws. split; auto. eapply Forall2_lang_impl; eauto.
    - rewrite !lang_xor. intros (c & H & Hw). apply in_split in H as (l1 & l2 & ->).
      apply Forall2_app_inv_l in HF as (k1 & k & _ & HF & ->). inversion HF; subst. eexists. split; [apply in_elt|auto].
    - rewrite !lang_par. intros (ws & H & Hs). exists ws. split; auto. eapply Forall2_lang_impl; eauto.
    - destruct HF as [|d d' rs rs' Hd HF]; [intros H; destruct (lang_loop_nil _ H)|].
      rewrite !lang_loop. apply iterate_mono; auto. intros v (r & H & Hw). apply in_split in H as (l1 & l2 & ->).
      apply Forall2_app_inv_l in HF as (k1 & k & _ & HF & ->). inversion HF; subst. eexists. split; [apply in_elt|auto].
    - rewrite !lang_or. intros (cs1 & ws & Hsel & Hne & H & Hs).
      destruct (select_impl _ _ _ _ HF Hsel) as (cs2 & Hsel2 & HF2). exists cs2, ws. repeat split; auto.
      + intros ->. inversion HF2; subst. auto.
      + eapply Forall2_lang_impl; eauto.
    - rewrite !lang_int. intros (cs1 & ws & Hp & H & ->).
      destruct (perm_impl _ _ _ _ HF Hp) as (cs2 & Hp2 & HF2). exists cs2, ws. repeat split; auto.
      eapply Forall2_lang_impl; eauto.
  Qed.

  Lemma same_lang_refl t : same_lang t t. Proof. intros w. reflexivity. Qed.
  Lemma same_lang_sym t u : same_lang t u -> same_lang u t. Proof. intros H w. symmetry. apply H. Qed.
  Lemma same_lang_trans t u v : same_lang t u -> same_lang u v -> same_lang t v.
  Proof. intros H H' w. rewrite (H w). apply H'. Qed.
  Lemma same_lang_node o cs cs' : Forall2 same_lang cs cs' -> same_lang (Node o cs) (Node o cs').
  Proof.
    intros HF w. split; apply lang_mono.
    - induction HF; constructor; auto. intros w'. apply H.
    - induction HF; constructor; auto. intros w'. apply H.
  Qed.
  Lemma Forall2_same_refl cs : Forall2 same_lang cs cs.
  Proof. induction cs; constructor; auto using same_lang_refl. Qed.

  (** every well-formed tree has a trace *)
  Lemma wf_node_inv o cs : wf_tree (@Node A o cs) -> shape_ok (Node o cs) /\ Forall wf_tree cs.
  Proof. inversion 1; auto. Qed.
  Lemma shape_ok_nonempty o cs : shape_ok (@Node A o cs) -> cs <> [].
  Proof. destruct o, cs; cbn; try lia; auto; discriminate. Qed.
  Lemma select_all {X} (l : list X) : select l l.
  Proof. induction l; [constructor|apply sel_take; auto]. Qed.
  Lemma select_nil {X} (l : list X) : select l [].
  Proof. induction l; constructor; auto. Qed.
  Lemma lang_inhabited t : wf_tree t -> exists w, lang t w.
  Proof.
    induction t as [l|o cs IH] using tree_ind2; intros Hwf.
    - destruct l as [a|]; eexists; constructor.
    - apply wf_node_inv in Hwf as (Hs & Hwf). apply shape_ok_nonempty in Hs.
      assert (H : exists ws, Forall2 lang cs ws).
      { clear Hs. induction cs as [|c cs IHc]; [exists []; constructor|]. inversion IH; inversion Hwf; subst.
        destruct IHc as (ws & H'); auto. destruct H1 as (w & Hw); auto. exists (w :: ws). constructor; auto. }
      destruct H as (ws & H). destruct o.
      + eexists. apply lang_seq. eauto.
      + destruct cs as [|c cs]; [congruence|]. inversion H; subst. eexists. apply lang_xor. exists c. split; [left; auto|eauto].
      + exists (concat ws). apply lang_par. exists ws. split; auto. apply shuffle_concat.
      + destruct cs as [|c cs]; [congruence|]. inversion H; subst. eexists. apply L_loop_exit. eauto.
      + exists (concat ws). apply lang_or. exists cs, ws. repeat split; auto using select_all, shuffle_concat.
      + eexists. apply lang_int. exists cs, ws. repeat split; auto.
  Qed.
End Lang.
