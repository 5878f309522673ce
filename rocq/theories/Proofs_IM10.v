(** fold and tree_sort keep the visible leaves. *)
From Coq Require Import String Ascii List Arith Lia Permutation Bool ZArith.
Import ListNotations.
From Verif Require Import Model_Dict Model_Lev Model_Tree Spec_Tree Spec_IM Proofs_Lev Proofs_Shuffle Proofs_Fold Proofs_Tree2 Proofs_IM1.
Local Open Scope list_scope.
Local Open Scope nat_scope.

Section L.
  Variable lab : nat -> list ascii.
  Notation eqb := Nat.eqb.
  Notation ok := Nat.eqb_eq.
  Definition leavess (cs : list (tree nat)) : list nat := concat (map leaves cs).
  Lemma leavess_app a b : leavess (a ++ b) = leavess a ++ leavess b.
  Proof. unfold leavess. rewrite map_app. apply concat_app. Qed.
  Lemma leaves_node o cs : leaves (Node o cs) = leavess cs. Proof. reflexivity. Qed.

  Lemma taus_leaves cs cs' : taus_removed cs cs' -> leavess cs' = leavess cs.
  Proof. induction 1 as [|l1 l2 cs _ IH]; [reflexivity|]. rewrite IH, !leavess_app. reflexivity. Qed.

  Lemma reduce_children_taus o cs : Forall wfi cs -> taus_removed cs (reduce_children eqb o cs).
  Proof.
    intros Hf. unfold reduce_children.
    assert (Keep : length (filter is_tau_leaf cs) <> 0 -> taus_removed cs (drop_taus eqb (length (filter is_tau_leaf cs) - 1) cs)).
    { intros H. apply (drop_taus_ok eqb ok); auto. lia. }
    destruct (Nat.eqb_spec (length (filter is_tau_leaf cs)) 0) as [E|E]; [constructor|].
    destruct (length cs =? length (filter is_tau_leaf cs)).
    - destruct o; auto; [|constructor]. destruct (length cs =? 2); [|constructor]. apply (remove_iter_ok eqb ok). auto.
    - destruct o; auto; try constructor; apply (remove_iter_ok eqb ok); auto.
  Qed.

  Lemma reduce_leaves t : wfi t -> leaves (reduce_tau_leafs eqb t) = leaves t.
  Proof.
    induction t as [l|o cs IH] using tree_ind2; intros Hwf; [reflexivity|].
    apply wfi_node in Hwf as (Hne & Hl & Hf). rewrite reduce_node, !leaves_node.
    assert (Hf2 : Forall wfi (map (reduce_tau_leafs eqb) cs)).
    { clear - Hf lab. induction Hf; constructor; auto. apply (reduce_ok eqb lab ok). auto. }
    rewrite (taus_leaves _ _ (reduce_children_taus o _ Hf2)).
    clear Hne Hl Hf2. induction cs as [|c cs IHc]; [reflexivity|]. inversion IH; inversion Hf; subst.
      unfold leavess in *. cbn. rewrite H1, IHc by auto. reflexivity.
  Qed.

  Lemma splice_leaves o : (o = Sequence \/ o = Xor \/ o = Parallel) ->
    forall chlds cs others cs', Permutation cs (chlds ++ others) -> Forall wfi cs ->
    splice eqb o chlds cs = Some cs' -> leavess cs' = leavess cs.
  Proof.
    intros Ho. induction chlds as [|c chlds IH]; intros cs others cs' Hp Hf E.
    - cbn in E. congruence.
    - assert (Hskip : has_op o c = false -> splice eqb o (c :: chlds) cs = splice eqb o chlds cs).
      { destruct c as [l|o' ccs]; cbn; [reflexivity|]. intros ->. reflexivity. }
      destruct (has_op o c) eqn:Eop.
      + destruct c as [l|o' ccs]; [discriminate|]. cbn in Eop. cbn [splice] in E. rewrite Eop in E. apply op_eqb_ok in Eop. subst o'.
        assert (Hin : In (Node o ccs) cs) by (eapply Permutation_in; [symmetry; exact Hp|left; auto]).
        assert (Hwc : wfi (Node o ccs)) by (rewrite Forall_forall in Hf; auto).
        destruct (first_split eqb ok _ _ Hin Hwc Hf) as (l1 & l2 & -> & Hn).
        pose proof Hf as Hf'. apply Forall_app in Hf' as [Hf1 Hf2]. inversion Hf2 as [|? ? _ Hf3]; subst.
        pose proof (proj1 (wfi_node _ _) Hwc) as (Hcne & _ & Hcf).
        rewrite (py_index_first eqb ok) in E by auto.
        rewrite firstn_app, skipn_app, Nat.sub_diag, firstn_all, skipn_all, firstn_O, skipn_O, app_nil_r in E. cbn [app] in E.
        rewrite app_assoc, (py_remove_first eqb ok) in E.
        2: exact Hwc. 2: { repeat (apply Forall_app; split); auto. }
        2: { rewrite in_app_iff. intros [?|Hi]; [auto|]. apply size_in in Hi. rewrite size_node in Hi. lia. }
        assert (Hp' : Permutation ((l1 ++ ccs) ++ l2) (chlds ++ others ++ ccs)).
        { rewrite <- app_assoc. rewrite (Permutation_app_comm ccs), app_assoc. rewrite (app_assoc chlds).
          apply Permutation_app_tail. cbn in Hp. symmetry in Hp. apply Permutation_cons_app_inv in Hp. symmetry. exact Hp. }
        rewrite (IH _ _ _ Hp'); [|repeat (apply Forall_app; split); auto|exact E].
        rewrite !leavess_app. unfold leavess. cbn. rewrite app_assoc. reflexivity.
      + rewrite Hskip in E by auto. apply (IH cs (c :: others)); auto.
        etransitivity; [exact Hp|]. cbn. apply Permutation_middle.
  Qed.

  Lemma combine_leaves o cs t' : Forall wfi cs -> combine eqb o cs = Some (Some t') -> leaves t' = leavess cs.
  Proof.
    intros Hf E. destruct cs as [|c [|d ds]]; [discriminate| |].
    - cbn in E. injection E as <-. unfold leavess. cbn. rewrite app_nil_r. reflexivity.
    - remember (c :: d :: ds) as cs eqn:Ecs.
      assert (Hc : combine eqb o cs = match drop_silent o cs with
           | [] => Some (Some (Leaf None))
           | cs2 => match o with
                    | Sequence | Xor | Parallel => option_map (fun cs3 => Some (Node o cs3)) (splice eqb o cs2 cs2)
                    | _ => Some (Some (Node o cs2))
                    end
           end) by (subst; reflexivity).
      rewrite Hc in E. clear Hc Ecs c d ds. pose proof (drop_silent_ok o cs) as Htr.
      rewrite <- (taus_leaves _ _ Htr). pose proof (taus_removed_Forall _ _ _ Htr Hf) as Hf2.
      destruct (drop_silent o cs) as [|x r]; [injection E as <-; reflexivity|].
      assert (Hs : forall cs3, o = Sequence \/ o = Xor \/ o = Parallel -> splice eqb o (x :: r) (x :: r) = Some cs3 -> leavess cs3 = leavess (x :: r)).
      { intros cs3 Ho Es. eapply (splice_leaves o Ho); [|exact Hf2|exact Es]. rewrite (app_nil_r (x :: r)). reflexivity. }
      assert (Hm : o = Sequence \/ o = Xor \/ o = Parallel ->
        option_map (fun cs3 => Some (Node o cs3)) (splice eqb o (x :: r) (x :: r)) = Some (Some t') -> leaves t' = leavess (x :: r)).
      { intros Ho E'. destruct (splice eqb o (x :: r) (x :: r)) as [cs3|] eqn:Es; cbn in E'; [|congruence].
        injection E' as <-. apply Hs; auto. }
      destruct o; auto; injection E as <-; reflexivity.
  Qed.

  Lemma pfold_leaves n t t' : size t <= n -> wfi t -> pfold eqb n t = Some (Some t') -> leaves t' = leaves t.
  Proof.
    revert t t'. induction n as [|n IH]; intros t t' Hsz Hwf E; [pose proof (size_pos t); lia|].
    rewrite pfold_S in E. destruct (reduce_ok eqb lab ok t Hwf) as (Hw & HL & Hs). rewrite <- (reduce_leaves t Hwf).
    destruct (reduce_tau_leafs eqb t) as [l|o cs] eqn:Er; [injection E as <-; reflexivity|].
    pose proof (proj1 (wfi_node _ _) Hw) as (Hne & Hl & Hf).
    assert (Hsc : S (sizes cs) <= S n) by (rewrite <- (size_node o); destruct Hs as [->|[? ?]]; lia).
    assert (Hm : exists cs', map_opt (pfold eqb n) cs = Some (map Some cs') /\ Forall wfi cs' /\ leavess cs' = leavess cs).
    { clear Hne Hl Hw HL Hs E Er. induction cs as [|c cs IHc]; [exists []; repeat split; constructor|].
      inversion Hf; subst. rewrite sizes_cons in Hsc. pose proof (size_pos c).
      destruct IHc as (cs' & E & H4 & H5); [auto|lia|].
      destruct (pfold_ok eqb lab ok n c) as (c' & Ec & H8 & _); [lia|auto|].
      exists (c' :: cs'). cbn. rewrite Ec, E. split; [auto|]. split; [constructor; auto using wf_wfi|].
      unfold leavess in *. cbn. rewrite H5. f_equal. apply IH; auto. lia. }
    destruct Hm as (cs' & Em & Hf' & HLc). destruct cs as [|c0 cs0] eqn:Ecs; [congruence|]. rewrite <- Ecs in *.
    rewrite Em, somes_map_Some in E. rewrite (combine_leaves o cs' t' Hf' E). exact HLc.
  Qed.

  Lemma unwrap_leaves t : leaves (unwrap t) = leaves t.
  Proof.
    induction t as [l|o cs IH] using tree_ind2; [reflexivity|]. destruct cs as [|c [|d ds]]; try reflexivity.
    cbn [unwrap]. inversion IH; subst. rewrite H1. cbn. rewrite app_nil_r. reflexivity.
  Qed.

  Lemma fold_leaves n t t' : size t < n -> wfi t -> fold eqb lab n t = Some t' -> leaves t' = leaves t.
  Proof.
    revert t t'. induction n as [|n IH]; intros t t' Hsz Hwf E; [lia|]. cbn [fold] in E.
    destruct (pfold_ok eqb lab ok (size t) t (le_n _) Hwf) as (t1 & E1 & Hw1 & _ & Hs1 & _).
    pose proof (pfold_leaves _ _ _ (le_n _) Hwf E1) as L1. rewrite E1 in E.
    destruct (unwrap_ok lab t1 (wf_wfi _ Hw1)) as (Hw2 & _ & Hs2).
    destruct (reduce_ok eqb lab ok _ Hw2) as (Hw3 & _ & Hs3). cbv zeta in E.
    pose proof (unwrap_leaves t1) as L2. pose proof (reduce_leaves _ Hw2) as L3.
    set (t2 := unwrap t1) in *. set (t3 := reduce_tau_leafs eqb t2) in *.
    pose proof (shrink_size _ _ _ Hs1). pose proof (shrink_size _ _ _ Hs2). pose proof (shrink_size _ _ _ Hs3).
    assert (H4 : exists t4, (if Nat.eqb (length (show lab t3)) (length (show lab t2)) then Some t3 else fold eqb lab n t3) = Some t4 /\
      wfi t4 /\ shrink lab t4 t3 /\ leaves t4 = leaves t3).
    { destruct (Nat.eqb_spec (length (show lab t3)) (length (show lab t2))) as [E0|E0].
      - exists t3. split; auto. split; auto. split; [left; auto|auto].
      - assert (Hlt : size t3 < n).
        { assert (Hneq : t3 <> t2) by (intros Heq; rewrite Heq in E0; auto). pose proof (shrink_neq _ _ _ Hs3 Hneq). lia. }
        destruct (fold_ok eqb lab ok n t3 Hlt Hw3) as (t4 & E4 & Hw4 & _ & Hs4 & _).
        exists t4. split; auto. split; [auto using wf_wfi|]. split; auto. }
    destruct H4 as (t4 & E4 & Hw4 & Hs4 & L4). rewrite E4 in E.
    destruct (pfold_ok eqb lab ok (size t4) t4 (le_n _) Hw4) as (t5 & E5 & Hw5 & _ & Hs5 & _).
    pose proof (pfold_leaves _ _ _ (le_n _) Hw4 E5) as L5. rewrite E5 in E.
    pose proof (shrink_size _ _ _ Hs4). pose proof (shrink_size _ _ _ Hs5).
    destruct (Nat.eqb_spec (length (show lab t5)) (length (show lab t4))) as [E0|E0].
    - injection E as <-. congruence.
    - assert (Hlt : size t5 < n).
      { assert (Hneq : t5 <> t4) by (intros Heq; rewrite Heq in E0; auto). pose proof (shrink_neq _ _ _ Hs5 Hneq). lia. }
      pose proof (IH _ _ Hlt (wf_wfi _ Hw5) E). congruence.
  Qed.
  Lemma fold_tree_leaves t t' : wf_tree t -> fold_tree eqb lab t = Some t' -> leaves t' = leaves t.
  Proof. intros H. apply fold_leaves; [lia|apply wf_wfi; auto]. Qed.
End L.

Lemma sort_leaves hash t : Permutation (leaves (tree_sort hash t)) (leaves t).
Proof.
  induction t as [l|o cs IH] using tree_ind2; [reflexivity|]. rewrite tree_sort_node, !leaves_node.
  assert (P : Permutation (leavess (map (tree_sort hash) cs)) (leavess cs)).
  { unfold leavess. induction IH; cbn; auto. apply Permutation_app; auto. }
  rewrite <- P. unfold leavess.
  destruct o; auto; symmetry; apply concat_perm, Permutation_map, sorted_by_perm.
Qed.
