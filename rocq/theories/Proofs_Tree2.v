(** Binary process trees and tree sorting. *)
From Coq Require Import List Arith Lia Permutation ZArith.
Import ListNotations.
From Verif Require Import Model_Lev Proofs_Lev Model_Tree Spec_Tree Proofs_Shuffle Proofs_Fold.

Section B.
  Context {A : Type}.
  Implicit Types (t : tree A) (cs : list (tree A)).

  Lemma seq_tail a cs : same_lang (Node Sequence (a :: cs)) (Node Sequence [a; Node Sequence cs]).
  Proof.
    pose proof (@splice_lang A Sequence [a] cs [] (or_introl eq_refl)) as H. cbn in H. rewrite app_nil_r in H.
    apply same_lang_sym. exact H.
  Qed.
  Lemma xor_tail a cs : same_lang (Node Xor (a :: cs)) (Node Xor [a; Node Xor cs]).
  Proof.
    pose proof (@splice_lang A Xor [a] cs [] (or_intror (or_introl eq_refl))) as H. cbn in H. rewrite app_nil_r in H.
    apply same_lang_sym. exact H.
  Qed.
  Lemma par_tail a cs : same_lang (Node Parallel (a :: cs)) (Node Parallel [a; Node Parallel cs]).
  Proof.
    pose proof (@splice_lang A Parallel [a] cs [] (or_intror (or_intror eq_refl))) as H. cbn in H. rewrite app_nil_r in H.
    apply same_lang_sym. exact H.
  Qed.
  Lemma loop_tail a cs : same_lang (Node Loop (a :: cs)) (Node Loop [a; Node Xor cs]).
  Proof.
    intros w. rewrite !lang_loop. split; apply iterate_mono; auto.
    - intros v (r & Hr & Hv). exists (Node Xor cs). split; [left; auto|]. apply lang_xor. eauto.
    - intros v (r & [<-|[]] & Hv). apply lang_xor in Hv as (c & Hc & Hv). eauto.
  Qed.
  Lemma or_tail a cs : same_lang (Node Or (a :: cs)) (Node Or [a; Node Or cs]).
  Proof.
    intros w. rewrite !lang_or. split.
    - intros (cs' & ws & Hsel & Hne & HF & Hs). inversion Hsel as [|? ? ? S|? ? k S]; subst.
      + exists [Node Or cs], [w]. split; [apply sel_skip, select_all|]. split; [discriminate|]. split; [|apply shuffle_one; auto].
        constructor; [|constructor]. apply lang_or. exists cs', ws. auto.
      + inversion HF as [|? wa ? wk Ha Hk]; subst. destruct k as [|b k].
        * inversion Hk; subst. exists [a], [wa]. split; [apply sel_take, sel_skip, sel_nil|]. split; [discriminate|]. auto.
        * assert (Hs' : shuffle ([wa] ++ wk ++ []) w) by (rewrite app_nil_r; exact Hs).
          apply shuffle_flatten in Hs' as (v & Hv & Hs').
          exists [a; Node Or cs], [wa; v]. split; [apply select_all|]. split; [discriminate|]. split; auto.
          constructor; auto. constructor; [|constructor]. apply lang_or. exists (b :: k), wk. split; auto. split; [discriminate|auto].
    - intros (cs' & ws & Hsel & Hne & HF & Hs). inversion Hsel as [|? ? ? S|? ? k S]; subst.
      + inversion S as [|? ? ? S'|? ? k' S']; inversion S'; subst; [congruence|].
        inversion HF as [|? wa ? wk Ha Hk]; subst. inversion Hk; subst. apply shuffle_one in Hs. subst.
        apply lang_or in Ha as (cs1 & ws1 & H1 & H2 & H3 & H4). exists cs1, ws1. split; [apply sel_skip; auto|auto].
      + inversion S as [|? ? ? S'|? ? k' S']; inversion S'; subst.
        * inversion HF as [|? wa ? wk Ha Hk]; subst. inversion Hk; subst. exists [a], [wa].
          split; [apply sel_take, select_nil|]. split; [discriminate|auto].
        * inversion HF as [|? wa ? wk Ha Hk]; subst. inversion Hk as [|? wb ? wk' Hb Hn]; subst. inversion Hn; subst.
          apply lang_or in Hb as (cs1 & ws1 & H1 & H2 & H3 & H4). exists (a :: cs1), (wa :: ws1).
          split; [apply sel_take; auto|]. split; [discriminate|]. split; [constructor; auto|].
          assert (Hs' : shuffle ([wa] ++ ws1 ++ []) w) by (apply shuffle_flatten; exists wb; auto).
          rewrite app_nil_r in Hs'. exact Hs'.
  Qed.

  Definition bin_children o cs := match cs with
                     | a :: ((_ :: _ :: _) as rest) => [a; Node (match o with Loop => Xor | _ => o end) rest]
                     | _ => cs
                     end.
  Lemma bin_children_lang o cs : o <> Interleaving -> same_lang (Node o cs) (@Node A o (bin_children o cs)).
  Proof.
    intros Ho. destruct cs as [|a [|b [|c cs]]]; try apply same_lang_refl. unfold bin_children.
    destruct o; try congruence; [apply seq_tail|apply xor_tail|apply par_tail|apply loop_tail|apply or_tail].
  Qed.
  Lemma bin_children_le o cs : length (bin_children o cs) <= 2.
  Proof. destruct cs as [|a [|b [|c cs]]]; cbn; lia. Qed.
  Lemma bin_children_sizes o cs : sizes (bin_children o cs) <= sizes cs + 1.
  Proof.
    destruct cs as [|a [|b [|c cs]]]; unfold bin_children; try lia.
    rewrite !sizes_cons, size_node, !sizes_cons. unfold sizes. cbn. lia.
  Qed.

  Lemma no_int_node o cs : no_interleaving (@Node A o cs) <-> o <> Interleaving /\ Forall no_interleaving cs.
  Proof.
    split.
    - intros H. inversion H; subst. split; auto. intros ->. auto.
    - intros [H1 H2]. constructor; auto. destruct o; auto.
  Qed.
  Lemma bin_no_int o cs : no_interleaving (Node o cs) -> Forall no_interleaving (bin_children o cs).
  Proof.
    intros H. apply no_int_node in H as [H1 H2]. destruct cs as [|a [|b [|c cs]]]; auto. unfold bin_children.
    inversion H2; subst. constructor; auto. constructor; auto. apply no_int_node. split; auto. destruct o; congruence.
  Qed.
  Definition at_least_two t := everywhere (fun u => match u with Node _ cs => 2 <= length cs | _ => True end) t.
  Definition exactly_two t := everywhere (fun u => match u with Node _ cs => length cs = 2 | _ => True end) t.
  Lemma bin_two o cs : at_least_two (Node o cs) -> length (bin_children o cs) = 2 /\ Forall at_least_two (bin_children o cs).
  Proof.
    intros H. inversion H as [|? ? H1 H2]; subst. destruct cs as [|a [|b [|c cs]]]; cbn in H1; try lia; [split; auto|].
    unfold bin_children. split; auto. inversion H2; subst. constructor; auto. constructor; auto.
    constructor; auto. cbn. lia.
  Qed.

  Fixpoint msum cs := match cs with [] => 0 | c :: r => Nat.max (2 * size c) (msum r) end.

  Lemma to_binary_S n o cs : to_binary (S n) (@Node A o cs) = option_map (Node o) (map_opt (to_binary n) (bin_children o cs)).
  Proof. reflexivity. Qed.

  Lemma to_binary_ok n t : size t <= n ->
    exists t', to_binary n t = Some t' /\ at_most_binary t' /\ (no_interleaving t -> same_lang t t') /\
      (at_least_two t -> exactly_two t').
  Proof.
    revert t. induction n as [|n IH]; intros t Hn; [pose proof (size_pos t); lia|].
    destruct t as [l|o cs].
    - exists (Leaf l). split; auto. split; [constructor; auto|]. split; [intros _; apply same_lang_refl|constructor; auto].
    - rewrite to_binary_S, size_node in *.
      assert (Hsz : Forall (fun c => size c <= n) (bin_children o cs)).
      { destruct cs as [|a [|b [|c cs]]]; unfold bin_children; repeat rewrite sizes_cons in Hn.
        - constructor.
        - repeat constructor. lia.
        - pose proof (size_pos a). repeat constructor; lia.
        - pose proof (size_pos a). repeat constructor; [lia|]. rewrite size_node, !sizes_cons. lia. }
      assert (H : exists cs', map_opt (to_binary n) (bin_children o cs) = Some cs' /\ length cs' = length (bin_children o cs) /\
        Forall at_most_binary cs' /\ (Forall no_interleaving (bin_children o cs) -> Forall2 same_lang (bin_children o cs) cs') /\
        (Forall at_least_two (bin_children o cs) -> Forall exactly_two cs')).
      { induction (bin_children o cs) as [|c ds IHd]; [exists []; repeat split; constructor|].
        inversion Hsz; subst. destruct IHd as (cs' & E & Hl & H5 & H6 & H7); auto.
        destruct (IH c) as (c' & Ec & H8 & H9 & H10); auto. exists (c' :: cs'). cbn. rewrite Ec, E. cbn.
        split; [auto|]. split; [auto|]. split; [constructor; auto|].
        split; intros HF; inversion HF; subst; constructor; auto. }
      destruct H as (cs' & E & Hl & H5 & H6 & H7). rewrite E. cbn. exists (Node o cs'). split; auto. split; [|split].
      + constructor; auto. rewrite Hl. apply bin_children_le.
      + intros Hni. eapply same_lang_trans; [apply bin_children_lang|].
        * apply no_int_node in Hni as [? _]. auto.
        * apply same_lang_node, H6, bin_no_int. auto.
      + intros H2. apply bin_two in H2 as [H2 H3]. constructor; [rewrite Hl; auto|auto].
  Qed.

  (** interleaving is not associative *)
  Lemma binary_interleaving_wrong (a b c : A) : a <> b -> b <> c -> a <> c ->
    let t := Node Interleaving [Leaf (Some a); Leaf (Some b); Leaf (Some c)] in
    exists t', to_binary (size t) t = Some t' /\ lang t [b; a; c] /\ ~ lang t' [b; a; c].
  Proof.
    intros Hab Hbc Hac. cbn zeta. eexists. split; [reflexivity|]. split.
    - change [b; a; c] with (concat [[b]; [a]; [c]]). apply lang_int. exists [Leaf (Some b); Leaf (Some a); Leaf (Some c)], [[b]; [a]; [c]].
      split; [apply perm_swap|]. split; auto. repeat constructor.
    - rewrite lang_int. intros (cs' & ws & Hp & HF & E).
      apply Permutation_length_2_inv in Hp as [->| ->].
      + inversion HF as [|? x ? y H1 H2]; subst. apply lang_act in H1. subst. cbn in E. congruence.
      + inversion HF as [|? x ? y H1 H2]; subst. inversion H2 as [|? x' ? y' H3 H4]; subst. inversion H4; subst.
        apply lang_act in H3. subst. cbn in E.
        change [b; a; c] with ([b; a] ++ [c]) in E. apply app_inj_tail in E as [_ E]. congruence.
  Qed.

  (** ** tree_sort *)
  Context (hash : A -> Z).
  Lemma tree_sort_node o cs : tree_sort hash (Node o cs) =
    Node o (match o with Parallel | Xor => sorted_by (hash_sum hash) (map (tree_sort hash) cs) | _ => map (tree_sort hash) cs end).
  Proof. reflexivity. Qed.
  Lemma perm_lang o cs cs' : o = Parallel \/ o = Xor -> Permutation cs cs' -> same_lang (Node o cs) (@Node A o cs').
  Proof.
    enough (G : forall cs cs' w, o = Parallel \/ o = Xor -> Permutation cs cs' -> lang (Node o cs) w -> lang (@Node A o cs') w).
    { intros Ho Hp w. split; apply G; auto. symmetry. auto. }
    intros ds ds' w [->| ->] Hp.
    - rewrite !lang_par. intros (ws & HF & Hs).
      assert (G : forall l l' : list (tree A), Permutation l l' -> forall k : list (list A), Forall2 lang l k -> exists k', Permutation k k' /\ Forall2 lang l' k').
      { clear. induction 1; intros k HF.
        - inversion HF; subst. exists []. split; constructor.
        - inversion HF as [|? y ? k0 HR HF0]; subst. destruct (IHPermutation _ HF0) as (k' & ? & ?). exists (y :: k'). split; constructor; auto.
        - inversion HF as [|? y1 ? k0 HR HF0]; subst. inversion HF0 as [|? y2 ? k1 HR' HF1]; subst. exists (y2 :: y1 :: k1). split; [apply perm_swap|repeat constructor; auto].
        - destruct (IHPermutation1 _ HF) as (k1 & ? & HF1). destruct (IHPermutation2 _ HF1) as (k2 & ? & ?).
          exists k2. split; auto. etransitivity; eauto. }
      destruct (G _ _ Hp _ HF) as (ws' & Hp' & HF'). exists ws'. split; auto. eapply shuffle_perm; eauto.
    - rewrite !lang_xor. intros (c & Hc & Hw). exists c. split; auto. eapply Permutation_in; eauto.
  Qed.
  Lemma tree_sort_lang t : same_lang t (tree_sort hash t).
  Proof.
    induction t as [l|o cs IH] using tree_ind2; [apply same_lang_refl|]. rewrite tree_sort_node.
    apply same_lang_trans with (Node o (map (tree_sort hash) cs)).
    - apply same_lang_node. induction IH; constructor; auto.
    - destruct o; try apply same_lang_refl; apply perm_lang; auto; apply sorted_by_perm.
  Qed.
End B.
