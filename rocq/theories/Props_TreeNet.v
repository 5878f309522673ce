(** C19, C42: process tree to Petri net conversion. *)
From stdpp Require Import gmap.
From Coq Require Import List ZArith Permutation Lia.
Import ListNotations.
From Verif Require Import Model_Petri Spec_Petri Model_Tree Spec_Tree Model_TreeNet Spec_TreeNet Proofs_Petri Proofs_Shuffle Proofs_TreeNet Proofs_TreeNet3 Proofs_TreeNet4.

(** The visible traces of a net obtained from the tree are exactly the traces of the tree, whatever
    the order in which the reduction rules were applied. *)
Theorem C19_language : forall t pn, wf_tree t -> converted t pn ->
  forall w, accepts pn net_im net_fm w <-> lang t w.
Proof.
  intros t pn Hwf Hc w. apply (good_lang False). apply converted_good; auto. intros [].
Qed.
Print Assumptions C19_language.

(** The conversion always produces a net (the reduction loops terminate in a net to which no rule applies). *)
Theorem C19_exists : forall t, exists pn, converted t pn.
Proof. exact converted_exists. Qed.
Print Assumptions C19_exists.

(** Each round of the two while loops removes a transition. *)
Theorem C19_reduction_terminates : forall pn pn', entry_step pn pn' \/ exit_step pn pn' ->
  length (n_trans pn') < length (n_trans pn).
Proof. intros pn pn' [H|H]; [apply entry_shrinks|apply exit_shrinks]; auto. Qed.
Print Assumptions C19_reduction_terminates.

(** The net of a tree is safe, can always complete, and completes properly. *)
Theorem C42_sound : forall t pn, wf_tree t -> converted t pn ->
  flow_structure pn 1 2 /\ safe pn net_im /\ option_to_complete pn net_im net_fm /\ proper_completion pn net_im net_fm 2.
Proof.
  intros t pn Hwf Hc. assert (HG : good False pn (lang t)) by (apply converted_good; auto; intros []).
  split; [|split; [|split]].
  - split; [intros u p Hu Hp; apply (good_source _ _ _ HG u); auto|]. split; [intros u p Hu Hp; apply (good_sink _ _ _ HG u); auto|].
    split; intros p Hp Hn; [apply (g_out _ _ _ HG)|apply (g_in _ _ _ HG)]; auto.
  - intros m p. apply (good_safe _ _ _ HG).
  - intros m. apply (good_option _ _ _ HG).
  - intros m. apply (good_proper _ _ _ HG).
Qed.
Print Assumptions C42_sound.

(** ... and has no dead transitions if no OR operator has a single child. *)
Theorem C42_no_dead : forall t pn, wf_tree t -> everywhere or_has_two t -> converted t pn -> no_dead_transitions pn net_im.
Proof.
  intros t pn Hwf Ho Hc u Hu. apply (good_live True pn (lang t)); auto. apply converted_good; auto.
Qed.
Print Assumptions C42_no_dead.

(** A tree with every operator; a net exists for it, so the hypotheses of C19 and C42 are met. *)
Definition ex_tree : tree nat :=
  Node Sequence [Leaf (Some 1); Node Parallel [Leaf (Some 2); Node Xor [Leaf (Some 3); Leaf None]];
                 Node Loop [Node Or [Leaf (Some 4); Leaf (Some 5)]; Leaf (Some 6); Node Interleaving [Leaf (Some 7); Leaf (Some 8)]]].
Example ex_tree_wf : wf_tree ex_tree /\ everywhere or_has_two ex_tree.
Proof. split; repeat (first [apply ev_node | apply ev_leaf | constructor]); cbn; try discriminate; auto. Qed.
Example ex_tree_accepts : exists pn, converted ex_tree pn /\ accepts pn net_im net_fm [1; 3; 2; 5; 8; 7; 4] /\ ~ accepts pn net_im net_fm [].
Proof.
  destruct (C19_exists ex_tree) as (pn & Hc). exists pn. split; auto. rewrite !(C19_language _ _ (proj1 ex_tree_wf) Hc). split.
  - change [1; 3; 2; 5; 8; 7; 4] with (concat [[1]; [3; 2]; [5] ++ [8; 7] ++ [4]]). apply L_seq. constructor; [constructor|]. constructor; [|constructor; [|constructor]].
    + eapply L_par; [constructor; [constructor|constructor; [|constructor]]|].
      * eapply L_xor; [left; reflexivity|constructor].
      * apply (sh_cons [[2]] 3 [] []). apply (sh_cons [] 2 [] [[]]). constructor. intros w [<-|[<-|[]]]; auto.
    + apply L_loop_redo with (r := Node Interleaving [Leaf (Some 7); Leaf (Some 8)]).
      * eapply L_or; [apply sel_skip, sel_take, sel_nil|discriminate|constructor; [constructor|constructor]|].
        apply (sh_cons [] 5 [] []). constructor. intros w [<-|[]]; auto.
      * right; left; auto.
      * change [8; 7] with (concat [[8]; [7]]). apply L_int with (cs' := [Leaf (Some 8); Leaf (Some 7)]); [apply perm_swap|repeat constructor].
      * apply L_loop_exit. eapply L_or; [apply sel_take, sel_skip, sel_nil|discriminate|constructor; [constructor|constructor]|].
        apply (sh_cons [] 4 [] []). constructor. intros w [<-|[]]; auto.
  - intros H. apply lang_seq in H as (ws & HF & E). inversion HF as [|? u ? ws' Hu HF']; subst. apply lang_act in Hu. subst. discriminate.
Qed.

(** Finding: a loop with a single child shares the final place with its context (to_petri_net.py:499-507),
    so X( *(a), b ) accepts "b a", which is not a trace of the tree under any reading of the loop. *)
Definition bad_tree : tree nat := Node Xor [Node Loop [Leaf (Some 1)]; Leaf (Some 2)].
Lemma bad_raw : raw_net bad_tree = Net [1;2;3;4;5] [mk_trans 1 None [1] [3]; mk_trans 3 None [3] [5]; mk_trans 4 None [4] [5];
  mk_trans 5 (Some 1) [5] [4]; mk_trans 6 (Some 2) [3] [4]; mk_trans 2 None [4] [2]].
Proof. reflexivity. Qed.
Lemma bad_converted : converted bad_tree (raw_net bad_tree).
Proof.
  exists (raw_net bad_tree), [1;2;3;4;5]. rewrite bad_raw. split; [|split; [apply Permutation_refl|reflexivity]].
  exists (raw_net bad_tree). rewrite bad_raw. split; [constructor|]. split; [|split; [constructor|]].
  - intros x (t & u & p & w & Ht & _ & Hl & Hi & _ & Hin & Hout & _).
    repeat (destruct Ht as [<-|Ht]; [cbn in Hl, Hi; try discriminate; inversion Hi; subst; vm_compute in Hin, Hout; discriminate|]). destruct Ht.
  - intros x (t & u & p & w & Ht & _ & Hl & Hi & _ & Hin & Hout & _).
    repeat (destruct Ht as [<-|Ht]; [cbn in Hl, Hi; try discriminate; inversion Hi; subst; vm_compute in Hin, Hout; discriminate|]). destruct Ht.
Qed.
Theorem C19_single_child_loop_refuted : exists pn w, converted bad_tree pn /\ accepts pn net_im net_fm w /\
  ~ lang bad_tree w /\ ~ lang (Node Xor [Node Loop [Leaf (Some 1); Leaf None]; Leaf (Some 2)]) w.
Proof.
  exists (raw_net bad_tree), [2; 1]. split; [apply bad_converted|]. split; [|split].
  - rewrite bad_raw. exists [mk_trans 1 None [1] [3]; mk_trans 6 (Some 2) [3] [4]; mk_trans 4 None [4] [5]; mk_trans 5 (Some 1) [5] [4]; mk_trans 2 None [4] [2]].
    split; [|reflexivity].
    assert (F : forall k a b l, In (mk_trans k l [a] [b]) (n_trans (raw_net bad_tree)) -> a <> b ->
              fires (raw_net bad_tree) (mk_trans k l [a] [b]) {[ a := 1%Z ]} {[ b := 1%Z ]}).
    { intros k a b l Hin Hab. split; auto. split; [|split].
      - intros p. cbn. rewrite tokens_singleton. destruct (Nat.eqb a p); lia.
      - apply proper_singleton. lia.
      - intros p. rewrite !tokens_singleton. cbn. destruct (Nat.eqb a p), (Nat.eqb b p); lia. }
    rewrite bad_raw in F. unfold net_im, net_fm.
    econstructor; [apply F; [cbn; auto|lia]|]. econstructor; [apply F; [cbn; auto 10|lia]|]. econstructor; [apply F; [cbn; auto 10|lia]|].
    econstructor; [apply F; [cbn; auto 10|lia]|]. econstructor; [apply F; [cbn; auto 10|lia]|]. constructor.
  - intros H. apply lang_xor in H as (c & [<-|[<-|[]]] & H); [|apply lang_act in H; discriminate].
    inversion H; subst; [|match goal with X : In _ [] |- _ => destruct X end]. match goal with X : lang (Leaf _) _ |- _ => apply lang_act in X; discriminate end.
  - intros H. apply lang_xor in H as (c & [<-|[<-|[]]] & H); [|apply lang_act in H; discriminate].
    apply lang_loop in H. inversion H as [? H1|? v ? H1 (c & [<-|[]] & Hv) H2 E]; subst; apply lang_act in H1; subst; discriminate.
Qed.
Print Assumptions C19_single_child_loop_refuted.

(** Finding: an OR with one child has dead transitions. *)
Definition bad_or : tree nat := Node Or [Leaf (Some 1)].
Lemma or_raw : raw_net bad_or = Net [1;2;3;4;5;6;7] [mk_trans 1 None [1] [4;5]; mk_trans 2 None [3;7] [2]; mk_trans 3 None [4;5] [6;3];
  mk_trans 4 None [3;5] [6;3]; mk_trans 5 None [3;5] [3;7]; mk_trans 6 (Some 1) [6] [7]].
Proof. reflexivity. Qed.
Lemma or_converted : converted bad_or (raw_net bad_or).
Proof.
  exists (raw_net bad_or), [1;2;3;4;5;6;7]. rewrite or_raw. split; [|split; [apply Permutation_refl|reflexivity]].
  exists (raw_net bad_or). rewrite or_raw. split; [constructor|]. split; [|split; [constructor|]].
  - intros x (t & u & p & w & Ht & _ & Hl & Hi & _ & Hin & Hout & _).
    repeat (destruct Ht as [<-|Ht]; [cbn in Hl, Hi; try discriminate; inversion Hi; subst; vm_compute in Hin, Hout; discriminate|]). destruct Ht.
  - intros x (t & u & p & w & Ht & _ & Hl & Hi & _ & Hin & Hout & _).
    repeat (destruct Ht as [<-|Ht]; [cbn in Hl, Hi; try discriminate; inversion Hi; subst; vm_compute in Hin, Hout; discriminate|]). destruct Ht.
Qed.
Lemma or_invariant m ts : run (raw_net bad_or) net_im ts m ->
  let k := tokens m in (k 4%nat = k 5%nat /\ k 1%nat + k 2%nat + k 3%nat + k 4%nat = 1 /\ k 1%nat + k 2%nat + k 5%nat + k 6%nat + k 7%nat = 1 /\
    0 <= k 1%nat /\ 0 <= k 2%nat /\ 0 <= k 3%nat /\ 0 <= k 4%nat /\ 0 <= k 5%nat /\ 0 <= k 6%nat /\ 0 <= k 7%nat)%Z.
Proof.
  intros H.
  assert (G : forall m0 m ts, run (raw_net bad_or) m0 ts m ->
    let I := fun m => let k := tokens m in (k 4%nat = k 5%nat /\ k 1%nat + k 2%nat + k 3%nat + k 4%nat = 1 /\ k 1%nat + k 2%nat + k 5%nat + k 6%nat + k 7%nat = 1 /\
    0 <= k 1%nat /\ 0 <= k 2%nat /\ 0 <= k 3%nat /\ 0 <= k 4%nat /\ 0 <= k 5%nat /\ 0 <= k 6%nat /\ 0 <= k 7%nat)%Z in I m0 -> I m).
  { clear. intros m0 m ts H I. induction H as [m|m t m1 ts m2 Hf Hr IH]; auto. intros Hm. apply IH. clear IH Hr.
    destruct Hf as (Ht & He & _ & Hk). rewrite or_raw in Ht. unfold I in *. cbn zeta in *. unfold enabled_at in He.
    pose proof (He 1) as A1. pose proof (He 2) as A2. pose proof (He 3) as A3. pose proof (He 4) as A4. pose proof (He 5) as A5. pose proof (He 6) as A6. pose proof (He 7) as A7.
    rewrite (Hk 1), (Hk 2), (Hk 3), (Hk 4), (Hk 5), (Hk 6), (Hk 7). clear Hk He.
    repeat (destruct Ht as [<-|Ht]; [cbn in *; lia|]). destruct Ht. }
  apply (G _ _ _ H). vm_compute. repeat split; discriminate.
Qed.
Theorem C42_single_child_or_refuted : exists pn, wf_tree bad_or /\ converted bad_or pn /\ ~ no_dead_transitions pn net_im.
Proof.
  exists (raw_net bad_or). split; [repeat constructor; discriminate|]. split; [apply or_converted|]. intros H.
  destruct (H (mk_trans 4 None [3;5] [6;3])) as (m & m' & (ts & Hr) & _ & He & _); [rewrite or_raw; cbn; auto|].
  apply or_invariant in Hr. cbn zeta in Hr. pose proof (He 3) as A3. pose proof (He 5) as A5. cbn in A3, A5. lia.
Qed.
Print Assumptions C42_single_child_or_refuted.
