(** C101: comparison of process trees up to the order of the children of commutative operators
    (process_tree/utils/generic.py [structurally_language_equal]).
    C102: reduction of a process tree by a trace (algo/reduction/process_tree). *)
From Coq Require Import List Arith Bool Lia Permutation Ascii.
Import ListNotations.
From Verif Require Import Props_Tree Props_Footprints Model_Tree Spec_Tree Model_TreeFP Spec_TreeFP Model_Bottomup Proofs_Bottomup Proofs_Footprints Proofs_Fold Proofs_Shuffle
  Model_TreeUtil Spec_TreeUtil Proofs_TreeUtil Proofs_TreeReduce.

(** * C101 *)
Theorem C101_exact : forall t u, wf_tree t -> wf_tree u -> no_interleaving t -> (structurally_equal t u = true <-> shuffled t u).
Proof. intros. apply se_iff; auto. Qed.
Print Assumptions C101_exact.

Lemma sh_noint t : forall u, shuffled t u -> no_interleaving t -> no_interleaving u.
Proof.
  unfold no_interleaving. induction t as [l|o cs IH] using tree_ind2; intros u H N; inversion H as [|? ? ds Ho F|? ? cs' ds Ho P F]; subst; auto.
  - constructor; [destruct o; try exact I; exfalso; intuition discriminate|]. inversion N as [|? ? _ Nc]; subst. clear -IH F Nc. induction F; constructor; inversion IH; inversion Nc; subst; auto.
  - constructor; [destruct o; try exact I; exfalso; intuition discriminate|]. inversion N as [|? ? _ Nc]; subst. rewrite P in IH, Nc. clear -IH F Nc. induction F; constructor; inversion IH; inversion Nc; subst; auto.
Qed.
(** The comparison is an equivalence relation. *)
Theorem C101_equivalence : forall t u v, wf_tree t -> wf_tree u -> wf_tree v -> no_interleaving t -> no_interleaving u -> no_interleaving v ->
  structurally_equal t t = true /\ structurally_equal t u = structurally_equal u t /\
  (structurally_equal t u = true -> structurally_equal u v = true -> structurally_equal t v = true).
Proof.
  intros t u v Wt Wu Wv Nt Nu Nv. split; [apply se_iff, sh_refl; auto|]. split.
  - destruct (structurally_equal t u) eqn:E.
    + symmetry. apply se_iff; auto. apply sh_sym. apply se_iff; auto.
    + destruct (structurally_equal u t) eqn:E'; auto. apply se_iff in E'; auto. apply sh_sym in E'. apply (se_iff t) in E'; auto. congruence.
  - intros A B. apply se_iff in A; auto. apply se_iff in B; auto. apply se_iff; auto. eapply sh_trans; eauto.
Qed.
Print Assumptions C101_equivalence.

(** Trees that are found equal have the same language. *)
Theorem C101_language : forall t u, wf_tree t -> wf_tree u -> no_interleaving t -> structurally_equal t u = true -> same_lang t u.
Proof. intros t u A B C H. apply sh_lang. apply se_iff; auto. Qed.
Print Assumptions C101_language.

(** Finding: a tree with an INTERLEAVING node is not equal to itself (the function returns None). *)
Theorem C101_interleaving_refuted : forall cs, cs <> [] -> structurally_equal (Node Interleaving cs) (Node Interleaving cs) = false.
Proof. intros [|c cs] H; [congruence|]. cbn [structurally_equal]. apply andb_false_r. Qed.
Print Assumptions C101_interleaving_refuted.

Definition x1 := Node Sequence [Node Parallel [Leaf (Some 1); Node Xor [Leaf (Some 2); Leaf None]; Leaf (Some 1)]; Node Loop [Leaf (Some 4); Leaf None]].
Definition x2 := Node Sequence [Node Parallel [Node Xor [Leaf None; Leaf (Some 2)]; Leaf (Some 1); Leaf (Some 1)]; Node Loop [Leaf (Some 4); Leaf None]].
Definition x3 := Node Sequence [Node Parallel [Node Xor [Leaf None; Leaf (Some 2)]; Leaf (Some 1); Leaf (Some 2)]; Node Loop [Leaf (Some 4); Leaf None]].
Example C101_ex : wf_tree x1 /\ wf_tree x2 /\ no_interleaving x1 /\ structurally_equal x1 x2 = true /\ structurally_equal x1 x3 = false /\
  structurally_equal (Node Sequence [Leaf (Some 1); Leaf (Some 2)]) (Node Sequence [Leaf (Some 2); Leaf (Some 1)]) = false /\ lang x2 [1; 2; 1; 4; 4].
Proof.
  assert (W : wf_tree x1) by (repeat constructor; discriminate). assert (N : no_interleaving x1) by (repeat constructor; discriminate).
  assert (W2 : wf_tree x2) by (repeat constructor; discriminate). assert (E : structurally_equal x1 x2 = true) by (vm_compute; reflexivity).
  repeat (split; auto). apply (C101_language x1 x2 W W2 N E).
  change [1; 2; 1; 4; 4] with (concat [[1; 2; 1]; [4; 4]]). apply L_seq. constructor; [|constructor; [|constructor]].
  - eapply L_par with (ws := [[1]; [2]; [1]]); [repeat constructor; eapply L_xor; [left; reflexivity|constructor]|].
    apply (sh_cons [] 1 [] [[2]; [1]]). apply (sh_cons [[]] 2 [] [[1]]). apply (sh_cons [[]; []] 1 [] []). apply sh_nil. cbn. intuition.
  - change [4; 4] with ([4] ++ [] ++ [4]). eapply L_loop_redo; [constructor|left; reflexivity|constructor|apply L_loop_exit; constructor].
Qed.

(** * C102 *)
(** For every trace, every enumeration order of the set of nodes and every choice among equal nodes: the reduced tree exists, it allows
    no trace the original tree does not allow, and it allows the same traces over the activities of the given trace - in particular the trace itself fits
    the one iff it fits the other. *)
Theorem C102_reduction : forall text_of t ord fuel pick trace, fp_tree t -> unique_labels t -> (forall l, Permutation (ord l) l) -> size t < fuel ->
  exists T, reduce_tree text_of ord fuel pick t trace = Some T /\ (forall w, lang T w -> lang t w) /\
    (forall w, (forall a, In a w -> In a trace) -> (lang t w <-> lang T w)).
Proof.
  intros text_of t ord fuel pick trace HF HU Ho Hf. pose proof (fp_tree_wf t HF) as HW. destruct HU as [Hn Hv]. unfold reduce_tree.
  destruct (bottomup_full t HW Hn Hv ord fuel Ho Hf) as (r & -> & Hp & Hord & Hin & Hnd).
  destruct (fill_spec t HW node_footprints rec_fp) with (r := r) as (d & -> & _); [|exact Hp|exact Hord|].
  { intros n d Hpn Hch. apply node_fp_spec; [eapply pos_everywhere; eauto|exact Hch]. }
  rewrite (last_is_root t r Hp Hord Hin Hnd). destruct (reduce_below_spec trace pick t HW []) as [[B1 B2] W].
  destruct (C18_fold_language nat Nat.eqb text_of Nat.eqb_eq _ W) as (T & E & SL). exists T. split; [exact E|]. split.
  - intros w H. apply B1, SL, H.
  - intros w Hw. split; intros H; [apply SL, B2, H; exact Hw|apply B1, SL, H].
Qed.
Print Assumptions C102_reduction.

Theorem C102_trace : forall text_of t ord fuel pick trace T, fp_tree t -> unique_labels t -> (forall l, Permutation (ord l) l) -> size t < fuel ->
  reduce_tree text_of ord fuel pick t trace = Some T -> (lang t trace <-> lang T trace).
Proof.
  intros text_of t ord fuel pick trace T A B C D H. destruct (C102_reduction text_of t ord fuel pick trace A B C D) as (T' & E & _ & F).
  rewrite E in H. injection H as <-. apply F. auto.
Qed.
Print Assumptions C102_trace.

(** Trees with inclusive choices or loops with several redo children: whenever a tree comes out, the same holds. *)
Theorem C102_general : forall text_of t ord fuel pick trace T, wf_tree t -> unique_labels t -> (forall l, Permutation (ord l) l) -> size t < fuel ->
  reduce_tree text_of ord fuel pick t trace = Some T ->
  (forall w, lang T w -> lang t w) /\ (forall w, (forall a, In a w -> In a trace) -> (lang t w <-> lang T w)).
Proof.
  intros text_of t ord fuel pick trace T HW [Hn Hv] Ho Hf H. unfold reduce_tree in H.
  destruct (bottomup_full t HW Hn Hv ord fuel Ho Hf) as (r & E & Hp & Hord & Hin & Hnd). rewrite E in H. destruct (fill node_footprints r []); [|discriminate].
  rewrite (last_is_root t r Hp Hord Hin Hnd) in H. destruct (reduce_below_spec trace pick t HW []) as [[B1 B2] W].
  destruct (C18_fold_language nat Nat.eqb text_of Nat.eqb_eq _ W) as (T' & E' & SL). rewrite E' in H. injection H as <-. split.
  - intros w H. apply B1, SL, H.
  - intros w Hw. split; intros H; [apply SL, B2, H; exact Hw|apply B1, SL, H].
Qed.
Print Assumptions C102_general.

(** Finding: with repeated labels the reduction may return a subtree only: here the trace fits the tree but not the reduced tree. *)
Theorem C102_duplicates_refuted : let t := Node Xor [Node Sequence [Leaf (Some 1); Leaf (Some 2)]; Node Sequence [Leaf (Some 2); Leaf (Some 1)]] in
  fp_tree t /\ lang t [2; 1] /\ exists T, reduce_tree (fun _ => []) (fun l => l) 50 (fun _ => true) t [2; 1] = Some T /\ ~ lang T [2; 1].
Proof.
  intros t. split; [repeat constructor; cbn; discriminate|]. split.
  { eapply L_xor; [right; left; reflexivity|]. change [2; 1] with (concat [[2]; [1]]). apply L_seq. repeat constructor. }
  eexists. split; [vm_compute; reflexivity|]. intros H. apply lang_seq in H as (ws & F & E). inversion F as [|? v1 ? vs A B]; subst. inversion A; subst. discriminate.
Qed.
Print Assumptions C102_duplicates_refuted.

Definition y := Node Sequence [Leaf (Some 1); Node Xor [Leaf None; Node Loop [Leaf (Some 2); Leaf (Some 3)]]; Node Parallel [Leaf (Some 4); Node Xor [Leaf (Some 5); Leaf None]]].
Example C102_ex : fp_tree y /\ unique_labels y /\ size y < 50 /\
  reduce_tree (fun _ => []) (fun l => l) 50 (fun _ => true) y [1; 4; 5] = Some (Node Sequence [Leaf (Some 1); Node Parallel [Leaf (Some 4); Node Xor [Leaf (Some 5); Leaf None]]]) /\
  reduce_tree (fun _ => []) (fun l => l) 50 (fun _ => true) y [1; 4] = Some (Node Sequence [Leaf (Some 1); Leaf (Some 4)]).
Proof.
  split; [repeat constructor; cbn; discriminate|]. split; [split; [cbn; repeat constructor; cbn; intuition discriminate|repeat constructor; cbn; discriminate]|].
  split; [vm_compute; lia|]. split; vm_compute; reflexivity.
Qed.
