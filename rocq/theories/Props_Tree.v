(** Property theorems C18, C21, C22 (process trees). *)
From Coq Require Import String Ascii List Arith ZArith Permutation.
Import ListNotations.
From Verif Require Import Model_Tree Spec_Tree Proofs_Shuffle Proofs_Fold Proofs_Tree2.
From Verif Require Import Model_TreeFP Spec_TreeFP Proofs_TreeFP.
Local Open Scope list_scope.

(** C18: fold terminates (no exception, the recursion depth is bounded by the size of the tree) and
    the folded tree has the same traces, for every label type with a decidable equality and however
    labels are printed.  Hypothesis: operators have children, loops a do and a redo child. *)
Theorem C18_fold_language : forall (A : Type) (eqb : A -> A -> bool) (lab : A -> list ascii),
  (forall a b, eqb a b = true <-> a = b) -> forall t : tree A, wf_tree t ->
  exists t', fold_tree eqb lab t = Some t' /\ same_lang t t'.
Proof.
  intros A eqb lab He t Ht.
  destruct (fold_ok eqb lab He (S (size t)) t (Nat.lt_succ_diag_r _) (wf_wfi _ Ht)) as (t' & E & _ & HL & _). eauto.
Qed.
Print Assumptions C18_fold_language.

(** The folded tree is again well-formed, not larger, and tidy: no operator has exactly one child,
    no sequence, choice or parallel node has a child with its own operator, and no sequence or
    parallel node has a silent child. *)
Definition folded_node {A} (t : tree A) : Prop :=
  match t with
  | Leaf _ => True
  | Node o cs => 2 <= length cs /\
      (o = Sequence \/ o = Xor \/ o = Parallel -> forall ds, ~ In (Node o ds) cs) /\
      (o = Sequence \/ o = Parallel -> ~ In (Leaf None) cs)
  end.
Lemma ev_impl {A} (P Q : tree A -> Prop) t : (forall u, P u -> Q u) -> everywhere P t -> everywhere Q t.
Proof.
  intros HPQ. induction t as [l|o cs IH] using tree_ind2; intros H; inversion H; subst; constructor; auto.
  rewrite Forall_forall in *. auto.
Qed.
Theorem C18_fold_normal_form : forall (A : Type) (eqb : A -> A -> bool) (lab : A -> list ascii),
  (forall a b, eqb a b = true <-> a = b) -> forall t t' : tree A, wf_tree t ->
  fold_tree eqb lab t = Some t' -> wf_tree t' /\ size t' <= size t /\ everywhere folded_node t'.
Proof.
  intros A eqb lab He t t' Ht E.
  destruct (fold_ok eqb lab He (S (size t)) t (Nat.lt_succ_diag_r _) (wf_wfi _ Ht)) as (t1 & E1 & Hw & _ & Hs & Hty).
  unfold fold_tree in E. rewrite E in E1. injection E1 as <-. split; auto. split; [eapply shrink_size; eauto|].
  eapply ev_impl; [|exact Hty]. intros [l|o cs]; [exact (fun x => x)|]. cbn. intros (H1 & H2 & H3).
  split; auto. split; auto. intros Ho ds Hin. apply (H3 Ho) in Hin. cbn in Hin. destruct o; discriminate.
Qed.
Print Assumptions C18_fold_normal_form.


(** tree_sort (applied to the discovered trees) keeps the language, whatever the hash of labels. *)
Theorem C18_tree_sort_language : forall (A : Type) (hash : A -> Z) (t : tree A), same_lang t (tree_sort hash t).
Proof. intros. apply tree_sort_lang. Qed.
Print Assumptions C18_tree_sort_language.

Definition ex_lab (n : nat) : list ascii := [ascii_of_nat (97 + n)].
Definition ex_tree : tree nat :=
  Node Sequence [Node Sequence [Leaf (Some 0); Leaf None];
                 Node Xor [Node Xor [Leaf (Some 1); Leaf None]; Leaf None; Leaf (Some 2)];
                 Node Loop [Node Parallel [Leaf None; Leaf (Some 3)]; Leaf None]].
Example C18_example : wf_tree ex_tree /\
  fold_tree Nat.eqb ex_lab ex_tree =
    Some (Node Sequence [Leaf (Some 0); Node Xor [Leaf (Some 1); Leaf None; Leaf (Some 2)];
                         Node Loop [Leaf (Some 3); Leaf None]]).
Proof. split; [|reflexivity]. repeat constructor; cbn; auto; discriminate. Qed.

(** C21 *)
Theorem C21_binary_language : forall (A : Type) (t : tree A), no_interleaving t ->
  exists t', to_binary (size t) t = Some t' /\ same_lang t t' /\ at_most_binary t'.
Proof.
  intros A t Hn. destruct (to_binary_ok (size t) t (le_n _)) as (t' & E & H1 & H2 & _). exists t'. auto.
Qed.
Print Assumptions C21_binary_language.

(** every operator has exactly two children, if every operator had at least two; the shape is right
    for every tree, also with interleaving. *)
Theorem C21_binary_shape : forall (A : Type) (t : tree A),
  everywhere (fun u => match u with Node _ cs => 2 <= length cs | Leaf _ => True end) t ->
  exists t', to_binary (size t) t = Some t' /\
    everywhere (fun u => match u with Node _ cs => length cs = 2 | Leaf _ => True end) t'.
Proof.
  intros A t Hn. destruct (to_binary_ok (size t) t (le_n _)) as (t' & E & _ & _ & H3). exists t'. split; auto.
  apply H3. eapply ev_impl; [|exact Hn]. intros [l|o cs]; exact (fun x => x).
Qed.
Print Assumptions C21_binary_shape.

(** Interleaving is not associative: the binary form of <>(a,b,c) cannot do b,a,c. *)
Theorem C21_interleaving_refuted : exists t t' : tree nat, wf_tree t /\ to_binary (size t) t = Some t' /\ ~ same_lang t t'.
Proof.
  destruct (binary_interleaving_wrong 1 2 3) as (t' & E & H1 & H2); try discriminate.
  eexists _, t'. split; [|split; [exact E|]].
  - repeat constructor; cbn; discriminate.
  - intros H. apply H2, H, H1.
Qed.
Print Assumptions C21_interleaving_refuted.

Example C21_example : to_binary 5 (Node Loop [Leaf (Some 1); Leaf (Some 2); Leaf (Some 3); Leaf (Some 4)]) =
  Some (Node Loop [Leaf (Some 1); Node Xor [Leaf (Some 2); Node Xor [Leaf (Some 3); Leaf (Some 4)]]]).
Proof. reflexivity. Qed.

(** C22: on trees built from sequence, choice, parallel and binary loops, the footprints are computed
    without exception, and are exactly the facts of the language of the tree. *)
Theorem C22_footprints_exact : forall t : tree nat, fp_tree t ->
  exists f, footprints t = Some f /\
    (f_skip f = true <-> lang t []) /\
    (forall a, In a (f_start f) <-> begins (lang t) a) /\
    (forall a, In a (f_end f) <-> finishes (lang t) a) /\
    (forall a, In a (f_acts f) <-> occurs (lang t) a) /\
    (forall a, In a (f_always f) <-> always (lang t) a) /\
    (forall a b, In (a, b) (f_seq f) <-> follows (lang t) a b /\ ~ follows (lang t) b a) /\
    (forall a b, In (a, b) (f_par f) <-> follows (lang t) a b /\ follows (lang t) b a).
Proof.
  intros t Ht. destruct (footprints_exact t Ht) as (f & E & [H0 H1 H2 H3 H4 H5 H6 H7 H8]).
  exists f. do 6 (split; [auto|]).
  assert (D : forall a b, In (a, b) (f_par f) \/ ~ In (a, b) (f_par f)).
  { intros a b. rewrite <- mem_pair_ok. destruct (mem_pair (a, b) (f_par f)); auto. }
  split; intros a b; rewrite <- !H5; split.
  - intros H. destruct (H7 _ _ H) as (Ha & Hb). split; auto. intros [?|Hp]; auto.
  - intros ([?|Hp] & Hn); auto. destruct Hn. auto.
  - intros H. auto.
  - intros [[Hs|Hp] [Hs'|Hp']]; auto. exfalso. destruct (H7 _ _ Hs) as (Ha & _). auto.
Qed.
Print Assumptions C22_footprints_exact.

Example C22_example :
  let t := Node Sequence [Leaf (Some 1); Node Parallel [Leaf (Some 2); Node Xor [Leaf (Some 3); Leaf None]];
                          Node Loop [Leaf (Some 4); Leaf (Some 5)]] in
  fp_tree t /\ exists f, footprints t = Some f /\ f_start f = [1] /\ f_end f = [4] /\ In (2, 3) (f_par f) /\ In (1, 3) (f_seq f).
Proof. split; [repeat constructor; cbn; auto; discriminate|]. eexists. split; [reflexivity|]. cbn. auto 20. Qed.

(** OR nodes are treated like parallel nodes (bottomup.py:357): "always" then claims activities that
    need not happen. *)
Theorem C22_or_always_refuted : exists (t : tree nat) f, wf_tree t /\ footprints t = Some f /\
  exists a w, In a (f_always f) /\ lang t w /\ ~ In a w.
Proof.
  exists (Node Or [Leaf (Some 1); Leaf (Some 2)]). eexists. split; [repeat constructor; cbn; discriminate|]. split; [reflexivity|].
  exists 2, [1]. split; [cbn; auto|]. split; [|cbn; intros [H|[]]; discriminate].
  apply lang_or. exists [Leaf (Some 1)], [[1]]. split; [apply sel_take, sel_skip, sel_nil|]. split; [discriminate|].
  split; [repeat constructor|]. apply shuffle_one. reflexivity.
Qed.
Print Assumptions C22_or_always_refuted.

(** In a loop with two redo children, only the first one is linked to the do part (bottomup.py:278-345). *)
Theorem C22_loop3_refuted : exists (t : tree nat) f, wf_tree t /\ footprints t = Some f /\
  exists a b, follows (lang t) a b /\ ~ In (a, b) (f_seq f) /\ ~ In (a, b) (f_par f).
Proof.
  exists (Node Loop [Leaf (Some 1); Leaf (Some 2); Leaf (Some 3)]). eexists.
  split; [repeat constructor; cbn; auto|]. split; [reflexivity|].
  exists 1, 3. split; [|cbn; split; intros H; repeat destruct H as [H|H]; inversion H].
  exists [], [1]. change ([] ++ 1 :: 3 :: [1]) with ([1] ++ [3] ++ [1]).
  eapply L_loop_redo with (r := Leaf (Some 3)); [constructor|cbn; auto|constructor|]. apply L_loop_exit. constructor.
Qed.
Print Assumptions C22_loop3_refuted.
