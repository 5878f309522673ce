(** C23, C24, C25, C46: the Inductive Miner. *)
From Coq Require Import String Ascii List Arith Bool ZArith QArith Lia Permutation.
Import ListNotations.
From Verif Require Import Model_Dict Model_Dfg Model_Graph Model_Lev Model_Tree Model_IM Spec_Tree Spec_IM.
From Verif Require Import Proofs_Dict Proofs_Shuffle Proofs_Fold Proofs_Tree2 Proofs_IM1 Proofs_IM6 Proofs_IM9 Proofs_IM10.
Local Open Scope nat_scope.

(** [any_order f]: some order in which Python may iterate over a set *)
Definition any_order (f : list nat -> list nat) : Prop := forall l, Permutation (f l) l.

Section P.
  Variables (ord par_order : list nat -> list nat) (strict ft : bool) (lab : nat -> list ascii) (hash : nat -> Z).
  Lemma finish_ok t : wf_tree t -> exists t', finish lab hash (Some t) = Some t' /\ same_lang t t' /\ Permutation (leaves t') (leaves t).
  Proof.
    intros Hw. destruct (fold_ok Nat.eqb lab Nat.eqb_eq (S (size t)) t (Nat.lt_succ_diag_r _) (wf_wfi _ Hw)) as (t' & E & _ & HL & _).
    change (fold_tree Nat.eqb lab t = Some t') in E.
    exists (tree_sort hash t'). cbn [finish]. rewrite E. split; auto. split.
    - eapply same_lang_trans; [exact HL|apply tree_sort_lang].
    - rewrite sort_leaves. rewrite (fold_tree_leaves lab t t' Hw E). auto.
  Qed.
  Hypothesis Ho : any_order ord.
  Hypothesis Hp : any_order par_order.
  Lemma Hi : forall l, incl (par_order l) l.
  Proof. intros l x Hx. eapply Permutation_in; [apply Hp|exact Hx]. Qed.
  Lemma alphabet_log l a : In a (alphabet (get_variants l)) <-> exists t, In t l /\ In a t.
  Proof.
    rewrite alphabet_iff. split; intros (t & H1 & H2); exists t; split; auto; apply variants_keys; auto.
  Qed.
  Lemma discover_total l : exists n t, (forall fuel, n <= fuel -> discover_im ord strict par_order ft lab hash fuel l = Some t) /\
    (forall w, In w l -> lang t w) /\ (l = [] -> lang t []) /\ NoDup (leaves t) /\ (forall a, In a (leaves t) <-> exists w, In w l /\ In a w).
  Proof.
    destruct (im_total ord Ho strict par_order Hi ft (get_variants l) (variants_ok l)) as (n & t & E & (F1 & F2) & L & Hw).
    destruct (finish_ok t Hw) as (t' & Ef & SL & PL). exists n, t'. split; [|split; [|split; [|split]]].
    - intros fuel Hf. unfold discover_im. rewrite (E fuel Hf). exact Ef.
    - intros w Hin. apply SL, F1, variants_keys, Hin.
    - intros ->. apply SL, F2. reflexivity.
    - apply (Permutation_NoDup (l := alphabet (get_variants l))); [|apply alphabet_nodup]. rewrite PL, L. auto.
    - intros a. rewrite <- alphabet_log. split; apply Permutation_in; rewrite PL, L; auto.
  Qed.
  Lemma map_opt_mono (f g : uvcl -> option (tree nat)) subs ts :
    (forall s t, f s = Some t -> g s = Some t) -> map_opt f subs = Some ts -> map_opt g subs = Some ts.
  Proof.
    intros H. revert ts. induction subs as [|s subs IH]; intros ts E; cbn [map_opt] in *; auto.
    destruct (f s) as [t|] eqn:Ef; [|discriminate]. rewrite (H _ _ Ef). destruct (map_opt f subs) as [ts'|]; [|discriminate].
    rewrite (IH ts' eq_refl). exact E.
  Qed.
  Lemma recurse_mono (f g : uvcl -> option (tree nat)) r t :
    (forall s t, f s = Some t -> g s = Some t) -> recurse f r = Some t -> recurse g r = Some t.
  Proof.
    intros H. unfold recurse. destruct (map_opt f (snd r)) as [ts|] eqn:E; [|discriminate].
    rewrite (map_opt_mono f g _ _ H E). auto.
  Qed.
  Lemma im_mono n : forall v t, im ord strict par_order ft n v = Some t -> im ord strict par_order ft (S n) v = Some t.
  Proof.
    induction n as [|n IH]; intros v t E; [discriminate|].
    remember (S n) as m eqn:Em. cbn [im]. rewrite Em in E. cbn [im] in E.
    destruct (empty_traces v) as [r|]; [eapply recurse_mono; [|exact E]; subst m; exact IH|].
    destruct (base_case v); auto.
    destruct (find_cut ord strict (discover_dfg_uvcl v)) as [[o groups]|].
    - destruct (project o v groups) as [l|]; [|discriminate]. eapply recurse_mono; [|exact E]; subst m; exact IH.
    - eapply recurse_mono; [|exact E]; subst m; exact IH.
  Qed.
  Lemma discover_mono n m l t : n <= m -> discover_im ord strict par_order ft lab hash n l = Some t ->
    discover_im ord strict par_order ft lab hash m l = Some t.
  Proof.
    intros L. unfold discover_im. destruct (im ord strict par_order ft n (get_variants l)) as [t0|] eqn:E; [|discriminate].
    replace (im ord strict par_order ft m (get_variants l)) with (Some t0); auto. symmetry.
    induction L; auto. apply im_mono; auto.
  Qed.
  Lemma imf_mono noise n : forall sec v g r, imf ord strict par_order ft noise n sec v g = Some r -> imf ord strict par_order ft noise (S n) sec v g = Some r.
  Proof.
    induction n as [|n IH]; intros sec v g r E; [discriminate|].
    assert (IHc : forall s t, unwrap_call (imf ord strict par_order ft noise n false s (discover_dfg_uvcl s)) = Some t ->
      unwrap_call (imf ord strict par_order ft noise (S n) false s (discover_dfg_uvcl s)) = Some t).
    { intros s t H. destruct (imf ord strict par_order ft noise n false s (discover_dfg_uvcl s)) as [[t'|]|] eqn:E'; try discriminate.
      rewrite (IH _ _ _ _ E'). exact H. }
    assert (IHr : forall x r, lift (recurse (fun v0 => unwrap_call (imf ord strict par_order ft noise n false v0 (discover_dfg_uvcl v0))) x) = Some r ->
      lift (recurse (fun v0 => unwrap_call (imf ord strict par_order ft noise (S n) false v0 (discover_dfg_uvcl v0))) x) = Some r).
    { intros x r0 H. destruct (recurse (fun v0 => unwrap_call (imf ord strict par_order ft noise n false v0 (discover_dfg_uvcl v0))) x) as [t|] eqn:E'; [|discriminate].
      rewrite (recurse_mono _ _ x t IHc E'). exact H. }
    remember (S n) as m eqn:Em. cbn [imf]. rewrite Em in E. cbn [imf] in E.
    assert (R : forall v g, match base_case v with
        | Some t => Some (Some t)
        | None =>
          match find_cut ord strict g with
          | Some (o, groups) => match project o v groups with Some l => lift (recurse (fun v0 => unwrap_call (imf ord strict par_order ft noise n false v0 (discover_dfg_uvcl v0))) (Some o, l)) | None => None end
          | None =>
            if sec then Some None
            else match imf ord strict par_order ft noise n true v (filter_noise noise g) with
                 | Some (Some t) => Some (Some t)
                 | Some None => lift (recurse (fun v0 => unwrap_call (imf ord strict par_order ft noise n false v0 (discover_dfg_uvcl v0))) (fall_through ord strict par_order ft v))
                 | None => None
                 end
          end
        end = Some r ->
        match base_case v with
        | Some t => Some (Some t)
        | None =>
          match find_cut ord strict g with
          | Some (o, groups) => match project o v groups with Some l => lift (recurse (fun v0 => unwrap_call (imf ord strict par_order ft noise m false v0 (discover_dfg_uvcl v0))) (Some o, l)) | None => None end
          | None =>
            if sec then Some None
            else match imf ord strict par_order ft noise m true v (filter_noise noise g) with
                 | Some (Some t) => Some (Some t)
                 | Some None => lift (recurse (fun v0 => unwrap_call (imf ord strict par_order ft noise m false v0 (discover_dfg_uvcl v0))) (fall_through ord strict par_order ft v))
                 | None => None
                 end
          end
        end = Some r).
    { clear E. intros v0 g0 H. destruct (base_case v0); auto.
      destruct (find_cut ord strict g0) as [[o groups]|].
      - destruct (project o v0 groups); auto.
      - destruct sec; auto. destruct (imf ord strict par_order ft noise n true v0 (filter_noise noise g0)) as [r'|] eqn:E'; [|discriminate].
        rewrite (IH _ _ _ _ E'). destruct r'; auto. }
    destruct (empty_traces v) as [[o [|e [|s r0]]]|]; auto.
    destruct (Qle_bool _ _); auto.
  Qed.
  Lemma discover_imf_mono noise n m l t : n <= m -> discover_imf ord strict par_order ft lab hash noise n l = Some t ->
    discover_imf ord strict par_order ft lab hash noise m l = Some t.
  Proof.
    intros L. unfold discover_imf.
    destruct (imf ord strict par_order ft noise n false (get_variants l) (discover_dfg_uvcl (get_variants l))) as [[t0|]|] eqn:E; try discriminate.
    replace (imf ord strict par_order ft noise m false (get_variants l) (discover_dfg_uvcl (get_variants l))) with (Some (Some t0)); auto. symmetry.
    induction L; auto. apply imf_mono; auto.
  Qed.
End P.

(** C24.  For every log there is a tree that the algorithm returns, with any sufficient number of nested calls. *)
Theorem C24_termination : forall ord par_order strict ft lab hash, any_order ord -> any_order par_order ->
  forall l : log, exists n t, forall fuel, n <= fuel -> discover_im ord strict par_order ft lab hash fuel l = Some t.
Proof. intros. destruct (discover_total ord par_order strict ft lab hash H H0 l) as (n & t & E & _). eauto. Qed.
Print Assumptions C24_termination.

(** The result does not depend on the number of nested calls that the model allows. *)
Theorem C24_deterministic : forall ord par_order strict ft lab hash (l : log) n m t u,
  discover_im ord strict par_order ft lab hash n l = Some t -> discover_im ord strict par_order ft lab hash m l = Some u -> t = u.
Proof.
  intros. destruct (Nat.le_gt_cases n m).
  - apply (discover_mono _ _ _ _ _ _ n m) in H; auto. congruence.
  - apply (discover_mono _ _ _ _ _ _ m n) in H0; [congruence|lia].
Qed.
Print Assumptions C24_deterministic.

(** C23.  Every trace of the log is a word of the discovered tree. *)
Theorem C23_fitness : forall ord par_order strict ft lab hash, any_order ord -> any_order par_order ->
  forall (l : log) fuel t, discover_im ord strict par_order ft lab hash fuel l = Some t ->
  forall w, In w l -> lang t w.
Proof.
  intros. destruct (discover_total ord par_order strict ft lab hash H H0 l) as (n & t' & E & F & _).
  pose proof (E n (le_n _)) as E'. rewrite <- (C24_deterministic _ _ _ _ _ _ _ _ _ _ _ E' H1). auto.
Qed.
Print Assumptions C23_fitness.

(** C25.  The visible leaves are the activities of the log, each exactly once. *)
Theorem C25_leaves : forall ord par_order strict ft lab hash, any_order ord -> any_order par_order ->
  forall (l : log) fuel t, discover_im ord strict par_order ft lab hash fuel l = Some t ->
  NoDup (leaves t) /\ forall a, In a (leaves t) <-> exists w, In w l /\ In a w.
Proof.
  intros. destruct (discover_total ord par_order strict ft lab hash H H0 l) as (n & t' & E & _ & _ & F).
  pose proof (E n (le_n _)) as E'. rewrite <- (C24_deterministic _ _ _ _ _ _ _ _ _ _ _ E' H1). auto.
Qed.
Print Assumptions C25_leaves.

(** C46.  IMf returns a tree for every log and every threshold ... *)
Theorem C46_termination : forall ord par_order strict ft lab hash, any_order ord -> any_order par_order ->
  forall (noise : Q) (l : log), exists n t, forall fuel, n <= fuel -> discover_imf ord strict par_order ft lab hash noise fuel l = Some t.
Proof.
  intros. destruct (imf_total ord H strict par_order (Hi _ H0) ft noise _ (variants_ok l)) as (n & t & E & _ & Hw).
  destruct (finish_ok lab hash t Hw) as (t' & Ef & _). exists n, t'. intros fuel L. unfold discover_imf. rewrite (E fuel L). exact Ef.
Qed.
Print Assumptions C46_termination.
Theorem C46_deterministic : forall ord par_order strict ft lab hash noise (l : log) n m t u,
  discover_imf ord strict par_order ft lab hash noise n l = Some t -> discover_imf ord strict par_order ft lab hash noise m l = Some u -> t = u.
Proof.
  intros. destruct (Nat.le_gt_cases n m).
  - apply (discover_imf_mono _ _ _ _ _ _ noise n m) in H; auto. congruence.
  - apply (discover_imf_mono _ _ _ _ _ _ noise m n) in H0; [congruence|lia].
Qed.
Print Assumptions C46_deterministic.
(** ... whose labels are activities of the log ... *)
Theorem C46_labels : forall ord par_order strict ft lab hash, any_order ord -> any_order par_order ->
  forall (noise : Q) (l : log) fuel t, discover_imf ord strict par_order ft lab hash noise fuel l = Some t ->
  forall a, In a (leaves t) -> exists w, In w l /\ In a w.
Proof.
  intros ord par_order strict ft lab hash H H0 noise l fuel t H1 a Ha.
  destruct (imf_total ord H strict par_order (Hi _ H0) ft noise _ (variants_ok l)) as (n & t0 & E & Hl & Hw).
  destruct (finish_ok lab hash t0 Hw) as (t' & Ef & _ & P).
  assert (E' : discover_imf ord strict par_order ft lab hash noise n l = Some t') by (unfold discover_imf; rewrite (E n (le_n _)); exact Ef).
  rewrite (C46_deterministic _ _ _ _ _ _ _ _ _ _ _ _ H1 E') in Ha. apply alphabet_log. apply Hl. eapply Permutation_in; [exact P|exact Ha].
Qed.
Print Assumptions C46_labels.
(** ... and which, without a positive threshold, is the tree of IM. *)
Theorem C46_zero_threshold : forall ord par_order strict ft lab hash, any_order ord -> any_order par_order ->
  forall (noise : Q) (l : log), (noise <= 0)%Q -> forall n m t u,
  discover_imf ord strict par_order ft lab hash noise n l = Some t -> discover_im ord strict par_order ft lab hash m l = Some u -> t = u.
Proof.
  intros ord par_order strict ft lab hash H H0 noise l Hq n m t u E1 E2.
  destruct (imf_im ord H strict par_order (Hi _ H0) ft noise Hq _ (variants_ok l)) as (k & E).
  set (f := n + m + k).
  apply (discover_imf_mono _ _ _ _ _ _ noise n f) in E1; [|unfold f; lia]. apply (discover_mono _ _ _ _ _ _ m f) in E2; [|unfold f; lia].
  unfold discover_imf in E1. rewrite (E f) in E1 by (unfold f; lia). unfold discover_im in E2.
  destruct (im ord strict par_order ft f (get_variants l)); [|discriminate]. cbn [lift unwrap_call] in E1. congruence.
Qed.
Print Assumptions C46_zero_threshold.

(** Concrete cases. *)
Definition im_lab (n : nat) : list ascii := [ascii_of_nat (97 + n)].
Definition im_hash (n : nat) : Z := Z.of_nat (n * 89 mod 101).
Definition idl (l : list nat) := l.
Example ex_orders : any_order idl /\ any_order (@rev nat).
Proof. split; intros l; [reflexivity|symmetry; apply Permutation_rev]. Qed.
Example ex_im_cuts : discover_im idl true idl true im_lab im_hash 30 [[0;1;2;3];[0;2;1;3];[0;4;3]] =
  Some (Node Sequence [Leaf (Some 0); Node Xor [Leaf (Some 4); Node Parallel [Leaf (Some 2); Leaf (Some 1)]]; Leaf (Some 3)]).
Proof. vm_compute. reflexivity. Qed.
Example ex_im_loop : discover_im (@rev nat) true idl true im_lab im_hash 30 [[0;1;2;0;1];[0;1]] =
  Some (Node Loop [Node Sequence [Leaf (Some 0); Leaf (Some 1)]; Leaf (Some 2)]).
Proof. vm_compute. reflexivity. Qed.
Example ex_im_fall_throughs : discover_im idl true idl true im_lab im_hash 30 [[0;1;2;3];[0;2;1;3];[0;4;3];[];[0;3];[0;1;2;5;1;2;3]] =
  Some (Node Xor [Leaf None; Node Sequence [Leaf (Some 0);
    Node Xor [Leaf None; Leaf (Some 4); Node Parallel [Node Loop [Leaf (Some 1); Leaf None]; Node Loop [Leaf (Some 2); Leaf (Some 5)]]]; Leaf (Some 3)]]).
Proof. vm_compute. reflexivity. Qed.
(** IMf with a positive threshold gives up fitness: the empty trace is filtered away. *)
Example ex_imf_filters : discover_imf idl true idl true im_lab im_hash (1#2) 30 [[0];[0];[0];[]] = Some (Leaf (Some 0)) /\ ~ lang (Leaf (Some 0)) [].
Proof. split; [vm_compute; reflexivity|]. intros H. apply lang_act in H. discriminate. Qed.
Example ex_imf_zero : discover_imf idl true idl true im_lab im_hash 0 30 [[0];[0];[0];[]] = discover_im idl true idl true im_lab im_hash 30 [[0];[0];[0];[]].
Proof. vm_compute. reflexivity. Qed.
