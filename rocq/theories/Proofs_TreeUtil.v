(** Proofs about structural equality of trees and reduction by a trace. *)
From Coq Require Import List Arith Bool Lia Permutation.
Import ListNotations.
From Verif Require Import Model_Tree Spec_Tree Proofs_Shuffle Model_TreeFP Model_Bottomup Model_TreeUtil Spec_TreeUtil.

Lemma Forall2_length' {X Y} (R : X -> Y -> Prop) l k : Forall2 R l k -> length l = length k.
Proof. induction 1; cbn; auto. Qed.
Lemma matchable_perm {X Y} (R : X -> Y -> Prop) l l' k : Forall2 R l k -> Permutation l l' -> exists k', Permutation k k' /\ Forall2 R l' k'.
Proof.
  intros HF H. revert k HF. induction H; intros k HF.
  - inversion HF; subst. exists []. split; constructor.
  - inversion HF; subst. destruct (IHPermutation _ H4) as (k' & ? & ?). exists (y :: k'). split; constructor; auto.
  - inversion HF; subst. inversion H3; subst. exists (y1 :: y0 :: l'0). split; [apply perm_swap|repeat constructor; auto].
  - destruct (IHPermutation1 _ HF) as (k1 & ? & HF1). destruct (IHPermutation2 _ HF1) as (k2 & ? & ?). exists k2. split; auto. etransitivity; eauto.
Qed.
Lemma Forall2_flip' {X Y} (R : X -> Y -> Prop) l k : Forall2 R l k -> Forall2 (fun y x => R x y) k l.
Proof. induction 1; constructor; auto. Qed.

(** [shuffled] is an equivalence *)
Lemma sh_refl t : no_interleaving t -> shuffled t t.
Proof.
  induction t as [l|o cs IH] using tree_ind2; intros H; [constructor|]. inversion H as [|? ? Hs Hc]; subst.
  assert (F : Forall2 shuffled cs cs). { clear H Hs. induction cs as [|c cs IHc]; constructor; inversion IH; inversion Hc; subst; auto. }
  destruct o; try contradiction; (apply sh_ordered; [now auto|auto]) || (eapply sh_any; [now auto|reflexivity|auto]).
Qed.
Lemma sh_sym t : forall u, shuffled t u -> shuffled u t.
Proof.
  induction t as [l|o cs IH] using tree_ind2; intros u H; inversion H as [|? ? ds Ho HF|? ? cs' ds Ho HP HF]; subst; [constructor| |].
  - apply sh_ordered; auto. clear H. induction HF; constructor; inversion IH; subst; auto.
  - assert (HF' : Forall2 shuffled ds cs').
    { apply Forall2_flip'. assert (IH' : Forall (fun t => forall u, shuffled t u -> shuffled u t) cs') by (rewrite Forall_forall in *; intros x Hx; apply IH; rewrite HP; auto).
      clear -HF IH'. induction HF; constructor; inversion IH'; subst; auto. }
    destruct (matchable_perm _ _ _ _ (Forall2_flip' _ _ _ HF') (Permutation_sym HP)) as (ds' & P2 & F2). eapply sh_any; [auto|exact P2|]. apply Forall2_flip'. auto.
Qed.
Lemma sh_trans t : forall u v, shuffled t u -> shuffled u v -> shuffled t v.
Proof.
  induction t as [l|o cs IH] using tree_ind2; intros u v H G; inversion H as [|? ? ds Ho HF|? ? cs' ds Ho HP HF]; subst; auto.
  - inversion G as [|? ? es Ho' HF'|? ? ds' es Ho' HP' HF']; subst; [|exfalso; destruct Ho as [-> | ->]; destruct Ho' as [?|[?|?]]; discriminate].
    apply sh_ordered; auto. clear H G. revert es HF'. induction HF; intros es G; inversion G; subst; constructor; inversion IH; subst; eauto.
  - inversion G as [|? ? es Ho' HF'|? ? ds' es Ho' HP' HF']; subst; [exfalso; destruct Ho' as [-> | ->]; destruct Ho as [?|[?|?]]; discriminate|].
    destruct (matchable_perm _ _ _ _ (Forall2_flip' _ _ _ HF) HP') as (cs2 & P2 & F2). apply Forall2_flip' in F2.
    eapply sh_any; [auto|etransitivity; [exact HP|exact P2]|].
    assert (IH' : Forall (fun t => forall u v, shuffled t u -> shuffled u v -> shuffled t v) cs2) by (rewrite Forall_forall in *; intros x Hx; apply IH; rewrite HP, P2; auto).
    clear -F2 HF' IH'. revert es HF'. induction F2; intros es G; inversion G; subst; constructor; inversion IH'; subst; eauto.
Qed.

(** greedy matching *)
Fixpoint greedy (cs ms : list (tree nat)) : list (tree nat) := match cs with [] => ms | c :: cs' => greedy cs' (drop_first (structurally_equal c) ms) end.
Lemma drop_cases {X} (f : X -> bool) l : (exists a x b, l = a ++ x :: b /\ f x = true /\ drop_first f l = a ++ b) \/ ((forall x, In x l -> f x = false) /\ drop_first f l = l).
Proof.
  induction l as [|x l IH]; [right; split; [easy|auto]|]. cbn. destruct (f x) eqn:E; [left; exists [], x, l; auto|].
  destruct IH as [(a & y & b & -> & H1 & ->)|[H1 ->]]; [left; exists (x :: a), y, b; auto|right; split; auto]. intros y [<- |Hy]; auto.
Qed.
Lemma greedy_le cs : forall ms, greedy cs ms = [] -> length ms <= length cs.
Proof.
  induction cs as [|c cs IH]; intros ms H; cbn in *; [subst; auto|]. apply IH in H.
  destruct (drop_cases (structurally_equal c) ms) as [(a & x & b & -> & _ & E)|[_ E]]; rewrite E in H; rewrite ?app_length in *; cbn in *; rewrite ?app_length in *; lia.
Qed.
Section Greedy.
  Variable ok : tree nat -> Prop.
  Lemma greedy_sound cs : forall ms, Forall (fun c => forall u, ok u -> structurally_equal c u = true -> shuffled c u) cs -> Forall ok ms ->
    length cs = length ms -> greedy cs ms = [] -> exists ms', Permutation ms ms' /\ Forall2 shuffled cs ms'.
  Proof.
    induction cs as [|c cs IH]; intros ms HC HM HL H; cbn in *; [subst; exists []; auto|]. inversion HC as [|? ? C1 C2]; subst.
    destruct (drop_cases (structurally_equal c) ms) as [(a & x & b & -> & Hx & E)|[_ E]]; rewrite E in H.
    - apply Forall_app in HM as [M1 M2]. inversion M2; subst. destruct (IH (a ++ b)) as (ms' & P & F); auto; [apply Forall_app; auto|rewrite app_length in *; cbn in *; lia|].
      exists (x :: ms'). split; [rewrite <- P; symmetry; apply Permutation_middle|constructor; auto].
    - apply greedy_le in H. lia.
  Qed.
  Lemma greedy_complete cs : forall ms, Forall (fun c => forall u, ok u -> shuffled c u -> structurally_equal c u = true) cs ->
    Forall (fun c => forall u, ok u -> structurally_equal c u = true -> shuffled c u) cs -> Forall ok ms ->
    (exists ms', Permutation ms ms' /\ Forall2 shuffled cs ms') -> greedy cs ms = [].
  Proof.
    induction cs as [|c cs IH]; intros ms HC HS HM (ms' & P & F); cbn.
    - inversion F; subst. apply Permutation_sym, Permutation_nil in P. auto.
    - inversion F as [|? d ? ds C1 F1]; subst. inversion HC as [|? ? C2 C3]; subst. inversion HS as [|? ? S2 S3]; subst.
      assert (Hd : In d ms) by (rewrite P; left; auto). rewrite Forall_forall in HM.
      destruct (drop_cases (structurally_equal c) ms) as [(a & x & b & -> & Hx & E)|[N _]]; [|exfalso; specialize (N d Hd); rewrite (C2 d) in N; auto; discriminate].
      rewrite E. assert (Ox : ok x) by (apply HM, in_app_iff; right; left; auto). apply S2 in Hx; auto.
      apply IH; auto; [rewrite Forall_forall; intros y Hy; apply HM; rewrite in_app_iff in *; cbn; tauto|].
      (* x is d or is matched with some other child *)
      rewrite <- Permutation_middle in P.
      assert (Hxin : In x (d :: ds)) by (rewrite <- P; left; auto). destruct Hxin as [<- |Hxin].
      + apply Permutation_cons_inv in P. exists ds. auto.
      + apply in_split in Hxin as (d1 & d2 & ->). assert (P2 : Permutation (a ++ b) (d1 ++ d :: d2)).
        { apply Permutation_cons_inv with x. rewrite P. rewrite <- (Permutation_middle d1 d2 x), <- (Permutation_middle d1 d2 d). apply perm_swap. }
        exists (d1 ++ d :: d2). split; auto.
        apply Forall2_app_inv_r in F1 as (c1 & c2 & F2 & F3 & ->). inversion F3 as [|c0 ? c2' ? G1 G2]; subst.
        apply Forall2_app; auto. constructor; auto. eapply sh_trans; [exact G1|]. eapply sh_trans; [apply sh_sym; exact Hx|exact C1].
  Qed.
End Greedy.
Lemma op_eqb_eq a b : op_eqb a b = true <-> a = b.
Proof. destruct a, b; cbn; split; intros; congruence. Qed.
Lemma wf_children o cs : wf_tree (@Node nat o cs) -> cs <> [] /\ Forall wf_tree cs.
Proof. intros H. inversion H as [|? ? S F]; subst. split; auto. destruct o; cbn in S; auto. intros ->. cbn in S. lia. Qed.
Definition pairwise := fix go (cs ds : list (tree nat)) := match cs, ds with c :: cs', d :: ds' => structurally_equal c d && go cs' ds' | _, _ => true end.
Lemma se_node o c cs o' ds : structurally_equal (Node o (c :: cs)) (Node o' ds) =
  op_eqb o o' && Nat.eqb (length (c :: cs)) (length ds) &&
  match o with Sequence | Loop => pairwise (c :: cs) ds | Parallel | Xor | Or => match greedy (c :: cs) ds with [] => true | _ => false end | Interleaving => false end.
Proof. destruct o; reflexivity. Qed.
Lemma pairwise_iff cs : forall ds, length cs = length ds -> Forall (fun c => forall u, wf_tree u -> (structurally_equal c u = true <-> shuffled c u)) cs -> Forall wf_tree ds ->
  (pairwise cs ds = true <-> Forall2 shuffled cs ds).
Proof.
  induction cs as [|c cs IH]; intros [|d ds] HL HC HD; try discriminate; [split; auto|]. cbn. inversion HC; inversion HD; subst. rewrite andb_true_iff, H1, IH by auto.
  split; [intros [A B]; constructor; auto|intros A; inversion A; auto].
Qed.
Lemma se_iff t : wf_tree t -> no_interleaving t -> forall u, wf_tree u -> (structurally_equal t u = true <-> shuffled t u).
Proof.
  induction t as [l|o cs IH] using tree_ind2; intros HW HN u HU.
  - destruct l as [a|], u as [[b|]|o' [|d ds]]; cbn; split; intros H; try discriminate; try (inversion H; fail); try constructor.
    + apply Nat.eqb_eq in H. subst. constructor.
    + inversion H; subst. apply Nat.eqb_refl.
    + apply wf_children in HU as [HU _]. congruence.
  - apply wf_children in HW as [HW1 HW2]. inversion HN as [|? ? HN1 HN2]; subst. destruct u as [l|o' ds].
    { split; [destruct cs; [congruence|discriminate]|intros H; inversion H]. }
    apply wf_children in HU as [_ HU]. destruct cs as [|c cs]; [congruence|]. rewrite se_node.
    assert (IH' : Forall (fun c => forall u, wf_tree u -> (structurally_equal c u = true <-> shuffled c u)) (c :: cs)).
    { rewrite Forall_forall in *. intros x Hx. apply IH; auto. apply HN2; auto. }
    assert (I1 : Forall (fun c => forall u, wf_tree u -> structurally_equal c u = true -> shuffled c u) (c :: cs)) by (eapply Forall_impl; [|exact IH']; intros x Hx u Hu; apply Hx; auto).
    assert (I2 : Forall (fun c => forall u, wf_tree u -> shuffled c u -> structurally_equal c u = true) (c :: cs)) by (eapply Forall_impl; [|exact IH']; intros x Hx u Hu; apply Hx; auto).
    rewrite !andb_true_iff, op_eqb_eq, Nat.eqb_eq. split.
    + intros [[-> HL] H]. destruct o'; try discriminate.
      1,4: apply sh_ordered; [now auto|apply pairwise_iff; auto].
      all: destruct (greedy (c :: cs) ds) eqn:E; [|discriminate]; destruct (greedy_sound wf_tree _ _ I1 HU HL E) as (ms & P & F);
        destruct (matchable_perm _ _ _ _ (Forall2_flip' _ _ _ F) (Permutation_sym P)) as (cs' & P2 & F2); apply Forall2_flip' in F2;
        (eapply sh_any; [now auto|exact P2|exact F2]).
    + intros H. inversion H as [|? ? ? Ho HF|? ? cs' ? Ho HP HF]; subst.
      * assert (HL := Forall2_length' _ _ _ HF). split; [auto|]. destruct Ho as [-> | ->]; apply pairwise_iff; auto.
      * assert (HL : length (c :: cs) = length ds) by (rewrite HP; eapply Forall2_length'; eauto). split; [auto|].
        destruct (matchable_perm _ _ _ _ HF (Permutation_sym HP)) as (ds' & P2 & F2).
        rewrite (greedy_complete wf_tree _ ds I2 I1 HU); [|eauto]. destruct Ho as [-> |[-> | ->]]; auto.
Qed.
(** the languages *)
Lemma select_perm {X} (l l' k : list X) : Permutation l l' -> select l k -> exists k', select l' k' /\ Permutation k k'.
Proof.
  intros P. revert k. induction P as [|x l l' P IH|x y l|l l' l'' P1 IH1 P2 IH2]; intros k H.
  - exists k. split; auto.
  - inversion H as [|? ? ? H2|? ? ? H2]; subst; destruct (IH _ H2) as (k' & A & B); [exists k'; split; [apply sel_skip|]; auto|exists (x :: k'); split; [apply sel_take|]; auto].
  - inversion H as [|? ? ? H1|? ? ? H1]; subst; inversion H1 as [|? ? ? H2|? ? ? H2]; subst.
    + exists k. split; [repeat apply sel_skip; auto|auto].
    + eexists. split; [apply sel_take, sel_skip; eauto|auto].
    + eexists. split; [apply sel_skip, sel_take; eauto|auto].
    + eexists. split; [apply sel_take, sel_take; eauto|apply perm_swap].
  - destruct (IH1 _ H) as (k1 & A & B). destruct (IH2 _ A) as (k2 & C & D). exists k2. split; auto. etransitivity; eauto.
Qed.
Lemma perm_lang_any o (cs cs' : list (tree nat)) : o = Parallel \/ o = Xor \/ o = Or -> Permutation cs cs' -> forall w, lang (Node o cs) w -> lang (Node o cs') w.
Proof.
  intros [-> |[-> | ->]] P w.
  - rewrite !lang_par. intros (ws & F & S). destruct (matchable_perm _ _ _ _ F P) as (ws' & P2 & F2). exists ws'. split; auto. eapply shuffle_perm; eauto.
  - rewrite !lang_xor. intros (c & Hc & H). exists c. split; auto. rewrite <- P. auto.
  - rewrite !lang_or. intros (k & ws & H1 & H2 & H3 & H4). destruct (select_perm _ _ _ P H1) as (k' & A & B). destruct (matchable_perm _ _ _ _ H3 B) as (ws' & P2 & F2).
    exists k', ws'. split; auto. split; [intros ->; apply Permutation_sym, Permutation_nil in B; auto|]. split; auto. eapply shuffle_perm; eauto.
Qed.
Lemma sh_lang t : forall u, shuffled t u -> same_lang t u.
Proof.
  induction t as [l|o cs IH] using tree_ind2; intros u H; inversion H as [|? ? ds Ho HF|? ? cs' ds Ho HP HF]; subst; [apply same_lang_refl| |].
  - apply same_lang_node. clear H. induction HF; constructor; inversion IH; subst; auto.
  - apply same_lang_trans with (Node o cs').
    + intros w. split; apply perm_lang_any; auto. symmetry; auto.
    + apply same_lang_node. assert (IH' : Forall (fun t => forall u, shuffled t u -> same_lang t u) cs') by (rewrite Forall_forall in *; intros x Hx; apply IH; rewrite HP; auto).
      clear -HF IH'. induction HF; constructor; inversion IH'; subst; auto.
Qed.
