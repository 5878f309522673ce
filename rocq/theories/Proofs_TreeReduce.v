(** Reduction of a tree by a trace. *)
From Coq Require Import List Arith Bool Lia Permutation.
Import ListNotations.
From Verif Require Import Model_Tree Spec_Tree Proofs_Shuffle Model_TreeFP Spec_TreeFP Proofs_TreeFP Model_Bottomup Proofs_Bottomup Model_TreeUtil Proofs_TreeUtil Proofs_Fold.

Definition fp_good (t : tree nat) (f : footprint) : Prop := (f_skip f = true -> lang t []) /\ (forall w a, lang t w -> In a w -> In a (f_acts f)).
Lemma all_some_forall2 cs : forall fs, all_some (map footprints cs) = Some fs -> Forall2 (fun c f => footprints c = Some f) cs fs.
Proof.
  induction cs as [|c cs IH]; intros fs H; cbn in H; [injection H as <-; constructor|]. destruct (footprints c) eqn:E; [|discriminate].
  destruct (all_some (map footprints cs)); [|discriminate]. injection H as <-. constructor; auto.
Qed.
Lemma shuffle_in {X} (ws : list (list X)) u a : shuffle ws u -> In a u -> exists w, In w ws /\ In a w.
Proof.
  induction 1 as [|l1 b w l2 u H IH]; intros Ha; [easy|]. destruct Ha as [<- |Ha].
  - exists (b :: w). split; [apply in_app_iff; right; left; auto|left; auto].
  - destruct (IH Ha) as (v & Hv & Hav). apply in_app_iff in Hv as [Hv|[<- |Hv]]; [exists v|exists (b :: w)|exists v]; (split; [apply in_app_iff; cbn; auto|cbn; auto]).
Qed.
Lemma words_acts cs fs ws : Forall2 fp_good cs fs -> Forall2 lang cs ws -> forall w a, In w ws -> In a w -> In a (flat_map f_acts fs).
Proof.
  intros F. revert ws. induction F as [|c f cs fs G F IH]; intros ws HL w a Hw Ha; inversion HL; subst; [easy|]. cbn. apply in_app_iff. destruct Hw as [<- |Hw]; [left; eapply G; eauto|right; eauto].
Qed.
Lemma select_words cs fs cs' : Forall2 fp_good cs fs -> select cs cs' -> exists fs', Forall2 fp_good cs' fs' /\ forall a, In a (flat_map f_acts fs') -> In a (flat_map f_acts fs).
Proof.
  intros F S. revert fs F. induction S; intros fs F; inversion F; subst.
  - exists []. split; auto.
  - destruct (IHS _ H3) as (fs' & A & B). exists fs'. split; auto. intros a Ha. cbn. apply in_app_iff. auto.
  - destruct (IHS _ H3) as (fs' & A & B). exists (y :: fs'). split; auto. intros a. cbn. rewrite !in_app_iff. intros [?|?]; auto.
Qed.
Lemma all_empty (cs : list (tree nat)) fs : Forall2 fp_good cs fs -> forallb f_skip fs = true -> exists ws, Forall2 lang cs ws /\ forall w, In w ws -> w = [].
Proof.
  induction 1 as [|c f cs fs G F IH]; intros H; [exists []; split; [constructor|easy]|]. cbn in H. apply andb_true_iff in H as [H1 H2]. destruct (IH H2) as (ws & A & B).
  exists ([] :: ws). split; [constructor; auto; apply G; auto|]. intros w [<- |Hw]; auto.
Qed.
Lemma concat_empty {X} (ws : list (list X)) : (forall w, In w ws -> w = []) -> concat ws = [].
Proof. induction ws as [|w ws IH]; intros H; cbn; auto. rewrite (H w) by (left; auto). rewrite IH; auto. intros v Hv. apply H. right; auto. Qed.
Lemma select_all {X} (l : list X) : select l l.
Proof. induction l; [constructor|apply sel_take; auto]. Qed.
Lemma fp_good_all t : wf_tree t -> forall f, footprints t = Some f -> fp_good t f.
Proof.
  induction t as [l|o cs IH] using tree_ind2; intros HW f H.
  - cbn in H. injection H as <-. destruct l as [x|]; split; cbn; try discriminate; [|intros _; constructor|]; intros w a Hl Ha; inversion Hl; subst; auto.
  - apply wf_children in HW as [HW1 HW2]. destruct cs as [|c cs]; [congruence|]. rewrite footprints_node in H. destruct (all_some (map footprints (c :: cs))) as [fs|] eqn:E; [|discriminate].
    apply all_some_forall2 in E. assert (G : Forall2 fp_good (c :: cs) fs).
    { clear -IH HW2 E. revert IH HW2. induction E; intros A B; constructor; inversion A; inversion B; subst; auto. }
    destruct o.
    + injection H as <-. split.
      * cbn [f_skip fp_sequence finish]. intros S. destruct (all_empty _ _ G S) as (ws & A & B). apply lang_seq. exists ws. split; auto. rewrite concat_empty; auto.
      * intros w a Hl Ha. apply lang_seq in Hl as (ws & A & ->). apply in_concat in Ha as (v & Hv & Ha). cbn [f_acts fp_sequence finish]. eapply words_acts; eauto.
    + injection H as <-. split.
      * cbn [f_skip fp_xor finish]. intros S. apply existsb_exists in S as (f & Hf & S). apply lang_xor.
        clear -G Hf S. induction G; [easy|]. destruct Hf as [<- |Hf]; [exists x; split; [left; auto|apply H; auto]|destruct (IHG Hf) as (z & A & B); exists z; split; [right|]; auto].
      * intros w a Hl Ha. apply lang_xor in Hl as (x & Hx & Hl). cbn [f_acts fp_xor finish]. clear -G Hx Hl Ha.
        induction G; [easy|]. cbn. apply in_app_iff. destruct Hx as [<- |Hx]; [left; eapply H; eauto|auto].
    + injection H as <-. split.
      * cbn [f_skip fp_parallel finish]. intros S. destruct (all_empty _ _ G S) as (ws & A & B). apply lang_par. exists ws. split; auto. constructor; auto.
      * intros w a Hl Ha. apply lang_par in Hl as (ws & A & S). destruct (shuffle_in _ _ _ S Ha) as (v & Hv & Hav). cbn [f_acts fp_parallel finish]. eapply words_acts; eauto.
    + destruct fs as [|d [|r rs]]; try discriminate. injection H as <-. inversion G as [|? ? ? ? G1 G2]; subst. split.
      * cbn [f_skip finish]. intros S. apply L_loop_exit. apply G1; auto.
      * cbn [f_acts finish]. intros w a Hl. apply lang_loop in Hl. revert a. induction Hl as [w Hd|w v w' Hd (x & Hx & Hv) _ IHl]; intros a Ha.
        -- cbn. apply in_app_iff. left. eapply G1; eauto.
        -- apply in_app_iff in Ha as [Ha|Ha]; [cbn; apply in_app_iff; left; eapply G1; eauto|]. apply in_app_iff in Ha as [Ha|Ha]; [|auto].
           cbn [flat_map]. apply in_app_iff. right. clear -G2 Hx Hv Ha. change (f_acts r ++ flat_map f_acts rs) with (flat_map f_acts (r :: rs)). revert G2. generalize (r :: rs) as l. intros l G2.
           induction G2; [easy|]. cbn. apply in_app_iff. destruct Hx as [<- |Hx]; [left; eapply H; eauto|auto].
    + injection H as <-. split.
      * cbn [f_skip fp_parallel finish]. intros S. destruct (all_empty _ _ G S) as (ws & A & B). apply lang_or. exists (c :: cs), ws. split; [apply select_all|]. split; [discriminate|]. split; auto. constructor; auto.
      * intros w a Hl Ha. apply lang_or in Hl as (cs' & ws & S1 & _ & A & S). destruct (shuffle_in _ _ _ S Ha) as (v & Hv & Hav). cbn [f_acts fp_parallel finish].
        destruct (select_words _ _ _ G S1) as (fs' & G' & Sub). apply Sub. eapply words_acts; eauto.
    + discriminate.
Qed.

(** ** reduction *)
Section Red.
  Variable acts : list nat.
  Definition over (w : list nat) : Prop := forall a, In a w -> In a acts.
  (** [c'] allows no more than [c], and the same over the activities of the trace *)
  Definition below (c c' : tree nat) : Prop := (forall w, lang c' w -> lang c w) /\ (forall w, over w -> lang c w -> lang c' w).
  Lemma below_refl c : below c c. Proof. split; auto. Qed.
  Lemma F2_on cs cs' ws : Forall2 below cs cs' -> (forall w, In w ws -> over w) -> Forall2 lang cs ws -> Forall2 lang cs' ws.
  Proof. intros F. revert ws. induction F; intros ws Ho HL; inversion HL; subst; constructor; [apply H; auto; apply Ho; left; auto|apply IHF; auto; intros; apply Ho; right; auto]. Qed.
  Lemma sh_over ws u : shuffle ws u -> over u -> forall w, In w ws -> over w.
  Proof.
    induction 1 as [ws H|l1 b w l2 u H IH]; intros Ho v Hv; [rewrite (H v Hv); intros a []|].
    assert (Hu : over u) by (intros a Ha; apply Ho; right; auto).
    apply in_app_iff in Hv as [Hv|[<- |Hv]]; [apply IH; auto; apply in_app_iff; auto| |apply IH; auto; apply in_app_iff; right; right; auto].
    intros a [<- |Ha]; [apply Ho; left; auto|]. apply (IH Hu w); auto. apply in_app_iff. right; left; auto.
  Qed.
  Lemma below_node o cs cs' : Forall2 below cs cs' -> below (Node o cs) (Node o cs').
  Proof.
    intros F. split.
    - intros w. apply lang_mono. apply Forall2_flip' in F. induction F; constructor; auto. apply H.
    - intros w Ho. destruct o.
      + rewrite !lang_seq. intros (ws & A & ->). exists ws. split; auto. apply F2_on with cs; auto. intros v Hv a Ha. apply Ho. apply in_concat. eauto.
      + rewrite !lang_xor. intros (c & Hc & Hl). clear -F Hc Hl Ho. induction F; [easy|]. destruct Hc as [<- |Hc]; [exists y; split; [left; auto|apply H; auto]|destruct (IHF Hc) as (z & A & B); exists z; split; [right|]; auto].
      + rewrite !lang_par. intros (ws & A & S). exists ws. split; auto. apply F2_on with cs; auto. eapply sh_over; eauto.
      + inversion F as [|d d' rs rs' D R]; subst; auto. rewrite !lang_loop. intros I. induction I as [w Hd|w v w' Hd (x & Hx & Hv) _ IH].
        * constructor. apply D; auto.
        * apply it_redo; [apply D; auto; intros a Ha; apply Ho, in_app_iff; auto| |apply IH; intros a Ha; apply Ho; rewrite !in_app_iff; auto].
          assert (Ov : over v) by (intros a Ha; apply Ho; rewrite !in_app_iff; auto). clear -R Hx Hv Ov. induction R; [easy|].
          destruct Hx as [<- |Hx]; [exists y; split; [left; auto|apply H; auto]|destruct (IHR Hx) as (z & A & B); exists z; split; [right|]; auto].
      + rewrite !lang_or. intros (k & ws & S1 & N & A & S). destruct (select_impl below _ _ _ F S1) as (k' & S2 & F2). exists k', ws. split; auto.
        split; [intros ->; inversion F2; subst; auto|]. split; auto. apply F2_on with k; auto. eapply sh_over; eauto.
      + rewrite !lang_int. intros (k & ws & P & A & ->). destruct (perm_impl below _ _ _ F P) as (k' & P2 & F2). exists k', ws. split; auto. split; auto. apply F2_on with k; auto.
        intros v Hv a Ha. apply Ho. apply in_concat. eauto.
  Qed.
  Lemma superfluous_below c : wf_tree c -> superfluous acts c = true -> below c (Leaf None).
  Proof.
    intros HW H. unfold superfluous in H. destruct (footprints c) as [f|] eqn:E; [|discriminate]. apply andb_true_iff in H as [H1 H2].
    destruct (fp_good_all c HW f E) as [G1 G2]. rewrite forallb_forall in H2. split; intros w Hw.
    - inversion Hw; subst. auto.
    - intros Hl. destruct w as [|a w]; [constructor|]. exfalso. assert (Ha : In a (f_acts f)) by (apply (G2 (a :: w)); [auto|left; auto]).
      specialize (H2 a Ha). apply negb_true_iff in H2. assert (mem_nat a acts = true); [|congruence]. apply existsb_exists. exists a. split; [apply Hw; left; auto|apply Nat.eqb_refl].
  Qed.
  Variable pick : list nat -> bool.
  Definition red_children := fun (here : list nat) => fix go (k : nat) (cs : list (tree nat)) : list (tree nat) := match cs with
             | [] => []
             | c :: r => (if superfluous acts c && pick (here ++ [k]) then Leaf None else reduce_below pick acts (here ++ [k]) c) :: go (S k) r
             end.
  Lemma reduce_below_spec t : wf_tree t -> forall here, below t (reduce_below pick acts here t) /\ wf_tree (reduce_below pick acts here t).
  Proof.
    induction t as [l|o cs IH] using tree_ind2; intros HW here; [split; [apply below_refl|exact HW]|].
    change (reduce_below pick acts here (Node o cs)) with (Node o (red_children here 0 cs)).
    assert (G : forall k, Forall2 below cs (red_children here k cs) /\ Forall wf_tree (red_children here k cs) /\ length (red_children here k cs) = length cs).
    { apply wf_children in HW as [_ HW]. induction cs as [|c cs IHc]; intros k; [repeat split; constructor|]. inversion IH as [|? ? I1 I2]; inversion HW as [|? ? W1 W2]; subst.
      destruct (IHc I2 W2 (S k)) as (A & B & C). cbn [red_children]. fold (red_children here (S k) cs). destruct (superfluous acts c && pick (here ++ [k])) eqn:E.
      - apply andb_true_iff in E as [E _]. repeat split; [constructor; auto; apply superfluous_below; auto|constructor; auto; constructor; exact I|cbn; lia].
      - destruct (I1 W1 (here ++ [k])) as [D1 D2]. repeat split; [constructor; auto|constructor; auto|cbn; lia]. }
    destruct (G 0) as (A & B & C). split; [apply below_node; auto|]. constructor; auto. inversion HW as [|? ? S _]; subst. destruct o; cbn in *; try (intros E; rewrite E in C; cbn in C; destruct cs; [congruence|discriminate]). lia.
  Qed.
End Red.

(** the last node of the bottom-up order is the root *)
Lemma last_is_root t r : (forall c, In c r -> pos t c) -> ordered r -> In t (map node_of r) -> NoDup (map node_of r) -> node_of (last r []) = t.
Proof.
  intros Hp Ho Hi Hn. apply in_map_iff in Hi as (c & Ec & Hc). apply in_split in Hc as (a & b & ->).
  assert (D : forall n up, pos t (n :: up) -> n <> t -> In n (map node_of a)).
  { assert (Q : forall x, pos t x -> node_of x = t \/ In (node_of x) (map node_of a)).
    { induction 1 as [|x y H IH Hy]; [left; auto|]. right. cbn. destruct IH as [IH|IH].
      - rewrite IH in Hy. apply (Ho a c b eq_refl). rewrite Ec. auto.
      - apply in_map_iff in IH as (d & Ed & Hd). apply in_split in Hd as (a1 & a2 & ->). specialize (Ho a1 d (a2 ++ c :: b)). rewrite <- app_assoc in Ho. specialize (Ho eq_refl y).
        rewrite map_app. apply in_app_iff. left. apply Ho. rewrite Ed. auto. }
    intros n up H N. destruct (Q _ H) as [E|E]; cbn in *; congruence. }
  destruct b as [|z b]; [rewrite last_last; auto|].
  exfalso. assert (Hz : pos t z) by (apply Hp, in_app_iff; right; right; left; auto). rewrite map_app in Hn. cbn in Hn.
  assert (Nz : node_of z <> t). { intros E. apply NoDup_remove_1 in Hn as H0. apply NoDup_remove_2 in Hn. apply Hn. rewrite Ec, in_app_iff. right; left; auto. }
  destruct z as [|n up]; [inversion Hz|]. apply (D n up) in Nz; auto. cbn in Hn. apply NoDup_remove_1 in Hn. apply NoDup_remove_2 in Hn. apply Hn, in_app_iff. auto.
Qed.
