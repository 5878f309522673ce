(** The cut detection of the Inductive Miner is sound and (but for concurrency) complete. *)
From Coq Require Import List Arith Bool ZArith Lia Permutation Sorting.Sorted.
Import ListNotations.
From Verif Require Import Model_Dict Model_Dfg Model_Graph Model_Lev Model_Tree Model_IM Spec_Graph Spec_IMCut.
From Verif Require Import Proofs_Dict Proofs_Dfg Proofs_Graph Proofs_Lev Proofs_IM1 Proofs_IM2 Proofs_IM3 Proofs_IM4 Proofs_IM5.
Local Open Scope nat_scope.
Local Arguments keqb {K Key} : simpl never.
Local Arguments Nat.ltb : simpl never.
Local Arguments Nat.leb : simpl never.
Local Arguments Nat.eqb : simpl never.

Lemma activity_vertex g a : activity_of g a <-> In a (get_vertices g).
Proof.
  rewrite vertices_in. unfold activity_of, edge_of, starts, ends, edges. split.
  - intros [(b & [H|H])|H]; auto; left; eauto.
  - intros [(b & [H|H])|H]; auto; left; eauto.
Qed.
Lemma is_cut_of g gs : is_cut g gs <-> cut_of g gs.
Proof.
  unfold is_cut, cut_of. split.
  - intros (P & N & L). split; [apply (Permutation_NoDup (Permutation_sym P)), vertices_nodup|]. split; [|split; auto].
    intros a. rewrite activity_vertex. split; apply Permutation_in; auto. apply Permutation_sym; auto.
  - intros (ND & C & N & L). split; [|split; auto]. apply NoDup_Permutation; auto; [apply vertices_nodup|]. intros a. rewrite C. apply activity_vertex.
Qed.
Lemma at_group_in gs i a : at_group gs i a -> In a (concat gs).
Proof. intros (c & E & H). apply in_concat. exists c. split; auto. eapply nth_error_In; eauto. Qed.
Lemma at_group_unique gs i j a : NoDup (concat gs) -> at_group gs i a -> at_group gs j a -> i = j.
Proof.
  intros ND (c & E & H) (d & E' & H'). destruct (nth_concat_nodup gs ND) as [_ U].
  apply (U i j a); [rewrite (nth_error_nth _ _ _ E)|rewrite (nth_error_nth _ _ _ E')]; auto.
Qed.
Lemma in_at_group gs a : In a (concat gs) -> exists i, at_group gs i a.
Proof. intros H. apply in_concat in H. destruct H as (c & Hc & Ha). apply In_nth_error in Hc. destruct Hc as (i & E). exists i, c. auto. Qed.
Lemma together_at gs a b : together gs a b <-> exists i, at_group gs i a /\ at_group gs i b.
Proof.
  split.
  - intros (c & Hc & Ha & Hb). apply In_nth_error in Hc. destruct Hc as (i & E). exists i. split; exists c; auto.
  - intros (i & (c & E & Ha) & (d & E' & Hb)). assert (d = c) by congruence. subst d. exists c. split; auto. eapply nth_error_In; eauto.
Qed.
Lemma together_sym gs a b : together gs a b -> together gs b a.
Proof. intros (c & H1 & H2 & H3). exists c. auto. Qed.
Lemma together_trans gs a b c : NoDup (concat gs) -> together gs a b -> together gs b c -> together gs a c.
Proof.
  intros ND H1 H2. apply together_at in H1, H2. destruct H1 as (i & A & B), H2 as (j & B' & C). rewrite (at_group_unique gs i j b ND B B') in A. apply together_at. eauto.
Qed.
Lemma together_refl gs a : In a (concat gs) -> together gs a a.
Proof. intros H. apply in_concat in H. destruct H as (c & Hc & Ha). exists c. auto. Qed.
(** ** the groups stay inside those of [hs] *)
Definition inside (hs : list (list nat)) (c : group) : Prop := forall a b, In a c -> In b c -> together hs a b.
Lemma finer_inside gs hs : finer gs hs <-> Forall (inside hs) gs.
Proof.
  rewrite Forall_forall. split.
  - intros H c Hc a b Ha Hb. apply H. exists c. auto.
  - intros H a b (c & Hc & Ha & Hb). apply (H c); auto.
Qed.
Lemma inside_union hs c d a b : NoDup (concat hs) -> inside hs c -> inside hs d -> In a c -> In b d -> together hs a b -> inside hs (sunion c d).
Proof.
  intros ND Hc Hd Ha Hb T x y Hx Hy. apply sunion_in in Hx, Hy. destruct Hx as [Hx|Hx], Hy as [Hy|Hy]; auto.
  - apply (together_trans hs x a y); auto. apply (together_trans hs a b y); auto.
  - apply together_sym. apply (together_trans hs y a x); auto. apply (together_trans hs a b x); auto.
Qed.
Lemma inside_singles hs l : (forall a, In a l -> In a (concat hs)) -> Forall (inside hs) (map (fun a => [a]) l).
Proof. intros H. apply Forall_forall. intros c Hc. apply in_map_iff in Hc. destruct Hc as (a & <- & Ha). intros x y [<-|[]] [<-|[]]. apply together_refl; auto. Qed.
(** a partition finer than a cut is a cut *)
Lemma finer_two g (gs hs : list (list nat)) : cut_of g hs -> (forall a, activity_of g a -> In a (concat gs)) -> finer gs hs -> 2 <= length gs.
Proof.
  intros (ND & C & N & L) Hc F. destruct hs as [|h1 [|h2 hs]]; [cbn in L; lia|cbn in L; lia|].
  assert (N1 : h1 <> []) by (inversion N; auto). assert (N2 : h2 <> []) by (inversion N as [|? ? _ N']; inversion N'; auto).
  destruct h1 as [|x h1]; [congruence|]. destruct h2 as [|y h2]; [congruence|].
  assert (Ax : at_group ((x :: h1) :: (y :: h2) :: hs) 0 x) by (exists (x :: h1); split; [reflexivity|left; auto]).
  assert (Ay : at_group ((x :: h1) :: (y :: h2) :: hs) 1 y) by (exists (y :: h2); split; [reflexivity|left; auto]).
  assert (Gx : In x (concat gs)) by (apply Hc, C; eapply at_group_in; eauto).
  assert (Gy : In y (concat gs)) by (apply Hc, C; eapply at_group_in; eauto).
  destruct gs as [|c [|d gs]]; [destruct Gx| |cbn; lia]. cbn in Gx, Gy. rewrite app_nil_r in Gx, Gy.
  assert (T : together [c] x y) by (exists c; split; [left|]; auto). apply F in T. apply together_at in T. destruct T as (i & A & B).
  pose proof (at_group_unique _ _ _ _ ND A Ax). pose proof (at_group_unique _ _ _ _ ND B Ay). lia.
Qed.

Section Cuts.
  Variable ord : list nat -> list nat.
  Hypothesis ord_perm : forall l, Permutation (ord l) l.
  Variable g : dfg.
  Let E := edges g.

  (** ** exclusive choice *)
  Lemma xor_sound gs : xor_holds ord g = Some gs -> choice_cut g gs.
  Proof.
    intros H. destruct (xor_cut ord ord_perm g gs H) as [C Cl]. apply is_cut_of in C. split; auto. intros i j a b Nij Ha Hb He. apply Nij.
    destruct Ha as (c & Ec & Ha). pose proof (Cl c a b (nth_error_In _ _ Ec) Ha (or_introl He)) as Hb'.
    apply (at_group_unique gs i j b); auto; [apply C|]. exists c. auto.
  Qed.
  Lemma choice_path hs a b : choice_cut g hs -> In a (concat hs) -> path (undirected E) a b -> together hs a b.
  Proof.
    intros [(ND & C & _) Ed] Ha P. induction P as [a|a b c H P IH]; [apply together_refl; auto|].
    assert (Eab : together hs a b).
    { apply und_in in H. assert (Ab : In b (concat hs)). { apply C. left. exists a. destruct H; [right|left]; auto. }
      apply in_at_group in Ha, Ab. destruct Ha as (i & Ha), Ab as (j & Hb). destruct (Nat.eq_dec i j) as [->|N]; [apply together_at; eauto|]. exfalso.
      destruct H as [H|H]; [apply (Ed i j a b)|apply (Ed j i b a)]; auto. }
    apply (together_trans hs a b c); auto. apply IH. destruct Eab as (d & Hd & _ & Hb). apply in_concat. eauto.
  Qed.
  Lemma xor_complete hs : choice_cut g hs -> exists gs, xor_holds ord g = Some gs /\ finer gs hs.
  Proof.
    intros H. unfold xor_holds. set (cs := connected_components (edges g) (ord (get_vertices g))).
    assert (F : finer cs hs).
    { apply finer_inside, Forall_forall. intros c Hc. destruct (components_spec (edges g) (ord (get_vertices g)) [] ltac:(intros x y [])) as (_ & _ & _ & H4). destruct (H4 c Hc) as (v & Hv & ->).
      assert (Hv' : In v (concat hs)). { destruct H as [(_ & C & _) _]. apply C, activity_vertex. apply (ord_in ord ord_perm). auto. }
      intros a b Ha Hb. apply component_in in Ha, Hb. apply (together_trans hs a v b); [apply H| |apply choice_path; auto]. apply together_sym, choice_path; auto. }
    assert (L : 2 <= length cs).
    { apply (finer_two g cs hs); [apply H| |auto]. intros a Ha. destruct (components_partition (edges g) (ord (get_vertices g))) as (_ & H2 & _).
      - intros x y Hxy. rewrite !(ord_in ord ord_perm). apply edge_vertices; auto.
      - apply H2, (ord_in ord ord_perm), activity_vertex; auto. }
    apply Nat.leb_le in L. fold cs. rewrite L. eauto.
  Qed.

  (** ** sequence *)
  Lemma sorted_at (R : list nat -> list nat -> Prop) (gs : list (list nat)) i j a b : StronglySorted R gs -> i < j -> at_group gs i a -> at_group gs j b -> exists c d, In a c /\ In b d /\ R c d.
  Proof.
    intros S L (c & Ec & Ha) (d & Ed & Hb). exists c, d. split; auto. split; auto.
    assert (Lj : j < length gs) by (apply nth_error_Some; rewrite Ed; discriminate).
    pose proof (proj2 (sorted_nth R [] gs) S i j L Lj) as Q. rewrite (nth_error_nth _ _ _ Ec), (nth_error_nth _ _ _ Ed) in Q. auto.
  Qed.
  Lemma seq_sound gs : seq_holds ord g = Some gs -> sequence_cut g gs.
  Proof.
    intros H. destruct (seq_cut ord ord_perm g gs H) as [C S]. apply is_cut_of in C. split; auto. intros i j a b L Ha Hb.
    destruct (sorted_at _ gs i j a b S L Ha Hb) as (c & d & Hc & Hd & B). apply (B a b Hc Hd).
  Qed.
  Lemma seq_related hs a b : sequence_cut g hs -> In a (concat hs) -> In b (concat hs) -> related E a b = true -> together hs a b.
  Proof.
    intros [_ S] Ha Hb R. apply in_at_group in Ha, Hb. destruct Ha as (i & Ha), Hb as (j & Hb).
    assert (W : forall i j a b, i < j -> at_group hs i a -> at_group hs j b -> related E a b = false).
    { clear - S. intros i j a b L Ha Hb. destruct (S i j a b L Ha Hb) as [P N].
      assert (S1 : succ E a b = true). { apply succ_spec. split; auto. intros ->. apply N. constructor. }
      assert (S2 : succ E b a = false). { apply succ_false. intros [_ Q]. auto. }
      unfold related. rewrite S1, S2. reflexivity. }
    destruct (lt_eq_lt_dec i j) as [[L|Q]|L]; [|subst; apply together_at; eauto|].
    - rewrite (W i j a b L Ha Hb) in R. discriminate.
    - rewrite related_sym, (W j i b a L Hb Ha) in R. discriminate.
  Qed.
  Lemma absorb_inside hs rest : sequence_cut g hs -> forall c, inside hs c -> Forall (inside hs) rest ->
    Forall (inside hs) (fst (absorb E c rest) :: snd (absorb E c rest)).
  Proof.
    intros H. induction rest as [|d rest IH]; intros c Hc Hr; cbn [absorb]; [constructor; auto|]. inversion Hr as [|? ? Hd Hr']; subst.
    destruct (check_merge E c d) eqn:M.
    - apply IH; auto. apply check_merge_spec in M. destruct M as (a & b & Ha & Hb & R). apply (inside_union hs c d a b); auto; [apply H|]. apply seq_related; auto.
      + destruct (Hc a a Ha Ha) as (k & Hk & Hak & _). apply in_concat. eauto.
      + destruct (Hd b b Hb Hb) as (k & Hk & Hak & _). apply in_concat. eauto.
    - specialize (IH c Hc Hr'). destruct (absorb E c rest) as [c' r']. cbn [fst snd] in *. inversion IH; subst. constructor; auto.
  Qed.
  Lemma merge_pass_inside hs n : sequence_cut g hs -> forall gs, Forall (inside hs) gs -> Forall (inside hs) (merge_pass E n gs).
  Proof.
    intros H. induction n as [|n IH]; intros gs Hg; [constructor|]. destruct gs as [|c rest]; [constructor|]. inversion Hg as [|? ? Hc Hr]; subst. cbn [merge_pass].
    pose proof (absorb_inside hs rest H c Hc Hr) as A. destruct (absorb E c rest) as [c' r']. cbn [fst snd] in A. inversion A; subst. constructor; auto.
  Qed.
  Lemma merge_loop_inside hs n : sequence_cut g hs -> forall gs, Forall (inside hs) gs -> Forall (inside hs) (merge_loop E n gs).
  Proof.
    intros H. induction n as [|n IH]; intros gs Hg; auto. cbn [merge_loop]. pose proof (merge_pass_inside hs (length gs) H gs Hg) as M. fold (merge_groups E gs) in M.
    destruct (Nat.eqb _ _); auto.
  Qed.
  Lemma seq_complete hs : sequence_cut g hs -> exists gs, seq_holds ord g = Some gs /\ finer gs hs.
  Proof.
    intros H. unfold seq_holds. set (l := ord (get_vertices g)).
    assert (Nl : NoDup l) by (apply (ord_nodup ord ord_perm); apply vertices_nodup).
    assert (Cl : forall a, In a l -> In a (concat hs)). { intros a Ha. destruct H as [(_ & C & _) _]. apply C, activity_vertex, (ord_in ord ord_perm). auto. }
    assert (Ne : l <> []).
    { destruct H as [(_ & C & N & L) _]. destruct hs as [|[|x h] hs]; [cbn in L; lia|inversion N; congruence|]. intros E0.
      assert (In x l) by (apply (ord_in ord ord_perm), activity_vertex, C; left; auto). rewrite E0 in *. auto. }
    destruct (map (fun a => [a]) l) as [|x r] eqn:El; [destruct l; [congruence|discriminate]|]. rewrite <- El. clear x r El.
    destruct (merge_loop_spec (edges g) (S (length (map (fun a => [a]) l))) (map (fun a => [a]) l) (Nat.lt_succ_diag_r _) (singles_good _ l Nl)) as (H1 & H2 & H3).
    pose proof (merge_loop_inside hs (S (length (map (fun a => [a]) l))) H (map (fun a => [a]) l) (inside_singles hs l Cl)) as I. fold E in H1, H2, H3. fold E.
    rewrite concat_singles in H2. set (m := merge_loop _ _ _) in *.
    pose proof (sorted_by_perm (seq_key ord E (length l)) m) as P. set (r := sorted_by _ m) in *.
    assert (F : finer r hs). { apply finer_inside, Forall_forall. intros c Hc. apply (proj1 (Forall_forall _ _) I). apply (Permutation_in c (Permutation_sym P)). auto. }
    assert (L : 2 <= length r).
    { apply (finer_two g r hs); [apply H| |auto]. intros a Ha. apply activity_vertex, (ord_in ord ord_perm) in Ha. fold l in Ha. apply (Permutation_in a (Permutation_sym H2)) in Ha.
      apply (Permutation_in a (concat_perm _ _ P)). auto. }
    apply Nat.leb_le in L. rewrite L. eauto.
  Qed.
  (** the strict variant *)
  Lemma strict_sound gs : strict_holds ord g = Some gs -> sequence_cut g gs /\ exists cs, seq_holds ord g = Some cs /\ finer cs gs.
  Proof.
    intros H. destruct (strict_cut ord ord_perm g gs H) as [C _]. apply is_cut_of in C.
    unfold strict_holds in H. destruct (seq_holds ord g) as [c0|] eqn:Hs; [|discriminate]. injection H as <-.
    destruct (seq_cut ord ord_perm g c0 Hs) as [cut chain]. destruct (strict_inv g c0 cut (length c0) (Nat.le_refl _)) as (pos & [R1 R2 R3] & I).
    set (c := fold_left _ _ c0) in *. split.
    - split; auto. intros i j a b L Ha Hb.
      assert (S : StronglySorted (before (edges g)) (filter nonempty c)).
      { apply sorted_filter. apply (sorted_nth _ []). intros s t Hst Ht x y Hx Hy. apply R3 in Hx, Hy. destruct Hx as (u & Hu & Hx & <- & _), Hy as (v & Hv & Hy & <- & _).
        assert (u < v). { destruct (le_lt_dec v u) as [Q|Q]; auto. pose proof (i_mono _ _ _ _ _ I v u Q Hu). lia. }
        apply (proj2 (sorted_nth (before (edges g)) [] c0) chain u v); auto. }
      destruct (sorted_at _ _ i j a b S L Ha Hb) as (k & d & Hk & Hd & B). apply (B a b Hk Hd).
    - exists c0. split; auto. intros a b (k & Hk & Ha & Hb). apply (In_nth _ _ []) in Hk. destruct Hk as (x & Hx & <-).
      assert (Px : pos x < length c0) by (eapply i_n; eauto).
      assert (Aa : In a (nth (pos x) c [])) by (apply R3; exists x; auto). assert (Ab : In b (nth (pos x) c [])) by (apply R3; exists x; auto).
      exists (nth (pos x) c []). split; auto. apply filter_In. split; [apply nth_In; lia|]. destruct (nth (pos x) c []); [destruct Aa|reflexivity].
  Qed.
  Lemma strict_complete hs : sequence_cut g hs -> exists gs, strict_holds ord g = Some gs.
  Proof. intros H. destruct (seq_complete hs H) as (gs & E0 & _). unfold strict_holds. rewrite E0. eauto. Qed.
End Cuts.
