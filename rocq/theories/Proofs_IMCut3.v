(** The cut detection of the Inductive Miner: loops. *)
From Coq Require Import List Arith Bool ZArith Lia Permutation Sorting.Sorted.
Import ListNotations.
From Verif Require Import Model_Dict Model_Dfg Model_Graph Model_Lev Model_Tree Model_IM Spec_Graph Spec_IMCut.
From Verif Require Import Proofs_Dict Proofs_Dfg Proofs_Graph Proofs_Lev Proofs_IM1 Proofs_IM2 Proofs_IM3 Proofs_IM4 Proofs_IM5 Proofs_IMCut.
Local Open Scope nat_scope.
Local Arguments keqb {K Key} : simpl never.
Local Arguments Nat.ltb : simpl never.
Local Arguments Nat.leb : simpl never.
Local Arguments Nat.eqb : simpl never.

Lemma fold_flat {X Y Z} (F : Z -> Y -> Z) (h : X -> list Y) (l : list X) : forall z, fold_left (fun z x => fold_left F (h x) z) l z = fold_left F (flat_map h l) z.
Proof. induction l as [|x l IH]; intros z; cbn; auto. rewrite fold_left_app. apply IH. Qed.
Lemma complete_good bad redo : forall do, exists do' redo', complete bad do redo = do' :: redo' /\ (forall c, In c redo' -> bad c = false).
Proof.
  induction redo as [|x r IH]; intros do; cbn [complete].
  - exists do, []. split; auto. intros c [].
  - destruct (bad x) eqn:B; [apply IH|]. destruct (IH do) as (do' & redo' & E & H). rewrite E. exists do', (x :: redo'). split; auto. intros c [<-|Hc]; auto.
Qed.

Lemma nonnil {X} (l : list X) : l <> [] -> exists x, In x l.
Proof. destruct l as [|x l]; [congruence|]. exists x. left; auto. Qed.
Section Loop.
  Variable ord : list nat -> list nat.
  Hypothesis ord_perm : forall l, Permutation (ord l) l.
  Variable g : dfg.
  Let s := d_keys (start_acts g).
  Let e := d_keys (end_acts g).
  Hypothesis nd_s : NoDup s.
  Let E := edges g.
  Let inv := loop_inv ord g.

  Lemma inv_nodup gs : inv gs -> NoDup (concat gs).
  Proof. intros (do & redo & -> & P & _). apply (Permutation_NoDup (Permutation_sym P)), vertices_nodup. Qed.
  Lemma merge_front_hd gs a b : inv gs -> In a (concat gs) -> In b (concat gs) -> In a s \/ In b e ->
    incl (hd [] gs) (hd [] (merge_front gs (a, b))) /\ In a (hd [] (merge_front gs (a, b))) /\ In b (hd [] (merge_front gs (a, b))).
  Proof.
    intros I Ha Hb Hab. pose proof (inv_nodup gs I) as ND. destruct I as (do & redo & -> & P & Nr & Is & Ie & Ir).
    apply in_concat in Ha, Hb. destruct Ha as (ga & Hga & Ha), Hb as (gb & Hgb & Hb).
    unfold merge_front. cbn [fst snd hd]. rewrite (group_of_spec _ a ga ND Hga Ha), (group_of_spec _ b gb ND Hgb Hb). rewrite !sunion_in. split; [|auto].
    assert (Hd : ga = do \/ gb = do).
    { destruct Hab as [H|H]; [left; rewrite <- (group_of_spec _ a ga ND Hga Ha)|right; rewrite <- (group_of_spec _ b gb ND Hgb Hb)]; apply group_of_spec; auto; try (left; reflexivity). }
    intros x Hx. apply sunion_in. destruct Hd as [->| ->]; auto.
  Qed.
  Definition ok_edge (ab : edge) : Prop := In ab E /\ (In (fst ab) s \/ In (snd ab) e).
  Lemma merges_inv es : forall gs, inv gs -> (forall ab, In ab es -> ok_edge ab) ->
    inv (fold_left merge_front es gs) /\ incl (hd [] gs) (hd [] (fold_left merge_front es gs)) /\
    forall a b, In (a, b) es -> In a (hd [] (fold_left merge_front es gs)) /\ In b (hd [] (fold_left merge_front es gs)).
  Proof.
    induction es as [|[a b] es IH]; intros gs I H; cbn [fold_left]; [split; auto; split; [apply incl_refl|intros ? ? []]|].
    destruct (H (a, b) ltac:(left; auto)) as [He Hab]. cbn [fst snd] in Hab. pose proof (edge_vertices _ _ _ He) as [Va Vb].
    assert (Ca : In a (concat gs)) by (apply (inv_cover ord g); auto). assert (Cb : In b (concat gs)) by (apply (inv_cover ord g); auto).
    pose proof (merge_front_inv ord g gs a b I Ca Cb Hab) as I'. destruct (merge_front_hd gs a b I Ca Cb Hab) as (M1 & M2 & M3).
    destruct (IH _ I' ltac:(intros; apply H; right; auto)) as (J1 & J2 & J3). split; auto. split; [intros x Hx; apply J2, M1, Hx|].
    intros x y [[= <- <-]|Hx]; auto.
  Qed.
  Definition start_edges := flat_map (fun a => filter (fun xb : edge => Nat.eqb (fst xb) a) E) (ord (sdiff s e)).
  Definition end_edges := flat_map (fun b => filter (fun ax : edge => Nat.eqb (snd ax) b) E) (ord (sdiff e s)).
  Lemma start_edges_in a b : In (a, b) start_edges <-> In (a, b) E /\ In a s /\ ~ In a e.
  Proof.
    unfold start_edges. rewrite in_flat_map. split.
    - intros (x & Hx & H). apply filter_In in H. destruct H as [H Q]. apply Nat.eqb_eq in Q. cbn in Q. subst x. apply (ord_in ord ord_perm), sdiff_in in Hx. tauto.
    - intros (H & Hs & He). exists a. split; [apply (ord_in ord ord_perm), sdiff_in; auto|]. apply filter_In. split; auto. apply Nat.eqb_refl.
  Qed.
  Lemma end_edges_in a b : In (a, b) end_edges <-> In (a, b) E /\ In b e /\ ~ In b s.
  Proof.
    unfold end_edges. rewrite in_flat_map. split.
    - intros (x & Hx & H). apply filter_In in H. destruct H as [H Q]. apply Nat.eqb_eq in Q. cbn in Q. subst x. apply (ord_in ord ord_perm), sdiff_in in Hx. tauto.
    - intros (H & Hs & He). exists b. split; [apply (ord_in ord ord_perm), sdiff_in; auto|]. apply filter_In. split; auto. apply Nat.eqb_refl.
  Qed.
  Lemma excl_start_eq gs : excl_start ord g s e gs = fold_left merge_front start_edges gs.
  Proof. unfold excl_start, start_edges. apply fold_flat. Qed.
  Lemma excl_end_eq gs : excl_end ord g s e gs = fold_left merge_front end_edges gs.
  Proof. unfold excl_end, end_edges. apply fold_flat. Qed.

  Definition G1 := fold_left merge_front end_edges (fold_left merge_front start_edges (sunion s e :: loop_components ord g s e)).
  Definition G2 := check_complete (end_incomplete g e) (check_complete (start_incomplete g s) G1).
  Lemma loop_holds_eq : loop_holds ord g = if is_nil E then None else if 2 <=? length (filter nonempty G2) then Some (filter nonempty G2) else None.
  Proof. unfold loop_holds. fold s e E. rewrite excl_start_eq, excl_end_eq. reflexivity. Qed.
  Lemma G1_inv : inv G1 /\ (forall a b, In (a, b) E -> In a s -> ~ In a e -> In b (hd [] G1)) /\ (forall a b, In (a, b) E -> In b e -> ~ In b s -> In a (hd [] G1)).
  Proof.
    destruct (merges_inv start_edges (sunion s e :: loop_components ord g s e)) as (A1 & A2 & A3).
    { apply loop_init; auto. } { intros [a b] H. apply start_edges_in in H. split; cbn; tauto. }
    destruct (merges_inv end_edges _ A1) as (B1 & B2 & B3). { intros [a b] H. apply end_edges_in in H. split; cbn; tauto. }
    fold G1 in B1, B2, B3. split; auto. split.
    - intros a b H1 H2 H3. apply B2. apply (A3 a b). apply start_edges_in. auto.
    - intros a b H1 H2 H3. apply (B3 a b). apply end_edges_in. auto.
  Qed.
  Lemma check_complete_more bad gs : inv gs -> incl (hd [] gs) (hd [] (check_complete bad gs)) /\ (forall c, In c (tl (check_complete bad gs)) -> In c (tl gs) /\ bad c = false).
  Proof.
    intros (do & redo & -> & P & Nr & Is & Ie & Ir). cbn [check_complete].
    destruct (complete_spec bad redo do) as (do' & redo' & H1 & H2 & H3 & H4 & H5); auto; [apply (Permutation_NoDup (Permutation_sym P)), vertices_nodup|].
    destruct (complete_good bad redo do) as (do2 & redo2 & H6 & H7). rewrite H1 in *. assert (do2 = do' /\ redo2 = redo') as [-> ->] by (split; congruence). cbn. split; auto.
  Qed.
  Lemma G2_spec : inv G2 /\ (forall a b, In (a, b) E -> In a s -> ~ In a e -> In b (hd [] G2)) /\ (forall a b, In (a, b) E -> In b e -> ~ In b s -> In a (hd [] G2)) /\
    (forall c, In c (tl G2) -> start_incomplete g s c = false /\ end_incomplete g e c = false).
  Proof.
    destruct G1_inv as (I1 & A1 & A2). pose proof (check_complete_inv ord g (start_incomplete g s) G1 I1) as I2. pose proof (check_complete_inv ord g (end_incomplete g e) _ I2) as I3. fold G2 in I3.
    destruct (check_complete_more (start_incomplete g s) G1 I1) as (B1 & B2). destruct (check_complete_more (end_incomplete g e) _ I2) as (C1 & C2). fold G2 in C1, C2.
    split; auto. split; [intros a b H1 H2 H3; apply C1, B1, (A1 a b); auto|]. split; [intros a b H1 H2 H3; apply C1, B1, (A2 a b); auto|].
    intros c Hc. destruct (C2 c Hc) as [Hc' ->]. destruct (B2 c Hc') as [_ ->]. auto.
  Qed.
  Lemma start_complete_spec c a b b' : start_incomplete g s c = false -> In a c -> In b s -> In b' s -> In (a, b) E -> In (a, b') E.
  Proof.
    intros H Ha Hb Hb' He. destruct (d_mem (graph g) (a, b')) eqn:M; [apply d_mem_in; auto|]. exfalso. assert (start_incomplete g s c = true); [|congruence].
    unfold start_incomplete. apply existsb_exists. exists a. split; auto. apply andb_true_iff. split; apply existsb_exists; [exists b|exists b']; split; auto; [apply d_mem_in; auto|rewrite M; auto].
  Qed.
  Lemma end_complete_spec c a b b' : end_incomplete g e c = false -> In a c -> In b e -> In b' e -> In (b, a) E -> In (b', a) E.
  Proof.
    intros H Ha Hb Hb' He. destruct (d_mem (graph g) (b', a)) eqn:M; [apply d_mem_in; auto|]. exfalso. assert (end_incomplete g e c = true); [|congruence].
    unfold end_incomplete. apply existsb_exists. exists a. split; auto. apply andb_true_iff. split; apply existsb_exists; [exists b|exists b']; split; auto; [apply d_mem_in; auto|rewrite M; auto].
  Qed.
  Theorem loop_sound gs : s <> [] -> loop_holds ord g = Some gs -> loop_cut_def g gs.
  Proof.
    intros Ns H. destruct (loop_cut ord ord_perm g gs nd_s H) as [C D]. apply is_cut_of in C. destruct (D Ns) as (do & redo & Eg & Is & Ie & Cl).
    rewrite loop_holds_eq in H. destruct (is_nil E); [discriminate|]. destruct (2 <=? _); [|discriminate]. injection H as H.
    destruct G2_spec as ((do2 & redo2 & E2 & P2 & N2 & Is2 & _) & Q1 & Q2 & Q3). rewrite E2 in *. cbn [hd tl] in *.
    assert (do2 <> []). { intros ->. destruct (nonnil s Ns) as (x & Hx). apply (Is2 x). exact Hx. }
    assert (Ed : do2 = do /\ filter nonempty redo2 = redo). { rewrite Eg in H. cbn [filter] in H. destruct do2; [congruence|]. cbn in H. split; congruence. }
    destruct Ed as [-> Er]. assert (Hr : forall c, In c redo -> In c redo2). { intros c Hc. rewrite <- Er in Hc. apply filter_In in Hc. tauto. }
    assert (do0 : forall a, In a do <-> at_group gs 0 a). { intros a. rewrite Eg. split; [intros; exists do; auto|intros (c & [= <-] & Hc); auto]. }
    assert (redo_at : forall i a, i <> 0 -> at_group gs i a -> exists c, In c redo /\ In a c /\ ~ In a do).
    { intros i a Ni Ha. pose proof Ha as (c & Ec & Hc). exists c. destruct i; [congruence|]. rewrite Eg in Ec. cbn in Ec. split; [eapply nth_error_In; eauto|]. split; auto. intros Hd. apply do0 in Hd.
      pose proof (at_group_unique gs _ _ a (proj1 C) Ha Hd). lia. }
    destruct G2_spec as ((d3 & r3 & E3 & _ & _ & _ & _ & Ir3) & _). rewrite E2 in E3. assert (r3 = redo2) by congruence. subst r3.
    assert (R : forall c, In c redo -> In c (loop_components ord g s e)) by (intros c Hc; apply Ir3, Hr; auto).
    assert (apart : forall c a, In c redo -> In a do -> ~ In a c).
    { intros c a Hc Ha Hac. destruct C as (ND & _). rewrite Eg in ND. cbn [concat] in ND. apply (NoDup_app_disj _ _ a ND Ha). apply in_concat. eauto. }
    constructor; auto.
    - intros a Ha. apply do0, Is, Ha.
    - intros a Ha. apply do0, Ie, Ha.
    - intros i j a b Ni Nj Nij Ha Hb He. destruct (redo_at i a Ni Ha) as (c & Hc & Hac & Nac), (redo_at j b Nj Hb) as (d & Hd & Hbd & Nbd).
      apply Nij. apply (at_group_unique gs i j b); auto; [apply C|]. destruct Ha as (c' & Ec & Ha). assert (In c' redo). { destruct i; [congruence|]. rewrite Eg in Ec. cbn in Ec. eapply nth_error_In; eauto. }
      exists c'. split; auto. apply (Cl c' a b); auto.
    - intros i a b Ni Ha Hb He. apply do0 in Ha. destruct (redo_at i b Ni Hb) as (c & Hc & Hbc & Nbc).
      destruct (in_dec Nat.eq_dec a e) as [Q|Q]; auto. exfalso. destruct (in_dec Nat.eq_dec a s) as [Q'|Q']; [apply Nbc; apply (Q1 a b); auto|].
      apply (apart c a Hc Ha). apply (R0_closed ord ord_perm g c b a); auto.
    - intros i a b Ni Ha Hb He. apply do0 in Hb. destruct (redo_at i a Ni Ha) as (c & Hc & Hac & Nac).
      destruct (in_dec Nat.eq_dec b s) as [Q|Q]; auto. exfalso. destruct (in_dec Nat.eq_dec b e) as [Q'|Q']; [apply Nac; apply (Q2 a b); auto|].
      apply (apart c b Hc Hb). apply (R0_closed ord ord_perm g c a b); auto.
    - intros i a b b' Ni Ha Hb Hb' He. destruct (redo_at i a Ni Ha) as (c & Hc & Hac & Nac). apply (start_complete_spec c a b b'); auto. apply Q3. auto.
    - intros i a b b' Ni Ha Hb Hb' He. destruct (redo_at i a Ni Ha) as (c & Hc & Hac & Nac). apply (end_complete_spec c a b b'); auto. apply Q3. auto.
  Qed.

  (** ** completeness *)
  Section Finer.
    Variable hs : list (list nat).
    Hypothesis H : loop_cut_def g hs.
    Hypothesis Ns : s <> [].
    Lemma hs_cover a : In a (get_vertices g) -> In a (concat hs).
    Proof. intros Ha. apply (lc_cut g hs H), activity_vertex. auto. Qed.
    Lemma plain_edge a b : In (a, b) E -> ~ In a s -> ~ In a e -> ~ In b s -> ~ In b e -> together hs a b.
    Proof.
      intros He Na Na' Nb Nb'. pose proof (edge_vertices _ _ _ He) as [Va Vb]. apply hs_cover, in_at_group in Va. apply hs_cover, in_at_group in Vb. destruct Va as (i & Ha), Vb as (j & Hb).
      destruct (Nat.eq_dec i j) as [->|Nij]; [apply together_at; eauto|]. exfalso. destruct (Nat.eq_dec i 0) as [->|Ni].
      - apply Na'. apply (lc_leave g hs H j a b); auto.
      - destruct (Nat.eq_dec j 0) as [->|Nj]; [apply Nb; apply (lc_return g hs H i a b); auto|]. apply (lc_apart g hs H i j a b); auto.
    Qed.
    Lemma zero a b : at_group hs 0 a -> at_group hs 0 b -> together hs a b.
    Proof. intros Ha Hb. apply together_at. eauto. Qed.
    Lemma components_inside c : In c (loop_components ord g s e) -> inside hs c.
    Proof.
      intros Hc. set (E' := filter (fun ab : edge => negb (smem (fst ab) s || smem (fst ab) e || smem (snd ab) s || smem (snd ab) e)) (edges g)).
      destruct (components_spec E' (sdiff (sdiff (ord (get_vertices g)) s) e) [] ltac:(intros x y [])) as (_ & _ & _ & H4). destruct (H4 c Hc) as (v & Hv & ->).
      assert (Cv : In v (concat hs)) by (apply hs_cover; rewrite !sdiff_in, (ord_in ord ord_perm) in Hv; tauto).
      assert (P : forall a b, path (undirected E') a b -> In a (concat hs) -> together hs a b).
      { intros a b P. induction P as [a|a b d K P IH]; intros Ha; [apply together_refl; auto|].
        assert (T : together hs a b).
        { apply und_in in K. destruct K as [K|K]; apply filter_In in K; destruct K as [K Q]; cbn in Q; rewrite negb_true_iff, !orb_false_iff, !smem_false in Q; [|apply together_sym]; apply plain_edge; tauto. }
        apply (together_trans hs a b d); auto; [apply (lc_cut g hs H)|]. apply IH. destruct T as (k & Hk & _ & Hb). apply in_concat. eauto. }
      intros a b Ha Hb. apply component_in in Ha, Hb. apply (together_trans hs a v b); [apply (lc_cut g hs H)| |apply P; auto]. apply together_sym, P; auto.
    Qed.
    Lemma init_inside : Forall (inside hs) (sunion s e :: loop_components ord g s e).
    Proof.
      constructor; [|apply Forall_forall; intros; apply components_inside; auto].
      intros a b Ha Hb. apply sunion_in in Ha, Hb. apply zero; [destruct Ha as [Ha|Ha]|destruct Hb as [Hb|Hb]]; solve [apply (lc_start g hs H); assumption|apply (lc_end g hs H); assumption].
    Qed.
    Lemma merges_inside es : forall gs, inv gs -> Forall (inside hs) gs -> (forall ab, In ab es -> ok_edge ab /\ together hs (fst ab) (snd ab)) -> Forall (inside hs) (fold_left merge_front es gs).
    Proof.
      induction es as [|[a b] es IH]; intros gs I F K; cbn [fold_left]; auto. destruct (K (a, b) ltac:(left; auto)) as [[He Hab] T]. cbn [fst snd] in Hab, T.
      pose proof (edge_vertices _ _ _ He) as [Va Vb].
      assert (Ca : In a (concat gs)) by (apply (inv_cover ord g); auto). assert (Cb : In b (concat gs)) by (apply (inv_cover ord g); auto).
      apply IH; [apply (merge_front_inv ord g gs a b); auto| |intros; apply K; right; auto].
      pose proof (inv_nodup gs I) as ND. apply in_concat in Ca, Cb. destruct Ca as (ga & Hga & Ha), Cb as (gb & Hgb & Hb).
      unfold merge_front. cbn [fst snd]. rewrite (group_of_spec _ a ga ND Hga Ha), (group_of_spec _ b gb ND Hgb Hb). constructor.
      - apply (inside_union hs ga gb a b); auto; [apply (lc_cut g hs H)| |]; apply (proj1 (Forall_forall _ _) F); auto.
      - apply Forall_forall. intros c Hc. apply filter_In in Hc. apply (proj1 (Forall_forall _ _) F). tauto.
    Qed.
    Lemma start_edges_inside ab : In ab start_edges -> ok_edge ab /\ together hs (fst ab) (snd ab).
    Proof.
      destruct ab as [a b]. intros K. apply start_edges_in in K. destruct K as (He & Hs & Ne). split; [split; cbn; auto|]. cbn.
      pose proof (edge_vertices _ _ _ He) as [Va Vb]. apply hs_cover, in_at_group in Vb. destruct Vb as (j & Hb). pose proof (lc_start g hs H a Hs) as Ha.
      destruct (Nat.eq_dec j 0) as [->|Nj]; [apply zero; auto|]. exfalso. apply Ne. apply (lc_leave g hs H j a b); auto.
    Qed.
    Lemma end_edges_inside ab : In ab end_edges -> ok_edge ab /\ together hs (fst ab) (snd ab).
    Proof.
      destruct ab as [a b]. intros K. apply end_edges_in in K. destruct K as (He & Hs & Ne). split; [split; cbn; auto|]. cbn.
      pose proof (edge_vertices _ _ _ He) as [Va Vb]. apply hs_cover, in_at_group in Va. destruct Va as (j & Ha). pose proof (lc_end g hs H b Hs) as Hb.
      destruct (Nat.eq_dec j 0) as [->|Nj]; [apply zero; auto|]. exfalso. apply Ne. apply (lc_return g hs H j a b); auto.
    Qed.
    Lemma complete_inside bad z redo : (forall c a, In a c -> inside hs c -> bad c = true -> exists b, In b c /\ at_group hs 0 b) -> at_group hs 0 z -> Forall (fun c : group => c <> []) redo ->
      forall do, In z do -> inside hs do -> Forall (inside hs) redo -> Forall (inside hs) (complete bad do redo).
    Proof.
      intros B Hz. induction redo as [|x r IH]; intros Nr do Hd Id Ir; cbn [complete]; [constructor; auto|]. inversion Ir as [|? ? Hx Ir']; subst. inversion Nr as [|? ? Nx Nr']; subst.
      destruct (bad x) eqn:Bx.
      - apply IH; auto; [apply sunion_in; auto|]. destruct x as [|a x]; [congruence|]. destruct (B (a :: x) a ltac:(left; auto) Hx Bx) as (b & Hb & Zb).
        apply (inside_union hs do (a :: x) z b); auto; [apply (lc_cut g hs H)|]. apply zero; auto.
      - specialize (IH Nr' do Hd Id Ir'). destruct (complete bad do r) as [|d r']; auto. inversion IH; subst. constructor; auto.
    Qed.
    Lemma incomplete_start c : start_incomplete g s c = true -> exists b, In b c /\ (inside hs c -> at_group hs 0 b).
    Proof.
      intros K. unfold start_incomplete in K. apply existsb_exists in K. destruct K as (a & Ha & K). apply andb_true_iff in K. destruct K as [K1 K2]. apply existsb_exists in K1, K2.
      destruct K1 as (b & Hb & K1), K2 as (b' & Hb' & K2). exists a. split; auto. intros Ic. destruct (Ic a a Ha Ha) as (k & Hk & Hak & _). apply In_nth_error in Hk. destruct Hk as (i & Ei).
      assert (Ai : at_group hs i a) by (exists k; auto). destruct (Nat.eq_dec i 0) as [->|Ni]; auto. exfalso.
      apply d_mem_in in K1. pose proof (lc_all_starts g hs H i a b b' Ni Ai Hb Hb' K1) as Q. apply d_mem_in in Q. rewrite Q in K2. discriminate.
    Qed.
    Lemma incomplete_end c : end_incomplete g e c = true -> exists b, In b c /\ (inside hs c -> at_group hs 0 b).
    Proof.
      intros K. unfold end_incomplete in K. apply existsb_exists in K. destruct K as (a & Ha & K). apply andb_true_iff in K. destruct K as [K1 K2]. apply existsb_exists in K1, K2.
      destruct K1 as (b & Hb & K1), K2 as (b' & Hb' & K2). exists a. split; auto. intros Ic. destruct (Ic a a Ha Ha) as (k & Hk & Hak & _). apply In_nth_error in Hk. destruct Hk as (i & Ei).
      assert (Ai : at_group hs i a) by (exists k; auto). destruct (Nat.eq_dec i 0) as [->|Ni]; auto. exfalso.
      apply d_mem_in in K1. pose proof (lc_all_ends g hs H i a b b' Ni Ai Hb Hb' K1) as Q. apply d_mem_in in Q. rewrite Q in K2. discriminate.
    Qed.
    Lemma check_inside bad gs : (forall c, bad c = true -> exists b, In b c /\ (inside hs c -> at_group hs 0 b)) -> inv gs -> Forall (inside hs) gs -> Forall (inside hs) (check_complete bad gs).
    Proof.
      intros B (do & redo & -> & P & Nr & Is & Ie & Ir) F. cbn [check_complete]. inversion F as [|? ? Fd Fr]; subst. destruct (nonnil s Ns) as (z & Hz).
      apply (complete_inside bad z); auto.
      - intros c a _ Ic Bc. destruct (B c Bc) as (b & Hb & Q). eauto.
      - apply (lc_start g hs H). exact Hz.
    Qed.
    Lemma G2_inside : Forall (inside hs) G2.
    Proof.
      destruct (merges_inv start_edges (sunion s e :: loop_components ord g s e)) as (A1 & _). { apply loop_init; auto. } { intros [a b] K. apply start_edges_in in K. split; cbn; tauto. }
      destruct (merges_inv end_edges _ A1) as (B1 & _). { intros [a b] K. apply end_edges_in in K. split; cbn; tauto. }
      unfold G2. apply check_inside; [apply incomplete_end|apply (check_complete_inv ord g); exact B1|]. apply check_inside; [apply incomplete_start|exact B1|].
      apply merges_inside; auto; [|apply end_edges_inside]. apply merges_inside; auto; [apply loop_init; auto|apply init_inside|apply start_edges_inside].
    Qed.
  End Finer.
  Theorem loop_complete hs : s <> [] -> loop_cut_def g hs -> exists gs, loop_holds ord g = Some gs /\ finer gs hs.
  Proof.
    intros Ns H. pose proof (G2_inside hs H Ns) as I. rewrite loop_holds_eq.
    assert (NE : is_nil E = false).
    { destruct (is_nil E) eqn:Q; auto. exfalso. destruct (lc_cut g hs H) as (ND & C & N & L). destruct hs as [|h0 [|[|x h1] r]]; [cbn in L; lia|cbn in L; lia|inversion N as [|? ? _ N']; inversion N'; congruence|].
      assert (A1 : at_group (h0 :: (x :: h1) :: r) 1 x) by (exists (x :: h1); split; [reflexivity|left; auto]).
      assert (A0 : at_group (h0 :: (x :: h1) :: r) 0 x).
      { destruct (proj1 (C x) (at_group_in _ _ _ A1)) as [(b & [K|K])|[K|K]]; [| |apply (lc_start g _ H); auto|apply (lc_end g _ H); auto]; exfalso; unfold edge_of in K; fold (edges g) in K; fold E in K; destruct E; [destruct K|discriminate|destruct K|discriminate]. }
      pose proof (at_group_unique _ _ _ _ ND A0 A1). lia. }
    rewrite NE. assert (F : finer (filter nonempty G2) hs). { apply finer_inside, Forall_forall. intros c Hc. apply filter_In in Hc. apply (proj1 (Forall_forall _ _) I). tauto. }
    assert (L : 2 <= length (filter nonempty G2)).
    { apply (finer_two g _ hs); auto; [apply (lc_cut g hs H)|]. intros a Ha. rewrite concat_filter_nonempty. destruct G2_spec as (J & _). apply (inv_cover ord g); auto. apply activity_vertex; auto. }
    apply Nat.leb_le in L. unfold group in *. rewrite L. eauto.
  Qed.
End Loop.
