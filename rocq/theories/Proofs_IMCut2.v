(** The cut detection of the Inductive Miner: concurrency. *)
From Coq Require Import List Arith Bool ZArith Lia Permutation Sorting.Sorted.
Import ListNotations.
From Verif Require Import Model_Dict Model_Dfg Model_Graph Model_Lev Model_Tree Model_IM Spec_Graph Spec_IMCut.
From Verif Require Import Proofs_Dict Proofs_Dfg Proofs_Graph Proofs_Lev Proofs_IM1 Proofs_IM2 Proofs_IM3 Proofs_IM4 Proofs_IM5 Proofs_IMCut.
Local Open Scope nat_scope.
Local Arguments keqb {K Key} : simpl never.
Local Arguments Nat.ltb : simpl never.
Local Arguments Nat.leb : simpl never.
Local Arguments Nat.eqb : simpl never.

Section Par.
  Variable g : dfg.
  Definition both (a b : nat) : Prop := edge_of g a b /\ edge_of g b a.
  Lemma disconnected_spec x y : disconnected g x y = true <-> exists a b, In a x /\ In b y /\ ~ both a b.
  Proof.
    unfold disconnected. rewrite existsb_exists. split.
    - intros (a & Ha & H). apply existsb_exists in H. destruct H as (b & Hb & H). exists a, b. split; auto. split; auto. intros [B1 B2].
      apply d_mem_in in B1, B2. rewrite B1, B2 in H. discriminate.
    - intros (a & b & Ha & Hb & N). exists a. split; auto. apply existsb_exists. exists b. split; auto.
      destruct (d_mem (graph g) (a, b)) eqn:E1; auto. destruct (d_mem (graph g) (b, a)) eqn:E2; auto. exfalso. apply N. split; apply d_mem_in; auto.
  Qed.
  Lemma connected_spec x y : disconnected g x y = false -> forall a b, In a x -> In b y -> both a b.
  Proof.
    intros H a b Ha Hb. destruct (d_mem (graph g) (a, b)) eqn:E1; [destruct (d_mem (graph g) (b, a)) eqn:E2|].
    - split; apply d_mem_in; auto.
    - exfalso. assert (disconnected g x y = true); [|congruence]. apply disconnected_spec. exists a, b. split; auto. split; auto. intros [_ B]. apply d_mem_in in B. congruence.
    - exfalso. assert (disconnected g x y = true); [|congruence]. apply disconnected_spec. exists a, b. split; auto. split; auto. intros [B _]. apply d_mem_in in B. congruence.
  Qed.
  Definition crossed (hs : list (list nat)) : Prop := forall i j a b, i <> j -> at_group hs i a -> at_group hs j b -> edge_of g a b.
  Lemma crossed_together hs a b : crossed hs -> In a (concat hs) -> In b (concat hs) -> ~ both a b -> together hs a b.
  Proof.
    intros C Ha Hb N. apply in_at_group in Ha, Hb. destruct Ha as (i & Ha), Hb as (j & Hb). destruct (Nat.eq_dec i j) as [->|D]; [apply together_at; eauto|].
    exfalso. apply N. split; [apply (C i j)|apply (C j i)]; auto.
  Qed.
  Lemma inside_in hs c a : inside hs c -> In a c -> In a (concat hs).
  Proof. intros H Ha. destruct (H a a Ha Ha) as (k & Hk & Hak & _). apply in_concat. eauto. Qed.
  Lemma join_inside hs rest : NoDup (concat hs) -> crossed hs -> forall x x' r', inside hs x -> Forall (inside hs) rest -> join_first g x rest = Some (x', r') -> Forall (inside hs) (x' :: r').
  Proof.
    intros ND C. induction rest as [|y r IH]; intros x x' r' Hx Hr; cbn [join_first]; [discriminate|]. inversion Hr as [|? ? Hy Hr']; subst.
    destruct (disconnected g x y) eqn:D.
    - intros [= <- <-]. constructor; auto. apply disconnected_spec in D. destruct D as (a & b & Ha & Hb & N). apply (inside_union hs x y a b); auto. apply crossed_together; auto; [apply (inside_in hs x)|apply (inside_in hs y)]; auto.
    - destruct (join_first g x r) as [[x1 r1]|] eqn:J; [|discriminate]. intros [= <- <-]. specialize (IH x x1 r1 Hx Hr' J). inversion IH; subst. constructor; auto.
  Qed.
  Lemma step_inside hs gs : NoDup (concat hs) -> crossed hs -> forall gs', Forall (inside hs) gs -> par_step g gs = Some gs' -> Forall (inside hs) gs'.
  Proof.
    intros ND C. induction gs as [|x r IH]; intros gs' H; cbn [par_step]; [discriminate|]. inversion H as [|? ? Hx Hr]; subst.
    destruct (join_first g x r) as [[x' r']|] eqn:J.
    - intros [= <-]. eapply join_inside; eauto.
    - destruct (par_step g r) as [r1|]; [|discriminate]. intros [= <-]. constructor; auto.
  Qed.
  Lemma loop_inside hs fuel : NoDup (concat hs) -> crossed hs -> forall gs, Forall (inside hs) gs -> Forall (inside hs) (par_loop g fuel gs).
  Proof.
    intros ND C. induction fuel as [|n IH]; intros gs H; auto. cbn [par_loop]. destruct (par_step g gs) as [gs'|] eqn:P; auto. apply IH. eapply step_inside; eauto.
  Qed.
  (** the loop ends with all the groups connected in both directions *)
  Lemma join_length rest : forall x x' r', join_first g x rest = Some (x', r') -> S (length r') = length rest.
  Proof.
    induction rest as [|y r IH]; intros x x' r'; cbn [join_first]; [discriminate|]. destruct (disconnected g x y); [intros [= _ <-]; auto|].
    destruct (join_first g x r) as [[x1 r1]|] eqn:J; [|discriminate]. intros [= _ <-]. cbn. erewrite IH; eauto.
  Qed.
  Lemma step_length gs : forall gs', par_step g gs = Some gs' -> S (length gs') = length gs.
  Proof.
    induction gs as [|x r IH]; intros gs'; cbn [par_step]; [discriminate|]. destruct (join_first g x r) as [[x' r']|] eqn:J.
    - intros [= <-]. cbn. f_equal. eapply join_length; eauto.
    - destruct (par_step g r) as [r1|]; [|discriminate]. intros [= <-]. cbn. f_equal. apply IH; auto.
  Qed.
  Lemma loop_done fuel : forall gs, length gs <= fuel -> par_step g (par_loop g fuel gs) = None.
  Proof.
    induction fuel as [|n IH]; intros gs L; cbn [par_loop]; [destruct gs; [reflexivity|cbn in L; lia]|].
    destruct (par_step g gs) as [gs'|] eqn:P; auto. apply IH. apply step_length in P. lia.
  Qed.
  Lemma join_none rest : forall x, join_first g x rest = None -> forall y, In y rest -> disconnected g x y = false.
  Proof.
    induction rest as [|z r IH]; intros x H y Hy; [destruct Hy|]. cbn [join_first] in H. destruct (disconnected g x z) eqn:D; [discriminate|].
    destruct (join_first g x r) as [[? ?]|] eqn:J; [discriminate|]. destruct Hy as [<-|Hy]; auto.
  Qed.
  Definition cross (gs : list (list nat)) : Prop := forall a b, In a (concat gs) -> In b (concat gs) -> together gs a b \/ both a b.
  Lemma both_sym a b : both a b -> both b a.
  Proof. intros [? ?]; split; auto. Qed.
  Lemma step_none (gs : list (list nat)) : par_step g gs = None -> cross gs.
  Proof.
    induction gs as [|x r IH]; intros H a b Ha Hb; [destruct Ha|]. cbn [par_step] in H. destruct (join_first g x r) as [[? ?]|] eqn:J; [discriminate|].
    destruct (par_step g r) as [?|] eqn:P; [discriminate|]. specialize (IH eq_refl). cbn [concat] in Ha, Hb. apply in_app_or in Ha, Hb.
    assert (X : forall a b, In a x -> In b (concat r) -> both a b). { intros u v Hu Hv. apply in_concat in Hv. destruct Hv as (y & Hy & Hv). apply (connected_spec x y); auto. apply (join_none r); auto. }
    destruct Ha as [Ha|Ha], Hb as [Hb|Hb].
    - left. exists x. split; [left|]; auto.
    - right. auto.
    - right. apply both_sym. auto.
    - destruct (IH a b Ha Hb) as [(c & Hc & T)|B]; auto. left. exists c. split; [right|]; auto.
  Qed.
  Definition coarser (gs hs : list (list nat)) : Prop := finer hs gs.
  (** ** the second phase *)
  Definition complete_group (c : list nat) : Prop := (exists a, In a c /\ starts g a) /\ (exists a, In a c /\ ends g a).
  Lemma hse_spec c : has_start_end g c = true <-> complete_group c.
  Proof.
    unfold has_start_end, complete_group, starts, ends. rewrite andb_true_iff, !existsb_exists. split; intros [(a & Ha & H1) (b & Hb & H2)]; split;
      [exists a|exists b|exists a|exists b]; split; auto; try (apply d_mem_in; auto).
  Qed.
  Lemma complete_sub c d : incl c d -> complete_group c -> complete_group d.
  Proof. intros I [(a & Ha & H1) (b & Hb & H2)]. split; [exists a|exists b]; auto. Qed.
  Lemma settle_complete fuel : forall front rest, length rest <= fuel -> Forall complete_group front ->
    2 <= length (par_settle g fuel front rest) -> Forall complete_group (par_settle g fuel front rest).
  Proof.
    assert (R : forall front, Forall complete_group front -> Forall complete_group (rev front)). { intros f H. apply Forall_forall. intros c Hc. apply in_rev in Hc. apply (proj1 (Forall_forall _ _) H); auto. }
    induction fuel as [|n IH]; intros front rest L F; cbn [par_settle].
    - destruct rest; [|cbn in L; lia]. rewrite app_nil_r. auto.
    - destruct rest as [|x r]; [rewrite app_nil_r; auto|]. unfold group in *. cbn [length] in *. destruct (Nat.ltb_spec 1 (length front + S (length r))) as [T|T].
      + destruct (has_start_end g x) eqn:H; [apply IH; [lia|]; constructor; auto; apply hse_spec; auto|].
        destruct front as [|f fs]; [destruct r as [|y r']; [cbn in *; lia|apply IH; [cbn in *; lia|auto]]|].
        apply IH; [lia|]. inversion F; subst. constructor; auto. apply (complete_sub f); auto. intros a Ha. apply sunion_in. auto.
      + rewrite app_length, rev_length. cbn. lia.
  Qed.
  Lemma settle_coarser fuel : forall front rest a b, together (front ++ rest) a b -> together (par_settle g fuel front rest) a b.
  Proof.
    assert (B : forall front rest a b, together (front ++ rest) a b -> together (rev front ++ rest) a b).
    { intros front rest a b (c & Hc & H). exists c. split; auto. apply in_app_or in Hc. apply in_or_app. rewrite <- in_rev. auto. }
    induction fuel as [|n IH]; intros front rest a b T; cbn [par_settle]; [auto|]. destruct rest as [|x r]; [auto|].
    destruct (1 <? _); [|auto].
    destruct (has_start_end g x).
    - apply IH. destruct T as (c & Hc & H). exists c. split; auto. apply in_app_or in Hc. cbn. destruct Hc as [Hc|[Hc|Hc]]; [right; apply in_or_app|left|right; apply in_or_app]; auto.
    - destruct front as [|f fs].
      + destruct r as [|y r']; [exact T|]. apply IH. destruct T as (c & Hc & H1 & H2). cbn in *.
        destruct Hc as [<-|[<-|Hc]]; [exists (sunion y x)|exists (sunion y x)|exists c]; cbn [In]; rewrite ?sunion_in; auto 6.
      + apply IH. destruct T as (c & Hc & H1 & H2). apply in_app_or in Hc. cbn in Hc.
        destruct Hc as [[<-|Hc]|[<-|Hc]]; [exists (sunion f x)|exists c|exists (sunion f x)|exists c]; rewrite ?sunion_in; auto; (split; [|auto]); cbn; auto; right; apply in_or_app; auto.
  Qed.
  Lemma settle_id fuel : forall front rest, Forall complete_group rest -> par_settle g fuel front rest = rev front ++ rest.
  Proof.
    induction fuel as [|n IH]; intros front rest F; cbn [par_settle]; auto. destruct rest as [|x r]; auto. inversion F; subst. destruct (1 <? _); auto.
    assert (H : has_start_end g x = true) by (apply hse_spec; auto). rewrite H, IH by auto. cbn. rewrite <- app_assoc. reflexivity.
  Qed.

  Lemma par_groups (gs1 gs2 : list (list nat)) : let l := sorted_by Z.of_nat (get_vertices g) in
    gs1 = par_loop g (length (map (fun a : nat => [a]) l)) (map (fun a => [a]) l) -> gs2 = sorted_by (fun x => Z.of_nat (length x)) gs1 ->
    NoDup (concat gs1) /\ (forall a, In a (concat gs1) <-> activity_of g a) /\ Forall (fun c => c <> []) gs1 /\ cross gs1 /\ Permutation gs2 gs1 /\
    (forall hs, NoDup (concat hs) -> crossed hs -> (forall a, activity_of g a -> In a (concat hs)) -> finer gs1 hs).
  Proof.
    intros l E1 E2. assert (Pl : Permutation l (get_vertices g)) by apply Permutation_sym, sorted_by_perm.
    assert (Nl : NoDup l) by (apply (Permutation_NoDup (Permutation_sym Pl)), vertices_nodup).
    set (gs0 := map (fun a => [a]) l) in *. destruct (singles_good [] l Nl) as (G1 & G2 & _). fold gs0 in G1, G2.
    destruct (par_loop_spec g (length gs0) gs0 G1 G2) as [I1 I2]. rewrite <- E1 in I1, I2. unfold gs0 in I1. rewrite concat_singles in I1.
    split; [apply (Permutation_NoDup (Permutation_sym I1)); auto|]. split; [|split; [exact I2|split; [|split]]].
    - intros a. rewrite activity_vertex. split; intros H.
      + apply (Permutation_in a Pl), (Permutation_in a I1); auto.
      + apply (Permutation_in a (Permutation_sym I1)), (Permutation_in a (Permutation_sym Pl)); auto.
    - apply step_none. rewrite E1. apply loop_done. auto.
    - rewrite E2. apply Permutation_sym, sorted_by_perm.
    - intros hs ND C A. apply finer_inside. rewrite E1. apply loop_inside; auto. apply inside_singles. intros a Ha. apply A, activity_vertex, (Permutation_in a Pl). auto.
  Qed.
  Lemma cross_perm gs hs : Permutation gs hs -> cross gs -> cross hs.
  Proof.
    intros P C a b Ha Hb. pose proof (concat_perm _ _ (Permutation_sym P)) as Q. apply (Permutation_in _ Q) in Ha, Hb. destruct (C a b Ha Hb) as [(c & Hc & T)|B]; auto. left. exists c. split; auto. apply (Permutation_in c P); auto.
  Qed.
  Theorem par_sound gs : par_holds g = Some gs -> concurrency_cut g gs.
  Proof.
    intros H. pose proof (par_cut g gs H) as C. apply is_cut_of in C. unfold par_holds in H. set (l := sorted_by Z.of_nat (get_vertices g)) in *.
    destruct (map (fun a => [a]) l) as [|x r] eqn:El; [discriminate|]. rewrite <- El in H. clear x r El.
    set (gs1 := par_loop g (length (map (fun a => [a]) l)) (map (fun a => [a]) l)) in *. set (gs2 := sorted_by (fun x : list nat => Z.of_nat (length x)) gs1) in *.
    destruct (par_groups gs1 gs2 eq_refl eq_refl) as (N1 & A1 & F1 & X1 & P & _).
    destruct (Nat.leb_spec 2 (length (par_settle g (length gs2) [] gs2))) as [L|L]; [|discriminate]. injection H as H.
    pose proof (settle_complete (length gs2) [] gs2 (Nat.le_refl _) ltac:(constructor) L) as F.
    assert (X2 : cross gs2) by (apply (cross_perm gs1); auto; apply Permutation_sym; auto).
    assert (X : cross gs).
    { intros a b Ha Hb. destruct C as (_ & CA & _). apply CA, A1 in Ha. apply CA, A1 in Hb. pose proof (concat_perm _ _ (Permutation_sym P)) as Q. apply (Permutation_in _ Q) in Ha, Hb.
      destruct (X2 a b Ha Hb) as [T|B]; auto. left. rewrite <- H. apply settle_coarser. exact T. }
    split; auto. split.
    - intros i j a b Nij Ha Hb. destruct (X a b) as [T|B]; [eapply at_group_in; eauto|eapply at_group_in; eauto| |apply B].
      exfalso. apply Nij. apply together_at in T. destruct T as (k & Ka & Kb). destruct C as (ND & _). rewrite (at_group_unique gs i k a ND Ha Ka). apply (at_group_unique gs k j b ND Kb Hb).
    - intros c Hc. unfold group in *. rewrite H in F. apply (proj1 (Forall_forall _ _) F c Hc).
  Qed.
  Theorem par_complete hs : concurrency_cut g hs -> (forall h, In h hs -> indivisible g h) -> exists gs, par_holds g = Some gs /\ finer gs hs /\ finer hs gs.
  Proof.
    intros [C [X S]] Ind. unfold par_holds. set (l := sorted_by Z.of_nat (get_vertices g)) in *.
    assert (Pl : Permutation l (get_vertices g)) by apply Permutation_sym, sorted_by_perm.
    assert (Ne : l <> []).
    { destruct C as (_ & C & N & L). destruct hs as [|[|x h] hs]; [cbn in L; lia|inversion N; congruence|]. intros E0.
      assert (In x l) by (apply (Permutation_in x (Permutation_sym Pl)), activity_vertex, C; left; auto). rewrite E0 in *. auto. }
    destruct (map (fun a => [a]) l) as [|x r] eqn:El; [destruct l; [congruence|discriminate]|]. rewrite <- El. clear x r El.
    set (gs1 := par_loop g (length (map (fun a => [a]) l)) (map (fun a => [a]) l)) in *. set (gs2 := sorted_by (fun x : list nat => Z.of_nat (length x)) gs1) in *.
    destruct (par_groups gs1 gs2 eq_refl eq_refl) as (N1 & A1 & F1 & X1 & P & Fin).
    assert (F : finer gs1 hs) by (apply Fin; auto; [apply C|intros a Ha; apply C; auto]).
    assert (B : finer hs gs1).
    { intros a b (h & Hh & Ha & Hb). assert (Ga : In a (concat gs1)) by (apply A1, C, in_concat; eauto). apply in_concat in Ga. destruct Ga as (c & Hc & Hac).
      destruct (in_dec Nat.eq_dec b c) as [Hbc|Nb]; [exists c; auto|]. exfalso.
      assert (sub : incl c h). { intros z Hz. assert (T : together gs1 a z) by (exists c; auto). apply F in T. destruct T as (h' & Hh' & Ha' & Hz').
        apply In_nth_error in Hh, Hh'. destruct Hh as (i & Ei), Hh' as (j & Ej). assert (i = j). { apply (at_group_unique hs i j a); [apply C|exists h; auto|exists h'; auto]. } subst j. congruence. }
      destruct (Ind h Hh c (filter (fun z => negb (smem z c)) h)) as (u & v & Hu & Hv & NB).
      - intros ->. destruct Hac.
      - intros E0. assert (In b (filter (fun z => negb (smem z c)) h)). { apply filter_In. split; auto. rewrite negb_true_iff. apply smem_false. auto. } rewrite E0 in *. auto.
      - intros z. rewrite filter_In, negb_true_iff, smem_false. split; [|intros [Hz|[Hz _]]; auto]. intros Hz. destruct (in_dec Nat.eq_dec z c); auto.
      - apply filter_In in Hv. destruct Hv as [Hv Nv]. rewrite negb_true_iff, smem_false in Nv.
        destruct (X1 u v) as [T|T]; [apply in_concat; eauto|apply A1, C, in_concat; eauto| |apply NB; exact T].
        destruct T as (d & Hd & Hud & Hvd). apply Nv. apply In_nth_error in Hc, Hd. destruct Hc as (i & Ei), Hd as (j & Ej).
        assert (i = j). { apply (at_group_unique gs1 i j u); auto; [exists c; auto|exists d; auto]. } subst j. congruence. }
    assert (Com : Forall complete_group gs2).
    { apply Forall_forall. intros c Hc. apply (Permutation_in c P) in Hc. pose proof (proj1 (Forall_forall _ _) F1 c Hc) as Nc. destruct c as [|a c]; [congruence|].
      assert (Ha : In a (concat hs)) by (apply C, A1, in_concat; exists (a :: c); split; [auto|left; auto]). apply in_concat in Ha. destruct Ha as (h & Hh & Ha).
      apply (complete_sub h); [|apply S; auto]. intros z Hz. assert (T : together hs a z) by (exists h; auto). apply B in T. destruct T as (d & Hd & Had & Hzd).
      apply In_nth_error in Hc, Hd. destruct Hc as (i & Ei), Hd as (j & Ej). assert (i = j). { apply (at_group_unique gs1 i j a); auto; [exists (a :: c); split; auto; left; auto|exists d; auto]. } subst j. congruence. }
    rewrite (settle_id (length gs2) [] gs2 Com). cbn [rev app].
    assert (L : 2 <= length gs2). { rewrite (Permutation_length P). apply (finer_two g gs1 hs); auto. intros a Ha. apply A1; auto. }
    apply Nat.leb_le in L. unfold group in *. rewrite L. exists gs2. split; auto.
    split; intros a b T; [apply F|apply B in T]; destruct T as (c & Hc & T); exists c; (split; [|auto]); [apply (Permutation_in c P); auto|apply (Permutation_in c (Permutation_sym P)); auto].
  Qed.
End Par.
