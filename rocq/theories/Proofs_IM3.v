(** Inductive Miner: the sequence cut (without the strict merge). *)
From Coq Require Import List Arith Bool ZArith Lia Permutation Sorting.Sorted.
Import ListNotations.
From Verif Require Import Model_Dict Model_Dfg Model_Graph Model_Lev Model_Tree Model_IM Spec_Graph.
From Verif Require Import Proofs_Dict Proofs_Dfg Proofs_Graph Proofs_Lev Proofs_IM1.
Local Open Scope nat_scope.
Local Arguments keqb {K Key} : simpl never.
Local Arguments Nat.ltb : simpl never.
Local Arguments Nat.leb : simpl never.

Section Seq.
  Variable E : list edge.
  Lemma succ_spec a b : succ E a b = true <-> b <> a /\ path E a b.
  Proof. unfold succ. rewrite smem_in. apply descendants_spec. Qed.
  Lemma succ_false a b : succ E a b = false <-> ~ (b <> a /\ path E a b).
  Proof. rewrite <- succ_spec. destruct (succ E a b); split; congruence. Qed.
  Lemma related_sym a b : related E a b = related E b a.
  Proof. unfold related. destruct (succ E a b), (succ E b a); reflexivity. Qed.
  Lemma unrelated a b : related E a b = false -> (succ E a b = true /\ succ E b a = false) \/ (succ E a b = false /\ succ E b a = true).
  Proof. unfold related. destruct (succ E a b), (succ E b a); cbn; intros; try discriminate; auto. Qed.
  Lemma transfer a a' b : related E a a' = true -> related E a b = false -> related E a' b = false -> succ E a b = true -> succ E a' b = true.
  Proof.
    intros R Ra Ra' S. destruct (unrelated a' b Ra') as [[? ?]|[S1 S2]]; auto. exfalso.
    destruct (unrelated a b Ra) as [[_ N]|[? ?]]; [|congruence].
    apply succ_spec in S. apply succ_spec in S2. destruct S as [n1 p1], S2 as [n2 p2].
    destruct (Nat.eq_dec a a') as [->|Na]; [assert (succ E b a' = true) by (apply succ_spec; auto); congruence|].
    assert (S3 : succ E a a' = true) by (apply succ_spec; split; auto; apply (path_trans _ _ b); auto).
    unfold related in R. rewrite S3 in R. cbn in R. destruct (succ E a' a) eqn:S4; [|discriminate].
    apply succ_spec in S4. assert (succ E b a = true) by (apply succ_spec; split; auto; apply (path_trans _ _ a'); tauto). congruence.
  Qed.
  Lemma transfer' a a' b : related E a a' = true -> related E a b = false -> related E a' b = false -> succ E b a = true -> succ E b a' = true.
  Proof.
    intros R Ra Ra' S. destruct (unrelated a' b Ra') as [[S1 S2]|[? ?]]; auto. exfalso.
    assert (succ E a b = true). { apply (transfer a' a b); auto. rewrite related_sym; auto. }
    destruct (unrelated a b Ra) as [[_ N]|[N ?]]; congruence.
  Qed.
  (** a node that is unrelated to a whole group is on the same side of all of it *)
  Definition uniform (g : group) : Prop := forall b, (forall x, In x g -> related E x b = false) ->
    (forall x, In x g -> succ E x b = true) \/ (forall x, In x g -> succ E b x = true).
  Lemma uniform_one a : uniform [a].
  Proof. intros b H. destruct (unrelated a b (H a ltac:(left; auto))) as [[? _]|[_ ?]]; [left|right]; intros x [<-|[]]; auto. Qed.
  Lemma check_merge_spec g h : check_merge E g h = true <-> exists a b, In a g /\ In b h /\ related E a b = true.
  Proof.
    unfold check_merge. rewrite existsb_exists. split.
    - intros (a & Ha & H). apply existsb_exists in H. destruct H as (b & Hb & H). eauto.
    - intros (a & b & Ha & Hb & H). exists a. split; auto. apply existsb_exists. eauto.
  Qed.
  Lemma check_merge_false g h : check_merge E g h = false -> forall a b, In a g -> In b h -> related E a b = false.
  Proof. intros H a b Ha Hb. destruct (related E a b) eqn:R; auto. assert (check_merge E g h = true) by (apply check_merge_spec; eauto). congruence. Qed.
  Lemma uniform_union g h : uniform g -> uniform h -> check_merge E g h = true -> uniform (sunion g h).
  Proof.
    intros Ug Uh M. apply check_merge_spec in M. destruct M as (a & a' & Ha & Ha' & R). intros b H.
    assert (Hg : forall x, In x g -> related E x b = false) by (intros; apply H, sunion_in; auto).
    assert (Hh : forall x, In x h -> related E x b = false) by (intros; apply H, sunion_in; auto).
    destruct (Ug b Hg) as [G|G], (Uh b Hh) as [K|K].
    - left. intros x Hx. apply sunion_in in Hx. destruct Hx; auto.
    - exfalso. pose proof (transfer a a' b R (Hg a Ha) (Hh a' Ha') (G a Ha)) as Q. specialize (K a' Ha'). destruct (unrelated a' b (Hh a' Ha')) as [[? ?]|[? ?]]; congruence.
    - exfalso. pose proof (transfer' a a' b R (Hg a Ha) (Hh a' Ha') (G a Ha)) as Q. specialize (K a' Ha'). destruct (unrelated a' b (Hh a' Ha')) as [[? ?]|[? ?]]; congruence.
    - right. intros x Hx. apply sunion_in in Hx. destruct Hx; auto.
  Qed.

  Definition good (gs : list group) : Prop := NoDup (concat gs) /\ nonempties gs /\ Forall uniform gs.
  Definition apart (g h : group) : Prop := forall a b, In a g -> In b h -> related E a b = false.
  Lemma absorb_spec rest : forall g, good (g :: rest) -> let '(g', rest') := absorb E g rest in
    good (g' :: rest') /\ Permutation (concat (g' :: rest')) (concat (g :: rest)) /\ length rest' <= length rest /\
    (length rest' = length rest -> g' = g /\ rest' = rest /\ Forall (apart g) rest).
  Proof.
    induction rest as [|h r IH]; intros g (H1 & H2 & H3); cbn [absorb].
    - repeat split; auto.
    - destruct (check_merge E g h) eqn:M.
      + pose proof (Forall_inv H2) as N1. pose proof (Forall_inv_tail H2) as N2. pose proof (Forall_inv H3) as U1. pose proof (Forall_inv_tail H3) as U2.
        assert (Eu : sunion g h = g ++ h). { apply sunion_app. cbn [concat] in H1. rewrite app_assoc in H1. apply NoDup_app_l in H1. auto. }
        assert (G : good (sunion g h :: r)).
        { split; [|split].
          - cbn [concat] in *. rewrite Eu, <- app_assoc. auto.
          - constructor; [apply sunion_nonempty; auto|exact (Forall_inv_tail N2)].
          - constructor; [apply uniform_union; auto; exact (Forall_inv U2)|exact (Forall_inv_tail U2)]. }
        specialize (IH _ G). destruct (absorb E (sunion g h) r) as [g' r']. destruct IH as (I1 & I2 & I3 & I4).
        split; auto. split; [rewrite I2; cbn [concat]; rewrite Eu, <- app_assoc; reflexivity|]. cbn [length]. split; [lia|]. intros L. lia.
      + assert (G : good (g :: r)).
        { pose proof (Forall_inv H2) as N1. pose proof (Forall_inv_tail H2) as N2. pose proof (Forall_inv H3) as U1. pose proof (Forall_inv_tail H3) as U2. split; [|split].
          - apply (Permutation_NoDup (l := concat (h :: g :: r))) in H1 || idtac.
            assert (P : Permutation (concat (g :: h :: r)) (concat (h :: g :: r))) by (apply concat_perm, perm_swap).
            apply (Permutation_NoDup P) in H1. cbn [concat] in H1. apply NoDup_app_r in H1. auto.
          - constructor; auto. exact (Forall_inv_tail N2).
          - constructor; auto. exact (Forall_inv_tail U2). }
        specialize (IH g G). destruct (absorb E g r) as [g' r'] eqn:Ea. destruct IH as (I1 & I2 & I3 & I4).
        assert (P : Permutation (concat (g' :: h :: r')) (concat (g :: h :: r))).
        { transitivity (concat (h :: g' :: r')); [apply concat_perm, perm_swap|]. transitivity (concat (h :: g :: r)); [|apply concat_perm, perm_swap].
          cbn [concat] in *. apply Permutation_app_head. auto. }
        split; [|split; auto; split; [cbn; lia|]].
        * destruct I1 as (J1 & J2 & J3). split; [apply (Permutation_NoDup (Permutation_sym P)); auto|]. split.
          -- constructor; [exact (Forall_inv J2)|]. constructor; [exact (Forall_inv (Forall_inv_tail H2))|exact (Forall_inv_tail J2)].
          -- constructor; [exact (Forall_inv J3)|]. constructor; [exact (Forall_inv (Forall_inv_tail H3))|exact (Forall_inv_tail J3)].
        * cbn [length]. intros L. destruct (I4 ltac:(lia)) as (-> & -> & F). repeat split; auto. constructor; auto. intros a b. apply check_merge_false; auto.
  Qed.
  Lemma merge_pass_spec n : forall gs, length gs <= n -> good gs ->
    good (merge_pass E n gs) /\ Permutation (concat (merge_pass E n gs)) (concat gs) /\ length (merge_pass E n gs) <= length gs /\
    (length (merge_pass E n gs) = length gs -> merge_pass E n gs = gs /\ ForallOrdPairs apart gs).
  Proof.
    induction n as [|n IH]; intros gs L G; [destruct gs; [|cbn in L; lia]; cbn; repeat split; auto; constructor|].
    destruct gs as [|g rest]; [cbn; repeat split; auto; constructor|]. cbn [merge_pass].
    pose proof (absorb_spec rest g G) as A. destruct (absorb E g rest) as [g' rest']. destruct A as (A1 & A2 & A3 & A4).
    assert (G' : good rest').
    { destruct A1 as (J1 & J2 & J3). split; [|split; [exact (Forall_inv_tail J2)|exact (Forall_inv_tail J3)]]. cbn [concat] in J1. apply NoDup_app_r in J1; auto. }
    destruct (IH rest' ltac:(cbn in L; lia) G') as (I1 & I2 & I3 & I4).
    assert (P : Permutation (concat (g' :: merge_pass E n rest')) (concat (g' :: rest'))) by (cbn [concat]; apply Permutation_app_head; auto).
    split; [|split; [rewrite P; auto|split; [cbn; lia|]]].
    - destruct A1 as (J1 & J2 & J3). destruct I1 as (K1 & K2 & K3). split; [apply (Permutation_NoDup (Permutation_sym P)); auto|]. split; constructor; auto; [exact (Forall_inv J2)|exact (Forall_inv J3)].
    - cbn [length]. intros EL. destruct (A4 ltac:(lia)) as (-> & -> & F). destruct (I4 ltac:(lia)) as (-> & F'). split; auto. constructor; auto.
  Qed.
  Lemma merge_loop_spec fuel : forall gs, length gs < fuel -> good gs ->
    let r := merge_loop E fuel gs in good r /\ Permutation (concat r) (concat gs) /\ ForallOrdPairs apart r.
  Proof.
    induction fuel as [|fuel IH]; intros gs L G; [lia|]. cbn [merge_loop]. unfold merge_groups.
    destruct (merge_pass_spec (length gs) gs (Nat.le_refl _) G) as (I1 & I2 & I3 & I4).
    destruct (Nat.eqb_spec (length (merge_pass E (length gs) gs)) (length gs)) as [EL|NL].
    - destruct (I4 EL) as (Eq & F). cbn zeta. rewrite Eq. repeat split; auto; apply G.
    - destruct (IH (merge_pass E (length gs) gs) ltac:(lia) I1) as (K1 & K2 & K3). split; auto. split; auto. rewrite K2; auto.
  Qed.

  (** ** the order *)
  Definition before (g h : group) : Prop := forall a b, In a g -> In b h -> path E a b /\ ~ path E b a.
  Lemma succ_one_way a b : succ E a b = true -> related E a b = false -> path E a b /\ ~ path E b a.
  Proof.
    intros S R. destruct (unrelated a b R) as [[_ N]|[? ?]]; [|congruence]. apply succ_spec in S. split; [tauto|]. intros P.
    assert (succ E b a = true) by (apply succ_spec; split; [|auto]; destruct S; auto). congruence.
  Qed.
  Lemma apart_before g h : uniform g -> uniform h -> apart g h -> before g h \/ before h g.
  Proof.
    intros Ug Uh A. destruct g as [|a0 g]; [left; intros a b []|]. destruct h as [|b0 h]; [left; intros a b Ha []|].
    assert (C : forall b, In b (b0 :: h) -> (forall x, In x (a0 :: g) -> succ E x b = true) \/ (forall x, In x (a0 :: g) -> succ E b x = true)).
    { intros b Hb. apply Ug. intros x Hx. apply A; auto. }
    assert (C' : forall a, In a (a0 :: g) -> (forall x, In x (b0 :: h) -> succ E x a = true) \/ (forall x, In x (b0 :: h) -> succ E a x = true)).
    { intros a Ha. apply Uh. intros x Hx. rewrite related_sym. apply A; auto. }
    assert (one : forall a b, In a (a0 :: g) -> In b (b0 :: h) -> succ E a b = true -> succ E b a = true -> False).
    { intros a b Ha Hb S1 S2. specialize (A a b Ha Hb). unfold related in A. rewrite S1, S2 in A. discriminate. }
    destruct (C b0 ltac:(left; auto)) as [K|K].
    - left. intros a b Ha Hb. apply succ_one_way; [|apply A; auto]. destruct (C' a Ha) as [K'|K']; auto. exfalso. assert (Hb0 : In b0 (b0 :: h)) by (left; auto). apply (one a b0); auto.
    - right. intros b a Hb Ha. apply succ_one_way; [|rewrite related_sym; apply A; auto]. destruct (C' a Ha) as [K'|K']; auto. exfalso. assert (Hb0 : In b0 (b0 :: h)) by (left; auto). apply (one a b0); auto.
  Qed.
  Variable ord : list nat -> list nat.
  Hypothesis ord_perm : forall l, Permutation (ord l) l.
  Lemma rep_in (g : group) : g <> [] -> In (hd 0 (ord g)) g.
  Proof.
    intros H. assert (L : length (ord g) = length g) by (apply Permutation_length, ord_perm). destruct (ord g) as [|x r] eqn:Eo; [destruct g; [congruence|discriminate]|].
    cbn. apply (ord_in ord ord_perm). rewrite Eo. left; auto.
  Qed.
  Lemma before_key g h n : g <> [] -> h <> [] -> before g h -> (seq_key ord E n g < seq_key ord E n h)%Z.
  Proof.
    intros Ng Nh B. unfold seq_key. set (a := hd 0 (ord g)). set (b := hd 0 (ord h)).
    destruct (B a b (rep_in g Ng) (rep_in h Nh)) as [P NP].
    assert (Nab : a <> b) by (intros Q; apply NP; rewrite Q; constructor).
    assert (L1 : length (a :: ancestors E a) <= length (ancestors E b)).
    { apply NoDup_incl_length.
      - constructor; [rewrite ancestors_spec; tauto|]. unfold ancestors. apply descendants_nodup.
      - intros x [<-|Hx]; apply ancestors_spec; [auto|]. apply ancestors_spec in Hx. split; [intros ->; apply NP; tauto|]. apply (path_trans _ _ a); tauto. }
    assert (L2 : length (b :: descendants E b) <= length (descendants E a)).
    { apply NoDup_incl_length.
      - constructor; [rewrite descendants_spec; tauto|]. apply descendants_nodup.
      - intros x [<-|Hx]; apply descendants_spec; [auto|]. apply descendants_spec in Hx. split; [intros ->; apply NP; tauto|]. apply (path_trans _ _ b); tauto. }
    cbn [length] in L1, L2. lia.
  Qed.
  Lemma good_nodup gs : good gs -> NoDup gs.
  Proof.
    intros (H1 & H2 & _). induction gs as [|g gs IH]; [constructor|]. constructor.
    - intros Hg. pose proof (Forall_inv H2) as N. destruct g as [|x g]; [congruence|]. apply (NoDup_app_disj (x :: g) (concat gs) x); auto; [left; auto|]. apply in_concat. exists (x :: g). split; auto. left; auto.
    - apply IH; [cbn in H1; apply NoDup_app_r in H1; auto|exact (Forall_inv_tail H2)].
  Qed.
  Lemma sort_chain gs n : good gs -> ForallOrdPairs apart gs -> StronglySorted before (sorted_by (seq_key ord E n) gs).
  Proof.
    intros G A. pose proof (good_nodup gs G) as ND. destruct G as (H1 & H2 & H3).
    assert (D : forall g h, In g gs -> In h gs -> g = h \/ before g h \/ before h g).
    { intros g h Hg Hh. destruct (ForallOrdPairs_In A g h Hg Hh) as [Q|[Q|Q]]; auto; right.
      - apply apart_before; auto; [apply (proj1 (Forall_forall _ _) H3 g)|apply (proj1 (Forall_forall _ _) H3 h)]; auto.
      - destruct (apart_before h g) as [K|K]; auto; [apply (proj1 (Forall_forall _ _) H3 h)|apply (proj1 (Forall_forall _ _) H3 g)]; auto. }
    pose proof (sorted_by_sorted (seq_key ord E n) gs) as Hs. pose proof (sorted_by_perm (seq_key ord E n) gs) as Hp.
    assert (ND' : NoDup (sorted_by (seq_key ord E n) gs)) by (apply (Permutation_NoDup Hp); auto).
    assert (Hin : forall g, In g (sorted_by (seq_key ord E n) gs) -> In g gs) by (intros g; apply Permutation_in, Permutation_sym; auto).
    revert Hs ND' Hin. generalize (sorted_by (seq_key ord E n) gs). intros l Hs. induction Hs as [|x l Hs IH Hf]; intros ND' Hin; [constructor|].
    inversion ND' as [|? ? N1 N2]; subst. constructor; [apply IH; auto; intros; apply Hin; right; auto|].
    apply Forall_forall. intros h Hh. destruct (D x h) as [->|[K|K]]; [apply Hin; left; auto|apply Hin; right; auto|contradiction|auto|]. exfalso.
    assert (Hk : (seq_key ord E n x <= seq_key ord E n h)%Z) by (apply (proj1 (Forall_forall _ _) Hf); auto).
    assert (seq_key ord E n h < seq_key ord E n x)%Z; [|lia].
    apply before_key; auto; apply (proj1 (Forall_forall _ _) H2); apply Hin; [right|left]; auto.
  Qed.
End Seq.

Section SeqHolds.
  Variable ord : list nat -> list nat.
  Hypothesis ord_perm : forall l, Permutation (ord l) l.
  Lemma concat_singles (l : list nat) : concat (map (fun a => [a]) l) = l.
  Proof. induction l; cbn; f_equal; auto. Qed.
  Lemma singles_good E (l : list nat) : NoDup l -> good E (map (fun a => [a]) l).
  Proof.
    intros H. split; [rewrite concat_singles; auto|]. split.
    - apply Forall_forall. intros g Hg. apply in_map_iff in Hg. destruct Hg as (a & <- & _). discriminate.
    - apply Forall_forall. intros g Hg. apply in_map_iff in Hg. destruct Hg as (a & <- & _). apply uniform_one.
  Qed.
  Lemma nonempties_perm l k : Permutation l k -> nonempties l -> nonempties k.
  Proof. intros P H. apply Forall_forall. intros x Hx. apply (proj1 (Forall_forall _ _) H). apply (Permutation_in x (Permutation_sym P)); auto. Qed.
  Lemma seq_cut g gs : seq_holds ord g = Some gs -> is_cut g gs /\ StronglySorted (before (edges g)) gs.
  Proof.
    unfold seq_holds. set (l := ord (get_vertices g)). destruct (map (fun a => [a]) l) as [|x r] eqn:El; [discriminate|]. rewrite <- El. clear x r El.
    assert (Nl : NoDup l) by (apply ord_nodup; auto; apply vertices_nodup).
    destruct (merge_loop_spec (edges g) (S (length (map (fun a => [a]) l))) (map (fun a => [a]) l) (Nat.lt_succ_diag_r _) (singles_good _ l Nl)) as (H1 & H2 & H3).
    rewrite concat_singles in H2. set (m := merge_loop _ _ _) in *.
    destruct (Nat.leb_spec 2 (length (sorted_by (seq_key ord (edges g) (length l)) m))) as [L|L]; [|discriminate]. intros [= <-].
    pose proof (sorted_by_perm (seq_key ord (edges g) (length l)) m) as P. split; [|apply sort_chain; auto]. split; [|split; auto].
    - transitivity (concat m); [apply concat_perm, Permutation_sym; auto|]. rewrite H2. apply ord_perm.
    - apply (nonempties_perm m); auto. apply H1.
  Qed.
End SeqHolds.
