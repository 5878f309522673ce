(** Inductive Miner: the concurrency and loop cuts. *)
From Coq Require Import List Arith Bool ZArith Lia Permutation Sorting.Sorted.
Import ListNotations.
From Verif Require Import Model_Dict Model_Dfg Model_Graph Model_Lev Model_Tree Model_IM Spec_Graph.
From Verif Require Import Proofs_Dict Proofs_Dfg Proofs_Graph Proofs_Lev Proofs_IM1 Proofs_IM3 Proofs_IM4.
Local Open Scope nat_scope.
Local Arguments keqb {K Key} : simpl never.
Local Arguments Nat.ltb : simpl never.
Local Arguments Nat.leb : simpl never.
Local Arguments Nat.eqb : simpl never.

(** ** Concurrency *)
Lemma join_first_spec g rest : forall x x' rest', NoDup (concat (x :: rest)) -> nonempties (x :: rest) -> join_first g x rest = Some (x', rest') ->
  Permutation (concat (x' :: rest')) (concat (x :: rest)) /\ nonempties (x' :: rest').
Proof.
  induction rest as [|y r IH]; intros x x' rest' H1 H2; cbn [join_first]; [discriminate|].
  pose proof (Forall_inv H2) as N1. pose proof (Forall_inv_tail H2) as N2.
  destruct (disconnected g x y).
  - intros [= <- <-]. cbn [concat] in *. assert (E : sunion x y = x ++ y). { apply sunion_app. rewrite app_assoc in H1. apply NoDup_app_l in H1. auto. }
    rewrite E, <- app_assoc. split; [reflexivity|]. constructor; [|exact (Forall_inv_tail N2)]. rewrite <- E. apply sunion_nonempty; auto.
  - destruct (join_first g x r) as [[x1 r1]|] eqn:J; [|discriminate]. intros [= <- <-].
    assert (P0 : Permutation (concat (x :: y :: r)) (concat (y :: x :: r))) by apply concat_perm, perm_swap.
    destruct (IH x x1 r1) as [I1 I2]; auto.
    + apply (Permutation_NoDup P0) in H1. cbn [concat] in H1. apply NoDup_app_r in H1. auto.
    + constructor; auto. exact (Forall_inv_tail N2).
    + split.
      * transitivity (concat (y :: x1 :: r1)); [apply concat_perm, perm_swap|]. rewrite P0. cbn [concat] in *. apply Permutation_app_head; auto.
      * constructor; [exact (Forall_inv I2)|]. constructor; [exact (Forall_inv N2)|exact (Forall_inv_tail I2)].
Qed.
Lemma par_step_spec g gs : forall gs', NoDup (concat gs) -> nonempties gs -> par_step g gs = Some gs' -> Permutation (concat gs') (concat gs) /\ nonempties gs'.
Proof.
  induction gs as [|x r IH]; intros gs' H1 H2; cbn [par_step]; [discriminate|]. destruct (join_first g x r) as [[x' r']|] eqn:J.
  - intros [= <-]. apply (join_first_spec g r x x' r'); auto.
  - destruct (par_step g r) as [r'|] eqn:P; [|discriminate]. intros [= <-]. destruct (IH r') as [I1 I2]; auto; [cbn in H1; apply NoDup_app_r in H1; auto|exact (Forall_inv_tail H2)|].
    split; [cbn [concat]; apply Permutation_app_head; auto|]. constructor; auto. exact (Forall_inv H2).
Qed.
Lemma par_loop_spec g fuel : forall gs, NoDup (concat gs) -> nonempties gs -> Permutation (concat (par_loop g fuel gs)) (concat gs) /\ nonempties (par_loop g fuel gs).
Proof.
  induction fuel as [|n IH]; intros gs H1 H2; cbn [par_loop]; [auto|]. destruct (par_step g gs) as [gs'|] eqn:P; auto.
  destruct (par_step_spec g gs gs' H1 H2 P) as [I1 I2]. destruct (IH gs') as [J1 J2]; auto; [apply (Permutation_NoDup (Permutation_sym I1)); auto|]. split; auto. rewrite J1; auto.
Qed.
Lemma concat_rev {X} (l : list (list X)) : Permutation (concat (rev l)) (concat l).
Proof. apply concat_perm, Permutation_sym, Permutation_rev. Qed.
Lemma par_settle_spec g fuel : forall front rest, NoDup (concat (front ++ rest)) -> nonempties (front ++ rest) ->
  Permutation (concat (par_settle g fuel front rest)) (concat (front ++ rest)) /\ nonempties (par_settle g fuel front rest).
Proof.
  assert (base : forall front rest, nonempties (front ++ rest) -> Permutation (concat (rev front ++ rest)) (concat (front ++ rest)) /\ nonempties (rev front ++ rest)).
  { intros front rest H. assert (P : Permutation (rev front ++ rest) (front ++ rest)) by (apply Permutation_app_tail, Permutation_sym, Permutation_rev). split; [apply concat_perm; auto|]. apply (nonempties_perm (front ++ rest)); auto. apply Permutation_sym; auto. }
  induction fuel as [|n IH]; intros front rest H1 H2; cbn [par_settle]; [auto|]. destruct rest as [|x r]; [auto|].
  match goal with |- context [if ?b then _ else _] => destruct b end; [|auto].
  assert (step : forall front' rest', Permutation (concat (front' ++ rest')) (concat (front ++ x :: r)) -> nonempties (front' ++ rest') ->
    Permutation (concat (par_settle g n front' rest')) (concat (front ++ x :: r)) /\ nonempties (par_settle g n front' rest')).
  { intros f' r' P N. destruct (IH f' r') as [I1 I2]; auto; [apply (Permutation_NoDup (Permutation_sym P)); auto|]. split; auto. rewrite I1; auto. }
  assert (Nall : forall h, In h (front ++ x :: r) -> h <> []) by (apply Forall_forall; auto).
  destruct (has_start_end g x).
  - assert (P : Permutation ((x :: front) ++ r) (front ++ x :: r)) by (cbn; apply Permutation_middle). apply step; [apply concat_perm; auto|]. apply (nonempties_perm (front ++ x :: r)); auto. apply Permutation_sym; auto.
  - destruct front as [|f fs].
    + destruct r as [|y r']; [cbn; split; auto|]. cbn [app] in *. cbn [concat] in H1.
      assert (E : sunion y x = y ++ x).
      { apply sunion_app. rewrite app_assoc in H1. apply NoDup_app_l in H1. apply (Permutation_NoDup (Permutation_app_comm x y)). auto. }
      apply (step [] (sunion y x :: r')); cbn [app concat].
      * rewrite E. rewrite (app_assoc x y). apply Permutation_app_tail, Permutation_app_comm.
      * constructor; [apply sunion_nonempty; apply (Nall y); right; left; auto|]. apply Forall_forall. intros h Hh. apply Nall. right; right; auto.
    + cbn [app] in *. cbn [concat] in H1. rewrite concat_app in H1. cbn [concat] in H1.
      assert (P1 : Permutation (f ++ concat fs ++ x ++ concat r) ((f ++ x) ++ concat fs ++ concat r)).
      { rewrite <- app_assoc. apply Permutation_app_head. rewrite !app_assoc. apply Permutation_app_tail, Permutation_app_comm. }
      assert (E : sunion f x = f ++ x). { apply sunion_app. apply (Permutation_NoDup P1) in H1. apply NoDup_app_l in H1. auto. }
      apply (step (sunion f x :: fs) r); cbn [app concat].
      * rewrite E, !concat_app. cbn [concat]. symmetry. apply P1.
      * constructor; [apply sunion_nonempty, Nall; left; auto|]. apply Forall_forall. intros h Hh. apply Nall. apply in_app_or in Hh. right. apply in_or_app. destruct Hh; auto. right; right; auto.
Qed.
Lemma par_cut g gs : par_holds g = Some gs -> is_cut g gs.
Proof.
  unfold par_holds. set (l := sorted_by Z.of_nat (get_vertices g)). destruct (map (fun a => [a]) l) as [|x r] eqn:El; [discriminate|]. rewrite <- El. clear x r El.
  assert (Pl : Permutation l (get_vertices g)) by apply Permutation_sym, sorted_by_perm.
  assert (Nl : NoDup l) by (apply (Permutation_NoDup (Permutation_sym Pl)), vertices_nodup).
  set (gs0 := map (fun a => [a]) l). destruct (singles_good [] l Nl) as (G1 & G2 & _). fold gs0 in G1, G2.
  destruct (par_loop_spec g (length gs0) gs0 G1 G2) as [I1 I2]. set (gs1 := par_loop g (length gs0) gs0) in *.
  pose proof (sorted_by_perm (fun x => Z.of_nat (length x)) gs1) as P2. set (gs2 := sorted_by (fun x : list nat => Z.of_nat (length x)) gs1) in *.
  assert (I3 : Permutation (concat gs2) (concat gs0)) by (rewrite <- I1; apply concat_perm, Permutation_sym; auto).
  destruct (par_settle_spec g (length gs2) [] gs2) as [J1 J2]; cbn [app]; [apply (Permutation_NoDup (Permutation_sym I3)); auto|apply (nonempties_perm gs1); auto|].
  destruct (Nat.leb_spec 2 (length (par_settle g (length gs2) [] gs2))) as [L|L]; [|discriminate]. intros [= <-].
  split; [|split; auto]. cbn [app] in J1. rewrite J1, I3. unfold gs0. rewrite concat_singles. auto.
Qed.

(** ** Loops *)
Section LoopCut.
  Variable ord : list nat -> list nat.
  Hypothesis ord_perm : forall l, Permutation (ord l) l.
  Variable g : dfg.
  Let s := d_keys (start_acts g).
  Let e := d_keys (end_acts g).
  Let R0 := loop_components ord g s e.
  Definition loop_inv (gs : list group) : Prop := exists do redo, gs = do :: redo /\ Permutation (concat gs) (get_vertices g) /\ nonempties redo /\
    incl s do /\ incl e do /\ incl redo R0.
  Hypothesis nd_s : NoDup s.
  Lemma loop_init : loop_inv (sunion s e :: R0).
  Proof.
    set (E' := filter (fun ab : edge => negb (smem (fst ab) s || smem (fst ab) e || smem (snd ab) s || smem (snd ab) e)) (edges g)).
    set (N' := sdiff (sdiff (ord (get_vertices g)) s) e).
    assert (HN : forall x, In x N' <-> In x (get_vertices g) /\ ~ In x s /\ ~ In x e). { intros x. unfold N'. rewrite !sdiff_in, (ord_in ord ord_perm). tauto. }
    destruct (components_partition E' N') as (H1 & H2 & H3 & H4).
    { intros a b H. apply filter_In in H. destruct H as [He Hn]. cbn in Hn. rewrite negb_true_iff, !orb_false_iff, !smem_false in Hn. apply edge_vertices in He. rewrite !HN. tauto. }
    exists (sunion s e), R0. split; auto. change R0 with (connected_components E' N'). split; [|split; [auto|split; [|split; [|apply incl_refl]]]].
    - apply NoDup_Permutation.
      + cbn [concat]. apply NoDup_app_intro; auto; [apply sunion_nodup; auto|]. intros x Hx Hy. apply H2, HN in Hy. apply sunion_in in Hx. tauto.
      + apply vertices_nodup.
      + intros x. cbn [concat]. rewrite in_app_iff, sunion_in, H2, HN.
        assert (In x s \/ In x e -> In x (get_vertices g)) by (intros; apply vertices_in; right; auto).
        destruct (in_dec Nat.eq_dec x s), (in_dec Nat.eq_dec x e); tauto.
    - intros x Hx. apply sunion_in. auto.
    - intros x Hx. apply sunion_in. auto.
  Qed.
  Lemma R0_closed c x y : In c R0 -> In x c -> In (x, y) (edges g) \/ In (y, x) (edges g) -> ~ In y s -> ~ In y e -> In y c.
  Proof.
    intros Hc Hx He Ns Ne.
    set (E' := filter (fun ab : edge => negb (smem (fst ab) s || smem (fst ab) e || smem (snd ab) s || smem (snd ab) e)) (edges g)).
    set (N' := sdiff (sdiff (ord (get_vertices g)) s) e).
    assert (HN : forall x, In x N' <-> In x (get_vertices g) /\ ~ In x s /\ ~ In x e). { intros z. unfold N'. rewrite !sdiff_in, (ord_in ord ord_perm). tauto. }
    destruct (components_partition E' N') as (H1 & H2 & H3 & H4).
    { intros a b H. apply filter_In in H. destruct H as [He' Hn]. cbn in Hn. rewrite negb_true_iff, !orb_false_iff, !smem_false in Hn. apply edge_vertices in He'. rewrite !HN. tauto. }
    change R0 with (connected_components E' N') in Hc. apply (H4 c x y Hc Hx).
    assert (Hx' : In x N') by (apply H2, in_concat; eauto). apply HN in Hx'.
    destruct He as [He|He]; [left|right]; apply filter_In; (split; [exact He|]); cbn; rewrite negb_true_iff, !orb_false_iff, !smem_false; tauto.
  Qed.
  Lemma group_of_gen (gs : list group) a : forall r, (forall h, In h gs -> ~ In a h) -> fold_left (fun r h => if smem a h then h else r) gs r = r.
  Proof.
    induction gs as [|h gs IH]; intros r H; cbn; auto. assert (M : smem a h = false) by (apply smem_false, H; left; auto). rewrite M. apply IH. intros; apply H; right; auto.
  Qed.
  Lemma group_of_spec (gs : list group) a h : NoDup (concat gs) -> In h gs -> In a h -> group_of a gs = h.
  Proof.
    unfold group_of. generalize (@nil nat). induction gs as [|k gs IH]; intros r H Hh Ha; [destruct Hh|]. cbn [fold_left]. cbn [concat] in H. destruct Hh as [->|Hh].
    - assert (M : smem a h = true) by (apply smem_in; auto). rewrite M. apply group_of_gen. intros k Hk Ha'. apply (NoDup_app_disj _ _ a H Ha). apply in_concat. eauto.
    - apply IH; auto. apply NoDup_app_r in H; auto.
  Qed.
  Lemma sunion_absorb (t : list nat) : forall u, incl t u -> sunion u t = u.
  Proof.
    induction t as [|y t IH]; intros u H; auto. change (sunion (sadd u y) t = u). assert (M : smem y u = true) by (apply smem_in, H; left; auto). unfold sadd. rewrite M. apply IH. intros x Hx; apply H; right; auto.
  Qed.
  (** in a list of disjoint groups, set equality with a nonempty member is equality *)
  Lemma set_eqb_mem (gs : list group) h k : NoDup (concat gs) -> In h gs -> In k gs -> k <> [] -> set_eqb h k = true -> h = k.
  Proof.
    intros H Hh Hk Nk E. pose proof (proj1 (set_eqb_in _ _) E) as E'. clear E. rename E' into E. destruct k as [|x k]; [congruence|]. assert (Hx : In x h) by (apply E; left; auto).
    rewrite <- (group_of_spec gs x h H Hh Hx). apply group_of_spec; auto. left; auto.
  Qed.
  Lemma filter_all {X} (f : X -> bool) l : (forall x, In x l -> f x = true) -> filter f l = l.
  Proof. induction l as [|x l IH]; intros H; cbn; auto. rewrite (H x ltac:(left; auto)), IH; auto. intros; apply H; right; auto. Qed.
  Lemma filter_one_out (gs : list group) (f : group -> bool) h : NoDup (concat gs) -> nonempties gs -> In h gs -> (forall k, In k gs -> f k = false <-> k = h) ->
    Permutation (h ++ concat (filter f gs)) (concat gs).
  Proof.
    induction gs as [|k gs IH]; intros H N Hh Hf; [destruct Hh|]. cbn [concat] in H. cbn [filter]. destruct Hh as [->|Hh].
    - assert (F : f h = false) by (apply Hf; [left|]; auto). rewrite F. cbn [concat].
      rewrite (filter_all f gs); [reflexivity|]. intros k Hk. destruct (f k) eqn:Fk; auto. exfalso. apply Hf in Fk; [|right; auto]. subst k.
      pose proof (Forall_inv N) as Nh. destruct h as [|x h]; [congruence|]. apply (NoDup_app_disj _ _ x H); [left; auto|]. apply in_concat. exists (x :: h). split; auto. left; auto.
    - assert (P : Permutation (h ++ concat (filter f gs)) (concat gs)). { apply IH; auto; [apply NoDup_app_r in H; auto|exact (Forall_inv_tail N)|]. intros k' Hk'. apply Hf. right; auto. }
      assert (F : f k = true).
      { destruct (f k) eqn:Fk; auto. exfalso. apply Hf in Fk; [|left; auto]. subst k. pose proof (Forall_inv N) as Nh. destruct h as [|x h]; [congruence|]. apply (NoDup_app_disj _ _ x H); [left; auto|]. apply in_concat. exists (x :: h). split; auto. left; auto. }
      rewrite F. cbn [concat]. rewrite <- P, !app_assoc. apply Permutation_app_tail, Permutation_app_comm.
  Qed.
  Lemma merge_front_inv gs a b : loop_inv gs -> In a (concat gs) -> In b (concat gs) -> In a s \/ In b e -> loop_inv (merge_front gs (a, b)).
  Proof.
    intros (do & redo & -> & P & Nr & Is & Ie & Ir) Ha Hb Hab.
    assert (ND : NoDup (concat (do :: redo))) by (apply (Permutation_NoDup (Permutation_sym P)), vertices_nodup).
    assert (Hdo : In a do \/ In b do) by (destruct Hab; auto).
    apply in_concat in Ha, Hb. destruct Ha as (ga & Hga & Ha), Hb as (gb & Hgb & Hb).
    assert (Na : ga <> []) by (intros ->; auto). assert (Nb : gb <> []) by (intros ->; auto).
    unfold merge_front. cbn [fst snd]. rewrite (group_of_spec _ a ga ND Hga Ha), (group_of_spec _ b gb ND Hgb Hb).
    assert (Nd : do <> []) by (intros ->; destruct Hdo as [[]|[]]).
    assert (Na' : nonempties (do :: redo)) by (constructor; auto).
    (* ga or gb is do *)
    assert (Hd : ga = do \/ gb = do).
    { destruct Hdo as [Hd|Hd]; [left|right]; [rewrite <- (group_of_spec _ a ga ND Hga Ha)|rewrite <- (group_of_spec _ b gb ND Hgb Hb)]; apply group_of_spec; auto; left; auto. }
    assert (filt : forall h, In h (do :: redo) -> h <> [] -> forall k, In k (do :: redo) -> set_eqb k h = true <-> k = h).
    { intros h Hh Nh k Hk. split; [apply (set_eqb_mem (do :: redo)); auto|]. intros ->. apply set_eqb_in. tauto. }
    set (f := fun x : group => negb (set_eqb x ga) && negb (set_eqb x gb)).
    assert (Fd : f do = false). { unfold f. destruct Hd as [->|Hd]; [|rewrite Hd]; rewrite (proj2 (filt do ltac:(left; auto) Nd do ltac:(left; auto)) eq_refl); cbn; rewrite ?andb_false_r; auto. }
    assert (Etail : filter f (do :: redo) = filter f redo) by (cbn [filter]; rewrite Fd; auto).
    exists (sunion ga gb), (filter f redo). split; [exact (f_equal (cons (sunion ga gb)) Etail)|].
    assert (Perm : Permutation (sunion ga gb ++ concat (filter f (do :: redo))) (concat (do :: redo))).
    { destruct (list_eq_dec Nat.eq_dec ga gb) as [E|N].
      - subst gb. rewrite sunion_absorb by apply incl_refl. apply filter_one_out; auto. intros k Hk. unfold f. rewrite andb_diag, negb_false_iff. apply filt; auto.
      - (* one of them is do, the other one is in redo *)
        assert (T : exists h, In h redo /\ h <> do /\ Permutation (sunion ga gb) (do ++ h) /\ forall k, In k (do :: redo) -> f k = false <-> k = do \/ k = h).
        { assert (Eu : sunion ga gb = ga ++ gb).
          { apply sunion_app. apply NoDup_app_intro; [| |].
            - destruct (nth_concat_nodup _ ND) as [U _]. apply (In_nth _ _ []) in Hga. destruct Hga as (i & _ & <-). apply U.
            - destruct (nth_concat_nodup _ ND) as [U _]. apply (In_nth _ _ []) in Hgb. destruct Hgb as (i & _ & <-). apply U.
            - intros x Hx Hy. apply N. rewrite <- (group_of_spec _ x ga ND Hga Hx). apply group_of_spec; auto. }
          destruct Hd as [->| ->].
          - exists gb. split; [destruct Hgb as [Q|Q]; [congruence|auto]|]. split; [auto|]. split; [rewrite Eu; reflexivity|].
            intros k Hk. unfold f. rewrite andb_false_iff, !negb_false_iff, !filt; auto. tauto.
          - exists ga. split; [destruct Hga as [Q|Q]; [congruence|auto]|]. split; [auto|]. split; [rewrite Eu; apply Permutation_app_comm|].
            intros k Hk. unfold f. rewrite andb_false_iff, !negb_false_iff, !filt; auto. tauto. }
        destruct T as (h & Hh & Nh & Pu & Ff). rewrite Etail. rewrite Pu, <- app_assoc. cbn [concat]. apply Permutation_app_head.
        apply filter_one_out; auto; [cbn in ND; apply NoDup_app_r in ND; auto|]. intros k Hk. rewrite Ff by (right; auto). split; auto. intros [->|]; auto. exfalso.
        cbn in ND. destruct do as [|x do]; [congruence|]. apply (NoDup_app_disj _ _ x ND); [left; auto|]. apply in_concat. exists (x :: do). split; auto. left; auto. }
    split; [|split; [|split; [|split]]].
    - exact (Permutation_trans Perm P).
    - apply Forall_forall. intros k Hk. apply filter_In in Hk. apply (proj1 (Forall_forall _ _) Nr). tauto.
    - intros x Hx. apply sunion_in. destruct Hd as [->| ->]; auto.
    - intros x Hx. apply sunion_in. destruct Hd as [->| ->]; auto.
    - intros k Hk. apply filter_In in Hk. apply Ir. tauto.
  Qed.
  Lemma inv_cover gs x : loop_inv gs -> In x (get_vertices g) -> In x (concat gs).
  Proof. intros (do & redo & -> & P & _) H. apply (Permutation_in x (Permutation_sym P)); auto. Qed.
  Lemma excl_start_inv gs : loop_inv gs -> loop_inv (excl_start ord g s e gs).
  Proof.
    unfold excl_start. assert (Hs : forall a, In a (ord (sdiff s e)) -> In a s) by (intros a Ha; apply (ord_in ord ord_perm), sdiff_in in Ha; tauto).
    revert Hs gs. generalize (ord (sdiff s e)). intros l. induction l as [|a l IH]; intros Hs gs I; [exact I|]. cbn [fold_left]. apply IH; [intros; apply Hs; right; auto|]. clear IH.
    assert (Hes : forall xb, In xb (filter (fun xb : nat * nat => Nat.eqb (fst xb) a) (edges g)) -> In xb (edges g) /\ fst xb = a) by (intros xb Hxb; apply filter_In in Hxb; destruct Hxb as [? Q]; apply Nat.eqb_eq in Q; auto).
    revert Hes gs I. generalize (filter (fun xb : nat * nat => Nat.eqb (fst xb) a) (edges g)). intros l0. induction l0 as [|[x b] es IH]; intros Hes gs I; [exact I|]. cbn [fold_left]. apply IH; [intros; apply Hes; right; auto|].
    destruct (Hes (x, b) ltac:(left; auto)) as [He Ex]. cbn in Ex. subst x. pose proof (edge_vertices _ _ _ He). apply merge_front_inv; auto; [apply inv_cover; tauto|apply inv_cover; tauto|left; apply Hs; left; auto].
  Qed.
  Lemma excl_end_inv gs : loop_inv gs -> loop_inv (excl_end ord g s e gs).
  Proof.
    unfold excl_end. assert (Hs : forall a, In a (ord (sdiff e s)) -> In a e) by (intros a Ha; apply (ord_in ord ord_perm), sdiff_in in Ha; tauto).
    revert Hs gs. generalize (ord (sdiff e s)). intros l. induction l as [|b l IH]; intros Hs gs I; [exact I|]. cbn [fold_left]. apply IH; [intros; apply Hs; right; auto|]. clear IH.
    assert (Hes : forall ax, In ax (filter (fun ax : nat * nat => Nat.eqb (snd ax) b) (edges g)) -> In ax (edges g) /\ snd ax = b) by (intros xb Hxb; apply filter_In in Hxb; destruct Hxb as [? Q]; apply Nat.eqb_eq in Q; auto).
    revert Hes gs I. generalize (filter (fun ax : nat * nat => Nat.eqb (snd ax) b) (edges g)). intros l0. induction l0 as [|[a x] es IH]; intros Hes gs I; [exact I|]. cbn [fold_left]. apply IH; [intros; apply Hes; right; auto|].
    destruct (Hes (a, x) ltac:(left; auto)) as [He Ex]. cbn in Ex. subst x. pose proof (edge_vertices _ _ _ He). apply merge_front_inv; auto; [apply inv_cover; tauto|apply inv_cover; tauto|right; apply Hs; left; auto].
  Qed.
  Lemma complete_spec bad redo : forall do, NoDup (concat (do :: redo)) -> nonempties redo -> exists do' redo', complete bad do redo = do' :: redo' /\
    Permutation (concat (do' :: redo')) (concat (do :: redo)) /\ nonempties redo' /\ incl do do' /\ incl redo' redo.
  Proof.
    induction redo as [|x r IH]; intros do ND N; cbn [complete].
    - exists do, []. repeat split; auto; apply incl_refl.
    - destruct (bad x).
      + cbn [concat] in ND. assert (Eu : sunion do x = do ++ x). { apply sunion_app. rewrite app_assoc in ND. apply NoDup_app_l in ND. auto. }
        destruct (IH (sunion do x)) as (do' & redo' & H1 & H2 & H3 & H4 & H5); [cbn [concat]; rewrite Eu, <- app_assoc; auto|exact (Forall_inv_tail N)|].
        exists do', redo'. split; auto. split; [rewrite H2; cbn [concat]; rewrite Eu, <- app_assoc; reflexivity|]. split; auto. split; [|intros k Hk; right; auto]. intros y Hy. apply H4. apply sunion_in; auto.
      + destruct (IH do) as (do' & redo' & H1 & H2 & H3 & H4 & H5); [|exact (Forall_inv_tail N)|].
        { assert (P : Permutation (concat (do :: x :: r)) (concat (x :: do :: r))) by apply concat_perm, perm_swap. apply (Permutation_NoDup P) in ND. cbn [concat] in ND. apply NoDup_app_r in ND. auto. }
        rewrite H1. exists do', (x :: redo'). split; auto. split; [|split; [constructor; auto; exact (Forall_inv N)|split; auto]].
        * transitivity (concat (x :: do' :: redo')); [apply concat_perm, perm_swap|]. transitivity (concat (x :: do :: r)); [|apply concat_perm, perm_swap]. cbn [concat] in *. apply Permutation_app_head. auto.
        * intros k [<-|Hk]; [left|right]; auto.
  Qed.
  Lemma check_complete_inv bad gs : loop_inv gs -> loop_inv (check_complete bad gs).
  Proof.
    intros (do & redo & -> & P & Nr & Is & Ie & Ir). cbn [check_complete].
    destruct (complete_spec bad redo do) as (do' & redo' & H1 & H2 & H3 & H4 & H5); auto; [apply (Permutation_NoDup (Permutation_sym P)), vertices_nodup|].
    rewrite H1. exists do', redo'. split; auto. split; [rewrite H2; auto|]. split; auto. split; [intros x Hx; auto|split; [intros x Hx; auto|intros k Hk; auto]].
  Qed.
End LoopCut.
Theorem loop_cut ord (ord_perm : forall l, Permutation (ord l) l) g gs : NoDup (d_keys (start_acts g)) -> loop_holds ord g = Some gs -> is_cut g gs /\
  (d_keys (start_acts g) <> [] -> exists do redo, gs = do :: redo /\ incl (d_keys (start_acts g)) do /\ incl (d_keys (end_acts g)) do /\
    (forall c x y, In c redo -> In x c -> In (x, y) (edges g) \/ In (y, x) (edges g) -> ~ In y do -> In y c)).
Proof.
  intros nd. unfold loop_holds. set (s := d_keys (start_acts g)) in *. set (e := d_keys (end_acts g)). destruct (is_nil (edges g)); [discriminate|].
  match goal with |- context [filter nonempty ?G] => set (G0 := G) end.
  assert (I : loop_inv ord g G0) by (unfold G0; apply check_complete_inv, check_complete_inv, excl_end_inv, excl_start_inv, loop_init; auto).
  destruct (Nat.leb_spec 2 (length (filter nonempty G0))) as [L|L]; [|discriminate]. intros [= <-].
  destruct I as (do & redo & E & P & Nr & Is & Ie & Ir). split; [split; [rewrite concat_filter_nonempty; auto|split; [apply filter_nonempties|auto]]|].
  intros Ns. rewrite E. exists do, redo.
  assert (Nd : do <> []) by (destruct s as [|x s'] eqn:Es; [congruence|]; intros ->; apply (Is x); fold s; rewrite Es; left; auto).
  split; [|split; [auto|split; [auto|]]].
  - cbn [filter]. destruct do as [|x do]; [congruence|]. cbn [nonempty is_nil negb]. f_equal. apply filter_all. intros k Hk. destruct k; auto. exfalso. apply (proj1 (Forall_forall _ _) Nr [] Hk eq_refl).
  - intros c x y Hc Hx He Hy. eapply R0_closed; eauto; intros Q; apply Hy; auto.
Qed.
