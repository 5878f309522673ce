(** Counting pairs of events. *)
From Coq Require Import List Arith ZArith Bool Lia Permutation Sorted.
Import ListNotations.
From Verif Require Import Model_Dict Model_Lev Model_Interval Spec_Interval Spec_Dfg Proofs_Dict Proofs_Dfg Proofs_Lev.
Local Open Scope nat_scope.

Section Pairs.
  Context {X : Type}.
  Fixpoint opairs (l : list X) : list (X * X) := match l with [] => [] | x :: r => map (pair x) r ++ opairs r end.
  Fixpoint fpairs (R : X -> X -> bool) (l : list X) : list (X * X) :=
    match l with [] => [] | x :: r => (match find (R x) r with Some y => [(x, y)] | None => [] end) ++ fpairs R r end.
  Lemma opairs_sub l x y : In (x, y) (opairs l) -> In x l /\ In y l.
  Proof.
    induction l as [|z l IH]; cbn; [tauto|]. rewrite in_app_iff, in_map_iff. intros [(w & [= <- <-] & H)|H]; [auto|]. destruct (IH H); auto.
  Qed.
  Lemma opairs_nodup l : NoDup l -> NoDup (opairs l).
  Proof.
    induction 1 as [|x l Hx Hn IH]; cbn; [constructor|]. apply NoDup_app_intro; auto.
    - apply FinFun.Injective_map_NoDup; auto. intros a b [= ->]; auto.
    - intros p Hp Hq. apply in_map_iff in Hp as (y & <- & _). apply opairs_sub in Hq as [H _]. auto.
  Qed.
  Lemma opairs_in (R : X -> X -> Prop) l x y : (forall a, ~ R a a) -> (forall a b, R a b -> ~ R b a) -> StronglySorted R l ->
    (In (x, y) (opairs l) <-> In x l /\ In y l /\ R x y).
  Proof.
    intros Hi Ha Hs. induction Hs as [|z l Hs IH HF]; cbn; [tauto|]. rewrite in_app_iff, in_map_iff, IH. rewrite Forall_forall in HF. split.
    - intros [(w & [= <- <-] & H)|H]; [auto 6|tauto].
    - intros ([->|Hx] & [->|Hy] & HR); [destruct (Hi _ HR)|left; eauto|exfalso; apply (Ha _ _ HR); auto|auto].
  Qed.
  Lemma fpairs_sub R l p : In p (fpairs R l) -> In p (opairs l).
  Proof.
    induction l as [|x l IH]; cbn; [auto|]. rewrite !in_app_iff. intros [H|H]; [left|right; auto]. destruct (find (R x) l) eqn:E; [|destruct H]. destruct H as [<-|[]]. apply in_map. apply find_some in E. tauto.
  Qed.
  Lemma fpairs_nodup R l : NoDup l -> NoDup (fpairs R l).
  Proof.
    induction 1 as [|x l Hx Hn IH]; cbn; [constructor|]. apply NoDup_app_intro; auto.
    - destruct (find (R x) l); repeat constructor. intros [].
    - intros [u v] Hp Hq. assert (u = x) by (destruct (find (R x) l); [destruct Hp as [[= <- _]|[]]; auto|destruct Hp]). subst. apply fpairs_sub, opairs_sub in Hq as [H _]. auto.
  Qed.
  Lemma find_first (f : X -> bool) (S : X -> X -> Prop) l y : (forall a, ~ S a a) -> (forall a b, S a b -> ~ S b a) -> StronglySorted S l ->
    (find f l = Some y <-> In y l /\ f y = true /\ forall z, In z l -> f z = true -> z = y \/ S y z).
  Proof.
    intros Hi Ha Hs. induction Hs as [|x l Hs IH HF]; cbn; [split; [discriminate|intros ([] & _)]|]. rewrite Forall_forall in HF. destruct (f x) eqn:Ef.
    - split; [intros [= <-]; split; [auto|]; split; [auto|]; intros z [->|Hz] _; auto|]. intros ([->|Hy] & Hfy & Hm); auto. f_equal. destruct (Hm x (or_introl eq_refl) Ef) as [?|Hc]; auto. destruct (Ha _ _ Hc). auto.
    - rewrite IH. split; intros (H1 & H2 & H3); split; auto.
      + split; auto. intros z [->|Hz] Hf; [congruence|auto].
      + destruct H1 as [->|]; [congruence|auto].
  Qed.
  Lemma fpairs_in (S : X -> X -> Prop) R l x y : (forall a, ~ S a a) -> (forall a b, S a b -> ~ S b a) -> StronglySorted S l ->
    (In (x, y) (fpairs R l) <-> In x l /\ In y l /\ S x y /\ R x y = true /\ forall z, In z l -> S x z -> R x z = true -> z = y \/ S y z).
  Proof.
    intros Hi Ha Hs. induction Hs as [|u l Hs IH HF]; cbn; [tauto|]. rewrite in_app_iff, IH. rewrite Forall_forall in HF.
    assert (E : In (x, y) (match find (R u) l with Some y0 => [(u, y0)] | None => [] end) <-> x = u /\ find (R u) l = Some y).
    { destruct (find (R u) l) as [v|]; cbn; [split; [intros [[= <- <-]|[]]; auto|intros [-> [= ->]]; auto]|split; [tauto|intros [_ H]; discriminate]]. }
    rewrite E, (find_first (R u) S l y Hi Ha Hs). clear E. split.
    - intros [(-> & H1 & H2 & H3)|(H1 & H2 & H3 & H4 & H5)].
      + split; [auto|]. split; [auto|]. split; [auto|]. split; [auto|]. intros z [->|Hz] HS HR; [destruct (Hi _ HS)|auto].
      + split; [auto|]. split; [auto|]. split; [auto|]. split; [auto|]. intros z [->|Hz] HS HR; [destruct (Ha _ _ HS); auto|auto].
    - intros ([->|H1] & [->|H2] & H3 & H4 & H5).
      + destruct (Hi _ H3).
      + left; repeat (split; auto).
      + destruct (Ha _ _ H3). auto.
      + right; repeat (split; auto).
  Qed.
End Pairs.
Lemma opairs_map {X Y} (f : X -> Y) l : opairs (map f l) = map (fun p => (f (fst p), f (snd p))) (opairs l).
Proof. induction l as [|x l IH]; cbn; [auto|]. rewrite map_app, IH, !map_map. reflexivity. Qed.
Lemma find_map {X Y} (f : X -> Y) (p : Y -> bool) l : find p (map f l) = option_map f (find (fun x => p (f x)) l).
Proof. induction l as [|x l IH]; cbn; [auto|]. destruct (p (f x)); auto. Qed.
Lemma fpairs_map {X Y} (f : X -> Y) R l : fpairs R (map f l) = map (fun p => (f (fst p), f (snd p))) (fpairs (fun a b => R (f a) (f b)) l).
Proof. induction l as [|x l IH]; cbn; [auto|]. rewrite map_app, IH, find_map. destruct (find _ l); reflexivity. Qed.
Lemma insert_by_map {X Y} (f : X -> Y) key x l : map f (insert_by (fun a => key (f a)) x l) = insert_by key (f x) (map f l).
Proof. induction l as [|y l IH]; cbn; [auto|]. destruct (key (f x) <=? key (f y))%Z; cbn; [auto|]. rewrite IH. auto. Qed.
Lemma sorted_by_map {X Y} (f : X -> Y) key l : map f (sorted_by (fun a => key (f a)) l) = sorted_by key (map f l).
Proof. induction l as [|x l IH]; cbn; [auto|]. rewrite insert_by_map, IH. auto. Qed.

(** * Tagged events *)
Definition tev := (nat * iev)%type.
Definition tkey (x : tev) : Z := ie_start (snd x).
Definition before (x y : tev) : Prop := earlier (fst x) (fst y) (snd x) (snd y).
Lemma before_irr x : ~ before x x. Proof. unfold before, earlier. lia. Qed.
Lemma before_asym x y : before x y -> ~ before y x. Proof. unfold before, earlier. lia. Qed.
Lemma before_trans x y z : before x y -> before y z -> before x z. Proof. unfold before, earlier. lia. Qed.
Lemma insert_before x l : (forall y, In y l -> fst x < fst y) -> StronglySorted before l -> StronglySorted before (insert_by tkey x l).
Proof.
  intros Hx Hs. induction Hs as [|y l Hs IH HF]; cbn; [repeat constructor|]. rewrite Forall_forall in HF. destruct (Z.leb_spec (tkey x) (tkey y)) as [Hk|Hk].
  - assert (B : before x y). { unfold before, earlier. unfold tkey in Hk. pose proof (Hx y (or_introl eq_refl)). lia. }
    constructor; [constructor; auto; apply Forall_forall; auto|]. constructor; auto. apply Forall_forall. intros z Hz. eapply before_trans; eauto.
  - constructor; [apply IH; intros; apply Hx; right; auto|]. apply Forall_forall. intros z Hz. apply (Permutation_in _ (Permutation_sym (insert_by_perm tkey x l))) in Hz.
    destruct Hz as [<-|Hz]; auto. unfold before, earlier. unfold tkey in Hk. lia.
Qed.
Lemma sorted_before l : StronglySorted (fun a b : tev => fst a < fst b) l -> StronglySorted before (sorted_by tkey l).
Proof.
  induction 1 as [|x l Hs IH HF]; cbn; [constructor|]. apply insert_before; auto. rewrite Forall_forall in HF. intros y Hy. apply HF. eapply Permutation_in; [symmetry; apply sorted_by_perm|exact Hy].
Qed.
Definition tag (t : itrace) : list tev := combine (seq 0 (length t)) t.
Lemma tag_snd t : map snd (tag t) = t.
Proof. unfold tag. generalize 0. induction t as [|e t IH]; intros s; cbn; [auto|]. rewrite IH. auto. Qed.
Lemma tag_sorted t : StronglySorted (fun a b : tev => fst a < fst b) (tag t).
Proof.
  unfold tag. generalize 0. induction t as [|e t IH]; intros s; cbn; constructor; auto. apply Forall_forall. intros [i x] H. apply in_combine_l, in_seq in H. cbn. lia.
Qed.
Lemma tag_in t i e : In (i, e) (tag t) <-> nth_error t i = Some e.
Proof.
  unfold tag. assert (G : forall s, In (i, e) (combine (seq s (length t)) t) <-> s <= i /\ nth_error t (i - s) = Some e).
  { induction t as [|x t IH]; intros s; cbn [length seq combine In]; [split; [tauto|intros [_ H]; destruct (i - s); discriminate]|]. rewrite IH. split.
    - intros [[= -> ->]|[H1 H2]]; [rewrite Nat.sub_diag; auto|]. split; [lia|]. replace (i - s) with (S (i - S s)) by lia. auto.
    - intros [H1 H2]. destruct (Nat.eq_dec s i) as [->|Hn]; [rewrite Nat.sub_diag in H2; injection H2 as ->; auto|]. right. split; [lia|]. replace (i - s) with (S (i - S s)) in H2 by lia. auto. }
  rewrite G, Nat.sub_0_r. split; [tauto|]. split; [lia|auto].
Qed.
Definition stag (t : itrace) : list tev := sorted_by tkey (tag t).
Lemma stag_snd t : map snd (stag t) = sorted_by ie_start t.
Proof. unfold stag. rewrite (sorted_by_map (fun x : tev => snd x) ie_start). rewrite tag_snd. auto. Qed.
Lemma stag_sorted t : StronglySorted before (stag t).
Proof. apply sorted_before, tag_sorted. Qed.
Lemma stag_in t i e : In (i, e) (stag t) <-> nth_error t i = Some e.
Proof. rewrite <- tag_in. split; apply Permutation_in; [symmetry|]; apply sorted_by_perm. Qed.
Lemma strict_nodup {X} (R : X -> X -> Prop) l : (forall a, ~ R a a) -> StronglySorted R l -> NoDup l.
Proof. intros Hi. induction 1 as [|x l Hs IH HF]; constructor; auto. intros Hx. rewrite Forall_forall in HF. apply (Hi x). auto. Qed.
Lemma stag_nodup t : NoDup (stag t).
Proof. eapply strict_nodup; [apply before_irr|apply stag_sorted]. Qed.

(** pairs of positions *)
Definition idx (p : tev * tev) : nat * nat := (fst (fst p), fst (snd p)).
Lemma exactly_idx t (L : list (tev * tev)) (P : nat * nat -> Prop) : NoDup L -> (forall x y, In (x, y) L -> In x (stag t) /\ In y (stag t)) ->
  (forall i j, P (i, j) <-> exists e1 e2, nth_error t i = Some e1 /\ nth_error t j = Some e2 /\ In ((i, e1), (j, e2)) L) -> exactly (length L) P.
Proof.
  intros Hn Hs HP. exists (map idx L). split; [|split; [apply map_length|]].
  - assert (G : forall p q, In p L -> In q L -> idx p = idx q -> p = q).
    { intros [[i e] [j f]] [[i' e'] [j' f']] Hp Hq [= E1 E2]. cbn in E1, E2. subst i' j'. apply Hs in Hp as [A B], Hq as [C D]. apply stag_in in A, B, C, D. congruence. }
    clear HP. induction Hn as [|p L Hp Hn IH]; cbn; constructor.
    + intros H. apply in_map_iff in H as (q & E & Hq). apply Hp. rewrite (G p q); auto; [left; auto|right; auto].
    + apply IH; [intros; apply Hs; right; auto|intros; apply G; auto; right; auto].
  - intros [i j]. rewrite HP, in_map_iff. split.
    + intros ([[i' e] [j' f]] & [= <- <-] & H). exists e, f. destruct (Hs _ _ H) as [A B]. apply stag_in in A, B. auto.
    + intros (e & f & _ & _ & H). exists ((i, e), (j, f)). auto.
Qed.
Lemma filter_map_len {X Y} (f : X -> Y) (p : Y -> bool) l : length (filter p (map f l)) = length (filter (fun x => p (f x)) l).
Proof. induction l as [|x l IH]; cbn; [auto|]. destruct (p (f x)); cbn; auto. Qed.
(** all pairs in the order of the sorted trace *)
Lemma count_pairs t (Q : iev -> iev -> bool) :
  exactly (length (filter (fun p => Q (fst p) (snd p)) (opairs (sorted_by ie_start t))))
    (fun ij => exists e1 e2, nth_error t (fst ij) = Some e1 /\ nth_error t (snd ij) = Some e2 /\ earlier (fst ij) (snd ij) e1 e2 /\ Q e1 e2 = true).
Proof.
  rewrite <- stag_snd, opairs_map, filter_map_len. apply (exactly_idx t).
  - apply NoDup_filter, opairs_nodup, stag_nodup.
  - intros x y H. apply filter_In in H as [H _]. apply opairs_sub in H. auto.
  - intros i j. cbn [fst snd]. split; intros (e & f & A & B & C); exists e, f; split; auto; split; auto.
    + apply filter_In. split; [|tauto]. apply (opairs_in before); [apply before_irr|apply before_asym|apply stag_sorted|]. rewrite !stag_in. split; auto. split; auto. apply C.
    + apply filter_In in C as [C D]. apply (opairs_in before) in C; [|apply before_irr|apply before_asym|apply stag_sorted]. split; [apply C|exact D].
Qed.
Lemma count_first t (R : iev -> iev -> bool) (Q : iev -> iev -> bool) :
  exactly (length (filter (fun p => Q (fst p) (snd p)) (fpairs R (sorted_by ie_start t))))
    (fun ij => exists e1 e2, nth_error t (fst ij) = Some e1 /\ nth_error t (snd ij) = Some e2 /\ earlier (fst ij) (snd ij) e1 e2 /\ R e1 e2 = true /\
       (forall j' e', nth_error t j' = Some e' -> earlier (fst ij) j' e1 e' -> R e1 e' = true -> j' = snd ij \/ earlier (snd ij) j' e2 e') /\ Q e1 e2 = true).
Proof.
  rewrite <- stag_snd, fpairs_map, filter_map_len. apply (exactly_idx t).
  - apply NoDup_filter, fpairs_nodup, stag_nodup.
  - intros x y H. apply filter_In in H as [H _]. apply fpairs_sub, opairs_sub in H. auto.
  - intros i j. cbn [fst snd]. split; intros (e & f & A & B & C); exists e, f; split; auto; split; auto.
    + destruct C as (C1 & C2 & C3 & C4). apply filter_In. split; [|auto]. apply (fpairs_in before); [apply before_irr|apply before_asym|apply stag_sorted|]. rewrite !stag_in. cbn [fst snd].
      split; auto. split; auto. split; [apply C1|]. split; auto. intros [j' e'] Hz HS HR. apply stag_in in Hz. destruct (C3 j' e' Hz HS HR) as [->|H]; [left; congruence|right; exact H].
    + apply filter_In in C as [C D]. apply (fpairs_in before) in C; [|apply before_irr|apply before_asym|apply stag_sorted]. destruct C as (_ & _ & C1 & C2 & C3). split; [exact C1|]. split; [exact C2|]. split; [|exact D].
      intros j' e' Hz HS HR. destruct (C3 (j', e') (proj2 (stag_in t j' e') Hz) HS HR) as [[= -> ->]|H]; [left; auto|right; exact H].
Qed.

(** over a log *)
Lemma exactly_list {A X} (P : A -> X -> Prop) (f : A -> nat) (l : list A) : (forall t, In t l -> exactly (f t) (P t)) ->
  exactly (list_sum (map f l)) (fun p : nat * X => exists t, nth_error l (fst p) = Some t /\ P t (snd p)).
Proof.
  induction l as [|t l IH]; intros H.
  - apply exactly_0. intros [[|k] x] (u & E & _); discriminate.
  - destruct (H t (or_introl eq_refl)) as (l1 & N1 & L1 & E1). destruct IH as (l2 & N2 & L2 & E2); [intros; apply H; right; auto|].
    exists (map (pair 0) l1 ++ map (fun p => (S (fst p), snd p)) l2). split; [|split].
    + apply NoDup_app_intro.
      * apply FinFun.Injective_map_NoDup; auto. intros a b [= ->]; auto.
      * apply FinFun.Injective_map_NoDup; auto. intros [a b] [c d] [= -> ->]; auto.
      * intros p Hp Hq. apply in_map_iff in Hp as (x & <- & _). apply in_map_iff in Hq as (y & [= E _] & _).
    + rewrite app_length, !map_length. cbn [map list_sum fold_right]. rewrite L1. change (fold_right Nat.add 0 (map f l)) with (list_sum (map f l)). rewrite L2. auto.
    + intros [k x]. rewrite in_app_iff, !in_map_iff. cbn [fst snd]. split.
      * intros [(y & [= <- <-] & Hy)|([k' y] & [= <- <-] & Hy)]; [exists t; split; auto; apply E1; auto|]. apply E2 in Hy as (u & Hu & HP). exists u. auto.
      * intros (u & Hu & HP). destruct k as [|k]; cbn in Hu; [injection Hu as ->; left; exists x; split; auto; apply E1; auto|]. right. exists (k, x). split; auto. apply E2. exists u. auto.
Qed.
Lemma exactly_image {X Y} n (P : X -> Prop) (Q : Y -> Prop) (f : X -> Y) : (forall x y, P x -> P y -> f x = f y -> x = y) ->
  (forall y, Q y <-> exists x, P x /\ f x = y) -> exactly n P -> exactly n Q.
Proof.
  intros Hf HQ (l & Hn & <- & Hl). exists (map f l). split; [|split; [apply map_length|]].
  - assert (G : forall x, In x l -> P x) by (intros x Hx; apply Hl; auto). clear Hl. induction Hn as [|x l Hx Hn IH]; cbn; constructor; [|apply IH; intros; apply G; right; auto].
    intros H. apply in_map_iff in H as (y & E & Hy). apply Hx. rewrite (Hf x y); auto; apply G; [left|right]; auto.
  - intros y. rewrite HQ, in_map_iff. split; intros (x & A & B); exists x; split; auto; apply Hl; auto.
Qed.
