(** Concurrency, loop, and splitting places. *)
From Coq Require Import List Arith Lia Permutation Bool.
Import ListNotations.
From Verif Require Import Model_Graph Model_Tree Spec_Tree Model_ToTree Proofs_ToTree1 Proofs_ToTree2 Proofs_ToTree3 Proofs_ToTree4 Proofs_ToTree5 Proofs_ToTree6.

Lemma nodup_app (l m : list nat) : NoDup l -> NoDup m -> (forall x, In x l -> ~ In x m) -> NoDup (l ++ m).
Proof.
  induction l as [|a l IH]; cbn; intros A B H; auto. inversion A; subst. constructor; [rewrite in_app_iff; intros [C|C]; auto; apply (H a); auto|]. apply IH; auto.
Qed.
Section Net.
  Variables (i o : nat) (N : tnet).
  Hypothesis HN : NI i o N.
  Notation T := (ts N).
  Lemma conc_req t1 t2 : In t1 T -> In t2 T -> concurrent_requirement N t1 t2 = true ->
    t1 <> t2 /\ (forall p x, In p (pre t1) -> In x T -> In p (pre x) -> x = t1) /\ (forall p x, In p (post t1) -> In x T -> In p (post x) -> x = t1) /\
    (forall p x, In p (pre t2) -> In x T -> In p (pre x) -> x = t2) /\ (forall p x, In p (post t2) -> In x T -> In p (post x) -> x = t2) /\
    (forall p q x, In p (pre t1 ++ pre t2) -> In q (pre t1 ++ pre t2) -> In x T -> In p (post x) -> In q (post x)) /\
    (forall p q x, In p (post t1 ++ post t2) -> In q (post t1 ++ post t2) -> In x T -> In p (pre x) -> In q (pre x)).
  Proof.
    intros T1 T2 HR. unfold concurrent_requirement in HR. rewrite !andb_true_iff in HR. destruct HR as ((((((D & _) & A1) & A2) & A3) & A4) & A5 & A6).
    rewrite (differ_iff i o N HN) in D; auto. rewrite forallb_forall in A1, A2, A3, A4, A5, A6. split; auto.
    assert (C1 : forall n, negb (1 <? n) = true -> n <= 1). { intros n H. apply negb_true_iff, Nat.ltb_ge in H. auto. }
    split; [|split; [|split; [|split; [|split]]]].
    - intros p x Hp. specialize (A1 p Hp). apply andb_true_iff in A1 as [B1 B2]. destruct (cons_one i o N HN t1 p T1 (C1 _ B1) B2); auto.
    - intros p x Hp. specialize (A2 p Hp). apply andb_true_iff in A2 as [B1 B2]. destruct (prod_one i o N HN t1 p T1 (C1 _ B1) B2); auto.
    - intros p x Hp. specialize (A3 p Hp). apply andb_true_iff in A3 as [B1 B2]. destruct (cons_one i o N HN t2 p T2 (C1 _ B1) B2); auto.
    - intros p x Hp. specialize (A4 p Hp). apply andb_true_iff in A4 as [B1 B2]. destruct (prod_one i o N HN t2 p T2 (C1 _ B1) B2); auto.
    - intros p q x Hp Hq Hx Hpx. specialize (A5 q Hq). rewrite forallb_forall in A5. apply (is_in_producers i o N HN x q Hx). apply A5.
      apply in_flat_map. exists p. split; auto. apply producers_in; auto.
    - intros p q x Hp Hq Hx Hpx. specialize (A6 q Hq). rewrite forallb_forall in A6. apply (is_in_consumers i o N HN x q Hx). apply A6.
      apply in_flat_map. exists p. split; auto. apply consumers_in; auto.
  Qed.
  Lemma conc_same t1 t2 : In t1 T -> In t2 T -> concurrent_requirement N t1 t2 = true -> same i o N (merge_concurrent N t1 t2).
  Proof.
    intros T1 T2 HR. destruct (conc_req t1 t2 T1 T2 HR) as (D & C1 & P1 & C2 & P2 & SP & SC).
    destruct (ni_tr _ _ _ HN t1 T1) as (a1 & a2 & a3 & a4 & a5 & a6). destruct (ni_tr _ _ _ HN t2 T2) as (b1 & b2 & b3 & b4 & b5 & b6).
    set (t := Tr (new_id N) (Node Parallel [lab t1; lab t2]) (pre t1 ++ pre t2) (post t1 ++ post t2)).
    assert (E : ts (merge_concurrent N t1 t2) = t :: without t1 t2 T) by reflexivity.
    assert (ND1 : NoDup (pre t)). { apply nodup_app; auto. intros x X1 X2. apply D. symmetry. apply (C1 x t2); auto. }
    assert (ND2 : NoDup (post t)). { apply nodup_app; auto. intros x X1 X2. apply D. symmetry. apply (P1 x t2); auto. }
    (* i is not an input of the block *)
    assert (Ai : ~ In i (pre t)).
    { intros Hi. assert (NP : forall p x, In p (pre t) -> In x T -> ~ In p (post x)).
      { intros p x Hp Hx Hpx. apply (proj1 (proj2 (proj2 (proj2 (proj2 (ni_tr _ _ _ HN x Hx)))))). apply (SP p i x); auto. }
      assert (U : forall x p, In x T -> In p (pre x) -> In p (pre t) -> p <> i -> False).
      { intros x p Hx Hp Hpt Hn. apply (ni_ns _ _ _ HN (fun q => q = p) (not_eq_sym Hn)) with (x := x) (p := p); auto.
        intros y q Hy Hq ->. exfalso. apply (NP p y); auto. }
      destruct (ne_in _ a1) as [p1 H1]. destruct (ne_in _ b1) as [p2 H2].
      assert (p1 = i). { destruct (Nat.eq_dec p1 i); auto. exfalso. apply (U t1 p1); auto. cbn. rewrite in_app_iff; auto. }
      assert (p2 = i). { destruct (Nat.eq_dec p2 i); auto. exfalso. apply (U t2 p2); auto. cbn. rewrite in_app_iff; auto. }
      subst. apply D. symmetry. apply (C1 i t2); auto. }
    (* no place is both input and output of the block *)
    assert (AB : forall p, In p (pre t) -> ~ In p (post t)).
    { assert (U : forall y p, In y T -> In p (pre t) -> In p (post y) -> (forall x, In x T -> In p (post x) -> x = y) -> y = t1 \/ y = t2 -> False).
      { intros y p Hy Hp Hpy Hu Hy2. assert (Yn : exists q, In q (pre y) /\ In q (pre t)).
        { destruct Hy2 as [-> | ->]; [destruct (ne_in _ a1) as [q Hq]|destruct (ne_in _ b1) as [q Hq]]; exists q; (split; [auto|cbn; rewrite in_app_iff; auto]). }
        destruct Yn as (q & Q1 & Q2). apply (ni_ns _ _ _ HN (fun q => In q (pre t)) Ai) with (x := y) (p := q); auto.
        intros x r Hx Hr Hrt. assert (x = y) by (apply Hu; auto; apply (SP r p x); auto). subst. eauto. }
      intros p Hp Hq. cbn in Hq. apply in_app_iff in Hq as [Hq|Hq]; [apply (U t1 p)|apply (U t2 p)]; auto; intros x Hx Hpx; [apply (P1 p)|apply (P2 p)]; auto. }
    assert (RA : forall x p, Out t1 t2 x -> In x T -> In p (pre t) -> ~ In p (pre x)).
    { intros x p [O1 O2] Hx Hp Hpx. cbn in Hp. apply in_app_iff in Hp as [Hp|Hp]; [apply O1, (C1 p)|apply O2, (C2 p)]; auto. }
    split.
    - constructor; try rewrite E.
      + apply (ids_T' i o); auto.
      + intros x Hx. apply (T'_in i o) in Hx as [-> |[Hx _]]; auto; [|apply (ni_tr _ _ _ HN x Hx)].
        split; [cbn; intros Z; apply app_eq_nil in Z; tauto|]. split; [cbn; intros Z; apply app_eq_nil in Z; tauto|]. split; auto. split; auto. cbn. rewrite !in_app_iff. tauto.
      + intros x p Hx Hp. cbn [pl merge_concurrent]. apply (T'_in i o) in Hx as [-> |[Hx _]]; auto; [|apply (ni_pl _ _ _ HN x); auto].
        cbn in Hp. rewrite !in_app_iff in Hp. destruct Hp as [[Hp|Hp]|[Hp|Hp]]; [apply (ni_pl _ _ _ HN t1)|apply (ni_pl _ _ _ HN t2)|apply (ni_pl _ _ _ HN t1)|apply (ni_pl _ _ _ HN t2)]; auto.
      + apply (ni_io _ _ _ HN).
      + exact (ni_pd _ _ _ HN).
      + intros x Hx. apply (T'_in i o) in Hx as [-> |[Hx _]]; auto; [|apply (ni_lab _ _ _ HN); auto].
        constructor; [discriminate|]. repeat constructor; apply (ni_lab _ _ _ HN); auto.
      + intros S Si HS.
        set (S0 := fun p => S p \/ (In p (pre t) /\ exists q, In q (pre t) /\ S q)).
        assert (Si0 : ~ S0 i) by (intros [A|[A _]]; auto).
        assert (HS2 : siphon T S0).
        { assert (UB : forall y p, y = t1 \/ y = t2 -> In p (post y) -> S0 p -> exists q, In q (pre y) /\ S0 q).
          { intros y p Hy Hp Sp. assert (Hpt : In p (post t)) by (cbn; rewrite in_app_iff; destruct Hy as [-> | ->]; auto).
            destruct Sp as [Sp|[C _]]; [|exfalso; apply (AB p); auto]. destruct (HS t p (or_introl eq_refl) Hpt Sp) as (q & Q1 & Q2).
            assert (Yn : exists r, In r (pre y) /\ In r (pre t)).
            { destruct Hy as [-> | ->]; [destruct (ne_in _ a1) as [r Hr]|destruct (ne_in _ b1) as [r Hr]]; exists r; (split; [auto|cbn; rewrite in_app_iff; auto]). }
            destruct Yn as (r & R1 & R2). exists r. split; auto. right. split; auto. exists q. auto. }
          intros x p Hx Hp Sp. destruct (out_cases i o N HN t1 t2 T1 T2 x Hx) as [Ox|Hx2]; [|apply (UB x p); auto].
          assert (Hz : exists q, In q (post x) /\ S q). { destruct Sp as [Sp|(C & q & Q1 & Q2)]; [exists p; auto|]. exists q. split; auto. apply (SP p q x); auto. }
          destruct Hz as (q & Q1 & Q2). destruct (HS x q (out_T' i o N HN t t1 t2 T1 T2 x Ox Hx) Q1 Q2) as (r & R1 & R2). exists r. split; auto. left; auto. }
        intros x p Hx Hp Sp. apply (T'_in i o) in Hx as [-> |[Hx Ox]]; auto.
        * cbn in Hp. apply in_app_iff in Hp as [Hp|Hp]; [apply (ni_ns _ _ _ HN S0 Si0 HS2 t1 p)|apply (ni_ns _ _ _ HN S0 Si0 HS2 t2 p)]; auto; left; auto.
        * apply (ni_ns _ _ _ HN S0 Si0 HS2 x p); auto. left; auto.
    - rewrite E. intros Hs.
      assert (X1 : forall x, Out t1 t2 x -> In x T -> In x (t :: without t1 t2 T)) by (intros; apply (out_T' i o); auto).
      assert (X2 : In t (t :: without t1 t2 T)) by (left; auto).
      assert (X3 : forall x, Out t1 t2 x -> In x T -> NoDup (post x)) by (intros x _ Hx; apply (ni_tr _ _ _ HN x Hx)).
      assert (X4 : forall x p q, Out t1 t2 x -> In x T -> In p (pre t) -> In q (pre t) -> In p (post x) -> In q (post x)) by (intros x p q _ Hx Hp Hq Hpx; apply (SP p q x); auto).
      assert (X5 : forall x p q, Out t1 t2 x -> In x T -> In p (post t) -> In q (post t) -> In p (pre x) -> In q (pre x)) by (intros x p q _ Hx Hp Hq Hpx; apply (SC p q x); auto).
      assert (X6 := out_cases i o N HN t1 t2 T1 T2).
      split.
      + apply (conc_safe (t :: without t1 t2 T) T i t t1 t2 (Out t1 t2)); auto; reflexivity.
      + intros w. split.
        * apply (conc_lacc L (t :: without t1 t2 T) T i t (Out t1 t2)) with (t1 := t1) (t2 := t2); auto; try reflexivity.
          { intros v1 v2 v A B C. apply lang_par2. exists v1, v2. split; auto. apply sh2_sh; auto. }
          { cbn. rewrite in_app_iff. tauto. }
        * apply (conc_back L (t :: without t1 t2 T) T i t t1 t2); auto; [|intros v H; apply lang_par2 in H; auto].
          intros x Hx. apply (T'_in i o) in Hx; tauto.
  Qed.

  (** ** Loop *)
  Lemma loop_req t1 t2 : In t1 T -> In t2 T -> loop_requirement N t1 t2 = true ->
    t1 <> t2 /\ (forall p, In p (pre t2) <-> In p (post t1)) /\ (forall p, In p (post t2) <-> In p (pre t1)) /\
    (forall p x, In p (pre t1) -> In x T -> In p (pre x) -> x = t1) /\ (forall p x, In p (post t1) -> In x T -> In p (post x) -> x = t1).
  Proof.
    intros T1 T2 HR. unfold loop_requirement in HR. rewrite !andb_true_iff in HR. destruct HR as ((((D & A1) & A2) & A3) & A4).
    rewrite (differ_iff i o N HN) in D; auto. rewrite forallb_forall in A1, A2, A3, A4. split; auto.
    assert (B1 : forall p, In p (pre t2) -> In p (post t1)).
    { intros p Hp. specialize (A1 p Hp). apply andb_true_iff in A1 as [C1 C2]. apply Nat.eqb_eq in C1. destruct (prod_one i o N HN t1 p T1 ltac:(lia) C2); auto. }
    assert (B2 : forall p, In p (post t2) -> In p (pre t1)).
    { intros p Hp. specialize (A2 p Hp). apply andb_true_iff in A2 as [C1 C2]. apply Nat.eqb_eq in C1. destruct (cons_one i o N HN t1 p T1 ltac:(lia) C2); auto. }
    assert (B3 : forall p, In p (pre t1) -> In p (post t2) /\ forall x, In x T -> In p (pre x) -> x = t1).
    { intros p Hp. specialize (A3 p Hp). rewrite !andb_true_iff in A3. destruct A3 as [[C1 C2] C3]. apply Nat.eqb_eq in C1. destruct (cons_one i o N HN t1 p T1 ltac:(lia) C2). split; auto. apply (is_in_producers i o N HN); auto. }
    assert (B4 : forall p, In p (post t1) -> In p (pre t2) /\ forall x, In x T -> In p (post x) -> x = t1).
    { intros p Hp. specialize (A4 p Hp). rewrite !andb_true_iff in A4. destruct A4 as [[C1 C2] C3]. apply Nat.eqb_eq in C1. destruct (prod_one i o N HN t1 p T1 ltac:(lia) C2). split; auto. apply (is_in_consumers i o N HN); auto. }
    split; [intros p; split; [auto|intros Hp; apply B4; auto]|]. split; [intros p; split; [auto|intros Hp; apply B3; auto]|].
    split; intros p x Hp; [apply B3; auto|apply B4; auto].
  Qed.
  Lemma loop_same t1 t2 : In t1 T -> In t2 T -> loop_requirement N t1 t2 = true -> same i o N (merge_loop N t1 t2).
  Proof.
    intros T1 T2 HR. destruct (loop_req t1 t2 T1 T2 HR) as (D & EB & EA & C1 & P1).
    destruct (ni_tr _ _ _ HN t1 T1) as (a1 & a2 & a3 & a4 & a5 & a6). destruct (ni_tr _ _ _ HN t2 T2) as (b1 & b2 & b3 & b4 & b5 & b6).
    assert (PA : Permutation (post t2) (pre t1)) by (apply NoDup_Permutation; auto).
    assert (PB : Permutation (pre t2) (post t1)) by (apply NoDup_Permutation; auto).
    set (t := Tr (new_id N) (Node Loop [lab t1; lab t2]) (pre t1) (post t1)).
    assert (E : ts (merge_loop N t1 t2) = t :: without t1 t2 T) by reflexivity.
    assert (AB : forall q, In q (pre t1) -> ~ In q (post t1)). { intros q Hq Hp. apply D. symmetry. apply (C1 q t2); auto. apply EB; auto. }
    assert (RA : forall x q, Out t1 t2 x -> In x T -> In q (pre t1) -> ~ In q (pre x)) by (intros x q [O1 O2] Hx Hq Hp; apply O1, (C1 q); auto).
    assert (RB : forall x q, Out t1 t2 x -> In x T -> In q (post t1) -> ~ In q (post x)) by (intros x q [O1 O2] Hx Hq Hp; apply O1, (P1 q); auto).
    split.
    - constructor; try rewrite E.
      + apply (ids_T' i o); auto.
      + intros x Hx. apply (T'_in i o) in Hx as [-> |[Hx _]]; auto; [|apply (ni_tr _ _ _ HN x Hx)]. exact (conj a1 (conj a2 (conj a3 (conj a4 (conj a5 a6))))).
      + intros x p Hx Hp. cbn [pl merge_loop]. apply (T'_in i o) in Hx as [-> |[Hx _]]; auto; [apply (ni_pl _ _ _ HN t1); auto|apply (ni_pl _ _ _ HN x); auto].
      + apply (ni_io _ _ _ HN).
      + exact (ni_pd _ _ _ HN).
      + intros x Hx. apply (T'_in i o) in Hx as [-> |[Hx _]]; auto; [|apply (ni_lab _ _ _ HN); auto].
        constructor; [cbn; lia|]. repeat constructor; apply (ni_lab _ _ _ HN); auto.
      + intros S Si HS.
        set (S0 := fun p => S p \/ (In p (post t1) /\ exists q, In q (pre t1) /\ S q)).
        assert (Si0 : ~ S0 i) by (intros [A|[A _]]; auto).
        assert (HS2 : siphon T S0).
        { intros x p Hx Hp Sp. destruct (out_cases i o N HN t1 t2 T1 T2 x Hx) as [Ox|[-> | ->]].
          - destruct Sp as [Sp|[C _]]; [|exfalso; eapply RB; eauto]. destruct (HS x p (out_T' i o N HN t t1 t2 T1 T2 x Ox Hx) Hp Sp) as (q & A & B). exists q. split; auto. left; auto.
          - destruct Sp as [Sp|(_ & q & A & B)]; [|exists q; split; auto; left; auto]. destruct (HS t p (or_introl eq_refl) Hp Sp) as (q & A & B). exists q. split; auto. left; auto.
          - apply EA in Hp. destruct Sp as [Sp|[C _]]; [|exfalso; eapply AB; eauto]. destruct (ne_in _ a2) as [q Hq]. exists q. split; [apply EB; auto|]. right. split; auto. exists p. auto. }
        intros x p Hx Hp Sp. apply (T'_in i o) in Hx as [-> |[Hx Ox]]; auto; [apply (ni_ns _ _ _ HN S0 Si0 HS2 t1 p)|apply (ni_ns _ _ _ HN S0 Si0 HS2 x p)]; auto; left; auto.
    - rewrite E. intros Hs.
      assert (X1 : forall x, Out t1 t2 x -> In x T -> In x (t :: without t1 t2 T)) by (intros; apply (out_T' i o); auto).
      assert (X2 : In t (t :: without t1 t2 T)) by (left; auto).
      assert (X6 := out_cases i o N HN t1 t2 T1 T2).
      split.
      + apply (loop_safe (t :: without t1 t2 T) T i t t1 t2 (Out t1 t2)); auto.
      + intros w. split.
        * apply (loop_lacc L (t :: without t1 t2 T) T i t t1 t2 (Out t1 t2)); auto.
          intros u v HLS Hv. assert (U : forall u, LS L t1 t2 u -> forall x, lang (Node Loop [lab t1; lab t2]) x -> lang (Node Loop [lab t1; lab t2]) (u ++ x)).
          { clear. induction 1; intros x Hx; auto. rewrite <- !app_assoc. apply IHLS. eapply L_loop_redo; eauto. left; auto. }
          apply U; auto. constructor. auto.
        * apply (loop_back L (t :: without t1 t2 T) T i t t1 t2); auto; [|symmetry; auto|].
          { intros x Hx. apply (T'_in i o) in Hx; tauto. }
          intros v Hv. unfold L in Hv. cbn [lab t] in Hv. clear - Hv. remember (Node Loop [lab t1; lab t2]) as n eqn:En. induction Hv; inversion En; subst.
          { exists w, []. rewrite app_nil_r. repeat split; auto. constructor. }
          { match goal with Z : In r _ |- _ => destruct Z as [<- |[]] end. destruct (IHHv3 eq_refl) as (r & s & -> & A & B).
            exists w, (v ++ r ++ s). repeat split; auto. constructor; auto. }
  Qed.

  (** ** Splitting one place *)
  Lemma fresh_gt (ini : list nat) p : In p (ini ++ pl N) -> p <= list_max (ini ++ pl N).
  Proof.
    intros H. pose proof (list_max_le (ini ++ pl N) (list_max (ini ++ pl N))) as [A _]. specialize (A (le_n _)). rewrite Forall_forall in A. auto.
  Qed.
  Lemma redirect_in p q l y : In y (redirect p q l) -> (y = q /\ In p l) \/ (In y l /\ y <> p).
  Proof. intros H. unfold redirect in H. apply in_map_iff in H as (x & E & Hx). destruct (Nat.eqb_spec x p); subst; auto. Qed.
  Lemma in_redirect p q l y : In y l -> In (if y =? p then q else y) (redirect p q l).
  Proof. intros H. unfold redirect. apply in_map_iff. exists y. auto. Qed.
  Lemma redirect_nodup p q l : ~ In q l -> NoDup l -> NoDup (redirect p q l).
  Proof.
    intros Hq HD. induction HD as [|a l A B IH]; cbn; [constructor|]. constructor; [|apply IH; intros Z; apply Hq; right; auto].
    intros Z. destruct (Nat.eqb_spec a p) as [-> |n].
    - apply redirect_in in Z as [[_ Z]|[Z _]]; auto. apply Hq. right; auto.
    - apply redirect_in in Z as [[-> Z]|[Z _]]; auto. apply Hq. left; auto.
  Qed.
  Lemma split_same ini p : (exists x, In x T /\ In p (post x)) -> (exists x, In x T /\ In p (pre x)) -> same i o N (split_place ini N p).
  Proof.
    intros (xp & Hxp & Pp) (xc & Hxc & Pc).
    assert (pi : i <> p) by (intros <-; destruct (ni_tr _ _ _ HN xp Hxp) as (_ & _ & _ & _ & Z & _); auto).
    assert (po : o <> p) by (intros <-; destruct (ni_tr _ _ _ HN xc Hxc) as (_ & _ & _ & _ & _ & Z); auto).
    set (s := S (list_max (ini ++ pl N))). set (d := S s). set (skip := Tr (new_id N) (Leaf None) [s] [d]).
    assert (E : ts (split_place ini N p) = skip :: map (fx p s d) T) by reflexivity.
    assert (Epl : pl (split_place ini N p) = s :: d :: cut [p] (pl N)) by reflexivity.
    assert (Fr : forall q, In q (pl N) -> q < s). { intros q Hq. unfold s. apply Nat.lt_succ_r, fresh_gt. apply in_app_iff. auto. }
    assert (Hsd : forall x, In x T -> ~ In s (pre x) /\ ~ In d (pre x) /\ ~ In s (post x) /\ ~ In d (post x)).
    { intros x Hx. repeat split; intros Z; [assert (Y := Fr s (ni_pl _ _ _ HN x s Hx (or_introl Z)))|assert (Y := Fr d (ni_pl _ _ _ HN x d Hx (or_introl Z)))|assert (Y := Fr s (ni_pl _ _ _ HN x s Hx (or_intror Z)))|assert (Y := Fr d (ni_pl _ _ _ HN x d Hx (or_intror Z)))]; unfold d in *; lia. }
    assert (Hp : p < s) by (apply Fr; apply (ni_pl _ _ _ HN xp); auto).
    assert (Hi : i < s) by (apply Fr, (ni_io _ _ _ HN)). assert (Ho : o < s) by (apply Fr, (ni_io _ _ _ HN)). assert (d = S s) by reflexivity. clearbody d.
    assert (TI : forall x', In x' (skip :: map (fx p s d) T) -> x' = skip \/ exists x, x' = fx p s d x /\ In x T).
    { intros x' [<- |Hx]; auto. right. apply in_map_iff in Hx as (x & <- & Hx). eauto. }
    split.
    - constructor; try rewrite E; try rewrite Epl.
      + cbn [map tid skip]. rewrite map_map. cbn [tid fx]. constructor.
        * intros Z. apply in_map_iff in Z as (x & Ex & Hx). apply new_fresh in Hx. cbn in Ex. lia.
        * exact (ni_ids _ _ _ HN).
      + intros x' Hx'. destruct (TI _ Hx') as [-> |(x & -> & Hx)].
        * cbn. repeat split; try discriminate; try (repeat constructor; cbn; tauto); lia.
        * destruct (ni_tr _ _ _ HN x Hx) as (c1 & c2 & c3 & c4 & c5 & c6). destruct (Hsd x Hx) as (e1 & e2 & e3 & e4). cbn [pre post fx].
          split; [destruct (pre x); [congruence|discriminate]|]. split; [destruct (post x); [congruence|discriminate]|].
          split; [apply redirect_nodup; auto|]. split; [apply redirect_nodup; auto|].
          split; intros Z; apply redirect_in in Z as [[Z _]|[Z _]]; auto; lia.
      + intros x' q Hx' Hq. destruct (TI _ Hx') as [-> |(x & -> & Hx)].
        * cbn in Hq. cbn. tauto.
        * cbn [pre post fx] in Hq. cbn [In]. destruct Hq as [Hq|Hq]; apply redirect_in in Hq as [[-> _]|[Hq Hn]]; auto; right; right; apply cut_in; (split; [apply (ni_pl _ _ _ HN x); auto|cbn; intuition congruence]).
      + destruct (ni_io _ _ _ HN). cbn [In]. split; right; right; apply cut_in; (split; [auto|cbn; intuition congruence]).
      + constructor; [|constructor; [|apply NoDup_filter; exact (ni_pd _ _ _ HN)]].
        * intros [Z|Z]; [lia|]. apply cut_in in Z as [Z _]. apply Fr in Z. lia.
        * intros Z. apply cut_in in Z as [Z _]. apply Fr in Z. lia.
      + intros x' Hx'. destruct (TI _ Hx') as [-> |(x & -> & Hx)]; [constructor; exact I|]. cbn [lab fx]. apply (ni_lab _ _ _ HN); auto.
      + intros S Si HS.
        set (S0 := fun q => (q = p /\ S s) \/ (q <> p /\ S q)).
        assert (Si0 : ~ S0 i) by (intros [[A _]|[_ A]]; auto).
        assert (CONS : forall x r', In x T -> In r' (redirect p d (pre x)) -> S r' -> exists r, In r (pre x) /\ S0 r).
        { intros x r' Hx Hr Sr. apply redirect_in in Hr as [[-> Hr]|[Hr Hn]].
          - exists p. split; auto. left. split; auto. destruct (HS skip d (or_introl eq_refl) (or_introl eq_refl) Sr) as (q & Q1 & Q2). cbn in Q1. destruct Q1 as [<- |[]]. auto.
          - exists r'. split; auto. right; auto. }
        assert (HS2 : siphon T S0).
        { intros x q Hx Hq Sq. assert (Z : exists q', In q' (post (fx p s d x)) /\ S q').
          { exists (if q =? p then s else q). split; [apply in_redirect; auto|]. destruct Sq as [[-> Y]|[n Y]]; [rewrite Nat.eqb_refl; auto|]. destruct (Nat.eqb_spec q p); [congruence|auto]. }
          destruct Z as (q' & Z1 & Z2). destruct (HS (fx p s d x) q' (or_intror (in_map _ _ _ Hx)) Z1 Z2) as (r' & R1 & R2). eapply CONS; eauto. }
        intros x' q Hx' Hq Sq. destruct (TI _ Hx') as [-> |(x & -> & Hx)].
        * cbn in Hq. destruct Hq as [<- |[]]. apply (ni_ns _ _ _ HN S0 Si0 HS2 xc p); auto. left; auto.
        * destruct (CONS x q Hx Hq Sq) as (r & R1 & R2). apply (ni_ns _ _ _ HN S0 Si0 HS2 x r); auto.
    - rewrite E. intros Hs.
      assert (Hk : pre skip = [s] /\ post skip = [d]) by (split; reflexivity).
      assert (Hi3 : i <> p /\ i <> s /\ i <> d) by lia.
      split; [eapply split_safe; eauto|]. intros w. split.
      + assert (HL : forall x v, L (fx p s d x) v <-> L x v) by (intros x v; unfold L; cbn; tauto).
        assert (Lk : L skip []) by constructor.
        intros Ha. apply (split_lacc L T i p s d skip Hk Hi3); auto.
      + assert (HL : forall x v, L (fx p s d x) v <-> L x v) by (intros x v; unfold L; cbn; tauto).
        apply (split_back L T i p s d skip Hk Hi3 Hsd HL); try lia. intros v Hv. unfold L in Hv. cbn in Hv. inversion Hv; auto.
  Qed.
End Net.
