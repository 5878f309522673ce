(** The grouping steps: what the requirements mean and what is preserved. *)
From Coq Require Import List Arith Lia Permutation Bool.
Import ListNotations.
From Verif Require Import Model_Graph Model_Tree Spec_Tree Model_ToTree Proofs_ToTree1 Proofs_ToTree2 Proofs_ToTree3 Proofs_ToTree4 Proofs_ToTree5.

Definition L (x : tr) (w : word) : Prop := lang (lab x) w.

(** ** Languages of binary nodes *)
Lemma lang_xor2 (a b : tree nat) w : lang (Node Xor [a; b]) w <-> lang a w \/ lang b w.
Proof.
  split.
  - intros H. inversion H; subst. match goal with E : In _ [a; b] |- _ => destruct E as [-> |[-> |[]]] end; auto.
  - intros [H|H]; eapply L_xor; eauto; cbn; auto.
Qed.
Lemma lang_seq2 (a b : tree nat) w : lang (Node Sequence [a; b]) w <-> exists u v, w = u ++ v /\ lang a u /\ lang b v.
Proof.
  split.
  - intros H. inversion H; subst. do 3 (match goal with E : Forall2 lang _ _ |- _ => inversion E; clear E; subst end). eexists _, _. split; [cbn; rewrite app_nil_r; reflexivity|auto].
  - intros (u & v & -> & A & B). replace (u ++ v) with (concat [u; v]) by (cbn; rewrite app_nil_r; auto). constructor. auto.
Qed.
Lemma lang_par2 (a b : tree nat) w : lang (Node Parallel [a; b]) w <-> exists u v, shuffle [u; v] w /\ lang a u /\ lang b v.
Proof.
  split.
  - intros H. inversion H; subst. do 3 (match goal with E : Forall2 lang _ _ |- _ => inversion E; clear E; subst end). eexists _, _. split; [eassumption|auto].
  - intros (u & v & S & A & B). econstructor; eauto.
Qed.
Lemma lang_loop2_inv (a b : tree nat) w : lang (Node Loop [a; b]) w ->
  lang a w \/ exists u v w', w = u ++ v ++ w' /\ lang a u /\ lang b v /\ lang (Node Loop [a; b]) w'.
Proof. intros H. inversion H; subst; auto. match goal with E : In _ [b] |- _ => destruct E as [<- |[]] end. right. eexists _, _, _. split; [reflexivity|auto]. Qed.
Lemma sh2_shuffle v1 v2 v : sh2 v1 v2 v -> forall w1 w2 w, shuffle [w1; w2] w -> shuffle [v1 ++ w1; v2 ++ w2] (v ++ w).
Proof.
  induction 1; intros w1 w2 w S; auto; rewrite <- !app_assoc; cbn; apply IHsh2.
  - apply (sh_cons [] a w1 [w2] w). auto.
  - apply (sh_cons [w1] a w2 [] w). auto.
Qed.
Lemma sh2_sh v1 v2 v : sh2 v1 v2 v -> shuffle [v1; v2] v.
Proof. intros H. pose proof (sh2_shuffle _ _ _ H [] [] []) as S. rewrite !app_nil_r in S. apply S. constructor. intros w [<-|[<-|[]]]; auto. Qed.

(** ** The structural invariant *)
Definition siphon (T : list tr) (S : nat -> Prop) : Prop := forall x p, In x T -> In p (post x) -> S p -> exists q, In q (pre x) /\ S q.
Record NI (i o : nat) (N : tnet) : Prop := {
  ni_ids : NoDup (map tid (ts N));
  ni_tr : forall x, In x (ts N) -> pre x <> [] /\ post x <> [] /\ NoDup (pre x) /\ NoDup (post x) /\ ~ In i (post x) /\ ~ In o (pre x);
  ni_pl : forall x p, In x (ts N) -> In p (pre x) \/ In p (post x) -> In p (pl N);
  ni_io : In i (pl N) /\ In o (pl N);
  ni_pd : NoDup (pl N);
  ni_lab : forall x, In x (ts N) -> wf_tree (lab x);
  ni_ns : forall S, ~ S i -> siphon (ts N) S -> forall x p, In x (ts N) -> In p (pre x) -> ~ S p }.
Definition same (i o : nat) (N N' : tnet) : Prop :=
  NI i o N' /\ (safe (ts N') i -> safe (ts N) i /\ forall w, lacc L (ts N) i o w <-> lacc L (ts N') i o w).

Lemma smem_iff p l : smem p l = true <-> In p l.
Proof. unfold smem. rewrite existsb_exists. split; [intros (x & A & B); apply Nat.eqb_eq in B; subst; auto|intros H; exists p; split; auto; apply Nat.eqb_refl]. Qed.
Section Net.
  Variables (i o : nat) (N : tnet).
  Hypothesis HN : NI i o N.
  Notation T := (ts N).
  Lemma tid_inj x y : In x T -> In y T -> tid x = tid y -> x = y.
  Proof.
    assert (HD := ni_ids _ _ _ HN). revert HD. generalize T. induction l as [|a l IH]; cbn; intros HD Hx Hy E; [easy|].
    inversion HD as [|? ? A B]; subst. destruct Hx as [-> |Hx], Hy as [-> |Hy]; auto.
    - exfalso. apply A. rewrite E. apply in_map; auto.
    - exfalso. apply A. rewrite <- E. apply in_map; auto.
  Qed.
  Lemma differ_iff x y : In x T -> In y T -> (differ x y = true <-> x <> y).
  Proof.
    intros Hx Hy. unfold differ. rewrite negb_true_iff, Nat.eqb_neq. split; intros A B; apply A; [subst; auto|apply tid_inj; auto].
  Qed.
  Lemma producers_in x p : In x (producers N p) <-> In x T /\ In p (post x).
  Proof. unfold producers. rewrite filter_In, smem_iff. tauto. Qed.
  Lemma consumers_in x p : In x (consumers N p) <-> In x T /\ In p (pre x).
  Proof. unfold consumers. rewrite filter_In, smem_iff. tauto. Qed.
  Lemma is_in_producers x p : In x T -> (is_in x (producers N p) = true <-> In p (post x)).
  Proof.
    intros Hx. unfold is_in. rewrite existsb_exists. split.
    - intros (y & Hy & E). apply producers_in in Hy as [A B]. apply Nat.eqb_eq in E. apply tid_inj in E; auto. subst; auto.
    - intros H. exists x. split; [apply producers_in; auto|apply Nat.eqb_refl].
  Qed.
  Lemma is_in_consumers x p : In x T -> (is_in x (consumers N p) = true <-> In p (pre x)).
  Proof.
    intros Hx. unfold is_in. rewrite existsb_exists. split.
    - intros (y & Hy & E). apply consumers_in in Hy as [A B]. apply Nat.eqb_eq in E. apply tid_inj in E; auto. subst; auto.
    - intros H. exists x. split; [apply consumers_in; auto|apply Nat.eqb_refl].
  Qed.
  Lemma one_only {A} (l : list A) x y : length l <= 1 -> In x l -> In y l -> x = y.
  Proof. destruct l as [|a [|b l]]; cbn; intros; try lia; try easy. intuition congruence. Qed.
  Lemma prod_one t1 p : In t1 T -> length (producers N p) <= 1 -> is_in t1 (producers N p) = true -> In p (post t1) /\ forall x, In x T -> In p (post x) -> x = t1.
  Proof.
    intros H1 HL HI. apply (is_in_producers t1 p H1) in HI. split; auto. intros x Hx Hp.
    apply (one_only (producers N p)); auto; apply producers_in; auto.
  Qed.
  Lemma cons_one t1 p : In t1 T -> length (consumers N p) <= 1 -> is_in t1 (consumers N p) = true -> In p (pre t1) /\ forall x, In x T -> In p (pre x) -> x = t1.
  Proof.
    intros H1 HL HI. apply (is_in_consumers t1 p H1) in HI. split; auto. intros x Hx Hp.
    apply (one_only (consumers N p)); auto; apply consumers_in; auto.
  Qed.
  Lemma without_in t1 t2 x : In t1 T -> In t2 T -> (In x (without t1 t2 T) <-> In x T /\ x <> t1 /\ x <> t2).
  Proof.
    intros H1 H2. unfold without. rewrite filter_In, andb_true_iff. split.
    - intros (A & B & C). rewrite differ_iff in B, C; auto.
    - intros (A & B & C). rewrite !differ_iff; auto.
  Qed.
  Lemma new_fresh x : In x T -> tid x < new_id N.
  Proof.
    intros H. unfold new_id. pose proof (list_max_le (map tid T) (list_max (map tid T))) as [A _]. specialize (A (le_n _)). rewrite Forall_forall in A.
    specialize (A (tid x)). rewrite in_map_iff in A. apply Nat.lt_succ_r. apply A. eauto.
  Qed.
  (** the transitions after a grouping step *)
  Section Merge.
    Variables (t t1 t2 : tr).
    Hypothesis T1 : In t1 T.
    Hypothesis T2 : In t2 T.
    Hypothesis t12 : t1 <> t2.
    Hypothesis tnew : tid t = new_id N.
    Let T' := t :: without t1 t2 T.
    Definition Out (x : tr) : Prop := x <> t1 /\ x <> t2.
    Lemma out_cases x : In x T -> Out x \/ (x = t1 \/ x = t2).
    Proof.
      intros Hx. unfold Out. destruct (differ x t1) eqn:D1.
      - destruct (differ x t2) eqn:D2; [rewrite differ_iff in D1, D2; auto|]. right. right. apply tid_inj; auto. unfold differ in D2. apply negb_false_iff, Nat.eqb_eq in D2. auto.
      - right. left. apply tid_inj; auto. unfold differ in D1. apply negb_false_iff, Nat.eqb_eq in D1. auto.
    Qed.
    Lemma out_T' x : Out x -> In x T -> In x T'.
    Proof. intros [A B] C. right. apply without_in; auto. Qed.
    Lemma T'_in x : In x T' -> x = t \/ (In x T /\ Out x).
    Proof. intros [<- |H]; auto. apply without_in in H as (A & B & C); auto. right. repeat split; auto. Qed.
    Lemma ids_T' : NoDup (map tid T').
    Proof.
      cbn. constructor.
      - rewrite tnew. intros H. apply in_map_iff in H as (x & E & Hx). apply without_in in Hx as (A & _); auto. apply new_fresh in A. lia.
      - unfold without. clear - HN. assert (HD := ni_ids _ _ _ HN). revert HD. generalize T. induction l as [|a l IH]; cbn; intros HD; [constructor|].
        inversion HD as [|? ? A B]; subst. destruct (differ a t1 && differ a t2); auto. cbn. constructor; auto.
        intros H. apply A. apply in_map_iff in H as (x & E & Hx). apply filter_In in Hx as [Hx _]. apply in_map_iff. eauto.
    Qed.
  End Merge.

  (** ** Choice *)
  Lemma same_set_perm l m : NoDup l -> NoDup m -> same_set l m = true -> Permutation l m.
  Proof.
    intros A B H. apply andb_true_iff in H as [H1 H2]. rewrite forallb_forall in H1, H2. apply NoDup_Permutation; auto.
    intros x. split; intros Hx; [apply smem_iff, H1; auto|apply smem_iff, H2; auto].
  Qed.
  Lemma choice_same t1 t2 : In t1 T -> In t2 T -> choice_requirement N t1 t2 = true -> same i o N (merge_choice N t1 t2).
  Proof.
    intros T1 T2 HR. unfold choice_requirement in HR. rewrite !andb_true_iff in HR. destruct HR as ((((D & S1) & S2) & _) & _).
    rewrite differ_iff in D; auto. destruct (ni_tr _ _ _ HN t1 T1) as (a1 & a2 & a3 & a4 & a5 & a6). destruct (ni_tr _ _ _ HN t2 T2) as (b1 & b2 & b3 & b4 & b5 & b6).
    apply same_set_perm in S1, S2; auto.
    set (t := Tr (new_id N) (Node Xor [lab t1; lab t2]) (pre t1) (post t2)).
    assert (E : ts (merge_choice N t1 t2) = t :: without t1 t2 T) by reflexivity.
    assert (HP : forall x, x = t1 \/ x = t2 -> Permutation (pre x) (pre t)) by (intros x [-> | ->]; cbn; auto; symmetry; auto).
    assert (HQ : forall x, x = t1 \/ x = t2 -> Permutation (post x) (post t)) by (intros x [-> | ->]; cbn; auto; symmetry; auto).
    split.
    - constructor; try rewrite E.
      + apply ids_T'; auto.
      + intros x Hx. apply T'_in in Hx as [-> |[Hx _]]; auto; [|apply (ni_tr _ _ _ HN x Hx)]. exact (conj a1 (conj b2 (conj a3 (conj b4 (conj b5 a6))))).
      + intros x p Hx Hp. cbn [pl merge_choice]. apply T'_in in Hx as [-> |[Hx _]]; auto; [|apply (ni_pl _ _ _ HN x); auto].
        destruct Hp as [Hp|Hp]; [apply (ni_pl _ _ _ HN t1)|apply (ni_pl _ _ _ HN t2)]; auto.
      + apply (ni_io _ _ _ HN).
      + exact (ni_pd _ _ _ HN).
      + intros x Hx. apply T'_in in Hx as [-> |[Hx _]]; auto; [|apply (ni_lab _ _ _ HN); auto].
        constructor; [discriminate|]. repeat constructor; apply (ni_lab _ _ _ HN); auto.
      + intros S Si HS.
        assert (HS2 : siphon T S).
        { intros x p Hx Hp Sp. destruct (out_cases t1 t2 T1 T2 x Hx) as [Ox|Hx2].
          - apply (HS x p); auto. apply out_T'; auto.
          - destruct (HS t p (or_introl eq_refl)) as (q & A & B); auto; [apply (Permutation_in _ (HQ x Hx2)); auto|]. exists q. split; auto. apply (Permutation_in _ (Permutation_sym (HP x Hx2))); auto. }
        intros x p Hx Hp. apply T'_in in Hx as [-> |[Hx _]]; auto; [apply (ni_ns _ _ _ HN S Si HS2 t1)|apply (ni_ns _ _ _ HN S Si HS2 x)]; auto.
    - rewrite E. intros Hs. split.
      + eapply (choice_safe (t :: without t1 t2 T) T i t t1 t2 (Out t1 t2)); eauto; [apply out_cases; auto|intros; apply out_T'; auto|left; auto].
      + intros w. split.
        * eapply (choice_lacc L (t :: without t1 t2 T) T i t t1 t2 (Out t1 t2)); eauto; [apply out_cases; auto|intros; apply out_T'; auto|left; auto|].
          intros x v Hx H. apply lang_xor2. destruct Hx as [-> | ->]; auto.
        * eapply (choice_back L (t :: without t1 t2 T) T i t t1 t2); eauto; [|intros v H; apply lang_xor2 in H; auto].
          intros x Hx. apply T'_in in Hx; tauto.
  Qed.

  (** ** Sequence *)
  Lemma seq_req t1 t2 : In t1 T -> In t2 T -> sequence_requirement N t1 t2 = true ->
    t1 <> t2 /\ forall p, In p (post t1) \/ In p (pre t2) -> In p (post t1) /\ In p (pre t2) /\ (forall x, In x T -> In p (post x) -> x = t1) /\ (forall x, In x T -> In p (pre x) -> x = t2).
  Proof.
    intros T1 T2 HR. unfold sequence_requirement in HR. rewrite !andb_true_iff in HR. destruct HR as ((D & _) & A & B).
    rewrite differ_iff in D; auto. split; auto. rewrite forallb_forall in A, B.
    assert (U : forall p, (length (producers N p) =? 1) && (length (consumers N p) =? 1) && is_in t1 (producers N p) && is_in t2 (consumers N p) = true ->
      In p (post t1) /\ In p (pre t2) /\ (forall x, In x T -> In p (post x) -> x = t1) /\ (forall x, In x T -> In p (pre x) -> x = t2)).
    { intros p C. rewrite !andb_true_iff, !Nat.eqb_eq in C. destruct C as (((A1 & A2) & A3) & A4).
      destruct (prod_one t1 p T1 ltac:(lia) A3) as [X1 X2]; destruct (cons_one t2 p T2 ltac:(lia) A4) as [X3 X4]. auto. }
    intros p [Hp|Hp]; apply U; auto.
  Qed.
  Lemma cut_id Q l : (forall p, In p l -> ~ In p Q) -> cut Q l = l.
  Proof.
    induction l as [|a l IH]; cbn; intros H; auto. destruct (smem a Q) eqn:E; cbn; [apply smem_iff in E; exfalso; eapply H; eauto|]. f_equal. apply IH. auto.
  Qed.
  Lemma cut_in Q l p : In p (cut Q l) <-> In p l /\ ~ In p Q.
  Proof. unfold cut. rewrite filter_In, negb_true_iff. split; intros [A B]; split; auto; [intros C; apply smem_iff in C; congruence|]. destruct (smem p Q) eqn:E; auto. apply smem_iff in E. tauto. Qed.
  Lemma seq_same t1 t2 : In t1 T -> In t2 T -> sequence_requirement N t1 t2 = true -> same i o N (merge_sequence N t1 t2).
  Proof.
    intros T1 T2 HR. destruct (seq_req t1 t2 T1 T2 HR) as [D HQ].
    destruct (ni_tr _ _ _ HN t1 T1) as (a1 & a2 & a3 & a4 & a5 & a6). destruct (ni_tr _ _ _ HN t2 T2) as (b1 & b2 & b3 & b4 & b5 & b6).
    assert (PQ : Permutation (post t1) (pre t2)) by (apply NoDup_Permutation; auto; intros p; split; intros Hp; apply HQ; auto).
    assert (RQ : forall x q, Out t1 t2 x -> In x T -> In q (post t1) -> ~ In q (pre x) /\ ~ In q (post x)).
    { intros x q [O1 O2] Hx Hq. destruct (HQ q (or_introl Hq)) as (_ & _ & A & B). split; intros C; [apply O2|apply O1]; auto. }
    assert (Q1 : forall q, In q (post t1) -> ~ In q (pre t1) /\ ~ In q (post t2)).
    { intros q Hq. destruct (HQ q (or_introl Hq)) as (_ & _ & A & B). split; intros C; [apply D; apply (B t1)|apply D; symmetry; apply (A t2)]; auto. }
    set (t := Tr (new_id N) (Node Sequence [lab t1; lab t2]) (pre t1) (post t2)).
    assert (E : ts (merge_sequence N t1 t2) = t :: without t1 t2 T).
    { unfold merge_sequence, remove_places. cbn [ts map]. fold t. f_equal.
      - unfold t. cbn [tid lab pre post]. rewrite !cut_id; auto; [intros p A B|intros p A B]; destruct (Q1 p B); auto.
      - rewrite <- map_id. apply map_ext_in. intros x Hx. apply without_in in Hx as (A & B & C); auto. destruct x as [xi xl xp xq]. cbn [tid lab pre post]. rewrite !cut_id; auto.
        + intros p P1 P2. destruct (RQ (Tr xi xl xp xq) p (conj B C) A P2) as [_ Z]. auto.
        + intros p P1 P2. destruct (RQ (Tr xi xl xp xq) p (conj B C) A P2) as [Z _]. auto. }
    assert (Epl : pl (merge_sequence N t1 t2) = cut (post t1) (pl N)) by reflexivity.
    split.
    - constructor; try rewrite E; try rewrite Epl.
      + apply ids_T'; auto.
      + intros x Hx. apply T'_in in Hx as [-> |[Hx _]]; auto; [|apply (ni_tr _ _ _ HN x Hx)]. exact (conj a1 (conj b2 (conj a3 (conj b4 (conj b5 a6))))).
      + intros x p Hx Hp. apply cut_in. apply T'_in in Hx as [-> |[Hx Ox]]; auto.
        * destruct Hp as [Hp|Hp]; (split; [|intros C; destruct (Q1 p C); auto]); [apply (ni_pl _ _ _ HN t1)|apply (ni_pl _ _ _ HN t2)]; auto.
        * split; [apply (ni_pl _ _ _ HN x); auto|]. intros C. destruct (RQ x p Ox Hx C). tauto.
      + destruct (ni_io _ _ _ HN) as [Ii Io]. split; apply cut_in; split; auto. intros C. rewrite PQ in C. auto.
      + apply NoDup_filter. exact (ni_pd _ _ _ HN).
      + intros x Hx. apply T'_in in Hx as [-> |[Hx _]]; auto; [|apply (ni_lab _ _ _ HN); auto].
        constructor; [discriminate|]. repeat constructor; apply (ni_lab _ _ _ HN); auto.
      + intros S Si HS.
        set (S0 := fun p => (S p /\ ~ In p (post t1)) \/ (In p (post t1) /\ exists q, In q (post t2) /\ S q)).
        assert (HS2 : siphon T S0).
        { intros x p Hx Hp Sp. destruct (out_cases t1 t2 T1 T2 x Hx) as [Ox|[-> | ->]].
          - destruct Sp as [[Sp _]|[C _]]; [|destruct (RQ x p Ox Hx C); tauto]. destruct (HS x p (out_T' t t1 t2 T1 T2 x Ox Hx) Hp Sp) as (q & A & B). exists q. split; auto. left. split; auto. intros C. destruct (RQ x q Ox Hx C). tauto.
          - destruct Sp as [[_ C]|[_ (q & A & B)]]; [tauto|]. destruct (HS t q (or_introl eq_refl) A B) as (r & C1 & C2). exists r. split; auto. left. split; auto. intros C. destruct (Q1 r C). auto.
          - destruct Sp as [[Sp _]|[C _]]; [|destruct (Q1 p C); tauto]. destruct (ne_in _ a2) as [q Hq]. exists q. split; [rewrite <- PQ; auto|]. right. split; auto. exists p. auto. }
        assert (Si0 : ~ S0 i) by (intros [[A _]|[A _]]; auto).
        intros x p Hx Hp Sp. apply T'_in in Hx as [-> |[Hx Ox]]; auto.
        * apply (ni_ns _ _ _ HN S0 Si0 HS2 t1 p); auto. left. split; auto. intros C. destruct (Q1 p C). auto.
        * apply (ni_ns _ _ _ HN S0 Si0 HS2 x p); auto. left. split; auto. intros C. destruct (RQ x p Ox Hx C). tauto.
    - rewrite E. intros Hs. split.
      + eapply (seq_safe (t :: without t1 t2 T) T i t t1 t2 (Out t1 t2)); eauto; [apply out_cases; auto|intros; apply out_T'; auto|left; auto].
      + intros w. split.
        * eapply (seq_lacc L (t :: without t1 t2 T) T i t t1 t2 (Out t1 t2)); eauto; [apply out_cases; auto|intros; apply out_T'; auto|left; auto|].
          intros v1 v2 A B. apply lang_seq2. eauto.
        * eapply (seq_back L (t :: without t1 t2 T) T i t t1 t2); eauto; [|intros v H; apply lang_seq2 in H; auto].
          intros x Hx. apply T'_in in Hx; tauto.
  Qed.
End Net.
