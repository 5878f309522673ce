(** The bottom-up visit of a tree with unique labels reaches the root. *)
From Coq Require Import List Arith Lia Bool Permutation.
Import ListNotations.
From Verif Require Import Model_Tree Spec_Tree Proofs_Shuffle Proofs_Fold Model_TreeFP Spec_TreeFP Model_Bottomup.

(** the positions of a tree *)
Inductive pos (t : tree nat) : chain -> Prop :=
| pos_root : pos t [t]
| pos_child c x : pos t c -> In x (children (node_of c)) -> pos t (x :: c).

Lemma neqb_ok a b : Nat.eqb a b = true <-> a = b. Proof. apply Nat.eqb_eq. Qed.

Lemma NoDup_app_remove_r {A} (l k : list A) : NoDup (l ++ k) -> NoDup l.
Proof. induction l as [|x l IH]; cbn; intros H; constructor; inversion H; subst; [|auto]. intros Hi. apply H2, in_or_app. now left. Qed.
Lemma NoDup_app_remove_l {A} (l k : list A) : NoDup (l ++ k) -> NoDup k.
Proof. induction l as [|x l IH]; cbn; intros H; [exact H|]. inversion H; subst. auto. Qed.
Lemma size_in (x : tree nat) l : In x l -> size x <= list_sum (map size l).
Proof.
  induction l as [|y l IH]; [contradiction|]. intros H. change (list_sum (map size (y :: l))) with (size y + list_sum (map size l)).
  destruct H as [->|H]; [lia|]. specialize (IH H). lia.
Qed.
Lemma tree_dec (u : tree nat) : forall v, u = v \/ u <> v.
Proof.
  induction u as [l|o cs IH] using tree_ind2; intros [l'|o' ds]; try (right; discriminate).
  - destruct l as [a|], l' as [b|]; try (right; discriminate); [|now left]. destruct (Nat.eq_dec a b); [left; congruence|right; congruence].
  - assert (Hc : cs = ds \/ cs <> ds).
    { revert ds. induction IH as [|c cs Hc _ IHc]; intros [|d ds]; try (right; discriminate); [now left|].
      destruct (Hc d) as [->|]; [|right; congruence]. destruct (IHc ds) as [->|]; [now left|right; congruence]. }
    destruct Hc as [->|]; [|right; congruence]. destruct (op_eqb o o') eqn:E; [apply op_eqb_ok in E; left; congruence|].
    right. intros H. injection H as ->. destruct o'; discriminate.
Qed.
Lemma chain_dec (x y : chain) : x = y \/ x <> y.
Proof.
  revert y. induction x as [|u x IH]; intros [|v y]; try (right; discriminate); [now left|].
  destruct (tree_dec u v) as [->|]; [|right; congruence]. destruct (IH y) as [->|]; [now left|right; congruence].
Qed.

Section T.
  Context (t : tree nat) (Hwf : wf_tree t).

  Lemma pos_cons x : pos t x -> exists n up, x = n :: up.
  Proof. destruct 1; eauto. Qed.
  Lemma pos_everywhere (P : tree nat -> Prop) x : everywhere P t -> pos t x -> everywhere P (node_of x).
  Proof.
    intros H. induction 1 as [|c y Hc IH Hy]; cbn; [exact H|]. destruct (node_of c) as [l|o cs]; cbn in Hy; [contradiction|].
    inversion IH as [|? ? _ Hf]; subst. rewrite Forall_forall in Hf. auto.
  Qed.
  Lemma pos_wfi x : pos t x -> wfi (node_of x).
  Proof. intros H. apply wf_wfi. unfold wf_tree in *. now apply pos_everywhere. Qed.
  Lemma pos_tail x p up : pos t x -> tl x = p :: up -> pos t (p :: up) /\ In (node_of x) (children p).
  Proof.
    destruct 1 as [|c y Hc Hy]; cbn; intros E; [discriminate|]. subst c. auto.
  Qed.
  Lemma child_wfi (u y : tree nat) : wfi u -> In y (children u) -> wfi y.
  Proof.
    destruct u as [l|o cs]; cbn; [contradiction|]. intros H Hy. inversion H as [|? ? _ Hf]; subst. rewrite Forall_forall in Hf. apply Hf, Hy.
  Qed.

  Lemma among_iff l x : (forall c, In c l -> pos t c) -> wfi x -> among l x = true <-> In x (map node_of l).
  Proof.
    intros Hl Hx. unfold among. rewrite existsb_exists, in_map_iff. split.
    - intros (c & Hc & E). exists c. split; [|exact Hc]. apply (tree_eqb_ok Nat.eqb neqb_ok) in E; [exact E|apply pos_wfi, Hl, Hc|exact Hx].
    - intros (c & <- & Hc). exists c. split; [exact Hc|]. apply (tree_eqb_ok Nat.eqb neqb_ok); auto using pos_wfi.
  Qed.

  (** ** the visit *)
  Inductive desc (c : chain) : chain -> Prop :=
  | desc_self : desc c c
  | desc_child y x : desc c y -> In x (children (node_of y)) -> desc c (x :: y).
  Lemma desc_inv c x : desc c x -> x = c \/ exists y, In y (children (node_of c)) /\ desc (y :: c) x.
  Proof.
    induction 1 as [|y z Hd IH Hz]; [auto|]. right. destruct IH as [->|(u & Hu & Hd')].
    - exists z. split; [exact Hz|constructor].
    - exists u. split; [exact Hu|]. now constructor.
  Qed.
  Lemma pos_desc x : pos t x -> desc [t] x.
  Proof. induction 1; [constructor|now constructor]. Qed.

  Definition tsize (l : list chain) : nat := list_sum (map (fun c => size (node_of c)) l).
  Lemma size_children u : size u = S (list_sum (map size (children u))).
  Proof.
    destruct u as [l|o cs]; [reflexivity|]. cbn. f_equal. induction cs as [|c cs IH]; [reflexivity|]. cbn. now rewrite IH.
  Qed.
  Lemma tsize_app a b : tsize (a ++ b) = tsize a + tsize b.
  Proof. unfold tsize. now rewrite map_app, list_sum_app. Qed.
  Lemma tsize_children c : tsize (map (fun x => x :: c) (children (node_of c))) = list_sum (map size (children (node_of c))).
  Proof. unfold tsize. rewrite map_map. reflexivity. Qed.

  Lemma visit_spec fuel : forall tv all, tsize tv < fuel -> (forall c, In c tv \/ In c all -> pos t c) -> NoDup (map node_of all) ->
    exists r, visit fuel tv all = Some r /\ (forall c, In c r -> pos t c) /\ NoDup (map node_of r) /\
      (forall c, In c all -> In (node_of c) (map node_of r)) /\
      (forall c x, In c tv -> desc c x -> In (node_of x) (map node_of r)).
  Proof.
    induction fuel as [|fuel IH]; intros tv all Hf Hp Hn; [lia|]. cbn. destruct tv as [|c tv].
    { exists all. split; [reflexivity|]. split; [auto|]. split; [exact Hn|]. split; [intros; now apply in_map|intros c x []]. }
    assert (Hc : pos t c) by (apply Hp; left; now left).
    set (all' := if among all (node_of c) then all else all ++ [c]).
    assert (Hall : forall x, In x all -> In x all') by (intros x Hx; unfold all'; destruct (among _ _); [exact Hx|apply in_or_app; now left]).
    assert (Hin : In (node_of c) (map node_of all')).
    { unfold all'. destruct (among all (node_of c)) eqn:E; [|rewrite map_app; apply in_or_app; right; now left].
      apply among_iff in E; [exact E|intros; apply Hp; auto|apply pos_wfi, Hc]. }
    destruct (IH (tv ++ map (fun x => x :: c) (children (node_of c))) all') as (r & E & H1 & H2 & H3 & H4).
    - change (tsize (c :: tv)) with (size (node_of c) + tsize tv) in Hf. rewrite tsize_app, tsize_children. rewrite size_children in Hf. lia.
    - intros x [Hx|Hx].
      + apply in_app_or in Hx as [Hx|Hx]; [apply Hp; left; now right|]. apply in_map_iff in Hx as (y & <- & Hy). now constructor.
      + unfold all' in Hx. destruct (among all (node_of c)); [apply Hp; auto|]. apply in_app_or in Hx as [Hx|[<-|[]]]; [apply Hp; auto|exact Hc].
    - unfold all'. destruct (among all (node_of c)) eqn:Ea; [exact Hn|]. rewrite map_app. cbn. apply (Permutation_NoDup (Permutation_cons_append _ _)).
      constructor; [|exact Hn]. intros Hi. apply (among_iff all (node_of c)) in Hi; [congruence|intros; apply Hp; auto|apply pos_wfi, Hc].
    - exists r. split; [exact E|]. split; [exact H1|]. split; [exact H2|]. split; [intros x Hx; apply H3, Hall, Hx|].
      intros x y [<-|Hx] Hd.
      + apply desc_inv in Hd as [->|(z & Hz & Hd)].
        * apply in_map_iff in Hin as (c' & E' & Hc'). rewrite <- E'. apply H3, Hc'.
        * eapply H4; [|exact Hd]. apply in_or_app. right. apply in_map_iff. eauto.
      + eapply H4; [|exact Hd]. apply in_or_app. now left.
  Qed.

  (** ** growing *)
  (** all subtrees *)
  Fixpoint subtrees (u : tree nat) : list (tree nat) :=
    u :: match u with Leaf _ => [] | Node _ cs => concat (map subtrees cs) end.
  Lemma subtrees_length u : length (subtrees u) = size u.
  Proof.
    induction u as [l|o cs IH] using tree_ind2; [reflexivity|]. cbn. f_equal. induction IH as [|c cs Hc _ IH]; [reflexivity|].
    cbn. rewrite app_length, Hc, IH. reflexivity.
  Qed.
  Lemma subtrees_trans u : forall v, In v (subtrees u) -> forall w, In w (children v) -> In w (subtrees u).
  Proof.
    induction u as [l|o cs IH] using tree_ind2; intros v Hv w Hw.
    - cbn in Hv. destruct Hv as [<-|[]]. contradiction.
    - cbn in Hv. right. destruct Hv as [<-|Hv].
      + cbn in Hw. apply in_concat. exists (subtrees w). split; [now apply in_map|]. destruct w; now left.
      + apply in_concat in Hv as (l & Hl & Hv). apply in_map_iff in Hl as (c & <- & Hc). rewrite Forall_forall in IH.
        apply in_concat. exists (subtrees c). split; [now apply in_map|]. eapply IH; eauto.
  Qed.
  Lemma pos_subtree x : pos t x -> In (node_of x) (subtrees t).
  Proof. induction 1; [destruct t; now left|]. cbn. eapply subtrees_trans; eauto. Qed.
  Lemma nodes_bound l : (forall c, In c l -> pos t c) -> NoDup (map node_of l) -> length l <= size t.
  Proof.
    intros Hp Hn. rewrite <- (map_length node_of l), <- subtrees_length. apply NoDup_incl_length; [exact Hn|].
    intros x Hx. apply in_map_iff in Hx as (c & <- & Hc). apply pos_subtree, Hp, Hc.
  Qed.

  (** every operator node is preceded by its children *)
  Definition ordered (l : list chain) : Prop :=
    forall a c b, l = a ++ c :: b -> forall x, In x (children (node_of c)) -> In x (map node_of a).
  Definition leaf_chain (c : chain) : Prop := children (node_of c) = [].

  Definition missing (done rest : list chain) : Prop :=
    forall n up, pos t (n :: up) -> children n <> [] ->
      In n (map node_of (done ++ rest)) \/
      exists x, In x (children n) /\ x <> Leaf None /\ ~ In (x :: n :: up) done.

  Lemma ordered_snoc l c : ordered l -> (forall x, In x (children (node_of c)) -> In x (map node_of l)) -> ordered (l ++ [c]).
  Proof.
    intros H Hc a d b E x Hx. destruct (@exists_last _ (d :: b)) as (b' & z & Eb); [discriminate|].
    rewrite Eb, app_assoc in E. apply app_inj_tail in E as [El <-]. destruct b' as [|d' b'].
    - cbn in Eb. injection Eb as -> _. rewrite app_nil_r in El. subst. auto.
    - cbn in Eb. injection Eb as <- _. eapply (H a d b'); [exact El|exact Hx].
  Qed.

  Lemma grow_spec fuel : forall done rest, size t < fuel + length done -> (forall c, In c (done ++ rest) -> pos t c) -> NoDup (map node_of (done ++ rest)) ->
    ordered (done ++ rest) -> (forall c, pos t c -> leaf_chain c -> In (node_of c) (map node_of (done ++ rest))) -> missing done rest ->
    exists r, grow fuel done rest = Some r /\ (forall c, In c r -> pos t c) /\ NoDup (map node_of r) /\ ordered r /\
      (forall c, pos t c -> leaf_chain c -> In (node_of c) (map node_of r)) /\ missing r [].
  Proof.
    induction fuel as [|fuel IH]; intros done rest Hf Hp Hn Ho Hl Hm.
    { pose proof (nodes_bound _ Hp Hn) as Hb. rewrite app_length in Hb. lia. }
    cbn. destruct rest as [|c rest].
    { exists done. rewrite app_nil_r in *. split; [reflexivity|]. split; [exact Hp|]. split; [exact Hn|]. split; [exact Ho|]. split; [exact Hl|].
      exact Hm. }
    assert (Hc : pos t c) by (apply Hp, in_or_app; right; now left).
    (* the step that only advances *)
    assert (Hstay : (forall p up, tl c = p :: up -> In p (map node_of (done ++ c :: rest)) \/
        exists x, In x (children p) /\ ~ In x (map node_of (done ++ c :: rest))) ->
      exists r, grow fuel (done ++ [c]) rest = Some r /\ (forall c, In c r -> pos t c) /\ NoDup (map node_of r) /\ ordered r /\
      (forall c, pos t c -> leaf_chain c -> In (node_of c) (map node_of r)) /\ missing r []).
    { intros Hcase. apply IH; rewrite <- ?app_assoc; cbn [app]; try assumption.
      - rewrite app_length. cbn. lia.
      - intros n up Hpos Hch. rewrite <- app_assoc. cbn [app]. destruct (Hm n up Hpos Hch) as [H|(x & Hx & Hxn & Hnd)]; [left; exact H|].
        assert (Hdec : (x :: n :: up) = c \/ (x :: n :: up) <> c).
        { apply chain_dec. }
        destruct Hdec as [E|Hne].
        + subst c. destruct (Hcase n up eq_refl) as [H|(y & Hy & Hyn)]; [left; exact H|]. right. exists y. split; [exact Hy|]. split.
          * intros ->. apply Hyn. apply (Hl (Leaf None :: n :: up)); [now constructor|reflexivity].
          * intros Hi. apply Hyn. apply in_app_or in Hi as [Hi|[Hi|[]]].
            -- apply (in_map node_of) in Hi. rewrite map_app. apply in_or_app. now left.
            -- injection Hi as ->. rewrite map_app. apply in_or_app. right. now left.
        + right. exists x. split; [exact Hx|]. split; [exact Hxn|]. intros Hi. apply in_app_or in Hi as [Hi|[Hi|[]]]; [auto|congruence]. }
    destruct (tl c) as [|p up] eqn:Et.
    { apply Hstay. intros p up E. discriminate. }
    destruct (pos_tail c p up Hc Et) as [Hpp Hpc].
    assert (Hwp : wfi p) by apply (pos_wfi (p :: up) Hpp).
    destruct (among (done ++ c :: rest) p) eqn:Ea.
    { apply (among_iff _ p Hp Hwp) in Ea. apply Hstay. intros p' up' E. injection E as <- <-. left. exact Ea. }
    destruct (forallb (among (done ++ c :: rest)) (children p)) eqn:Eb.
    - assert (Hch : forall x, In x (children p) -> In x (map node_of (done ++ c :: rest))).
      { intros x Hx. rewrite forallb_forall in Eb. apply (among_iff _ x Hp); [eapply child_wfi; eauto|]. apply Eb, Hx. }
      assert (Hnp : ~ In p (map node_of (done ++ c :: rest))).
      { intros Hi. apply (among_iff _ p Hp Hwp) in Hi. congruence. }
      apply IH.
      + rewrite app_length. cbn. lia.
      + intros x Hx. rewrite <- app_assoc in Hx. cbn in Hx. rewrite app_comm_cons, app_assoc in Hx. apply in_app_or in Hx as [Hx|[<-|[]]]; [apply Hp, Hx|exact Hpp].
      + rewrite <- app_assoc. cbn. rewrite app_comm_cons, app_assoc, map_app. cbn.
        apply (Permutation_NoDup (Permutation_cons_append _ _)). constructor; assumption.
      + rewrite <- app_assoc. cbn. rewrite app_comm_cons, app_assoc. apply ordered_snoc; [exact Ho|exact Hch].
      + intros x Hx Hlx. rewrite <- app_assoc. cbn. rewrite app_comm_cons, app_assoc, map_app. apply in_or_app. left. now apply Hl.
      + intros n up' Hpos Hcn. rewrite <- app_assoc. cbn [app]. rewrite app_comm_cons, app_assoc.
        destruct (Hm n up' Hpos Hcn) as [H|(x & Hx & Hxn & Hnd)]; [left; rewrite map_app; apply in_or_app; now left|].
        assert (Hdec : (x :: n :: up') = c \/ (x :: n :: up') <> c).
        { apply chain_dec. }
        destruct Hdec as [E|Hne].
        * subst c. cbn in Et. injection Et as -> ->. left. rewrite map_app. apply in_or_app. right. now left.
        * right. exists x. split; [exact Hx|]. split; [exact Hxn|]. intros Hi. apply in_app_or in Hi as [Hi|[Hi|[]]]; [auto|congruence].
    - apply Hstay. intros p' up' E. injection E as <- <-. right.
      assert (Hex : exists x, In x (children p) /\ among (done ++ c :: rest) x = false).
      { clear -Eb. induction (children p) as [|x l IHl]; [discriminate|]. cbn in Eb. destruct (among _ x) eqn:Ex; [|exists x; split; [now left|exact Ex]].
        destruct (IHl Eb) as (y & Hy & Ey). exists y. split; [now right|exact Ey]. }
      destruct Hex as (x & Hx & Ex). exists x. split; [exact Hx|]. intros Hi. apply (among_iff _ x Hp) in Hi; [congruence|]. eapply child_wfi; eauto.
  Qed.

  (** ** unique labels *)
  Context (Hnd : NoDup (leaf_labels t)) (Hvis : everywhere (fun u => match u with Leaf _ => True | Node _ _ => leaf_labels u <> [] end) t).

  Lemma labels_children u x a : In x (children u) -> In a (leaf_labels x) -> In a (leaf_labels u).
  Proof.
    destruct u as [l|o cs]; cbn; [contradiction|]. intros Hx Ha. apply in_concat. exists (leaf_labels x). split; [now apply in_map|exact Ha].
  Qed.
  Lemma nodup_children o (cs : list (tree nat)) x : NoDup (leaf_labels (Node o cs)) -> In x cs -> NoDup (leaf_labels x).
  Proof.
    cbn. induction cs as [|c cs IH]; intros H Hx; [contradiction|]. cbn in H. apply NoDup_app_remove_r in H as H1. apply NoDup_app_remove_l in H as H2.
    destruct Hx as [->|Hx]; auto.
  Qed.
  Lemma pos_nodup x : pos t x -> NoDup (leaf_labels (node_of x)).
  Proof.
    induction 1 as [|c y Hc IH Hy]; [exact Hnd|]. destruct (node_of c) as [l|o cs]; [contradiction|]. eapply nodup_children; eauto.
  Qed.
  Lemma NoDup_app_disjoint (l k : list nat) : NoDup (l ++ k) -> forall a, In a l -> In a k -> False.
  Proof. induction l as [|b l IH]; cbn; intros H a Ha Hk; [contradiction|]. inversion H; subst. destruct Ha as [->|Ha]; [apply H2, in_or_app; auto|eauto]. Qed.
  Lemma child_unique (u x y : tree nat) a : NoDup (leaf_labels u) -> In x (children u) -> In y (children u) -> In a (leaf_labels x) -> In a (leaf_labels y) -> x = y.
  Proof.
    destruct u as [l|o cs]; cbn [children]; [contradiction|]. cbn. induction cs as [|c cs IH]; intros H Hx Hy Hax Hay; [contradiction|]. cbn in H.
    destruct Hx as [->|Hx], Hy as [->|Hy]; [reflexivity| | |apply IH; auto; eapply NoDup_app_remove_l; eauto].
    - exfalso. eapply (NoDup_app_disjoint _ _ H a Hax). apply in_concat. exists (leaf_labels y). split; [now apply in_map|exact Hay].
    - exfalso. eapply (NoDup_app_disjoint _ _ H a Hay). apply in_concat. exists (leaf_labels x). split; [now apply in_map|exact Hax].
  Qed.
  Lemma same_length_same x : pos t x -> forall y a, pos t y -> length x = length y -> In a (leaf_labels (node_of x)) -> In a (leaf_labels (node_of y)) -> x = y.
  Proof.
    induction 1 as [|c z Hc IH Hz]; intros y a Hy El Hax Hay.
    - destruct Hy as [|c' z' Hc' Hz']; [reflexivity|]. destruct (pos_cons c' Hc') as (? & ? & ->). cbn in El. lia.
    - destruct Hy as [|c' z' Hc' Hz']; [destruct (pos_cons c Hc) as (? & ? & ->); cbn in El; lia|]. cbn in *.
      assert (E : c = c'). { apply (IH c' a Hc'); [lia|eapply labels_children; eauto|eapply labels_children; eauto]. }
      subst c'. f_equal. eapply child_unique; [apply (pos_nodup c Hc)|exact Hz|exact Hz'|exact Hax|exact Hay].
  Qed.
  Lemma pos_suffix y : pos t y -> forall n, 1 <= n <= length y -> exists z, pos t z /\ length z = n /\
    (forall a, In a (leaf_labels (node_of y)) -> In a (leaf_labels (node_of z))) /\ (n < length y -> size (node_of y) < size (node_of z)).
  Proof.
    induction 1 as [|c x Hc IH Hx]; intros n Hn.
    - cbn in Hn. assert (n = 1) by lia. subst. exists [t]. split; [constructor|]. split; [reflexivity|]. split; [auto|cbn; lia].
    - cbn in Hn. destruct (Nat.eq_dec n (S (length c))) as [->|Hne].
      + exists (x :: c). split; [now constructor|]. split; [reflexivity|]. split; [auto|cbn; lia].
      + assert (Hsx : size x < size (node_of c)).
        { rewrite (size_children (node_of c)). apply Nat.lt_succ_r, size_in, Hx. }
        destruct (Nat.eq_dec n (length c)) as [->|Hne'].
        * exists c. split; [exact Hc|]. split; [reflexivity|]. split; [intros a Ha; cbn in Ha; eapply labels_children; eauto|]. cbn. lia.
        * destruct (IH n) as (z & Hz & El & Ha & Hs); [lia|]. exists z. split; [exact Hz|]. split; [exact El|].
          split; [intros a Hax; apply Ha; cbn in Hax; eapply labels_children; eauto|]. intros _. cbn. specialize (Hs ltac:(lia)). lia.
  Qed.
  Lemma unique_pos n up1 up2 : leaf_labels n <> [] -> pos t (n :: up1) -> pos t (n :: up2) -> up1 = up2.
  Proof.
    intros Hn H1 H2. destruct (leaf_labels n) as [|a l] eqn:E; [congruence|].
    assert (Ha : In a (leaf_labels n)) by (rewrite E; now left).
    assert (G : forall u1 u2, pos t (n :: u1) -> pos t (n :: u2) -> length u1 <= length u2 -> u1 = u2).
    { intros u1 u2 P1 P2 Hle. destruct (pos_suffix _ P2 (length (n :: u1))) as (z & Hz & El & Hza & Hs); [cbn; lia|].
      assert (Ez : n :: u1 = z). { apply (same_length_same _ P1 z a Hz); [auto|exact Ha|apply Hza; exact Ha]. }
      subst z. cbn in Hs. destruct (Nat.eq_dec (length u1) (length u2)) as [Eq|]; [|specialize (Hs ltac:(lia)); lia].
      assert (E2 : n :: u1 = n :: u2) by (apply (same_length_same _ P1 (n :: u2) a P2); cbn; [lia|exact Ha|exact Ha]). congruence. }
    destruct (Nat.le_ge_cases (length up1) (length up2)); [auto|symmetry; auto].
  Qed.

  Lemma labels_nil_leaf x : pos t x -> leaf_labels (node_of x) = [] -> node_of x = Leaf None.
  Proof.
    intros Hx E. pose proof (pos_everywhere _ x Hvis Hx) as H. destruct (node_of x) as [[a|]|o cs]; [discriminate|reflexivity|].
    inversion H; subst. contradiction.
  Qed.

  Lemma all_there r : (forall c, In c r -> pos t c) -> (forall c, pos t c -> leaf_chain c -> In (node_of c) (map node_of r)) -> missing r [] ->
    forall n up, pos t (n :: up) -> In n (map node_of r).
  Proof.
    intros Hp Hl Hm. induction n as [l|o cs IH] using tree_ind2; intros up Hpos.
    - apply (Hl (Leaf l :: up) Hpos). reflexivity.
    - destruct (Hm (Node o cs) up Hpos) as [H|(x & Hx & Hxn & Hi)].
      + cbn. pose proof (pos_wfi _ Hpos) as Hw. cbn in Hw. apply wfi_node in Hw. tauto.
      + now rewrite app_nil_r in H.
      + exfalso. apply Hi. cbn in Hx. rewrite Forall_forall in IH.
        assert (Hpx : pos t (x :: Node o cs :: up)) by (constructor; [exact Hpos|exact Hx]).
        pose proof (IH x Hx _ Hpx) as Hin. apply in_map_iff in Hin as (c & Ec & Hc).
        pose proof (Hp c Hc) as Hpc. destruct (pos_cons c Hpc) as (cn & cu & ->). cbn in Ec. subst cn.
        assert (Hlx : leaf_labels x <> []). { intros E. apply Hxn. exact (labels_nil_leaf _ Hpx E). }
        rewrite <- (unique_pos x cu (Node o cs :: up) Hlx Hpc Hpx). exact Hc.
  Qed.

  Theorem bottomup_full ord fuel : (forall l, Permutation (ord l) l) -> size t < fuel ->
    exists r, get_bottomup_nodes ord fuel t = Some r /\ (forall c, In c r -> pos t c) /\ ordered r /\ In t (map node_of r) /\ NoDup (map node_of r).
  Proof.
    intros Ho Hf. unfold get_bottomup_nodes.
    destruct (visit_spec fuel [[t]] []) as (all & E & H1 & H2 & _ & H4).
    - unfold tsize. cbn. lia.
    - intros c [[<-|[]]|[]]. constructor.
    - constructor.
    - rewrite E. set (f := fun c : chain => match children (node_of c) with [] => true | _ => false end).
      assert (Hleaf : forall c, pos t c -> leaf_chain c -> In (node_of c) (map node_of (filter f (ord all)))).
      { intros c Hc Hlc. pose proof (H4 [t] c (or_introl eq_refl) (pos_desc c Hc)) as Hi. apply in_map_iff in Hi as (c' & Ec & Hc').
        apply in_map_iff. exists c'. split; [exact Ec|]. apply filter_In. split; [apply (Permutation_in _ (Permutation_sym (Ho all))), Hc'|].
        unfold f. rewrite Ec. unfold leaf_chain in Hlc. now rewrite Hlc. }
      destruct (grow_spec fuel [] (filter f (ord all))) as (r & Er & R1 & R2 & R3 & R4 & R5).
      + cbn. lia.
      + cbn. intros c Hc. apply filter_In in Hc as [Hc _]. apply H1, (Permutation_in _ (Ho all)), Hc.
      + cbn [app]. assert (Hno : NoDup (map node_of (ord all))) by (eapply Permutation_NoDup; [apply Permutation_map, Permutation_sym, Ho|exact H2]).
        clear -Hno. induction (ord all) as [|c l IH]; [constructor|]. cbn in *. inversion Hno; subst. destruct (f c); cbn; [|auto].
        constructor; [|auto]. intros Hi. apply H1. apply in_map_iff in Hi as (d & <- & Hd). apply filter_In in Hd as [Hd _]. now apply in_map.
      + cbn [app]. intros a c b Ef x Hx. exfalso. assert (Hc : In c (filter f (ord all))) by (rewrite Ef; apply in_or_app; right; now left).
        apply filter_In in Hc as [_ Hc]. unfold f in Hc. destruct (children (node_of c)); [contradiction|discriminate].
      + exact Hleaf.
      + intros n up Hpos Hch. right. pose proof (pos_everywhere _ _ Hvis Hpos) as Hv. cbn in Hv. destruct n as [l|o cs]; [cbn in Hch; congruence|].
        inversion Hv as [|? ? Hlab _]; subst. cbn in Hlab.
        assert (Hx : exists x, In x cs /\ leaf_labels x <> []).
        { clear -Hlab. induction cs as [|c cs IH]; [cbn in Hlab; congruence|]. cbn in Hlab. destruct (leaf_labels c) eqn:Ec.
          - destruct (IH Hlab) as (x & Hx & Hn). exists x. split; [now right|exact Hn].
          - exists c. split; [now left|]. rewrite Ec. discriminate. }
        destruct Hx as (x & Hx & Hn). exists x. split; [exact Hx|]. split; [intros ->; cbn in Hn; congruence|intros []].
      + exists r. split; [exact Er|]. split; [exact R1|]. split; [exact R3|]. split; [|exact R2]. eapply all_there; eauto. constructor.
  Qed.
  Theorem bottomup_spec ord fuel : (forall l, Permutation (ord l) l) -> size t < fuel ->
    exists r, get_bottomup_nodes ord fuel t = Some r /\ (forall c, In c r -> pos t c) /\ ordered r /\ In t (map node_of r).
  Proof. intros A B. destruct (bottomup_full ord fuel A B) as (r & H). exists r. tauto. Qed.

  (** ** dictionaries *)
  Lemma find_node_in {V} (d : list (tree nat * V)) x v : (forall k w, In (k, w) d -> wfi k) -> wfi x -> find_node d x = Some v -> In (x, v) d.
  Proof.
    intros Hd Hx. induction d as [|[k w] d IH]; cbn; [discriminate|]. destruct (tree_eqb Nat.eqb k x) eqn:E.
    - intros [= <-]. apply (tree_eqb_ok Nat.eqb neqb_ok) in E; [subst; now left|eapply Hd; now left|exact Hx].
    - intros H. right. apply IH; [|exact H]. intros k' w' Hk. eapply Hd. right. exact Hk.
  Qed.
  Lemma find_node_some {V} (d : list (tree nat * V)) x : wfi x -> In x (map fst d) -> exists v, find_node d x = Some v.
  Proof.
    intros Hx. induction d as [|[k w] d IH]; cbn; [contradiction|]. intros H. destruct (tree_eqb Nat.eqb k x) eqn:E; [eauto|].
    destruct H as [->|H]; [|auto]. assert (tree_eqb Nat.eqb x x = true) by (apply (tree_eqb_ok Nat.eqb neqb_ok); auto). congruence.
  Qed.
  (** A recursive function [rec] is computed by a bottom-up fill. *)
  Lemma fill_spec {V} (f : tree nat -> list (tree nat * V) -> option V) (rec : tree nat -> V) :
    (forall n d, pos t n -> (forall x, In x (children (node_of n)) -> find_node d x = Some (rec x)) -> f (node_of n) d = Some (rec (node_of n))) ->
    forall r, (forall c, In c r -> pos t c) -> ordered r -> exists d, fill f r [] = Some d /\
      forall x, In x (map node_of r) -> find_node d x = Some (rec x).
  Proof.
    intros Hf r Hp Ho.
    assert (G : forall b a d, r = a ++ b -> map fst d = map node_of a -> (forall k v, In (k, v) d -> v = rec k) ->
      exists d', fill f b d = Some d' /\ map fst d' = map node_of r /\ (forall k v, In (k, v) d' -> v = rec k)).
    { induction b as [|c b IH]; intros a d E Hk Hv; cbn.
      - exists d. split; [reflexivity|]. split; [|exact Hv]. rewrite E, app_nil_r. exact Hk.
      - assert (Hc : pos t c) by (apply Hp; rewrite E; apply in_or_app; right; now left).
        assert (Hkw : forall k w, In (k, w) d -> wfi k).
        { intros k w Hi. apply (in_map fst) in Hi. cbn in Hi. rewrite Hk in Hi. apply in_map_iff in Hi as (c' & <- & Hc'). apply pos_wfi, Hp. rewrite E. apply in_or_app. now left. }
        rewrite (Hf c d Hc).
        + apply (IH (a ++ [c]) (d ++ [(node_of c, rec (node_of c))])).
          * rewrite E, <- app_assoc. reflexivity.
          * rewrite !map_app, Hk. reflexivity.
          * intros k v Hi. apply in_app_or in Hi as [Hi|[Hi|[]]]; [auto|]. now injection Hi as <- <-.
        + intros x Hx. pose proof (Ho a c b E x Hx) as Hxa. rewrite <- Hk in Hxa.
          assert (Hwx : wfi x) by (eapply child_wfi; [apply (pos_wfi c Hc)|exact Hx]).
          destruct (find_node_some d x Hwx Hxa) as (v & Ev). rewrite Ev. f_equal. apply Hv, find_node_in; auto. }
    destruct (G r [] [] eq_refl eq_refl) as (d & E & Hk & Hv); [intros k v []|]. exists d. split; [exact E|].
    intros x Hx. assert (Hwx : wfi x) by (apply in_map_iff in Hx as (c & <- & Hc); apply pos_wfi, Hp, Hc).
    rewrite <- Hk in Hx. destruct (find_node_some d x Hwx Hx) as (v & Ev). rewrite Ev. f_equal. apply Hv, find_node_in; auto.
    intros k w Hi. apply (in_map fst) in Hi. cbn in Hi. rewrite Hk in Hi. apply in_map_iff in Hi as (c' & <- & Hc'). apply pos_wfi, Hp, Hc'.
  Qed.
End T.
