(** Proofs about prefix trees. *)
From Coq Require Import List Arith Bool Lia.
Import ListNotations.
From Verif Require Import Model_Dict Model_Dfg Model_Trie Spec_Trie Proofs_Dict.
From Verif Require Proofs_Dfg.

Lemma insert_label v t : t_label (insert v t) = t_label t.
Proof. destruct v; cbn; auto. destruct t as [l d f cs]. destruct (find_child n cs); reflexivity. Qed.
Lemma insert_depth v t : t_depth (insert v t) = t_depth t.
Proof. destruct v; cbn; auto. destruct t as [l d f cs]. destruct (find_child n cs); reflexivity. Qed.
Lemma insert_final v t : t_final (insert v t) = t_final t.
Proof. destruct v; cbn; auto. destruct t as [l d f cs]. destruct (find_child n cs); reflexivity. Qed.

Lemma find_child_some a cs k : find_child a cs = Some k -> exists pre c post, cs = pre ++ c :: post /\ length pre = k /\ t_label c = Some a.
Proof.
  revert k. induction cs as [|c cs IH]; cbn; intros k Hk; [discriminate|].
  destruct (t_label c) as [b|] eqn:Hc.
  - destruct (Nat.eqb b a) eqn:Hb.
    + injection Hk as <-. apply Nat.eqb_eq in Hb as ->. exists [], c, cs. auto.
    + destruct (find_child a cs) as [j|]; [|discriminate]. injection Hk as <-. destruct (IH j eq_refl) as (pre & c' & post & -> & Hl & Ha).
      exists (c :: pre), c', post. cbn. auto.
  - destruct (find_child a cs) as [j|]; [|discriminate]. injection Hk as <-. destruct (IH j eq_refl) as (pre & c' & post & -> & Hl & Ha).
    exists (c :: pre), c', post. cbn. auto.
Qed.
Lemma find_child_none a cs : find_child a cs = None -> forall c, In c cs -> t_label c <> Some a.
Proof.
  induction cs as [|c cs IH]; cbn; intros Hn x [].
  - subst x. destruct (t_label c) as [b|]; [|discriminate]. destruct (Nat.eqb_spec b a); [discriminate|congruence].
  - apply IH; auto. destruct (match t_label c with Some b => Nat.eqb b a | None => false end); [discriminate|]. destruct (find_child a cs); [discriminate|auto].
Qed.
Lemma update_at {X} (f : X -> X) pre c post : update (length pre) f (pre ++ c :: post) = pre ++ f c :: post.
Proof. induction pre; cbn; congruence. Qed.

(** Every reachable node has children with distinct labels and the next depth. *)
Definition wf (t : trie) : Prop := forall p n, reaches t p n ->
  NoDup (map t_label (t_children n)) /\ forall c, In c (t_children n) -> (exists a, t_label c = Some a) /\ t_depth c = S (t_depth n).
Lemma wf_child t c : wf t -> In c (t_children t) -> wf c.
Proof.
  intros Hw Hc p n Hr. destruct (Hw [] t (reach_here t)) as [_ Hs]. destruct (Hs c Hc) as [[a Ha] _].
  apply (Hw (a :: p) n). econstructor; eauto.
Qed.
Lemma wf_intro t : NoDup (map t_label (t_children t)) -> (forall c, In c (t_children t) -> (exists a, t_label c = Some a) /\ t_depth c = S (t_depth t) /\ wf c) -> wf t.
Proof.
  intros Hn Hs p n Hr. inversion Hr; subst.
  - split; auto. intros c Hc. destruct (Hs c Hc) as (A & B & _). auto.
  - destruct (Hs c H) as (_ & _ & W). apply (W _ _ H1).
Qed.
Lemma wf_node t : wf t -> NoDup (map t_label (t_children t)) /\ forall c, In c (t_children t) -> (exists a, t_label c = Some a) /\ t_depth c = S (t_depth t).
Proof. intros Hw. apply (Hw [] t (reach_here t)). Qed.
Lemma wf_insert v t : wf t -> wf (insert v t).
Proof.
  revert t. induction v as [|a w IH]; intros [l d f cs] Hw; auto.
  cbn [insert]. pose proof (wf_node _ Hw) as [Hn Hs]. cbn in Hn, Hs. destruct (find_child a cs) as [k|] eqn:Hk.
  - apply find_child_some in Hk as (pre & c & post & -> & Hl & Ha). subst k. rewrite update_at. apply wf_intro; cbn.
    + rewrite map_app in *. cbn in *. rewrite insert_label. auto.
    + intros x Hx. apply in_app_iff in Hx as [Hx|[<-|Hx]].
      * destruct (Hs x) as [? ?]; [apply in_app_iff; auto|]. split; auto. split; auto. apply (wf_child _ x Hw). cbn. apply in_app_iff; auto.
      * rewrite insert_label, insert_depth. destruct (Hs c) as [? ?]; [apply in_app_iff; cbn; auto|]. split; auto. split; auto. apply IH. apply (wf_child _ c Hw). cbn. apply in_app_iff; cbn; auto.
      * destruct (Hs x) as [? ?]; [apply in_app_iff; cbn; auto|]. split; auto. split; auto. apply (wf_child _ x Hw). cbn. apply in_app_iff; cbn; auto.
  - apply wf_intro; cbn.
    + rewrite map_app. cbn. rewrite insert_label. cbn. apply Proofs_Dfg.NoDup_app_intro; [auto|repeat constructor; intros []|].
      intros x Hx. apply in_map_iff in Hx as (c & <- & Hc). intros [E|[]]. symmetry in E. revert E. apply (find_child_none a cs Hk c Hc).
    + intros x Hx. apply in_app_iff in Hx as [Hx|[<-|[]]].
      * destruct (Hs x Hx). split; auto. split; auto. apply (wf_child _ x Hw). auto.
      * rewrite insert_label, insert_depth. cbn. split; [eauto|]. split; [lia|]. apply IH. intros p n Hr. inversion Hr; subst; cbn in *; [|contradiction]. split; [constructor|intros ? []].
Qed.
Lemma child_unique t c c' a : wf t -> In c (t_children t) -> In c' (t_children t) -> t_label c = Some a -> t_label c' = Some a -> c = c'.
Proof.
  intros Hw Hc Hc' Ha Ha'. pose proof (wf_node _ Hw) as [Hn _]. clear Hw. induction (t_children t) as [|x l IH]; [contradiction|].
  cbn in Hn. inversion Hn; subst. destruct Hc as [->|Hc], Hc' as [->|Hc']; auto.
  - exfalso. apply H1. rewrite Ha, <- Ha'. apply in_map; auto.
  - exfalso. apply H1. rewrite Ha', <- Ha. apply in_map; auto.
Qed.
Lemma reaches_fun t p n n' : wf t -> reaches t p n -> reaches t p n' -> n = n'.
Proof.
  intros Hw Hr. revert n' Hw. induction Hr as [t|t c a p n Hc Ha Hr IH]; intros n' Hw Hr'; inversion Hr'; subst; auto.
  assert (c = c0) as -> by (apply (child_unique t c c0 a); auto).
  apply IH; auto. apply (wf_child _ _ Hw); auto.
Qed.
Definition fresh (d : nat) (p s : trace) : trie := Trie (match rev p with a :: _ => Some a | [] => None end) (d + length p) (match s with [] => true | _ => false end) [].
(** After the walk of v = p ++ s. *)
Lemma reach_insert_old t p s n0 : wf t -> reaches t p n0 -> reaches (insert (p ++ s) t) p (insert s n0).
Proof.
  intros Hw Hr. induction Hr as [t|t c a p n Hc Ha Hr IH]; [constructor|].
  cbn [app insert]. destruct t as [l d f cs]. cbn in Hc. destruct (find_child a cs) as [k|] eqn:Hk.
  - apply find_child_some in Hk as (pre & c' & post & -> & <- & Ha'). rewrite update_at.
    assert (c = c') as ->.
    { apply (child_unique _ c c' a Hw); auto. cbn. apply in_app_iff; cbn; auto. }
    econstructor; [| |apply IH; apply (wf_child _ _ Hw); auto]. { cbn. apply in_app_iff; cbn; auto. } rewrite insert_label. auto.
  - exfalso. apply (find_child_none a cs Hk c Hc Ha).
Qed.
Lemma reach_insert_other t p v n0 : wf t -> reaches t p n0 -> ~ prefix_of p v -> reaches (insert v t) p n0.
Proof.
  intros Hw Hr. revert v. induction Hr as [t|t c a p n Hc Ha Hr IH]; intros v Hv; [exfalso; apply Hv; exists v; auto|].
  destruct v as [|b w]; [cbn; econstructor; eauto|]. cbn [insert]. destruct t as [l d f cs]. cbn in Hc. destruct (find_child b cs) as [k|] eqn:Hk.
  - apply find_child_some in Hk as (pre & c' & post & -> & <- & Ha'). rewrite update_at. destruct (Nat.eq_dec a b) as [->|Hab].
    + assert (c = c') as ->.
      { apply (child_unique _ c c' b Hw); auto. cbn. apply in_app_iff; cbn; auto. }
      econstructor; [| |apply IH; [apply (wf_child _ _ Hw); auto|]]. { cbn. apply in_app_iff; cbn; auto. } { rewrite insert_label. auto. }
      intros [s ->]. apply Hv. exists s. auto.
    + apply in_app_iff in Hc as [Hc|[->|Hc]]; [| congruence |]; (econstructor; [|eauto|eauto]); cbn; apply in_app_iff; cbn; auto.
  - econstructor; [|eauto|eauto]. cbn. apply in_app_iff; auto.
Qed.
Lemma reach_insert_new t p s : wf t -> (forall n, ~ reaches t p n) -> reaches (insert (p ++ s) t) p (insert s (fresh (t_depth t) p s)).
Proof.
  revert t. induction p as [|a p IH]; intros t Hw Hno; [exfalso; apply (Hno t); constructor|].
  cbn [app insert]. destruct t as [l d f cs]. destruct (find_child a cs) as [k|] eqn:Hk.
  - apply find_child_some in Hk as (pre & c & post & -> & <- & Ha). rewrite update_at.
    assert (Hc : In c (pre ++ c :: post)) by (apply in_app_iff; cbn; auto).
    econstructor; [cbn; apply in_app_iff; cbn; auto| |]. { rewrite insert_label. auto. }
    pose proof (wf_node _ Hw) as [_ Hs]. destruct (Hs c Hc) as [_ Hd]. cbn in Hd.
    assert (Hp : p <> []). { intros ->. apply (Hno c). econstructor; eauto; constructor. }
    replace (fresh (t_depth (Trie l d f (pre ++ c :: post))) (a :: p) s) with (fresh (t_depth c) p s).
    + apply IH; [apply (wf_child _ _ Hw); auto|]. intros n Hr. apply (Hno n). econstructor; eauto.
    + unfold fresh. cbn [t_depth length rev]. f_equal; [|lia]. destruct (rev p) eqn:E; auto. exfalso. apply Hp. rewrite <- (rev_involutive p), E. auto.
  - econstructor; [cbn; apply in_app_iff; right; left; reflexivity| |]. { rewrite insert_label. auto. }
    set (nw := Trie (Some a) (d + 1) (match p ++ s with [] => true | _ => false end) []).
    assert (Hwn : wf nw). { intros q n Hr. inversion Hr; subst; cbn in *; [|contradiction]. split; [constructor|intros ? []]. }
    destruct p as [|b p].
    + cbn [app]. replace (fresh (t_depth (Trie l d f cs)) [a] s) with nw; [constructor|]. unfold fresh, nw. cbn. reflexivity.
    + replace (fresh (t_depth (Trie l d f cs)) (a :: b :: p) s) with (fresh (t_depth nw) (b :: p) s).
      * apply IH; auto. intros n Hr. inversion Hr; subst. contradiction.
      * unfold fresh, nw. cbn [t_depth length]. f_equal; [|lia]. cbn. destruct (rev p); auto.
Qed.
Lemma reach_insert_inv t p v n : reaches (insert v t) p n -> (exists n0, reaches t p n0) \/ prefix_of p v.
Proof.
  revert t p. induction v as [|a w IH]; intros t p Hr; [left; eauto|]. destruct p as [|b p]; [right; exists (a :: w); auto|].
  cbn [insert] in Hr. destruct t as [l d f cs]. destruct (find_child a cs) as [k|] eqn:Hk.
  - apply find_child_some in Hk as (pre & c & post & -> & <- & Ha). rewrite update_at in Hr. inversion Hr; subst. cbn in *.
    apply in_app_iff in H1 as [Hx|[<-|Hx]].
    + left. exists n. econstructor; eauto. cbn. apply in_app_iff; auto.
    + rewrite insert_label in H3. rewrite Ha in H3. injection H3 as ->. destruct (IH _ _ H5) as [[n0 Hn]|[s ->]].
      * left. exists n0. econstructor; [|eauto|eauto]. cbn. apply in_app_iff; cbn; auto.
      * right. exists s. auto.
    + left. exists n. econstructor; eauto. cbn. apply in_app_iff; cbn; auto.
  - inversion Hr; subst. cbn in *. apply in_app_iff in H1 as [Hx|[<-|[]]].
    + left. exists n. econstructor; eauto.
    + rewrite insert_label in H3. cbn in H3. injection H3 as ->. destruct (IH _ _ H5) as [[n0 Hn]|[s ->]]; [|right; exists s; auto].
      inversion Hn; subst; [|contradiction]. right. exists w. auto.
Qed.
Lemma prefix_dec p v : {prefix_of p v} + {~ prefix_of p v}.
Proof.
  revert v. induction p as [|a p IH]; intros v; [left; exists v; auto|]. destruct v as [|b v]; [right; intros [s Hs]; discriminate|].
  destruct (Nat.eq_dec a b) as [->|Hab]; [|right; intros [s Hs]; cbn in Hs; congruence]. destruct (IH v) as [Hp|Hp]; [left; destruct Hp as [s ->]; exists s; auto|].
  right. intros [s Hs]. injection Hs as Hs. apply Hp. exists s. auto.
Qed.
Definition root := Trie None 0 false [].
Lemma wf_root : wf root.
Proof. intros p n Hr. inversion Hr; subst; cbn in *; [|contradiction]. split; [constructor|intros ? []]. Qed.
Definition tree_of := fun vs => fold_left (fun t v => insert v t) vs root.
Lemma wf_tree vs : wf (prefix_tree vs).
Proof. unfold prefix_tree. change (wf (fold_left (fun t v => insert v t) vs root)). generalize wf_root. generalize root. induction vs; cbn; auto. intros t Ht. apply IHvs, wf_insert, Ht. Qed.
(** First walk through a position. *)
Definition first_at (vs : list trace) (p : trace) : Prop := exists l1 l2, vs = l1 ++ p :: l2 /\ forall v, In v l1 -> ~ prefix_of p v.
Lemma tree_depth_label vs n p : reaches (prefix_tree vs) p n -> t_depth n = length p /\ t_label n = match rev p with a :: _ => Some a | [] => None end.
Proof.
  assert (G : forall t q m, wf t -> reaches t q m -> t_depth m = t_depth t + length q /\ t_label m = match rev q with a :: _ => Some a | [] => t_label t end).
  { intros t q m Hw Hr. induction Hr as [t|t c a q m Hc Ha Hr IH]; [split; [cbn; lia|reflexivity]|].
    destruct IH as [I1 I2]; [apply (wf_child _ _ Hw); auto|]. pose proof (wf_node _ Hw) as [_ Hs]. destruct (Hs c Hc) as [_ Hd]. split; [cbn; lia|].
    cbn [rev]. rewrite I2. destruct (rev q) eqn:E; cbn; auto. }
  intros Hr. destruct (G _ _ _ (wf_tree vs) Hr) as [G1 G2].
  assert (R : t_depth (prefix_tree vs) = 0 /\ t_label (prefix_tree vs) = None).
  { clear. unfold prefix_tree. assert (t_depth root = 0 /\ t_label root = None) as R by auto. unfold root in R. revert R. generalize (Trie None 0 false []). induction vs as [|v vs IH]; cbn; auto.
    intros t [A B]. apply IH. rewrite insert_depth, insert_label. auto. }
  destruct R as [R1 R2]. rewrite G1, R1, G2, R2. auto.
Qed.
Lemma tree_snoc vs v : prefix_tree (vs ++ [v]) = insert v (prefix_tree vs).
Proof. unfold prefix_tree. apply fold_left_app. Qed.
Lemma tree_reach_aux vs : forall p, (exists n, reaches (prefix_tree vs) p n) <-> p = [] \/ exists v, In v vs /\ prefix_of p v.
Proof.
  induction vs as [|v vs IH] using rev_ind; intros p.
  - split.
    + intros [n Hr]. inversion Hr; subst; auto. contradiction.
    + intros [->|(v & [] & _)]. eexists. constructor.
  - rewrite tree_snoc. split.
    + intros [n Hr]. apply reach_insert_inv in Hr as [Hr|Hp].
      * apply IH in Hr as [->|(w & Hw & Hp)]; auto. right. exists w. split; auto. apply in_app_iff; auto.
      * right. exists v. split; auto. apply in_app_iff; cbn; auto.
    + intros Hp. destruct (prefix_dec p v) as [[s ->]|Hnp].
      * destruct (in_dec (list_eq_dec Nat.eq_dec) p (p :: nil)) as [_|]; [|cbn in *; tauto].
        assert (D : (exists n, reaches (prefix_tree vs) p n) \/ ~ exists n, reaches (prefix_tree vs) p n).
        { rewrite IH. destruct p as [|a p]; [left; auto|]. destruct (Exists_dec (fun w => prefix_of (a :: p) w) vs (prefix_dec (a :: p))) as [E|E].
          - left. right. apply Exists_exists in E. auto.
          - right. intros [Hx|Hx]; [discriminate|]. apply E, Exists_exists, Hx. }
        destruct D as [[n Hn]|D]; [eexists; apply reach_insert_old; eauto using wf_tree|].
        eexists. apply reach_insert_new; [apply wf_tree|]. intros n Hn. apply D. eauto.
      * assert (E : exists n, reaches (prefix_tree vs) p n).
        { apply IH. destruct Hp as [->|(w & Hw & Hq)]; auto. apply in_app_iff in Hw as [Hw|[<-|[]]]; [right; eauto|contradiction]. }
        destruct E as [n Hn]. exists n. apply reach_insert_other; auto. apply wf_tree.
Qed.
Lemma tree_final vs : forall p n, reaches (prefix_tree vs) p n -> (t_final n = true <-> p <> [] /\ first_at vs p).
Proof.
  induction vs as [|v vs IH] using rev_ind; intros p n Hr.
  - inversion Hr; subst; [|contradiction]. cbn. split; [discriminate|tauto].
  - rewrite tree_snoc in Hr. pose proof (wf_tree vs) as Hw.
    destruct (Exists_dec (fun w => prefix_of p w) vs (prefix_dec p)) as [E|E].
    + (* a walk through p happened before *)
      assert (Hex : exists n0, reaches (prefix_tree vs) p n0). { apply tree_reach_aux. right. apply Exists_exists in E. auto. }
      destruct Hex as [n0 Hn0].
      assert (F : t_final n = t_final n0).
      { destruct (prefix_dec p v) as [[s ->]|Hnp].
        - rewrite (reaches_fun _ _ _ _ (wf_insert _ _ Hw) Hr (reach_insert_old _ _ s _ Hw Hn0)). apply insert_final.
        - rewrite (reaches_fun _ _ _ _ (wf_insert _ _ Hw) Hr (reach_insert_other _ _ v _ Hw Hn0 Hnp)). auto. }
      rewrite F, (IH _ _ Hn0). apply Exists_exists in E as (w & Hw1 & Hw2). split; intros [A (l1 & l2 & B & C)]; split; auto.
      * exists l1, (l2 ++ [v]). split; auto. rewrite B, <- app_assoc. reflexivity.
      * destruct l2 as [|x l2] using rev_ind.
        { apply app_inj_tail in B as [-> ->]. exfalso. apply (C w); auto. }
        { rewrite app_comm_cons, app_assoc in B. apply app_inj_tail in B as [-> ->]. exists l1, l2. auto. }
    + destruct p as [|a p].
      { (* the root *) assert (Hn0 : reaches (prefix_tree vs) [] (prefix_tree vs)) by constructor.
        inversion Hr; subst. rewrite insert_final. rewrite (IH _ _ Hn0). split; intros [A _]; exfalso; auto. }
      assert (Hno : forall n0, ~ reaches (prefix_tree vs) (a :: p) n0).
      { intros n0 Hn0. assert (X : exists n, reaches (prefix_tree vs) (a :: p) n) by eauto. apply tree_reach_aux in X as [X|X]; [discriminate|]. apply E, Exists_exists, X. }
      pose proof Hr as Hr'. apply reach_insert_inv in Hr' as [[n0 Hn0]|[s ->]]; [exfalso; apply (Hno _ Hn0)|].
      rewrite (reaches_fun _ _ _ _ (wf_insert _ _ Hw) Hr (reach_insert_new _ _ s Hw Hno)), insert_final. unfold fresh. cbn [t_final].
      split.
      * destruct s; [|discriminate]. intros _. rewrite app_nil_r. split; [discriminate|]. exists vs, []. split; auto. intros w Hw1 Hw2. apply E, Exists_exists. eauto.
      * intros [_ (l1 & l2 & B & C)]. destruct s; auto. exfalso. destruct l2 as [|x l2] using rev_ind.
        { apply app_inj_tail in B as [_ B]. rewrite <- app_nil_r in B. apply app_inv_head in B. discriminate. }
        { rewrite app_comm_cons, app_assoc in B. apply app_inj_tail in B as [-> _]. apply E, Exists_exists. exists (a :: p). split; [apply in_app_iff; cbn; auto|]. exists []. rewrite app_nil_r. auto. }
Qed.
