(** POWL models: the whole net. *)
From Coq Require Import List Arith Lia Bool ZArith Permutation Relation_Operators.
Import ListNotations.
From Verif Require Import Model_Petri Model_Tree Model_TreeNet Model_Rel Spec_Rel Proofs_Rel Model_Powl Spec_Powl
  Proofs_Shuffle Proofs_Block Proofs_Block2 Proofs_TreeNet Proofs_TreeNet2 Proofs_TreeNet3 Proofs_TreeNet4 Proofs_Po Proofs_Powl1 Proofs_Powl2.

Lemma plang_loop d r w : plang (PLoop d r) w <-> iterate (plang d) (plang r) w.
Proof.
  split.
  - intros H. remember (PLoop d r) as t eqn:Et. induction H as [| | |d' r' w H _|d' r' w v w' H1 _ H2 _ H3 IH3|]; try discriminate; inversion Et; subst.
    + apply it_exit; auto.
    + apply it_redo; auto.
  - induction 1 as [w H|w v w' H1 H2 H3 IH]; [apply PL_exit; auto|apply PL_redo; auto].
Qed.
Lemma plang_xor cs w : plang (PXor cs) w <-> exists c, In c cs /\ plang c w.
Proof. split; [intros H; inversion H; subst; eauto|intros (c & Hc & H); eapply PL_xor; eauto]. Qed.
Lemma plang_leaf l w : plang (PLeaf l) w <-> w = match l with Some a => [a] | None => [] end.
Proof. split; [intros H; inversion H; subst; auto|intros ->; destruct l; constructor]. Qed.

Lemma plang_po cs e w : plang (PPo cs e) w <-> exists ws tw, Forall2 plang cs ws /\ woven e ws tw /\ w = map snd tw.
Proof. split; [intros H; inversion H; subst; eauto|intros (ws & tw & HF & Hw & ->); eapply PL_po; eauto]. Qed.

Section Q.
Variable Q : Prop.
Notation spec := (spec Q).
Lemma pchoice_ok cs : Forall spec cs -> cs <> [] -> forall i f s B s', powl_choice add_powl cs i f s = (B, s') ->
  i < next_place s -> f < next_place s -> i <> f ->
  next_place s <= next_place s' /\ block Q B (within s s') [i] [f] (fun w => exists c, In c cs /\ plang c w).
Proof.
  induction 1 as [|c cs Hc Hcs IH]; intros Hne i f s B s' E Hi Hf Hif; [congruence|]. cbn in E.
  destruct (add_powl c i f s) as [b s1] eqn:E1. destruct (Hc _ _ _ _ _ E1 Hi Hf Hif) as [Hle1 HB1].
  destruct (powl_choice add_powl cs i f s1) as [b' s2] eqn:E2. inversion E; subst.
  destruct cs as [|c2 cs].
  - cbn in E2. inversion E2; subst. rewrite app_nil_r. split; auto. eapply block_ext; [|exact HB1].
    intros w. split; [intros Hw; exists c; split; [left; auto|auto]|intros (c0 & [<-|[]] & Hw); auto].
  - destruct (IH ltac:(discriminate) i f s1 b' s') as [Hle2 HB2]; auto; try lia. split; [lia|].
    eapply block_ext; [|eapply block_widen; [|apply (block_xor Q b b' (within s s1) (within s1 s') i f (plang c) (fun w => exists c, In c (c2 :: cs) /\ plang c w)); auto; ww]].
    + intros w. split.
      * intros [Hw|(d & Hd & Hw)]; [exists c; split; [left; auto|auto]|exists d; split; [right; auto|auto]].
      * intros (d & [<-|Hd] & Hw); [auto|right; eauto].
    + intros p [?|?]; ww.
Qed.
Theorem add_powl_ok t : wf_powl t -> spec t.
Proof.
  induction t as [l|cs IH|d r IHd IHr|cs e IH] using powl_ind2; intros Hwf.
  - intros i f s B s' E Hi Hf Hif. cbn in E. inversion E; subst. cbn. split; [lia|].
    eapply block_ext; [|eapply block_widen; [|apply block_leaf]]; cbn beta; rewrite ?pre_mk, ?post_mk; auto.
    + intros w. rewrite plang_leaf. unfold vis. cbn. destruct l; tauto.
    + intros p [].
  - inversion Hwf as [|? Hne HF| |]; subst. intros i f s B s' E Hi Hf Hif.
    assert (HS : Forall spec cs) by (rewrite Forall_forall in *; auto).
    destruct (pchoice_ok cs HS Hne i f s B s' E Hi Hf Hif) as [H1 H2]. split; auto. eapply block_ext; [|exact H2]. intros w. symmetry. apply plang_xor.
  - inversion Hwf as [| |? ? W1 W2|]; subst. intros i f s B s' E Hi Hf Hif. cbn in E.
    destruct (add_powl d _ _ _) as [bd s1] eqn:E1. destruct (IHd W1 _ _ _ _ _ E1) as [Hle1 HB1]; try (pp; lia). pp.
    destruct (add_powl r _ _ _) as [br s2] eqn:E2. destruct (IHr W2 _ _ _ _ _ E2) as [Hle2 HB2]; try (pp; lia). pp.
    inversion E; subst. pp. split; [lia|].
    eapply block_ext; [intros w; symmetry; apply plang_loop|].
    eapply block_widen; [|apply (block_loop Q bd br _ _ _ _ _ (next_place s) (S (next_place s)) (next_place s1) i f _ _ HB1 HB2)]; rewrite ?pre_mk, ?post_mk; auto; try ww.
  - inversion Hwf as [| | |? ? Hne Hac HF]; subst. apply po_ok; auto. rewrite Forall_forall in *; auto.
Qed.
End Q.

(** * Structure *)
Definition pshape (c : powl) : Prop := forall i f s B s', add_powl c i f s = (B, s') ->
  next_place s <= next_place s' /\ ids (next_trans s) B (next_trans s') /\ outp B i /\ inp B f /\
  (forall p, within s s' p -> outp B p /\ inp B p).
Lemma pchoice_shape cs : Forall pshape cs -> cs <> [] -> forall i f s B s', powl_choice add_powl cs i f s = (B, s') ->
  next_place s <= next_place s' /\ ids (next_trans s) B (next_trans s') /\ outp B i /\ inp B f /\
  (forall p, within s s' p -> outp B p /\ inp B p).
Proof.
  induction 1 as [|c cs Hc Hcs IH]; intros Hne i f s B s' E; [congruence|]. cbn in E.
  destruct (add_powl c i f s) as [b s1] eqn:E1. destruct (Hc _ _ _ _ _ E1) as (A1 & A2 & A3 & A4 & A5).
  destruct (powl_choice add_powl cs i f s1) as [b' s2] eqn:E2. inversion E; subst.
  destruct cs as [|c2 cs].
  - cbn in E2. inversion E2; subst. rewrite app_nil_r. auto.
  - destruct (IH ltac:(discriminate) _ _ _ _ _ E2) as (C1 & C2 & C3 & C4 & C5).
    split; [lia|]. split; [eapply ids_app; eauto|]. split; [oi|]. split; [oi|]. intros p Hp.
    destruct (le_lt_dec (next_place s1) p); [destruct (C5 p) as [? ?]|destruct (A5 p) as [? ?]]; try ww; split; oi.
Qed.
Lemma place_if_all b s l s' : place_if b s = (l, s') -> forall p, next_place s <= p < next_place s' -> In p l.
Proof. unfold place_if. destruct b; cbn; intros E; inversion E; subst; cbn; intros p Hp; [left; lia|lia]. Qed.
Lemma nodes_shape cs : Forall pshape cs -> forall starts ends k s nds s', powl_nodes add_powl starts ends k cs s = (nds, s') ->
  next_place s <= next_place s' /\ map pn_k nds = seq k (length cs) /\ forall es,
  ids (next_trans s) (flat_map (node_trans es) nds) (next_trans s') /\
  (forall p, within s s' p -> (outp (flat_map (node_trans es) nds) p \/ In p (flat_map pn_out nds)) /\ (inp (flat_map (node_trans es) nds) p \/ In p (flat_map pn_in nds))).
Proof.
  induction 1 as [|c cs Hc Hcs IH]; intros starts ends k s nds s' E; cbn in E.
  - inversion E; subst. split; [lia|]. split; [auto|]. intros es. split; [apply ids_nil|]. intros p Hp. ww.
  - destruct (place_if (mem k starts) _) as [ip s1] eqn:E1. pose proof (place_if_all _ _ _ _ E1) as X1. apply place_if_ok in E1 as (O1 & T1 & L1 & N1 & B1). pp.
    destruct (place_if (mem k ends) _) as [fp s2] eqn:E2. pose proof (place_if_all _ _ _ _ E2) as X2. apply place_if_ok in E2 as (O2 & T2 & L2 & N2 & B2). pp.
    destruct (add_powl c _ _ _) as [b s3] eqn:E3. destruct (Hc _ _ _ _ _ E3) as (A1 & A2 & A3 & A4 & A5). pp.
    destruct (powl_nodes add_powl starts ends (S k) cs s3) as [nds' s4] eqn:E4. destruct (IH _ _ _ _ _ _ E4) as (C1 & C2 & C3).
    inversion E; subst. split; [lia|]. split; [cbn; rewrite C2; auto|]. intros es. destruct (C3 es) as (C4 & C5). split.
    + cbn [flat_map]. unfold node_trans at 1. cbn [pn_k pn_ti pn_in pn_tf pn_out pn_sta pn_en pn_B app]. apply ids_cons; [auto|]. apply ids_cons; [auto|].
      eapply ids_app; [|exact C4]. rewrite T2, T1 in A2. rewrite T1 in *. exact A2.
    + intros p Hp. cbn [flat_map]. unfold node_trans at 1 3. cbn [pn_k pn_ti pn_in pn_tf pn_out pn_sta pn_en pn_B app].
      destruct (le_lt_dec (next_place s3) p) as [H3|H3].
      { destruct (C5 p) as [[?|?] [?|?]]; try ww; split; ((left; solve [oi]) || (right; apply in_app_iff; right; assumption)). }
      destruct (le_lt_dec (S (S (next_place s2))) p) as [H4|H4].
      { destruct (A5 p) as [? ?]; [ww|]. split; left; oi. }
      destruct (Nat.eq_dec p (S (next_place s2))) as [->|H5].
      { split; left; [apply outp_cons, outp_head; left; auto|oi]. }
      destruct (Nat.eq_dec p (next_place s2)) as [->|H6].
      { split; left; [oi|apply inp_head; left; auto]. }
      destruct (le_lt_dec (next_place s1) p) as [H7|H7].
      { assert (Hf : In p fp) by (apply X2; lia). split; [right; apply in_app_iff; auto|left]. apply inp_cons, inp_head, in_app_iff. auto. }
      assert (Hf : In p ip) by (apply X1; ww). split; [left|right; apply in_app_iff; auto]. apply outp_head, in_app_iff. auto.
Qed.
Theorem add_powl_shape t : wf_powl t -> pshape t.
Proof.
  induction t as [l|cs IH|d r IHd IHr|cs e IH] using powl_ind2; intros Hwf i f s B s' E.
  - cbn in E. inversion E; subst. cbn. split; [lia|]. split; [apply ids_one|]. split; [apply outp_head; left; auto|]. split; [apply inp_head; left; auto|]. intros p Hp; ww.
  - inversion Hwf as [|? Hne HF| |]; subst. apply (pchoice_shape cs) with (i := i) (f := f); auto. rewrite Forall_forall in *; auto.
  - inversion Hwf as [| |? ? W1 W2|]; subst. cbn in E.
    destruct (add_powl d _ _ _) as [bd s1] eqn:E1. destruct (IHd W1 _ _ _ _ _ E1) as (A1 & A2 & A3 & A4 & A5); try (pp; lia). pp.
    destruct (add_powl r _ _ _) as [br s2] eqn:E2. destruct (IHr W2 _ _ _ _ _ E2) as (C1 & C2 & C3 & C4 & C5); try (pp; lia). pp.
    inversion E; subst. pp. split; [lia|]. split.
    { apply ids_cons; auto. apply ids_cons; auto.
      eapply ids_perm; [apply (Permutation_sym (Permutation_cons_append (bd ++ br) _))|]. rewrite <- app_assoc.
      eapply ids_app; [exact A2|]. eapply ids_app; [exact C2|apply ids_one]. }
    split; [apply outp_head; left; auto|]. split; [apply inp_cons, inp_cons, inp_head; left; auto|]. intros p Hp.
    destruct (Nat.eq_dec p (next_place s)) as [->|H1]; [split; [oi|apply inp_head; left; auto]|].
    destruct (Nat.eq_dec p (S (next_place s))) as [->|H2]; [split; oi|].
    destruct (Nat.eq_dec p (next_place s1)) as [->|H3]; [split; [apply outp_cons, outp_head; left; auto|oi]|].
    destruct (le_lt_dec (next_place s1) p); [destruct (C5 p) as [? ?]|destruct (A5 p) as [? ?]]; try ww; split; oi.
  - inversion Hwf as [| | |? ? Hne Hac HF]; subst. assert (HS : Forall pshape cs) by (rewrite Forall_forall in *; auto). cbn in E.
    destruct (powl_nodes _ _ _ _ _ _) as [nds s1] eqn:E1. destruct (nodes_shape cs HS _ _ _ _ _ _ E1) as (A1 & A2 & A3). pp.
    destruct (powl_edges _ _ _) as [es s2] eqn:E2. destruct (edges_ok _ _ _ _ _ E2) as (T2 & L2 & D1 & D2 & D3 & D4).
    inversion E; subst. destruct (A3 es) as (A4 & A5). pp. split; [lia|]. split; [apply ids_cons; auto; apply ids_cons; auto; rewrite T2; auto|].
    split; [apply outp_head; left; auto|]. split; [apply inp_cons, inp_head; left; auto|]. intros p Hp.
    destruct (le_lt_dec (next_place s1) p) as [H3|H3].
    + destruct (D4 p) as (i0 & j0 & He); [ww|]. pose proof (D2 _ _ _ He) as (_ & Hij & _). apply in_pairs in Hij as [Hi0 Hj0].
      assert (G : forall k, k < length cs -> exists x, In x nds /\ pn_k x = k).
      { intros k Hk. assert (Hkin : In k (map pn_k nds)) by (rewrite A2; apply in_seq; lia). apply in_map_iff in Hkin as (x & Ex & Hx). eauto. }
      destruct (G i0 Hi0) as (xi & Xi1 & Xi2), (G j0 Hj0) as (xj & Xj1 & Xj2). split.
      * apply outp_cons, outp_cons. exists (mk_trans (pn_ti xj) None (pn_in xj ++ edges_into (pn_k xj) es) [pn_sta xj]). split; [apply in_flat_map; exists xj; split; [auto|left; reflexivity]|].
        rewrite pre_mk. apply in_app_iff. right. unfold edges_into. apply in_map_iff. exists (i0, j0, p). split; auto. apply filter_In. split; auto. cbn. apply Nat.eqb_eq. auto.
      * apply inp_cons, inp_cons. exists (mk_trans (pn_tf xi) None [pn_en xi] (pn_out xi ++ edges_from (pn_k xi) es)). split; [apply in_flat_map; exists xi; split; [auto|right; left; reflexivity]|].
        rewrite post_mk. apply in_app_iff. right. unfold edges_from. apply in_map_iff. exists (i0, j0, p). split; auto. apply filter_In. split; auto. cbn. apply Nat.eqb_eq. auto.
    + destruct (A5 p) as [[?|?] [?|?]]; try ww; split; try (solve [oi]); try (apply inp_head; auto); apply outp_cons, outp_head; auto.
Qed.

(** * The net before the reduction *)
Lemma raw_powl_good (Q : Prop) t : wf_powl t -> good Q (raw_powl t) (plang t).
Proof.
  intros Hwf. unfold raw_powl. destruct (add_powl t 3 4 (Counts 5 3)) as [b s] eqn:E.
  destruct (add_powl_ok Q t Hwf _ _ _ _ _ E) as [Hle HB]; try (cbn; lia).
  destruct (add_powl_shape t Hwf _ _ _ _ _ E) as (_ & HI & HO & HF & HP). pp.
  assert (HB1 : block Q (b ++ [mk_trans 2 None [4] [2]]) (fun p => 4 <= p) [3] [2] (plang t)).
  { eapply block_ext; [|eapply block_widen; [|eapply (block_seq Q b _ _ (fun _ => False) 4 3 2 _ (fun w => w = [])); [exact HB|eapply block_leaf|..]]];
      rewrite ?pre_mk, ?post_mk; auto; cbn beta; try ww.
    intros w. split; [intros (x & y & Hx & -> & ->); rewrite app_nil_r; auto|]. intros Hw. exists w, []. rewrite app_nil_r. auto. }
  assert (HB2 : block Q (mk_trans 1 None [1] [3] :: mk_trans 2 None [4] [2] :: b) inner [1] [2] (plang t)).
  { eapply block_same; [|eapply block_ext; [|eapply block_widen; [|eapply (block_seq Q [mk_trans 1 None [1] [3]] _ (fun _ => False) _ 3 1 2 (fun w => w = []) _); [eapply block_leaf|exact HB1|..]]]];
      rewrite ?pre_mk, ?post_mk; auto; cbn beta; try lia.
    - intros x. cbn. rewrite in_app_iff. cbn. tauto.
    - intros w. split; [intros (x & y & -> & Hx & ->); auto|]. intros Hw. exists [], w. auto.
    - intros p [->|[[]|Hp]]; unfold inner; lia. }
  assert (Hids : ids 1 (mk_trans 1 None [1] [3] :: mk_trans 2 None [4] [2] :: b) (next_trans s)) by (apply ids_cons; auto; apply ids_cons; auto).
  destruct Hids as (_ & Hnd & _ & Hun).
  assert (Hseq : forall p, In p (seq 1 (next_place s - 1)) <-> 1 <= p < next_place s) by (intros p; rewrite in_seq; lia).
  constructor; cbn [n_trans n_places]; auto.
  - intros p Hp Hp2. apply Hseq in Hp. destruct (le_lt_dec 5 p) as [G|G]; [apply outp_cons, outp_cons, HP; ww|].
    assert (p = 1 \/ p = 3 \/ p = 4) as [-> |[-> | ->]] by lia; [apply outp_head; left; auto|apply outp_cons, outp_cons; auto|apply outp_cons, outp_head; left; auto].
  - intros p Hp Hp2. apply Hseq in Hp. destruct (le_lt_dec 5 p) as [G|G]; [apply inp_cons, inp_cons, HP; ww|].
    assert (p = 2 \/ p = 3 \/ p = 4) as [-> |[-> | ->]] by lia; [apply inp_cons, inp_head; left; auto|apply inp_head; left; auto|apply inp_cons, inp_cons; auto].
  - intros v p Hv Hp. apply Hseq. destruct Hv as [<-|[<-|Hv]].
    + rewrite pre_mk, post_mk in Hp. destruct Hp as [[<-|[]]|[<-|[]]]; lia.
    + rewrite pre_mk, post_mk in Hp. destruct Hp as [[<-|[]]|[<-|[]]]; lia.
    + assert (G : In p [3] \/ In p [4] \/ within (Counts 5 3) s p).
      { destruct Hp as [Hp|Hp]; [destruct (proj2 (b_pre HB _ Hv) p Hp)|destruct (proj2 (b_post HB _ Hv) p Hp)]; auto. }
      destruct G as [[<-|[]]|[[<-|[]]|G]]; ww.
  - apply seq_NoDup.
Qed.
Theorem powl_good (Q : Prop) t pn : wf_powl t -> powl_converted t pn -> good Q pn (plang t).
Proof.
  intros Hwf (_ & pn1 & order & Hr & HP & ->). pose proof (reduction_good _ _ _ _ (raw_powl_good Q t Hwf) Hr) as H.
  rewrite (clean_noop _ _ _ _ H HP). exact H.
Qed.
Lemma wf_raises t : wf_powl t -> raises t = false.
Proof.
  induction t as [l|cs IH|d r IHd IHr|cs e IH] using powl_ind2; intros Hwf; cbn; auto.
  - inversion Hwf as [|? _ HF| |]; subst. clear Hwf. induction IH as [|c cs Hc _ IH']; cbn; auto. inversion HF; subst. rewrite Hc, IH'; auto.
  - inversion Hwf; subst. rewrite IHd, IHr; auto.
  - inversion Hwf as [| | |? ? _ Hac HF]; subst. rewrite (acyclic_irreflexive _ _ Hac). cbn. clear Hwf Hac. induction IH as [|c cs Hc _ IH']; cbn; auto. inversion HF; subst. rewrite Hc, IH'; auto.
Qed.
Lemma powl_converted_exists t : wf_powl t -> exists pn, powl_converted t pn.
Proof.
  intros Hwf. destruct (reduction_exists (raw_powl t)) as (pn1 & H). exists (clean_places (n_places pn1) pn1). split; [apply wf_raises; auto|]. exists pn1, (n_places pn1). auto.
Qed.
