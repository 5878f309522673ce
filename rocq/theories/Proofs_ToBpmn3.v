(** The reduction of exclusive gateways ends on diagrams in which everything can be reached from the start event. *)
From Coq Require Import List Arith Bool Lia ZArith Permutation.
Import ListNotations.
From Verif Require Import Model_Petri Spec_Petri Model_Tree Model_TreeNet Proofs_Block Model_Bpmn Spec_Bpmn Proofs_Bpmn Model_ToBpmn Spec_ToBpmn Proofs_ToBpmn1 Proofs_ToBpmn2.

Definition kind_dec (a b : kind) : {a = b} + {a <> b}. Proof. decide equality. destruct name as [x|], name0 as [y|]; try (right; congruence); [|left; auto]. destruct (Nat.eq_dec x y); [left; congruence|right; congruence]. Defined.
Lemma superfluous_dec d : (exists g, superfluous_gateway d g) \/ forall g, ~ superfluous_gateway d g.
Proof.
  destruct (Exists_dec (fun x => snd x = ExclusiveGateway /\ length (ins_of d (fst x)) = 1 /\ length (outs_of d (fst x)) = 1) (b_nodes d)) as [H|H].
  - intros [n k]. cbn. destruct (kind_dec k ExclusiveGateway), (Nat.eq_dec (length (ins_of d n)) 1), (Nat.eq_dec (length (outs_of d n)) 1); try (right; tauto). left; auto.
  - left. apply Exists_exists in H as ([n k] & H & E & A & B). cbn in *. subst k. exists n. repeat split; auto.
  - right. intros g (A & B & C). apply H. apply Exists_exists. exists (g, ExclusiveGateway). auto.
Qed.
Lemma no_self_loop d s g f : arrives d s g -> s <> g -> ins_of d g = [(f, (g, g))] -> False.
Proof.
  intros H N E. induction H as [|x f' y H IH Hf]; [congruence|]. assert (Q : In (f', (x, y)) (ins_of d y)) by (apply filter_In; split; auto; apply Nat.eqb_refl). rewrite E in Q. destruct Q as [Q|[]]. injection Q as _ <-. apply IH; auto.
Qed.
Lemma fresh_nat (l : list nat) : exists x, ~ In x l.
Proof. exists (S (list_max l)). intros H. assert (Q : Forall (fun k => k <= list_max l) l) by (apply list_max_le; auto). rewrite Forall_forall in Q. specialize (Q _ H). lia. Qed.
Lemma ins_shape d g f x : In (f, x) (ins_of d g) -> snd x = g.
Proof. intros H. apply filter_In in H as [_ H]. now apply Nat.eqb_eq in H. Qed.
Lemma outs_shape d g f x : In (f, x) (outs_of d g) -> fst x = g.
Proof. intros H. apply filter_In in H as [_ H]. now apply Nat.eqb_eq in H. Qed.
Section Step.
  Variable d : diagram.
  Hypothesis WF : well_formed d.
  Variable s : nat.
  Hypothesis Hs : In (s, StartEvent) (b_nodes d).
  Hypothesis HR : forall n k, In (n, k) (b_nodes d) -> arrives d s n.
  Lemma next g : superfluous_gateway d g -> exists d', xor_step d d' /\ In (s, StartEvent) (b_nodes d') /\ (forall n k, In (n, k) (b_nodes d') -> arrives d' s n) /\ length (b_nodes d') < length (b_nodes d).
  Proof.
    intros SG. pose proof SG as (Hg & L1 & L2). assert (Ng : s <> g) by (intros ->; pose proof (kind_unique d WF g _ _ Hg Hs); discriminate).
    destruct (ins_of d g) as [|[f1 [a g1]] [|]] eqn:Hi; cbn in L1; try lia. destruct (outs_of d g) as [|[f2 [g2 b]] [|]] eqn:Ho; cbn in L2; try lia.
    assert (g1 = g) by (apply (ins_shape d g f1 (a, g1)); rewrite Hi; left; auto). assert (g2 = g) by (apply (outs_shape d g f2 (g2, b)); rewrite Ho; left; auto). subst g1 g2.
    assert (A1 : In (f1, (a, g)) (b_flows d)) by (assert (Q : In (f1, (a, g)) (ins_of d g)) by (rewrite Hi; left; auto); apply filter_In in Q; tauto).
    assert (A2 : In (f2, (g, b)) (b_flows d)) by (assert (Q : In (f2, (g, b)) (outs_of d g)) by (rewrite Ho; left; auto); apply filter_In in Q; tauto).
    assert (Hne : f1 <> f2).
    { intros E. subst f2. destruct WF as (_ & N & _). pose proof (nodup_fst (b_flows d) N f1 _ _ A1 A2) as E. injection E as -> <-. eapply no_self_loop; [apply (HR g _ Hg)|exact Ng|exact Hi]. }
    destruct (fresh_nat (map fst (b_flows d))) as (f & Hf).
    exists (red d g f1 f2 a b f). split; [|split; [|split]].
    - exists g, f1, f2, a, b, f. unfold superfluous_gateway. rewrite Hi, Ho. repeat split; auto.
    - cbn [red b_nodes]. apply filter_In. split; auto. cbn. apply negb_true_iff, Nat.eqb_neq. auto.
    - assert (Kf : forall i x y, In (i, (x, y)) (b_flows d) -> x <> g -> y <> g -> In (i, (x, y)) (b_flows (red d g f1 f2 a b f))).
      { intros i x y H Nx Ny. cbn [red b_flows]. apply in_app_iff. left. unfold left_flows. apply filter_In. split; auto. cbn. destruct WF as (_ & N & _).
        apply andb_true_iff. split; apply negb_true_iff, Nat.eqb_neq; intros ->; [pose proof (nodup_fst _ N f1 _ _ H A1)|pose proof (nodup_fst _ N f2 _ _ H A2)]; congruence. }
      assert (G : forall x, arrives d s x -> (x <> g -> arrives (red d g f1 f2 a b f) s x) /\ (x = g -> arrives (red d g f1 f2 a b f) s a)).
      { induction 1 as [|x i y H [IH1 IH2] Hi']; [split; [constructor|congruence]|]. split.
        - intros Ny. destruct (Nat.eq_dec x g) as [->|Nx].
          + destruct (out_flows d g f1 f2 b Ho Hne i g y Hi' eq_refl) as [-> ->]. eapply (ar_flow _ _ a f); [apply IH2; auto|]. cbn [red b_flows]. apply in_app_iff. right. left. reflexivity.
          + eapply ar_flow; [apply IH1; auto|]. apply Kf; eauto.
        - intros ->. destruct (in_flows d g f1 f2 a Hi Hne i x g Hi' eq_refl) as [-> ->]. apply IH1. apply (a_g d g f1 f2 a b Hi Ho Hne). }
      intros n k Hn. cbn [red b_nodes] in Hn. apply filter_In in Hn as [Hn E]. cbn in E. apply negb_true_iff, Nat.eqb_neq in E. apply G; [eapply HR; eauto|auto].
    - cbn [red b_nodes]. clear -Hg. induction (b_nodes d) as [|x l IH]; [easy|]. cbn. destruct Hg as [->|H].
      + cbn. rewrite Nat.eqb_refl. cbn. clear. induction l as [|y l IH]; cbn; [lia|]. destruct (negb _); cbn in *; lia.
      + apply IH in H. destruct (negb _); cbn in *; lia.
  Qed.
End Step.
Lemma reduce_total d s : well_formed d -> In (s, StartEvent) (b_nodes d) -> (forall n k, In (n, k) (b_nodes d) -> arrives d s n) -> exists d', reduce_xor d d'.
Proof.
  remember (length (b_nodes d)) as n eqn:En. revert d En. induction n as [n IH] using lt_wf_ind. intros d En WF Hs HR. destruct (superfluous_dec d) as [(g & Hg)|N]; [|exists d; split; [constructor|auto]].
  destruct (next d WF s Hs HR g Hg) as (d1 & St & Hs1 & HR1 & L). destruct (IH (length (b_nodes d1)) ltac:(lia) d1 eq_refl) as (d2 & R & T); auto; [apply (xor_step_ok d d1 WF St)|]. exists d2. split; auto. econstructor; eauto.
Qed.
(** a gateway whose only flow goes to itself is never removed *)
Lemma loop_stuck d g f : well_formed d -> In (g, ExclusiveGateway) (b_nodes d) -> ins_of d g = [(f, (g, g))] -> outs_of d g = [(f, (g, g))] -> ~ exists d', reduce_xor d d'.
Proof.
  intros WF Hg Hi Ho (d' & R & T).
  assert (G : well_formed d' /\ In (g, ExclusiveGateway) (b_nodes d') /\ ins_of d' g = [(f, (g, g))] /\ outs_of d' g = [(f, (g, g))]).
  { clear T. induction R as [d|d d1 d2 St R IH]; [auto|]. apply IH; [apply (xor_step_ok d d1 WF St)| | |]; destruct St as (h & f1 & f2 & a & b & f0 & SG & Hi1 & Ho1 & Hne & Hf & ->).
    - cbn [b_nodes]. apply filter_In. split; auto. cbn. apply negb_true_iff, Nat.eqb_neq. intros <-. rewrite Hi in Hi1. rewrite Ho in Ho1. congruence.
    - assert (Nh : g <> h) by (intros <-; rewrite Hi in Hi1; rewrite Ho in Ho1; congruence). unfold ins_of. cbn [b_flows]. rewrite filter_app.
      assert (Eb : filter (fun x : nat * (nat * nat) => snd (snd x) =? g) [(f0, (a, b))] = []).
      { cbn. destruct (Nat.eqb_spec b g) as [->|]; [|reflexivity]. exfalso. assert (Q : In (f2, (h, g)) (outs_of d h)) by (rewrite Ho1; left; auto). apply filter_In in Q as [Q _].
        assert (Q' : In (f2, (h, g)) (ins_of d g)) by (apply filter_In; split; auto; apply Nat.eqb_refl). rewrite Hi in Q'. destruct Q' as [Q'|[]]. congruence. }
      rewrite Eb, app_nil_r. assert (F : forall x, In x (ins_of d g) -> negb (fst x =? f1) && negb (fst x =? f2) = true).
      { intros x Hx. rewrite Hi in Hx. destruct Hx as [<- |[]]. cbn. assert (B0 : In (f, (g, g)) (b_flows d)) by (assert (Q : In (f, (g, g)) (ins_of d g)) by (rewrite Hi; left; auto); apply filter_In in Q; tauto).
        assert (B1 : In (f1, (a, h)) (b_flows d)) by (assert (Q : In (f1, (a, h)) (ins_of d h)) by (rewrite Hi1; left; auto); apply filter_In in Q; tauto).
        assert (B2 : In (f2, (h, b)) (b_flows d)) by (assert (Q : In (f2, (h, b)) (outs_of d h)) by (rewrite Ho1; left; auto); apply filter_In in Q; tauto).
        destruct WF as (_ & N & _). apply andb_true_iff. split; apply negb_true_iff, Nat.eqb_neq; intros ->; [pose proof (nodup_fst _ N f1 _ _ B0 B1)|pose proof (nodup_fst _ N f2 _ _ B0 B2)]; congruence. }
      rewrite <- Hi. revert F. unfold ins_of. generalize (b_flows d). clear. intros l F. induction l as [|x l IH]; [reflexivity|]. cbn in *. destruct (snd (snd x) =? g) eqn:E.
      + rewrite (F x) by (left; auto). cbn. rewrite E. f_equal. apply IH. intros y Hy. apply F. right; auto.
      + rewrite <- IH by auto. destruct (negb (fst x =? f1) && negb (fst x =? f2)); cbn; rewrite ?E; reflexivity.
    - assert (Nh : g <> h) by (intros <-; rewrite Hi in Hi1; rewrite Ho in Ho1; congruence). unfold outs_of. cbn [b_flows]. rewrite filter_app.
      assert (Eb : filter (fun x : nat * (nat * nat) => fst (snd x) =? g) [(f0, (a, b))] = []).
      { cbn. destruct (Nat.eqb_spec a g) as [->|]; [|reflexivity]. exfalso. assert (Q : In (f1, (g, h)) (ins_of d h)) by (rewrite Hi1; left; auto). apply filter_In in Q as [Q _].
        assert (Q' : In (f1, (g, h)) (outs_of d g)) by (apply filter_In; split; auto; apply Nat.eqb_refl). rewrite Ho in Q'. destruct Q' as [Q'|[]]. congruence. }
      rewrite Eb, app_nil_r. assert (F : forall x, In x (outs_of d g) -> negb (fst x =? f1) && negb (fst x =? f2) = true).
      { intros x Hx. rewrite Ho in Hx. destruct Hx as [<- |[]]. cbn. assert (B0 : In (f, (g, g)) (b_flows d)) by (assert (Q : In (f, (g, g)) (ins_of d g)) by (rewrite Hi; left; auto); apply filter_In in Q; tauto).
        assert (B1 : In (f1, (a, h)) (b_flows d)) by (assert (Q : In (f1, (a, h)) (ins_of d h)) by (rewrite Hi1; left; auto); apply filter_In in Q; tauto).
        assert (B2 : In (f2, (h, b)) (b_flows d)) by (assert (Q : In (f2, (h, b)) (outs_of d h)) by (rewrite Ho1; left; auto); apply filter_In in Q; tauto).
        destruct WF as (_ & N & _). apply andb_true_iff. split; apply negb_true_iff, Nat.eqb_neq; intros ->; [pose proof (nodup_fst _ N f1 _ _ B0 B1)|pose proof (nodup_fst _ N f2 _ _ B0 B2)]; congruence. }
      rewrite <- Ho. revert F. unfold outs_of. generalize (b_flows d). clear. intros l F. induction l as [|x l IH]; [reflexivity|]. cbn in *. destruct (fst (snd x) =? g) eqn:E.
      + rewrite (F x) by (left; auto). cbn. rewrite E. f_equal. apply IH. intros y Hy. apply F. right; auto.
      + rewrite <- IH by auto. destruct (negb (fst x =? f1) && negb (fst x =? f2)); cbn; rewrite ?E; reflexivity. }
  destruct G as (_ & G1 & G2 & G3). apply (T g). split; auto. rewrite G2, G3. auto.
Qed.
(** paths of the net are paths of the diagram *)
Section Paths.
  Variable net : petri_net (option nat).
  Variables i o : nat.
  Hypothesis HC : convertible net i o.
  Hypothesis HPath : forall p, In p (n_places net) -> on_path net i p.
  Notation d := (raw_diagram net [i] [o]).
  Lemma flow_in_d m m' v : In ((m, m'), v) (anns net i o) -> exists f, In (f, (code m, code m')) (b_flows d).
  Proof. intros H. apply In_nth_error in H as (f & H). exists f. rewrite (d_flows net i o). apply in_map_iff. exists (f, ((m, m'), v)). split; auto. now apply enum_in. Qed.
  Lemma ann_t t x : In t (n_trans net) -> In x (ann_task t) -> In x (anns net i o).
  Proof. intros Ht Hx. unfold anns. apply in_app_iff. left. apply in_flat_map. eauto. Qed.
  Lemma ann_a t x : In t (n_trans net) -> In x (ann_arc t) -> In x (anns net i o).
  Proof. intros Ht Hx. unfold anns. apply in_app_iff. right. apply in_app_iff. left. apply in_flat_map. eauto. Qed.
  Lemma go m m' v : In ((m, m'), v) (anns net i o) -> arrives d (code NStart) (code m) -> arrives d (code NStart) (code m').
  Proof. intros H A. destruct (flow_in_d _ _ _ H) as (f & Hf). eapply ar_flow; eauto. Qed.
  Lemma reach_in t p : In t (n_trans net) -> In p (pre t) -> arrives d (code NStart) (code (NPlace p)) -> arrives d (code NStart) (code (NIn (t_id t))).
  Proof. intros Ht Hp A. apply (go (NPlace p) (NIn (t_id t)) [p]); auto. apply (ann_a t); auto. unfold ann_arc. apply in_app_iff. left. apply in_map_iff. eauto. Qed.
  Lemma reach_task t a : In t (n_trans net) -> t_label t = Some a -> arrives d (code NStart) (code (NIn (t_id t))) -> arrives d (code NStart) (code (NTask (t_id t))).
  Proof. intros Ht L A. apply (go (NIn (t_id t)) (NTask (t_id t)) (pre t)); auto. apply (ann_t t); auto. unfold ann_task. rewrite L. left; auto. Qed.
  Lemma reach_out t a : In t (n_trans net) -> t_label t = Some a -> arrives d (code NStart) (code (NIn (t_id t))) -> arrives d (code NStart) (code (NOut (t_id t))).
  Proof. intros Ht L A. apply (go (NTask (t_id t)) (NOut (t_id t)) (post t)); [|eapply reach_task; eauto]. apply (ann_t t); auto. unfold ann_task. rewrite L. right; left; auto. Qed.
  Lemma reach_exit t : In t (n_trans net) -> arrives d (code NStart) (code (NIn (t_id t))) -> arrives d (code NStart) (code (exit_name t)).
  Proof. intros Ht A. destruct (exit_cases t) as [[L E]|(a & L & E)]; rewrite E; auto. eapply reach_out; eauto. Qed.
  Lemma reach_place p : on_path net i p -> arrives d (code NStart) (code (NPlace p)).
  Proof.
    induction 1 as [|p t q H IH Ht Hp Hq].
    - apply (go NStart (NPlace i) [i]); [|constructor]. unfold anns. rewrite !in_app_iff. right. right. left. left. auto.
    - apply (go (exit_name t) (NPlace q) [q]); [|apply reach_exit; auto; eapply reach_in; eauto]. apply (ann_a t); auto. unfold ann_arc. apply in_app_iff. right. apply in_map_iff. eauto.
  Qed.
  Lemma raw_reach n k : In (n, k) (b_nodes d) -> arrives d (code NStart) n.
  Proof.
    destruct HC as (H1 & H2 & H3 & H4 & H5 & H6).
    assert (RI : forall t, In t (n_trans net) -> arrives d (code NStart) (code (NIn (t_id t)))).
    { intros t Ht. destruct (H6 t Ht) as (A & _ & P). destruct (t_in t) as [|[p w] l] eqn:E; [congruence|]. apply (reach_in t p Ht); [unfold pre; rewrite E; left; auto|]. apply reach_place, HPath, P. left. left. auto. }
    intros H. apply node_name in H as (m & Hm & ->). apply cases in Hm. destruct Hm as [p Hp|t Ht L|t a Ht L|t a Ht L|t a Ht L| |]; auto.
    - apply reach_place; auto.
    - eapply reach_out; eauto.
    - eapply reach_task; eauto.
    - constructor.
    - apply (go (NPlace o) NEnd [o]); [|apply reach_place; auto]. unfold anns. rewrite !in_app_iff. right. right. right. left. auto.
  Qed.
End Paths.
