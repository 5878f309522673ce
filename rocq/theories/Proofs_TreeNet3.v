(** The converted net of a process tree: language and soundness. *)
From Coq Require Import List Arith Lia Bool ZArith Permutation.
Import ListNotations.
From Verif Require Import Model_Petri Spec_Petri Model_Tree Model_TreeNet Spec_Tree Proofs_Petri Proofs_Shuffle Proofs_Block Proofs_Block3 Proofs_TreeNet Proofs_TreeNet2 Proofs_Reduce.

(** * Counting arcs *)
Lemma occurrences_cnt p a : occurrences p a = cnt (map fst a) p.
Proof.
  unfold occurrences. induction a as [|[q w] a IH]; cbn; [auto|]. destruct (Nat.eqb_spec q p); cbn; rewrite <- IH; auto.
Qed.
Lemma sum_one {X} (g : X -> nat) (l : list X) u : list_sum (map g l) = 1 -> In u l -> 1 <= g u ->
  g u = 1 /\ forall v, In v l -> v <> u -> g v = 0.
Proof.
  intros Hs Hu Hg. apply in_split in Hu as (l1 & l2 & ->). rewrite map_app in Hs. cbn in Hs. rewrite list_sum_app in Hs. cbn in Hs.
  split; [lia|]. intros v Hv Hne.
  assert (Z : forall l, list_sum (map g l) = 0 -> In v l -> g v = 0).
  { clear. induction l as [|x l IH]; cbn; intros H Hv; [destruct Hv|]. destruct Hv as [->|Hv]; [lia|]. apply IH; auto. unfold list_sum in *; lia. }
  apply in_app_iff in Hv as [Hv|[->|Hv]]; [apply (Z l1)|congruence|apply (Z l2)]; auto; unfold list_sum in *; lia.
Qed.
Lemma in_arcs_cnt pn p : in_arcs pn p = list_sum (map (fun t => cnt (post t) p) (n_trans pn)).
Proof. unfold in_arcs. f_equal. apply map_ext. intros t. apply occurrences_cnt. Qed.
Lemma out_arcs_cnt pn p : out_arcs pn p = list_sum (map (fun t => cnt (pre t) p) (n_trans pn)).
Proof. unfold out_arcs. f_equal. apply map_ext. intros t. apply occurrences_cnt. Qed.
Lemma sum_pos {X} (g : X -> nat) (l : list X) u : In u l -> 1 <= g u -> 1 <= list_sum (map g l).
Proof. induction l as [|x l IH]; intros Hu Hg; [destruct Hu|]. destruct Hu as [->|Hu]; cbn; [lia|]. specialize (IH Hu Hg). unfold list_sum in *. lia. Qed.

Lemma fst_drop p a : map fst (drop_arc p a) = drop_place p (map fst a).
Proof. unfold drop_arc, drop_place. induction a as [|[q w] a IH]; cbn; [auto|]. destruct (Nat.eqb q p); cbn; rewrite IH; auto. Qed.
Lemma fst_arcs l : map fst (arcs l) = l.
Proof. unfold arcs. rewrite map_map. cbn. apply map_id. Qed.
Lemma drop_arcs p l : drop_arc p (arcs l) = arcs (drop_place p l).
Proof. unfold drop_arc, drop_place, arcs. induction l as [|q l IH]; cbn; [auto|]. destruct (Nat.eqb q p); cbn; rewrite IH; auto. Qed.
Lemma cnt_drop_other p l q : q <> p -> cnt (drop_place p l) q = cnt l q.
Proof.
  intros H. unfold drop_place. induction l as [|x l IH]; cbn; [auto|]. destruct (Nat.eqb_spec x p) as [->|Hx]; cbn; rewrite IH; auto.
  destruct (Nat.eqb_spec p q); [congruence|auto].
Qed.
Lemma cnt_drop_same p l : cnt (drop_place p l) p = 0.
Proof. apply cnt_notin. unfold drop_place. intros H. apply filter_In in H as [_ H]. rewrite Nat.eqb_refl in H. discriminate. Qed.
Lemma in_drop p l q : In q (drop_place p l) <-> In q l /\ q <> p.
Proof.
  unfold drop_place. rewrite filter_In. split; intros [H1 H2]; split; auto.
  - intros ->. rewrite Nat.eqb_refl in H2. discriminate.
  - destruct (Nat.eqb_spec q p); [congruence|auto].
Qed.

(** * Good nets *)
Definition inner (p : nat) : Prop := p <> 1 /\ p <> 2.
Record good (Q : Prop) (pn : petri_net (option nat)) (L : list nat -> Prop) : Prop := {
  g_block : block Q (n_trans pn) inner [1] [2] L;
  g_ids : NoDup (map t_id (n_trans pn));
  g_unit : forall t, In t (n_trans pn) -> unit1 t;
  g_out : forall p, In p (n_places pn) -> p <> 2 -> outp (n_trans pn) p;
  g_in : forall p, In p (n_places pn) -> p <> 1 -> inp (n_trans pn) p;
  g_places : forall t p, In t (n_trans pn) -> In p (pre t) \/ In p (post t) -> In p (n_places pn);
  g_nodup : NoDup (n_places pn) }.

Lemma ids_inj B (a b : tr) : NoDup (map t_id B) -> In a B -> In b B -> t_id a = t_id b -> a = b.
Proof.
  induction B as [|x B IH]; intros Hn Ha Hb E; [destruct Ha|]. cbn in Hn. inversion Hn as [|? ? Hx HB]; subst.
  destruct Ha as [->|Ha], Hb as [->|Hb]; auto.
  - exfalso. apply Hx. rewrite E. apply in_map. auto.
  - exfalso. apply Hx. rewrite <- E. apply in_map. auto.
Qed.
Lemma step_members B (t u : tr) g : NoDup (map t_id B) -> In t B -> In u B -> u <> t ->
  forall v, In v (on_id (t_id u) g (no_id (t_id t) B)) <-> (v = g u \/ (In v B /\ v <> t /\ v <> u)).
Proof.
  intros Hn Ht Hu Hut v. unfold on_id, no_id. rewrite in_map_iff. split.
  - intros (x & <- & Hx). apply filter_In in Hx as [Hx Hxt]. destruct (Nat.eqb_spec (t_id x) (t_id u)) as [E|E].
    + left. f_equal. apply (ids_inj B); auto.
    + right. split; auto. split; [|congruence]. intros ->. rewrite Nat.eqb_refl in Hxt. discriminate.
  - assert (Hid : forall x, In x B -> x <> t -> In x (filter (fun t0 => negb (t_id t0 =? t_id t)) B)).
    { intros x Hx Hxt. apply filter_In. split; auto. destruct (Nat.eqb_spec (t_id x) (t_id t)) as [E|E]; auto. exfalso. apply Hxt, (ids_inj B); auto. }
    intros [->|(Hv & Hvt & Hvu)].
    + exists u. rewrite Nat.eqb_refl. split; auto.
    + exists v. split; auto. destruct (Nat.eqb_spec (t_id v) (t_id u)) as [E|E]; auto. exfalso. apply Hvu, (ids_inj B); auto.
Qed.
Lemma step_ids B (x y : nat) g : (forall v, t_id (g v) = t_id v) -> NoDup (map t_id B) -> NoDup (map t_id (on_id x g (no_id y B))).
Proof.
  intros Hg Hn. unfold on_id, no_id. rewrite map_map.
  rewrite (map_ext (fun a => t_id (if t_id a =? x then g a else a)) t_id); [|intros a; destruct (Nat.eqb _ _); auto].
  induction B as [|b B IH]; cbn in *; [constructor|]. inversion Hn; subst.
  destruct (negb _); cbn; auto. constructor; auto. rewrite in_map_iff. intros (b0 & E & Hb). apply filter_In in Hb as [Hb _]. apply H1. rewrite <- E. apply in_map; auto.
Qed.

Lemma entry_good Q pn pn' L : good Q pn L -> entry_step pn pn' -> good Q pn' L.
Proof.
  intros [HB Hid Hun Hout Hin Hpl Hnd] (t & u & p & w & Ht & Hu & Hl & Hti & Hpu & Hi1 & Ho1 & ->).
  assert (Hpt : pre t = [p]) by (unfold pre; rewrite Hti; auto).
  rewrite in_arcs_cnt in Hi1. rewrite out_arcs_cnt in Ho1.
  destruct (sum_one _ _ u Hi1 Hu) as [Hu1 Huo]; [apply cnt_in; auto|].
  destruct (sum_one _ _ t Ho1 Ht) as [Ht1 Hto]; [rewrite Hpt, cnt1; auto|].
  assert (Hprod : forall v, In v (n_trans pn) -> v <> u -> ~ In p (post v)) by (intros v Hv Hn Hp; apply cnt_in in Hp; rewrite (Huo v Hv Hn) in Hp; lia).
  assert (Hcons : forall v, In v (n_trans pn) -> v <> t -> ~ In p (pre v)) by (intros v Hv Hn Hp; apply cnt_in in Hp; rewrite (Hto v Hv Hn) in Hp; lia).
  assert (Hp12 : inner p).
  { destruct (b_pre HB t Ht) as [_ H1]. destruct (b_post HB u Hu) as [_ H2]. destruct (H1 p) as [[<-|[]]|?]; auto; [rewrite Hpt; left; auto|].
    destruct (H2 1 Hpu) as [[H|[]]|[H _]]; congruence. }
  assert (HpI : ~ In p [1]) by (intros [<-|[]]; destruct Hp12; congruence).
  assert (HpF : ~ In p [2]) by (intros [<-|[]]; destruct Hp12; congruence).
  assert (Hne : u <> t) by (eapply (marked_producer Q); eauto; rewrite Hpt; left; auto).
  set (g := fun v : tr => Trans (t_id v) (t_label v) (t_in v) (drop_arc p (t_out v) ++ arcs (map fst (t_out t)))).
  pose proof (step_members (n_trans pn) t u g Hid Ht Hu Hne) as HM.
  assert (Hgpost : post (g u) = drop_place p (post u) ++ post t) by (unfold post, g; cbn; rewrite map_app, fst_drop, fst_arcs; auto).
  constructor; cbn [n_trans n_places].
  - apply (entry_block Q (n_trans pn) _ inner [1] [2] L HB t u (g u) p); auto.
    + apply vis_silent; auto.
    + intros q Hq. rewrite Hgpost, cnt_app, cnt_drop_other; auto.
    + rewrite Hgpost, cnt_app, cnt_drop_same. cbn. apply cnt_notin, Hprod; auto.
  - apply step_ids; auto.
  - intros v Hv. apply HM in Hv as [->|(Hv & _ & _)]; auto. destruct (Hun u Hu) as [E1 E2]. split; [exact E1|].
    rewrite Hgpost. unfold g. cbn. rewrite E2, drop_arcs. unfold arcs. rewrite map_app. reflexivity.
  - intros q Hq Hq2. apply in_drop in Hq as [Hq Hqp]. destruct (Hout q Hq Hq2) as (v & Hv & Hp).
    destruct (tr_eq_dec v t) as [->|Hvt]; [rewrite Hpt in Hp; destruct Hp as [Hp|[]]; congruence|].
    destruct (tr_eq_dec v u) as [->|Hvu]; [exists (g u); split; [apply HM; auto|exact Hp]|exists v; split; [apply HM; auto|auto]].
  - intros q Hq Hq1. apply in_drop in Hq as [Hq Hqp]. destruct (Hin q Hq Hq1) as (v & Hv & Hp).
    destruct (tr_eq_dec v t) as [->|Hvt]; [exists (g u); split; [apply HM; auto|rewrite Hgpost; apply in_app_iff; auto]|].
    destruct (tr_eq_dec v u) as [->|Hvu]; [exists (g u); split; [apply HM; auto|rewrite Hgpost; apply in_app_iff; left; apply in_drop; auto]|exists v; split; [apply HM; auto|auto]].
  - intros v q Hv Hq. apply in_drop. apply HM in Hv as [->|(Hv & Hvt & Hvu)].
    + change (pre (g u)) with (pre u) in Hq. rewrite Hgpost, in_app_iff, in_drop in Hq. destruct Hq as [Hq|[[Hq Hqp]|Hq]].
      * split; [apply (Hpl u); auto|]. intros ->. apply (Hcons u); auto.
      * split; auto. apply (Hpl u); auto.
      * split; [apply (Hpl t); auto|]. intros ->. apply (Hprod t); auto.
    + split; [apply (Hpl v); auto|]. intros ->. destruct Hq as [Hq|Hq]; [apply (Hcons v)|apply (Hprod v)]; auto.
  - unfold drop_place. apply NoDup_filter. auto.
Qed.
Lemma exit_good Q pn pn' L : good Q pn L -> exit_step pn pn' -> good Q pn' L.
Proof.
  intros [HB Hid Hun Hout Hin Hpl Hnd] (t & u & p & w & Ht & Hu & Hl & Hti & Hpu & Hi1 & Ho1 & ->).
  assert (Hpt : post t = [p]) by (unfold post; rewrite Hti; auto).
  rewrite in_arcs_cnt in Hi1. rewrite out_arcs_cnt in Ho1.
  destruct (sum_one _ _ u Ho1 Hu) as [Hu1 Huo]; [apply cnt_in; auto|].
  destruct (sum_one _ _ t Hi1 Ht) as [Ht1 Hto]; [rewrite Hpt, cnt1; auto|].
  assert (Hprod : forall v, In v (n_trans pn) -> v <> t -> ~ In p (post v)) by (intros v Hv Hn Hp; apply cnt_in in Hp; rewrite (Hto v Hv Hn) in Hp; lia).
  assert (Hcons : forall v, In v (n_trans pn) -> v <> u -> ~ In p (pre v)) by (intros v Hv Hn Hp; apply cnt_in in Hp; rewrite (Huo v Hv Hn) in Hp; lia).
  assert (Hp12 : inner p).
  { destruct (b_post HB t Ht) as [_ H1]. destruct (b_pre HB u Hu) as [_ H2]. destruct (H1 p) as [[<-|[]]|?]; auto; [rewrite Hpt; left; auto|].
    destruct (H2 2 Hpu) as [[H|[]]|[_ H]]; congruence. }
  assert (HpI : ~ In p [1]) by (intros [<-|[]]; destruct Hp12; congruence).
  assert (HpF : ~ In p [2]) by (intros [<-|[]]; destruct Hp12; congruence).
  assert (Hne : t <> u) by (eapply (marked_producer Q _ _ _ _ _ HB u t p); eauto; rewrite Hpt; left; auto).
  assert (Hne' : u <> t) by congruence.
  set (g := fun v : tr => Trans (t_id v) (t_label v) (drop_arc p (t_in v) ++ arcs (map fst (t_in t))) (t_out v)).
  pose proof (step_members (n_trans pn) t u g Hid Ht Hu Hne') as HM.
  assert (Hgpre : pre (g u) = drop_place p (pre u) ++ pre t) by (unfold pre, g; cbn; rewrite map_app, fst_drop, fst_arcs; auto).
  constructor; cbn [n_trans n_places].
  - apply (exit_block Q (n_trans pn) _ inner [1] [2] L HB t u (g u) p); auto.
    + apply vis_silent; auto.
    + intros q Hq. rewrite Hgpre, cnt_app, cnt_drop_other; auto.
    + rewrite Hgpre, cnt_app, cnt_drop_same. cbn. apply cnt_notin, Hcons; auto.
  - apply step_ids; auto.
  - intros v Hv. apply HM in Hv as [->|(Hv & _ & _)]; auto. destruct (Hun u Hu) as [E1 E2]. split; [|exact E2].
    rewrite Hgpre. unfold g. cbn. rewrite E1, drop_arcs. unfold arcs. rewrite map_app. reflexivity.
  - intros q Hq Hq1. apply in_drop in Hq as [Hq Hqp]. destruct (Hout q Hq Hq1) as (v & Hv & Hp).
    destruct (tr_eq_dec v t) as [->|Hvt]; [exists (g u); split; [apply HM; auto|rewrite Hgpre; apply in_app_iff; auto]|].
    destruct (tr_eq_dec v u) as [->|Hvu]; [exists (g u); split; [apply HM; auto|rewrite Hgpre; apply in_app_iff; left; apply in_drop; auto]|exists v; split; [apply HM; auto|auto]].
  - intros q Hq Hq2. apply in_drop in Hq as [Hq Hqp]. destruct (Hin q Hq Hq2) as (v & Hv & Hp).
    destruct (tr_eq_dec v t) as [->|Hvt]; [rewrite Hpt in Hp; destruct Hp as [Hp|[]]; congruence|].
    destruct (tr_eq_dec v u) as [->|Hvu]; [exists (g u); split; [apply HM; auto|exact Hp]|exists v; split; [apply HM; auto|auto]].
  - intros v q Hv Hq. apply in_drop. apply HM in Hv as [->|(Hv & Hvt & Hvu)].
    + change (post (g u)) with (post u) in Hq. rewrite Hgpre, in_app_iff, in_drop in Hq. destruct Hq as [[[Hq Hqp]|Hq]|Hq].
      * split; auto. apply (Hpl u); auto.
      * split; [apply (Hpl t); auto|]. intros ->. apply (Hcons t); auto.
      * split; [apply (Hpl u); auto|]. intros ->. apply (Hprod u); auto.
    + split; [apply (Hpl v); auto|]. intros ->. destruct Hq as [Hq|Hq]; [apply (Hcons v)|apply (Hprod v)]; auto.
  - unfold drop_place. apply NoDup_filter. auto.
Qed.
Lemma reduction_good Q pn pn' L : good Q pn L -> simple_reduction pn pn' -> good Q pn' L.
Proof.
  intros H (pn1 & H1 & _ & H2 & _).
  assert (G : good Q pn1 L) by (clear H2; induction H1 as [x|x y z Hs H1 IH]; [auto|apply IH; eapply entry_good; eauto]).
  clear H H1. induction H2 as [x|x y z Hs H1 IH]; [auto|apply IH; eapply exit_good; eauto].
Qed.
Lemma clean_noop Q pn L order : good Q pn L -> Permutation order (n_places pn) -> clean_places order pn = pn.
Proof.
  intros H HP. unfold clean_places.
  assert (G : forall p, In p order -> In p (n_places pn)) by (intros p; apply Permutation_in; auto). clear HP.
  induction order as [|p order IH]; cbn [fold_left]; [auto|].
  assert (E1 : ((out_arcs pn p =? 0) && negb (p =? 2))%bool = false).
  { destruct (Nat.eqb_spec p 2) as [->|H2]; cbn; [apply andb_false_r|]. rewrite andb_true_r. apply Nat.eqb_neq.
    destruct (g_out _ _ _ H p (G p ltac:(left; auto)) H2) as (v & Hv & Hp). rewrite out_arcs_cnt. pose proof (sum_pos (fun t => cnt (pre t) p) _ _ Hv (proj1 (cnt_in _ _) Hp)). lia. }
  assert (E2 : ((in_arcs pn p =? 0) && negb (p =? 1))%bool = false).
  { destruct (Nat.eqb_spec p 1) as [->|H2]; cbn; [apply andb_false_r|]. rewrite andb_true_r. apply Nat.eqb_neq.
    destruct (g_in _ _ _ H p (G p ltac:(left; auto)) H2) as (v & Hv & Hp). rewrite in_arcs_cnt. pose proof (sum_pos (fun t => cnt (post t) p) _ _ Hv (proj1 (cnt_in _ _) Hp)). lia. }
  rewrite E1, E2. apply IH. intros q Hq. apply G. right; auto.
Qed.

(** * The net before the reduction *)
Lemma raw_good (Q : Prop) t : wf_tree t -> (Q -> everywhere or_wide t) -> good Q (raw_net t) (lang t).
Proof.
  intros Hwf HQ. unfold raw_net.
  set (X := if tau_initial t then _ else _).
  assert (EX : exists ip bi s1, X = (ip, bi, s1) /\ ((ip = 1 /\ bi = [] /\ s1 = Counts 3 1) \/ (ip = 3 /\ bi = [mk_trans 1 None [1] [3]] /\ s1 = Counts 4 2))).
  { unfold X. destruct (tau_initial t); cbn; do 3 eexists; (split; [reflexivity|]); auto. }
  destruct EX as (ip & bi & s1 & EX & HX). rewrite EX. clear X EX.
  assert (EY : exists fp bf s2, (if tau_final t
                then let '(p, s) := new_place s1 in let '(x, s) := new_trans s in (p, [mk_trans x None [p] [2]], s)
                else (2, [], s1)) = (fp, bf, s2) /\ ((fp = 2 /\ bf = [] /\ s2 = s1) \/
                 (fp = next_place s1 /\ bf = [mk_trans (next_trans s1) None [next_place s1] [2]] /\ s2 = Counts (S (next_place s1)) (S (next_trans s1))))).
  { destruct (tau_final t); cbn; do 3 eexists; (split; [reflexivity|]); auto. }
  destruct EY as (fp & bf & s2 & EY & HY). rewrite EY. clear EY.
  destruct (add_tree t ip fp s2) as [b s] eqn:E.
  assert (Hip : ip < next_place s2) by (destruct HX as [(-> & -> & ->)|(-> & -> & ->)], HY as [(-> & -> & ->)|(-> & -> & ->)]; cbn; lia).
  assert (Hfp : fp < next_place s2) by (destruct HX as [(-> & -> & ->)|(-> & -> & ->)], HY as [(-> & -> & ->)|(-> & -> & ->)]; cbn; lia).
  assert (Hif : ip <> fp) by (destruct HX as [(-> & -> & ->)|(-> & -> & ->)], HY as [(-> & -> & ->)|(-> & -> & ->)]; cbn; lia).
  assert (Hs2 : 3 <= next_place s2) by (destruct HX as [(-> & -> & ->)|(-> & -> & ->)], HY as [(-> & -> & ->)|(-> & -> & ->)]; cbn; lia).
  destruct (add_tree_ok Q t Hwf HQ _ _ _ _ _ E Hip Hfp Hif) as [Hle HB].
  destruct (add_tree_shape t Hwf _ _ _ _ _ E) as (_ & HI & HO & HF & HP).
  assert (HbB : block Q (bi ++ b ++ bf) inner [1] [2] (lang t)).
  { assert (H1 : block Q (b ++ bf) (fun p => 3 <= p /\ p <> ip) [ip] [2] (lang t)).
    { destruct HY as [(-> & -> & ->)|(-> & -> & ->)].
      - rewrite app_nil_r. eapply block_widen; [|exact HB]. intros p Hp. ww.
      - eapply block_ext; [|eapply block_widen; [|eapply (block_seq Q b _ _ (fun _ => False) (next_place s1) ip 2 _ (fun w => w = [])); [exact HB|eapply block_leaf|..]]];
          rewrite ?pre_mk, ?post_mk; auto; cbn beta; try (destruct HX as [(-> & -> & ->)|(-> & -> & ->)]; ww).
        + intros w. split; [intros (x & y & Hx & -> & ->); rewrite app_nil_r; auto|]. intros Hw. exists w, []. rewrite app_nil_r. auto. }
    destruct HX as [(-> & -> & ->)|(-> & -> & ->)].
    - cbn. eapply block_widen; [|exact H1]. intros p Hp. cbn beta in Hp; unfold inner. lia.
    - eapply block_ext; [|eapply block_widen; [|eapply (block_seq Q _ _ (fun _ => False) _ 3 1 2 (fun w => w = []) _); [eapply block_leaf|exact H1|..]]];
          rewrite ?pre_mk, ?post_mk; auto; cbn beta; try lia.
        + intros w. split; [intros (x & y & -> & Hx & ->); auto|]. intros Hw. exists [], w. auto.
        + intros p [->|[[]|Hp]]; unfold inner; lia. }
  assert (Hids : ids 1 (bi ++ b ++ bf) (next_trans s)).
  { eapply ids_perm; [apply Permutation_app_head, Permutation_app_comm|].
    destruct HX as [(-> & -> & ->)|(-> & -> & ->)], HY as [(-> & -> & ->)|(-> & -> & ->)]; cbn in *; auto; repeat (apply ids_cons; [auto|]); auto. }
  destruct Hids as (_ & Hnd & _ & Hun).
  assert (Hseq : forall p, In p (seq 1 (next_place s - 1)) <-> 1 <= p < next_place s) by (intros p; rewrite in_seq; lia).
  constructor; cbn [n_trans n_places]; auto.
  - intros p Hp Hp2. apply Hseq in Hp. destruct (le_lt_dec (next_place s2) p) as [G|G]; [apply outp_r, outp_l, HP; ww|].
    destruct (Nat.eq_dec p ip) as [->|Hpi]; [apply outp_r, outp_l; auto|].
    destruct HX as [(-> & -> & ->)|(-> & -> & ->)], HY as [(-> & -> & ->)|(-> & -> & ->)]; pp.
    + assert (p = 2) by lia. congruence.
    + assert (p = 3) as -> by lia. apply outp_r, outp_r, outp_head. left; auto.
    + assert (p = 1) as -> by lia. apply outp_l, outp_head. left; auto.
    + assert (p = 1 \/ p = 4) as [-> | ->] by lia; [apply outp_l, outp_head|apply outp_r, outp_r, outp_head]; left; auto.
  - intros p Hp Hp2. apply Hseq in Hp. destruct (le_lt_dec (next_place s2) p) as [G|G]; [apply inp_r, inp_l, HP; ww|].
    destruct (Nat.eq_dec p fp) as [->|Hpi]; [apply inp_r, inp_l; auto|].
    destruct HX as [(-> & -> & ->)|(-> & -> & ->)], HY as [(-> & -> & ->)|(-> & -> & ->)]; pp.
    + assert (p = 1) by lia. congruence.
    + assert (p = 2) as -> by lia. apply inp_r, inp_r, inp_head. left; auto.
    + assert (p = 3) as -> by lia. apply inp_l, inp_head. left; auto.
    + assert (p = 2 \/ p = 3) as [-> | ->] by lia; [apply inp_r, inp_r, inp_head|apply inp_l, inp_head]; left; auto.
  - intros v p Hv Hp. apply Hseq. apply in_app_iff in Hv as [Hv|Hv]; [|apply in_app_iff in Hv as [Hv|Hv]].
    + destruct HX as [(-> & -> & ->)|(-> & -> & ->)]; [destruct Hv|]. destruct Hv as [<-|[]]. rewrite pre_mk, post_mk in Hp.
      destruct HY as [(-> & -> & ->)|(-> & -> & ->)]; pp; destruct Hp as [[<-|[]]|[<-|[]]]; lia.
    + assert (G : In p [ip] \/ In p [fp] \/ within s2 s p).
      { destruct Hp as [Hp|Hp]; [destruct (proj2 (b_pre HB _ Hv) p Hp)|destruct (proj2 (b_post HB _ Hv) p Hp)]; auto. }
      destruct G as [[<-|[]]|[[<-|[]]|G]]; try ww; destruct HX as [(-> & -> & ->)|(-> & -> & ->)], HY as [(-> & -> & ->)|(-> & -> & ->)]; ww.
    + destruct HY as [(-> & -> & ->)|(-> & -> & ->)]; [destruct Hv|]. destruct Hv as [<-|[]]. rewrite pre_mk, post_mk in Hp.
      destruct HX as [(-> & -> & ->)|(-> & -> & ->)]; pp; destruct Hp as [[<-|[]]|[<-|[]]]; lia.
  - apply seq_NoDup.
Qed.
Theorem converted_good (Q : Prop) t pn : wf_tree t -> (Q -> everywhere or_wide t) -> converted t pn -> good Q pn (lang t).
Proof.
  intros Hwf HQ (pn1 & order & Hr & HP & ->). pose proof (reduction_good _ _ _ _ (raw_good Q t Hwf HQ) Hr) as H.
  rewrite (clean_noop _ _ _ _ H HP). exact H.
Qed.
