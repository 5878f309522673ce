(** From markings of the input net to lists of tokens; the starting invariant. *)
From stdpp Require Import gmap.
From Coq Require Import List Arith ZArith Lia Permutation Bool.
Import ListNotations.
From Verif Require Import Model_Petri Spec_Petri Proofs_Petri Model_Wfnet Spec_Wfnet Spec_TreeNet Model_Graph Model_Tree Spec_Tree Model_ToTree
  Proofs_ToTree1 Proofs_ToTree5 Proofs_ToTree6 Proofs_ToTree9.

Definition im_of (p : nat) : marking := {[p := 1%Z]}.
Section Bridge.
  Variable net : petri_net (option nat).
  Hypothesis WB : well_built net.
  Hypothesis SN : simple_net net.
  Hypothesis UW : unit_weights net.
  Definition tr_of (t : transition (option nat)) : tr := Tr (t_id t) (Leaf (t_label t)) (List.map fst (t_in t)) (List.map fst (t_out t)).
  Local Notation T := (ts (of_net net)).
  Lemma T_map : T = List.map tr_of (n_trans net).
  Proof. reflexivity. Qed.
  Lemma T_leaf x : In x T -> exists l, lab x = Leaf l.
  Proof. rewrite T_map. intros H. apply in_map_iff in H as (t & <- & _). exists (t_label t). reflexivity. Qed.
  Lemma weight_cnt arcs p : (forall q w, In (q, w) arcs -> w = 1%Z) -> weight arcs p = Z.of_nat (cnt (List.map fst arcs) p).
  Proof.
    induction arcs as [|[q w] arcs IH]; intros H; [reflexivity|]. cbn [weight]. rewrite IH by (intros; eapply H; right; eauto).
    rewrite (H q w) by (left; auto). unfold cnt. cbn [List.map fst count_occ]. destruct (Nat.eqb_spec q p), (Nat.eq_dec q p); try congruence; lia.
  Qed.
  Lemma w_in t p : In t (n_trans net) -> weight (t_in t) p = Z.of_nat (cnt (pre (tr_of t)) p).
  Proof. intros. apply weight_cnt. intros. eapply UW; eauto. Qed.
  Lemma w_out t p : In t (n_trans net) -> weight (t_out t) p = Z.of_nat (cnt (post (tr_of t)) p).
  Proof. intros. apply weight_cnt. intros. eapply UW; eauto. Qed.
  Definition rep (M : marking) (m : list nat) : Prop := proper M /\ forall p, tokens M p = Z.of_nat (cnt m p).
  Lemma rep_single p : rep (im_of p) [p].
  Proof. split; [apply proper_singleton; lia|]. intros q. unfold im_of. rewrite tokens_singleton. unfold cnt. cbn [count_occ]. destruct (Nat.eqb_spec p q), (Nat.eq_dec p q); try congruence; lia. Qed.
  Lemma rep_ex m : exists M, rep M m.
  Proof.
    induction m as [|a m (M & P & H)]; [exists ∅; split; [apply proper_empty|intros; rewrite tokens_empty; auto]|].
    exists (<[a := (tokens M a + 1)%Z]> M). split; [apply proper_insert; auto; pose proof (proper_nonneg M a P); lia|].
    intros p. rewrite tokens_insert. unfold cnt in *. cbn [count_occ]. destruct (Nat.eqb_spec a p), (Nat.eq_dec a p); subst; try congruence; rewrite H; lia.
  Qed.
  Lemma rep_perm M m m' : rep M m -> rep M m' -> Permutation m m'.
  Proof. intros [_ A] [_ B]. apply perm_cnt. intros p. specialize (A p). specialize (B p). lia. Qed.
  Lemma rep_eq M m m' : rep M m -> Permutation m m' -> rep M m'.
  Proof. intros [P A] H. split; auto. intros p. rewrite A. f_equal. apply perm_cnt; auto. Qed.
  Lemma rep_fun M M' m : rep M m -> rep M' m -> M = M'.
  Proof. intros [P A] [Q B]. apply proper_ext; auto. intros p. rewrite A, B. auto. Qed.
  Lemma fires_list t M M' m : fires net t M M' -> rep M m -> exists k, In (tr_of t) T /\ Permutation m (pre (tr_of t) ++ k) /\ rep M' (post (tr_of t) ++ k).
  Proof.
    intros (Ht & He & Hp & Hm) [PM HM]. destruct (sub_split (pre (tr_of t)) m) as [k Hk].
    { intros p. specialize (He p). rewrite w_in, HM in He by auto. lia. }
    exists k. split; [rewrite T_map; apply in_map; auto|]. split; auto. split; auto. intros p. rewrite Hm, HM, w_in, w_out by auto.
    pose proof (proj1 (perm_cnt _ _) Hk p) as E. rewrite cnt_app in E. rewrite cnt_app. lia.
  Qed.
  Lemma list_fires t m k M M' : In t (n_trans net) -> Permutation m (pre (tr_of t) ++ k) -> rep M m -> rep M' (post (tr_of t) ++ k) -> fires net t M M'.
  Proof.
    intros Ht Hk [PM HM] [PM' HM']. pose proof (proj1 (perm_cnt _ _) Hk) as E.
    split; auto. split; [|split; auto].
    - intros p. rewrite w_in, HM by auto. rewrite E, cnt_app. lia.
    - intros p. rewrite HM, HM', w_in, w_out by auto. rewrite E, !cnt_app. lia.
  Qed.
  Lemma leaf_word t u : L (tr_of t) u <-> u = visible [t].
  Proof.
    unfold L. cbn. destruct (t_label t); split; intros H; subst; try constructor; inversion H; auto.
  Qed.
  Lemma visible_app a b : visible (a ++ b) = visible a ++ visible b.
  Proof. induction a as [|t a IH]; cbn; auto. destruct (t_label t); rewrite IH; auto. Qed.
  Lemma run_aw i M ts M' : run net M ts M' -> forall m w, rep M m -> aw T i m w -> exists m', rep M' m' /\ aw T i m' (w ++ visible ts).
  Proof.
    induction 1 as [M|M t M1 ts M2 Hf Hr IH]; intros m w Hm Ha; [exists m; cbn; rewrite app_nil_r; auto|].
    destruct (fires_list _ _ _ _ Hf Hm) as (k & A & B & C). destruct (IH _ (w ++ visible [t]) C) as (m' & D & E).
    - eapply aw_fire; eauto. apply leaf_word. auto.
    - exists m'. split; auto. change (t :: ts) with ([t] ++ ts). rewrite visible_app, app_assoc. auto.
  Qed.
  Lemma aw_run i m w : aw T i m w -> exists M ts, rep M m /\ run net (im_of i) ts M /\ visible ts = w.
  Proof.
    induction 1 as [m Hm|m w x k m2 u H IH Hx P1 P2 Hl].
    - exists (im_of i), []. split; [|split; [constructor|auto]]. eapply rep_eq; [apply rep_single|]. symmetry; auto.
    - destruct IH as (M & ts & A & B & C). rewrite T_map in Hx. apply in_map_iff in Hx as (t & <- & Ht).
      destruct (rep_ex (post (tr_of t) ++ k)) as [M' HM']. exists M', (ts ++ [t]). split; [eapply rep_eq; [exact HM'|symmetry; auto]|]. split.
      + eapply run_app; [exact B|]. econstructor; [|constructor]. eapply list_fires; eauto.
      + rewrite visible_app, C. f_equal. symmetry. apply leaf_word. auto.
  Qed.
  Lemma accepts_lacc i o w : accepts net (im_of i) (im_of o) w <-> lacc L T i o w.
  Proof.
    rewrite <- aw_lacc by apply T_leaf. split.
    - intros (ts & R & V). destruct (run_aw i _ _ _ R [i] [] (rep_single i)) as (m' & A & B); [constructor; auto|].
      cbn in B. rewrite V in B. eapply aw_eq; [exact B|]. eapply rep_perm; [exact A|apply rep_single].
    - intros H. apply aw_run in H as (M & ts & A & B & C). exists ts. split; auto. rewrite (rep_fun _ _ _ A (rep_single o)) in B. auto.
  Qed.
  Lemma reach_areach i M : reachable net (im_of i) M -> exists m, rep M m /\ areach T i m.
  Proof.
    intros (ts & R). destruct (run_aw i _ _ _ R [i] [] (rep_single i)) as (m' & A & B); [constructor; auto|]. exists m'. split; auto. apply aw_areach; eauto using T_leaf.
  Qed.
  Lemma safe_spec i : Proofs_ToTree1.safe T i -> Spec_TreeNet.safe net (im_of i).
  Proof. intros H M p HM. destruct (reach_areach i M HM) as (m & [_ A] & B). rewrite A. pose proof (H m B p). lia. Qed.

  Lemma leads_last (x y : node) : leads net x y -> x = y \/ exists z, arc_to net z y.
  Proof. induction 1 as [|x y z A B IH]; auto. destruct IH as [-> |IH]; eauto. Qed.
  Lemma leads_first (x y : node) : leads net x y -> x = y \/ exists z, arc_to net x z.
  Proof. intros H. inversion H; subst; eauto. Qed.
  Lemma id_inj t t' : In t (n_trans net) -> In t' (n_trans net) -> t_id t = t_id t' -> t = t'.
  Proof.
    destruct WB as (_ & D & _). revert D. generalize (n_trans net). clear. induction l as [|a l IH]; cbn; intros D A B E; [easy|]. inversion D; subst.
    destruct A as [-> |A], B as [-> |B]; auto; exfalso; apply H1; [rewrite E|rewrite <- E]; apply in_map; auto.
  Qed.
  Lemma ni_start i o : only_source net i -> only_sink net o -> (forall x, is_node net x -> leads net (PNode i) x /\ leads net x (PNode o)) ->
    no_dead_transitions net (im_of i) -> NI i o (of_net net).
  Proof.
    intros [I1 I2] [O1 O2] HL ND. destruct WB as (W1 & W2 & W3). constructor.
    - rewrite T_map, map_map. exact W2.
    - rewrite T_map. intros x Hx. apply in_map_iff in Hx as (t & <- & Ht). cbn [pre post tr_of].
      destruct (HL (TNode (t_id t))) as [L1 L2]; [right; eauto|]. destruct (SN t Ht) as [[S1 _] [S2 _]].
      repeat split; auto.
      + apply leads_last in L1 as [L1|(z & t' & w & Ht' & [(p & -> & E & Hp)|(p & _ & E & _)])]; try discriminate. injection E as E. apply id_inj in E; auto. subst t'.
        intros F. apply (in_map fst) in Hp. rewrite F in Hp. easy.
      + apply leads_first in L2 as [L2|(z & t' & w & Ht' & [(p & E & _ & _)|(p & E & _ & Hp)])]; try discriminate. injection E as E. apply id_inj in E; auto. subst t'.
        intros F. apply (in_map fst) in Hp. rewrite F in Hp. easy.
      + intros H. apply in_map_iff in H as ([p w] & <- & Hp). cbn [fst] in *. destruct (I2 p I1) as [_ I3]. apply (I3 eq_refl (TNode (t_id t))). exists t, w. eauto 10.
      + intros H. apply in_map_iff in H as ([p w] & <- & Hp). cbn [fst] in *. destruct (O2 p O1) as [_ O3]. apply (O3 eq_refl (TNode (t_id t))). exists t, w. eauto 10.
    - rewrite T_map. intros x p Hx Hp. apply in_map_iff in Hx as (t & <- & Ht). cbn [pre post tr_of] in Hp.
      destruct Hp as [Hp|Hp]; apply in_map_iff in Hp as ([q w] & <- & Hp); eapply W3; eauto.
    - split; auto.
    - exact W1.
    - intros x Hx. destruct (T_leaf x Hx) as [l ->]. constructor. exact I.
    - intros S Hi HS x p Hx Hp Sp. rewrite T_map in Hx. pose proof Hx as Hx'. apply in_map_iff in Hx as (t & <- & Ht).
      destruct (ND t Ht) as (M & M' & R & F). destruct (reach_areach i M R) as (m & A & B). destruct (fires_list _ _ _ _ F A) as (k & _ & P & _).
      apply (siphon_empty T i S m HS Hi B p Sp). rewrite P. apply in_app_iff. auto.
  Qed.
  Lemma mu_start ini : length (ts (of_net net)) + length (List.filter (fun p => smem p ini) (pl (of_net net))) < fuel_for net.
  Proof.
    unfold fuel_for. rewrite T_map, map_length. assert (F : forall l, length (List.filter (fun p => smem p ini) l) <= length l).
    { induction l as [|a l IH]; cbn; auto. destruct (smem a ini); cbn; lia. }
    specialize (F (pl (of_net net))). cbn [pl of_net] in *. lia.
  Qed.
End Bridge.
