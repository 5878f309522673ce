(** C71, C72: POWL models, their Petri nets, and process trees as POWL models. *)
From stdpp Require Import gmap.
From Coq Require Import List ZArith Permutation Lia.
Import ListNotations.
From Verif Require Import Model_Petri Spec_Petri Model_Tree Spec_Tree Model_TreeNet Spec_TreeNet Model_Rel Spec_Rel Model_Powl Spec_Powl
  Proofs_Petri Proofs_Shuffle Proofs_TreeNet3 Proofs_TreeNet4 Proofs_Powl1 Proofs_Powl2 Proofs_Powl3 Proofs_Powl4 Props_TreeNet.

(** The visible traces of a net obtained from the POWL model are exactly the traces of the model. *)
Theorem C71_language : forall t pn, wf_powl t -> powl_converted t pn ->
  forall w, accepts pn net_im net_fm w <-> plang t w.
Proof. intros t pn Hwf Hc w. apply (good_lang False). apply powl_good; auto. Qed.
Print Assumptions C71_language.

(** The conversion produces a net and raises nothing. *)
Theorem C71_exists : forall t, wf_powl t -> raises t = false /\ exists pn, powl_converted t pn.
Proof. intros t H. split; [apply wf_raises|apply powl_converted_exists]; auto. Qed.
Print Assumptions C71_exists.

(** The net is a workflow net from source to sink, safe, can always complete, completes properly and has no dead transition. *)
Theorem C71_sound : forall t pn, wf_powl t -> powl_converted t pn ->
  flow_structure pn 1 2 /\ safe pn net_im /\ option_to_complete pn net_im net_fm /\ proper_completion pn net_im net_fm 2 /\ no_dead_transitions pn net_im.
Proof.
  intros t pn Hwf Hc. assert (HG : good True pn (plang t)) by (apply powl_good; auto).
  split; [|split; [|split; [|split]]].
  - split; [intros u p Hu Hp; apply (good_source _ _ _ HG u); auto|]. split; [intros u p Hu Hp; apply (good_sink _ _ _ HG u); auto|].
    split; intros p Hp Hn; [apply (g_out _ _ _ HG)|apply (g_in _ _ _ HG)]; auto.
  - intros m p. apply (good_safe _ _ _ HG).
  - intros m. apply (good_option _ _ _ HG).
  - intros m. apply (good_proper _ _ _ HG).
  - intros u Hu. apply (good_live True pn (plang t)); auto.
Qed.
Print Assumptions C71_sound.

(** The edges removed by the transitive reduction do not change the order. *)
Theorem C71_reduction_keeps_order : forall n e r, acyclic n e -> get_transitive_reduction n e = Some r -> forall i j, closure n r i j <-> closure n e i j.
Proof. intros n e r Ha Hr i j. rewrite <- (reduced_closure n e i j Ha). unfold reduced. rewrite Hr. reflexivity. Qed.
Print Assumptions C71_reduction_keeps_order.

(** a before b, c; b before the choice of d and skip; and a loop beside it *)
Definition ex_order : rel := fun i j => match i, j with 0, 1 | 0, 2 | 1, 3 | 0, 3 => true | _, _ => false end.
Definition ex_powl : powl := PPo [PLeaf (Some 1); PLeaf (Some 2); PLoop (PLeaf (Some 3)) (PLeaf None); PXor [PLeaf (Some 4); PLeaf None]] ex_order.
Lemma ex_order_closure i j : closure 4 ex_order i j -> i < j.
Proof.
  intros H. induction H as [x y (H1 & H2 & H)|]; [|lia]. unfold ex_order in H.
  destruct x as [|[|[|x]]], y as [|[|[|[|y]]]]; try discriminate; lia.
Qed.
Example ex_powl_wf : wf_powl ex_powl.
Proof.
  constructor; [discriminate| |repeat constructor; discriminate]. intros i H. apply ex_order_closure in H. lia.
Qed.
Example ex_powl_accepts : exists pn, powl_converted ex_powl pn /\ accepts pn net_im net_fm [1; 3; 2; 3; 4] /\ ~ accepts pn net_im net_fm [2; 1; 3].
Proof.
  destruct (proj2 (C71_exists ex_powl ex_powl_wf)) as (pn & Hc). exists pn. split; auto. rewrite !(C71_language _ _ ex_powl_wf Hc). split.
  - apply (PL_po _ _ [[1]; [2]; [3] ++ [] ++ [3]; [4]] [(0, 1); (2, 3); (1, 2); (2, 3); (3, 4)]).
    + constructor; [constructor|]. constructor; [constructor|]. constructor; [apply PL_redo; [constructor|constructor|apply PL_exit; constructor]|].
      constructor; [apply (PL_xor _ (PLeaf (Some 4))); [left; auto|constructor]|constructor].
    + split; [|split].
      * intros x Hx. cbn in *. repeat (destruct Hx as [<-|Hx]; [cbn; lia|]). destruct Hx.
      * intros k Hk. cbn in Hk. do 4 (destruct k as [|k]; [reflexivity|]). lia.
      * assert (N21 : ~ closure 4 ex_order 2 1 /\ ~ closure 4 ex_order 1 2).
        { split; [intros H; apply ex_order_closure in H; lia|]. intros H. apply lt_iff in H. vm_compute in H. discriminate. }
        repeat constructor; cbn [fst length]; try (intros H; apply ex_order_closure in H; lia); try apply N21.
  - intros H. apply plang_po in H as (ws & tw & HF & (H1 & H2 & H3) & E).
    inversion HF as [|? w0 ? ws0 W0 HF0]; subst. inversion HF0 as [|? w1 ? ws1 W1 HF1]; subst. inversion HF1 as [|? w2 ? ws2 W2 HF2]; subst. inversion HF2 as [|? w3 ? ws3 W3 HF3]; subst. inversion HF3; subst. clear HF HF0 HF1 HF2 HF3.
    rewrite plang_leaf in W0, W1. subst w0 w1. pose proof (H2 0 ltac:(cbn; lia)) as E0. pose proof (H2 1 ltac:(cbn; lia)) as E1. cbn [nth] in E0, E1.
    destruct tw as [|[k0 a0] [|[k1 a1] [|[k2 a2] [|]]]]; try discriminate. cbn in E. injection E as <- <- <-.
    assert (Hk : k0 = 1 /\ k1 = 0).
    { unfold events_of in E0, E1. cbn in E0, E1. destruct (Nat.eqb_spec k0 0), (Nat.eqb_spec k0 1), (Nat.eqb_spec k1 0), (Nat.eqb_spec k1 1), (Nat.eqb_spec k2 0), (Nat.eqb_spec k2 1); cbn in E0, E1; try discriminate; subst; auto; lia. }
    destruct Hk as [-> ->]. inversion H3 as [|? ? Hx _]; subst. inversion Hx as [|? ? Hx' _]; subst. apply Hx'. cbn. apply lt_iff. reflexivity.
Qed.

(** Converting a process tree without interleaving operators to POWL keeps its traces. *)
Theorem C72_language : forall t p, everywhere no_int t -> tree_to_powl t = Some p -> forall w, plang p w <-> lang t w.
Proof. intros t p Hn E. exact (to_powl_agree t p Hn E). Qed.
Print Assumptions C72_language.

(** The model is one the Petri net conversion accepts, and the nets made from the tree directly and through POWL have the same traces. *)
Theorem C72_nets_agree : forall t p pn pn', wf_tree t -> everywhere no_int t -> tree_to_powl t = Some p -> powl_converted p pn -> converted t pn' ->
  wf_powl p /\ forall w, accepts pn net_im net_fm w <-> accepts pn' net_im net_fm w.
Proof.
  intros t p pn pn' Hwf Hn E H1 H2. pose proof (to_powl_wf t p Hwf E) as Hp. split; auto. intros w.
  rewrite (C71_language p pn Hp H1), (C19_language t pn' Hwf H2). apply (C72_language t p Hn E).
Qed.
Print Assumptions C72_nets_agree.

(** Exactly the trees with an OR, a choice of fewer than two or a loop of other than two children raise. *)
Definition powl_able (t : tree nat) : Prop :=
  match t with Node Or _ => False | Node Xor cs => 2 <= length cs | Node Loop cs => length cs = 2 | _ => True end.
Lemma map_opt_total {A B} (f : A -> option B) l : (exists l', map_opt_list f l = Some l') <-> Forall (fun a => exists b, f a = Some b) l.
Proof.
  induction l as [|a l IH]; cbn; [split; eauto|]. split.
  - intros (l' & E). destruct (f a) eqn:Ea; [|discriminate]. destruct (map_opt_list f l) eqn:El; [|discriminate]. constructor; eauto. apply IH. eauto.
  - intros H. inversion H as [|? ? (b & Eb) Hl]; subst. apply IH in Hl as (l' & E). rewrite Eb, E. eauto.
Qed.
Theorem C72_raises : forall t, (exists p, tree_to_powl t = Some p) <-> everywhere powl_able t.
Proof.
  induction t as [l|o cs IH] using tree_ind2.
  - split; [intros _; constructor; exact I|cbn; eauto].
  - assert (HC : (exists ps, map_opt_list tree_to_powl cs = Some ps) <-> Forall (everywhere powl_able) cs).
    { rewrite map_opt_total. rewrite !Forall_forall in *. split; intros H c Hc; apply IH; auto. }
    split.
    + intros (p & E). cbn [tree_to_powl] in E. destruct (map_opt_list tree_to_powl cs) as [ps|] eqn:Em; [|discriminate].
      assert (Hl : length cs = length ps) by (apply (flen _ _ _ (map_opt_forall2 _ _ _ Em))).
      constructor; [|apply HC; eauto]. destruct o; cbn; auto; try discriminate.
      * destruct (Nat.ltb_spec (length ps) 2); [discriminate|lia].
      * rewrite Hl. destruct ps as [|? [|? [|? ?]]]; try discriminate. reflexivity.
    + intros H. inversion H as [|? ? Hp Hc]; subst. apply HC in Hc as (ps & Em). assert (Hl : length cs = length ps) by (apply (flen _ _ _ (map_opt_forall2 _ _ _ Em))).
      cbn [tree_to_powl]. rewrite Em. destruct o; eauto.
      * cbn in Hp. destruct (Nat.ltb_spec (length ps) 2); [lia|eauto].
      * cbn in Hp. destruct ps as [|? [|? [|? ?]]]; cbn in Hl; try lia. eauto.
      * destruct Hp.
Qed.
Print Assumptions C72_raises.

Definition ex_pt : tree nat := Node Sequence [Leaf (Some 1); Node Parallel [Leaf (Some 2); Node Xor [Leaf (Some 3); Leaf None]]; Node Loop [Leaf (Some 4); Leaf (Some 5)]].
Example ex_pt_ok : wf_tree ex_pt /\ everywhere no_int ex_pt /\ everywhere powl_able ex_pt /\
  tree_to_powl ex_pt = Some (PPo [PLeaf (Some 1); PPo [PLeaf (Some 2); PXor [PLeaf (Some 3); PLeaf None]] no_edges; PLoop (PLeaf (Some 4)) (PLeaf (Some 5))] consecutive).
Proof. split; [|split; [|split; [|reflexivity]]]; repeat (first [apply ev_node | apply ev_leaf | constructor]); cbn; try discriminate; auto. Qed.

(** Finding: an interleaving operator becomes concurrency (to_powl.py:42-43), which allows more traces. *)
Definition ex_inter : tree nat := Node Interleaving [Node Sequence [Leaf (Some 1); Leaf (Some 2)]; Leaf (Some 3)].
Theorem C72_interleaving_refuted : exists p w, wf_tree ex_inter /\ tree_to_powl ex_inter = Some p /\ plang p w /\ ~ lang ex_inter w.
Proof.
  exists (PPo [PPo [PLeaf (Some 1); PLeaf (Some 2)] consecutive; PLeaf (Some 3)] no_edges), [1; 3; 2]. split; [|split; [reflexivity|split]].
  - repeat (first [apply ev_node | apply ev_leaf | constructor]); cbn; try discriminate; auto.
  - apply plang_par. exists [[1; 2]; [3]]. split; [|apply (sh_cons [] 1 [2] [[3]]), (sh_cons [[2]] 3 [] []), (sh_cons [] 2 [] [[]]); constructor; intros w [<-|[<-|[]]]; auto].
    constructor; [|constructor; [constructor|constructor]]. apply plang_seq. exists [[1]; [2]]. split; [repeat constructor|reflexivity].
  - intros H. apply lang_int in H as (cs' & ws & HP & HF & E).
    assert (Hcs : cs' = [Node Sequence [Leaf (Some 1); Leaf (Some 2)]; Leaf (Some 3)] \/ cs' = [Leaf (Some 3); Node Sequence [Leaf (Some 1); Leaf (Some 2)]]) by (apply Permutation_length_2_inv in HP as [->| ->]; auto).
    assert (HS : forall u, lang (Node Sequence [Leaf (Some 1); Leaf (Some 2)]) u -> u = [1; 2]).
    { intros u Hu. apply lang_seq in Hu as (us & Hus & ->). inversion Hus as [|? a ? us1 Ha Hus1]; subst. inversion Hus1 as [|? b ? us2 Hb Hus2]; subst. inversion Hus2; subst. apply lang_act in Ha, Hb. subst. reflexivity. }
    destruct Hcs as [-> | ->]; inversion HF as [|? a ? us1 Ha Hus1]; subst; inversion Hus1 as [|? b ? us2 Hb Hus2]; subst; inversion Hus2; subst.
    + apply HS in Ha. apply lang_act in Hb. subst. discriminate.
    + apply HS in Hb. apply lang_act in Ha. subst. discriminate.
Qed.
Print Assumptions C72_interleaving_refuted.
(** Finding: a sequence of three becomes an order that is not transitive (to_powl.py:45-47 adds only the consecutive edges), so that
    POWL.validate_partial_orders (obj.py:38-43) rejects the model. *)
Theorem C72_transitive_refuted : exists t cs e, wf_tree t /\ tree_to_powl t = Some (PPo cs e) /\ is_transitive (length cs) e = false.
Proof.
  exists (Node Sequence [Leaf (Some 1); Leaf (Some 2); Leaf (Some 3)]), [PLeaf (Some 1); PLeaf (Some 2); PLeaf (Some 3)], consecutive.
  split; [|split; reflexivity]. repeat (first [apply ev_node | apply ev_leaf | constructor]); cbn; try discriminate; auto.
Qed.
Print Assumptions C72_transitive_refuted.
(** Finding: a partial order without children (which the constructor accepts) becomes a split without outputs and a join without
    inputs; the net then puts tokens on its final place at any time. *)
Definition void_net : petri_net (option nat) := Net [1; 2] [mk_trans 1 None [1] []; mk_trans 4 None [] [2]].
Lemma void_converted : powl_converted (PPo [] no_edges) void_net.
Proof.
  split; [reflexivity|]. exists void_net, [1; 2]. split; [|split; [apply Permutation_refl|reflexivity]].
  exists void_net. split; [|split; [|split; [constructor|]]].
  - eapply star_step; [|eapply star_step; [|apply star_refl]].
    + exists (mk_trans 3 None [3] []), (mk_trans 1 None [1] [3]), 3, 1%Z. do 7 (split; [cbn; auto|]). reflexivity.
    + exists (mk_trans 2 None [4] [2]), (mk_trans 4 None [] [4]), 4, 1%Z. do 7 (split; [cbn; auto|]). reflexivity.
  - intros x (t & u & p & w & Ht & _ & Hl & Hi & _ & Hin & Hout & _).
    repeat (destruct Ht as [<-|Ht]; [cbn in Hl, Hi; try discriminate; inversion Hi; subst; vm_compute in Hin, Hout; discriminate|]). destruct Ht.
  - intros x (t & u & p & w & Ht & _ & Hl & Hi & _ & Hin & Hout & _).
    repeat (destruct Ht as [<-|Ht]; [cbn in Hl, Hi; try discriminate; inversion Hi; subst; vm_compute in Hin, Hout; discriminate|]). destruct Ht.
Qed.
Theorem C71_empty_order_refuted : exists pn, powl_converted (PPo [] no_edges) pn /\ ~ proper_completion pn net_im net_fm 2.
Proof.
  exists void_net. split; [apply void_converted|]. intros H.
  set (m := <[2 := 1%Z]> ({[1 := 1%Z]} : marking)).
  assert (Hm : reachable void_net net_im m).
  { exists [mk_trans 4 None [] [2]]. econstructor; [|constructor]. split; [cbn; auto|]. split; [|split].
    - intros p. cbn. unfold net_im. rewrite tokens_singleton. destruct (Nat.eqb 1 p); lia.
    - apply proper_insert; [apply proper_singleton; lia|lia].
    - intros p. unfold m, net_im. destruct (Nat.eq_dec p 1) as [->|H1]; [reflexivity|]. destruct (Nat.eq_dec p 2) as [->|H2]; [reflexivity|].
      unfold tokens. rewrite lookup_insert_ne by auto. cbn [t_in t_out mk_trans arcs map weight]. destruct (Nat.eqb_spec 2 p); [congruence|]. match goal with |- ?a = (?b - _ + _)%Z => change a with b end. lia. }
  specialize (H m Hm ltac:(vm_compute; discriminate)). assert (E : tokens m 1 = tokens net_fm 1) by (rewrite H; reflexivity). vm_compute in E. discriminate.
Qed.
Print Assumptions C71_empty_order_refuted.
