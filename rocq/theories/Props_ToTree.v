(** C100: converting a workflow net into a process tree. *)
From stdpp Require Import gmap.
From Coq Require Import String Ascii List Arith ZArith Lia Permutation Bool.
Import ListNotations.
From Verif Require Import Proofs_Petri3 Props_Wfnet Props_Tree.
From Verif Require Import Model_Petri Spec_Petri Proofs_Petri Model_Wfnet Spec_Wfnet Spec_TreeNet Model_Graph Model_Tree Spec_Tree Model_ToTree
  Proofs_ToTree1 Proofs_ToTree5 Proofs_ToTree6 Proofs_ToTree8 Proofs_ToTree9 Proofs_ToTree10 Proofs_ToTree11.
Local Open Scope nat_scope.
Local Arguments Net {L}.

(** A workflow net with source [i] and sink [o], built from places and transitions of its own, without parallel arcs and with weights 1,
    in which every transition can fire in some reachable state. *)
Definition good_net (net : petri_net (option nat)) (i o : nat) : Prop :=
  well_built net /\ simple_net net /\ unit_weights net /\ only_source net i /\ only_sink net o /\
  (forall x, is_node net x -> leads net (PNode i) x /\ leads net x (PNode o)) /\ no_dead_transitions net {[i := 1%Z]}.
(** A set is iterated in some order. *)
Definition some_order {A} (ord : list A -> list A) : Prop := forall l, Permutation (ord l) l.

Section Main.
  Variables (ord : list tr -> list tr) (ordp : list nat -> list nat).
  Hypothesis Hord : some_order ord.
  Hypothesis Hordp : some_order ordp.
  Variables (text_of : nat -> list ascii) (hash : nat -> Z) (fold : bool) (name : node -> nat) (short : nat).
  Notation convert := (to_process_tree ord ordp text_of hash fold name short).
  Lemma converted net T : convert net = Some T -> exists Ps t, group ord ordp (fuel_for net) (n_places net) (of_net net) = Some (TNet Ps [t]) /\
    (wf_tree (lab t) -> same_lang (lab t) T).
  Proof.
    unfold to_process_tree, group_blocks. destruct (is_workflow_net name short net); [|discriminate].
    destruct (group ord ordp (fuel_for net) (n_places net) (of_net net)) as [[Ps [|t [|? ?]]]|]; try discriminate.
    intros H. exists Ps, t. split; auto. intros HW. destruct (lab t) as [|op cs] eqn:EL; [discriminate|]. rewrite <- EL in *.
    destruct fold.
    - destruct (C18_fold_language nat Nat.eqb text_of Nat.eqb_eq (lab t) HW) as (r & E & S). rewrite E in H. injection H as <-.
      intros w. rewrite (S w). apply C18_tree_sort_language.
    - injection H as <-. apply C18_tree_sort_language.
  Qed.
  Lemma key net i o T : good_net net i o -> convert net = Some T ->
    Spec_TreeNet.safe net {[i := 1%Z]} /\ exists q, forall w, accepts net {[i := 1%Z]} {[o := 1%Z]} w <-> q /\ lang T w.
  Proof.
    intros (WB & SN & UW & HI & HO & HL & ND) H. apply converted in H as (Ps & t & G & SL).
    pose proof (ni_start net WB SN UW i o HI HO HL ND) as N0.
    destruct (group_same ord ordp Hord Hordp i o _ _ _ _ N0 G) as [NF F].
    pose proof (single_safe i o _ t NF eq_refl) as SF. destruct (F SF) as [S0 E0]. split; [apply (safe_spec net UW i S0)|].
    specialize (SL (ni_lab _ _ _ NF t (or_introl eq_refl))). exists (post t = [o]). intros w.
    change ({[i := 1%Z]} : marking) with (im_of i). change ({[o := 1%Z]} : marking) with (im_of o).
    rewrite (accepts_lacc net UW), E0, (single_lang i o _ t w NF eq_refl), (SL w). tauto.
  Qed.
End Main.

(** Whatever the order in which sets are iterated: if the conversion returns a tree, the tree has exactly the traces of the net, provided the net has a trace at all. *)
Theorem C100_language : forall ord ordp text_of hash fold name short net i o T, some_order ord -> some_order ordp -> good_net net i o ->
  to_process_tree ord ordp text_of hash fold name short net = Some T -> (exists w, accepts net {[i := 1%Z]} {[o := 1%Z]} w) ->
  forall w, accepts net {[i := 1%Z]} {[o := 1%Z]} w <-> lang T w.
Proof.
  intros until T. intros HO HP HG HT [w0 H0] w. destruct (key ord ordp HO HP _ _ _ _ _ net i o T HG HT) as [_ [q E]]. apply E in H0 as [Q _]. rewrite E. tauto.
Qed.
Print Assumptions C100_language.
(** In particular for every sound net. *)
Theorem C100_sound_language : forall ord ordp text_of hash fold name short net i o T, some_order ord -> some_order ordp -> good_net net i o ->
  option_to_complete net {[i := 1%Z]} {[o := 1%Z]} ->
  to_process_tree ord ordp text_of hash fold name short net = Some T -> forall w, accepts net {[i := 1%Z]} {[o := 1%Z]} w <-> lang T w.
Proof.
  intros until T. intros HO HP HG OC HT. eapply C100_language; eauto. destruct (OC {[i := 1%Z]}) as [ts R]; [exists []; constructor|]. exists (visible ts), ts. auto.
Qed.
Print Assumptions C100_sound_language.
(** Two conversions of one net agree up to the traces. *)
Theorem C100_order_independent : forall ord ordp ord' ordp' text_of hash fold fold' name short net i o T T',
  some_order ord -> some_order ordp -> some_order ord' -> some_order ordp' -> good_net net i o -> (exists w, accepts net {[i := 1%Z]} {[o := 1%Z]} w) ->
  to_process_tree ord ordp text_of hash fold name short net = Some T -> to_process_tree ord' ordp' text_of hash fold' name short net = Some T' -> same_lang T T'.
Proof.
  intros until T'. intros H1 H2 H3 H4 HG HE HT HT' w. rewrite <- (C100_language _ _ _ _ _ _ _ _ _ _ _ H1 H2 HG HT HE w). apply (C100_language _ _ _ _ _ _ _ _ _ _ _ H3 H4 HG HT' HE w).
Qed.
Print Assumptions C100_order_independent.
(** A net for which the conversion returns a tree is safe: no reachable state has two tokens in a place. *)
Theorem C100_safe : forall ord ordp text_of hash fold name short net i o T, some_order ord -> some_order ordp -> good_net net i o ->
  to_process_tree ord ordp text_of hash fold name short net = Some T -> Spec_TreeNet.safe net {[i := 1%Z]}.
Proof. intros until T. intros HO HP HG HT. apply (key ord ordp HO HP _ _ _ _ _ net i o T HG HT). Qed.
Print Assumptions C100_safe.
(** The grouping loop ends for every net, whatever the order of iteration: it never needs more rounds than the net has places and transitions. *)
Theorem C100_terminates : forall ord ordp net, some_order ord -> some_order ordp -> List.NoDup (n_places net) -> List.NoDup (List.map t_id (n_trans net)) ->
  exists F, group ord ordp (S (length (n_trans net) + length (n_places net))) (n_places net) (of_net net) = Some F.
Proof.
  intros ord ordp net HO HP ND NI. apply (group_ends ord ordp HO HP).
  - split; [|exact ND]. cbn [ts of_net]. rewrite map_map. exact NI.
  - apply (mu_start net).
Qed.
Print Assumptions C100_terminates.

(** ** Examples and findings *)
Definition tn (k : nat) (l : option nat) (a b : list nat) : transition (option nat) := Trans k l (List.map (fun p => (p, 1%Z)) a) (List.map (fun p => (p, 1%Z)) b).
Definition ex_net : petri_net (option nat) := Net [1; 2; 3; 4; 5; 6; 7; 8; 9]
  [tn 1 None [1] [2]; tn 2 (Some 0) [2] [3]; tn 3 (Some 1) [2] [3]; tn 4 (Some 2) [3] [2]; tn 5 (Some 3) [3] [4]; tn 6 None [4] [5; 6]; tn 7 (Some 4) [5] [7]; tn 8 (Some 5) [6] [8]; tn 9 None [7; 8] [9]].
Definition ex_tree_of (o1 : list tr -> list tr) (o2 : list nat -> list nat) := to_process_tree o1 o2 ex_lab Z.of_nat true number 100.
(** Choice, sequence, concurrency, loop and the insertion of invisible transitions are all needed for this net. *)
Example C100_example_runs : ex_tree_of id id ex_net =
    Some (Node Sequence [Node Loop [Node Xor [Leaf (Some 0); Leaf (Some 1)]; Leaf (Some 2)]; Leaf (Some 3); Node Parallel [Leaf (Some 4); Leaf (Some 5)]]) /\
  ex_tree_of (@rev _) (@rev _) ex_net = ex_tree_of id id ex_net.
Proof. split; vm_compute; reflexivity. Qed.
Fixpoint play (net : petri_net (option nat)) (m : marking) (l : list (transition (option nat))) : option marking :=
  match l with [] => Some m | t :: r => match execute t net m with Some m' => play net m' r | None => None end end.
Lemma play_run net : simple_net net -> distinct_ids net -> forall l m m', proper m -> (forall t, In t l -> In t (n_trans net)) -> play net m l = Some m' -> run net m l m'.
Proof.
  intros HS HD. induction l as [|t l IH]; intros m m' Hp Hl H; cbn in H; [injection H as <-; constructor|].
  destruct (execute t net m) as [m1|] eqn:E; [|discriminate]. assert (Ht : In t (n_trans net)) by (apply Hl; left; auto).
  apply execute_some in E; auto; [|apply distinct_identified; auto]. econstructor; [exact E|]. apply IH; auto; [apply E|intros; apply Hl; right; auto].
Qed.
Lemma ex_basic : well_built ex_net /\ simple_net ex_net /\ unit_weights ex_net.
Proof.
  split; [|split].
  - split; [repeat constructor; cbn; intuition discriminate|]. split; [repeat constructor; cbn; intuition discriminate|].
    intros t p w Ht Hin. cbn in Ht. repeat (destruct Ht as [<- |Ht]; [cbn in Hin; intuition (try congruence); repeat match goal with E : (_, _) = _ |- _ => injection E as <- <- end; cbn; tauto|]). contradiction.
  - intros t Ht. cbn in Ht. repeat (destruct Ht as [<- |Ht]; [split; (split; [repeat constructor; cbn; intuition discriminate|intros p w Hin; cbn in Hin; intuition (try congruence); repeat match goal with E : (_, _) = _ |- _ => injection E as <- <- end; lia])|]). contradiction.
  - intros t Ht p w Hin. cbn in Ht. repeat (destruct Ht as [<- |Ht]; [cbn in Hin; intuition congruence|]). contradiction.
Qed.
Lemma is_i (net : petri_net (option nat)) i : workflow_net net -> no_in net i = true -> In i (n_places net) -> exists o, only_source net i /\ only_sink net o /\ forall x, is_node net x -> leads net (PNode i) x /\ leads net x (PNode o).
Proof.
  intros (i' & o & A & B & C) H Hi. assert (i = i') by (apply (proj2 A); auto; apply no_in_iff; auto). subst. eauto.
Qed.
Lemma is_o (net : petri_net (option nat)) o o' : only_sink net o' -> no_out net o = true -> In o (n_places net) -> o = o'.
Proof. intros A H Ho. apply (proj2 A); auto. apply no_out_iff; auto. Qed.
Example C100_example_hyps : good_net ex_net 1 9.
Proof.
  destruct ex_basic as (WB & SN & UW). assert (WF : workflow_net ex_net).
  { apply (C87_short_circuit _ ex_net number 100 WB); [intros x y _ _; apply number_inj| |vm_compute; reflexivity].
    intros x Hx. apply nodes_iff in Hx. cbn in Hx. repeat (destruct Hx as [<- |Hx]; [vm_compute; discriminate|]); contradiction. }
  destruct (is_i _ 1 WF eq_refl ltac:(cbn; tauto)) as (o & A & B & C). pose proof (is_o _ 9 o B eq_refl ltac:(cbn; tauto)) as <-.
  split; [|split; [|split; [|split; [|split; [|split]]]]]; auto.
  assert (DI : distinct_ids ex_net) by (apply WB).
  assert (P1 : proper {[1 := 1%Z]}) by (apply proper_singleton; lia).
  pose (tt := n_trans ex_net).
  assert (D : forall n l, (forall t, In t l -> In t (n_trans ex_net)) -> (exists t m m', nth_error tt n = Some t /\ play ex_net {[1 := 1%Z]} l = Some m /\ execute t ex_net m = Some m') ->
    forall t, nth_error tt n = Some t -> exists m m', reachable ex_net {[1 := 1%Z]} m /\ fires ex_net t m m').
  { intros n l Hl (t & m & m' & E1 & E2 & E3) t2 E4. rewrite E1 in E4. injection E4 as <-. assert (Ht : In t (n_trans ex_net)) by (eapply nth_error_In; eauto).
    apply play_run in E2; auto. exists m, m'. split; [exists l; auto|]. apply execute_some; auto; [apply distinct_identified; auto|]. eapply run_proper; eauto. }
  intros t Ht. apply In_nth_error in Ht as [n Hn]. fold tt in Hn.
  pose (seqn := List.map (fun k => nth k tt (tn 0 None [] []))).
  assert (In_seq : forall l, forallb (fun k => k <? 9) l = true -> forall t, In t (seqn l) -> In t (n_trans ex_net)).
  { intros l Hl u Hu. apply in_map_iff in Hu as (k & <- & Hk). rewrite forallb_forall in Hl. specialize (Hl k Hk). apply Nat.ltb_lt in Hl. apply nth_In. exact Hl. }
  assert (Go : forall l, forallb (fun k => k <? 9) l = true -> (exists t m m', nth_error tt n = Some t /\ play ex_net {[1 := 1%Z]} (seqn l) = Some m /\ execute t ex_net m = Some m') -> exists m m', reachable ex_net {[1 := 1%Z]} m /\ fires ex_net t m m').
  { intros l Hl HE. apply (D n (seqn l)); auto. exact (In_seq l Hl). }
  assert (Hlt : n < 9). { change 9 with (length tt). apply nth_error_Some. rewrite Hn. discriminate. }
  do 9 (destruct n as [|n]; [match goal with |- _ => idtac end; first
     [apply (Go []); [reflexivity|eexists _, _, _; split; [reflexivity|split; vm_compute; reflexivity]]
     |apply (Go [0]); [reflexivity|eexists _, _, _; split; [reflexivity|split; vm_compute; reflexivity]]
     |apply (Go [0; 1]); [reflexivity|eexists _, _, _; split; [reflexivity|split; vm_compute; reflexivity]]
     |apply (Go [0; 1; 4]); [reflexivity|eexists _, _, _; split; [reflexivity|split; vm_compute; reflexivity]]
     |apply (Go [0; 1; 4; 5]); [reflexivity|eexists _, _, _; split; [reflexivity|split; vm_compute; reflexivity]]
     |apply (Go [0; 1; 4; 5; 6; 7]); [reflexivity|eexists _, _, _; split; [reflexivity|split; vm_compute; reflexivity]]]|]). lia.
Qed.
(** The theorem applied to the example. *)
Example C100_example : forall T, ex_tree_of id id ex_net = Some T -> accepts ex_net {[1 := 1%Z]} {[9 := 1%Z]} [0; 2; 1; 3; 5; 4] /\
  forall w, accepts ex_net {[1 := 1%Z]} {[9 := 1%Z]} w <-> lang T w.
Proof.
  intros T HT. destruct ex_basic as (WB & SN & UW).
  assert (A : accepts ex_net {[1 := 1%Z]} {[9 := 1%Z]} [0; 2; 1; 3; 5; 4]).
  { pose (tt := n_trans ex_net). exists (List.map (fun k => nth k tt (tn 0 None [] [])) [0; 1; 3; 2; 4; 5; 7; 6; 8]). split; [|reflexivity].
    apply play_run; auto; [apply WB|apply proper_singleton; lia| |eapply bool_decide_unpack; vm_compute; exact I].
    intros t Ht. apply in_map_iff in Ht as (k & <- & Hk). apply nth_In. cbn in Hk. repeat (destruct Hk as [<- |Hk]; [vm_compute; lia|]). contradiction. }
  split; auto. unfold ex_tree_of in HT. eapply C100_language; [| |exact C100_example_hyps|exact HT|eauto]; intros l; apply Permutation_refl.
Qed.
(** FINDING: a workflow net with a transition that can never fire may be converted into a tree with traces the net does not have:
    here both activities need a token of place 2, which is never marked, and the answer is the choice of the two. *)
Definition ex_dead : petri_net (option nat) := Net [1; 2; 3] [tn 1 (Some 0) [1; 2] [2; 3]; tn 2 (Some 1) [1; 2] [2; 3]].
Lemma stuck net m m' w : (forall t, In t (n_trans net) -> ~ enabled_at t m) -> m <> m' -> ~ accepts net m m' w.
Proof. intros H D (ts & R & _). inversion R as [|? ? ? ? ? F]; subst; auto. apply (H t); apply F. Qed.
Theorem C100_dead_refuted : exists net i o T, workflow_net net /\ only_source net i /\ only_sink net o /\ unit_weights net /\ ex_tree_of id id net = Some T /\
  lang T [0] /\ forall w, ~ accepts net {[i := 1%Z]} {[o := 1%Z]} w.
Proof.
  assert (WB : well_built ex_dead).
  { split; [repeat constructor; cbn; intuition discriminate|]. split; [repeat constructor; cbn; intuition discriminate|].
    intros t p w Ht Hin. cbn in Ht. repeat (destruct Ht as [<- |Ht]; [cbn in Hin; intuition (try congruence); repeat match goal with E : (_, _) = _ |- _ => injection E as <- <- end; cbn; tauto|]). contradiction. }
  assert (WF : workflow_net ex_dead).
  { apply (C87_short_circuit _ ex_dead number 100 WB); [intros x y _ _; apply number_inj| |vm_compute; reflexivity].
    intros x Hx. apply nodes_iff in Hx. cbn in Hx. repeat (destruct Hx as [<- |Hx]; [vm_compute; discriminate|]); contradiction. }
  destruct (is_i _ 1 WF eq_refl ltac:(cbn; tauto)) as (o & A & B & C). pose proof (is_o _ 3 o B eq_refl ltac:(cbn; tauto)) as <-.
  exists ex_dead, 1, 3, (Node Xor [Leaf (Some 0); Leaf (Some 1)]). split; [auto|split; [auto|split; [auto|split]]].
  - intros t Ht p w Hin. cbn in Ht. repeat (destruct Ht as [<- |Ht]; [cbn in Hin; intuition congruence|]). contradiction.
  - split; [vm_compute; reflexivity|]. split; [econstructor; [left; reflexivity|constructor]|].
    intros w. apply stuck.
    + intros t Ht E. specialize (E 2). rewrite tokens_singleton in E. cbn in Ht. destruct Ht as [<- |[<- |[]]]; vm_compute in E; congruence.
    + intros E. apply (f_equal (fun m => tokens m 1)) in E. rewrite !tokens_singleton in E. discriminate.
Qed.
Print Assumptions C100_dead_refuted.
(** FINDING: arc weights are ignored: the second activity needs two tokens, only one is ever there. *)
Definition ex_weights : petri_net (option nat) := Net [1; 2; 3] [Trans 1 (Some 0) [(1, 1%Z)] [(2, 1%Z)]; Trans 2 (Some 1) [(2, 2%Z)] [(3, 1%Z)]].
Theorem C100_weights_refuted : exists net i o T, simple_net net /\ ex_tree_of id id net = Some T /\ lang T [0; 1] /\ ~ accepts net {[i := 1%Z]} {[o := 1%Z]} [0; 1].
Proof.
  exists ex_weights, 1, 3, (Node Sequence [Leaf (Some 0); Leaf (Some 1)]). split; [|split; [vm_compute; reflexivity|split]].
  - intros t Ht. cbn in Ht. repeat (destruct Ht as [<- |Ht]; [split; (split; [repeat constructor; cbn; intuition discriminate|intros p w Hin; cbn in Hin; intuition (try congruence); repeat match goal with E : (_, _) = _ |- _ => injection E as <- <- end; lia])|]). contradiction.
  - change [0; 1] with (concat [[0]; [1]]). constructor. repeat constructor.
  - intros (ts & R & V). inversion R as [|? t m1 ts' ? F R']; subst; try discriminate. destruct F as (Ht & E & _ & Hm).
    cbn in Ht; destruct Ht as [<- |[<- |[]]]; [|specialize (E 2); rewrite tokens_singleton in E; vm_compute in E; congruence].
    inversion R' as [|? t2 m2 ts2 ? F2 R2]; subst; try discriminate. destruct F2 as (Ht & E2 & _ & _).
    cbn in Ht; destruct Ht as [<- |[<- |[]]].
    + specialize (E2 1). rewrite Hm, tokens_singleton in E2. vm_compute in E2. congruence.
    + specialize (E2 2). rewrite Hm, tokens_singleton in E2. vm_compute in E2. congruence.
Qed.
Print Assumptions C100_weights_refuted.
(** FINDING: a net whose only transition is already the whole process is rejected: nothing is grouped, and the bare activity name is not a tree expression. *)
Definition ex_one : petri_net (option nat) := Net [1; 2] [tn 1 (Some 0) [1] [2]].
Theorem C100_single_refuted : exists net, is_workflow_net number 100 net = true /\ (exists w, accepts net {[1 := 1%Z]} {[2 := 1%Z]} w) /\
  forall ord ordp text_of hash fold name short, some_order ord -> to_process_tree ord ordp text_of hash fold name short net = None.
Proof.
  exists ex_one. split; [vm_compute; reflexivity|]. split.
  - exists [0], [tn 1 (Some 0) [1] [2]]. split; [|reflexivity]. econstructor; [|constructor].
    split; [left; reflexivity|]. split; [|split; [apply proper_singleton; lia|]]; intros p; rewrite !tokens_singleton; cbn [t_in t_out tn weight List.map]; destruct (Nat.eqb_spec 1 p), (Nat.eqb_spec 2 p); lia.
  - intros ord ordp text_of hash fold name short HO. unfold to_process_tree, group_blocks. destruct (is_workflow_net name short ex_one); auto.
Qed.
Print Assumptions C100_single_refuted.
