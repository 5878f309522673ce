(** C87: recognising workflow nets. *)
From Coq Require Import List Arith ZArith Bool Lia.
Import ListNotations.
From Verif Require Import Model_Petri Model_Graph Model_Wfnet Spec_Wfnet Spec_Graph Proofs_Graph.
From Verif Require Proofs_Dfg.
Local Open Scope nat_scope.
Local Arguments smem : simpl never.
Arguments Net {L}.

Section Proofs.
  Context {L : Type}.
  Implicit Types net : petri_net L.
  Lemma arcs_iff net x y : In (x, y) (arcs net) <-> arc_to net x y.
  Proof.
    unfold arcs, arc_to. rewrite in_flat_map. split.
    - intros (t & Ht & Hin). apply in_app_iff in Hin as [Hin|Hin]; apply in_map_iff in Hin as ([p w] & E & Hin); cbn in E; injection E as <- <-; exists t, w; (split; [auto|]); [left|right]; exists p; auto.
    - intros (t & w & Ht & [(p & -> & -> & Hin)|(p & -> & -> & Hin)]); exists t; (split; [auto|]); apply in_app_iff; [left|right]; apply in_map_iff; exists (p, w); auto.
  Qed.
  Lemma nodes_iff net x : In x (nodes net) <-> is_node net x.
  Proof.
    unfold nodes, is_node. rewrite in_app_iff, !in_map_iff. split; (intros [(a & A & B)|(a & A & B)]; [left|right]; exists a; auto).
  Qed.
  Lemma no_in_iff net p : no_in net p = true <-> forall x, ~ arc_to net x (PNode p).
  Proof.
    unfold no_in. rewrite forallb_forall. split.
    - intros Hf x (t & w & Ht & [(q & _ & E & _)|(q & _ & E & Hin)]); [discriminate|]. injection E as <-. specialize (Hf t Ht). apply negb_true_iff, smem_false in Hf. apply Hf, in_map_iff. exists (p, w). auto.
    - intros Hx t Ht. apply negb_true_iff, smem_false. intros Hin. apply in_map_iff in Hin as ([q w] & E & Hin). cbn in E. subst q. apply (Hx (TNode (t_id t))). exists t, w. split; auto. right. exists p. auto.
  Qed.
  Lemma no_out_iff net p : no_out net p = true <-> forall x, ~ arc_to net (PNode p) x.
  Proof.
    unfold no_out. rewrite forallb_forall. split.
    - intros Hf x (t & w & Ht & [(q & E & _ & Hin)|(q & E & _ & _)]); [|discriminate]. injection E as <-. specialize (Hf t Ht). apply negb_true_iff, smem_false in Hf. apply Hf, in_map_iff. exists (p, w). auto.
    - intros Hx t Ht. apply negb_true_iff, smem_false. intros Hin. apply in_map_iff in Hin as ([q w] & E & Hin). cbn in E. subst q. apply (Hx (TNode (t_id t))). exists t, w. split; auto. left. exists p. auto.
  Qed.
  Lemma the_only_iff (f : nat -> bool) l i : NoDup l -> (the_only (filter f l) = Some i <-> In i l /\ forall p, In p l -> (f p = true <-> p = i)).
  Proof.
    intros Hn. split.
    - intros E. assert (F : filter f l = [i]). { unfold the_only in E. destruct (filter f l) as [|a [|b r]]; try discriminate. congruence. }
      assert (Hi : In i (filter f l)) by (rewrite F; cbn; auto). apply filter_In in Hi as [Hi Hf]. split; auto. intros p Hp. split; [|intros ->; auto].
      intros Hfp. assert (X : In p (filter f l)) by (apply filter_In; auto). rewrite F in X. destruct X as [X|[]]; auto.
    - intros [Hi Hu]. assert (F : filter f l = [i]).
      { clear -Hi Hu Hn. induction l as [|a l IH]; [contradiction|]. inversion Hn; subst. cbn. destruct (f a) eqn:Fa.
        - apply Hu in Fa; [|cbn; auto]. subst a. f_equal. assert (G : forall x, In x l -> f x = false). { intros x Hx. destruct (f x) eqn:Fx; auto. apply Hu in Fx; [|cbn; auto]. subst x. contradiction. }
          clear -G. induction l as [|x l IH]; auto. cbn. rewrite (G x) by (cbn; auto). apply IH. intros y Hy. apply G. cbn; auto.
        - destruct Hi as [->|Hi]; [assert (f i = true) by (apply Hu; cbn; auto); congruence|]. apply IH; auto. intros p Hp. apply Hu. cbn; auto. }
      rewrite F. auto.
  Qed.
  Lemma source_iff net i : NoDup (n_places net) -> (source_place net = Some i <-> only_source net i).
  Proof. intros Hn. unfold source_place. rewrite the_only_iff by auto. unfold only_source. split; intros [A B]; (split; [auto|]); intros p Hp; rewrite <- (B p Hp), no_in_iff; tauto. Qed.
  Lemma sink_iff net o : NoDup (n_places net) -> (sink_place net = Some o <-> only_sink net o).
  Proof. intros Hn. unfold sink_place. rewrite the_only_iff by auto. unfold only_sink. split; intros [A B]; (split; [auto|]); intros p Hp; rewrite <- (B p Hp), no_out_iff; tauto. Qed.

  Variable name : node -> nat.
  Definition named_arcs net : list edge := map (fun a => (name (fst a), name (snd a))) (arcs net).
  Lemma leads_path net x y : leads net x y -> path (named_arcs net) (name x) (name y).
  Proof. induction 1; [constructor|]. econstructor; [|eauto]. apply arcs_iff in H. apply in_map_iff. exists (x, y). auto. Qed.
  Lemma arc_nodes net x y : well_built net -> arc_to net x y -> is_node net x /\ is_node net y.
  Proof.
    intros (_ & _ & Hc) (t & w & Ht & [(p & -> & -> & Hin)|(p & -> & -> & Hin)]).
    - split; [left; exists p; split; auto; eapply Hc; eauto|right; exists t; auto].
    - split; [right; exists t; auto|left; exists p; split; auto; eapply Hc; eauto].
  Qed.
  Lemma path_leads net a b : (forall x y, is_node net x -> is_node net y -> name x = name y -> x = y) -> well_built net ->
    path (named_arcs net) a b -> forall x y, is_node net x -> is_node net y -> a = name x -> b = name y -> leads net x y.
  Proof.
    intros Hi Hw Hp. induction Hp as [a|a c b He Hp IH]; intros x y Hx Hy Ea Eb.
    - rewrite (Hi x y); [constructor|auto|auto|congruence].
    - apply in_map_iff in He as ([u v] & E & Hin). cbn in E. injection E as E1 E2. apply arcs_iff in Hin. destruct (arc_nodes net u v Hw Hin) as [Hu Hv].
      assert (x = u) as -> by (apply Hi; auto; congruence). econstructor; [eauto|]. apply IH; auto.
  Qed.
  (** Removing the short circuit. *)
  Lemma short_path (E : list edge) s i o a x : (forall y, ~ In (s, y) E) -> path ((o, s) :: (s, i) :: E) a x -> x <> s -> path E a x \/ path E i x.
  Proof.
    intros Hs Hp Hx. induction Hp as [a|a b c He Hp IH]; [left; constructor|]. specialize (IH Hx). destruct IH as [IH|IH]; [|auto].
    destruct He as [[= <- <-]|[[= <- <-]|He]]; [|auto|left; econstructor; eauto].
    right. inversion IH; subst; [contradiction|]. exfalso. apply (Hs y). auto.
  Qed.
  Lemma strong_iff V E : strongly_connected V E = true <-> forall x y, In x V -> In y V -> path E x y.
  Proof.
    unfold strongly_connected. rewrite forallb_forall. split.
    - intros Hf x y Hx Hy. specialize (Hf x Hx). rewrite forallb_forall in Hf. specialize (Hf y Hy). apply orb_true_iff in Hf as [Hf|Hf]; [apply Nat.eqb_eq in Hf as ->; constructor|].
      apply smem_in, descendants_spec in Hf as [_ Hf]. auto.
    - intros Hp x Hx. apply forallb_forall. intros y Hy. apply orb_true_iff. destruct (Nat.eqb_spec x y); [left; auto|right]. apply smem_in, descendants_spec. split; auto.
  Qed.
  Lemma short_circuit_complete short net : NoDup (n_places net) -> workflow_net net -> is_workflow_net name short net = true.
  Proof.
    intros Hn (i & o & Hi & Ho & Hx). unfold is_workflow_net. rewrite (proj2 (source_iff net i Hn) Hi), (proj2 (sink_iff net o Hn) Ho). apply strong_iff.
    set (E := (name (PNode o), short) :: (short, name (PNode i)) :: _).
    assert (M : forall x y, leads net x y -> path E (name x) (name y)). { intros x y Hl. apply (path_mono (named_arcs net)); [|apply leads_path; auto]. intros e He. right. right. auto. }
    assert (A : forall a, In a (short :: map name (nodes net)) -> path E a short).
    { intros a [<-|Ha]; [constructor|]. apply in_map_iff in Ha as (x & <- & Hin). apply nodes_iff in Hin. apply (path_trans _ _ (name (PNode o))); [apply M, Hx; auto|]. apply path_edge. left. auto. }
    assert (B : forall a, In a (short :: map name (nodes net)) -> path E short a).
    { intros a [<-|Ha]; [constructor|]. apply in_map_iff in Ha as (x & <- & Hin). apply nodes_iff in Hin. econstructor; [right; left; reflexivity|]. apply M, Hx; auto. }
    intros x y Hx' Hy'. apply (path_trans _ _ short); auto.
  Qed.
  Lemma short_circuit_sound short net : well_built net -> (forall x y, is_node net x -> is_node net y -> name x = name y -> x = y) -> (forall x, is_node net x -> name x <> short) ->
    is_workflow_net name short net = true -> workflow_net net.
  Proof.
    intros Hw Hinj Hs. assert (Hn := proj1 Hw). unfold is_workflow_net. destruct (source_place net) as [i|] eqn:Si; [|discriminate]. destruct (sink_place net) as [o|] eqn:So; [|discriminate].
    rewrite strong_iff. intros Hp. apply source_iff in Si; auto. apply sink_iff in So; auto. exists i, o. split; auto. split; auto.
    assert (Ni : is_node net (PNode i)) by (left; exists i; split; auto; apply Si). assert (No : is_node net (PNode o)) by (left; exists o; split; auto; apply So).
    assert (In_ : forall x, is_node net x -> In (name x) (short :: map name (nodes net))) by (intros x Hx; right; apply in_map, nodes_iff; auto).
    assert (NS : forall y, ~ In (short, y) (named_arcs net) /\ ~ In (y, short) (named_arcs net)).
    { intros y. split; intros Hin; apply in_map_iff in Hin as ([u v] & E & Hin); cbn in E; injection E as E1 E2; apply arcs_iff, (arc_nodes net u v Hw) in Hin as [Hu Hv]; [apply (Hs u Hu)|apply (Hs v Hv)]; auto. }
    intros x Hx. split.
    - assert (P := Hp _ _ (In_ _ Ni) (In_ _ Hx)). apply short_path in P; [|intros y; apply NS|auto]. apply (path_leads net (name (PNode i)) (name x)); auto. tauto.
    - assert (P := Hp _ _ (In_ _ Hx) (In_ _ No)). apply path_flip in P. cbn [flip map fst snd] in P.
      assert (P' : path ((name (PNode i), short) :: (short, name (PNode o)) :: flip (named_arcs net)) (name (PNode o)) (name x)). { eapply path_mono; [|exact P]. intros e [He|[He|He]]; cbn; auto. }
      apply short_path in P'; [|intros y Hin; apply (proj2 (NS y)), flip_in; auto|auto].
      assert (P2 : path (flip (named_arcs net)) (name (PNode o)) (name x)) by tauto. apply (proj1 (path_flip_iff _ _ _)) in P2. apply (path_leads net (name x) (name (PNode o))); auto.
  Qed.
End Proofs.
(** The check with the short-circuited net answers True exactly for workflow nets, if places and transitions have different names
    and none is called short_circuited_transition. *)
Theorem C87_short_circuit : forall L (net : petri_net L) name short, well_built net ->
  (forall x y, is_node net x -> is_node net y -> name x = name y -> x = y) -> (forall x, is_node net x -> name x <> short) ->
  (is_workflow_net name short net = true <-> workflow_net net).
Proof. intros L net name short Hw Hi Hs. split; [apply short_circuit_sound; auto|apply short_circuit_complete; apply Hw]. Qed.
Print Assumptions C87_short_circuit.
(** A workflow net is recognised whatever the names are. *)
Theorem C87_complete : forall L (net : petri_net L) name short, NoDup (n_places net) -> workflow_net net -> is_workflow_net name short net = true.
Proof. intros. apply short_circuit_complete; auto. Qed.
Print Assumptions C87_complete.
(** check_wfnet ignores the direction of the arcs: it answers True exactly for connected nets with one source and one sink place. *)
Lemma number_inj x y : number x = number y -> x = y.
Proof. destruct x, y; cbn; intros; f_equal; lia. Qed.
Section Und.
  Context {L : Type}.
  Implicit Types net : petri_net L.
  Lemma und_iff net x y : In (number x, number y) (und_arcs net) <-> arc_to net x y \/ arc_to net y x.
  Proof.
    unfold und_arcs. rewrite in_app_iff, flip_in, !in_map_iff, <- !arcs_iff. split; intros [A|A].
    - destruct A as ([u v] & E & A). cbn [fst snd] in E. injection E as E1 E2. apply number_inj in E1, E2. subst. auto.
    - destruct A as ([u v] & E & A). cbn [fst snd] in E. injection E as E1 E2. apply number_inj in E1, E2. subst. auto.
    - left. exists (x, y). auto.
    - right. exists (y, x). auto.
  Qed.
  Lemma und_sym net x y : path (und_arcs net) x y -> path (und_arcs net) y x.
  Proof.
    intros Hp. apply path_flip in Hp. eapply path_mono; [|exact Hp]. intros [a b] He. apply (proj1 (flip_in _ _ _)) in He. unfold und_arcs in *. apply in_app_iff. apply in_app_iff in He as [He|He]; [right; apply flip_in; auto|left; apply (proj1 (flip_in _ _ _)) in He; auto].
  Qed.
  Lemma linked_path net x y : linked net x y -> path (und_arcs net) (number x) (number y).
  Proof. induction 1; [constructor|]. econstructor; [apply und_iff; eauto|auto]. Qed.
  Lemma path_linked net a b : well_built net -> path (und_arcs net) a b -> forall x, is_node net x -> a = number x -> exists y, is_node net y /\ b = number y /\ linked net x y.
  Proof.
    intros Hw Hp. induction Hp as [a|a c b He Hp IH]; intros x Hx Ea; [exists x; repeat split; auto; constructor|].
    assert (X : exists v, c = number v /\ is_node net v /\ (arc_to net x v \/ arc_to net v x)).
    { unfold und_arcs in He. apply in_app_iff in He as [He|He]; [|apply (proj1 (flip_in _ _ _)) in He]; apply in_map_iff in He as ([u v] & E & Hin); cbn [fst snd] in E; injection E as E1 E2; rewrite Ea in *; apply arcs_iff in Hin; destruct (arc_nodes net u v Hw Hin) as [Hu Hv].
      - apply number_inj in E1. subst u. exists v. auto.
      - apply number_inj in E2. subst v. exists u. auto. }
    destruct X as (v & -> & Hv & Ha). destruct (IH v Hv eq_refl) as (y & Hy & -> & Hl). exists y. repeat split; auto. econstructor; eauto.
  Qed.
  Lemma nodes_nodup net : well_built net -> NoDup (map number (nodes net)).
  Proof.
    intros (A & B & _). unfold nodes. rewrite map_app. assert (I : forall l : list node, NoDup l -> NoDup (map number l)).
    { induction l as [|x l IH]; intros Hn; [constructor|]. inversion Hn; subst. cbn. constructor; auto. intros Hin. apply in_map_iff in Hin as (y & E & Hy). apply number_inj in E. subst. contradiction. }
    assert (J : forall l : list nat, NoDup l -> NoDup (map PNode l) /\ NoDup (map TNode l)).
    { induction l as [|x l IH]; intros Hn; [split; constructor|]. inversion Hn; subst. destruct (IH H2). cbn. split; constructor; auto; intros Hin; apply in_map_iff in Hin as (y & E & Hy); congruence. }
    apply Proofs_Dfg.NoDup_app_intro.
    - apply I, J, A.
    - apply I. rewrite <- (map_map t_id TNode). apply J, B.
    - intros z Hz Hz'. apply in_map_iff in Hz as (u & <- & Hu). apply in_map_iff in Hz' as (v & E & Hv). apply number_inj in E. subst v. apply in_map_iff in Hu as (p & <- & _). apply in_map_iff in Hv as (t & E & _). discriminate.
  Qed.
  Lemma count_iff net x : well_built net -> is_node net x -> (length (descendants (und_arcs net) (number x)) = length (nodes net) - 1 <-> forall y, is_node net y -> linked net x y).
  Proof.
    intros Hw Hx. set (D := descendants (und_arcs net) (number x)). assert (ND : NoDup (number x :: D)).
    { constructor; [intros Hin; apply descendants_spec in Hin as [E _]; auto|]. unfold D, descendants. apply NoDup_filter. apply iter_props. }
    assert (IN : incl (number x :: D) (map number (nodes net))).
    { intros z [<-|Hz]; [apply in_map, nodes_iff; auto|]. apply descendants_spec in Hz as [_ Hz]. destruct (path_linked net _ _ Hw Hz x Hx eq_refl) as (y & Hy & -> & _). apply in_map, nodes_iff; auto. }
    assert (LN : 1 <= length (nodes net)). { destruct (nodes net) eqn:E; [|cbn; lia]. apply nodes_iff in Hx. rewrite E in Hx. contradiction. }
    split.
    - intros HL y Hy. assert (IN' : incl (map number (nodes net)) (number x :: D)). { apply NoDup_length_incl; auto. rewrite map_length. cbn [length]. lia. }
      assert (Z : In (number y) (number x :: D)) by (apply IN', in_map, nodes_iff; auto). destruct Z as [Z|Z]; [apply number_inj in Z as <-; constructor|].
      apply descendants_spec in Z as [_ Z]. destruct (path_linked net _ _ Hw Z x Hx eq_refl) as (y' & _ & E & Hl). apply number_inj in E as <-. auto.
    - intros HA. assert (IN' : incl (map number (nodes net)) (number x :: D)).
      { intros z Hz. apply in_map_iff in Hz as (y & <- & Hy). apply nodes_iff in Hy. destruct (Nat.eq_dec (number y) (number x)) as [E|E]; [left; auto|right]. apply descendants_spec. split; auto. apply linked_path, HA; auto. }
      apply (NoDup_incl_length ND) in IN. apply (NoDup_incl_length (nodes_nodup net Hw)) in IN'. rewrite map_length in *. cbn [length] in *. lia.
  Qed.
End Und.
Theorem C87_check_wfnet : forall L (net : petri_net L), well_built net ->
  (check_wfnet net = true <-> exists i o, only_source net i /\ only_sink net o /\ forall x y, is_node net x -> is_node net y -> linked net x y).
Proof.
  intros L net Hw. assert (Hn := proj1 Hw). unfold check_wfnet.
  assert (LT : forall x y z : node, linked net x y -> linked net y z -> linked net x z). { intros x y z A B. induction A; auto. econstructor; eauto. }
  assert (LS : forall x y : node, linked net x y -> linked net y x). { intros x y A. induction A; [constructor|]. eapply LT; [exact IHA|]. econstructor; [|constructor]. tauto. }
  assert (AD : forall v, length (ancestors (und_arcs net) v) = length (descendants (und_arcs net) v)).
  { intros v. assert (NA : forall E, NoDup (descendants E v)). { intros E. unfold descendants. apply NoDup_filter. apply iter_props. }
    apply Nat.le_antisymm; apply NoDup_incl_length; try apply NA; intros z Hz; [apply ancestors_spec in Hz as [A B]; apply descendants_spec|apply descendants_spec in Hz as [A B]; apply ancestors_spec]; split; auto; apply und_sym; auto. }
  split.
  - destruct (source_place net) as [i|] eqn:Si; [|discriminate]. destruct (sink_place net) as [o|] eqn:So; [|discriminate].
    apply source_iff in Si; auto. apply sink_iff in So; auto. rewrite andb_true_iff, !Nat.eqb_eq. intros [_ H2]. exists i, o. split; auto. split; auto.
    assert (Ni : is_node net (PNode i)) by (left; exists i; split; auto; apply Si). pose proof (proj1 (count_iff net _ Hw Ni) H2) as C.
    intros x y Hx Hy. apply (LT _ (PNode i)); auto.
  - intros (i & o & Hi & Ho & Hc). rewrite (proj2 (source_iff net i Hn) Hi), (proj2 (sink_iff net o Hn) Ho). rewrite AD, andb_true_iff, !Nat.eqb_eq.
    assert (Ni : is_node net (PNode i)) by (left; exists i; split; auto; apply Hi). assert (No : is_node net (PNode o)) by (left; exists o; split; auto; apply Ho).
    split; apply count_iff; auto.
Qed.
Print Assumptions C87_check_wfnet.
Definition tr (i : nat) (a b : list nat) : transition (option nat) := Trans i (Some i) (map (fun p => (p, 1%Z)) a) (map (fun p => (p, 1%Z)) b).
Definition ex_wf : petri_net (option nat) := Net [1; 2; 3; 4] [tr 1 [1] [2; 3]; tr 2 [2; 3] [4]; tr 3 [2] [2]].
(** FINDING: check_wfnet accepts a net with a place that is not reached from the source (place 3 is produced only by transition 3, which
    needs place 3); the short-circuit check rejects it. *)
Definition ex_island : petri_net (option nat) := Net [1; 2; 3] [tr 1 [1] [2]; tr 3 [3] [3; 2]].
Theorem C87_undirected_refuted : exists net : petri_net (option nat), well_built net /\ check_wfnet net = true /\ ~ workflow_net net.
Proof.
  exists ex_island. split; [|split; [reflexivity|]].
  - split; [repeat constructor; cbn; intuition discriminate|]. split; [repeat constructor; cbn; intuition discriminate|]. intros t p w [<-|[<-|[]]] [Hin|Hin]; cbn in Hin; intuition (try congruence); repeat match goal with E : (_, _) = _ |- _ => injection E as <- <- end; cbn; auto.
  - intros Hwf. assert (W := C87_complete _ ex_island number 100 ltac:(repeat constructor; cbn; intuition discriminate) Hwf). vm_compute in W. discriminate.
Qed.
Print Assumptions C87_undirected_refuted.
(** FINDING: with a transition and a place of the same name the short-circuit check can accept a net that is not a workflow net. *)
Theorem C87_same_name_refuted : exists (net : petri_net (option nat)) name short, well_built net /\ (forall x, is_node net x -> name x <> short) /\
  is_workflow_net name short net = true /\ ~ workflow_net net.
Proof.
  exists ex_island, (fun x => match x with PNode 3 => 2 | PNode p => 2 * p | TNode t => 2 * t + 1 end), 100.
  split; [|split; [|split]].
  - split; [repeat constructor; cbn; intuition discriminate|]. split; [repeat constructor; cbn; intuition discriminate|]. intros t p w [<-|[<-|[]]] [Hin|Hin]; cbn in Hin; intuition (try congruence); repeat match goal with E : (_, _) = _ |- _ => injection E as <- <- end; cbn; auto.
  - intros x Hx. apply nodes_iff in Hx. cbn in Hx. intuition (subst; cbn; lia).
  - vm_compute. reflexivity.
  - intros Hwf. assert (W := C87_complete _ ex_island number 100 ltac:(repeat constructor; cbn; intuition discriminate) Hwf). vm_compute in W. discriminate.
Qed.
Print Assumptions C87_same_name_refuted.
Example ex_wf_checks : is_workflow_net number 100 ex_wf = true /\ check_wfnet ex_wf = true /\ is_workflow_net number 100 ex_island = false.
Proof. repeat split; vm_compute; reflexivity. Qed.
Example ex_wf_hyps : well_built ex_wf /\ workflow_net ex_wf.
Proof.
  assert (W : well_built ex_wf).
  { split; [repeat constructor; cbn; intuition discriminate|]. split; [repeat constructor; cbn; intuition discriminate|].
    intros t p w [<-|[<-|[<-|[]]]] [Hin|Hin]; cbn in Hin; intuition (try congruence); repeat match goal with E : (_, _) = _ |- _ => injection E as <- <- end; cbn; auto. }
  split; auto. apply (C87_short_circuit _ ex_wf number 100 W).
  - intros x y _ _. apply number_inj.
  - intros x Hx. apply nodes_iff in Hx. cbn in Hx. repeat (destruct Hx as [<-|Hx]; [vm_compute; discriminate|]); contradiction.
  - vm_compute. reflexivity.
Qed.
