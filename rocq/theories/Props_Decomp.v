(** C89: maximal decomposition of Petri nets. *)
From stdpp Require Import gmap.
From Coq Require Import ZArith List Arith Bool Lia.
Import ListNotations.
From Verif Require Import Model_Petri Model_Graph Model_Wfnet Model_Decomp Spec_Petri Spec_Murata Spec_Wfnet Spec_Decomp Proofs_Petri Proofs_Graph Proofs_Decomp Proofs_Decomp2.
From Verif Require Props_Murata.
Local Open Scope nat_scope.
Local Arguments smem : simpl never.

Definition distinct_names (name : node -> nat) (net : petri_net (option nat)) : Prop := forall x y, is_node net x -> is_node net y -> name x = name y -> x = y.
Lemma decompose_in name text net im fm d : In d (decompose name text net im fm) <-> exists c, In c (kept name text net) /\ d = (comp_net name net c, comp_marking name c im, comp_marking name c fm).
Proof. unfold decompose. rewrite in_map_iff. split; intros (c & A & B); exists c; auto. Qed.
Lemma comp_place name net c p : In p (n_places (comp_net name net c)) <-> In p (n_places net) /\ In (name (PNode p)) c.
Proof. unfold comp_net. cbn [n_places]. rewrite filter_In. unfold in_comp. rewrite smem_in. tauto. Qed.
(** Every place of the net is in exactly one component, with its initial and final tokens; silent transitions are in exactly one component. *)
Theorem C89_partition : forall name text net im fm, distinct_names name net -> arcs_on_places net -> distinct_ids net -> marks_places net im -> marks_places net fm ->
  (forall p, In p (n_places net) <-> exists net_i im_i fm_i, In (net_i, im_i, fm_i) (decompose name text net im fm) /\ In p (n_places net_i)) /\
  (forall i j net_i im_i fm_i net_j im_j fm_j p, nth_error (decompose name text net im fm) i = Some (net_i, im_i, fm_i) -> nth_error (decompose name text net im fm) j = Some (net_j, im_j, fm_j) ->
     In p (n_places net_i) -> In p (n_places net_j) -> i = j) /\
  (forall t, In t (n_trans net) -> t_label t = None -> exists net_i im_i fm_i u, In (net_i, im_i, fm_i) (decompose name text net im fm) /\ In u (n_trans net_i) /\ t_id u = t_id t /\ t_label u = None) /\
  (forall i j net_i im_i fm_i net_j im_j fm_j t u, nth_error (decompose name text net im fm) i = Some (net_i, im_i, fm_i) -> nth_error (decompose name text net im fm) j = Some (net_j, im_j, fm_j) ->
     In t (n_trans net_i) -> In u (n_trans net_j) -> t_id t = t_id u -> t_label t = None -> i = j) /\
  (forall net_i im_i fm_i, In (net_i, im_i, fm_i) (decompose name text net im fm) -> part_of net_i im im_i /\ part_of net_i fm fm_i).
Proof.
  intros name text net im fm _ Ha Hid Mi Mf.
  assert (NE : forall i d, nth_error (decompose name text net im fm) i = Some d -> exists c, nth_error (kept name text net) i = Some c /\ d = (comp_net name net c, comp_marking name c im, comp_marking name c fm)).
  { intros i d E. unfold decompose in E. rewrite nth_error_map in E. destruct (nth_error (kept name text net) i) as [c|]; [|discriminate]. injection E as <-. exists c. auto. }
  split; [|split; [|split; [|split]]].
  - intros p. split.
    + intros Hp. destruct (place_comp name text net p Hp) as (c & Hc & Hin). exists (comp_net name net c), (comp_marking name c im), (comp_marking name c fm). split; [apply decompose_in; eauto|]. apply comp_place. auto.
    + intros (n & a & b & Hd & Hp). apply decompose_in in Hd as (c & _ & [= -> _ _]). apply comp_place in Hp. tauto.
  - intros i j ni ii fi nj ij fj p Ei Ej Hi Hj. apply NE in Ei as (c & Ei & [= -> _ _]). apply NE in Ej as (c' & Ej & [= -> _ _]). apply comp_place in Hi, Hj. eapply (kept_pos name text net i j c c'); [eauto|eauto|apply Hi|apply Hj].
  - intros t Ht L. destruct (silent_comp name text net t Ht L) as (c & Hc & Hin). exists (comp_net name net c), (comp_marking name c im), (comp_marking name c fm), (comp_trans name c t). split; [apply decompose_in; eauto|]. split; [|auto].
    apply in_map, filter_In. split; auto. apply touches_iff. auto.
  - intros i j ni ii fi nj ij fj t u Ei Ej Ht Hu E L. apply NE in Ei as (c & Ei & [= -> _ _]). apply NE in Ej as (c' & Ej & [= -> _ _]).
    apply in_map_iff in Ht as (t0 & <- & Ht). apply in_map_iff in Hu as (u0 & <- & Hu). apply filter_In in Ht as [Ht Tt]. apply filter_In in Hu as [Hu Tu]. cbn in E, L. rewrite <- (id_inj net Hid t0 u0) in Tu; auto.
    assert (X : forall d k, nth_error (kept name text net) k = Some d -> touches name d t0 = true -> In (t_name name t0) d).
    { intros d k Hd Td. apply touches_iff in Td as [Td|(p & w & A & B)]; auto. eapply (silent_next name text net Ha d t0 p w); eauto. apply (kept_comp name text net d). eapply nth_error_In; eauto. }
    eapply (kept_pos name text net i j c c'); eauto.
  - intros ni ii fi Hd. apply decompose_in in Hd as (c & Hc & [= -> -> ->]).
    assert (G : forall m, marks_places net m -> part_of (comp_net name net c) m (comp_marking name c m)).
    { intros m Hm p. rewrite comp_tokens, comp_place. unfold in_comp. destruct (smem (name (PNode p)) c) eqn:E; [apply smem_in in E|apply smem_false in E]; (split; [tauto|]); intros Hn; auto. unfold tokens. destruct (m !! p) eqn:Lk; auto. apply Hm in Lk. tauto. }
    auto.
Qed.
Print Assumptions C89_partition.

(** A sequence of transitions is a run of the net from the initial to the final marking exactly when what each component sees of it is a run of
    the component, for nets with arc weights 1. *)
Theorem C89_runs : forall name text net im fm, distinct_names name net -> arcs_on_places net -> distinct_ids net -> simple_net net -> unit_weights net ->
  proper im -> proper fm -> marks_places net im -> marks_places net fm -> forall ts, (forall t, In t ts -> In t (n_trans net)) ->
  (run net im ts fm <-> forall net_i im_i fm_i, In (net_i, im_i, fm_i) (decompose name text net im fm) -> exists us, seen_by net_i ts us /\ run net_i im_i us fm_i).
Proof.
  intros name text net im fm _ Ha Hid Hs Hu Pi Pf Mi Mf ts Hts. split.
  - intros R n a b Hd. apply decompose_in in Hd as (c & Hc & [= -> -> ->]). exists (project name c ts). split; [apply project_seen; auto|]. apply run_comp; auto.
  - intros Hc. apply (runs_join name text net Ha Hu Hs ts im fm); auto. intros c Kc. destruct (Hc (comp_net name net c) (comp_marking name c im) (comp_marking name c fm)) as (us & S & R); [apply decompose_in; eauto|].
    rewrite <- (seen_project name text net Hid c ts us Hts S). exact R.
Qed.
Print Assumptions C89_runs.
Lemma choose_list {X Y} (dec : forall x y : X, {x = y} + {x <> y}) (P : X -> Y -> Prop) (d : Y) (l : list X) : (forall x, In x l -> exists y, P x y) -> exists f, forall x, In x l -> P x (f x).
Proof.
  induction l as [|a l IH]; intros Hl; [exists (fun _ => d); intros x []|]. destruct IH as [f Hf]; [intros; apply Hl; right; auto|]. destruct (Hl a (or_introl eq_refl)) as [y Hy].
  exists (fun x => if dec x a then y else f x). intros x [<-|Hx]; [destruct (dec a a); [auto|contradiction]|]. destruct (dec x a) as [E|]; [rewrite E; auto|auto].
Qed.
(** For nets without duplicate labels a trace fits the net exactly when its activities are activities of the net and its projections fit
    all the components. *)
Theorem C89_traces : forall name text net im fm, distinct_names name net -> arcs_on_places net -> distinct_ids net -> simple_net net -> unit_weights net -> unique_labels net ->
  proper im -> proper fm -> marks_places net im -> marks_places net fm -> forall w,
  (accepts net im fm w <-> (forall a, In a w -> labelled net a) /\ forall net_i im_i fm_i, In (net_i, im_i, fm_i) (decompose name text net im fm) -> exists v, projected net_i w v /\ accepts net_i im_i fm_i v).
Proof.
  intros name text net im fm Hn Ha Hid Hs Hu Hl Pi Pf Mi Mf w. split.
  - intros (ts & R & V). assert (Hts : forall t, In t ts -> In t (n_trans net)). { clear -R. revert im R. induction ts as [|t ts IH]; intros im R; [intros ? []|]. inversion R as [|? ? mm ? ? F R']; subst. intros u [<-|Hin]; [apply F|eapply IH; eauto]. }
    split.
    + intros a Hin. rewrite <- V in Hin. clear -Hin Hts. induction ts as [|t ts IH]; [contradiction|]. cbn in Hin. destruct (t_label t) as [b|] eqn:L; [destruct Hin as [<-|Hin]|]; try (apply IH; auto; intros; apply Hts; right; auto). exists t. split; auto. apply Hts. left. auto.
    + intros n a b Hd. apply decompose_in in Hd as (c & Hc & [= -> -> ->]). exists (List.filter (has name net c) w). split; [exists (has name net c); split; auto; apply has_iff|].
      exists (project name c ts). split; [apply run_comp; auto|]. rewrite (visible_project name net Hl c ts (has name net c)); auto; [congruence|apply has_iff].
  - intros [Hw Hc].
    assert (X : exists us : list nat -> list tr, forall c, In c (kept name text net) -> run (comp_net name net c) (comp_marking name c im) (us c) (comp_marking name c fm) /\ visible (us c) = List.filter (has name net c) w).
    { apply (choose_list (list_eq_dec Nat.eq_dec) (fun c us => run (comp_net name net c) (comp_marking name c im) us (comp_marking name c fm) /\ visible us = List.filter (has name net c) w) []).
      intros c Kc. destruct (Hc (comp_net name net c) (comp_marking name c im) (comp_marking name c fm)) as (v & (h & Hh & ->) & us & R & V); [apply decompose_in; eauto|]. exists us. split; auto. rewrite V. apply filter_ext. intros a. apply eq_true_iff_eq. rewrite Hh, has_iff. tauto. }
    destruct X as [us Hus]. destruct (compose name text net Ha Hid Hl w Hw us) as (ts & I & V & P).
    { intros c Kc. destruct (Hus c Kc) as [R V]. split; auto. clear -R. revert R. generalize (comp_marking name c im). induction (us c) as [|t ts IH]; intros m R; [intros ? []|]. inversion R as [|? ? mm ? ? F R']; subst. intros u [<-|Hin]; [apply F|eapply IH; eauto]. }
    exists ts. split; auto. apply (runs_join name text net Ha Hu Hs ts im fm); auto. intros c Kc. rewrite (P c Kc). apply Hus; auto.
Qed.
Print Assumptions C89_traces.

(** ** Examples and cases outside the hypotheses *)
Definition ex_name (x : node) : nat := match x with PNode p => 2 * p | TNode t => 2 * t + 1 end.
Definition ex_text (a : nat) : nat := 1000 + a.
(** a; (b || c); d, with a silent transition after b *)
Definition ex_dec : petri_net (option nat) := Net [1; 2; 3; 4; 5; 6; 7]
  [Trans 1 (Some 1) [(1, 1%Z)] [(2, 1%Z); (3, 1%Z)]; Trans 2 (Some 2) [(2, 1%Z)] [(4, 1%Z)]; Trans 3 (Some 3) [(3, 1%Z)] [(5, 1%Z)]; Trans 4 None [(4, 1%Z)] [(6, 1%Z)]; Trans 5 (Some 4) [(6, 1%Z); (5, 1%Z)] [(7, 1%Z)]].
Example ex_decomposed : map (fun d => (n_places (fst (fst d)), map t_id (n_trans (fst (fst d))))) (decompose ex_name ex_text ex_dec {[1 := 1%Z]} {[7 := 1%Z]}) =
  [([1], [1]); ([2], [1; 2]); ([3], [1; 3]); ([4; 6], [2; 4; 5]); ([5], [3; 5]); ([7], [5])].
Proof. vm_compute. reflexivity. Qed.
Local Ltac simpl_net := let t := fresh in let Ht := fresh in intros t Ht; cbn in Ht;
  repeat (destruct Ht as [<-|Ht]; [split; split; cbn; [repeat constructor; cbn; intuition lia|intros ? ? Hin; repeat (destruct Hin as [[= <- <-]|Hin]; [lia|]); destruct Hin
                                  |repeat constructor; cbn; intuition lia|intros ? ? Hin; repeat (destruct Hin as [[= <- <-]|Hin]; [lia|]); destruct Hin]|]); destruct Ht.
Local Ltac arcs_tac := let t := fresh in let p := fresh in let w := fresh in let Ht := fresh in let Hin := fresh in intros t p w Ht Hin; cbn in Ht; repeat (destruct Ht as [<-|Ht]; [cbn in Hin |- *; repeat match goal with H : _ \/ _ |- _ => destruct H | H : (_, _) = (_, _) |- _ => injection H as <- <- | H : False |- _ => destruct H end; auto 10|]); destruct Ht.
Local Ltac marks_tac := let p := fresh in let v := fresh in let H := fresh in intros p v H; apply lookup_singleton_Some in H as [<- _]; cbn; auto 10.
Lemma ex_names_distinct net : distinct_names ex_name net.
Proof. intros x y _ _. destruct x, y; cbn; intros; f_equal; lia. Qed.
Example ex_dec_hyps : distinct_names ex_name ex_dec /\ arcs_on_places ex_dec /\ distinct_ids ex_dec /\ simple_net ex_dec /\ unit_weights ex_dec /\ unique_labels ex_dec /\
  marks_places ex_dec {[1 := 1%Z]} /\ marks_places ex_dec {[7 := 1%Z]} /\ proper {[1 := 1%Z]} /\ proper {[7 := 1%Z]}.
Proof.
  split; [apply ex_names_distinct|]. split; [arcs_tac|]. split; [unfold distinct_ids; cbn; repeat constructor; cbn; intuition lia|]. split; [simpl_net|]. split.
  { intros t Ht p w. cbn in Ht. repeat (destruct Ht as [<-|Ht]; [cbn; intuition congruence|]). destruct Ht. }
  split. { intros t u a Ht Hu. cbn in Ht, Hu. repeat (destruct Ht as [<-|Ht]; [repeat (destruct Hu as [<-|Hu]; [cbn; congruence|]); destruct Hu|]). destruct Ht. }
  split; [marks_tac|]. split; [marks_tac|]. split; apply proper_singleton; lia.
Qed.
(** The arc weights are lost: a net in which t needs two tokens from its place cannot run, its components can. *)
Theorem C89_weights_refuted : exists name text net im fm ts, distinct_names name net /\ arcs_on_places net /\ distinct_ids net /\ simple_net net /\ proper im /\ proper fm /\ marks_places net im /\ marks_places net fm /\
  (forall t, In t ts -> In t (n_trans net)) /\ (forall net_i im_i fm_i, In (net_i, im_i, fm_i) (decompose name text net im fm) -> exists us, seen_by net_i ts us /\ run net_i im_i us fm_i) /\ ~ run net im ts fm.
Proof.
  set (t := Trans 1 (Some 1) [(1, 2%Z)] [(2, 1%Z)]). set (net := Net [1; 2] [t]). exists ex_name, ex_text, net, {[1 := 1%Z]}, {[2 := 1%Z]}, [t].
  split; [apply ex_names_distinct|]. split; [arcs_tac|]. split; [unfold distinct_ids; cbn; repeat constructor; cbn; intuition lia|]. split; [simpl_net|]. split; [apply proper_singleton; lia|]. split; [apply proper_singleton; lia|].
  split; [marks_tac|]. split; [marks_tac|]. split; [intros u [<-|[]]; left; auto|]. split.
  - intros n a b Hd. assert (E : kept ex_name ex_text net = [[2]; [4]]) by (vm_compute; reflexivity).
    apply decompose_in in Hd as (c & Hc & [= -> -> ->]). exists (project ex_name c [t]).
    split; [apply (project_seen ex_name ex_text); [unfold distinct_ids; cbn; repeat constructor; cbn; intuition lia|intros u [<-|[]]; left; auto]|]. rewrite E in Hc. assert (T0 : forall p, tokens (∅ : marking) p = 0%Z) by reflexivity. assert (P0 : proper (∅ : marking)) by (intros p v; rewrite lookup_empty; discriminate).
    destruct Hc as [<-|[<-|[]]].
    + assert (A : comp_marking ex_name [2] {[1 := 1%Z]} = {[1 := 1%Z]}) by (apply (bool_decide_eq_true_1 (_ = _)); vm_compute; reflexivity). assert (B : comp_marking ex_name [2] {[2 := 1%Z]} = ∅) by (apply (bool_decide_eq_true_1 (_ = _)); vm_compute; reflexivity).
      rewrite A, B. change (project ex_name [2] [t]) with [Trans 1 (Some 1) [(1, 1%Z)] []]. econstructor; [|constructor]. split; [vm_compute; auto|]. split; [|split; [exact P0|]]; intros p; cbn [t_in t_out weight]; rewrite ?T0, ?tokens_singleton; repeat destruct (Nat.eqb _ p); lia.
    + assert (A : comp_marking ex_name [4] {[1 := 1%Z]} = ∅) by (apply (bool_decide_eq_true_1 (_ = _)); vm_compute; reflexivity). assert (B : comp_marking ex_name [4] {[2 := 1%Z]} = {[2 := 1%Z]}) by (apply (bool_decide_eq_true_1 (_ = _)); vm_compute; reflexivity).
      rewrite A, B. change (project ex_name [4] [t]) with [Trans 1 (Some 1) [] [(2, 1%Z)]]. econstructor; [|constructor]. split; [vm_compute; auto|]. split; [|split; [apply proper_singleton; lia|]]; intros p; cbn [t_in t_out weight]; rewrite ?T0, ?tokens_singleton; repeat destruct (Nat.eqb _ p); lia.
  - intros R. inversion R as [|? ? mm ? ? (_ & He & _) _]; subst. specialize (He 1). rewrite tokens_singleton in He. cbn in He. lia.
Qed.
Print Assumptions C89_weights_refuted.
(** A transition with a duplicate label should be in one component only; the label nodes of the graph are never joined with the transitions,
    so a duplicate-labelled transition is shared by two components. *)
Theorem C89_duplicates_refuted : exists name text net im fm t u net_i im_i fm_i net_j im_j fm_j, distinct_names name net /\ arcs_on_places net /\ distinct_ids net /\ simple_net net /\ unit_weights net /\ marks_places net im /\ marks_places net fm /\
  In t (n_trans net) /\ In u (n_trans net) /\ t <> u /\ t_label t = t_label u /\ t_label t <> None /\
  nth_error (decompose name text net im fm) 0 = Some (net_i, im_i, fm_i) /\ nth_error (decompose name text net im fm) 1 = Some (net_j, im_j, fm_j) /\
  In (t_id t) (map t_id (n_trans net_i)) /\ In (t_id t) (map t_id (n_trans net_j)).
Proof.
  set (t := Trans 1 (Some 1) [(1, 1%Z)] [(2, 1%Z)]). set (u := Trans 2 (Some 1) [(2, 1%Z)] [(3, 1%Z)]). set (net := Net [1; 2; 3] [t; u]).
  exists ex_name, ex_text, net, {[1 := 1%Z]}, {[3 := 1%Z]}, t, u. do 6 eexists.
  split; [apply ex_names_distinct|]. split; [arcs_tac|]. split; [unfold distinct_ids; cbn; repeat constructor; cbn; intuition lia|]. split; [simpl_net|]. split.
  { intros v Hv p w. cbn in Hv. repeat (destruct Hv as [<-|Hv]; [cbn; intuition congruence|]). destruct Hv. }
  split; [marks_tac|]. split; [marks_tac|]. split; [left; auto|]. split; [right; left; auto|]. split; [discriminate|]. split; [reflexivity|]. split; [discriminate|].
  assert (E : kept ex_name ex_text net = [[2]; [4; 6; 5]] \/ kept ex_name ex_text net = [[2]; [4; 5; 6]]) by (vm_compute; tauto).
  unfold decompose. destruct E as [-> | ->]; (split; [reflexivity|]); (split; [reflexivity|]); split; vm_compute; auto.
Qed.
Print Assumptions C89_duplicates_refuted.
