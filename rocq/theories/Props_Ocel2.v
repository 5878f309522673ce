From Coq Require Import List Arith Bool ZArith Lia Relations Permutation.
Import ListNotations.
From Verif Require Import Model_Dict Model_Dfg Model_Graph Model_IM Proofs_Graph Spec_Dfg Proofs_Dfg Spec_Filter Proofs_Filter Model_Ocel Spec_Ocel Proofs_Ocel1 Proofs_Ocel2 Proofs_Ocel3 Props_Ocel.
Local Open Scope nat_scope.

(** * C80: filters by connected component *)
(** The objects connected with the given object. *)
Theorem C80_object : forall ord x o, (forall l y, In y (ord l) <-> In y l) -> referential o ->
  exists o', cc_object ord x o = Some o' /\ referential o' /\ part_by_objects (fun b => linked o x (oo_id b)) o o'.
Proof. intros ord x o H R. destruct (cc_object_ok ord H o R x) as (o' & E & P). exists o'. split; auto. split; auto. eapply objects_part_ref; eauto. Qed.
Print Assumptions C80_object.
(** The objects that meet another object and whose component has a size in the range. *)
Theorem C80_length : forall ord lo hi o, (forall l y, In y (ord l) <-> In y l) -> referential o ->
  exists o', cc_length ord lo hi o = Some o' /\ referential o' /\
    part_by_objects (fun b => (exists w, meet o (oo_id b) w) /\ exists n, exactly n (linked o (oo_id b)) /\ lo <= n <= hi) o o'.
Proof. intros ord lo hi o H R. destruct (cc_length_ok ord H o R lo hi) as (o' & E & P). exists o'. split; auto. split; auto. eapply objects_part_ref; eauto. Qed.
Print Assumptions C80_length.
(** The objects that meet another object and are connected with an object of the type (of another type). *)
Theorem C80_otype : forall ord ot positive o, (forall l y, In y (ord l) <-> In y l) -> referential o ->
  exists o', cc_otype ord ot positive o = Some o' /\ referential o' /\
    part_by_objects (fun b => (exists w, meet o (oo_id b) w) /\ exists c, In c (o_objects o) /\ polar positive (oo_type c = ot) /\ linked o (oo_id b) (oo_id c)) o o'.
Proof. intros ord ot p o H R. destruct (cc_otype_ok ord H o R ot p) as (o' & E & P). exists o'. split; auto. split; auto. eapply objects_part_ref; eauto. Qed.
Print Assumptions C80_otype.
(** The objects that meet another object and are connected with an object of an event with the activity. *)
Theorem C80_activity : forall ord a o, (forall l y, In y (ord l) <-> In y l) -> referential o ->
  exists o', cc_activity ord a o = Some o' /\ referential o' /\
    part_by_objects (fun b => (exists w, meet o (oo_id b) w) /\ exists e c, In e (o_events o) /\ oe_act e = a /\ related o (oe_id e) c /\ linked o (oo_id b) c) o o'.
Proof. intros ord a o H R. destruct (cc_activity_ok ord H o R a) as (o' & E & P). exists o'. split; auto. split; auto. eapply objects_part_ref; eauto. Qed.
Print Assumptions C80_activity.
Lemma meet_sym o a b : meet o a b -> meet o b a.
Proof. intros (N & e & A & B). split; [congruence|eauto]. Qed.
(** The events kept by these filters keep all their objects. *)
Theorem C80_whole_events : forall ord o, (forall l y, In y (ord l) <-> In y l) -> referential o -> NoDup (map oo_id (o_objects o)) -> forall o',
  ((exists x, cc_object ord x o = Some o') \/ (exists lo hi, cc_length ord lo hi o = Some o') \/ (exists ot p, cc_otype ord ot p o = Some o') \/ exists a, cc_activity ord a o = Some o') ->
  forall r, In r (o_rels o) -> is_event o' (or_event r) -> In r (o_rels o').
Proof.
  intros ord o H R N o' Ho r Hr He. destruct Ho as [(x & E)|[(lo & hi & E)|[(ot & p & E)|(a & E)]]].
  - destruct (cc_object_ok ord H o R x) as (u & E' & P). assert (u = o') as -> by congruence. eapply whole_events; [exact R|exact P| |auto|auto|auto]. intros b c _ _ L M. eapply rt_trans; [exact L|]. apply rt_step; auto.
  - destruct (cc_length_ok ord H o R lo hi) as (u & E' & P). assert (u = o') as -> by congruence. eapply whole_events; [exact R|exact P| |auto|auto|auto]. intros b c _ _ (_ & n & L & Hn) M. split; [exists (oo_id b); apply meet_sym; auto|]. exists n. split; auto. eapply exactly_ext; [|exact L]. intros x. split; intros L'; (eapply rt_trans; [apply rt_step|exact L']); auto; apply meet_sym; auto.
  - destruct (cc_otype_ok ord H o R ot p) as (u & E' & P). assert (u = o') as -> by congruence. eapply whole_events; [exact R|exact P| |auto|auto|auto]. intros b c _ _ (_ & d & D1 & D2 & L) M. split; [exists (oo_id b); apply meet_sym; auto|]. exists d. split; auto. split; auto. eapply rt_trans; [apply rt_step, meet_sym; eauto|auto].
  - destruct (cc_activity_ok ord H o R a) as (u & E' & P). assert (u = o') as -> by congruence. eapply whole_events; [exact R|exact P| |auto|auto|auto]. intros b c _ _ (_ & e & d & D1 & D2 & D3 & L) M. split; [exists (oo_id b); apply meet_sym; auto|]. exists e, d. split; auto. split; auto. split; auto. eapply rt_trans; [apply rt_step, meet_sym; eauto|auto].
Qed.
Print Assumptions C80_whole_events.
(** An object that meets no other object is a component of its own (filter_ocel_cc_object keeps it), but the other filters drop it:
    a component of size 1 is not found with the range 1 .. 5, nor an isolated order by its type. *)
Theorem C80_isolated_refuted : exists o b, well_formed o /\ In b (o_objects o) /\ exactly 1 (linked o (oo_id b)) /\
  (exists o', cc_object id (oo_id b) o = Some o' /\ is_object o' (oo_id b)) /\
  (exists o', cc_length id 1 5 o = Some o' /\ ~ is_object o' (oo_id b)) /\
  (exists o', cc_otype id (oo_type b) true o = Some o' /\ ~ is_object o' (oo_id b)) /\
  (exists e o', In e (o_events o) /\ related o (oe_id e) (oo_id b) /\ cc_activity id (oe_act e) o = Some o' /\ ~ is_object o' (oo_id b)).
Proof.
  exists ex_ocel, (OOb 4 100 8). split; [apply ex_well_formed|]. split; [cbn; tauto|]. split; [|split; [|split; [|split]]].
  - exists [4]. split; [repeat constructor; auto|]. split; auto. intros x. cbn. split; [intros [<-|[]]; apply rt_refl|]. intros L. left. destruct (linked_alone _ _ _ L) as [|(w & N & e & (r & Hr & E1 & E2) & (s & Hs & F1 & F2))]; auto. exfalso.
    cbn in Hr. repeat (destruct Hr as [<-|Hr]; [cbn in *; try discriminate|]); [|destruct Hr]. cbn in Hs. repeat (destruct Hs as [<-|Hs]; [cbn in *; congruence|]). destruct Hs.
  - eexists. split; [vm_compute; reflexivity|]. apply is_object_in. cbn. tauto.
  - eexists. split; [vm_compute; reflexivity|]. rewrite is_object_in. vm_compute. intuition discriminate.
  - eexists. split; [vm_compute; reflexivity|]. rewrite is_object_in. vm_compute. intuition discriminate.
  - exists (OEv 4 10 12 1). eexists. split; [cbn; tauto|]. split; [exists (ORel 4 10 12 4 100 0); cbn; tauto|]. split; [vm_compute; reflexivity|]. rewrite is_object_in. vm_compute. intuition discriminate.
Qed.
Print Assumptions C80_isolated_refuted.
Example ex_cc : option_map (fun o => (map oo_id (o_objects o), map oe_id (o_events o))) (cc_object id 3 ex_ocel) = Some ([1; 2; 3], [1; 2; 3]) /\
  option_map (fun o => map oo_id (o_objects o)) (cc_length id 3 3 ex_ocel) = Some [1; 2; 3] /\ option_map (fun o => map oo_id (o_objects o)) (cc_length id 2 2 ex_ocel) = Some [] /\
  option_map (fun o => map oo_id (o_objects o)) (cc_otype id 100 true ex_ocel) = Some [1; 2; 3] /\ option_map (fun o => map oo_id (o_objects o)) (cc_activity id 12 ex_ocel) = Some [1; 2; 3].
Proof. vm_compute. repeat split. Qed.

(** * C81: allowed activities per object type *)
(** If the first character of the separator occurs in no name of an activity, exactly the relations with an allowed combination are
    kept, with their events and objects. *)
Theorem C81_matching : forall act_name type_name c sep d o, referential o -> (forall a, ~ In c (act_name a)) ->
  (forall a b, act_name a = act_name b -> a = b) -> (forall a b, type_name a = type_name b -> a = b) ->
  let o' := filter_type_activities act_name type_name (c :: sep) d o in
  part_by_relations (fun r => exists acts, In (or_type r, acts) d /\ In (or_act r) acts) o o' /\ referential o'.
Proof. intros an tn c sep d o R H1 H2 H3 o'. pose proof (matching_ok an tn c sep d o R H1 H2 H3) as P. split; auto. eapply relations_part_ref; eauto. Qed.
Print Assumptions C81_matching.
(** In general the concatenation confuses combinations, even if no name contains the separator (here 7 8 7 8). *)
Theorem C81_separator_refuted : exists act_name type_name sep d o, well_formed o /\ (forall a b, act_name a = act_name b -> a = b) /\ (forall a b, type_name a = type_name b -> a = b) /\
  (forall n p s, act_name n <> p ++ sep ++ s) /\ (forall n p s, type_name n <> p ++ sep ++ s) /\
  exists r, In r (o_rels (filter_type_activities act_name type_name sep d o)) /\ forall acts, In (or_type r, acts) d -> ~ In (or_act r) acts.
Proof.
  set (an := fun n => match n with 0 => [1] | 1 => [1; 7; 8] | S n => repeat 2 n end). set (tn := fun n => match n with 0 => [3] | 1 => [7; 8; 3] | S n => repeat 4 n end).
  assert (Hrep : forall (x n : nat) p s, repeat x n <> p ++ [7; 8; 7; 8] ++ s).
  { intros x n p s E. assert (A : In 7 (repeat x n)) by (rewrite E; apply in_or_app; right; left; auto). assert (B : In 8 (repeat x n)) by (rewrite E; apply in_or_app; right; right; left; auto). apply repeat_spec in A, B. congruence. }
  assert (Hlen : forall (l p s : list nat), length l <= 3 -> l <> p ++ [7; 8; 7; 8] ++ s) by (intros l p s L ->; rewrite !app_length in L; cbn in L; lia).
  exists an, tn, [7; 8; 7; 8], [(1, [0])], (Ocel [OEv 5 1 0 0] [OOb 6 0 0] [ORel 5 1 0 6 0 0] [] [] []).
  split; [|split; [|split; [|split; [|split]]]].
  - split; [split; [|split; [|split]]|split; [|split; [|split]]].
    + intros e b (r & [<-|[]] & <- & <-). rewrite is_event_in, is_object_in. cbn. auto.
    + intros ? ? [].
    + intros ? ? [].
    + intros ? [].
    + repeat constructor; auto.
    + repeat constructor; auto.
    + intros r e [<-|[]] [<-|[]] _. auto.
    + intros r e [<-|[]] [<-|[]] _. auto.
  - intros [|[|a]] [|[|b]] E; cbn in E; auto; try discriminate; try (destruct a as [|a]; discriminate); try (destruct b as [|b]; discriminate). apply (f_equal (@length nat)) in E. cbn in E. rewrite !repeat_length in E. lia.
  - intros [|[|a]] [|[|b]] E; cbn in E; auto; try discriminate; try (destruct a as [|a]; discriminate); try (destruct b as [|b]; discriminate). apply (f_equal (@length nat)) in E. cbn in E. rewrite !repeat_length in E. lia.
  - intros [|[|n]] p s; [apply Hlen; cbn; lia|apply Hlen; cbn; lia|]. apply Hrep.
  - intros [|[|n]] p s; [apply Hlen; cbn; lia|apply Hlen; cbn; lia|]. apply Hrep.
  - exists (ORel 5 1 0 6 0 0). split; [vm_compute; auto|]. intros acts [E|[]]. discriminate.
Qed.
Print Assumptions C81_separator_refuted.
Example ex_matching : filter_type_activities (fun n => [n]) (fun n => [n]) [0; 1] [(200, [11; 12]); (300, [10])] ex_ocel =
  Ocel [OEv 2 11 5 1; OEv 3 12 9 0] [OOb 2 200 7; OOb 3 200 8] [ORel 2 11 5 2 200 0; ORel 2 11 5 3 200 0; ORel 3 12 9 3 200 0] [] [(2, 3)] [OCh 2 0].
Proof. reflexivity. Qed.

(** * C82: flattening *)
(** Each row is an event with a related object of the type; the attributes of the case are those of the object. *)
Theorem C82_rows : forall ot o f, In f (flatten ot o) ->
  In (fr_event f) (o_events o) /\ exists b, In b (o_objects o) /\ oo_type b = ot /\ fr_case f = oo_id b /\ fr_case_att f = oo_att b /\ related o (oe_id (fr_event f)) (oo_id b).
Proof. apply flatten_in. Qed.
Print Assumptions C82_rows.
(** If no relation is repeated, the case of an object consists of the events of the object, each once, in the order of the log. *)
Theorem C82_case : forall ot o b, well_formed o -> NoDup (map (fun r => (or_event r, or_object r)) (o_rels o)) -> In b (o_objects o) -> oo_type b = ot ->
  Selected (fun e => related o (oe_id e) (oo_id b)) (o_events o) (map fr_event (filter (fun f => Nat.eqb (fr_case f) (oo_id b)) (flatten ot o))).
Proof.
  intros ot o b W N Hb Ht. rewrite (flatten_case ot o b W Hb Ht). induction (o_events o) as [|e l IH]; cbn; [constructor|]. rewrite map_app.
  pose proof (mult_unique o (oe_id e) (oo_id b) N) as U. pose proof (mult_pos o (oe_id e) (oo_id b)) as P. destruct (mult o (oe_id e) (oo_id b)) as [|[|]]; cbn; [| |lia].
  - apply sel_drop; auto. intros H. apply P in H. lia.
  - apply sel_keep; auto. apply P. lia.
Qed.
Print Assumptions C82_case.
(** In general an event occurs in the case as often as the relation is repeated (say, with different qualifiers). *)
Theorem C82_multiplicity : forall ot o b e n, well_formed o -> In b (o_objects o) -> oo_type b = ot -> In e (o_events o) ->
  exactly n (fun i => exists f, nth_error (flatten ot o) i = Some f /\ fr_case f = oo_id b /\ fr_event f = e) <->
  exactly n (fun i => exists r, nth_error (o_rels o) i = Some r /\ or_event r = oe_id e /\ or_object r = oo_id b).
Proof.
  intros ot o b e n W Hb Ht He.
  assert (A : exactly (mult o (oe_id e) (oo_id b)) (fun i => exists r, nth_error (o_rels o) i = Some r /\ or_event r = oe_id e /\ or_object r = oo_id b)).
  { eapply exactly_ext; [|apply exactly_positions]. intros i. split; intros (r & R1 & R2); exists r; (split; [auto|]). - apply andb_true_iff in R2 as [X Y]. apply Nat.eqb_eq in X, Y. auto. - destruct R2 as [-> ->]. rewrite !Nat.eqb_refl. auto. }
  assert (B : exactly (mult o (oe_id e) (oo_id b)) (fun i => exists f, nth_error (flatten ot o) i = Some f /\ fr_case f = oo_id b /\ fr_event f = e)).
  { assert (E : mult o (oe_id e) (oo_id b) = length (filter (fun f => Nat.eqb (fr_case f) (oo_id b) && Nat.eqb (oe_id (fr_event f)) (oe_id e)) (flatten ot o))).
    { transitivity (length (filter (fun f => Nat.eqb (oe_id (fr_event f)) (oe_id e)) (filter (fun f => Nat.eqb (fr_case f) (oo_id b)) (flatten ot o)))).
      - rewrite (flatten_case ot o b W Hb Ht), filter_flat_map. assert (ND : NoDup (map oe_id (o_events o))) by apply W. induction (o_events o) as [|x l IH]; [destruct He|]. cbn in ND. inversion ND; subst. cbn. rewrite app_length.
        destruct He as [->|He].
        + assert (length (filter (fun f => Nat.eqb (oe_id (fr_event f)) (oe_id e)) (repeat (FRow (oo_id b) (oo_att b) e) (mult o (oe_id e) (oo_id b)))) = mult o (oe_id e) (oo_id b)) as ->. { generalize (mult o (oe_id e) (oo_id b)). induction n0; cbn; auto. rewrite Nat.eqb_refl. cbn. auto. }
          rewrite flat_map_nil; [cbn; lia|]. intros y Hy. assert (Ny : oe_id y <> oe_id e) by (intros E; apply H1; rewrite <- E; apply in_map; auto). apply Nat.eqb_neq in Ny. generalize (mult o (oe_id y) (oo_id b)). induction n0; cbn; auto. rewrite Ny. auto.
        + assert (Nx : oe_id x <> oe_id e) by (intros E; apply H1; rewrite E; apply in_map; auto). apply Nat.eqb_neq in Nx. assert (filter (fun f => Nat.eqb (oe_id (fr_event f)) (oe_id e)) (repeat (FRow (oo_id b) (oo_att b) x) (mult o (oe_id x) (oo_id b))) = []) as ->. { generalize (mult o (oe_id x) (oo_id b)). induction n0; cbn; auto. rewrite Nx. auto. }
          cbn. auto.
      - f_equal. induction (flatten ot o) as [|f l IH]; auto. cbn. destruct (Nat.eqb (fr_case f) (oo_id b)); cbn; [destruct (Nat.eqb (oe_id (fr_event f)) (oe_id e)); rewrite IH; auto|auto]. }
    rewrite E. eapply exactly_ext; [|apply exactly_positions]. intros i. split; intros (f & F1 & F2); exists f; (split; [auto|]).
    - apply andb_true_iff in F2 as [X Y]. apply Nat.eqb_eq in X, Y. split; auto. apply nth_error_In in F1. apply flatten_in in F1 as [F1 _]. clear - F1 He Y W. destruct W as (_ & ND & _). induction (o_events o) as [|d l IH]; [destruct He|]. cbn in ND. inversion ND; subst. destruct F1 as [F1|F1], He as [He|He]; [congruence| | |auto]; exfalso; apply H1; [rewrite F1, Y|rewrite He, <- Y]; apply in_map; auto.
    - destruct F2 as [-> ->]. rewrite !Nat.eqb_refl. auto. }
  split; intros H; [rewrite (exactly_unique _ _ _ H B)|rewrite (exactly_unique _ _ _ H A)]; auto.
Qed.
Print Assumptions C82_multiplicity.
(** So an event may occur twice in a case: two relations with different qualifiers. *)
Theorem C82_twice_refuted : exists o b e, well_formed o /\ In b (o_objects o) /\ NoDup (o_rels o) /\ map fr_event (flatten (oo_type b) o) = [e; e].
Proof.
  exists (Ocel [OEv 1 1 0 0] [OOb 2 3 0] [ORel 1 1 0 2 3 0; ORel 1 1 0 2 3 1] [] [] []), (OOb 2 3 0), (OEv 1 1 0 0). split; [|split; [cbn; auto|split; [|reflexivity]]].
  - split; [split; [|split; [|split]]|split; [|split; [|split]]].
    + intros e b (r & [<-|[<-|[]]] & <- & <-); rewrite is_event_in, is_object_in; cbn; auto.
    + intros ? ? [].
    + intros ? ? [].
    + intros ? [].
    + repeat constructor; auto.
    + repeat constructor; auto.
    + intros r e [<-|[<-|[]]] [<-|[]] _; auto.
    + intros r e [<-|[<-|[]]] [<-|[]] _; auto.
  - repeat constructor; cbn; intuition discriminate.
Qed.
Print Assumptions C82_twice_refuted.
Example ex_flatten : flatten 200 ex_ocel = [FRow 2 7 (OEv 1 10 0 0); FRow 2 7 (OEv 2 11 5 1); FRow 3 8 (OEv 2 11 5 1); FRow 3 8 (OEv 3 12 9 0)].
Proof. reflexivity. Qed.

(** * C83: graphs of objects *)
Theorem C83_interaction : forall o a b, In (a, b) (interaction_graph o) <-> a < b /\ exists e, related o e a /\ related o e b.
Proof. apply interaction_ok. Qed.
Print Assumptions C83_interaction.
Lemma busy_ids o : (forall e, In e (o_events o) -> exists b, related o (oe_id e) b) -> forall e, In e (map oe_id (o_events o)) -> exists b, related o e b.
Proof. intros H e He. apply in_map_iff in He as (x & <- & Hx). auto. Qed.
Theorem C83_cobirth : forall o, (forall e, In e (o_events o) -> exists b, related o (oe_id e) b) -> exists g, cobirth_graph o = Some g /\
  forall a b, In (a, b) g <-> a < b /\ exists e, first_event o a e /\ first_event o b e.
Proof.
  intros o H. destruct (cobirth_born o (map oe_id (o_events o)) (busy_ids o H)) as (g & E & Hg). exists g. split; auto. intros a b. rewrite Hg. split; intros (A & e & B & C); (split; [auto|]); exists e; [rewrite <- !born_first|rewrite !born_first]; auto.
Qed.
Print Assumptions C83_cobirth.
Theorem C83_codeath : forall o, (forall e, In e (o_events o) -> exists b, related o (oe_id e) b) -> exists g, codeath_graph o = Some g /\
  forall a b, In (a, b) g <-> a < b /\ exists e, last_event o a e /\ last_event o b e.
Proof.
  intros o H. destruct (cobirth_born o (rev (map oe_id (o_events o)))) as (g & E & Hg); [intros e He; apply busy_ids; auto; apply in_rev; auto|]. exists g. split; auto. intros a b. rewrite Hg. split; intros (A & e & B & C); (split; [auto|]); exists e; [rewrite <- !born_last|rewrite !born_last]; auto.
Qed.
Print Assumptions C83_codeath.
(** [b] descends from [a]: [b] appears first in an event of [a], in which [a] does not appear first. *)
Theorem C83_descendants : forall o, (forall e, In e (o_events o) -> exists b, related o (oe_id e) b) -> exists g, descendants_graph o = Some g /\
  forall a b, In (a, b) g <-> exists e, first_event o b e /\ related o e a /\ ~ first_event o a e.
Proof.
  intros o H. destruct (descendants_born o (map oe_id (o_events o)) (busy_ids o H)) as (g & E & Hg). exists g. split; auto. intros a b. rewrite Hg. split; intros (e & A & B & C); exists e; [rewrite <- !born_first|rewrite !born_first]; auto.
Qed.
Print Assumptions C83_descendants.
(** [b] inherits from [a]: the last event of [a] is the first of [b], and not the other way round too. *)
Theorem C83_inheritance : forall o, (forall e, In e (o_events o) -> exists b, related o (oe_id e) b) -> exists g, inheritance_graph o = Some g /\
  forall a b, In (a, b) g <-> a <> b /\ (exists e, last_event o a e /\ first_event o b e) /\ ~ exists e, last_event o b e /\ first_event o a e.
Proof. apply inheritance_ok. Qed.
Print Assumptions C83_inheritance.
(** The graphs of lives raise a KeyError if an event has no object. *)
Theorem C83_no_objects : forall o e, In e (o_events o) -> (forall b, ~ related o (oe_id e) b) -> cobirth_graph o = None /\ codeath_graph o = None /\ descendants_graph o = None /\ inheritance_graph o = None.
Proof.
  intros o e He H. assert (He' : In (oe_id e) (map oe_id (o_events o))) by (apply in_map; auto). assert (Hr : In (oe_id e) (rev (map oe_id (o_events o)))) by (apply in_rev; rewrite rev_involutive; auto).
  split; [|split; [|split]]; try (eapply life_graph_raises; eauto).
  unfold inheritance_graph. assert (G : forall l s d, In (oe_id e) l -> last_events o l s d = None); [|rewrite G; auto].
  induction l as [|f l IH]; intros s d Hl; [destruct Hl|]. destruct Hl as [->|Hl]; cbn; [rewrite get_rel_obj_none; auto|]. destruct (get_rel_obj o f); auto.
Qed.
Print Assumptions C83_no_objects.
Example ex_graphs : interaction_graph ex_ocel = [(1, 2); (1, 2); (2, 3); (2, 3)] /\ cobirth_graph ex_ocel = Some [(1, 2)] /\ codeath_graph ex_ocel = Some [] /\ descendants_graph ex_ocel = Some [(2, 3)] /\ inheritance_graph ex_ocel = Some [(1, 2); (2, 3)].
Proof. repeat split. Qed.
