From Coq Require Import List Arith Bool ZArith Lia Relations Permutation.
Import ListNotations.
From Verif Require Import Model_Dict Model_Dfg Model_Graph Model_IM Spec_Graph Proofs_Graph Proofs_IM1 Proofs_Dict Spec_Dfg Proofs_Dfg Spec_Filter Proofs_Filter Model_Ocel Spec_Ocel Proofs_Ocel1 Proofs_Ocel2.
Local Open Scope nat_scope.
Local Arguments smem : simpl never.
Local Arguments both : simpl never.

Lemma nodup_app_lr {A} (l k : list A) : NoDup (l ++ k) -> NoDup l /\ NoDup k.
Proof. induction l as [|x l IH]; cbn; intros H; [split; auto; constructor|]. inversion H; subst. destruct (IH H3). split; auto. constructor; auto. intros X. apply H2. apply in_or_app; auto. Qed.
(** ---- filters by connected component *)
Lemma filter_objects_1 ids o (Q : oobject -> Prop) : referential o -> (forall b, In b (o_objects o) -> In (oo_id b) ids <-> Q b) ->
  exists o', filter_objects ids true 1 o = Some o' /\ part_by_objects Q o o'.
Proof. intros R H. unfold filter_objects. cbn. eexists. split; [reflexivity|]. apply objects_part; auto. intros b Hb. rewrite smem_in. auto. Qed.
Section CC.
  Variable ord : list edge -> list edge.
  Hypothesis ord_in : forall l x, In x (ord l) <-> In x l.
  Variable o : ocel.
  Hypothesis R : referential o.
  Lemma in_component c x : In c (conn_comp ord o) -> In x c -> (exists w, meet o x w) /\ forall y, In y c <-> linked o x y.
  Proof.
    intros Hc Hx. destruct (conn_comp_ok ord ord_in o) as (_ & H2 & _). destruct (H2 c Hc) as (v & (w & M) & Hv).
    assert (L : linked o v x) by (apply Hv; auto). split.
    - destruct (linked_alone o x v) as [->|]; eauto. apply linked_sym; auto.
    - intros y. rewrite Hv. split; intros H; eapply rt_trans; eauto. apply linked_sym; auto.
  Qed.
  Lemma cc_object_ok x : exists o', cc_object ord x o = Some o' /\ part_by_objects (fun b => linked o x (oo_id b)) o o'.
  Proof.
    unfold cc_object. destruct (find (smem x) (conn_comp ord o)) as [c|] eqn:F.
    - apply find_some in F as [Hc Hx]. apply smem_in in Hx. apply filter_objects_1; auto. intros b _. apply in_component; auto.
    - apply filter_objects_1; auto. intros b _. cbn. split; [intros [<-|[]]; apply rt_refl|]. intros H. destruct (linked_alone o _ _ H) as [->|(w & M)]; auto. exfalso.
      destruct (conn_comp_ok ord ord_in o) as (_ & _ & H3). destruct (H3 _ _ M) as (c & Hc & Hx). eapply find_none in F; [|exact Hc]. apply smem_false in F. auto.
  Qed.
  Lemma concat_sel p x : In x (concat (filter p (conn_comp ord o))) <-> exists c, In c (conn_comp ord o) /\ p c = true /\ In x c.
  Proof. rewrite in_concat. split; intros (c & A & B); exists c; [apply filter_In in A; tauto|rewrite filter_In; tauto]. Qed.
  Lemma component_nodup' c : In c (conn_comp ord o) -> NoDup c.
  Proof.
    intros Hc. destruct (conn_comp_ok ord ord_in o) as (H1 & _). clear R. induction (conn_comp ord o) as [|d l IH]; [destruct Hc|]. cbn in H1.
    apply nodup_app_lr in H1 as [N1 N2]. destruct Hc as [->|Hc]; auto.
  Qed.
  Lemma cc_length_ok lo hi : exists o', cc_length ord lo hi o = Some o' /\
    part_by_objects (fun b => (exists w, meet o (oo_id b) w) /\ exists n, exactly n (linked o (oo_id b)) /\ lo <= n <= hi) o o'.
  Proof.
    unfold cc_length. apply filter_objects_1; auto. intros b _. rewrite concat_sel. split.
    - intros (c & Hc & Hl & Hb). destruct (in_component c _ Hc Hb) as [M HL]. split; auto. exists (length c). apply andb_true_iff in Hl as [A B]. apply Nat.leb_le in A, B. split; [|lia]. exists c. split; [apply component_nodup'; auto|]. split; auto.
    - intros ((w & M) & n & Hn & Hl). destruct (conn_comp_ok ord ord_in o) as (_ & _ & H3). destruct (H3 _ _ M) as (c & Hc & Hx). exists c. split; auto. split; auto.
      destruct (in_component c _ Hc Hx) as [_ HL]. assert (n = length c) as ->. { eapply exactly_unique; [exact Hn|]. exists c. split; [apply component_nodup'; auto|]. split; auto. }
      apply andb_true_iff. rewrite !Nat.leb_le. auto.
  Qed.
  Lemma touching_in s x : In x (touching s (conn_comp ord o)) <-> (exists w, meet o x w) /\ exists y, In y s /\ linked o x y.
  Proof.
    unfold touching. rewrite concat_sel. split.
    - intros (c & Hc & He & Hx). destruct (in_component c _ Hc Hx) as [M HL]. split; auto. apply existsb_exists in He as (y & Hy & Hs). apply smem_in in Hs. exists y. split; auto. apply HL; auto.
    - intros ((w & M) & y & Hy & L). destruct (conn_comp_ok ord ord_in o) as (_ & _ & H3). destruct (H3 _ _ M) as (c & Hc & Hx). exists c. split; auto. split; auto.
      destruct (in_component c _ Hc Hx) as [_ HL]. apply existsb_exists. exists y. rewrite smem_in, HL. auto.
  Qed.
  Lemma cc_otype_ok ot positive : exists o', cc_otype ord ot positive o = Some o' /\
    part_by_objects (fun b => (exists w, meet o (oo_id b) w) /\ exists c, In c (o_objects o) /\ polar positive (oo_type c = ot) /\ linked o (oo_id b) (oo_id c)) o o'.
  Proof.
    unfold cc_otype. apply filter_objects_1; auto. intros b _. rewrite touching_in. split; intros (M & H); (split; [auto|]).
    - destruct H as (y & Hy & L). apply in_map_iff in Hy as (c & <- & Hc). apply filter_In in Hc as [Hc Ht]. exists c. split; auto. split; auto. destruct positive; cbn; [apply Nat.eqb_eq in Ht; auto|apply negb_true_iff, Nat.eqb_neq in Ht; auto].
    - destruct H as (c & Hc & Ht & L). exists (oo_id c). split; auto. apply in_map. apply filter_In. split; auto. destruct positive; cbn in Ht; [apply Nat.eqb_eq; auto|apply negb_true_iff, Nat.eqb_neq; auto].
  Qed.
  Lemma cc_activity_ok a : exists o', cc_activity ord a o = Some o' /\
    part_by_objects (fun b => (exists w, meet o (oo_id b) w) /\ exists e c, In e (o_events o) /\ oe_act e = a /\ related o (oe_id e) c /\ linked o (oo_id b) c) o o'.
  Proof.
    unfold cc_activity. apply filter_objects_1; auto. intros b _. rewrite touching_in. split; intros (M & H); (split; [auto|]).
    - destruct H as (y & Hy & L). apply in_map_iff in Hy as (r & <- & Hr). apply filter_In in Hr as [Hr Hs]. apply smem_in, in_map_iff in Hs as (e & He & Hs). apply filter_In in Hs as [Hs Ha]. apply Nat.eqb_eq in Ha. exists e, (or_object r). split; auto. split; auto. split; auto. exists r; auto.
    - destruct H as (e & c & He & Ha & (r & Hr & E1 & E2) & L). exists c. split; auto. apply in_map_iff. exists r. split; auto. apply filter_In. split; auto. apply smem_in, in_map_iff. exists e. split; auto. apply filter_In. split; auto. apply Nat.eqb_eq; auto.
  Qed.
End CC.
(** If the kept objects are closed under meeting, the kept events keep all their relations. *)
Lemma whole_events P o o' : referential o -> part_by_objects P o o' -> (forall b c, In b (o_objects o) -> In c (o_objects o) -> P b -> meet o (oo_id b) (oo_id c) -> P c) ->
  NoDup (map oo_id (o_objects o)) -> forall r, In r (o_rels o) -> is_event o' (or_event r) -> In r (o_rels o').
Proof.
  intros R HP HC ND r Hr (x & Hx & E). destruct HP as [SE SO SR _ _ _]. apply (proj1 (selected_in _ _ _ _ SE)) in Hx as [Hx (b & Hb & Pb & Rb)].
  eapply selected_in; [exact SR|]. split; auto. rewrite E in Rb. destruct (proj1 R (or_event r) (or_object r)) as [_ (c & Hc & Ec)]; [exists r; auto|]. exists c. split; auto. split; auto.
  destruct (Nat.eq_dec (oo_id b) (oo_id c)) as [Eb|Eb].
  - assert (b = c) as <-; auto. clear - ND Hb Hc Eb. induction (o_objects o) as [|d l IH]; [destruct Hb|]. cbn in ND. inversion ND; subst. destruct Hb as [->|Hb], Hc as [->|Hc]; auto; exfalso; apply H1; [rewrite Eb|rewrite <- Eb]; apply in_map; auto.
  - eapply HC; [exact Hb|exact Hc|exact Pb|]. split; auto. exists (or_event r). split; auto. exists r. auto.
Qed.

(** ---- matching of activities and types *)
Lemma split_at (c : nat) : forall u u' v v', ~ In c u -> ~ In c u' -> u ++ c :: v = u' ++ c :: v' -> u = u' /\ v = v'.
Proof.
  induction u as [|x u IH]; intros [|y u'] v v' A B E; cbn in E.
  - injection E as ->. auto.
  - injection E as -> E. exfalso. apply B. left; auto.
  - injection E as -> E. exfalso. apply A. left; auto.
  - injection E as -> E. destruct (IH u' v v') as [-> ->]; auto; intros H; [apply A|apply B]; right; auto.
Qed.
Lemma smem_str_in x l : smem_str x l = true <-> In x l.
Proof. unfold smem_str. rewrite existsb_exists. split; [intros (y & H & E); destruct (list_eq_dec Nat.eq_dec x y); [subst; auto|discriminate]|]. intros H. exists x. split; auto. destruct (list_eq_dec Nat.eq_dec x x); auto. Qed.
Lemma matching_ok act_name type_name c sep d o : referential o -> (forall a, ~ In c (act_name a)) -> (forall a b, act_name a = act_name b -> a = b) -> (forall a b, type_name a = type_name b -> a = b) ->
  part_by_relations (fun r => exists acts, In (or_type r, acts) d /\ In (or_act r) acts) o (filter_type_activities act_name type_name (c :: sep) d o).
Proof.
  intros R H Ia It. apply relations_part; auto. intros r _. rewrite smem_str_in, in_flat_map. split.
  - intros ([t acts] & A & B). apply in_map_iff in B as (a & B & Ha). cbn in *. unfold joined in B. cbn in B. apply split_at in B as [B1 B2]; auto. apply app_inv_head in B2. apply Ia in B1. apply It in B2. subst. exists acts. auto.
  - intros (acts & A & B). exists (or_type r, acts). split; auto. apply in_map_iff. exists (or_act r). auto.
Qed.

(** ---- flattening *)
Lemma filter_flat_map {A B} (p : B -> bool) (f : A -> list B) l : filter p (flat_map f l) = flat_map (fun x => filter p (f x)) l.
Proof. induction l as [|x l IH]; cbn; auto. rewrite filter_app, IH. auto. Qed.
Lemma filter_map' {A B} (p : B -> bool) (f : A -> B) l : filter p (map f l) = map f (filter (fun x => p (f x)) l).
Proof. induction l as [|x l IH]; cbn; auto. destruct (p (f x)); cbn; rewrite IH; auto. Qed.
Lemma filter_comm {A} (p q : A -> bool) l : filter p (filter q l) = filter q (filter p l).
Proof. induction l as [|x l IH]; cbn; auto. destruct (q x) eqn:Q, (p x) eqn:P; cbn; rewrite ?Q, ?P, IH; auto. Qed.
Lemma flat_map_nil {A B} (f : A -> list B) l : (forall x, In x l -> f x = []) -> flat_map f l = [].
Proof. induction l as [|x l IH]; cbn; intros H; auto. rewrite H by auto. apply IH. auto. Qed.
Lemma flat_map_ext' {A B} (f g : A -> list B) l : (forall x, In x l -> f x = g x) -> flat_map f l = flat_map g l.
Proof. induction l as [|x l IH]; cbn; intros H; auto. rewrite H by auto. f_equal. apply IH. auto. Qed.
Lemma map_const {A B} (f : A -> B) (y : B) l : (forall x, In x l -> f x = y) -> map f l = repeat y (length l).
Proof. induction l as [|x l IH]; cbn; intros H; auto. rewrite H by auto. f_equal. apply IH. auto. Qed.
Lemma merged_of (b : oobject) objects rels : NoDup (map oo_id objects) -> In b objects ->
  filter (fun m => Nat.eqb (oo_id (fst m)) (oo_id b)) (flat_map (fun x => map (fun r => (x, or_event r)) (filter (fun r => Nat.eqb (or_object r) (oo_id x)) rels)) objects)
  = map (fun r => (b, or_event r)) (filter (fun r => Nat.eqb (or_object r) (oo_id b)) rels).
Proof.
  intros ND Hb. rewrite filter_flat_map.
  assert (E : forall x, filter (fun m : oobject * nat => Nat.eqb (oo_id (fst m)) (oo_id b)) (map (fun r => (x, or_event r)) (filter (fun r => Nat.eqb (or_object r) (oo_id x)) rels)) = if Nat.eqb (oo_id x) (oo_id b) then map (fun r => (x, or_event r)) (filter (fun r => Nat.eqb (or_object r) (oo_id x)) rels) else []).
  { intros x. rewrite filter_map'. cbn. destruct (Nat.eqb (oo_id x) (oo_id b)). - f_equal. induction (filter (fun r => Nat.eqb (or_object r) (oo_id x)) rels); cbn; congruence. - induction (filter (fun r => Nat.eqb (or_object r) (oo_id x)) rels); cbn; auto. }
  rewrite (flat_map_ext' _ _ _ (fun x _ => E x)). clear E. induction objects as [|x l IH]; [destruct Hb|]. cbn in ND. inversion ND; subst. cbn. destruct Hb as [->|Hb].
  - rewrite Nat.eqb_refl. rewrite flat_map_nil; [rewrite app_nil_r; auto|]. intros y Hy. destruct (Nat.eqb_spec (oo_id y) (oo_id b)) as [E|]; auto. exfalso. apply H1. rewrite <- E. apply in_map; auto.
  - destruct (Nat.eqb_spec (oo_id x) (oo_id b)) as [E|]; [exfalso; apply H1; rewrite E; apply in_map; auto|]. cbn. auto.
Qed.
Definition mult (o : ocel) (e b : nat) : nat := length (filter (fun r => Nat.eqb (or_event r) e && Nat.eqb (or_object r) b) (o_rels o)).
Lemma nodup_filter_map {A B} (f : A -> B) p l : NoDup (map f l) -> NoDup (map f (filter p l)).
Proof.
  induction l as [|x l IH]; cbn; auto. intros H. inversion H; subst. destruct (p x); cbn; auto. constructor; auto. rewrite in_map_iff. intros (y & E & Hy). apply filter_In in Hy as [Hy _]. apply H2. rewrite <- E. apply in_map; auto.
Qed.
Lemma flatten_case ot o b : well_formed o -> In b (o_objects o) -> oo_type b = ot ->
  filter (fun f => Nat.eqb (fr_case f) (oo_id b)) (flatten ot o) = flat_map (fun e => repeat (FRow (oo_id b) (oo_att b) e) (mult o (oe_id e) (oo_id b))) (o_events o).
Proof.
  intros (R & _ & ND & _ & HT) Hb Ht. unfold flatten. rewrite filter_flat_map. apply flat_map_ext'. intros e _. rewrite filter_map'. cbn. rewrite filter_comm. rewrite merged_of; [|apply nodup_filter_map; auto|apply filter_In; split; auto; apply Nat.eqb_eq; auto].
  rewrite filter_map', map_map. cbn. rewrite (map_const _ (FRow (oo_id b) (oo_att b) e)) by auto. f_equal. unfold mult.
  assert (G : forall l, incl l (o_rels o) -> length (filter (fun r => Nat.eqb (or_event r) (oe_id e)) (filter (fun r => Nat.eqb (or_object r) (oo_id b)) (filter (fun r => Nat.eqb (or_type r) ot) l))) = length (filter (fun r => Nat.eqb (or_event r) (oe_id e) && Nat.eqb (or_object r) (oo_id b)) l)).
  { induction l as [|r l IH]; intros Hl; auto. cbn. assert (Hr : In r (o_rels o)) by (apply Hl; left; auto). assert (Hl' : incl l (o_rels o)) by (intros x Hx; apply Hl; right; auto).
    destruct (Nat.eqb_spec (or_object r) (oo_id b)) as [E|E].
    - rewrite (HT r b Hr Hb E), Ht, Nat.eqb_refl. cbn. rewrite (proj2 (Nat.eqb_eq _ _) E). cbn. destruct (Nat.eqb (or_event r) (oe_id e)); cbn; auto.
    - rewrite andb_false_r. destruct (Nat.eqb (or_type r) ot); cbn; auto. rewrite (proj2 (Nat.eqb_neq _ _) E). auto. }
  apply G, incl_refl.
Qed.
Lemma mult_pos o e b : 0 < mult o e b <-> related o e b.
Proof.
  unfold mult, related. split.
  - intros H. destruct (filter (fun r => Nat.eqb (or_event r) e && Nat.eqb (or_object r) b) (o_rels o)) as [|r l] eqn:E; [cbn in H; lia|]. assert (Hr : In r (r :: l)) by (left; auto). rewrite <- E in Hr. apply filter_In in Hr as [A B]. apply andb_true_iff in B as [B C]. apply Nat.eqb_eq in B, C. exists r; auto.
  - intros (r & A & <- & <-). assert (H : In r (filter (fun r0 => Nat.eqb (or_event r0) (or_event r) && Nat.eqb (or_object r0) (or_object r)) (o_rels o))) by (apply filter_In; rewrite !Nat.eqb_refl; auto). destruct (filter _ _); [destruct H|cbn; lia].
Qed.
Lemma mult_unique o e b : NoDup (map (fun r => (or_event r, or_object r)) (o_rels o)) -> mult o e b <= 1.
Proof.
  unfold mult. induction (o_rels o) as [|r l IH]; cbn; intros H; [lia|]. inversion H; subst. destruct (Nat.eqb_spec (or_event r) e) as [E|E]; cbn; auto. destruct (Nat.eqb_spec (or_object r) b) as [E'|E']; cbn; auto.
  assert (filter (fun r => Nat.eqb (or_event r) e && Nat.eqb (or_object r) b) l = []) as ->; [|cbn; lia].
  destruct (filter (fun r => Nat.eqb (or_event r) e && Nat.eqb (or_object r) b) l) as [|q k] eqn:F; auto. exfalso. assert (Hq : In q (q :: k)) by (left; auto). rewrite <- F in Hq. apply filter_In in Hq as [A B]. apply andb_true_iff in B as [B C]. apply Nat.eqb_eq in B, C. apply H2. rewrite E, E', <- B, <- C. apply (in_map (fun r => (or_event r, or_object r))); auto.
Qed.
Lemma flatten_in ot o f : In f (flatten ot o) -> In (fr_event f) (o_events o) /\ exists b, In b (o_objects o) /\ oo_type b = ot /\ fr_case f = oo_id b /\ fr_case_att f = oo_att b /\ related o (oe_id (fr_event f)) (oo_id b).
Proof.
  unfold flatten. rewrite in_flat_map. intros (e & He & H). apply in_map_iff in H as ([b e'] & <- & H). apply filter_In in H as [H E]. apply Nat.eqb_eq in E. cbn in *. subst e'. apply in_flat_map in H as (x & Hx & H). apply in_map_iff in H as (r & E & Hr). injection E as -> E. apply filter_In in Hr as [Hr Eo]. apply filter_In in Hr as [Hr _]. apply filter_In in Hx as [Hx Ht]. apply Nat.eqb_eq in Eo, Ht.
  split; auto. exists b. repeat split; auto. exists r. auto.
Qed.

(** ---- lives of objects *)
Definition born (o : ocel) (evs : list nat) (a e : nat) : Prop := exists pre post, evs = pre ++ e :: post /\ related o e a /\ forall f, In f pre -> ~ related o f a.
Lemma app_compare {A} (p p' : list A) x x' q q' : p ++ x :: q = p' ++ x' :: q' -> (p = p' /\ x = x' /\ q = q') \/ In x p' \/ In x' p.
Proof.
  revert p'. induction p as [|y p IH]; intros [|y' p'] E; cbn in E; injection E as <- E.
  - left. auto.
  - right. left. left. auto.
  - right. right. left. auto.
  - destruct (IH p' E) as [(-> & -> & ->)|[H|H]]; [left; auto|right; left; right; auto|right; right; right; auto].
Qed.
Lemma map_split {A B} (f : A -> B) l : forall pre y post, map f l = pre ++ y :: post -> exists a x b, l = a ++ x :: b /\ map f a = pre /\ f x = y /\ map f b = post.
Proof.
  induction l as [|x l IH]; intros [|z pre] y post E; try discriminate; cbn in E; injection E as E1 E2.
  - exists [], x, l. auto.
  - destruct (IH _ _ _ E2) as (a & u & b & -> & <- & <- & <-). exists (x :: a), u, b. cbn. rewrite E1. auto.
Qed.
Lemma born_first o a e : born o (map oe_id (o_events o)) a e <-> first_event o a e.
Proof.
  unfold born, first_event. split.
  - intros (pre & post & E & A & B). apply map_split in E as (p & x & q & E & <- & Ex & <-). exists p, x, q. split; auto. split; auto. split; auto. intros y Hy. apply B. apply in_map; auto.
  - intros (p & x & q & E & <- & A & B). exists (map oe_id p), (map oe_id q). rewrite E, map_app. split; auto. split; auto. intros f Hf. apply in_map_iff in Hf as (y & <- & Hy). auto.
Qed.
Lemma born_last o a e : born o (rev (map oe_id (o_events o))) a e <-> last_event o a e.
Proof.
  unfold born, last_event. rewrite <- map_rev. split.
  - intros (pre & post & E & A & B). apply map_split in E as (p & x & q & E & <- & Ex & <-). exists (rev q), x, (rev p). split; [rewrite <- (rev_involutive (o_events o)), E, rev_app_distr; cbn; rewrite <- app_assoc; auto|]. split; auto. split; auto. intros y Hy. apply B. apply in_map. apply in_rev; auto.
  - intros (p & x & q & E & <- & A & B). exists (map oe_id (rev q)), (map oe_id (rev p)). rewrite E, rev_app_distr. cbn. rewrite <- app_assoc, map_app. split; auto. split; auto. intros f Hf. apply in_map_iff in Hf as (y & <- & Hy). apply B. apply in_rev; auto.
Qed.
Lemma get_rel_obj_some o e : (exists b, related o e b) -> get_rel_obj o e = Some (rel_obj o e).
Proof. intros (b & H). apply rel_obj_in in H. unfold get_rel_obj. destruct (rel_obj o e); [destruct H|auto]. Qed.
Lemma get_rel_obj_none o e : (forall b, ~ related o e b) -> get_rel_obj o e = None.
Proof. intros H. unfold get_rel_obj. destruct (rel_obj o e) as [|b l] eqn:E; auto. exfalso. apply (H b). apply rel_obj_in. rewrite E. left; auto. Qed.
Definition busy_log (o : ocel) : Prop := forall e, In e (o_events o) -> exists b, related o (oe_id e) b.
Section Life.
  Variables (o : ocel) (pairs : list nat -> list nat -> list edge).
  Hypothesis pairs_ext : forall u u' v v' x, (forall y, In y u <-> In y u') -> (forall y, In y v <-> In y v') -> In x (pairs u v) -> In x (pairs u' v').
  Lemma life_graph_ok evs : forall seen, (forall e, In e evs -> exists b, related o e b) -> exists g, life_graph o pairs evs seen = Some g /\
    forall x, In x g <-> exists pre e post old new, evs = pre ++ e :: post /\
      (forall y, In y old <-> related o e y /\ (In y seen \/ exists f, In f pre /\ related o f y)) /\
      (forall y, In y new <-> related o e y /\ ~ (In y seen \/ exists f, In f pre /\ related o f y)) /\ In x (pairs old new).
  Proof.
    induction evs as [|e evs IH]; intros seen H; cbn [life_graph].
    - exists []. split; auto. intros x. split; [intros []|]. intros ([|] & ? & ? & ? & ? & E & _); discriminate.
    - rewrite get_rel_obj_some by (apply H; left; auto). set (old := filter (fun x => smem x seen) (rel_obj o e)). set (new := filter (fun x => negb (smem x old)) (rel_obj o e)).
      assert (HO : forall y, In y old <-> related o e y /\ In y seen) by (intros y; unfold old; rewrite filter_In, rel_obj_in, smem_in; reflexivity).
      assert (HN : forall y, In y new <-> related o e y /\ ~ In y seen) by (intros y; unfold new; rewrite filter_In, rel_obj_in, negb_true_iff, smem_false, HO; tauto).
      destruct (IH (seen ++ new)) as (g & -> & Hg); [intros; apply H; right; auto|]. eexists. split; [reflexivity|]. intros x. rewrite in_app_iff, Hg. clear IH Hg.
      assert (HS : forall pre y, (In y (seen ++ new) \/ exists f, In f pre /\ related o f y) <-> (In y seen \/ exists f, In f (e :: pre) /\ related o f y)).
      { intros pre y. rewrite in_app_iff, HN. split.
        - intros [[A|[A B]]|(f & A & B)]; [left; auto|right; exists e; split; [left|]; auto|right; exists f; split; [right|]; auto].
        - intros [A|(f & [<-|A] & B)]; [auto| |right; eauto]. destruct (in_dec Nat.eq_dec y seen); auto. }
      split.
      + intros [A|(pre & e' & post & u & v & -> & Hu & Hv & A)].
        * exists [], e, evs, old, new. split; auto. split; [|split; auto]; intros y; [rewrite HO|rewrite HN]; split; intros [B C]; (split; [auto|]); [auto|destruct C as [|(? & [] & _)]; auto|intros [?|(? & [] & _)]; auto|intros ?; apply C; auto].
        * exists (e :: pre), e', post, u, v. split; auto. split; [|split; auto]; intros y; [rewrite Hu|rewrite Hv]; rewrite HS; reflexivity.
      + intros ([|e0 pre] & e' & post & u & v & E & Hu & Hv & A); cbn in E; injection E as <- ->.
        * left. apply (pairs_ext u old v new x); auto; intros y; [rewrite Hu, HO|rewrite Hv, HN]; split; intros [B C]; (split; [auto|]); [destruct C as [|(? & [] & _)]; auto|auto|intros ?; apply C; auto|intros [?|(? & [] & _)]; auto].
        * right. exists pre, e', post, u, v. split; auto. split; [|split; auto]; intros y; [rewrite Hu|rewrite Hv]; rewrite HS; reflexivity.
  Qed.
  Lemma life_graph_raises evs : forall seen e, In e evs -> (forall b, ~ related o e b) -> life_graph o pairs evs seen = None.
  Proof.
    induction evs as [|f evs IH]; intros seen e H N; [destruct H|]. destruct H as [->|H]; cbn; [rewrite get_rel_obj_none; auto|]. destruct (get_rel_obj o f); auto. rewrite (IH _ e); auto.
  Qed.
End Life.
Lemma less_ext : forall (u u' v v' : list nat) (x : edge), (forall y, In y u <-> In y u') -> (forall y, In y v <-> In y v') -> In x (less_pairs v v) -> In x (less_pairs v' v').
Proof. intros u u' v v' [a b] Hu Hv. rewrite !less_pairs_in, !Hv. auto. Qed.
Lemma cobirth_born o evs : (forall e, In e evs -> exists b, related o e b) -> exists g, life_graph o (fun _ new => less_pairs new new) evs [] = Some g /\
  forall a b, In (a, b) g <-> a < b /\ exists e, born o evs a e /\ born o evs b e.
Proof.
  intros H. destruct (life_graph_ok o (fun _ new => less_pairs new new) ltac:(intros; eapply less_ext; eauto) evs [] H) as (g & -> & Hg). exists g. split; auto. intros a b. rewrite Hg. split.
  - intros (pre & e & post & old & new & E & _ & HN & X). apply less_pairs_in in X as (A & B & C). apply HN in A, B. split; auto. exists e. split; exists pre, post; (split; [auto|split; [tauto|]]); intros f Hf Hr; [destruct A as [_ A]; apply A|destruct B as [_ B]; apply B]; right; eauto.
  - intros (L & e & (pre & post & E & A & A') & (pre' & post' & E' & B & B')).
    assert (pre = pre') as <-. { rewrite E in E'. destruct (app_compare _ _ _ _ _ _ E') as [(? & _)|[X|X]]; auto; exfalso; [apply (B' _ X); auto|apply (A' _ X); auto]. }
    set (seenb := fun y => existsb (fun f => smem y (rel_obj o f)) pre).
    assert (HS : forall y, seenb y = true <-> exists f, In f pre /\ related o f y) by (intros y; unfold seenb; rewrite existsb_exists; split; intros (f & F1 & F2); exists f; rewrite smem_in, rel_obj_in in *; auto).
    exists pre, e, post, (filter seenb (rel_obj o e)), (filter (fun y => negb (seenb y)) (rel_obj o e)). split; auto.
    assert (HN : forall y, In y (filter (fun y => negb (seenb y)) (rel_obj o e)) <-> related o e y /\ ~ (In y [] \/ exists f, In f pre /\ related o f y)).
    { intros y. rewrite filter_In, rel_obj_in, negb_true_iff, <- not_true_iff_false, HS. cbn. tauto. }
    split; [intros y; rewrite filter_In, rel_obj_in, HS; cbn; tauto|]. split; auto. apply less_pairs_in. rewrite !HN. split; [|split; auto]; (split; [auto|]); intros [[]|(f & F1 & F2)]; [apply (A' f)|apply (B' f)]; auto.
Qed.
Lemma prod_ext : forall (u u' v v' : list nat) (x : edge), (forall y, In y u <-> In y u') -> (forall y, In y v <-> In y v') -> In x (list_prod u v) -> In x (list_prod u' v').
Proof. intros u u' v v' [a b] Hu Hv H. apply (proj1 (in_prod_iff _ _ _ _)) in H as [A B]. apply in_prod_iff. split; [apply Hu|apply Hv]; auto. Qed.
Lemma descendants_born o evs : (forall e, In e evs -> exists b, related o e b) -> exists g, life_graph o (fun old new => list_prod old new) evs [] = Some g /\
  forall a b, In (a, b) g <-> exists e, born o evs b e /\ related o e a /\ ~ born o evs a e.
Proof.
  intros H. destruct (life_graph_ok o (fun old new => list_prod old new) prod_ext evs [] H) as (g & -> & Hg). exists g. split; auto. intros a b. rewrite Hg. split.
  - intros (pre & e & post & old & new & E & HO & HN & X). apply in_prod_iff in X as (A & B). apply HO in A. apply HN in B. destruct A as [A [[]|(f & F1 & F2)]], B as [B B'].
    assert (Bb : forall f, In f pre -> ~ related o f b) by (intros x X Y; apply B'; right; eauto).
    exists e. split; [exists pre, post; auto|]. split; auto. intros (pre' & post' & E' & _ & A'). rewrite E in E'. destruct (app_compare _ _ _ _ _ _ E') as [(<- & _)|[X|X]]; [eapply A'; eauto|eapply A'; eauto|eapply Bb; eauto].
  - intros (e & (pre & post & E & B & B') & A & NA).
    set (seenb := fun y => existsb (fun f => smem y (rel_obj o f)) pre).
    assert (HS : forall y, seenb y = true <-> exists f, In f pre /\ related o f y) by (intros y; unfold seenb; rewrite existsb_exists; split; intros (f & F1 & F2); exists f; rewrite smem_in, rel_obj_in in *; auto).
    exists pre, e, post, (filter seenb (rel_obj o e)), (filter (fun y => negb (seenb y)) (rel_obj o e)). split; auto.
    assert (HN : forall y, In y (filter (fun y => negb (seenb y)) (rel_obj o e)) <-> related o e y /\ ~ (In y [] \/ exists f, In f pre /\ related o f y)).
    { intros y. rewrite filter_In, rel_obj_in, negb_true_iff, <- not_true_iff_false, HS. cbn. tauto. }
    split; [intros y; rewrite filter_In, rel_obj_in, HS; cbn; tauto|]. split; auto. apply in_prod_iff. rewrite HN, filter_In, rel_obj_in. split; [split; auto|split; [auto|]; intros [[]|(f & F1 & F2)]; apply (B' f); auto].
    destruct (seenb a) eqn:S; auto. exfalso. apply NA. exists pre, post. split; auto. split; auto. intros f Hf Hr. rewrite <- not_true_iff_false in S. apply S, HS. eauto.
Qed.
(** ---- inheritance *)
Lemma fold_set (e : nat) new : forall (d : dict nat nat) a, d_get (fold_left (fun d x => d_set d x e) new d) a = if smem a new then Some e else d_get d a.
Proof.
  induction new as [|x new IH]; intros d a; auto. cbn [fold_left]. rewrite IH. destruct (smem a new) eqn:S.
  - assert (smem a (x :: new) = true) as ->; auto. apply smem_in. right. apply smem_in; auto.
  - destruct (Nat.eq_dec x a) as [->|N].
    + rewrite d_get_set_same. assert (smem a (a :: new) = true) as -> by (apply smem_in; left; auto). auto.
    + rewrite d_get_set_other by auto. assert (smem a (x :: new) = false) as ->; auto. apply smem_false. apply smem_false in S. intros [?|?]; auto.
Qed.
Lemma last_events_ok o evs : forall seen d, (forall e, In e evs -> exists b, related o e b) -> exists d', last_events o evs seen d = Some d' /\
  forall a e, d_get d' a = Some e <-> (d_get d a = Some e /\ ~ exists f, In f evs /\ related o f a /\ ~ In a seen) \/ (~ In a seen /\ born o evs a e).
Proof.
  induction evs as [|f evs IH]; intros seen d H; cbn [last_events].
  - exists d. split; auto. intros a e. split; [intros; left; split; auto; intros (? & [] & _)|]. intros [[A _]|(_ & [|] & ? & E & _)]; auto; discriminate.
  - rewrite get_rel_obj_some by (apply H; left; auto). set (old := filter (fun x => smem x seen) (rel_obj o f)). set (new := filter (fun x => negb (smem x old)) (rel_obj o f)).
    assert (HN : forall y, In y new <-> related o f y /\ ~ In y seen) by (intros y; unfold new, old; rewrite filter_In, rel_obj_in, negb_true_iff, smem_false, filter_In, rel_obj_in, smem_in; tauto).
    destruct (IH (seen ++ new) (fold_left (fun d x => d_set d x f) new d)) as (d' & -> & Hd); [intros; apply H; right; auto|]. exists d'. split; auto. intros a e. rewrite Hd, fold_set, in_app_iff. clear IH Hd.
    destruct (smem a new) eqn:S; [apply smem_in in S|apply smem_false in S].
    + pose proof (proj1 (HN a) S) as [S1 S2]. split.
      * intros [[A _]|[A _]]; [|tauto]. injection A as <-. right. split; auto. exists [], evs. split; auto.
      * intros [[_ A]|[_ (pre & post & E & A & B)]]; [exfalso; apply A; exists f; split; [left|]; auto|]. left. split; [|intros (? & _ & _ & X); apply X; apply in_or_app; auto]. destruct pre as [|g pre]; cbn in E; injection E as -> E; auto. exfalso. apply (B g); [left|]; auto.
    + split.
      * intros [[A B]|[A (pre & post & -> & C & D)]].
        -- left. split; auto. intros (g & [<-|G1] & G2 & G3); [apply S, HN; auto|]. apply B. exists g. split; auto. split; auto. rewrite in_app_iff. tauto.
        -- right. split; [tauto|]. exists (f :: pre), post. split; auto. split; auto. intros g [<-|Hg]; auto. intros X. apply S, HN. tauto.
      * intros [[A B]|[A (pre & post & E & C & D)]].
        -- left. split; auto. intros (g & G1 & G2 & G3). apply B. exists g. split; [right; auto|]. split; auto. rewrite in_app_iff in G3. tauto.
        -- right. split; [tauto|]. destruct pre as [|g pre]; cbn in E; injection E as -> E; [exfalso; apply S, HN; auto|]. exists pre, post. split; auto. split; auto. intros h Hh. apply D. right; auto.
Qed.
Lemma inherit_ok o last evs : forall seen, (forall e, In e evs -> exists b, related o e b) -> exists g, inherit o last evs seen = Some g /\
  forall a b, In (a, b) g <-> a <> b /\ ~ In b seen /\ exists e, born o evs b e /\ related o e a /\ d_get last a = Some e.
Proof.
  induction evs as [|f evs IH]; intros seen H; cbn [inherit].
  - exists []. split; auto. intros a b. split; [intros []|]. intros (_ & _ & e & ([|] & ? & E & _) & _); discriminate.
  - rewrite get_rel_obj_some by (apply H; left; auto). set (old := filter (fun x => smem x seen) (rel_obj o f)). set (new := filter (fun x => negb (smem x old)) (rel_obj o f)).
    set (lst := filter (fun x => match d_get last x with Some e' => Nat.eqb e' f | None => false end) (rel_obj o f)).
    assert (HN : forall y, In y new <-> related o f y /\ ~ In y seen) by (intros y; unfold new, old; rewrite filter_In, rel_obj_in, negb_true_iff, smem_false, filter_In, rel_obj_in, smem_in; tauto).
    assert (HL : forall y, In y lst <-> related o f y /\ d_get last y = Some f).
    { intros y. unfold lst. rewrite filter_In, rel_obj_in. destruct (d_get last y) as [g|]; [|split; intros [? ?]; discriminate]. rewrite Nat.eqb_eq. split; intros [? E]; split; auto; congruence. }
    destruct (IH (seen ++ new)) as (g & -> & Hg); [intros; apply H; right; auto|]. eexists. split; [reflexivity|]. intros a b. rewrite in_app_iff, Hg, in_app_iff. clear IH Hg. split.
    + intros [A|(A & B & e & (pre & post & -> & C & C') & D)].
      * apply in_flat_map in A as (y & Hy & A). apply in_flat_map in A as (x & Hx & A). destruct (Nat.eqb_spec x y); [destruct A|]. destruct A as [A|[]]. injection A as -> ->. apply HN in Hy. apply HL in Hx. split; auto. split; [tauto|]. exists f. split; [|tauto]. exists [], evs. split; auto. split; [tauto|]. intros ? [].
      * split; auto. split; [tauto|]. exists e. split; auto. exists (f :: pre), post. split; auto. split; auto. intros h [<-|Hh]; auto. intros X. apply B. right. apply HN. tauto.
    + intros (A & B & e & (pre & post & E & C & C') & D & D'). destruct pre as [|h pre]; cbn in E; injection E as -> E.
      * left. apply in_flat_map. exists b. split; [apply HN; auto|]. apply in_flat_map. exists a. split; [apply HL; auto|]. apply Nat.eqb_neq in A as ->. left; auto.
      * right. split; auto. split; [rewrite HN; intros [?|[X _]]; [tauto|]; apply (C' h); [left|]; auto|]. exists e. split; auto. exists pre, post. split; auto. split; auto. intros k Hk. apply C'. right; auto.
Qed.
Lemma mem_edge_in x g : mem_edge x g = true <-> In x g.
Proof.
  unfold mem_edge. rewrite existsb_exists. split; [|intros H; exists x; rewrite !Nat.eqb_refl; auto]. intros ([a b] & H & E). apply andb_true_iff in E as [E1 E2]. apply Nat.eqb_eq in E1, E2. destruct x; cbn in *; subst; auto.
Qed.
Lemma inheritance_ok o : busy_log o -> exists g, inheritance_graph o = Some g /\
  forall a b, In (a, b) g <-> a <> b /\ (exists e, last_event o a e /\ first_event o b e) /\ ~ exists e, last_event o b e /\ first_event o a e.
Proof.
  intros H. assert (H1 : forall e, In e (map oe_id (o_events o)) -> exists b, related o e b) by (intros e He; apply in_map_iff in He as (x & <- & Hx); auto).
  unfold inheritance_graph. destruct (last_events_ok o (rev (map oe_id (o_events o))) [] []) as (d & -> & Hd); [intros e He; apply H1, in_rev; auto|].
  destruct (inherit_ok o d (map oe_id (o_events o)) [] H1) as (g & -> & Hg). eexists. split; [reflexivity|].
  assert (HD : forall a e, d_get d a = Some e <-> last_event o a e). { intros a e. rewrite Hd, <- born_last. cbn. split; [intros [[? _]|[_ ?]]; [discriminate|auto]|auto]. }
  assert (HG : forall a b, In (a, b) g <-> a <> b /\ exists e, last_event o a e /\ first_event o b e).
  { intros a b. rewrite Hg. split.
    - intros (A & _ & e & B & _ & C). split; auto. exists e. rewrite <- HD, <- born_first. auto.
    - intros (A & e & B & C). split; auto. split; [intros []|]. exists e. split; [apply born_first; auto|]. split; [destruct B as (? & ? & ? & _ & _ & X & _); auto|apply HD; auto]. }
  intros a b. rewrite filter_In, negb_true_iff, <- not_true_iff_false, mem_edge_in. cbn. rewrite !HG. split; [intros ((A & B) & C); split; auto; split; auto|intros (A & B & C); split; auto; tauto].
Qed.
