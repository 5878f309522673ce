From Coq Require Import List Arith Bool ZArith Lia Permutation Sorted.
Import ListNotations.
From Verif Require Import Model_Lev Proofs_Lev Model_Dict Proofs_Dict Model_Dfg Model_Graph Model_IM Proofs_Graph Spec_Dfg Proofs_Dfg Spec_Filter Proofs_Filter Model_Ocel Spec_Ocel Proofs_Ocel1 Proofs_Ocel2 Model_Ocdfg Spec_Ocdfg.
Local Open Scope nat_scope.
Local Arguments smem : simpl never.

(** adjacent elements of a filtered list *)
Lemma filter_nil_iff {X} (p : X -> bool) l : filter p l = [] <-> forall z, In z l -> p z = false.
Proof. induction l as [|x l IH]; cbn; [firstorder|]. destruct (p x) eqn:E; split; intros H; [discriminate|rewrite (H x) in E by auto; discriminate|intros z [<-|Hz]; [auto|apply IH; auto]|apply IH; intros; apply H; auto]. Qed.
Lemma filter_adjacent {X} (p : X -> bool) L x y : (exists q1 q2, filter p L = q1 ++ x :: y :: q2) <->
  exists p1 mid p2, L = p1 ++ x :: mid ++ y :: p2 /\ p x = true /\ p y = true /\ forall z, In z mid -> p z = false.
Proof.
  split.
  - intros (q1 & q2 & E). apply filter_cons_split in E as (a & b & -> & _ & E & Px). apply (filter_cons_split p b [] y q2) in E as (m & c & -> & Em & _ & Py). exists a, m, c. split; auto. split; auto. split; auto. apply filter_nil_iff. auto.
  - intros (p1 & mid & p2 & -> & Px & Py & Hm). exists (filter p p1), (filter p p2). rewrite filter_app. cbn. rewrite Px, filter_app. cbn. rewrite Py. apply filter_nil_iff in Hm. rewrite Hm. reflexivity.
Qed.
Lemma map_adjacent {X Y} (f : X -> Y) l u v : (exists q1 q2, map f l = q1 ++ u :: v :: q2) <-> exists r1 x y r2, l = r1 ++ x :: y :: r2 /\ f x = u /\ f y = v.
Proof.
  split.
  - intros (q1 & q2 & E). apply map_eq_app in E as (r1 & l2 & -> & _ & E). destruct l2 as [|x [|y r2]]; cbn in E; try discriminate. injection E as E1 E2 _. exists r1, x, y, r2. auto.
  - intros (r1 & x & y & r2 & -> & <- & <-). exists (map f r1), (map f r2). rewrite map_app. reflexivity.
Qed.

(** the pairs visited by the double loop *)
Definition visits (o : ocel) (evs : list oevent) : list (nat * nat) := flat_map (fun e => map (fun b => (oe_id e, b)) (rel_obj o (oe_id e))) evs.
Lemma fold_visits o evs : forall st, fold_left (fun st e => fold_left (ed_obj o) (map (fun b => (oe_id e, b)) (rel_obj o (oe_id e))) st) evs st = fold_left (ed_obj o) (visits o evs) st.
Proof. induction evs as [|e evs IH]; intros st; cbn [fold_left visits flat_map]; [auto|]. rewrite fold_left_app. apply IH. Qed.
(** [e] is the last event with [b] among the pairs *)
Definition latest (P : list (nat * nat)) (b : nat) (e : nat) : Prop := exists p q, P = p ++ (e, b) :: q /\ forall x, ~ In (x, b) q.
Definition steps (P : list (nat * nat)) (b e1 e2 : nat) : Prop := exists p1 mid p2, P = p1 ++ (e1, b) :: mid ++ (e2, b) :: p2 /\ forall x, ~ In (x, b) mid.
Lemma latest_last P b e x c : latest (P ++ [(x, c)]) b e <-> (b = c /\ e = x) \/ (b <> c /\ latest P b e).
Proof.
  split.
  - intros (p & q & E & H). destruct q as [|z q _] using rev_ind.
    + change (p ++ [(e, b)]) with (p ++ [(e, b)]) in E. apply app_inj_tail in E as [_ E]. injection E as -> ->. left; auto.
    + rewrite app_comm_cons, app_assoc in E. apply app_inj_tail in E as [E <-]. right. split; [intros ->; apply (H x); apply in_app_iff; right; left; auto|]. exists p, q. split; auto. intros y Hy. apply (H y). apply in_app_iff. auto.
  - intros [[-> ->]|[Hn (p & q & -> & H)]]; [exists P, []; split; auto|]. exists p, (q ++ [(x, c)]). split; [rewrite <- app_assoc; auto|]. intros y Hy. apply in_app_iff in Hy as [Hy|[Hy|[]]]; [apply (H y Hy)|congruence].
Qed.
Lemma steps_last P b e1 e2 x c : steps (P ++ [(x, c)]) b e1 e2 <-> steps P b e1 e2 \/ (b = c /\ e2 = x /\ latest P b e1).
Proof.
  split.
  - intros (p1 & mid & p2 & E & H). destruct p2 as [|z p2 _] using rev_ind.
    + rewrite app_comm_cons, app_assoc in E. apply app_inj_tail in E as [E E']. injection E' as -> ->. right. split; auto. split; auto. exists p1, mid. auto.
    + left. exists p1, mid, p2. split; auto. 
      replace (p1 ++ (e1, b) :: mid ++ (e2, b) :: p2 ++ [z]) with ((p1 ++ (e1, b) :: mid ++ (e2, b) :: p2) ++ [z]) in E by (rewrite <- !app_assoc; cbn; rewrite <- app_assoc; reflexivity).
      apply app_inj_tail in E as [E _]. auto.
  - intros [(p1 & mid & p2 & -> & H)|(-> & -> & (p & q & -> & H))].
    + exists p1, mid, (p2 ++ [(x, c)]). split; auto. rewrite <- !app_assoc. cbn. rewrite <- app_assoc. reflexivity.
    + exists p, q, []. split; auto. rewrite <- app_assoc. reflexivity.
Qed.

Section Edges.
  Variable o : ocel.
  Lemma e_get_set d k l k' : e_get (d_set d k l) k' = if keqb k k' then l else e_get d k'.
  Proof. unfold e_get. rewrite d_get_set. destruct (keqb k k'); auto. Qed.
  Definition egood (P : list (nat * nat)) (h : dict nat nat) (d : oedges) : Prop :=
    (forall b e, d_get h b = Some e <-> latest P b e) /\ NoDup (d_keys d) /\ (forall k, In k (d_keys d) -> e_get d k <> []) /\
    (forall ot a1 a2 e1 e2 b, In (e1, e2, b) (e_get d (ot, (a1, a2))) <-> steps P b e1 e2 /\ type_of o b = Some ot /\ act_of o e1 = Some a1 /\ act_of o e2 = Some a2) /\
    (NoDup P -> forall k, NoDup (e_get d k)).
  Lemma visits_ok : forall P, (forall e b, In (e, b) P -> (exists a, act_of o e = Some a) /\ exists t, type_of o b = Some t) ->
    exists h d, fold_left (ed_obj o) P (Some ([], [])) = Some (h, d) /\ egood P h d.
  Proof.
    induction P as [|[e b] P IH] using rev_ind; intros HP.
    - exists [], []. split; [reflexivity|]. split; [|split; [constructor|split; [intros k []|split; [|intros _ k; constructor]]]].
      + intros b e. split; [discriminate|intros (p & q & E & _); destruct p; discriminate].
      + intros ot a1 a2 e1 e2 b. split; [intros []|intros ((p & m & q & E & _) & _); destruct p; discriminate].
    - destruct IH as (h & d & E & G1 & G2 & G3 & G4 & G5); [intros x y H; apply HP; apply in_app_iff; auto|]. rewrite fold_left_app, E. cbn [fold_left ed_obj fst snd].
      assert (Hh : forall b' e', d_get (d_set h b e) b' = Some e' <-> latest (P ++ [(e, b)]) b' e').
      { intros b' e'. rewrite latest_last, d_get_set. change (keqb b b') with (Nat.eqb b b'). destruct (Nat.eqb_spec b b') as [->|Hn]; [split; [intros [= ->]; auto|intros [[_ ->]|[H _]]; congruence]|]. rewrite G1. split; [intros H; right; split; auto|intros [[-> _]|[_ H]]; [congruence|auto]]. }
      destruct (d_get h b) as [prev|] eqn:Eb.
      + pose proof (proj1 (G1 _ _) Eb) as L. destruct L as (p & q & EP & Hq).
        destruct (HP prev b) as [[a1 Ha1] [t Ht]]; [rewrite EP; apply in_app_iff; left; apply in_app_iff; right; left; auto|]. destruct (HP e b) as [[a2 Ha2] _]; [apply in_app_iff; right; left; auto|].
        rewrite Ht, Ha1, Ha2. eexists _, _. split; [reflexivity|]. split; [exact Hh|]. split; [apply d_nodup_set; auto|]. split; [|split].
        * intros k Hk. rewrite e_get_set. destruct (keqb_spec (t, (a1, a2)) k) as [<-|Hn]; [destruct (e_get d (t, (a1, a2))); discriminate|]. apply d_in_keys_set in Hk as [->|Hk]; [congruence|auto].
        * intros ot x1 x2 e1 e2 b'. rewrite steps_last, e_get_set. destruct (keqb_spec (t, (a1, a2)) (ot, (x1, x2))) as [[= <- <- <-]|Hn].
          { rewrite in_app_iff, G4. split.
            - intros [(S & R)|[[= <- <- <-]|[]]]; [split; [left; auto|auto]|]. split; [right; split; auto; split; auto; exists p, q; auto|auto].
            - intros ([S|(-> & -> & L)] & R); [left; auto|]. right. left. assert (Some e1 = Some prev) as [= ->] by (rewrite <- Eb; symmetry; apply G1; auto). reflexivity. }
          { rewrite G4. split; [intros (S & R); split; auto|]. intros ([S|(-> & -> & L)] & R1 & R2 & R3); [auto|]. exfalso. assert (Some e1 = Some prev) as [= ->] by (rewrite <- Eb; symmetry; apply G1; auto). congruence. }
        * intros N k. rewrite e_get_set. apply NoDup_remove in N as N'. rewrite app_nil_r in N'. destruct N' as [N' Nin]. destruct (keqb_spec (t, (a1, a2)) k) as [<-|Hn]; [|apply G5; auto].
          apply NoDup_app_intro; [apply G5; auto|constructor; [intros []|constructor]|]. intros [[u v] w] Hu [[= <- <- <-]|[]]. apply G4 in Hu as ((p1 & m & p2 & EE & _) & _). apply Nin. rewrite EE. apply in_app_iff. right. right. apply in_app_iff. right. left. auto.
      + eexists _, _. split; [reflexivity|]. split; [exact Hh|]. split; [auto|]. split; [auto|]. split.
        * intros ot x1 x2 e1 e2 b'. rewrite steps_last, G4. split; [intros (S & R); auto|]. intros ([S|(-> & -> & L)] & R); [auto|]. apply G1 in L. congruence.
        * intros N k. apply G5. apply NoDup_remove in N as [N _]. rewrite app_nil_r in N. auto.
  Qed.
End Edges.

Lemma find_unique {X} (id : X -> nat) l x : NoDup (map id l) -> In x l -> find (fun y => Nat.eqb (id y) (id x)) l = Some x.
Proof.
  induction l as [|y l IH]; intros N H; [destruct H|]. inversion N; subst. cbn. destruct (Nat.eqb_spec (id y) (id x)) as [E|E]; [|destruct H as [->|H]; [congruence|auto]].
  destruct H as [->|H]; [auto|]. exfalso. apply H2. rewrite E. apply in_map. auto.
Qed.
Lemma act_of_ok o : NoDup (map oe_id (o_events o)) -> forall e a, act_of o e = Some a <-> has_activity o e a.
Proof.
  intros N e a. unfold act_of. split.
  - destruct (find _ _) as [x|] eqn:E; [|discriminate]. intros [= <-]. apply find_some in E as [H E]. apply Nat.eqb_eq in E. exists x. auto.
  - intros (x & H & <- & <-). rewrite (find_unique oe_id); auto.
Qed.
Lemma type_of_ok o : NoDup (map oo_id (o_objects o)) -> forall b t, type_of o b = Some t <-> has_type o b t.
Proof.
  intros N e a. unfold type_of. split.
  - destruct (find _ _) as [x|] eqn:E; [|discriminate]. intros [= <-]. apply find_some in E as [H E]. apply Nat.eqb_eq in E. exists x. auto.
  - intros (x & H & <- & <-). rewrite (find_unique oo_id); auto.
Qed.
Lemma time_of_ok o : NoDup (map oe_id (o_events o)) -> forall e t, time_of o e = Some t <-> happens_at o e t.
Proof.
  intros N e a. unfold time_of. split.
  - destruct (find _ _) as [x|] eqn:E; [|discriminate]. intros [= <-]. apply find_some in E as [H E]. apply Nat.eqb_eq in E. exists x. auto.
  - intros (x & H & <- & <-). rewrite (find_unique oe_id); auto.
Qed.
Lemma rel_obj_nodup o e : related_once o -> NoDup (rel_obj o e).
Proof.
  unfold related_once, rel_obj. generalize (o_rels o). induction l as [|r l IH]; intros N; cbn; [constructor|]. inversion N; subst. destruct (Nat.eqb_spec (or_event r) e) as [<-|]; [|auto]. cbn. constructor; [|auto].
  intros H. apply in_map_iff in H as (s & E & H). apply filter_In in H as [H H']. apply Nat.eqb_eq in H'. apply H1. apply in_map_iff. exists s. split; congruence.
Qed.
Lemma visits_nodup o : related_once o -> forall l, NoDup (map oe_id l) -> NoDup (visits o l).
Proof.
  intros R. induction l as [|e l IH]; intros N; cbn; [constructor|]. inversion N; subst. apply NoDup_app_intro; [|auto|].
  - apply FinFun.Injective_map_NoDup; [intros x y [= ->]; auto|]. apply rel_obj_nodup. auto.
  - intros [x b] Hx Hy. apply in_map_iff in Hx as (b' & [= <- <-] & _). apply in_flat_map in Hy as (e' & He & Hb). apply in_map_iff in Hb as (b'' & [= Ee _] & _). apply H1. rewrite <- Ee. apply in_map. auto.
Qed.
Lemma visits_of o b : related_once o -> forall l, filter (fun p => Nat.eqb (snd p) b) (visits o l) = map (fun e => (oe_id e, b)) (filter (fun e => smem b (rel_obj o (oe_id e))) l).
Proof.
  intros R. induction l as [|e l IH]; [reflexivity|]. cbn [visits flat_map filter]. fold (visits o l). rewrite filter_app, IH.
  assert (A : filter (fun p : nat * nat => Nat.eqb (snd p) b) (map (fun c => (oe_id e, c)) (rel_obj o (oe_id e))) = if smem b (rel_obj o (oe_id e)) then [(oe_id e, b)] else []).
  { pose proof (rel_obj_nodup o (oe_id e) R) as N. revert N. generalize (rel_obj o (oe_id e)). intros k. induction k as [|c k IHk]; intros N; [reflexivity|]. inversion N; subst. cbn [map filter snd]. rewrite IHk by auto.
    destruct (Nat.eqb_spec c b) as [->|Hn].
    - replace (smem b (b :: k)) with true by (symmetry; apply smem_in; left; auto). destruct (smem b k) eqn:E; [apply smem_in in E; tauto|auto].
    - destruct (smem b k) eqn:E; [replace (smem b (c :: k)) with true by (symmetry; apply smem_in; right; apply smem_in; auto); auto|]. replace (smem b (c :: k)) with false; auto. symmetry. apply smem_false. apply smem_false in E. intros [H|H]; auto. }
  rewrite A. destruct (smem b (rel_obj o (oe_id e))); reflexivity.
Qed.
Lemma steps_next o b e1 e2 : related_once o -> steps (visits o (o_events o)) b e1 e2 <-> next_event o b e1 e2.
Proof.
  intros R. transitivity (exists q1 q2, filter (fun p => Nat.eqb (snd p) b) (visits o (o_events o)) = q1 ++ (e1, b) :: (e2, b) :: q2).
  - rewrite filter_adjacent. unfold steps. split.
    + intros (p1 & mid & p2 & E & H). exists p1, mid, p2. cbn. rewrite Nat.eqb_refl. split; auto. split; auto. split; auto. intros [x c] Hz. cbn. apply Nat.eqb_neq. intros ->. apply (H x Hz).
    + intros (p1 & mid & p2 & E & _ & _ & H). exists p1, mid, p2. split; auto. intros x Hx. specialize (H _ Hx). cbn in H. rewrite Nat.eqb_refl in H. discriminate.
  - rewrite visits_of by auto. rewrite map_adjacent. split.
    + intros (r1 & x & y & r2 & E & [= <-] & [= <-]). destruct (proj1 (filter_adjacent (fun e => smem b (rel_obj o (oe_id e))) (o_events o) x y)) as (p1 & mid & p2 & EE & Hx & Hy & Hm); [eauto|]. exists p1, x, mid, y, p2. split; auto. split; auto. split; auto. apply smem_in, rel_obj_in in Hx, Hy. split; auto. split; auto.
      intros z Hz Hr. specialize (Hm z Hz). apply smem_false in Hm. apply Hm. apply rel_obj_in. auto.
    + intros (p1 & x & mid & y & p2 & EE & <- & <- & Hx & Hy & Hm). destruct (proj2 (filter_adjacent (fun e => smem b (rel_obj o (oe_id e))) (o_events o) x y)) as (q1 & q2 & E).
      * exists p1, mid, p2. split; auto. split; [apply smem_in, rel_obj_in; auto|]. split; [apply smem_in, rel_obj_in; auto|]. intros z Hz. apply smem_false. rewrite rel_obj_in. auto.
      * exists q1, x, y, q2. auto.
Qed.
(** rows *)
Lemma first_rows_spec l : forall seen r, In r (first_rows seen l) <->
  exists pre post, l = pre ++ r :: post /\ ~ In (or_object r) seen /\ forall s, In s pre -> or_object s <> or_object r.
Proof.
  induction l as [|q l IH]; intros seen r; cbn.
  - split; [intros []|intros ([|] & post & E & _); discriminate].
  - destruct (smem (or_object q) seen) eqn:Q.
    + apply smem_in in Q. rewrite IH. split.
      * intros (pre & post & -> & B & C). exists (q :: pre), post. split; auto. split; auto. intros s [<-|Hs]; auto. congruence.
      * intros ([|q' pre] & post & E & B & C); cbn in E; injection E as -> ->; [tauto|]. exists pre, post. split; auto. split; auto. intros s Hs; apply C; right; auto.
    + apply smem_false in Q. cbn. rewrite IH. split.
      * intros [<-|(pre & post & -> & B & C)]; [exists [], l; auto|]. exists (q :: pre), post. split; auto. split; [intros H; apply B; right; auto|]. intros s [<-|Hs]; auto. intros E; apply B; left; auto.
      * intros ([|q' pre] & post & E & B & C); cbn in E; injection E as -> ->; [left; auto|]. right. exists pre, post. split; auto. split; [|intros s Hs; apply C; right; auto]. intros [H|H]; [|auto]. apply (C q'); [left|]; auto.
Qed.
Lemma start_rows o ot r : In r (first_rows [] (of_type ot o)) <-> first_row o ot r.
Proof.
  rewrite first_rows_spec. unfold of_type, first_row. split.
  - intros (pre & post & E & _ & C). apply filter_cons_split in E as (a & b & E & <- & <- & T). apply Nat.eqb_eq in T. exists a, b. split; auto. split; auto. intros s Hs Ht. apply C. apply filter_In. rewrite Ht, Nat.eqb_refl. auto.
  - intros (a & b & E & T & C). rewrite E, filter_app. cbn. rewrite T, Nat.eqb_refl. eexists _, _. split; [reflexivity|]. split; auto. intros s Hs. apply filter_In in Hs as [Hs Ht]. apply Nat.eqb_eq in Ht. auto.
Qed.
Lemma end_rows o ot r : In r (first_rows [] (rev (of_type ot o))) <-> last_row o ot r.
Proof.
  rewrite first_rows_spec. unfold of_type, last_row. rewrite <- filter_rev'. split.
  - intros (pre & post & E & _ & C). apply filter_cons_split in E as (a & b & E & <- & <- & T). apply Nat.eqb_eq in T.
    exists (rev b), (rev a). split; [|split; auto]. { rewrite <- (rev_involutive (o_rels o)), E, rev_app_distr. cbn. rewrite <- app_assoc. auto. }
    intros s Hs Ht. apply C. apply filter_In. rewrite Ht, Nat.eqb_refl. split; auto. apply in_rev; auto.
  - intros (a & b & E & T & C). rewrite E, rev_app_distr, filter_app. cbn [rev]. rewrite filter_app. cbn. rewrite T, Nat.eqb_refl. rewrite <- app_assoc. eexists _, _. split; [reflexivity|]. split; auto. intros s Hs. apply filter_In in Hs as [Hs Ht]. apply Nat.eqb_eq in Ht. apply C; auto. apply in_rev; auto.
Qed.
Lemma assoc_ok rels : NoDup (d_keys (associations rels)) /\ (forall a, In a (d_keys (associations rels)) <-> exists r, In r rels /\ or_act r = a) /\
  forall a l, d_get (associations rels) a = Some l -> forall e b, In (e, b) l <-> exists r, In r rels /\ or_act r = a /\ or_event r = e /\ or_object r = b.
Proof.
  assert (K : d_keys (associations rels) = dedup (map or_act rels)) by (unfold associations, d_keys; rewrite map_map; cbn; apply map_id).
  rewrite K. split; [apply dedup_nodup|]. split; [intros a; rewrite dedup_in, in_map_iff; firstorder|].
  intros a l H e b. assert (E : l = map (fun r => (or_event r, or_object r)) (filter (fun r => Nat.eqb (or_act r) a) rels)).
  { unfold associations in H. revert H. generalize (dedup (map or_act rels)). induction l0 as [|x l0 IH]; cbn; [discriminate|]. destruct (Nat.eqb_spec x a) as [->|]; [intros [= <-]; auto|auto]. }
  rewrite E, in_map_iff. split; [intros (r & [= <- <-] & H'); apply filter_In in H' as [H1 H2]; apply Nat.eqb_eq in H2; eauto|]. intros (r & H1 & <- & <- & <-). exists r. split; auto. apply filter_In. rewrite Nat.eqb_refl. auto.
Qed.
Lemma map_option_ok {A B} (f : A -> option B) l : (forall x, In x l -> exists y, f x = Some y) -> exists s, map_option f l = Some s /\ Forall2 (fun x y => f x = Some y) l s.
Proof. induction l as [|x l IH]; intros H; cbn; [exists []; auto|]. destruct (H x) as (y & E); [left; auto|]. destruct IH as (s & Es & F); [intros; apply H; right; auto|]. rewrite E, Es. exists (y :: s). split; auto. Qed.
