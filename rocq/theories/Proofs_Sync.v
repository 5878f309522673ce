(** Proofs: runs of the synchronous product are the alignments. *)
From stdpp Require Import gmap.
From Coq Require Import ZArith Lia QArith.
From Verif Require Import Model_Petri Spec_Petri Proofs_Petri Proofs_Petri2 Model_Align Spec_Align Proofs_Dijkstra.
From Coq Require Import Lqa.
Local Open Scope Z_scope.

(** ---- Arcs and markings of the product ---- *)
Definition unit_arcs (arcs : list (nat * Z)) : Prop := forall p w, In (p, w) arcs -> w = 1.

Lemma p1_inj p q : p1_map p = p1_map q -> p = q.
Proof. unfold p1_map. lia. Qed.
Lemma p2_inj p q : p2_map p = p2_map q -> p = q.
Proof. unfold p2_map. lia. Qed.
Lemma p12_ne p q : p1_map p <> p2_map q.
Proof. unfold p1_map, p2_map. lia. Qed.
Lemma place_cases n : (exists p, n = p1_map p) \/ (exists p, n = p2_map p).
Proof.
  unfold p1_map, p2_map. destruct (Nat.Even_or_Odd n) as [[p ->]|[p ->]]; [left|right]; exists p; lia.
Qed.

Lemma weight_copy_same f arcs p :
  (forall p q, f p = f q -> p = q) -> unit_arcs arcs -> weight (copy_arcs f arcs) (f p) = weight arcs p.
Proof.
  intros Hf. induction arcs as [|[q w] arcs IH]; intros Hu; cbn [copy_arcs map weight fst]; [reflexivity|].
  fold (copy_arcs f arcs). rewrite IH by (intros p' w' H; apply (Hu p' w'); right; exact H).
  rewrite (Hu q w) by (left; reflexivity).
  destruct (Nat.eqb_spec (f q) (f p)) as [E|E], (Nat.eqb_spec q p) as [E'|E']; try reflexivity.
  - apply Hf in E. contradiction.
  - subst. contradiction.
Qed.

Lemma weight_copy_other f arcs n : (forall p, f p <> n) -> weight (copy_arcs f arcs) n = 0.
Proof.
  intros Hf. apply weight_notin. unfold copy_arcs. rewrite map_map. intros H.
  apply in_map_iff in H as ([q w] & E & _). apply (Hf q E).
Qed.

Lemma weight_app a b p : weight (a ++ b) p = weight a p + weight b p.
Proof. induction a as [|[q w] a IH]; cbn [app weight]; [lia|]. rewrite IH. lia. Qed.

Lemma simple_copy f arcs : (forall p q, f p = f q -> p = q) -> simple_arcs arcs -> simple_arcs (copy_arcs f arcs).
Proof.
  intros Hf [Hnd Hpos]. split.
  - unfold copy_arcs. rewrite map_map. cbn.
    rewrite <- (map_map fst f). apply FinFun.Injective_map_NoDup; [exact Hf|exact Hnd].
  - intros p w H. unfold copy_arcs in H. apply in_map_iff in H as ([q v] & [= <- <-] & _). lia.
Qed.

Lemma simple_copy_app a b : simple_arcs a -> simple_arcs b -> simple_arcs (copy_arcs p1_map a ++ copy_arcs p2_map b).
Proof.
  intros Ha Hb. destruct (simple_copy p1_map a p1_inj Ha) as [N1 P1].
  destruct (simple_copy p2_map b p2_inj Hb) as [N2 P2]. split.
  - rewrite map_app. apply NoDup_ListNoDup. apply NoDup_app. split; [apply NoDup_ListNoDup, N1|].
    split; [|apply NoDup_ListNoDup, N2].
    intros x Hx Hy. apply elem_of_list_In in Hx, Hy. unfold copy_arcs in Hx, Hy. rewrite map_map in Hx, Hy.
    apply in_map_iff in Hx as ([p v] & <- & _). apply in_map_iff in Hy as ([q u] & E & _).
    cbn in E. symmetry in E. apply (p12_ne _ _ E).
  - intros p w H. apply in_app_iff in H as [H|H]; eauto.
Qed.

Lemma copy_marking_other f acc (m : marking) n : (forall p, f p <> n) -> copy_marking f acc m !! n = acc !! n.
Proof.
  intros Hf. unfold copy_marking. generalize (map_to_list m) as l. intros l. revert acc.
  induction l as [|[p v] l IH]; intros acc; cbn [fold_left]; [reflexivity|].
  rewrite IH. cbn. apply lookup_insert_ne, Hf.
Qed.

Lemma copy_marking_same f (acc m : marking) p :
  (forall p q, f p = f q -> p = q) -> acc !! (f p) = None -> copy_marking f acc m !! (f p) = m !! p.
Proof.
  intros Hf Hacc. unfold copy_marking.
  assert (G : forall l (acc : marking), List.NoDup (map fst l) ->
     (forall v, In (p, v) l -> fold_left (fun acc (kv : nat * Z) => <[f kv.1 := kv.2]> acc) l acc !! f p = Some v) /\
     (~ In p (map fst l) -> fold_left (fun acc (kv : nat * Z) => <[f kv.1 := kv.2]> acc) l acc !! f p = acc !! f p)).
  { induction l as [|[q w] l IH]; intros a Hnd; cbn [fold_left map fst].
    - split; [intros v []|reflexivity].
    - cbn [map fst] in Hnd. inversion Hnd as [|? ? Hni Hnd']; subst.
      destruct (IH (<[f q := w]> a) Hnd') as [I1 I2]. cbn [fst snd]. split.
      + intros v [[= -> ->]|Hin]; [|apply I1, Hin]. rewrite I2 by exact Hni. apply lookup_insert.
      + cbn [In]. intros Hn. rewrite I2 by tauto. apply lookup_insert_ne. intros E. apply Hf in E. tauto. }
  destruct (G (map_to_list m) acc) as [G1 G2].
  { apply NoDup_ListNoDup, (NoDup_fst_map_to_list m). }
  destruct (m !! p) as [v|] eqn:E.
  - apply G1. apply elem_of_list_In, elem_of_map_to_list, E.
  - rewrite G2; [exact Hacc|]. intros H. apply in_map_iff in H as ([q v] & <- & H).
    apply elem_of_list_In, elem_of_map_to_list in H. cbn in E. congruence.
Qed.

(** [M] is the side-by-side marking of [m1] and [m2]. *)
Definition side (M m1 m2 : marking) : Prop :=
  forall p, tokens M (p1_map p) = tokens m1 p /\ tokens M (p2_map p) = tokens m2 p.

Lemma sync_marking_lookup1 m1 m2 p : sync_marking m1 m2 !! p1_map p = m1 !! p.
Proof.
  unfold sync_marking. rewrite copy_marking_other by (intros q E; symmetry in E; apply (p12_ne _ _ E)).
  apply copy_marking_same; [apply p1_inj|apply lookup_empty].
Qed.
Lemma sync_marking_lookup2 m1 m2 p : sync_marking m1 m2 !! p2_map p = m2 !! p.
Proof.
  unfold sync_marking. apply copy_marking_same; [apply p2_inj|].
  rewrite copy_marking_other by (intros q; apply p12_ne). apply lookup_empty.
Qed.
Lemma sync_marking_side m1 m2 : side (sync_marking m1 m2) m1 m2.
Proof. intros p. unfold tokens. rewrite sync_marking_lookup1, sync_marking_lookup2. auto. Qed.
Lemma sync_marking_proper m1 m2 : proper m1 -> proper m2 -> proper (sync_marking m1 m2).
Proof.
  intros H1 H2 n v. destruct (place_cases n) as [[p ->]|[p ->]].
  - rewrite sync_marking_lookup1. apply H1.
  - rewrite sync_marking_lookup2. apply H2.
Qed.
Lemma side_unique M m1 m2 : proper M -> proper m1 -> proper m2 -> side M m1 m2 -> M = sync_marking m1 m2.
Proof.
  intros HM H1 H2 HS. apply proper_ext; [exact HM|apply sync_marking_proper; assumption|].
  intros n. destruct (place_cases n) as [[p ->]|[p ->]];
    destruct (HS p) as [A B]; destruct (sync_marking_side m1 m2 p) as [C D]; congruence.
Qed.
Lemma side_det M m1 m2 n1 n2 : proper m1 -> proper m2 -> proper n1 -> proper n2 ->
  side M m1 m2 -> side M n1 n2 -> m1 = n1 /\ m2 = n2.
Proof.
  intros H1 H2 H3 H4 A B. split; apply proper_ext; auto; intros p; destruct (A p), (B p); congruence.
Qed.

Section Product.
  Variables (pn1 pn2 : petri_net (option nat)) (pl : list nat).
  Hypothesis S1 : simple_net pn1.
  Hypothesis S2 : simple_net pn2.
  Hypothesis U1 : unit_weights pn1.
  Hypothesis U2 : unit_weights pn2.
  (** all transitions of the first net (the trace net) are visible *)
  Hypothesis V1 : forall t, In t (n_trans pn1) -> exists a, t_label t = Some a.

  Definition prod_net : petri_net slabel :=
    Net pl (map copy_upper (n_trans pn1) ++ map copy_lower (n_trans pn2)
              ++ sync_transitions (n_trans pn1) (n_trans pn2)).

  Lemma sync_in T : In T (sync_transitions (n_trans pn1) (n_trans pn2)) <->
    exists t1 t2, In t1 (n_trans pn1) /\ In t2 (n_trans pn2) /\ t_label t1 = t_label t2 /\ T = sync_trans t1 t2.
  Proof.
    unfold sync_transitions. rewrite in_flat_map. split.
    - intros (t1 & H1 & H). apply in_flat_map in H as (t2 & H2 & H).
      destruct (bool_decide (t_label t1 = t_label t2)) eqn:E; [|destruct H].
      apply bool_decide_eq_true in E. destruct H as [<-|[]]. eauto 10.
    - intros (t1 & t2 & H1 & H2 & E & ->). exists t1. split; [exact H1|]. apply in_flat_map. exists t2.
      split; [exact H2|]. rewrite bool_decide_eq_true_2 by exact E. left. reflexivity.
  Qed.

  Lemma prod_in T : In T (n_trans prod_net) <->
    (exists t, In t (n_trans pn1) /\ T = copy_upper t) \/
    (exists t, In t (n_trans pn2) /\ T = copy_lower t) \/
    (exists t1 t2, In t1 (n_trans pn1) /\ In t2 (n_trans pn2) /\ t_label t1 = t_label t2 /\ T = sync_trans t1 t2).
  Proof.
    cbn [prod_net n_trans]. rewrite !in_app_iff, !in_map_iff, sync_in.
    split; (intros [H|[H|H]]; [left|right; left|right; right]; [..|exact H]);
      destruct H as (t & A & B); exists t; auto.
  Qed.

  Lemma unit1 t : In t (n_trans pn1) -> unit_arcs (t_in t) /\ unit_arcs (t_out t).
  Proof. intros H. split; intros p w Hp; eapply (U1 t H); eauto. Qed.
  Lemma unit2 t : In t (n_trans pn2) -> unit_arcs (t_in t) /\ unit_arcs (t_out t).
  Proof. intros H. split; intros p w Hp; eapply (U2 t H); eauto. Qed.

  Lemma prod_simple : simple_net prod_net.
  Proof.
    intros T HT. apply prod_in in HT as [(t & H & ->)|[(t & H & ->)|(t1 & t2 & H1 & H2 & _ & ->)]].
    - destruct (S1 t H). split; apply simple_copy; auto using p1_inj.
    - destruct (S2 t H). split; apply simple_copy; auto using p2_inj.
    - destruct (S1 t1 H1), (S2 t2 H2). split; apply simple_copy_app; assumption.
  Qed.

  (** weights of the three kinds of transitions *)
  Lemma w_up1 arcs p : unit_arcs arcs -> weight (copy_arcs p1_map arcs) (p1_map p) = weight arcs p.
  Proof. apply weight_copy_same, p1_inj. Qed.
  Lemma w_up2 arcs p : weight (copy_arcs p1_map arcs) (p2_map p) = 0.
  Proof. apply weight_copy_other. intros q. apply p12_ne. Qed.
  Lemma w_lo1 arcs p : weight (copy_arcs p2_map arcs) (p1_map p) = 0.
  Proof. apply weight_copy_other. intros q E. symmetry in E. apply (p12_ne _ _ E). Qed.
  Lemma w_lo2 arcs p : unit_arcs arcs -> weight (copy_arcs p2_map arcs) (p2_map p) = weight arcs p.
  Proof. apply weight_copy_same, p2_inj. Qed.

  Lemma weights_upper t p : In t (n_trans pn1) ->
    weight (t_in (copy_upper t)) (p1_map p) = weight (t_in t) p /\ weight (t_in (copy_upper t)) (p2_map p) = 0 /\
    weight (t_out (copy_upper t)) (p1_map p) = weight (t_out t) p /\ weight (t_out (copy_upper t)) (p2_map p) = 0.
  Proof. intros H. destruct (unit1 t H). cbn [copy_upper t_in t_out]. rewrite !w_up2, !w_up1 by assumption. auto. Qed.
  Lemma weights_lower t p : In t (n_trans pn2) ->
    weight (t_in (copy_lower t)) (p1_map p) = 0 /\ weight (t_in (copy_lower t)) (p2_map p) = weight (t_in t) p /\
    weight (t_out (copy_lower t)) (p1_map p) = 0 /\ weight (t_out (copy_lower t)) (p2_map p) = weight (t_out t) p.
  Proof. intros H. destruct (unit2 t H). cbn [copy_lower t_in t_out]. rewrite !w_lo1, !w_lo2 by assumption. auto. Qed.
  Lemma weights_sync t1 t2 p : In t1 (n_trans pn1) -> In t2 (n_trans pn2) ->
    weight (t_in (sync_trans t1 t2)) (p1_map p) = weight (t_in t1) p /\
    weight (t_in (sync_trans t1 t2)) (p2_map p) = weight (t_in t2) p /\
    weight (t_out (sync_trans t1 t2)) (p1_map p) = weight (t_out t1) p /\
    weight (t_out (sync_trans t1 t2)) (p2_map p) = weight (t_out t2) p.
  Proof.
    intros H1 H2. destruct (unit1 t1 H1), (unit2 t2 H2). cbn [sync_trans t_in t_out].
    rewrite !weight_app, !w_lo1, !w_up2, !w_up1, !w_lo2 by assumption. repeat split; lia.
  Qed.

  (** fired marking of an enabled transition exists *)
  Lemma fires_exists {L} (pn : petri_net L) t m :
    simple_net pn -> proper m -> In t (n_trans pn) -> enabled_at t m -> exists m', fires pn t m m'.
  Proof.
    intros Hs Hm Hin He. exists (weak_execute t m). apply weak_execute_fires; auto.
  Qed.

  (** One step of the product, decomposed. *)
  Lemma prod_step_inv M T M' m1 m2 :
    proper m1 -> proper m2 -> side M m1 m2 -> fires prod_net T M M' ->
    exists m1' m2', proper m1' /\ proper m2' /\ side M' m1' m2' /\
      ((exists t, T = copy_upper t /\ fires pn1 t m1 m1' /\ m2' = m2) \/
       (exists t, T = copy_lower t /\ m1' = m1 /\ fires pn2 t m2 m2') \/
       (exists t1 t2, T = sync_trans t1 t2 /\ t_label t1 = t_label t2 /\ fires pn1 t1 m1 m1' /\ fires pn2 t2 m2 m2')).
  Proof.
    intros P1 P2 HS (HT & He & HP & Hw).
    apply prod_in in HT as [(t & Hin & ->)|[(t & Hin & ->)|(t1 & t2 & H1 & H2 & El & ->)]].
    - destruct (fires_exists pn1 t m1 S1 P1 Hin) as [m1' Hf].
      { intros p. specialize (He (p1_map p)). destruct (weights_upper t p Hin) as (E & _).
        rewrite E in He. rewrite <- (proj1 (HS p)). exact He. }
      exists m1', m2. pose proof Hf as (_ & _ & Hp' & Ht'). split; [exact Hp'|]. split; [exact P2|]. split.
      + intros p. rewrite !Hw, Ht'. destruct (weights_upper t p Hin) as (-> & -> & -> & ->).
        destruct (HS p) as [-> ->]. lia.
      + left. exists t. auto.
    - destruct (fires_exists pn2 t m2 S2 P2 Hin) as [m2' Hf].
      { intros p. specialize (He (p2_map p)). destruct (weights_lower t p Hin) as (_ & E & _).
        rewrite E in He. rewrite <- (proj2 (HS p)). exact He. }
      exists m1, m2'. pose proof Hf as (_ & _ & Hp' & Ht'). split; [exact P1|]. split; [exact Hp'|]. split.
      + intros p. rewrite !Hw, Ht'. destruct (weights_lower t p Hin) as (-> & -> & -> & ->).
        destruct (HS p) as [-> ->]. lia.
      + right. left. exists t. auto.
    - destruct (fires_exists pn1 t1 m1 S1 P1 H1) as [m1' Hf1].
      { intros p. specialize (He (p1_map p)). destruct (weights_sync t1 t2 p H1 H2) as (E & _).
        rewrite E in He. rewrite <- (proj1 (HS p)). exact He. }
      destruct (fires_exists pn2 t2 m2 S2 P2 H2) as [m2' Hf2].
      { intros p. specialize (He (p2_map p)). destruct (weights_sync t1 t2 p H1 H2) as (_ & E & _).
        rewrite E in He. rewrite <- (proj2 (HS p)). exact He. }
      exists m1', m2'. pose proof Hf1 as (_ & _ & Hp1 & Ht1). pose proof Hf2 as (_ & _ & Hp2 & Ht2).
      split; [exact Hp1|]. split; [exact Hp2|]. split.
      + intros p. rewrite !Hw, Ht1, Ht2. destruct (weights_sync t1 t2 p H1 H2) as (-> & -> & -> & ->).
        destruct (HS p) as [-> ->]. lia.
      + right. right. exists t1, t2. auto.
  Qed.

  Lemma side_ext M m1 m2 (F : nat -> Z) :
    side M m1 m2 -> (forall p, F (p1_map p) = tokens m1 p) -> (forall p, F (p2_map p) = tokens m2 p) ->
    forall n, tokens M n = F n.
  Proof.
    intros HS A B n. destruct (place_cases n) as [[p ->]|[p ->]]; destruct (HS p); rewrite ?A, ?B; assumption.
  Qed.

  Lemma prod_step_upper M m1 m2 t m1' :
    side M m1 m2 -> proper m1' -> proper m2 -> fires pn1 t m1 m1' ->
    fires prod_net (copy_upper t) M (sync_marking m1' m2).
  Proof.
    intros HS Hp1 Hp2 (Hin & He & _ & Ht).
    pose proof (sync_marking_side m1' m2) as HS'.
    split; [apply prod_in; left; eauto|]. split; [|split; [apply sync_marking_proper; assumption|]].
    - intros n. destruct (place_cases n) as [[p ->]|[p ->]]; destruct (HS p) as [E1 E2];
        destruct (weights_upper t p Hin) as (W1 & W2 & _); rewrite ?W1, ?W2, ?E1, ?E2; [apply He|apply proper_nonneg, Hp2].
    - apply (side_ext _ _ _ _ HS'); intros p; destruct (HS p) as [E1 E2];
        destruct (weights_upper t p Hin) as (W1 & W2 & W3 & W4); rewrite ?W1, ?W2, ?W3, ?W4, ?E1, ?E2, ?Ht; lia.
  Qed.

  Lemma prod_step_lower M m1 m2 t m2' :
    side M m1 m2 -> proper m1 -> proper m2' -> fires pn2 t m2 m2' ->
    fires prod_net (copy_lower t) M (sync_marking m1 m2').
  Proof.
    intros HS Hp1 Hp2 (Hin & He & _ & Ht).
    pose proof (sync_marking_side m1 m2') as HS'.
    split; [apply prod_in; right; left; eauto|]. split; [|split; [apply sync_marking_proper; assumption|]].
    - intros n. destruct (place_cases n) as [[p ->]|[p ->]]; destruct (HS p) as [E1 E2];
        destruct (weights_lower t p Hin) as (W1 & W2 & _); rewrite ?W1, ?W2, ?E1, ?E2; [apply proper_nonneg, Hp1|apply He].
    - apply (side_ext _ _ _ _ HS'); intros p; destruct (HS p) as [E1 E2];
        destruct (weights_lower t p Hin) as (W1 & W2 & W3 & W4); rewrite ?W1, ?W2, ?W3, ?W4, ?E1, ?E2, ?Ht; lia.
  Qed.

  Lemma prod_step_sync M m1 m2 t1 t2 m1' m2' :
    side M m1 m2 -> proper m1' -> proper m2' -> t_label t1 = t_label t2 ->
    fires pn1 t1 m1 m1' -> fires pn2 t2 m2 m2' ->
    fires prod_net (sync_trans t1 t2) M (sync_marking m1' m2').
  Proof.
    intros HS Hp1 Hp2 El (Hin1 & He1 & _ & Ht1) (Hin2 & He2 & _ & Ht2).
    pose proof (sync_marking_side m1' m2') as HS'.
    split; [apply prod_in; right; right; eauto 10|]. split; [|split; [apply sync_marking_proper; assumption|]].
    - intros n. destruct (place_cases n) as [[p ->]|[p ->]]; destruct (HS p) as [E1 E2];
        destruct (weights_sync t1 t2 p Hin1 Hin2) as (W1 & W2 & _); rewrite ?W1, ?W2, ?E1, ?E2; [apply He1|apply He2].
    - apply (side_ext _ _ _ _ HS'); intros p; destruct (HS p) as [E1 E2];
        destruct (weights_sync t1 t2 p Hin1 Hin2) as (W1 & W2 & W3 & W4);
        rewrite ?W1, ?W2, ?W3, ?W4, ?E1, ?E2, ?Ht1, ?Ht2; lia.
  Qed.

  (** Runs of the product, decomposed. *)
  Lemma prod_run_inv M Ts M' : run prod_net M Ts M' ->
    forall m1 m2, proper m1 -> proper m2 -> side M m1 m2 ->
    exists ts1 ts2 m1' m2', proper m1' /\ proper m2' /\ side M' m1' m2' /\
      run pn1 m1 ts1 m1' /\ run pn2 m2 ts2 m2' /\
      Forall legal_move (map t_label Ts) /\
      log_part (map t_label Ts) = visible ts1 /\ model_part (map t_label Ts) = map t_label ts2.
  Proof.
    intros Hr. induction Hr as [M|M T M1 Ts M2 Hf Hr IH]; intros m1 m2 P1 P2 HS.
    - exists [], [], m1, m2. refine (conj P1 (conj P2 (conj HS _))). repeat split; constructor.
    - destruct (prod_step_inv _ _ _ _ _ P1 P2 HS Hf) as (n1 & n2 & Q1 & Q2 & HS1 & Hcase).
      destruct (IH n1 n2 Q1 Q2 HS1) as (ts1 & ts2 & m1' & m2' & A1 & A2 & A3 & A4 & A5 & A6 & A7 & A8).
      destruct Hcase as [(t & -> & Hft & ->)|[(t & -> & -> & Hft)|(t1 & t2 & -> & El & Hf1 & Hf2)]].
      + exists (t :: ts1), ts2, m1', m2'. cbn [map copy_upper t_label].
        destruct (V1 t (proj1 Hft)) as [a Ea]. rewrite Ea. cbn [log_part model_part visible]. rewrite Ea.
        refine (conj A1 (conj A2 (conj A3 _))). repeat split; auto.
        * econstructor; eassumption.
        * constructor; [constructor|exact A6].
        * f_equal. exact A7.
      + exists ts1, (t :: ts2), m1', m2'. cbn [map copy_lower t_label log_part model_part].
        refine (conj A1 (conj A2 (conj A3 _))). repeat split; auto.
        * econstructor; eassumption.
        * constructor; [constructor|exact A6].
        * f_equal. exact A8.
      + exists (t1 :: ts1), (t2 :: ts2), m1', m2'. cbn [map sync_trans t_label].
        destruct (V1 t1 (proj1 Hf1)) as [a Ea]. rewrite <- El, Ea. cbn [log_part model_part visible]. rewrite Ea.
        refine (conj A1 (conj A2 (conj A3 _))). repeat split; auto.
        * econstructor; eassumption.
        * econstructor; eassumption.
        * constructor; [constructor|exact A6].
        * f_equal. exact A7.
        * f_equal. exact A8.
  Qed.

  Lemma run_cons_inv {L} (pn : petri_net L) m t ts m' :
    run pn m (t :: ts) m' -> exists m1, fires pn t m m1 /\ run pn m1 ts m'.
  Proof. intros H. inversion H; subst. eauto. Qed.

  Lemma prod_run_exists g : Forall legal_move g ->
    forall M m1 m2 ts1 ts2 m1' m2', proper M -> proper m1 -> proper m2 -> side M m1 m2 ->
    run pn1 m1 ts1 m1' -> run pn2 m2 ts2 m2' ->
    visible ts1 = log_part g -> map t_label ts2 = model_part g ->
    exists Ts, run prod_net M Ts (sync_marking m1' m2') /\ map t_label Ts = g.
  Proof.
    induction g as [|l g IH]; intros Hl M m1 m2 ts1 ts2 m1' m2' PM P1 P2 HS R1 R2 E1 E2.
    - cbn in E1, E2. destruct ts2; [|discriminate].
      assert (ts1 = []) as ->.
      { destruct ts1 as [|t ts1]; [reflexivity|]. cbn in E1.
        destruct (V1 t) as [a Ea]; [eapply run_in; [exact R1|left; reflexivity]|]. rewrite Ea in E1. discriminate. }
      inversion R1; inversion R2; subst. exists []. split; [|reflexivity].
      rewrite <- (side_unique M m1' m2' PM P1 P2 HS). constructor.
    - inversion Hl as [|? ? Hlm Hl']; subst. inversion Hlm; subst; cbn [log_part model_part] in E1, E2.
      + destruct ts1 as [|t ts1]; [discriminate|].
        destruct (V1 t) as [b Eb]; [eapply run_in; [exact R1|left; reflexivity]|].
        cbn [visible] in E1. rewrite Eb in E1. injection E1 as -> E1.
        apply run_cons_inv in R1 as (n1 & Hf & R1). pose proof Hf as (_ & _ & Q1 & _).
        pose proof (prod_step_upper M m1 m2 t n1 HS Q1 P2 Hf) as HF.
        destruct (IH Hl' (sync_marking n1 m2) n1 m2 ts1 ts2 m1' m2') as (Ts & HR & HL);
          auto using sync_marking_proper, sync_marking_side.
        exists (copy_upper t :: Ts). split; [econstructor; eassumption|].
        cbn [map copy_upper t_label]. rewrite Eb, HL. reflexivity.
      + destruct ts2 as [|t ts2]; [discriminate|]. cbn [map] in E2. injection E2 as <- E2.
        apply run_cons_inv in R2 as (n2 & Hf & R2). pose proof Hf as (_ & _ & Q2 & _).
        pose proof (prod_step_lower M m1 m2 t n2 HS P1 Q2 Hf) as HF.
        destruct (IH Hl' (sync_marking m1 n2) m1 n2 ts1 ts2 m1' m2') as (Ts & HR & HL);
          auto using sync_marking_proper, sync_marking_side.
        exists (copy_lower t :: Ts). split; [econstructor; eassumption|].
        cbn [map copy_lower t_label]. rewrite HL. reflexivity.
      + destruct ts1 as [|t1 ts1]; [discriminate|].
        destruct (V1 t1) as [b Eb]; [eapply run_in; [exact R1|left; reflexivity]|].
        cbn [visible] in E1. rewrite Eb in E1. injection E1 as -> E1.
        destruct ts2 as [|t2 ts2]; [discriminate|]. cbn [map] in E2. injection E2 as Eb2 E2.
        apply run_cons_inv in R1 as (n1 & Hf1 & R1). pose proof Hf1 as (_ & _ & Q1 & _).
        apply run_cons_inv in R2 as (n2 & Hf2 & R2). pose proof Hf2 as (_ & _ & Q2 & _).
        assert (El : t_label t1 = t_label t2) by congruence.
        pose proof (prod_step_sync M m1 m2 t1 t2 n1 n2 HS Q1 Q2 El Hf1 Hf2) as HF.
        destruct (IH Hl' (sync_marking n1 n2) n1 n2 ts1 ts2 m1' m2') as (Ts & HR & HL);
          auto using sync_marking_proper, sync_marking_side.
        exists (sync_trans t1 t2 :: Ts). split; [econstructor; eassumption|].
        cbn [map sync_trans t_label]. rewrite <- El, Eb, HL. reflexivity.
  Qed.
End Product.

(** ---- The product of a trace net and a model ---- *)
Section Align.
  Variables (pn : petri_net (option nat)) (im fm : marking) (trace : list nat).
  Hypothesis Hs : simple_net pn.
  Hypothesis Hu : unit_weights pn.
  Hypothesis Him : proper im.
  Hypothesis Hfm : proper fm.

  Lemma tn_simple : simple_net (Net (seq 0 (S (length trace))) (trace_net_trans 0 trace)).
  Proof.
    intros t Ht. cbn [n_trans] in Ht. apply trace_net_in_iff in Ht as (i & a & _ & ->).
    split; split; cbn; try (repeat constructor; cbn; tauto); intros p w [[= <- <-]|[]]; lia.
  Qed.
  Lemma tn_unit : unit_weights (Net (seq 0 (S (length trace))) (trace_net_trans 0 trace)).
  Proof.
    intros t Ht p w H. cbn [n_trans] in Ht. apply trace_net_in_iff in Ht as (i & a & _ & ->).
    cbn in H. intuition congruence.
  Qed.
  Lemma tn_visible t : In t (n_trans (Net (seq 0 (S (length trace))) (trace_net_trans 0 trace))) ->
    exists a, t_label t = Some a.
  Proof.
    intros Ht. cbn [n_trans] in Ht. apply trace_net_in_iff in Ht as (i & a & _ & ->). exists a. reflexivity.
  Qed.

  Definition tnet := Net (seq 0 (S (length trace))) (trace_net_trans 0 trace).
  Definition snet : petri_net slabel :=
    prod_net tnet pn (map p1_map (n_places tnet) ++ map p2_map (n_places pn)).
  Definition sim := sync_marking {[ 0%nat := 1 ]} im.
  Definition sfm := sync_marking {[ length trace := 1 ]} fm.

  Lemma product_runs_alignments g :
    (exists Ts, run snet sim Ts sfm /\ map t_label Ts = g) <-> is_alignment pn im fm trace g.
  Proof.
    pose proof (trace_net_run_unique trace) as HU. cbn in HU.
    assert (P0 : proper {[ 0%nat := 1 ]}) by (apply proper_singleton; lia).
    assert (Pn : proper {[ length trace := 1 ]}) by (apply proper_singleton; lia).
    split.
    - intros (Ts & Hr & <-).
      destruct (prod_run_inv _ _ _ tn_simple Hs tn_unit Hu tn_visible _ _ _ Hr {[ 0%nat := 1 ]} im P0 Him
                  (sync_marking_side _ _)) as (ts1 & ts2 & m1' & m2' & A1 & A2 & A3 & A4 & A5 & A6 & A7 & A8).
      destruct (side_det _ _ _ _ _ A1 A2 Pn Hfm A3 (sync_marking_side _ _)) as [-> ->].
      split; [exact A6|]. split.
      + rewrite A7. apply HU in A4 as ->. apply visible_trace_net.
      + exists ts2. auto.
    - intros (HL & HT & ts & Hr & Hm).
      apply (prod_run_exists _ _ _ tn_unit Hu tn_visible g HL sim {[ 0%nat := 1 ]} im
               (trace_net_trans 0 trace) ts {[ length trace := 1 ]} fm).
      + apply sync_marking_proper; assumption.
      + exact P0.
      + exact Him.
      + apply sync_marking_side.
      + apply HU. reflexivity.
      + exact Hr.
      + rewrite HT. apply visible_trace_net.
      + exact Hm.
  Qed.

  Lemma legal_cost l : legal_move l -> std_cost l = move_cost l.
  Proof. intros H. inversion H as [| [|] |]; subst; reflexivity. Qed.

  Lemma run_cost_labels Ts : Forall legal_move (map t_label Ts) ->
    run_cost (fun t => std_cost (t_label t)) Ts = align_cost (map t_label Ts).
  Proof.
    induction Ts as [|T Ts IH]; intros H; cbn [map run_cost align_cost]; [reflexivity|].
    inversion H; subst. rewrite legal_cost by assumption. rewrite IH by assumption. reflexivity.
  Qed.

  Lemma std_cost_nonneg l : 0 <= std_cost l.
  Proof.
    unfold std_cost, STD_MODEL_LOG_MOVE_COST, STD_TAU_COST, STD_SYNC_COST.
    destruct (_ && _); [lia|]. destruct (_ && _); lia.
  Qed.

  Lemma dijkstra_apply_correct fuel :
    match dijkstra_apply fuel trace pn im fm with
    | SFound n => optimal_alignment pn im fm trace (alignment_of n) /\ d_g n = align_cost (alignment_of n)
    | SExhausted => forall g, ~ is_alignment pn im fm trace g
    | SInterrupted => True
    end.
  Proof.
    change (dijkstra_apply fuel trace pn im fm)
      with (dijkstra_search fuel snet sim sfm (fun t => std_cost (t_label t))).
    assert (Hsim : proper sim) by (apply sync_marking_proper; [apply proper_singleton; lia|exact Him]).
    pose proof (prod_simple tnet pn (map p1_map (n_places tnet) ++ map p2_map (n_places pn)) tn_simple Hs) as Hsn.
    fold snet in Hsn.
    pose proof (dijkstra_search_sound snet sim sfm (fun t => std_cost (t_label t)) Hsn Hsim
                  (fun t _ => std_cost_nonneg (t_label t)) fuel) as H.
    destruct (dijkstra_search _ _ _ _ _) as [n| |].
    - destruct H as (Hr & Hg & Hopt).
      assert (HA : is_alignment pn im fm trace (alignment_of n)).
      { apply product_runs_alignments. exists (rev (d_path n)). auto. }
      assert (HC : d_g n = align_cost (alignment_of n)).
      { rewrite Hg. apply run_cost_labels. apply HA. }
      split; [|exact HC]. split; [exact HA|]. intros g' Hg'.
      pose proof Hg' as (HL & _). apply product_runs_alignments in Hg' as (Ts & HR & <-).
      rewrite <- HC, <- run_cost_labels by exact HL. apply Hopt, HR.
    - intros g Hg'. apply product_runs_alignments in Hg' as (Ts & HR & _). apply (H Ts HR).
    - exact I.
  Qed.

  (** Reachable markings of the product are pairs of reachable markings. *)
  Lemma prod_reachable M : reachable snet sim M ->
    exists i m2, (i <= length trace)%nat /\ reachable pn im m2 /\ M = sync_marking {[ i := 1 ]} m2.
  Proof.
    intros [Ts Hr]. assert (P0 : proper {[ 0%nat := 1 ]}) by (apply proper_singleton; lia).
    destruct (prod_run_inv _ _ _ tn_simple Hs tn_unit Hu tn_visible _ _ _ Hr {[ 0%nat := 1 ]} im P0 Him
                (sync_marking_side _ _)) as (ts1 & ts2 & m1' & m2' & A1 & A2 & A3 & A4 & A5 & _).
    assert (HM : proper M).
    { eapply run_proper; [|exact Hr]. apply sync_marking_proper; assumption. }
    assert (Hi : forall m ts m', run (Net (seq 0 (S (length trace))) (trace_net_trans 0 trace)) m ts m' ->
              forall i, m = {[ i := 1 ]} -> (i <= length trace)%nat ->
              exists j, (j <= length trace)%nat /\ m' = {[ j := 1 ]}).
    { intros m ts m' H. induction H as [m|m t mm ts mm' Hf Hrr IH]; intros i -> Hle; [eauto|].
      apply tn_fires in Hf as (a & Ea & _ & ->). apply lookup_lt_Some in Ea. apply (IH (S i) eq_refl). lia. }
    destruct (Hi _ _ _ A4 0%nat eq_refl ltac:(lia)) as (i & Hle & ->).
    exists i, m2'. split; [exact Hle|]. split; [exists ts2; exact A5|]. apply side_unique; assumption.
  Qed.

  Lemma dijkstra_apply_terminates (l : list marking) :
    (forall m, reachable pn im m -> In m l) ->
    exists fuel, dijkstra_apply fuel trace pn im fm <> SInterrupted.
  Proof.
    intros Hl.
    set (L := flat_map (fun i => map (fun m => sync_marking {[ i := 1 ]} m) l) (seq 0 (S (length trace)))).
    exists (1 + length L * length (n_trans snet))%nat.
    change (dijkstra_search (1 + length L * length (n_trans snet)) snet sim sfm (fun t => std_cost (t_label t))
            <> SInterrupted).
    apply dijkstra_search_terminates.
    - apply (prod_simple tnet pn _ tn_simple Hs).
    - apply sync_marking_proper; [apply proper_singleton; lia|exact Him].
    - intros t _. apply std_cost_nonneg.
    - intros M HM. apply prod_reachable in HM as (i & m2 & Hle & Hr & ->).
      apply in_flat_map. exists i. split; [apply in_seq; lia|].
      apply in_map_iff. exists m2. split; [reflexivity|]. apply Hl, Hr.
  Qed.
End Align.

(** ---- Fitness ---- *)
Lemma align_cost_app g h : align_cost (g ++ h) = align_cost g + align_cost h.
Proof. induction g as [|l g IH]; cbn [app align_cost]; [lia|]. rewrite IH. lia. Qed.
Lemma log_part_app g h : log_part (g ++ h) = log_part g ++ log_part h.
Proof. induction g as [|[[|[a|]] b] g IH]; cbn [app log_part]; rewrite ?IH; reflexivity. Qed.
Lemma model_part_app g h : model_part (g ++ h) = model_part g ++ model_part h.
Proof. induction g as [|[a [|b]] g IH]; cbn [app model_part]; rewrite ?IH; reflexivity. Qed.

Lemma move_cost_nonneg l : 0 <= move_cost l.
Proof. destruct l as [[|a] [|[b|]]]; cbn; lia. Qed.
Lemma align_cost_nonneg g : 0 <= align_cost g.
Proof. induction g as [|l g IH]; cbn [align_cost]; [lia|]. pose proof (move_cost_nonneg l). lia. Qed.

Lemma worst_alignment pn im fm trace g0 :
  is_alignment pn im fm [] g0 ->
  exists g, is_alignment pn im fm trace g /\ align_cost g = 10000 * Z.of_nat (length trace) + align_cost g0.
Proof.
  intros (HL & HT & Hrun). exists (map (fun a => (Lab (Some a), Skip)) trace ++ g0). split; [split; [|split]|].
  - apply Forall_app. split; [|exact HL]. apply Forall_forall. intros l Hl.
    apply elem_of_list_In, in_map_iff in Hl as (a & <- & _). constructor.
  - rewrite log_part_app, HT, app_nil_r. clear. induction trace as [|a tr IH]; cbn; [reflexivity|]. rewrite IH. reflexivity.
  - rewrite model_part_app.
    assert (E : model_part (map (fun a => (Lab (Some a), Skip)) trace) = []).
    { clear. induction trace; cbn; auto. }
    rewrite E. exact Hrun.
  - rewrite align_cost_app. f_equal. clear. induction trace as [|a tr IH]; cbn [map align_cost length move_cost]; lia.
Qed.

Lemma fitness_range trace cost bwc :
  0 <= cost -> 0 <= bwc -> cost <= 10000 * Z.of_nat (length trace) + bwc ->
  (0 <= trace_fitness trace cost bwc <= 1)%Q.
Proof.
  intros H1 H2 H3. unfold trace_fitness, STD_MODEL_LOG_MOVE_COST.
  set (den := (10000 * Z.of_nat (length trace) + bwc) / 10000).
  destruct (Z.gtb_spec den 0) as [Hd|Hd].
  - assert (Hn0 : 0 <= cost / 10000) by (apply Z.div_pos; lia).
    assert (Hn1 : cost / 10000 <= den) by (apply Z.div_le_mono; lia).
    set (num := cost / 10000) in *. clearbody num den.
    assert (Hq : (0 < inject_Z den)%Q) by (unfold Qlt, inject_Z; cbn; lia).
    assert (Hr : (0 <= inject_Z num / inject_Z den <= 1)%Q).
    { split.
      - apply Qle_shift_div_l; [exact Hq|]. unfold Qle, inject_Z; cbn. lia.
      - apply Qle_shift_div_r; [exact Hq|]. unfold Qle, inject_Z; cbn. lia. }
    revert Hr. generalize (inject_Z num / inject_Z den)%Q. intros q Hr. lra.
  - split; unfold Qle; cbn; lia.
Qed.

Lemma fitness_one_iff trace cost bwc :
  0 <= cost -> 10000 <= 10000 * Z.of_nat (length trace) + bwc ->
  (trace_fitness trace cost bwc == 1)%Q <-> cost < 10000.
Proof.
  intros H1 H3. unfold trace_fitness, STD_MODEL_LOG_MOVE_COST.
  set (den := (10000 * Z.of_nat (length trace) + bwc) / 10000).
  assert (Hd : 0 < den) by (apply Z.div_str_pos; lia).
  destruct (Z.gtb_spec den 0) as [_|Hd']; [|lia].
  assert (Hq : (~ inject_Z den == 0)%Q) by (unfold Qeq, inject_Z; cbn; lia).
  split.
  - intros H. assert (E : (inject_Z (cost / 10000) / inject_Z den == 0)%Q).
    { revert H. generalize (inject_Z (cost / 10000) / inject_Z den)%Q. intros q Hr. lra. }
    assert (E2 : (inject_Z (cost / 10000) == 0)%Q).
    { rewrite <- (Qmult_div_r (inject_Z (cost / 10000)) (inject_Z den) Hq), E. ring. }
    unfold Qeq, inject_Z in E2. cbn in E2. rewrite Z.mul_1_r in E2.
    apply Z.div_small_iff in E2; lia.
  - intros H. rewrite Z.div_small by lia. unfold Qdiv. setoid_replace (inject_Z 0) with 0%Q by reflexivity. ring.
Qed.

Lemma cheap_alignment_fits pn im fm trace g :
  is_alignment pn im fm trace g -> align_cost g < 10000 -> accepts pn im fm trace.
Proof.
  intros (HL & HT & ts & Hr & Hm) Hc. exists ts. split; [exact Hr|]. rewrite <- HT.
  assert (G : forall g, Forall legal_move g -> align_cost g < 10000 ->
            forall ts, map t_label ts = model_part g -> visible ts = log_part g).
  { clear. induction g as [|l g IH]; intros HL Hc ts Hm.
    - destruct ts; [reflexivity|discriminate].
    - inversion HL as [|? ? Hl HL']; subst. cbn [align_cost] in Hc. pose proof (align_cost_nonneg g).
      inversion Hl as [a|[b|]|a]; subst; cbn [move_cost model_part log_part] in *; try lia.
      + destruct ts as [|t ts]; [discriminate|]. injection Hm as E Hm. cbn [visible]. rewrite E.
        apply IH; [exact HL'|lia|exact Hm].
      + destruct ts as [|t ts]; [discriminate|]. injection Hm as E Hm. cbn [visible]. rewrite E.
        f_equal. apply IH; [exact HL'|lia|exact Hm]. }
  apply G; auto.
Qed.

(** number of silent transitions *)
Fixpoint silent (ts : list (transition (option nat))) : Z :=
  match ts with [] => 0 | t :: r => (match t_label t with None => 1 | Some _ => 0 end) + silent r end.

Lemma fitting_alignment pn im fm trace ts :
  run pn im ts fm -> visible ts = trace ->
  exists g, is_alignment pn im fm trace g /\ align_cost g = silent ts.
Proof.
  intros Hr Hv.
  exists (map (fun t => match t_label t with Some a => (Lab (Some a), Lab (Some a)) | None => (Skip, Lab None) end) ts).
  split; [split; [|split]|].
  - apply Forall_forall. intros l Hl. apply elem_of_list_In, in_map_iff in Hl as (t & <- & _).
    destruct (t_label t); constructor.
  - rewrite <- Hv. clear. induction ts as [|t ts IH]; cbn [map log_part visible]; [reflexivity|].
    destruct (t_label t); cbn [log_part]; rewrite IH; reflexivity.
  - exists ts. split; [exact Hr|]. clear. induction ts as [|t ts IH]; cbn [map model_part]; [reflexivity|].
    destruct (t_label t) eqn:E; cbn [model_part]; rewrite IH; reflexivity.
  - clear. induction ts as [|t ts IH]; cbn [map align_cost silent]; [reflexivity|].
    rewrite IH. destruct (t_label t); reflexivity.
Qed.

Lemma fitness_correct pn im fm trace fuel fuel' n bwc :
  simple_net pn -> unit_weights pn -> proper im -> proper fm ->
  dijkstra_apply fuel trace pn im fm = SFound n -> best_worst_cost fuel' pn im fm = Some bwc ->
  let f := trace_fitness trace (d_g n) bwc in
  (0 <= f <= 1)%Q /\
  (10000 <= 10000 * Z.of_nat (length trace) + bwc ->
     ((f == 1)%Q -> accepts pn im fm trace) /\
     (forall ts, run pn im ts fm -> visible ts = trace -> silent ts < 10000 -> (f == 1)%Q)).
Proof.
  intros Hs Hu Him Hfm Hn Hb f.
  pose proof (dijkstra_apply_correct pn im fm trace Hs Hu Him Hfm fuel) as H. rewrite Hn in H.
  destruct H as [[HA Hopt] HC].
  unfold best_worst_cost in Hb.
  pose proof (dijkstra_apply_correct pn im fm [] Hs Hu Him Hfm fuel') as H0.
  destruct (dijkstra_apply fuel' [] pn im fm) as [n0| |]; [|discriminate|discriminate].
  cbn in Hb. injection Hb as <-. destruct H0 as [[HA0 _] HC0].
  destruct (worst_alignment _ _ _ trace _ HA0) as (gw & Hgw & Hcw).
  pose proof (Hopt _ Hgw) as Hle. rewrite <- HC, Hcw, <- HC0 in Hle.
  assert (Hn0 : 0 <= d_g n) by (rewrite HC; apply align_cost_nonneg).
  assert (Hb0 : 0 <= d_g n0) by (rewrite HC0; apply align_cost_nonneg).
  split; [apply fitness_range; assumption|].
  intros Hden. subst f. split.
  - intros H. apply fitness_one_iff in H; [|assumption|assumption].
    eapply cheap_alignment_fits; [exact HA|]. lia.
  - intros ts Hr Hv Hsil. apply fitness_one_iff; [assumption|assumption|].
    destruct (fitting_alignment _ _ _ _ _ Hr Hv) as (g & Hg & Hc). specialize (Hopt g Hg). lia.
Qed.
