(** Correctness of the A* search. *)
From stdpp Require Import gmap.
From Coq Require Import ZArith QArith Qminmax Lia Lqa.
From Verif Require Import Model_Petri Spec_Petri Model_Align Spec_Align Model_AStar Spec_AStar
  Proofs_Petri Proofs_Petri2 Proofs_Petri3 Proofs_Dijkstra Proofs_Sync.
Local Open Scope Q_scope.

Lemma qdot_alter c x i f d a :
  (forall v, f v == v + d) -> nth_error c i = Some a -> (i < length x)%nat ->
  qdot c (alter f i x) == qdot c x + a * d.
Proof.
  intros Hf. revert c i. induction x as [|v x IH]; intros c i Hc Hi; cbn [length] in Hi; [lia|].
  destruct c as [|b c]; [destruct i; discriminate|]. destruct i as [|i].
  - cbn in Hc. injection Hc as ->. cbn. rewrite Hf. ring.
  - cbn in Hc. change (alter f (S i) (v :: x)) with (v :: alter f i x). cbn [qdot].
    rewrite IH by (assumption || lia). ring.
Qed.

Lemma qdot_nonneg c x : (forall a, In a c -> 0 <= a) -> (forall v, In v x -> 0 <= v) -> 0 <= qdot c x.
Proof.
  revert x. induction c as [|a c IH]; intros [|v x] Hc Hx; cbn [qdot]; try lra.
  assert (0 <= a * v) by (apply Qmult_le_0_compat; [apply Hc|apply Hx]; left; reflexivity).
  assert (0 <= qdot c x) by (apply IH; intros; [apply Hc|apply Hx]; right; assumption). lra.
Qed.

Lemma qdot_zero c n : qdot c (replicate n 0) == 0.
Proof.
  revert n. induction c as [|a c IH]; intros [|n]; cbn [qdot replicate]; try reflexivity.
  rewrite IH. ring.
Qed.

Lemma in_alter {A} (f : A -> A) i (x : list A) w :
  In w (alter f i x) -> In w x \/ exists v, In v x /\ w = f v.
Proof.
  revert i. induction x as [|v x IH]; intros [|i]; cbn; auto.
  - intros [<-|H]; [right; exists v; auto|left; auto].
  - intros [<-|H]; [left; auto|]. destruct (IH _ H) as [H1|(u & H1 & H2)]; [left; auto|right; exists u; auto].
Qed.

Lemma t_index_spec (l : list (transition slabel)) t :
  List.NoDup (map t_id l) -> In t l -> nth_error l (t_index t l) = Some t.
Proof.
  induction l as [|u l IH]; intros Hn Ht; [destruct Ht|]. cbn [t_index].
  inversion Hn as [|? ? Hnin Hn']; subst.
  destruct (Nat.eqb_spec (t_id u) (t_id t)) as [E|E].
  - destruct Ht as [->|Ht]; [reflexivity|]. exfalso. apply Hnin. rewrite E. apply in_map, Ht.
  - destruct Ht as [->|Ht]; [contradiction|]. cbn. apply IH; assumption.
Qed.

Lemma qrun_cost_app cost l1 l2 : qrun_cost cost (l1 ++ l2) == qrun_cost cost l1 + qrun_cost cost l2.
Proof. induction l1 as [|t l IH]; cbn [app qrun_cost]; [ring|]. rewrite IH. ring. Qed.

Section AStar.
  Context (pn : petri_net slabel) (ini fin : marking) (cost : transition slabel -> Q)
          (lp : marking -> option (Q * list Q))
          (pop : list anode -> option (anode * list anode))
          (pushpop : anode -> list anode -> anode * list anode).
  Hypothesis Hsn : simple_net pn.
  Hypothesis Hun : unit_weights pn.
  Hypothesis Hid : distinct_ids pn.
  Hypothesis Hini : proper ini.
  Hypothesis Hcost : forall t, In t (n_trans pn) -> 0 <= cost t.
  Hypothesis Hlp : lp_optimal pn fin cost lp.
  Hypothesis Hgap : lp_gap lp.
  Hypothesis Hheap : heap_ok pop pushpop.

  Let T := n_trans pn.

  (** optimal value of the LP *)
  Definition hval (m : marking) (h : Q) : Prop := exists h0 x, lp m = Some (h0, x) /\ h == h0.

  Lemma feasible_has m y : feasible pn fin m y -> exists h, hval m h /\ h <= lp_cost pn cost y.
  Proof.
    intros Hy. pose proof (Hlp m) as H. destruct (lp m) as [[h x]|] eqn:E.
    - exists h. split; [exists h, x; split; [exact E|reflexivity]|]. apply H, Hy.
    - exfalso. eapply H, Hy.
  Qed.

  Lemma hval_nonneg m h : hval m h -> 0 <= h.
  Proof.
    intros (h0 & x & E & ->). pose proof (Hlp m) as H. rewrite E in H. destruct H as (Hf & -> & _).
    apply qdot_nonneg; [|apply Hf]. intros a Ha. apply in_map_iff in Ha as (t & <- & Ht). apply Hcost, Ht.
  Qed.

  Lemma hval_unique m h h' : hval m h -> hval m h' -> h == h'.
  Proof. intros (h0 & x & E & ->) (h1 & x1 & E1 & ->). rewrite E in E1. injection E1 as -> _. reflexivity. Qed.

  Lemma hval_fin : hval fin 0.
  Proof.
    destruct (feasible_has fin (replicate (length T) 0)) as (h & Hh & Hle).
    - split; [apply replicate_length|]. split.
      + intros v Hv. apply elem_of_list_In, elem_of_replicate in Hv as [-> _]. lra.
      + intros p _. rewrite qdot_zero, Z.sub_diag. reflexivity.
    - unfold lp_cost in Hle. rewrite qdot_zero in Hle. pose proof (hval_nonneg _ _ Hh).
      destruct Hh as (h0 & x & E & E2). exists h0, x. split; [exact E|]. lra.
  Qed.

  Lemma incidence_effect t p : In t T -> incidence t p = (weight (t_out t) p - weight (t_in t) p)%Z.
  Proof.
    intros Ht. unfold incidence. rewrite !count_arcs_weight; [reflexivity| |]; intros q w Hq; eapply Hun; eauto.
  Qed.

  Lemma row_nth t p : In t T ->
    nth_error (map (fun t => inject_Z (incidence t p)) T) (t_index t T) = Some (inject_Z (incidence t p)).
  Proof. intros Ht. rewrite nth_error_map, t_index_spec by assumption. reflexivity. Qed.
  Lemma cost_nth t : In t T -> nth_error (map cost T) (t_index t T) = Some (cost t).
  Proof. intros Ht. rewrite nth_error_map, t_index_spec by assumption. reflexivity. Qed.
  Lemma t_index_lt t : In t T -> (t_index t T < length T)%nat.
  Proof. intros Ht. apply nth_error_Some. rewrite t_index_spec by assumption. discriminate. Qed.

  (** moving one firing from the solution to the run and back *)
  Lemma feasible_back t m m' y : fires pn t m m' -> feasible pn fin m' y ->
    let y' := alter (fun v => v + 1) (t_index t T) y in
    feasible pn fin m y' /\ lp_cost pn cost y' == lp_cost pn cost y + cost t.
  Proof.
    intros Hf (Hl & Hp & He) y'. pose proof (proj1 Hf) as Ht. destruct Hf as (_ & _ & _ & Htok).
    assert (Hi : (t_index t T < length y)%nat) by (rewrite Hl; apply t_index_lt, Ht).
    split; [split; [|split]|].
    - unfold y'. rewrite alter_length. exact Hl.
    - intros v Hv. apply in_alter in Hv as [Hv|(u & Hu & ->)]; [apply Hp, Hv|]. specialize (Hp u Hu). lra.
    - intros p Hpp. unfold y'.
      rewrite (qdot_alter _ y (t_index t T) (fun v => v + 1) 1 (inject_Z (incidence t p))); [|intros; ring|apply row_nth, Ht|exact Hi].
      rewrite He by exact Hpp. rewrite incidence_effect by exact Ht.
      rewrite Qmult_1_r, <- inject_Z_plus. apply inject_Z_injective. rewrite Htok. lia.
    - unfold y', lp_cost.
      rewrite (qdot_alter _ y (t_index t T) (fun v => v + 1) 1 (cost t)); [ring|intros; ring|apply cost_nth, Ht|exact Hi].
  Qed.

  Lemma feasible_fwd t m m' x : fires pn t m m' -> feasible pn fin m x ->
    let x' := alter (fun v => v - 1) (t_index t T) x in
    (forall v, In v x' -> 0 <= v) ->
    feasible pn fin m' x' /\ lp_cost pn cost x' == lp_cost pn cost x - cost t.
  Proof.
    intros Hf (Hl & Hp & He) x' Hpos. pose proof (proj1 Hf) as Ht. destruct Hf as (_ & _ & _ & Htok).
    assert (Hi : (t_index t T < length x)%nat) by (rewrite Hl; apply t_index_lt, Ht).
    split; [split; [|split]|].
    - unfold x'. rewrite alter_length. exact Hl.
    - exact Hpos.
    - intros p Hpp. unfold x'.
      rewrite (qdot_alter _ x (t_index t T) (fun v => v - 1) (-1) (inject_Z (incidence t p))); [|intros; ring|apply row_nth, Ht|exact Hi].
      rewrite He by exact Hpp. rewrite incidence_effect by exact Ht.
      setoid_replace (inject_Z (weight (t_out t) p - weight (t_in t) p) * -1)
        with (inject_Z (- (weight (t_out t) p - weight (t_in t) p))) by (rewrite inject_Z_opp; ring).
      rewrite <- inject_Z_plus. apply inject_Z_injective. rewrite Htok. lia.
    - unfold x', lp_cost.
      rewrite (qdot_alter _ x (t_index t T) (fun v => v - 1) (-1) (cost t)); [ring|intros; ring|apply cost_nth, Ht|exact Hi].
  Qed.

  (** consistency of the heuristic *)
  Lemma hval_consistent t m m' h' : fires pn t m m' -> hval m' h' -> exists h, hval m h /\ h <= cost t + h'.
  Proof.
    intros Hf (h0 & x & E & Eh). pose proof (Hlp m') as H. rewrite E in H. destruct H as (Hfe & Hc & _).
    destruct (feasible_back t m m' x Hf Hfe) as [Hfe' Hc'].
    destruct (feasible_has _ _ Hfe') as (h & Hh & Hle). exists h. split; [exact Hh|]. lra.
  Qed.

  Lemma hval_run m ts : run pn m ts fin -> exists h, hval m h /\ h <= qrun_cost cost ts.
  Proof.
    intros Hr. remember fin as f eqn:Ef in Hr. induction Hr as [m|m t m1 ts m2 Hf Hr IH]; cbn [qrun_cost].
    - subst m. exists 0. split; [apply hval_fin|lra].
    - destruct (IH Ef) as (h & Hh & Hle). destruct (hval_consistent _ _ _ _ Hf Hh) as (h' & Hh' & Hle').
      exists h'. split; [exact Hh'|]. lra.
  Qed.

  (** solution vectors of trusted nodes *)
  Definition xgap (x : list Q) : Prop := forall v k, In v x -> v < inject_Z k -> v < inject_Z k - (1 # 1000).
  Definition exact_at (m : marking) (h : Q) (x : list Q) : Prop :=
    match lp m with
    | Some _ => hval m h /\ feasible pn fin m x /\ h == lp_cost pn cost x /\ xgap x
    | None => MAX_ALLOWED_HEURISTICS < h
    end.

  Lemma exact_heuristic_ok m : exact_at m (exact_heuristic pn lp m).1 (exact_heuristic pn lp m).2.
  Proof.
    unfold exact_at, exact_heuristic. pose proof (Hlp m) as H. pose proof (Hgap m) as G.
    destruct (lp m) as [[h x]|] eqn:E; cbn [fst snd].
    - destruct H as (H1 & H2 & _). split; [exists h, x; split; [exact E|reflexivity]|].
      split; [exact H1|]. split; [exact H2|]. exact (G h x eq_refl).
    - reflexivity.
  Qed.

  Definition node_ok' (n : anode) : Prop :=
    run pn ini (rev (a_path n)) (a_m n) /\ a_g n == qrun_cost cost (rev (a_path n)) /\ 0 <= a_h n /\
    (forall h, hval (a_m n) h -> a_h n <= h) /\
    (a_trust n = true -> exact_at (a_m n) (a_h n) (a_x n)) /\
    (a_trust n = false -> a_h n <= MAX_ALLOWED_HEURISTICS).

  Lemma exact_at_bounds m h x : exact_at m h x -> 0 <= h /\ forall h', hval m h' -> h <= h'.
  Proof.
    unfold exact_at. destruct (lp m) as [hx|] eqn:E.
    - intros (H1 & _). split; [eapply hval_nonneg, H1|]. intros h' H'. rewrite (hval_unique _ _ _ H1 H'). lra.
    - intros H. split; [assert (0 <= MAX_ALLOWED_HEURISTICS) by (vm_compute; discriminate); lra|].
      intros h' (h0 & y & E' & _). congruence.
  Qed.

  (** the child of a trusted node *)
  Definition child (c : anode) (t : transition slabel) : anode :=
    let x := alter (fun v => v - 1) (t_index t T) (a_x c) in
    ANode (a_g c + cost t) (Qmax 0 (a_h c - cost t)) (add_markings (a_m c) (add_marking t))
          (t :: a_path c) x (trust_solution x).

  Lemma qmax_cases a b : (a <= b /\ Qmax a b == b) \/ (b <= a /\ Qmax a b == a).
  Proof.
    destruct (Qlt_le_dec b a) as [H|H].
    - right. split; [lra|]. apply Q.max_l. lra.
    - left. split; [exact H|]. apply Q.max_r, H.
  Qed.

  Lemma child_ok c t : node_ok' c -> a_trust c = true -> a_h c <= MAX_ALLOWED_HEURISTICS -> In t T -> enabled_at t (a_m c) ->
    node_ok' (child c t) /\ a_f c <= a_f (child c t).
  Proof.
    intros (Hr & Hg & H0 & Hlow & Hex & _) Htr Hmax Ht Hen.
    assert (Hpm : proper (a_m c)) by (eapply run_proper; [exact Hini|exact Hr]).
    assert (Hf : fires pn t (a_m c) (add_markings (a_m c) (add_marking t))) by (apply add_markings_fires; auto).
    specialize (Hex Htr). unfold exact_at in Hex. destruct (lp (a_m c)) as [hx|] eqn:El.
    2:{ lra. }
    destruct Hex as (Hhv & Hfe & Hhc & Hgp). pose proof (Hcost t Ht) as Hct.
    split.
    - split; [|split; [|split; [|split; [|split]]]]; cbn [child a_path a_m a_g a_h a_x a_trust].
      + cbn [rev]. eapply run_app; [exact Hr|]. econstructor; [exact Hf|constructor].
      + cbn [rev]. rewrite qrun_cost_app. cbn [qrun_cost]. lra.
      + apply Q.le_max_l.
      + intros h' Hh'. destruct (hval_consistent _ _ _ _ Hf Hh') as (h1 & Hh1 & Hle).
        pose proof (Hlow _ Hh1). pose proof (hval_nonneg _ _ Hh').
        destruct (qmax_cases 0 (a_h c - cost t)) as [[? ->]|[? ->]]; lra.
      + intros Htrust. set (x' := alter (fun v => v - 1) (t_index t T) (a_x c)) in *.
        assert (Hgp' : xgap x').
        { intros v k Hv Hlt. apply in_alter in Hv as [Hv|(u & Hu & ->)]; [apply Hgp; assumption|].
          assert (u < inject_Z k + 1) by lra.
          assert (E : inject_Z (k + 1) == inject_Z k + 1) by (rewrite inject_Z_plus; reflexivity).
          pose proof (Hgp u (k + 1)%Z Hu) as G. lra. }
        assert (Hpos : forall v, In v x' -> 0 <= v).
        { intros v Hv. unfold trust_solution in Htrust. rewrite forallb_forall in Htrust. specialize (Htrust v Hv).
          apply Qle_bool_iff in Htrust. destruct (Qlt_le_dec v 0) as [Hneg|H]; [|exact H].
          pose proof (Hgp' v 0%Z Hv) as G. change (inject_Z 0) with 0 in G. specialize (G Hneg). lra. }
        destruct (feasible_fwd t _ _ _ Hf Hfe Hpos) as [Hfe' Hc']. fold x' in Hfe', Hc'.
        destruct (feasible_has _ _ Hfe') as (h1 & Hh1 & Hle1).
        destruct (hval_consistent _ _ _ _ Hf Hh1) as (h2 & Hh2 & Hle2).
        pose proof (hval_unique _ _ _ Hhv Hh2) as Eq. pose proof (hval_nonneg _ _ Hh1) as Hnn.
        assert (Em : Qmax 0 (a_h c - cost t) == a_h c - cost t) by (apply Q.max_r; lra).
        unfold exact_at. destruct Hh1 as (h3 & x3 & E3 & E3'). rewrite E3.
        split; [exists h3, x3; split; [exact E3|lra]|]. split; [exact Hfe'|]. split; [lra|exact Hgp'].
      + intros _. destruct (qmax_cases 0 (a_h c - cost t)) as [[? ->]|[? ->]]; lra.
    - unfold a_f. cbn [child a_g a_h]. destruct (qmax_cases 0 (a_h c - cost t)) as [[? ->]|[? ->]]; lra.
  Qed.

  (** ---- the search invariant ---- *)
  Definition alive (m : marking) : Prop := exists h, hval m h /\ h <= MAX_ALLOWED_HEURISTICS.
  Definition covered' (cd : list (marking * Q)) (open : list anode) (m : marking) (c : Q) : Prop :=
    (exists d, In (m, d) cd /\ d <= c) \/ (exists n, In n open /\ a_m n = m /\ a_g n <= c).

  Record AInv (cd : list (marking * Q)) (open : list anode) : Prop := {
    ai_ok : forall n, In n open -> node_ok' n;
    ai_mono : forall m d, In (m, d) cd -> exists h, hval m h /\ forall n, In n open -> d + h <= a_f n;
    ai_proper : forall m d, In (m, d) cd -> proper m;
    ai_succ : forall m d t m', In (m, d) cd -> fires pn t m m' -> alive m' -> covered' cd open m' (d + cost t);
    ai_ini : alive ini -> covered' cd open ini 0;
    ai_fin : forall d, ~ In (fin, d) cd
  }.

  Lemma closed_le cd open m d n : AInv cd open -> In (m, d) cd -> In n open -> a_m n = m -> d <= a_g n.
  Proof.
    intros HI Hd Hn <-. destruct (ai_mono _ _ HI _ _ Hd) as (h & Hh & Hle). specialize (Hle n Hn).
    destruct (ai_ok _ _ HI n Hn) as (_ & _ & _ & Hlow & _ & _). specialize (Hlow h Hh). unfold a_f in Hle. lra.
  Qed.

  (** the invariant only depends on the elements of [open] *)
  Lemma ainv_equiv cd o1 o2 : (forall n, In n o1 <-> In n o2) -> AInv cd o1 -> AInv cd o2.
  Proof.
    intros He HI.
    assert (Hcov : forall m c, covered' cd o1 m c -> covered' cd o2 m c).
    { intros m c [H|(n & Hn & H)]; [left; exact H|right; exists n; split; [apply He, Hn|exact H]]. }
    constructor.
    - intros n Hn. apply (ai_ok _ _ HI), He, Hn.
    - intros m d Hm. destruct (ai_mono _ _ HI _ _ Hm) as (h & Hh & Hle). exists h. split; [exact Hh|].
      intros n Hn. apply Hle, He, Hn.
    - apply (ai_proper _ _ HI).
    - intros m d t m' Hm Hf Ha. apply Hcov. eapply (ai_succ _ _ HI); eauto.
    - intros Ha. apply Hcov, (ai_ini _ _ HI), Ha.
    - apply (ai_fin _ _ HI).
  Qed.

  (** dropping a node that is closed or cannot lead to the goal *)
  Lemma ainv_drop cd c open : AInv cd (c :: open) ->
    (exists d, In (a_m c, d) cd) \/ ~ alive (a_m c) -> AInv cd open.
  Proof.
    intros HI Hd.
    assert (Hcov : forall m k, alive m -> covered' cd (c :: open) m k -> covered' cd open m k).
    { intros m k Ha [H|(n & [<-|Hn] & Hm & Hle)]; [left; exact H| |right; exists n; auto].
      destruct Hd as [[d Hd]|Hd]; [|subst m; contradiction].
      left. exists d. subst m. split; [exact Hd|].
      pose proof (closed_le _ _ _ _ c HI Hd (or_introl eq_refl) eq_refl). lra. }
    constructor.
    - intros n Hn. apply (ai_ok _ _ HI). right. exact Hn.
    - intros m d' Hm. destruct (ai_mono _ _ HI _ _ Hm) as (h & Hh & Hle). exists h. split; [exact Hh|].
      intros n Hn. apply Hle. right. exact Hn.
    - apply (ai_proper _ _ HI).
    - intros m d' t m' Hm Hf Ha. apply Hcov; [exact Ha|]. eapply (ai_succ _ _ HI); eauto.
    - intros Ha. apply Hcov; [exact Ha|]. apply (ai_ini _ _ HI), Ha.
    - apply (ai_fin _ _ HI).
  Qed.

  (** replacing the heuristic of an untrusted node by the exact one *)
  Lemma ainv_exact cd c open : AInv cd (c :: open) -> a_trust c = false ->
    AInv cd (ANode (a_g c) (exact_heuristic pn lp (a_m c)).1 (a_m c) (a_path c) (exact_heuristic pn lp (a_m c)).2 true :: open).
  Proof.
    intros HI Htr. pose proof (exact_heuristic_ok (a_m c)) as Hex.
    set (h := (exact_heuristic pn lp (a_m c)).1) in *. set (x := (exact_heuristic pn lp (a_m c)).2) in *.
    destruct (exact_at_bounds _ _ _ Hex) as [H0 Hup].
    set (c' := ANode (a_g c) h (a_m c) (a_path c) x true).
    destruct (ai_ok _ _ HI c (or_introl eq_refl)) as (Hr & Hg & Hc0 & Hlow & _ & Hmax). specialize (Hmax Htr).
    assert (Hge : a_h c <= h).
    { unfold exact_at in Hex. destruct (lp (a_m c)) as [hx|] eqn:El; [apply Hlow, Hex|lra]. }
    assert (Hcov : forall m k, covered' cd (c :: open) m k -> covered' cd (c' :: open) m k).
    { intros m k [H|(n & [<-|Hn] & Hm & Hle)]; [left; exact H| |right; exists n; cbn [In]; auto].
      right. exists c'. split; [left; reflexivity|]. split; [exact Hm|exact Hle]. }
    constructor.
    - intros n [<-|Hn]; [|apply (ai_ok _ _ HI); right; exact Hn].
      split; [exact Hr|]. split; [exact Hg|]. split; [exact H0|]. split; [exact Hup|]. split; [intros _; exact Hex|].
      cbn. discriminate.
    - intros m d Hm. destruct (ai_mono _ _ HI _ _ Hm) as (h' & Hh & Hle). exists h'. split; [exact Hh|].
      intros n [<-|Hn]; [|apply Hle; right; exact Hn].
      specialize (Hle c (or_introl eq_refl)). unfold a_f in *. cbn [c' a_g a_h]. lra.
    - apply (ai_proper _ _ HI).
    - intros m d t m' Hm Hf Ha. apply Hcov. eapply (ai_succ _ _ HI); eauto.
    - intros Ha. apply Hcov, (ai_ini _ _ HI), Ha.
    - apply (ai_fin _ _ HI).
  Qed.

  Lemma apush_fold_in closed c ts open n :
    In n (fold_left (astar_push pn cost closed c) ts open) <->
    In n open \/ exists t, In t ts /\ ~ add_markings (a_m c) (add_marking t) ∈ closed /\ n = child c t.
  Proof.
    revert open. induction ts as [|t ts IH]; intros open; cbn [fold_left].
    - split; [auto|]. intros [H|(t & [] & _)]. exact H.
    - rewrite IH. unfold astar_push at 1.
      destruct (bool_decide (add_markings (a_m c) (add_marking t) ∈ closed)) eqn:E.
      + apply bool_decide_eq_true in E. split.
        * intros [H|(u & Hu & Hr)]; [left; exact H|right; exists u; split; [right; exact Hu|exact Hr]].
        * intros [H|(u & [<-|Hu] & Hn & Hr)]; [left; exact H|contradiction|right; exists u; auto].
      + apply bool_decide_eq_false in E. cbn [derive_heuristic].
        split.
        * intros [[<-|H]|(u & Hu & Hr)].
          -- right. exists t. split; [left; reflexivity|]. split; [exact E|reflexivity].
          -- left. exact H.
          -- right. exists u. split; [right; exact Hu|exact Hr].
        * intros [H|(u & [<-|Hu] & Hn & Hr)].
          -- left. right. exact H.
          -- left. left. symmetry. exact Hr.
          -- right. exists u. auto.
  Qed.

  (** expanding a trusted node with minimal f *)
  Lemma ainv_expand cd c open :
    AInv cd (c :: open) -> a_trust c = true -> a_h c <= MAX_ALLOWED_HEURISTICS -> a_m c <> fin ->
    (forall n, In n open -> a_f c <= a_f n) ->
    AInv ((a_m c, a_g c) :: cd)
         (fold_left (astar_push pn cost (a_m c :: map fst cd) c) (search_enabled pn (a_m c)) open).
  Proof.
    intros HI Htr Hmax Hfin Hmin. set (closed' := a_m c :: map fst cd).
    pose proof (ai_ok _ _ HI c (or_introl eq_refl)) as Hc.
    pose proof Hc as (Hrun & Hg & _ & _ & Hex & _). specialize (Hex Htr).
    assert (Hpm : proper (a_m c)) by (eapply run_proper; [exact Hini|exact Hrun]).
    assert (Hhv : hval (a_m c) (a_h c)).
    { unfold exact_at in Hex. destruct (lp (a_m c)); [apply Hex|lra]. }
    set (open' := fold_left _ _ _).
    assert (Hcov : forall m k, covered' cd (c :: open) m k -> covered' ((a_m c, a_g c) :: cd) open' m k).
    { intros m k [(d & Hd & Hle)|(n & Hn & <- & Hle)].
      - left. exists d. split; [right; exact Hd|exact Hle].
      - destruct Hn as [<-|Hn].
        + left. exists (a_g c). split; [left; reflexivity|exact Hle].
        + right. exists n. split; [apply apush_fold_in; left; exact Hn|auto]. }
    assert (Hch : forall t, In t (search_enabled pn (a_m c)) -> node_ok' (child c t) /\ a_f c <= a_f (child c t)).
    { intros t Ht. apply (search_enabled_iff pn _ _ Hsn Hpm) in Ht as [Hin He]. apply child_ok; assumption. }
    constructor.
    - intros n Hn. apply apush_fold_in in Hn as [Hn|(t & Ht & _ & ->)].
      + apply (ai_ok _ _ HI). right. exact Hn.
      + apply Hch, Ht.
    - assert (Hgen : forall n, In n open' -> a_f c <= a_f n).
      { intros n Hn. apply apush_fold_in in Hn as [Hn|(t & Ht & _ & ->)]; [apply Hmin, Hn|apply Hch, Ht]. }
      intros m d [[= <- <-]|Hd].
      + exists (a_h c). split; [exact Hhv|]. intros n Hn. exact (Hgen n Hn).
      + destruct (ai_mono _ _ HI _ _ Hd) as (h & Hh & Hle). exists h. split; [exact Hh|].
        intros n Hn. specialize (Hgen n Hn). specialize (Hle c (or_introl eq_refl)). lra.
    - intros m d [[= <- <-]|Hd]; [exact Hpm|eapply (ai_proper _ _ HI), Hd].
    - intros m d t m' [[= <- <-]|Hd] Hf Ha.
      + assert (Ht : In t (search_enabled pn (a_m c))).
        { apply (search_enabled_iff pn _ _ Hsn Hpm). split; apply Hf. }
        assert (Em : m' = add_markings (a_m c) (add_marking t)).
        { eapply fires_det; [exact Hf|]. destruct Hf as (Hf1 & Hf2 & _). apply add_markings_fires; auto. }
        destruct (decide (add_markings (a_m c) (add_marking t) ∈ closed')) as [Hcl|Hcl].
        * left. pose proof (Hcost t (proj1 Hf)). subst closed'.
          apply elem_of_cons in Hcl as [Hcl|Hcl].
          -- exists (a_g c). rewrite Em, Hcl. split; [left; reflexivity|lra].
          -- apply elem_of_list_In, in_map_iff in Hcl as ([m2 d2] & E2 & Hcl). cbn in E2.
             exists d2. split; [right; rewrite Em, <- E2; exact Hcl|].
             destruct (ai_mono _ _ HI _ _ Hcl) as (h & Hh & Hle). specialize (Hle c (or_introl eq_refl)).
             subst m2. rewrite <- Em in Hh. destruct (hval_consistent _ _ _ _ Hf Hh) as (h1 & Hh1 & Hle1).
             pose proof (hval_unique _ _ _ Hhv Hh1). unfold a_f in Hle. lra.
        * right. exists (child c t). split; [apply apush_fold_in; right; exists t; auto|].
          cbn [child a_m a_g]. split; [symmetry; exact Em|lra].
      + apply Hcov. eapply (ai_succ _ _ HI); eauto.
    - intros Ha. apply Hcov, (ai_ini _ _ HI), Ha.
    - intros d [[= E _]|Hd]; [contradiction|]. eapply (ai_fin _ _ HI), Hd.
  Qed.

  Lemma ainv_init : AInv [] [ANode 0 (exact_heuristic pn lp ini).1 ini [] (exact_heuristic pn lp ini).2 true].
  Proof.
    pose proof (exact_heuristic_ok ini) as Hex. destruct (exact_at_bounds _ _ _ Hex) as [H0 Hup].
    constructor.
    - intros n [<-|[]]. split; [constructor|]. split; [reflexivity|]. split; [exact H0|]. split; [exact Hup|].
      split; [intros _; exact Hex|discriminate].
    - intros m d [].
    - intros m d [].
    - intros m d t m' [].
    - intros _. right. eexists. split; [left; reflexivity|]. cbn. split; [reflexivity|lra].
    - auto.
  Qed.

  (** every cheap complete run is represented in the queue *)
  Lemma ainv_runs cd open : AInv cd open ->
    forall ts2 ts1 m, run pn ini ts1 m -> run pn m ts2 fin ->
    qrun_cost cost ts1 + qrun_cost cost ts2 <= MAX_ALLOWED_HEURISTICS ->
    (forall t, In t ts1 -> 0 <= cost t) ->
    (exists d, In (m, d) cd /\ d <= qrun_cost cost ts1) \/
    (exists n, In n open /\ a_f n <= qrun_cost cost ts1 + qrun_cost cost ts2).
  Proof.
    intros HI ts2 ts1. revert ts2. induction ts1 as [|t ts IH] using rev_ind; intros ts2 m Hr1 Hr2 HM Hnn.
    - inversion Hr1; subst. cbn [qrun_cost] in *. destruct (hval_run _ _ Hr2) as (h & Hh & Hle).
      destruct (ai_ini _ _ HI) as [(d & Hd & Hle')|(n & Hn & Hm & Hle')].
      + exists h. split; [exact Hh|lra].
      + left. eauto.
      + right. exists n. split; [exact Hn|]. destruct (ai_ok _ _ HI n Hn) as (_ & _ & _ & Hlow & _).
        rewrite Hm in Hlow. specialize (Hlow h Hh). unfold a_f. lra.
    - apply run_app_inv in Hr1 as (m1 & Hr1 & Hr1'). inversion Hr1' as [|? ? m2 ? ? Hf Hr3]; subst.
      inversion Hr3; subst. pose proof (qrun_cost_app cost ts [t]) as EC. cbn [qrun_cost] in EC.
      destruct (hval_run _ _ Hr2) as (h & Hh & Hle).
      assert (Hnn1 : 0 <= qrun_cost cost ts + cost t).
      { clear - Hnn. assert (Ht : 0 <= cost t) by (apply Hnn, in_or_app; right; left; reflexivity).
        assert (Hs : forall l, (forall u, In u l -> 0 <= cost u) -> 0 <= qrun_cost cost l).
        { induction l as [|u l IHl]; intros H; cbn [qrun_cost]; [lra|].
          pose proof (H u (or_introl eq_refl)). assert (0 <= qrun_cost cost l) by (apply IHl; intros; apply H; right; assumption). lra. }
        assert (0 <= qrun_cost cost ts) by (apply Hs; intros u Hu; apply Hnn, in_or_app; left; exact Hu). lra. }
      destruct (IH (t :: ts2) m1 Hr1) as [(d & Hd & Hle')|(n & Hn & Hle')].
      + econstructor; eassumption.
      + cbn [qrun_cost]. lra.
      + intros u Hu. apply Hnn, in_or_app. left. exact Hu.
      + destruct (ai_succ _ _ HI _ _ _ _ Hd Hf) as [(d' & Hd' & Hle2)|(n & Hn & Hm & Hle2)].
        * exists h. split; [exact Hh|]. lra.
        * left. exists d'. split; [exact Hd'|]. lra.
        * right. exists n. split; [exact Hn|]. destruct (ai_ok _ _ HI n Hn) as (_ & _ & _ & Hlow & _).
          rewrite Hm in Hlow. specialize (Hlow h Hh). unfold a_f. lra.
      + right. exists n. split; [exact Hn|]. cbn [qrun_cost] in Hle'. lra.
  Qed.

  Lemma ainv_complete cd open ts : AInv cd open -> run pn ini ts fin -> qrun_cost cost ts <= MAX_ALLOWED_HEURISTICS ->
    exists n, In n open /\ a_f n <= qrun_cost cost ts.
  Proof.
    intros HI Hr HM. destruct (ainv_runs cd open HI [] ts fin Hr) as [(d & Hd & _)|(n & Hn & Hle)].
    - constructor.
    - cbn [qrun_cost]. lra.
    - intros t Ht. apply Hcost. eapply run_in; eassumption.
    - exfalso. eapply (ai_fin _ _ HI), Hd.
    - exists n. split; [exact Hn|]. cbn [qrun_cost] in Hle. lra.
  Qed.

  Definition aposts (r : aresult) : Prop :=
    match r with
    | AFound n => run pn ini (rev (a_path n)) fin /\ a_g n == qrun_cost cost (rev (a_path n)) /\
                  forall ts, run pn ini ts fin -> qrun_cost cost ts <= MAX_ALLOWED_HEURISTICS ->
                             a_g n <= qrun_cost cost ts
    | AExhausted | AError => forall ts, run pn ini ts fin -> MAX_ALLOWED_HEURISTICS < qrun_cost cost ts
    | AInterrupted => True
    end.

  Lemma no_open cd : AInv cd [] -> forall ts, run pn ini ts fin -> MAX_ALLOWED_HEURISTICS < qrun_cost cost ts.
  Proof.
    intros HI ts Hr. destruct (Qlt_le_dec MAX_ALLOWED_HEURISTICS (qrun_cost cost ts)) as [H|H]; [exact H|].
    destruct (ainv_complete _ _ _ HI Hr H) as (n & [] & _).
  Qed.

  Lemma astar_loop_sound fuel : forall cd cur open,
    AInv cd (match cur with Some c => c :: open | None => open end) ->
    (match cur with Some c => forall n, In n open -> a_f c <= a_f n | None => True end) ->
    aposts (astar_loop pn fin cost lp pop pushpop fuel (map fst cd) cur open).
  Proof.
    destruct Hheap as [Hpop Hpp].
    induction fuel as [|fuel IH]; intros cd cur open HI Hmin; cbn [astar_loop]; [exact I|].
    destruct cur as [c|].
    2:{ specialize (Hpop open). destruct (pop open) as [[c rest]|].
        - destruct Hpop as [Hp Hm]. apply IH.
          + eapply ainv_equiv; [|exact HI]. intros n. split; intros H; [|symmetry in Hp]; eapply Permutation_in; eassumption.
          + intros n Hn. apply Hm. symmetry in Hp. eapply Permutation_in; [exact Hp|right; exact Hn].
        - subst open. exact (no_open _ HI). }
    destruct (a_trust c) eqn:Etr; cbn [negb].
    - destruct (Qle_bool (a_h c) MAX_ALLOWED_HEURISTICS) eqn:Eh; cbn [negb].
      + apply Qle_bool_iff in Eh. destruct (bool_decide (a_m c ∈ map fst cd)) eqn:Ec.
        * apply bool_decide_eq_true in Ec. apply elem_of_list_In, in_map_iff in Ec as ([m d] & E & Hd).
          cbn in E. subst m. apply IH; [|exact I]. eapply ainv_drop; [exact HI|]. left. eauto.
        * destruct (ai_ok _ _ HI c (or_introl eq_refl)) as (Hrun & Hg & H0 & Hlow & Hex & _).
          specialize (Hex Etr).
          assert (Hhv : hval (a_m c) (a_h c)).
          { unfold exact_at in Hex. destruct (lp (a_m c)); [apply Hex|lra]. }
          destruct (bool_decide (a_m c = fin)) eqn:Ef.
          -- apply bool_decide_eq_true in Ef.
             assert (Hz : a_h c == 0) by (apply (hval_unique fin); [rewrite <- Ef; exact Hhv|apply hval_fin]).
             assert (Eq : Qle_bool (1 # 100) (a_h c) = false).
             { destruct (Qle_bool (1 # 100) (a_h c)) eqn:E; [|reflexivity]. apply Qle_bool_iff in E. lra. }
             rewrite Eq. cbn [negb andb aposts]. split; [rewrite <- Ef; exact Hrun|]. split; [exact Hg|].
             intros ts Hr HM. destruct (ainv_complete _ _ _ HI Hr HM) as (n & [<-|Hn] & Hle).
             ++ unfold a_f in Hle. lra.
             ++ specialize (Hmin n Hn). unfold a_f in Hmin, Hle. lra.
          -- rewrite andb_false_r. apply bool_decide_eq_false in Ef.
             apply (IH ((a_m c, a_g c) :: cd) None); [|exact I].
             apply ainv_expand; assumption.
      + apply IH; [|exact I]. eapply ainv_drop; [exact HI|]. right. intros (h & Hh & Hle).
        destruct (ai_ok _ _ HI c (or_introl eq_refl)) as (_ & _ & _ & Hlow & _). specialize (Hlow h Hh).
        assert (Qle_bool (a_h c) MAX_ALLOWED_HEURISTICS = true) by (apply Qle_bool_iff; lra). congruence.
    - destruct (bool_decide (a_m c ∈ map fst cd)) eqn:Ec.
      + apply bool_decide_eq_true in Ec. apply elem_of_list_In, in_map_iff in Ec as ([m d] & E & Hd).
        cbn in E. subst m. assert (HI' : AInv cd open) by (eapply ainv_drop; [exact HI|left; eauto]).
        specialize (Hpop open). destruct (pop open) as [[c' rest]|].
        * destruct Hpop as [Hp Hm]. apply IH.
          -- eapply ainv_equiv; [|exact HI']. intros n. split; intros H; [|symmetry in Hp]; eapply Permutation_in; eassumption.
          -- intros n Hn. apply Hm. symmetry in Hp. eapply Permutation_in; [exact Hp|right; exact Hn].
        * subst open. exact (no_open _ HI').
      + pose proof (ainv_exact cd c open HI Etr) as HI'.
        destruct (exact_heuristic pn lp (a_m c)) as [h x]. cbn [fst snd] in HI'.
        specialize (Hpp (ANode (a_g c) h (a_m c) (a_path c) x true) open).
        destruct (pushpop _ open) as [c' rest]. cbn [fst snd] in Hpp. destruct Hpp as [Hp Hm]. apply IH.
        * eapply ainv_equiv; [|exact HI']. intros n. split; intros H; [|symmetry in Hp]; eapply Permutation_in; eassumption.
        * intros n Hn. apply Hm. symmetry in Hp. eapply Permutation_in; [exact Hp|right; exact Hn].
  Qed.

  Lemma astar_search_sound fuel : aposts (astar_search pn fin cost lp pop pushpop fuel ini).
  Proof.
    unfold astar_search. pose proof ainv_init as H.
    destruct (exact_heuristic pn lp ini) as [h x]. cbn [fst snd] in H.
    apply (astar_loop_sound fuel [] None); [exact H|exact I].
  Qed.

  (** ---- Termination when the reachable markings are finitely many ---- *)
  Definition wnode (n : anode) : nat := if a_trust n then 2 else 4.
  Fixpoint wopen (l : list anode) : nat := match l with [] => 0 | n :: r => wnode n + wopen r end.
  Definition wcur (c : option anode) : nat := match c with Some n => wnode n - 1 | None => 0 end.

  Lemma wopen_perm l1 l2 : Permutation l1 l2 -> wopen l1 = wopen l2.
  Proof. induction 1; cbn [wopen]; lia. Qed.

  Lemma wopen_push closed c ts open :
    (wopen (fold_left (astar_push pn cost closed c) ts open) <= 4 * length ts + wopen open)%nat.
  Proof.
    revert open. induction ts as [|t ts IH]; intros open; cbn [fold_left length]; [lia|].
    etrans; [apply IH|]. unfold astar_push. destruct (bool_decide _); [lia|].
    cbn [derive_heuristic wopen]. unfold wnode at 1. destruct (a_trust _); lia.
  Qed.

  Lemma astar_loop_terminates (l : list marking) :
    (forall m, reachable pn ini m -> In m l) ->
    forall fuel cd cur open,
    AInv cd (match cur with Some c => c :: open | None => open end) ->
    (match cur with Some c => forall n, In n open -> a_f c <= a_f n | None => True end) ->
    NoDup (map fst cd) -> (forall m, In m (map fst cd) -> In m l) ->
    (wcur cur + wopen open + (length l - length cd) * (4 * length (n_trans pn)) < fuel)%nat ->
    astar_loop pn fin cost lp pop pushpop fuel (map fst cd) cur open <> AInterrupted.
  Proof.
    intros Hl. destruct Hheap as [Hpop Hpp].
    induction fuel as [|fuel IH]; intros cd cur open HI Hmin Hnd Hsub Hfu; [exact (False_rect _ (Nat.nlt_0_r _ Hfu))|]. cbn [astar_loop].
    assert (Hw : forall n, (2 <= wnode n)%nat) by (intros n; unfold wnode; destruct (a_trust n); lia).
    destruct cur as [c|].
    2:{ specialize (Hpop open). destruct (pop open) as [[c rest]|]; [|discriminate].
        destruct Hpop as [Hp Hm]. apply IH; auto.
        + eapply ainv_equiv; [|exact HI]. intros n. split; intros H; [|symmetry in Hp]; eapply Permutation_in; eassumption.
        + intros n Hn. apply Hm. symmetry in Hp. eapply Permutation_in; [exact Hp|right; exact Hn].
        + apply wopen_perm in Hp. cbn [wopen wcur] in *. pose proof (Hw c). clear IH. revert Hfu.
          generalize ((length l - length cd) * (4 * length (n_trans pn)))%nat. intros; lia. }
    destruct (a_trust c) eqn:Etr; cbn [negb].
    - destruct (Qle_bool (a_h c) MAX_ALLOWED_HEURISTICS) eqn:Eh; cbn [negb].
      + apply Qle_bool_iff in Eh. destruct (bool_decide (a_m c ∈ map fst cd)) eqn:Ec.
        * apply bool_decide_eq_true in Ec. apply elem_of_list_In, in_map_iff in Ec as ([m d] & E & Hd).
          cbn in E. subst m. apply IH; auto.
          -- eapply ainv_drop; [exact HI|]. left. eauto.
          -- cbn [wcur] in *. pose proof (Hw c). clear IH. revert Hfu.
             generalize ((length l - length cd) * (4 * length (n_trans pn)))%nat. intros; lia.
        * apply bool_decide_eq_false in Ec.
          destruct (ai_ok _ _ HI c (or_introl eq_refl)) as (Hrun & Hg & H0 & Hlow & Hex & _).
          specialize (Hex Etr).
          assert (Hhv : hval (a_m c) (a_h c)).
          { unfold exact_at in Hex. destruct (lp (a_m c)); [apply Hex|lra]. }
          destruct (bool_decide (a_m c = fin)) eqn:Ef.
          -- apply bool_decide_eq_true in Ef.
             assert (Hz : a_h c == 0) by (apply (hval_unique fin); [rewrite <- Ef; exact Hhv|apply hval_fin]).
             assert (Eq : Qle_bool (1 # 100) (a_h c) = false).
             { destruct (Qle_bool (1 # 100) (a_h c)) eqn:E; [|reflexivity]. apply Qle_bool_iff in E. lra. }
             rewrite Eq. discriminate.
          -- rewrite andb_false_r. apply bool_decide_eq_false in Ef.
             assert (Hcl : In (a_m c) l) by (apply Hl; exists (rev (a_path c)); exact Hrun).
             assert (Hlt : (S (length cd) <= length l)%nat).
             { rewrite <- (map_length fst cd). change (S (length (map fst cd))) with (length (a_m c :: map fst cd)).
               apply submseteq_length, NoDup_submseteq; [apply NoDup_cons; split; assumption|].
               intros m Hm. apply elem_of_list_In. apply elem_of_cons in Hm as [->|Hm]; [exact Hcl|].
               apply Hsub, elem_of_list_In, Hm. }
             apply (IH ((a_m c, a_g c) :: cd) None); auto.
             ++ apply ainv_expand; assumption.
             ++ cbn [map fst]. apply NoDup_cons. split; assumption.
             ++ cbn [map fst In]. intros m [<-|Hm]; auto.
             ++ pose proof (wopen_push (a_m c :: map fst cd) c (search_enabled pn (a_m c)) open) as Hlen.
                pose proof (search_enabled_length pn (a_m c)) as Hen.
                cbn [length wcur] in *. pose proof (Hw c).
                assert (E : (length l - length cd = S (length l - S (length cd)))%nat) by lia.
                rewrite E, Nat.mul_succ_l in Hfu. clear IH. revert Hfu.
                generalize ((length l - S (length cd)) * (4 * length (n_trans pn)))%nat. intros K HK. lia.
      + apply IH; auto.
        * eapply ainv_drop; [exact HI|]. right. intros (h & Hh & Hle).
          destruct (ai_ok _ _ HI c (or_introl eq_refl)) as (_ & _ & _ & Hlow & _). specialize (Hlow h Hh).
          assert (Qle_bool (a_h c) MAX_ALLOWED_HEURISTICS = true) by (apply Qle_bool_iff; lra). congruence.
        * cbn [wcur] in *. pose proof (Hw c). clear IH. revert Hfu.
          generalize ((length l - length cd) * (4 * length (n_trans pn)))%nat. intros; lia.
    - destruct (bool_decide (a_m c ∈ map fst cd)) eqn:Ec.
      + apply bool_decide_eq_true in Ec. apply elem_of_list_In, in_map_iff in Ec as ([m d] & E & Hd).
        cbn in E. subst m. assert (HI' : AInv cd open) by (eapply ainv_drop; [exact HI|left; eauto]).
        specialize (Hpop open). destruct (pop open) as [[c' rest]|]; [|discriminate].
        destruct Hpop as [Hp Hm]. apply IH; auto.
        * eapply ainv_equiv; [|exact HI']. intros n. split; intros H; [|symmetry in Hp]; eapply Permutation_in; eassumption.
        * intros n Hn. apply Hm. symmetry in Hp. eapply Permutation_in; [exact Hp|right; exact Hn].
        * apply wopen_perm in Hp. cbn [wopen wcur] in *. pose proof (Hw c). pose proof (Hw c'). clear IH. revert Hfu.
          generalize ((length l - length cd) * (4 * length (n_trans pn)))%nat. intros; lia.
      + pose proof (ainv_exact cd c open HI Etr) as HI'.
        destruct (exact_heuristic pn lp (a_m c)) as [h x]. cbn [fst snd] in HI'.
        set (tp := ANode (a_g c) h (a_m c) (a_path c) x true) in *.
        specialize (Hpp tp open).
        destruct (pushpop _ open) as [c' rest]. cbn [fst snd] in Hpp. destruct Hpp as [Hp Hm]. apply IH; auto.
        * eapply ainv_equiv; [|exact HI']. intros n. split; intros H; [|symmetry in Hp]; eapply Permutation_in; eassumption.
        * intros n Hn. apply Hm. symmetry in Hp. eapply Permutation_in; [exact Hp|right; exact Hn].
        * apply wopen_perm in Hp. cbn [wopen wcur] in *.
          assert (E1 : wnode tp = 2%nat) by reflexivity. assert (E2 : wnode c = 4%nat) by (unfold wnode; rewrite Etr; reflexivity).
          pose proof (Hw c'). clear IH. revert Hfu.
          generalize ((length l - length cd) * (4 * length (n_trans pn)))%nat. intros; lia.
  Qed.

  Lemma astar_search_terminates (l : list marking) :
    (forall m, reachable pn ini m -> In m l) ->
    astar_search pn fin cost lp pop pushpop (3 + length l * (4 * length (n_trans pn))) ini <> AInterrupted.
  Proof.
    intros Hl. unfold astar_search. pose proof ainv_init as H.
    destruct (exact_heuristic pn lp ini) as [h x]. cbn [fst snd] in H.
    apply (astar_loop_terminates l Hl _ [] None); auto.
    - constructor.
    - intros m [].
    - cbn [length wcur wopen wnode a_trust]. rewrite Nat.sub_0_r. lia.
  Qed.
End AStar.

Lemma min_pop_ok h : match min_pop h with Some (n, r) => pops_min n r h | None => h = [] end.
Proof.
  induction h as [|n h IH]; cbn [min_pop]; [reflexivity|].
  destruct (min_pop h) as [[k r]|].
  - destruct IH as [Hp Hm]. destruct (Qle_bool (a_f n) (a_f k)) eqn:E.
    + apply Qle_bool_iff in E. split; [reflexivity|]. intros j [<-|Hj]; [lra|]. specialize (Hm j Hj). lra.
    + assert (a_f k <= a_f n).
      { destruct (Qlt_le_dec (a_f n) (a_f k)) as [H|H]; [|exact H].
        assert (Qle_bool (a_f n) (a_f k) = true) by (apply Qle_bool_iff; lra). congruence. }
      split; [rewrite Hp; apply perm_swap|]. intros j [<-|Hj]; [assumption|apply Hm, Hj].
  - subst h. split; [reflexivity|]. intros j [<-|[]]. lra.
Qed.
Lemma min_heap_ok : heap_ok min_pop min_pushpop.
Proof.
  split; [exact min_pop_ok|]. intros n h. unfold min_pushpop. pose proof (min_pop_ok (n :: h)) as H.
  destruct (min_pop (n :: h)) as [[k r]|]; [exact H|discriminate].
Qed.

(** ---- A* on the synchronous product ---- *)
Lemma nodup_map_inj {A} (f : A -> nat) l : List.NoDup (map f l) -> List.NoDup l.
Proof. apply NoDup_map_inv. Qed.

Lemma nodup_app_intro {A} (l1 l2 : list A) :
  List.NoDup l1 -> List.NoDup l2 -> (forall x, In x l1 -> ~ In x l2) -> List.NoDup (l1 ++ l2).
Proof.
  induction l1 as [|x l1 IH]; intros H1 H2 H; [exact H2|]. inversion H1; subst. cbn. constructor.
  - rewrite in_app_iff. intros [Hx|Hx]; [contradiction|]. apply (H x); [left; reflexivity|exact Hx].
  - apply IH; auto. intros y Hy. apply H. right. exact Hy.
Qed.

Lemma nodup_map_intro {A B} (f : A -> B) l :
  List.NoDup l -> (forall x y, In x l -> In y l -> f x = f y -> x = y) -> List.NoDup (map f l).
Proof.
  induction l as [|x l IH]; intros Hn Hf; [constructor|]. inversion Hn; subst. cbn. constructor.
  - intros H. apply in_map_iff in H as (y & E & Hy). apply Hf in E; [subst; contradiction|right; exact Hy|left; reflexivity].
  - apply IH; [assumption|]. intros a b Ha Hb. apply Hf; right; assumption.
Qed.

Lemma sync_in l1 l2 T : In T (sync_transitions l1 l2) ->
  exists t1 t2, In t1 l1 /\ In t2 l2 /\ T = sync_trans t1 t2.
Proof.
  unfold sync_transitions. intros H. apply in_flat_map in H as (t1 & H1 & H).
  apply in_flat_map in H as (t2 & H2 & H). destruct (bool_decide _); [|destruct H].
  destruct H as [<-|[]]. eauto.
Qed.

Lemma sync_ids l1 l2 : List.NoDup (map t_id l1) -> List.NoDup (map t_id l2) ->
  List.NoDup (map t_id (sync_transitions l1 l2)).
Proof.
  intros H1 H2. induction l1 as [|t1 l1 IH]; [constructor|]. inversion H1 as [|? ? Hn1 H1']; subst.
  unfold sync_transitions in *. cbn [flat_map]. rewrite map_app. apply nodup_app_intro; [|apply IH, H1'|].
  - clear - H2. induction l2 as [|t2 l2 IH2]; [constructor|]. inversion H2 as [|? ? Hn2 H2']; subst.
    cbn [flat_map]. rewrite map_app. apply nodup_app_intro; [|apply IH2, H2'|].
    + destruct (bool_decide _); cbn; repeat constructor. intros [].
    + intros x Hx Hy. destruct (bool_decide _); [|destruct Hx]. destruct Hx as [<-|[]].
      apply in_map_iff in Hy as (T & ET & HT). apply in_flat_map in HT as (t3 & H3 & HT).
      destruct (bool_decide _); [|destruct HT]. destruct HT as [<-|[]]. cbn [sync_trans t_id] in ET.
      assert (E : Cantor.to_nat (t_id t1, t_id t3) = Cantor.to_nat (t_id t1, t_id t2)) by lia.
      apply Cantor.to_nat_inj in E. injection E as E. apply Hn2. rewrite <- E. apply in_map, H3.
  - intros x Hx Hy. apply in_map_iff in Hx as (T & ET & HT). apply in_flat_map in HT as (t2 & H3 & HT).
    destruct (bool_decide _); [|destruct HT]. destruct HT as [<-|[]].
    apply in_map_iff in Hy as (T' & ET' & HT'). apply sync_in in HT' as (u1 & u2 & Hu1 & Hu2 & ->).
    cbn [sync_trans t_id] in ET, ET'.
    assert (E : Cantor.to_nat (t_id t1, t_id t2) = Cantor.to_nat (t_id u1, t_id u2)) by lia.
    apply Cantor.to_nat_inj in E. injection E as E _. apply Hn1. rewrite E. apply in_map, Hu1.
Qed.

Lemma product_distinct_ids pn1 pn2 pl : distinct_ids pn1 -> distinct_ids pn2 ->
  distinct_ids (Net pl (map copy_upper (n_trans pn1) ++ map copy_lower (n_trans pn2)
          ++ sync_transitions (n_trans pn1) (n_trans pn2))).
Proof.
  unfold distinct_ids. cbn [n_trans]. intros H1 H2. rewrite !map_app, !map_map.
  cbn [copy_upper copy_lower t_id].
  apply nodup_app_intro; [|apply nodup_app_intro|].
  - rewrite <- (map_map t_id (fun i => (3 * i)%nat)). apply nodup_map_intro; [exact H1|]. intros x y _ _ E; lia.
  - rewrite <- (map_map t_id (fun i => (3 * i + 1)%nat)). apply nodup_map_intro; [exact H2|]. intros x y _ _ E; lia.
  - apply sync_ids; assumption.
  - intros x Hx Hy. apply in_map_iff in Hx as (t & <- & _). apply in_map_iff in Hy as (T & ET & HT).
    apply sync_in in HT as (u1 & u2 & _ & _ & ->). cbn [sync_trans t_id] in ET. lia.
  - intros x Hx Hy. apply in_map_iff in Hx as (t & <- & _). apply in_app_iff in Hy as [Hy|Hy].
    + apply in_map_iff in Hy as (u & E & _). lia.
    + apply in_map_iff in Hy as (T & ET & HT). apply sync_in in HT as (u1 & u2 & _ & _ & ->).
      cbn [sync_trans t_id] in ET. lia.
Qed.

Lemma copy_arcs_unit f arcs p w : In (p, w) (copy_arcs f arcs) -> w = 1%Z.
Proof. unfold copy_arcs. intros H. apply in_map_iff in H as (a & [= _ <-] & _). reflexivity. Qed.

Lemma product_unit pn1 pn2 pl :
  unit_weights (Net pl (map copy_upper (n_trans pn1) ++ map copy_lower (n_trans pn2)
          ++ sync_transitions (n_trans pn1) (n_trans pn2))).
Proof.
  intros t Ht p w H. cbn [n_trans] in Ht. apply in_app_iff in Ht as [Ht|Ht]; [|apply in_app_iff in Ht as [Ht|Ht]].
  - apply in_map_iff in Ht as (u & <- & _). cbn in H. destruct H as [H|H]; eapply copy_arcs_unit, H.
  - apply in_map_iff in Ht as (u & <- & _). cbn in H. destruct H as [H|H]; eapply copy_arcs_unit, H.
  - apply sync_in in Ht as (u1 & u2 & _ & _ & ->). cbn in H.
    destruct H as [H|H]; apply in_app_iff in H as [H|H]; eapply copy_arcs_unit, H.
Qed.

Lemma trace_net_ids i trace : List.NoDup (map t_id (trace_net_trans i trace)) /\
  (forall t, In t (trace_net_trans i trace) -> (i <= t_id t)%nat).
Proof.
  revert i. induction trace as [|a tr IH]; intros i; cbn [trace_net_trans map].
  - split; [constructor|intros t []].
  - destruct (IH (S i)) as [H1 H2]. split.
    + constructor; [|exact H1]. cbn. intros H. apply in_map_iff in H as (t & E & Ht). specialize (H2 t Ht). lia.
    + intros t [<-|Ht]; [cbn; lia|]. specialize (H2 t Ht). lia.
Qed.

Lemma qrun_cost_std Ts : qrun_cost (fun t => inject_Z (std_cost (t_label t))) Ts ==
  inject_Z (run_cost (fun t => std_cost (t_label t)) Ts).
Proof. induction Ts as [|t Ts IH]; cbn [qrun_cost run_cost]; [reflexivity|]. rewrite IH, inject_Z_plus. reflexivity. Qed.

Section AStarAlign.
  Context (pn : petri_net (option nat)) (im fm : marking) (trace : list nat)
          (lp : petri_net slabel -> marking -> marking -> option (Q * list Q)) (pop : list anode -> option (anode * list anode))
          (pushpop : anode -> list anode -> anode * list anode).
  Hypothesis Hs : simple_net pn.
  Hypothesis Hu : unit_weights pn.
  Hypothesis Hd : distinct_ids pn.
  Hypothesis Him : proper im.
  Hypothesis Hfm : proper fm.
  Hypothesis Hlp : lp_optimal (snet pn trace) (sfm fm trace) (fun t => inject_Z (std_cost (t_label t))) (lp (snet pn trace) (sfm fm trace)).
  Hypothesis Hgap : lp_gap (lp (snet pn trace) (sfm fm trace)).
  Hypothesis Hheap : heap_ok pop pushpop.

  Lemma snet_simple : simple_net (snet pn trace).
  Proof. apply prod_simple; [apply tn_simple|exact Hs]. Qed.
  Lemma snet_ids : distinct_ids (snet pn trace).
  Proof. apply product_distinct_ids; [apply trace_net_ids|exact Hd]. Qed.
  Lemma sim_proper : proper (sim im).
  Proof. apply sync_marking_proper; [apply proper_singleton; lia|exact Him]. Qed.
  Lemma scost_nonneg (t : transition slabel) : 0 <= inject_Z (std_cost (t_label t)).
  Proof. change 0 with (inject_Z 0). rewrite <- Zle_Qle. apply std_cost_nonneg. Qed.

  Lemma astar_apply_correct fuel :
    match astar_apply lp pop pushpop fuel trace pn im fm with
    | AFound n => is_alignment pn im fm trace (a_alignment_of n) /\
                  a_g n == inject_Z (align_cost (a_alignment_of n)) /\
                  forall g, is_alignment pn im fm trace g -> (align_cost g <= 10 ^ 15)%Z ->
                            (align_cost (a_alignment_of n) <= align_cost g)%Z
    | AExhausted | AError => forall g, is_alignment pn im fm trace g -> (10 ^ 15 < align_cost g)%Z
    | AInterrupted => True
    end.
  Proof.
    change (astar_apply lp pop pushpop fuel trace pn im fm) with
      (astar_search (snet pn trace) (sfm fm trace) (fun t => inject_Z (std_cost (t_label t)))
         (lp (snet pn trace) (sfm fm trace)) pop pushpop fuel (sim im)).
    pose proof (astar_search_sound (snet pn trace) (sim im) (sfm fm trace) _ _ pop pushpop snet_simple
      (product_unit _ _ _) snet_ids sim_proper (fun t _ => scost_nonneg t) Hlp Hgap Hheap fuel) as H.
    assert (Hnone : (forall ts, run (snet pn trace) (sim im) ts (sfm fm trace) ->
               MAX_ALLOWED_HEURISTICS < qrun_cost (fun t => inject_Z (std_cost (t_label t))) ts) ->
             forall g, is_alignment pn im fm trace g -> (10 ^ 15 < align_cost g)%Z).
    { intros HH g Hg. pose proof Hg as (HL & _). apply product_runs_alignments in Hg as (Ts & HR & <-); auto.
      apply HH in HR. rewrite qrun_cost_std, run_cost_labels in HR by exact HL.
      unfold MAX_ALLOWED_HEURISTICS in HR. rewrite <- Zlt_Qlt in HR. exact HR. }
    destruct (astar_search _ _ _ _ _ _ _ _) as [n| | |]; cbn [aposts] in H.
    - destruct H as (Hr & Hg & Hopt).
      assert (HA : is_alignment pn im fm trace (a_alignment_of n)).
      { apply product_runs_alignments; auto. exists (rev (a_path n)). auto. }
      assert (HC : a_g n == inject_Z (align_cost (a_alignment_of n))).
      { rewrite Hg, qrun_cost_std, run_cost_labels by apply HA. reflexivity. }
      split; [exact HA|]. split; [exact HC|]. intros g Hga Hle.
      pose proof Hga as (HL & _). apply product_runs_alignments in Hga as (Ts & HR & <-); auto.
      specialize (Hopt Ts HR). rewrite qrun_cost_std, run_cost_labels, HC in Hopt by exact HL.
      rewrite <- !Zle_Qle in Hopt. apply Hopt. unfold MAX_ALLOWED_HEURISTICS. rewrite <- Zle_Qle. exact Hle.
    - apply Hnone, H.
    - apply Hnone, H.
    - exact I.
  Qed.

  Lemma astar_apply_terminates (l : list marking) :
    (forall m, reachable pn im m -> In m l) ->
    exists fuel, astar_apply lp pop pushpop fuel trace pn im fm <> AInterrupted.
  Proof.
    intros Hl.
    set (L := flat_map (fun i => map (fun m => sync_marking {[ i := 1%Z ]} m) l) (seq 0 (S (length trace)))).
    exists (3 + length L * (4 * length (n_trans (snet pn trace))))%nat.
    apply (astar_search_terminates (snet pn trace) (sim im) (sfm fm trace) _ _ pop pushpop snet_simple
      (product_unit _ _ _) snet_ids sim_proper (fun t _ => scost_nonneg t) Hlp Hgap Hheap).
    intros M HM. apply prod_reachable in HM as (i & m2 & Hle & Hr & ->); auto.
    apply in_flat_map. exists i. split; [apply in_seq; lia|].
    apply in_map_iff. exists m2. split; [reflexivity|]. apply Hl, Hr.
  Qed.
End AStarAlign.
