(** Proofs: decorated markings and the Dijkstra search. *)
From stdpp Require Import gmap.
From Coq Require Import ZArith Lia.
From Verif Require Import Model_Petri Spec_Petri Proofs_Petri Proofs_Petri2 Model_Align Spec_Align.
Local Open Scope Z_scope.

(** ---- Decorated markings ---- *)
Lemma fold_insert_notin (f : Z -> Z) arcs (acc : marking) p :
  ~ In p (map fst arcs) -> fold_left (fun acc (a : nat * Z) => <[a.1 := f a.2]> acc) arcs acc !! p = acc !! p.
Proof.
  revert acc. induction arcs as [|[q w] arcs IH]; intros acc H; cbn [fold_left]; [reflexivity|].
  cbn [map fst In] in H. rewrite IH by tauto. cbn [fst snd]. apply lookup_insert_ne. tauto.
Qed.

Lemma fold_insert_in (f : Z -> Z) arcs (acc : marking) p w :
  List.NoDup (map fst arcs) -> In (p, w) arcs ->
  fold_left (fun acc (a : nat * Z) => <[a.1 := f a.2]> acc) arcs acc !! p = Some (f w).
Proof.
  revert acc. induction arcs as [|[q v] arcs IH]; intros acc Hnd Hin; [destruct Hin|].
  cbn [map fst] in Hnd. inversion Hnd as [|? ? Hni Hnd']; subst. cbn [fold_left].
  destruct Hin as [[= -> ->]|Hin].
  - rewrite fold_insert_notin by exact Hni. cbn. apply lookup_insert.
  - apply IH; assumption.
Qed.

Lemma sub_marking_lookup {L} (t : transition L) p v :
  simple_trans t -> sub_marking t !! p = Some v <-> In (p, v) (t_in t).
Proof.
  intros [[Hnd _] _]. unfold sub_marking.
  destruct (in_dec Nat.eq_dec p (map fst (t_in t))) as [Hi|Hi].
  - apply in_map_iff in Hi as ([q w] & <- & Hi). cbn.
    pose proof (fold_insert_in (fun x => x) (t_in t) ∅ q w Hnd Hi) as E. cbn in E. rewrite E. split.
    + intros [= <-]. exact Hi.
    + intros Hv. f_equal. rewrite <- (weight_in _ _ _ Hnd Hi), <- (weight_in _ _ _ Hnd Hv). reflexivity.
  - pose proof (fold_insert_notin (fun x => x) (t_in t) ∅ p Hi) as E. cbn in E. rewrite E, lookup_empty.
    split; [discriminate|]. intros H. exfalso. apply Hi. apply in_map_iff. exists (p, v). auto.
Qed.

Lemma sub_marking_tokens {L} (t : transition L) p : simple_trans t -> tokens (sub_marking t) p = weight (t_in t) p.
Proof.
  intros Hs. destruct (sub_marking t !! p) as [v|] eqn:E.
  - unfold tokens. rewrite E. apply sub_marking_lookup in E; [|exact Hs].
    symmetry. apply weight_in; [apply Hs|exact E].
  - unfold tokens. rewrite E. symmetry. apply weight_notin. intros Hi.
    apply in_map_iff in Hi as ([q w] & <- & Hi). apply (sub_marking_lookup t q w Hs) in Hi. cbn in E. congruence.
Qed.

Lemma sub_marking_proper {L} (t : transition L) : simple_trans t -> proper (sub_marking t).
Proof. intros Hs p v H. apply (sub_marking_lookup t p v Hs) in H. destruct Hs as [[_ Hpos] _]. eapply Hpos, H. Qed.

Lemma add_marking_tokens {L} (t : transition L) p : simple_trans t ->
  tokens (add_marking t) p = weight (t_out t) p - weight (t_in t) p.
Proof.
  intros Hs. unfold add_marking.
  assert (H : forall out acc, tokens (fold_left (fun acc (a : nat * Z) => match acc !! a.1 with
                          | Some v => <[a.1 := a.2 + v]> acc
                          | None => <[a.1 := a.2]> acc
                          end) out acc) p = tokens acc p + weight out p).
  { induction out as [|[q w] out IH]; intros acc; cbn [fold_left weight]; [lia|].
    rewrite IH. cbn [fst snd]. destruct (acc !! q) as [v|] eqn:E; rewrite tokens_insert;
      destruct (Nat.eqb_spec q p) as [->|]; try lia; unfold tokens; rewrite E; lia. }
  rewrite H. clear H. destruct Hs as [[Hnd _] _].
  destruct (in_dec Nat.eq_dec p (map fst (t_in t))) as [Hi|Hi].
  - apply in_map_iff in Hi as ([q w] & <- & Hi). cbn.
    rewrite (weight_in _ _ _ Hnd Hi). unfold tokens at 1.
    rewrite (fold_insert_in Z.opp (t_in t) ∅ q w Hnd Hi). lia.
  - rewrite (weight_notin _ _ Hi). unfold tokens at 1.
    rewrite (fold_insert_notin Z.opp (t_in t) ∅ p Hi), lookup_empty. lia.
Qed.

Lemma add_markings_consume m add :
  add_markings m add = fold_left consume (map (fun kv : nat * Z => (kv.1, - kv.2)) (map_to_list add)) m.
Proof.
  unfold add_markings. generalize (map_to_list add) as l. intros l. revert m.
  induction l as [|[p w] l IH]; intros m; cbn [fold_left map]; [reflexivity|].
  rewrite IH. f_equal. unfold consume. cbn [fst snd].
  replace (mget m p - - w) with (mget m p + w) by lia. reflexivity.
Qed.

Lemma weight_opp l p : weight (map (fun kv : nat * Z => (kv.1, - kv.2)) l) p = - weight l p.
Proof.
  induction l as [|[q w] l IH]; cbn [map weight fst snd]; [reflexivity|]. rewrite IH.
  destruct (Nat.eqb q p); lia.
Qed.

Lemma add_markings_tokens m add p : tokens (add_markings m add) p = tokens m p + tokens add p.
Proof. rewrite add_markings_consume, tokens_fold_consume, weight_opp, weight_map_to_list. lia. Qed.

Lemma add_markings_proper m add :
  proper m -> (forall p, 0 <= tokens m p + tokens add p) -> proper (add_markings m add).
Proof.
  intros Hm H. rewrite add_markings_consume. apply proper_fold_consume; [|exact Hm|].
  - rewrite map_map. cbn. apply NoDup_ListNoDup. apply (NoDup_fst_map_to_list add).
  - intros p w Hin. apply in_map_iff in Hin as ([q v] & [= <- <-] & Hin).
    apply elem_of_list_In, elem_of_map_to_list in Hin. specialize (H q). unfold tokens at 2 in H.
    rewrite Hin in H. lia.
Qed.

Lemma add_markings_fires {L} (pn : petri_net L) t m :
  simple_trans t -> proper m -> In t (n_trans pn) -> enabled_at t m ->
  fires pn t m (add_markings m (add_marking t)).
Proof.
  intros Hs Hm Hin He.
  assert (Ht : forall p, tokens m p + tokens (add_marking t) p
                         = tokens m p - weight (t_in t) p + weight (t_out t) p).
  { intros p. rewrite add_marking_tokens by exact Hs. lia. }
  repeat split; [exact Hin|exact He| |].
  - apply add_markings_proper; [exact Hm|]. intros p. rewrite Ht. specialize (He p).
    pose proof (weight_nonneg (t_out t) p (proj2 (proj2 Hs))). lia.
  - intros p. rewrite add_markings_tokens. apply Ht.
Qed.

Lemma log_model_exclusive l : is_log_move l && is_model_move l = false.
Proof.
  unfold is_log_move, is_model_move. destruct (bool_decide (l.1 = Skip)); cbn; [reflexivity|].
  apply andb_false_r.
Qed.

Lemma search_enabled_iff pn m t :
  simple_net pn -> proper m ->
  In t (search_enabled pn m) <-> In t (n_trans pn) /\ enabled_at t m.
Proof.
  intros Hsn Hm. unfold search_enabled. rewrite filter_In.
  rewrite log_model_exclusive. cbn [negb]. rewrite andb_true_r.
  split; intros [Hin H]; (split; [exact Hin|]); pose proof (Hsn t Hin) as Hs.
  - destruct (t_in t) as [|a l] eqn:E.
    + intros p. rewrite E. cbn. apply proper_nonneg, Hm.
    + apply andb_true_iff in H as [_ H].
      pose proof (proj1 (m_leb_iff _ _ (sub_marking_proper t Hs) Hm) H) as H0.
      intros p. rewrite <- sub_marking_tokens by exact Hs. apply H0.
  - destruct (t_in t) as [|[q w] l] eqn:E; [reflexivity|].
    apply andb_true_iff. split.
    + apply existsb_exists.
      assert (Hq : In (q, w) (t_in t)) by (rewrite E; left; reflexivity).
      assert (Hw : 0 < w) by (eapply (proj2 (proj1 Hs)); exact Hq).
      specialize (H q). rewrite (weight_in _ _ _ (proj1 (proj1 Hs)) Hq) in H.
      destruct (m !! q) as [v|] eqn:Em.
      * exists (q, v). split; [apply elem_of_list_In, elem_of_map_to_list, Em|]. cbn.
        apply (sub_marking_lookup t q w Hs) in Hq. rewrite Hq. reflexivity.
      * unfold tokens in H. rewrite Em in H. lia.
    + apply m_leb_iff; [apply sub_marking_proper, Hs|exact Hm|].
      intros p. rewrite sub_marking_tokens by exact Hs. apply H.
Qed.

(** ---- The heap ---- *)
Lemma dnode_lt_g a b : dnode_lt a b = true -> d_g a <= d_g b.
Proof.
  unfold dnode_lt. destruct (Z.ltb_spec (d_g a) (d_g b)); [lia|].
  destruct (Z.ltb_spec (d_g b) (d_g a)); [discriminate|lia].
Qed.
Lemma dnode_nlt_g a b : dnode_lt a b = false -> d_g b <= d_g a.
Proof.
  unfold dnode_lt. destruct (Z.ltb_spec (d_g a) (d_g b)); [discriminate|lia].
Qed.

Lemma heap_pop_none h : heap_pop h = None -> h = [].
Proof.
  destruct h as [|x r]; [reflexivity|]. cbn [heap_pop].
  destruct (heap_pop r) as [[y r']|]; [destruct (dnode_lt y x)|]; discriminate.
Qed.

Lemma heap_pop_spec h x r : heap_pop h = Some (x, r) ->
  (forall n, In n h <-> n = x \/ In n r) /\ (forall n, In n h -> d_g x <= d_g n) /\ length h = S (length r).
Proof.
  revert x r. induction h as [|a h IH]; intros x r; cbn [heap_pop]; [discriminate|].
  destruct (heap_pop h) as [[y r']|] eqn:E.
  - destruct (IH y r' eq_refl) as (H1 & H2 & H3).
    destruct (dnode_lt y a) eqn:El; intros [= <- <-].
    + apply dnode_lt_g in El. split; [|split].
      * intros n. cbn [In]. rewrite H1. intuition congruence.
      * intros n [<-|Hn]; [exact El|apply H2, Hn].
      * cbn [length]. lia.
    + apply dnode_nlt_g in El. split; [|split].
      * intros n. cbn [In]. intuition congruence.
      * intros n [<-|Hn]; [lia|]. specialize (H2 n Hn). lia.
      * reflexivity.
  - intros [= <- <-]. apply heap_pop_none in E as ->. split; [|split].
    + intros n. cbn [In]. intuition congruence.
    + intros n [<-|[]]. lia.
    + reflexivity.
Qed.

(** ---- The search ---- *)
Section Search.
  Variables (pn : petri_net slabel) (ini fin : marking) (cost : transition slabel -> Z).
  Hypothesis Hsn : simple_net pn.
  Hypothesis Hini : proper ini.
  Hypothesis Hcost : forall t, In t (n_trans pn) -> 0 <= cost t.

  Lemma run_cost_app (a b : list (transition slabel)) : run_cost cost (a ++ b) = run_cost cost a + run_cost cost b.
  Proof. induction a as [|t a IH]; cbn [app run_cost]; [lia|]. rewrite IH. lia. Qed.

  Lemma run_cost_nonneg m ts m' : run pn m ts m' -> 0 <= run_cost cost ts.
  Proof.
    intros H. induction H as [|m t m1 ts m2 Hf Hr IH]; cbn [run_cost]; [lia|].
    pose proof (Hcost t (proj1 Hf)). lia.
  Qed.

  Definition node_ok (n : dnode) : Prop :=
    run pn ini (rev (d_path n)) (d_m n) /\ d_g n = run_cost cost (rev (d_path n)).

  (** [cd] : closed markings with the (ghost) cost at which they were closed. *)
  Definition covered (cd : list (marking * Z)) (open : list dnode) (m : marking) (c : Z) : Prop :=
    (exists d, In (m, d) cd /\ d <= c) \/ (exists n, In n open /\ d_m n = m /\ d_g n <= c).

  Record DInv (cd : list (marking * Z)) (open : list dnode) : Prop := {
    di_ok : forall n, In n open -> node_ok n;
    di_mono : forall m d n, In (m, d) cd -> In n open -> d <= d_g n;
    di_proper : forall m d, In (m, d) cd -> proper m;
    di_succ : forall m d t m', In (m, d) cd -> fires pn t m m' -> covered cd open m' (d + cost t);
    di_ini : covered cd open ini 0;
    di_fin : forall d, ~ In (fin, d) cd
  }.

  Lemma dinv_init : DInv [] [DNode 0 ini [] 0].
  Proof.
    constructor; cbn.
    - intros n [<-|[]]. split; [constructor|reflexivity].
    - intros m d n [].
    - intros m d [].
    - intros m d t m' [].
    - right. exists (DNode 0 ini [] 0). cbn. repeat split; auto. lia.
    - auto.
  Qed.

  Lemma dinv_runs cd open : DInv cd open ->
    forall ts m, run pn ini ts m ->
    (exists d, In (m, d) cd /\ d <= run_cost cost ts) \/ (exists n, In n open /\ d_g n <= run_cost cost ts).
  Proof.
    intros HI ts. induction ts as [|t ts IH] using rev_ind; intros m Hr.
    - inversion Hr; subst. destruct (di_ini _ _ HI) as [(d & Hd & Hle)|(n & Hn & _ & Hle)]; [left|right]; eauto.
    - apply run_app_inv in Hr as (m1 & Hr1 & Hr2). inversion Hr2 as [|? ? m2 ? ? Hf Hr3]; subst.
      inversion Hr3; subst.
      rewrite run_cost_app. cbn [run_cost]. pose proof (Hcost t (proj1 Hf)).
      destruct (IH _ Hr1) as [(d & Hd & Hle)|(n & Hn & Hle)].
      + destruct (di_succ _ _ HI _ _ _ _ Hd Hf) as [(d' & Hd' & Hle')|(n & Hn & _ & Hle')].
        * left. exists d'. split; [exact Hd'|]. lia.
        * right. exists n. split; [exact Hn|]. lia.
      + right. exists n. split; [exact Hn|]. lia.
  Qed.

  (** popping an already closed node *)
  Lemma dinv_skip cd open curr rest d :
    DInv cd open -> heap_pop open = Some (curr, rest) -> In (d_m curr, d) cd -> DInv cd rest.
  Proof.
    intros HI Hp Hd. apply heap_pop_spec in Hp as (H1 & H2 & _).
    assert (Hsub : forall n, In n rest -> In n open) by (intros n Hn; apply H1; right; exact Hn).
    assert (Hcur : In curr open) by (apply H1; left; reflexivity).
    assert (Hcov : forall m c, covered cd open m c -> covered cd rest m c).
    { intros m c [H|(n & Hn & <- & Hle)]; [left; exact H|].
      apply H1 in Hn as [->|Hn].
      - left. exists d. split; [exact Hd|]. pose proof (di_mono _ _ HI _ _ _ Hd Hcur). lia.
      - right. exists n. auto. }
    constructor.
    - intros n Hn. apply (di_ok _ _ HI), Hsub, Hn.
    - intros m d' n Hm Hn. eapply (di_mono _ _ HI); eauto.
    - apply (di_proper _ _ HI).
    - intros m d' t m' Hm Hf. apply Hcov. eapply (di_succ _ _ HI); eauto.
    - apply Hcov, (di_ini _ _ HI).
    - apply (di_fin _ _ HI).
  Qed.

  Lemma push_fold_in closed curr ts open n :
    In n (fold_left (push_succ cost closed curr) ts open) <->
    In n open \/ exists t, In t ts /\ ~ add_markings (d_m curr) (add_marking t) ∈ closed /\
       n = DNode (d_g curr + cost t) (add_markings (d_m curr) (add_marking t)) (t :: d_path curr) (S (d_l curr)).
  Proof.
    revert open. induction ts as [|t ts IH]; intros open; cbn [fold_left].
    - split; [auto|]. intros [H|(t & [] & _)]. exact H.
    - rewrite IH. unfold push_succ at 1.
      destruct (bool_decide (add_markings (d_m curr) (add_marking t) ∈ closed)) eqn:E.
      + apply bool_decide_eq_true in E. split.
        * intros [H|(u & Hu & Hr)]; [left; exact H|right; exists u; split; [right; exact Hu|exact Hr]].
        * intros [H|(u & [<-|Hu] & Hn & Hr)]; [left; exact H|contradiction|right; exists u; auto].
      + apply bool_decide_eq_false in E. split.
        * intros [[<-|H]|(u & Hu & Hr)].
          -- right. exists t. split; [left; reflexivity|]. auto.
          -- left. exact H.
          -- right. exists u. split; [right; exact Hu|exact Hr].
        * intros [H|(u & [<-|Hu] & Hn & Hr)].
          -- left. right. exact H.
          -- left. left. symmetry. exact Hr.
          -- right. exists u. auto.
  Qed.

  Lemma push_fold_length closed curr ts open :
    (length (fold_left (push_succ cost closed curr) ts open) <= length ts + length open)%nat.
  Proof.
    revert open. induction ts as [|t ts IH]; intros open; cbn [fold_left length]; [lia|].
    etrans; [apply IH|]. unfold push_succ. destruct (bool_decide _); cbn [length]; lia.
  Qed.

  (** expanding a node *)
  Lemma dinv_expand cd open curr rest :
    DInv cd open -> heap_pop open = Some (curr, rest) -> d_m curr <> fin ->
    let closed' := d_m curr :: map fst cd in
    DInv ((d_m curr, d_g curr) :: cd)
         (fold_left (push_succ cost closed' curr) (search_enabled pn (d_m curr)) rest).
  Proof.
    intros HI Hp Hfin closed'. apply heap_pop_spec in Hp as (H1 & H2 & _).
    assert (Hcur : In curr open) by (apply H1; left; reflexivity).
    destruct (di_ok _ _ HI _ Hcur) as [Hrun Hg].
    assert (Hpm : proper (d_m curr)) by (eapply run_proper; [exact Hini|exact Hrun]).
    set (open' := fold_left _ _ _).
    assert (Hsub : forall n, In n rest -> In n open') by (intros n Hn; apply push_fold_in; left; exact Hn).
    assert (Hcov : forall m c, covered cd open m c -> covered ((d_m curr, d_g curr) :: cd) open' m c).
    { intros m c [(d & Hd & Hle)|(n & Hn & <- & Hle)].
      - left. exists d. split; [right; exact Hd|exact Hle].
      - apply H1 in Hn as [->|Hn].
        + left. exists (d_g curr). split; [left; reflexivity|exact Hle].
        + right. exists n. auto. }
    constructor.
    - intros n Hn. apply push_fold_in in Hn as [Hn|(t & Ht & _ & ->)].
      + apply (di_ok _ _ HI), H1. right. exact Hn.
      + apply (search_enabled_iff pn _ _ Hsn Hpm) in Ht as [Hin He].
        split; cbn [d_path d_m d_g rev].
        * eapply run_app; [exact Hrun|]. econstructor; [|constructor].
          apply add_markings_fires; auto.
        * rewrite run_cost_app. cbn [run_cost]. lia.
    - intros m d n [[= <- <-]|Hd] Hn.
      + apply push_fold_in in Hn as [Hn|(t & Ht & _ & ->)].
        * apply H2, H1. right. exact Hn.
        * cbn. apply (search_enabled_iff pn _ _ Hsn Hpm) in Ht as [Hin _]. pose proof (Hcost t Hin). lia.
      + pose proof (di_mono _ _ HI _ _ _ Hd Hcur).
        apply push_fold_in in Hn as [Hn|(t & Ht & _ & ->)].
        * assert (In n open) by (apply H1; right; exact Hn). eapply (di_mono _ _ HI); eauto.
        * cbn. apply (search_enabled_iff pn _ _ Hsn Hpm) in Ht as [Hin _]. pose proof (Hcost t Hin). lia.
    - intros m d [[= <- <-]|Hd]; [exact Hpm|eapply (di_proper _ _ HI), Hd].
    - intros m d t m' [[= <- <-]|Hd] Hf.
      + assert (Ht : In t (search_enabled pn (d_m curr))).
        { apply (search_enabled_iff pn _ _ Hsn Hpm). split; apply Hf. }
        assert (Em : m' = add_markings (d_m curr) (add_marking t)).
        { eapply fires_det; [exact Hf|]. destruct Hf as (Hf1 & Hf2 & _). apply add_markings_fires; auto. }
        destruct (decide (add_markings (d_m curr) (add_marking t) ∈ closed')) as [Hc|Hc].
        * left. pose proof (Hcost t (proj1 Hf)). subst closed'.
          apply elem_of_cons in Hc as [Hc|Hc].
          -- exists (d_g curr). rewrite Em, Hc. split; [left; reflexivity|lia].
          -- apply elem_of_list_In, in_map_iff in Hc as ([m2 d2] & E2 & Hc). cbn in E2.
             exists d2. split; [right; rewrite Em, <- E2; exact Hc|].
             pose proof (di_mono _ _ HI _ _ _ Hc Hcur). lia.
        * right. eexists. split; [apply push_fold_in; right; exists t; split; [exact Ht|split; [exact Hc|reflexivity]]|].
          cbn. split; [symmetry; exact Em|lia].
      + apply Hcov. eapply (di_succ _ _ HI); eauto.
    - apply Hcov, (di_ini _ _ HI).
    - intros d [[= E _]|Hd]; [contradiction|]. eapply (di_fin _ _ HI), Hd.
  Qed.

  Lemma dijkstra_loop_sound fuel : forall cd open,
    DInv cd open ->
    match dijkstra_loop fuel pn fin cost (map fst cd) open with
    | SFound n => node_ok n /\ d_m n = fin /\ (forall ts, run pn ini ts fin -> d_g n <= run_cost cost ts)
    | SExhausted => forall ts, ~ run pn ini ts fin
    | SInterrupted => True
    end.
  Proof.
    induction fuel as [|fuel IH]; intros cd open HI; cbn [dijkstra_loop].
    - destruct open as [|x open]; [|exact I].
      intros ts Hr. destruct (dinv_runs _ _ HI _ _ Hr) as [(d & Hd & _)|(n & [] & _)].
      eapply (di_fin _ _ HI), Hd.
    - destruct open as [|x open].
      { intros ts Hr. destruct (dinv_runs _ _ HI _ _ Hr) as [(d & Hd & _)|(n & [] & _)].
        eapply (di_fin _ _ HI), Hd. }
      set (op := x :: open) in *. destruct (heap_pop op) as [[curr rest]|] eqn:Hp.
      2:{ apply heap_pop_none in Hp. discriminate. }
      destruct (bool_decide (d_m curr ∈ map fst cd)) eqn:Ec.
      + apply bool_decide_eq_true in Ec. apply elem_of_list_In, in_map_iff in Ec as ([m d] & E & Hd).
        cbn in E. subst m. apply IH. eapply dinv_skip; eassumption.
      + destruct (bool_decide (d_m curr = fin)) eqn:Ef.
        * apply bool_decide_eq_true in Ef. pose proof (heap_pop_spec _ _ _ Hp) as (H1 & H2 & _).
          split; [apply (di_ok _ _ HI), H1; left; reflexivity|]. split; [exact Ef|].
          intros ts Hr. destruct (dinv_runs _ _ HI _ _ Hr) as [(d & Hd & _)|(n & Hn & Hle)].
          -- exfalso. eapply (di_fin _ _ HI), Hd.
          -- specialize (H2 n Hn). lia.
        * apply bool_decide_eq_false in Ef.
          pose proof (dinv_expand cd op curr rest HI Hp Ef) as HI'. cbn zeta in HI'.
          apply (IH ((d_m curr, d_g curr) :: cd) _ HI').
  Qed.

  Lemma dijkstra_search_sound fuel :
    match dijkstra_search fuel pn ini fin cost with
    | SFound n => run pn ini (rev (d_path n)) fin /\ d_g n = run_cost cost (rev (d_path n)) /\
                  (forall ts, run pn ini ts fin -> d_g n <= run_cost cost ts)
    | SExhausted => forall ts, ~ run pn ini ts fin
    | SInterrupted => True
    end.
  Proof.
    unfold dijkstra_search. pose proof (dijkstra_loop_sound fuel [] _ dinv_init) as H. cbn [map] in H.
    destruct (dijkstra_loop _ _ _ _ _ _) as [n| |]; auto.
    destruct H as ([Hr Hg] & Hm & Ho). rewrite Hm in Hr. auto.
  Qed.

  (** Termination when the reachable markings are finitely many. *)
  Lemma search_enabled_length m : (length (search_enabled pn m) <= length (n_trans pn))%nat.
  Proof.
    unfold search_enabled. match goal with |- context [List.filter ?f _] => generalize f end. intros f.
    clear Hcost. induction (n_trans pn) as [|t l IH]; cbn [List.filter length]; [lia|].
    destruct (f t); cbn [length]; lia.
  Qed.

  Lemma dijkstra_loop_terminates (l : list marking) :
    (forall m, reachable pn ini m -> In m l) ->
    forall fuel cd open, DInv cd open -> NoDup (map fst cd) -> (forall m, In m (map fst cd) -> In m l) ->
    (length open + (length l - length cd) * length (n_trans pn) <= fuel)%nat ->
    dijkstra_loop fuel pn fin cost (map fst cd) open <> SInterrupted.
  Proof.
    intros Hl. induction fuel as [|fuel IH]; intros cd open HI Hnd Hsub Hf; cbn [dijkstra_loop].
    - destruct open as [|x open]; [discriminate|]. exfalso. cbn [length] in Hf. generalize dependent ((length l - length cd) * length (n_trans pn))%nat. intros K HK. lia.
    - destruct open as [|x open]; [discriminate|]. set (op := x :: open) in *.
      destruct (heap_pop op) as [[curr rest]|] eqn:Hp; [|discriminate].
      pose proof (heap_pop_spec _ _ _ Hp) as (H1 & H2 & H3).
      destruct (bool_decide (d_m curr ∈ map fst cd)) eqn:Ec.
      + apply bool_decide_eq_true in Ec. apply elem_of_list_In, in_map_iff in Ec as ([m d] & E & Hd).
        cbn in E. subst m. apply IH; [eapply dinv_skip; eassumption|exact Hnd|exact Hsub|].
        revert Hf. generalize ((length l - length cd) * length (n_trans pn))%nat. intros K HK. lia.
      + apply bool_decide_eq_false in Ec.
        destruct (bool_decide (d_m curr = fin)) eqn:Ef; [discriminate|].
        apply bool_decide_eq_false in Ef.
        assert (Hcl : In (d_m curr) l).
        { apply Hl. exists (rev (d_path curr)). apply (di_ok _ _ HI), H1. left. reflexivity. }
        apply (IH ((d_m curr, d_g curr) :: cd)).
        * apply (dinv_expand cd op curr rest HI Hp Ef).
        * cbn [map fst]. apply NoDup_cons. split; assumption.
        * cbn [map fst In]. intros m [<-|Hm]; auto.
        * assert (Hlt : (S (length cd) <= length l)%nat).
          { rewrite <- (map_length fst cd). change (S (length (map fst cd))) with (length (d_m curr :: map fst cd)).
            apply submseteq_length, NoDup_submseteq; [apply NoDup_cons; split; assumption|].
            intros m Hm. apply elem_of_list_In. apply elem_of_cons in Hm as [->|Hm]; [exact Hcl|].
            apply Hsub, elem_of_list_In, Hm. }
          pose proof (push_fold_length (d_m curr :: map fst cd) curr (search_enabled pn (d_m curr)) rest) as Hlen.
          pose proof (search_enabled_length (d_m curr)) as Hen.
          cbn [length map fst] in *.
          assert (E : (length l - length cd = S (length l - S (length cd)))%nat) by lia.
          rewrite E in Hf. cbn [Nat.mul] in Hf. unfold op in *. cbn [length] in *.
          revert Hf. generalize ((length l - S (length cd)) * length (n_trans pn))%nat. intros K HK. lia.
  Qed.

  Lemma dijkstra_search_terminates (l : list marking) :
    (forall m, reachable pn ini m -> In m l) ->
    dijkstra_search (1 + length l * length (n_trans pn)) pn ini fin cost <> SInterrupted.
  Proof.
    intros Hl. unfold dijkstra_search.
    apply (dijkstra_loop_terminates l Hl _ [] _ dinv_init).
    - constructor.
    - intros m [].
    - cbn [length]. lia.
  Qed.
End Search.
