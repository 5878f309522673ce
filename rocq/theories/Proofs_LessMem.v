(** Proofs about the memory-saving alignment search. *)
From stdpp Require Import gmap.
From Coq Require Import ZArith Lia Permutation Sorted.
From Verif Require Import Model_Petri Spec_Petri Model_Align Spec_Align Model_Lev Model_LessMem Spec_LessMem
  Proofs_Petri Proofs_Dijkstra Proofs_Lev.
Local Open Scope Z_scope.

(** ---- Firing ---- *)
Lemma arc_dict_lookup arcs p v :
  simple_arcs arcs -> arc_dict arcs !! p = Some v <-> In (p, v) arcs.
Proof.
  intros Hs. pose proof (sub_marking_lookup (Trans 0 (@None nat) arcs []) p v) as H. apply H.
  split; [exact Hs|]. split; cbn; [constructor|intros ? ? []].
Qed.
Lemma arc_dict_tokens arcs p : simple_arcs arcs -> tokens (arc_dict arcs) p = weight arcs p.
Proof.
  intros Hs. pose proof (sub_marking_tokens (Trans 0 (@None nat) arcs []) p) as H. apply H.
  split; [exact Hs|]. split; cbn; [constructor|intros ? ? []].
Qed.
Lemma arc_dict_proper arcs : simple_arcs arcs -> proper (arc_dict arcs).
Proof. intros Hs p v H. apply arc_dict_lookup in H; [|exact Hs]. eapply Hs, H. Qed.

Lemma dict_leq_iff d m : proper d -> proper m -> dict_leq d m = true <-> forall p, tokens d p <= tokens m p.
Proof. exact (m_leb_iff d m). Qed.

Lemma fire_pre_tokens m pre p : proper m -> proper pre -> tokens pre p <= tokens m p ->
  tokens (fire_pre m pre) p = tokens m p - tokens pre p.
Proof.
  intros Hm Hp. unfold fire_pre, tokens. rewrite map_lookup_imap.
  destruct (m !! p) as [v|] eqn:E; cbn.
  - destruct (pre !! p) as [w|] eqn:E2; [|lia]. intros Hle.
    destruct (Z.ltb_spec 0 (v - w)); lia.
  - destruct (pre !! p) as [w|] eqn:E2; [|lia]. pose proof (Hp _ _ E2). lia.
Qed.
Lemma fire_pre_proper m pre : proper m -> proper (fire_pre m pre).
Proof.
  intros Hm p v. unfold fire_pre. rewrite map_lookup_imap. destruct (m !! p) as [x|] eqn:E; cbn; [|discriminate].
  destruct (pre !! p) as [w|].
  - destruct (Z.ltb_spec 0 (x - w)); [|discriminate]. intros [= <-]. lia.
  - intros [= <-]. eapply Hm, E.
Qed.
Lemma produce_fold_tokens l r p :
  tokens (fold_left (fun (ret : marking) (kv : nat * Z) => match ret !! kv.1 with
                           | None => <[kv.1 := kv.2]> ret
                           | Some v => <[kv.1 := v + kv.2]> ret
                           end) l r) p = tokens r p + weight l p.
Proof.
  revert r. induction l as [|[q w] l IH]; intros r; cbn [fold_left weight fst snd]; [lia|].
  rewrite IH. destruct (r !! q) as [v|] eqn:E; rewrite tokens_insert; destruct (Nat.eqb_spec q p) as [->|]; try lia;
    unfold tokens; rewrite E; lia.
Qed.
Lemma produce_fold_proper l r : proper r -> (forall q w, In (q, w) l -> 0 < w) ->
  proper (fold_left (fun (ret : marking) (kv : nat * Z) => match ret !! kv.1 with
                           | None => <[kv.1 := kv.2]> ret
                           | Some v => <[kv.1 := v + kv.2]> ret
                           end) l r).
Proof.
  revert r. induction l as [|[q w] l IH]; intros r Hr Hl; cbn [fold_left fst snd]; [exact Hr|].
  apply IH; [|intros; eapply Hl; right; eassumption].
  assert (0 < w) by (eapply Hl; left; reflexivity).
  destruct (r !! q) as [v|] eqn:E; apply proper_insert; auto. pose proof (Hr _ _ E). lia.
Qed.

Lemma next_marking_fires pn t m : simple_trans t -> proper m -> In t (n_trans pn) -> enabled_at t m ->
  fires pn t m (next_marking m t).
Proof.
  intros Hs Hm Hin He. pose proof (arc_dict_proper _ (proj1 Hs)) as H1. pose proof (arc_dict_proper _ (proj2 Hs)) as H2.
  split; [exact Hin|]. split; [exact He|]. unfold next_marking, fire_trans. split.
  - apply produce_fold_proper; [apply fire_pre_proper, Hm|]. intros q w Hq.
    apply elem_of_list_In, elem_of_map_to_list in Hq. eapply H2, Hq.
  - intros p. rewrite produce_fold_tokens, weight_map_to_list, (arc_dict_tokens _ _ (proj2 Hs)).
    rewrite fire_pre_tokens; auto; rewrite ?(arc_dict_tokens _ _ (proj1 Hs)); [lia|apply He].
Qed.

Lemma lm_enabled_iff pn m t : simple_net pn -> proper m ->
  In t (lm_enabled pn m) <-> In t (n_trans pn) /\ enabled_at t m.
Proof.
  intros Hsn Hm. unfold lm_enabled. rewrite filter_In. split; intros [Hin H]; (split; [exact Hin|]);
    pose proof (Hsn t Hin) as Hs.
  - rewrite dict_leq_iff in H; [|apply arc_dict_proper, Hs|exact Hm].
    intros p. rewrite <- arc_dict_tokens by apply Hs. apply H.
  - rewrite dict_leq_iff; [|apply arc_dict_proper, Hs|exact Hm].
    intros p. rewrite arc_dict_tokens by apply Hs. apply H.
Qed.

(** ---- The heap ---- *)
Lemma lnode_lt_cost a b : lnode_lt a b = true -> l_cost a <= l_cost b.
Proof.
  unfold lnode_lt. destruct (Z.ltb_spec (l_cost a) (l_cost b)); [lia|].
  destruct (Z.ltb_spec (l_cost b) (l_cost a)); [discriminate|lia].
Qed.
Lemma lnode_nlt_cost a b : lnode_lt a b = false -> l_cost b <= l_cost a.
Proof. unfold lnode_lt. destruct (Z.ltb_spec (l_cost a) (l_cost b)); [discriminate|lia]. Qed.

Lemma lheap_pop_none h : lheap_pop h = None -> h = [].
Proof.
  destruct h as [|x r]; [reflexivity|]. cbn [lheap_pop].
  destruct (lheap_pop r) as [[y r']|]; [destruct (lnode_lt y x)|]; discriminate.
Qed.
Lemma lheap_pop_spec h x r : lheap_pop h = Some (x, r) ->
  (forall n, In n h <-> n = x \/ In n r) /\ (forall n, In n h -> l_cost x <= l_cost n) /\ length h = S (length r).
Proof.
  revert x r. induction h as [|a h IH]; intros x r; cbn [lheap_pop]; [discriminate|].
  destruct (lheap_pop h) as [[y r']|] eqn:E.
  - destruct (IH y r' eq_refl) as (H1 & H2 & H3).
    destruct (lnode_lt y a) eqn:El; intros [= <- <-].
    + apply lnode_lt_cost in El. split; [|split].
      * intros n. cbn [In]. rewrite H1. intuition.
      * intros n [<-|Hn]; [exact El|apply H2, Hn].
      * cbn [length]. lia.
    + apply lnode_nlt_cost in El. split; [|split].
      * intros n. cbn [In]. intuition.
      * intros n [<-|Hn]; [lia|]. specialize (H2 _ Hn). lia.
      * cbn [length]. lia.
  - apply lheap_pop_none in E. subst h. intros [= <- <-]. split; [|split].
    + intros n. cbn [In]. intuition.
    + intros n [<-|[]]. lia.
    + reflexivity.
Qed.

Lemma check_closed_true closed m pos : check_closed closed m pos = true ->
  exists q, In (m, q) closed /\ (pos <= q)%nat.
Proof.
  unfold check_closed, closed_at. destruct (List.find _ closed) as [[m' q]|] eqn:E; [|discriminate].
  intros H. apply Nat.leb_le in H. apply find_some in E as [Hin E]. cbn in E. apply bool_decide_eq_true in E. subst m'.
  exists q. auto.
Qed.

Section Search.
  Context (pn : petri_net (option nat)) (im fm : marking) (trace : list nat) (cs : lcosts).
  Context (Hsn : simple_net pn) (Him : proper im).

  (** ---- Validity of the states ---- *)
  Definition node_ok (n : lnode) : Prop :=
    (l_pos n <= length trace)%nat /\
    exists ms, Forall tm_ok ms /\ tm_log ms = take (l_pos n) trace /\ run pn im (tm_trans ms) (l_m n) /\
      map tm_label ms = map (move_of trace) (rev (l_path n)) /\ l_cost n = tm_cost cs 0 ms.

  Lemma tm_cost_app p ms ms' : tm_cost cs p (ms ++ ms') = tm_cost cs p ms + tm_cost cs (p + length (tm_log ms)) ms'.
  Proof.
    revert p. induction ms as [|[a t|a|t] ms IH]; intros p; cbn [app tm_cost tm_log flat_map length].
    - rewrite Nat.add_0_r. lia.
    - rewrite IH. change (flat_map _ ms) with (tm_log ms). cbn [app length].
      replace (S p + length (tm_log ms))%nat with (p + S (length (tm_log ms)))%nat by lia. lia.
    - rewrite IH. change (flat_map _ ms) with (tm_log ms). cbn [app length].
      replace (S p + length (tm_log ms))%nat with (p + S (length (tm_log ms)))%nat by lia. lia.
    - rewrite IH. change (flat_map _ ms) with (tm_log ms). cbn [app]. lia.
  Qed.
  Lemma tm_log_app ms ms' : tm_log (ms ++ ms') = tm_log ms ++ tm_log ms'.
  Proof. apply flat_map_app. Qed.
  Lemma tm_trans_app ms ms' : tm_trans (ms ++ ms') = tm_trans ms ++ tm_trans ms'.
  Proof. apply flat_map_app. Qed.

  Lemma node_ok_proper n : node_ok n -> proper (l_m n).
  Proof. intros (_ & ms & _ & _ & Hr & _). exact (run_proper _ _ _ _ Him Hr). Qed.

  Lemma nth_take p a : nth_error trace p = Some a -> take (S p) trace = take p trace ++ [a].
  Proof. intros H. apply take_S_r. revert p H. induction trace as [|x l IH]; intros [|p]; cbn; try discriminate; auto. Qed.
  Lemma nth_lt p a : nth_error trace p = Some a -> (p < length trace)%nat.
  Proof. intros H. apply nth_error_Some. rewrite H. discriminate. Qed.

  Lemma node_ok_extend n ms' n' (p' : nat) e :
    node_ok n ->
    (exists m, ms' = [m] /\ tm_ok m /\ tm_label m = move_of trace e) ->
    tm_log ms' = drop (l_pos n) (take p' trace) -> (l_pos n <= p' <= length trace)%nat ->
    run pn (l_m n) (tm_trans ms') (l_m n') -> l_pos n' = p' -> l_path n' = e :: l_path n ->
    l_cost n' = l_cost n + tm_cost cs (l_pos n) ms' ->
    node_ok n'.
  Proof.
    intros (Hp & ms & Hok & Hlog & Hr & Hl & Hc) (m & -> & Hm & Hlab) Hlog' Hp' Hr' Ep Epath Ec.
    split; [lia|]. exists (ms ++ [m]). split; [apply Forall_app; auto|]. split; [|split; [|split]].
    - rewrite tm_log_app, Hlog, Hlog', Ep. rewrite <- (take_drop (l_pos n) (take p' trace)) at 2.
      rewrite take_take. f_equal. f_equal. lia.
    - rewrite tm_trans_app. eapply run_app; eassumption.
    - rewrite Epath. cbn [rev]. rewrite !map_app. cbn [map]. rewrite Hl, Hlab. reflexivity.
    - rewrite tm_cost_app, Ec, Hc, Hlog. rewrite take_length. cbn [Nat.add].
      replace (Nat.min (l_pos n) (length trace)) with (l_pos n) by lia. reflexivity.
  Qed.

  Lemma node_ok_sync n t cnt : node_ok n -> In t (lm_enabled pn (l_m n)) -> is_sync trace (l_pos n) t = true ->
    node_ok (LNode (l_cost n + c_sync cs) (S (l_pos n)) MSync (S (l_len n)) (S cnt)
                   ((MSync, S (l_pos n), Some t) :: l_path n) (next_marking (l_m n) t)).
  Proof.
    intros Hn Ht Hs. pose proof (node_ok_proper n Hn) as Hm. apply lm_enabled_iff in Ht as [Ht He]; auto.
    unfold is_sync in Hs. destruct (nth_error trace (l_pos n)) as [a|] eqn:E; [|discriminate].
    apply bool_decide_eq_true in Hs. pose proof (nth_lt _ _ E).
    eapply (node_ok_extend n [TSync a t] _ (S (l_pos n))); [exact Hn| | | | |reflexivity|reflexivity|].
    - exists (TSync a t). split; [reflexivity|]. split; [exact Hs|]. cbn [tm_label move_of].
      replace (S (l_pos n) - 1)%nat with (l_pos n) by lia. rewrite E. reflexivity.
    - rewrite (nth_take _ _ E), drop_app_alt; [reflexivity|]. rewrite take_length. lia.
    - lia.
    - cbn. econstructor; [|constructor]. apply next_marking_fires; auto.
    - cbn. lia.
  Qed.
  Lemma node_ok_model n t cnt : node_ok n -> In t (lm_enabled pn (l_m n)) ->
    node_ok (LNode (l_cost n + c_model cs t) (l_pos n) MModel (S (l_len n)) (S cnt)
                   ((MModel, l_pos n, Some t) :: l_path n) (next_marking (l_m n) t)).
  Proof.
    intros Hn Ht. pose proof (node_ok_proper n Hn) as Hm. apply lm_enabled_iff in Ht as [Ht He]; auto.
    pose proof (proj1 Hn) as Hp.
    eapply (node_ok_extend n [TModel t] _ (l_pos n)); [exact Hn| | | | |reflexivity|reflexivity|].
    - exists (TModel t). split; [reflexivity|]. split; [exact I|]. reflexivity.
    - cbn. symmetry. apply drop_ge. rewrite take_length. lia.
    - lia.
    - cbn. econstructor; [|constructor]. apply next_marking_fires; auto.
    - cbn. lia.
  Qed.
  Lemma node_ok_log n cnt : node_ok n -> (l_pos n < length trace)%nat ->
    node_ok (LNode (l_cost n + c_log cs (l_pos n)) (S (l_pos n)) MLog (S (l_len n)) (S cnt)
                   ((MLog, S (l_pos n), None) :: l_path n) (l_m n)).
  Proof.
    intros Hn Hlt. destruct (nth_error trace (l_pos n)) as [a|] eqn:E; [|apply nth_error_None in E; lia].
    eapply (node_ok_extend n [TLog a] _ (S (l_pos n))); [exact Hn| | | | |reflexivity|reflexivity|].
    - exists (TLog a). split; [reflexivity|]. split; [exact I|]. cbn [tm_label move_of].
      replace (S (l_pos n) - 1)%nat with (l_pos n) by lia. rewrite E. reflexivity.
    - rewrite (nth_take _ _ E), drop_app_alt; [reflexivity|]. rewrite take_length. lia.
    - lia.
    - constructor.
    - cbn. lia.
  Qed.

  (** ---- Covers: a closed entry or an open state at least as far and at most as dear ---- *)
  (** [cd]: the closed dictionary with the costs of its entries. *)
  Definition cclosed (cd : list (marking * nat * Z)) m q c : Prop :=
    exists q' c', In (m, q', c') cd /\ (q <= q')%nat /\ c' <= c.
  Definition copen (open : list lnode) m q c : Prop :=
    exists n, In n open /\ l_m n = m /\ (q <= l_pos n)%nat /\ l_cost n <= c.
  Definition cover cd open m q c := cclosed cd m q c \/ copen open m q c.

  Lemma cover_mono cd open m q c q2 c2 : cover cd open m q c -> (q2 <= q)%nat -> c <= c2 -> cover cd open m q2 c2.
  Proof.
    intros [(q' & c' & H & ? & ?)|(n & H & ? & ? & ?)] ? ?.
    - left. exists q', c'. repeat split; auto; lia.
    - right. exists n. repeat split; auto; lia.
  Qed.
  Lemma cover_weaken cd open cd' open' m q c : cover cd open m q c ->
    (forall e, In e cd -> In e cd') -> (forall n, In n open -> In n open') -> cover cd' open' m q c.
  Proof.
    intros [(q' & c' & H & ?)|(n & H & ?)] H1 H2.
    - left. exists q', c'. auto.
    - right. exists n. auto.
  Qed.

  (** From (m, p, c) the log move has been, or will be, taken care of; [R] is the cover relation. *)
  Definition log_done (R : marking -> nat -> Z -> Prop) m p c : Prop :=
    p = length trace \/
    exists mA cA ts, run pn mA ts m /\ proper mA /\ cA + run_cost (c_model cs) ts <= c /\ R mA (S p) (cA + c_log cs p).
  Lemma log_done_mono (R R' : marking -> nat -> Z -> Prop) m p c :
    (forall m q c, R m q c -> R' m q c) -> log_done R m p c -> log_done R' m p c.
  Proof. intros H [?|(mA & cA & ts & ? & ? & ? & ?)]; [left; auto|right]. exists mA, cA, ts. auto. Qed.

  Record LInv (cd : list (marking * nat * Z)) (open : list lnode) : Prop := {
    li_open : forall n, In n open -> node_ok n;
    li_cd : forall m q c, In (m, q, c) cd -> proper m /\ (q <= length trace)%nat /\ ~ (m = fm /\ q = length trace)
              /\ reachable pn im m;
    li_cost : forall m q c n, In (m, q, c) cd -> In n open -> c <= l_cost n;
    li_succ : forall m q c t m', In (m, q, c) cd -> fires pn t m m' -> cover cd open m' q (c + c_model cs t);
    li_log : forall m q c, In (m, q, c) cd -> log_done (cover cd open) m q c;
    li_olog : forall n, In n open -> l_ty n = MModel -> log_done (cover cd open) (l_m n) (l_pos n) (l_cost n);
    li_init : cover cd open im 0 0
  }.

  Definition closed_of (cd : list (marking * nat * Z)) : list (marking * nat) := map fst cd.
  Lemma check_closed_cd cd m p : check_closed (closed_of cd) m p = true ->
    exists q c, In (m, q, c) cd /\ (p <= q)%nat.
  Proof.
    intros H. apply check_closed_true in H as (q & Hin & Hle). apply in_map_iff in Hin as ([[m' q'] c] & [= -> ->] & Hin).
    exists q, c. auto.
  Qed.

  Hypothesis Hcosts : costs_ok cs pn trace.
  Lemma run_cost_nonneg ts m m' : run pn m ts m' -> 0 <= run_cost (c_model cs) ts.
  Proof.
    intros H. induction H as [|m t m1 ts m2 Hf Hr IH]; cbn; [lia|].
    destruct Hcosts as (H0 & H1 & _). specialize (H1 t (proj1 Hf)). lia.
  Qed.

  Lemma skip_S p : skip_cost cs (S p) = skip_cost cs p + c_log cs p.
  Proof.
    unfold skip_cost. rewrite seq_S, Nat.add_0_l. generalize (seq 0 p). intros l.
    induction l as [|x l IH]; cbn [app zsum]; [lia|]. rewrite IH. lia.
  Qed.
  Lemma skip_mono p q : (p <= q)%nat -> (q <= length trace)%nat -> skip_cost cs p <= skip_cost cs q.
  Proof.
    intros H. induction H as [|q H IH]; intros Hq; [lia|]. rewrite skip_S.
    assert (0 <= c_log cs q) by (apply Hcosts; lia). specialize (IH ltac:(lia)). lia.
  Qed.

  (** The key argument: if every cover within the budget is closed, the final state is closed. *)
  Lemma budget cd open ts : LInv cd open -> run pn im ts fm ->
    let B := skip_cost cs (length trace) + run_cost (c_model cs) ts in
    (forall n, In n open -> B < l_cost n) -> False.
  Proof.
    intros HI Hrun B Hopen.
    assert (Hcc : forall m q c, c <= B -> cover cd open m q c -> cclosed cd m q c).
    { intros m q c Hc [H|(n & Hn & _ & _ & H)]; [exact H|]. specialize (Hopen n Hn). lia. }
    assert (HB : forall p, (p <= length trace)%nat -> skip_cost cs p <= B).
    { intros p Hp. unfold B. pose proof (run_cost_nonneg _ _ _ Hrun). pose proof (skip_mono p (length trace) Hp (le_n _)). lia. }
    assert (Hprop : forall us m m', run pn m us m' -> forall q c, cclosed cd m q c -> c + run_cost (c_model cs) us <= B ->
              cclosed cd m' q (c + run_cost (c_model cs) us)).
    { intros us m m' H. induction H as [m|m t m1 us m2 Hf Hr IH]; intros q c Hcl Hle; cbn [run_cost] in *.
      - rewrite Z.add_0_r. exact Hcl.
      - destruct Hcl as (q' & c' & Hin & Hq & Hc). pose proof (run_cost_nonneg _ _ _ Hr) as Hnn.
        pose proof (li_succ _ _ HI _ _ _ _ _ Hin Hf) as Hcov. apply Hcc in Hcov; [|lia].
        rewrite Z.add_assoc. apply IH; [|lia]. destruct Hcov as (q2 & c2 & Hin2 & ? & ?).
        exists q2, c2. repeat split; auto; lia. }
    assert (Hskip : forall p, (p <= length trace)%nat -> cclosed cd im p (skip_cost cs p)).
    { induction p as [|p IH]; intros Hp.
      - apply Hcc; [apply HB; lia|]. exact (li_init _ _ HI).
      - destruct (IH ltac:(lia)) as (p' & c' & Hin & Hle & Hc). rewrite skip_S.
        assert (0 <= c_log cs p) by (apply Hcosts; lia). pose proof (HB (S p) Hp) as HBp. rewrite skip_S in HBp.
        destruct (le_lt_dec (S p) p') as [Hlt|Hlt].
        + exists p', c'. repeat split; auto; lia.
        + assert (p' = p) by lia. subst p'.
          destruct (li_log _ _ HI _ _ _ Hin) as [He|(mA & cA & us & Hr & HmA & Hc2 & Hcov)]; [lia|].
          pose proof (run_cost_nonneg _ _ _ Hr). apply Hcc in Hcov; [|lia].
          pose proof (Hprop _ _ _ Hr _ _ Hcov ltac:(lia)) as (q2 & c2 & Hin2 & ? & ?).
          exists q2, c2. repeat split; auto; lia. }
    pose proof (Hprop _ _ _ Hrun _ _ (Hskip _ (le_n _)) ltac:(unfold B; lia)) as (q & c & Hin & Hq & _).
    destruct (li_cd _ _ HI _ _ _ Hin) as (_ & Hq' & Hn & _). apply Hn. split; [reflexivity|lia].
  Qed.

  (** ---- The steps preserve the invariant ---- *)
  Lemma sync_step_spec closed curr ts s :
    let s' := fold_left (sync_step cs closed curr) ts s in
    (forall n, In n s.1.1 -> In n s'.1.1) /\
    (forall n, In n s'.1.1 -> In n s.1.1 \/ exists t cnt, In t ts /\
        n = LNode (l_cost curr + c_sync cs) (S (l_pos curr)) MSync (S (l_len curr)) (S cnt)
                  ((MSync, S (l_pos curr), Some t) :: l_path curr) (next_marking (l_m curr) t)) /\
    (forall m, In m s'.1.2 <-> In m s.1.2 \/ exists t, In t ts /\ m = next_marking (l_m curr) t) /\
    (forall t, In t ts -> check_closed closed (next_marking (l_m curr) t) (S (l_pos curr)) = true \/
       copen s'.1.1 (next_marking (l_m curr) t) (S (l_pos curr)) (l_cost curr + c_sync cs)) /\
    (length s'.1.1 <= length s.1.1 + length ts)%nat.
  Proof.
    revert s. induction ts as [|t ts IH]; intros s; cbn [fold_left].
    - cbn zeta. split; [auto|]. split; [auto|]. split; [|split; [intros t []|cbn; lia]].
      intros m. split; [auto|]. intros [?|(? & [] & _)]. auto.
    - destruct s as [[open this] cnt]. specialize (IH (sync_step cs closed curr (open, this, cnt) t)).
      cbn zeta in *. destruct IH as (I1 & I2 & I3 & I4 & I5).
      set (s' := fold_left _ _ _) in *. cbn [sync_step fst snd] in *. split; [|split; [|split; [|split]]].
      + intros n Hn. apply I1. destruct (check_closed _ _ _); [auto|right; auto].
      + intros n Hn. destruct (I2 n Hn) as [H|(u & k & Hu & ->)]; [|right; exists u, k; split; [right; auto|reflexivity]].
        destruct (check_closed _ _ _); [auto|]. destruct H as [<-|H]; [|auto].
        right. exists t, cnt. split; [left; auto|reflexivity].
      + intros m. rewrite I3. cbn [In]. split.
        * intros [[<-|H]|(u & Hu & ->)]; [right; exists t; auto|auto|right; exists u; auto].
        * intros [H|(u & [<-|Hu] & ->)]; [auto|auto|right; exists u; auto].
      + intros u [<-|Hu]; [|apply I4, Hu]. destruct (check_closed _ _ _) eqn:E; [auto|]. right.
        eexists. split; [apply I1; left; reflexivity|]. cbn. repeat split; lia.
      + cbn [length]. destruct (check_closed _ _ _); cbn [length] in I5; lia.
  Qed.

  Lemma model_step_spec closed curr ts s :
    StronglySorted (fun a b => c_model cs a <= c_model cs b) ts ->
    let s' := fold_left (model_step cs closed curr) ts s in
    (forall n, In n s.1.1 -> In n s'.1.1) /\
    (forall n, In n s'.1.1 -> In n s.1.1 \/ exists t cnt, In t ts /\
        n = LNode (l_cost curr + c_model cs t) (l_pos curr) MModel (S (l_len curr)) (S cnt)
                  ((MModel, l_pos curr, Some t) :: l_path curr) (next_marking (l_m curr) t)) /\
    (forall t, In t ts -> In (next_marking (l_m curr) t) s.1.2 \/ next_marking (l_m curr) t = l_m curr \/
       check_closed closed (next_marking (l_m curr) t) (l_pos curr) = true \/
       copen s'.1.1 (next_marking (l_m curr) t) (l_pos curr) (l_cost curr + c_model cs t)) /\
    (length s'.1.1 <= length s.1.1 + length ts)%nat.
  Proof.
    intros Hsort. revert s. induction ts as [|t ts IH]; intros s; cbn [fold_left].
    - cbn zeta. split; [auto|]. split; [auto|]. split; [intros t []|cbn; lia].
    - inversion Hsort as [|? ? Hs Hf]; subst. specialize (IH Hs).
      destruct s as [[open this] cnt]. specialize (IH (model_step cs closed curr (open, this, cnt) t)).
      cbn zeta in *. destruct IH as (I1 & I2 & I4 & I5).
      set (s' := fold_left _ _ _) in *. cbn [model_step fst snd] in *.
      destruct (bool_decide (next_marking (l_m curr) t ∈ this)) eqn:E1; cbn [negb andb] in *;
        [|destruct (bool_decide (l_m curr = next_marking (l_m curr) t)) eqn:E2; cbn [negb andb] in *].
      + apply bool_decide_eq_true, elem_of_list_In in E1. cbn [fst snd] in *. split; [|split; [|split]].
        * auto.
        * intros n Hn. destruct (I2 n Hn) as [H|(u & k & Hu & ->)]; [auto|right; exists u, k; split; [right; auto|reflexivity]].
        * intros u [<-|Hu]; auto.
        * cbn [length]. lia.
      + apply bool_decide_eq_true in E2. cbn [fst snd] in *. split; [|split; [|split]].
        * auto.
        * intros n Hn. destruct (I2 n Hn) as [H|(u & k & Hu & ->)]; [auto|right; exists u, k; split; [right; auto|reflexivity]].
        * intros u [<-|Hu]; auto.
        * cbn [length]. lia.
      + cbn [fst snd] in *. split; [|split; [|split]].
        * intros n Hn. apply I1. destruct (check_closed _ _ _); [auto|right; auto].
        * intros n Hn. destruct (I2 n Hn) as [H|(u & k & Hu & ->)]; [|right; exists u, k; split; [right; auto|reflexivity]].
          destruct (check_closed _ _ _); [auto|]. destruct H as [<-|H]; [|auto].
          right. exists t, cnt. split; [left; auto|reflexivity].
        * assert (Hcov : check_closed closed (next_marking (l_m curr) t) (l_pos curr) = true \/
            copen s'.1.1 (next_marking (l_m curr) t) (l_pos curr) (l_cost curr + c_model cs t)).
          { destruct (check_closed _ _ _) eqn:E; [auto|]. right.
            eexists. split; [apply I1; left; reflexivity|]. cbn. repeat split; lia. }
          intros u [<-|Hu]; [auto|]. destruct (I4 u Hu) as [[He|H]|[H|[H|H]]]; auto.
          right. right. rewrite <- He. destruct Hcov as [H|(n & H1 & H2 & H3 & H4)]; [auto|].
          right. exists n. rewrite Forall_forall in Hf. specialize (Hf u (proj2 (elem_of_list_In _ _) Hu)).
          repeat split; auto; lia.
        * cbn [length]. destruct (check_closed _ _ _); cbn [length] in I5; lia.
  Qed.

  Lemma expand_spec closed curr rest cnt open' cnt' :
    expand pn trace cs closed curr rest cnt = (open', cnt') ->
    (forall n, In n rest -> In n open') /\
    (forall n, In n open' -> In n rest
       \/ (exists t k, In t (lm_enabled pn (l_m curr)) /\ is_sync trace (l_pos curr) t = true /\
           n = LNode (l_cost curr + c_sync cs) (S (l_pos curr)) MSync (S (l_len curr)) (S k)
                  ((MSync, S (l_pos curr), Some t) :: l_path curr) (next_marking (l_m curr) t))
       \/ (exists t k, In t (lm_enabled pn (l_m curr)) /\
           n = LNode (l_cost curr + c_model cs t) (l_pos curr) MModel (S (l_len curr)) (S k)
                  ((MModel, l_pos curr, Some t) :: l_path curr) (next_marking (l_m curr) t))
       \/ (exists k, (l_pos curr < length trace)%nat /\
           n = LNode (l_cost curr + c_log cs (l_pos curr)) (S (l_pos curr)) MLog (S (l_len curr)) (S k)
                   ((MLog, S (l_pos curr), None) :: l_path curr) (l_m curr))) /\
    (forall t, In t (lm_enabled pn (l_m curr)) ->
       (exists u, In u (lm_enabled pn (l_m curr)) /\ is_sync trace (l_pos curr) u = true /\ (u = t \/ is_sync trace (l_pos curr) t = false) /\
          next_marking (l_m curr) u = next_marking (l_m curr) t /\
          (check_closed closed (next_marking (l_m curr) t) (S (l_pos curr)) = true \/
           copen open' (next_marking (l_m curr) t) (S (l_pos curr)) (l_cost curr + c_sync cs))) \/
       (is_sync trace (l_pos curr) t = false /\
        (next_marking (l_m curr) t = l_m curr \/
         check_closed closed (next_marking (l_m curr) t) (l_pos curr) = true \/
         copen open' (next_marking (l_m curr) t) (l_pos curr) (l_cost curr + c_model cs t)))) /\
    (l_ty curr <> MModel -> (l_pos curr < length trace)%nat ->
       check_closed closed (l_m curr) (S (l_pos curr)) = true \/
       copen open' (l_m curr) (S (l_pos curr)) (l_cost curr + c_log cs (l_pos curr))) /\
    (length open' <= length rest + S (length (n_trans pn)))%nat.
  Proof.
    unfold expand. set (en := lm_enabled pn (l_m curr)). set (e1 := List.filter (is_sync trace (l_pos curr)) en).
    set (e2 := List.filter (fun t => negb (is_sync trace (l_pos curr) t)) en).
    pose proof (sync_step_spec closed curr e1 (rest, [], cnt)) as H1. cbn zeta in H1.
    set (s1 := fold_left (sync_step cs closed curr) e1 (rest, [], cnt)) in *.
    pose proof (model_step_spec closed curr (sorted_by (c_model cs) e2) s1 (sorted_by_sorted _ _)) as H2. cbn zeta in H2.
    set (s2 := fold_left (model_step cs closed curr) (sorted_by (c_model cs) e2) s1) in *.
    destruct H1 as (A1 & A2 & A3 & A4 & A5), H2 as (B1 & B2 & B3 & B4).
    assert (Hperm : forall t, In t (sorted_by (c_model cs) e2) <-> In t e2).
    { intros t. pose proof (sorted_by_perm (c_model cs) e2) as P. split; apply Permutation_in; [symmetry|]; exact P. }
    assert (Hlen : (length e1 + length (sorted_by (c_model cs) e2) <= length (n_trans pn))%nat).
    { rewrite <- (Permutation_length (sorted_by_perm (c_model cs) e2)). unfold e1, e2.
      assert (Hen : (length en <= length (n_trans pn))%nat).
      { unfold en, lm_enabled. generalize (n_trans pn). intros l.
        match goal with |- context [List.filter ?f _] => generalize f end. intros f.
        induction l as [|x l IH]; cbn [List.filter length]; [lia|]. destruct (f x); cbn [length]; lia. }
      rewrite <- Hen. generalize en. intros l. induction l as [|x l IH]; cbn [List.filter length]; [lia|].
      destruct (is_sync trace (l_pos curr) x); cbn [length negb]; lia. }
    assert (Hlog : let s3 := log_step trace cs closed curr s2 in
      (forall n, In n s2.1.1 -> In n s3.1.1) /\
      (forall n, In n s3.1.1 -> In n s2.1.1 \/ exists k, (l_pos curr < length trace)%nat /\
           n = LNode (l_cost curr + c_log cs (l_pos curr)) (S (l_pos curr)) MLog (S (l_len curr)) (S k)
                   ((MLog, S (l_pos curr), None) :: l_path curr) (l_m curr)) /\
      (l_ty curr <> MModel -> (l_pos curr < length trace)%nat ->
       check_closed closed (l_m curr) (S (l_pos curr)) = true \/
       copen s3.1.1 (l_m curr) (S (l_pos curr)) (l_cost curr + c_log cs (l_pos curr))) /\
      (length s3.1.1 <= S (length s2.1.1))%nat).
    { clear -Hcosts. destruct s2 as [[open this] k]. unfold log_step. cbn [fst snd].
      destruct (Nat.ltb_spec (l_pos curr) (length trace)) as [Hlt|Hge]; cbn [andb fst snd].
      - destruct (bool_decide (l_ty curr = MModel)) eqn:E; cbn [negb fst snd].
        + apply bool_decide_eq_true in E. cbn zeta. cbn [fst snd]. split; [auto|split; [auto|split; [congruence|lia]]].
        + cbn zeta. destruct (check_closed closed (l_m curr) (S (l_pos curr))) eqn:Ec; cbn [fst snd].
          * split; [auto|split; [auto|split; [auto|lia]]].
          * split; [right; auto|]. split; [|split; [|cbn; lia]].
            -- intros n [<-|Hn]; [right; exists k; auto|auto].
            -- intros _ _. right. eexists. split; [left; reflexivity|]. cbn. repeat split; lia.
      - cbn zeta. cbn [fst snd]. split; [auto|split; [auto|split; [lia|lia]]]. }
    cbn zeta in Hlog. destruct (log_step trace cs closed curr s2) as [[o3 th3] c3] eqn:E3. cbn [fst snd] in Hlog.
    destruct Hlog as (L1 & L2 & L3 & L4). intros [= <- <-]. cbn [fst snd] in A1, A5.
    split; [|split; [|split; [|split]]].
    - auto.
    - intros n Hn. destruct (L2 n Hn) as [Hn2|H]; [|right; right; right; exact H].
      destruct (B2 n Hn2) as [Hn1|(t & k & Ht & ->)].
      + destruct (A2 n Hn1) as [H|(t & k & Ht & ->)]; [auto|]. apply filter_In in Ht as [Ht Hs].
        right. left. exists t, k. auto.
      + apply Hperm, filter_In in Ht as [Ht _]. right. right. left. exists t, k. auto.
    - intros t Ht. destruct (is_sync trace (l_pos curr) t) eqn:Es.
      + left. exists t. assert (Ht1 : In t e1) by (apply filter_In; auto). repeat split; auto.
        destruct (A4 t Ht1) as [H|(n & Hn & H)]; [auto|]. right. exists n. auto.
      + assert (Ht2 : In t (sorted_by (c_model cs) e2)).
        { apply Hperm, filter_In. rewrite Es. auto. }
        destruct (B3 t Ht2) as [H|[H|[H|(n & Hn & H)]]].
        * apply A3 in H as [[]|(u & Hu & E)]. left. exists u. pose proof Hu as Hu1. apply filter_In in Hu as [Hu Hsu].
          rewrite E. repeat split; auto.
          destruct (A4 u Hu1) as [H|(n & Hn & H)]; [auto|]. right. exists n. auto.
        * right. auto.
        * right. auto.
        * right. split; [reflexivity|]. right. right. exists n. auto.
    - exact L3.
    - lia.
  Qed.

  Lemma run_cost_app (f : ptrans -> Z) ts us : run_cost f (ts ++ us) = run_cost f ts + run_cost f us.
  Proof. induction ts as [|t ts IH]; cbn; [lia|]. rewrite IH. lia. Qed.

  Lemma log_done_step (R : marking -> nat -> Z -> Prop) m p c t m' : log_done R m p c -> fires pn t m m' ->
    log_done R m' p (c + c_model cs t).
  Proof.
    intros [H|(mA & cA & ts & Hr & HmA & Hc & HR)] Hf; [left; exact H|right].
    exists mA, cA, (ts ++ [t]). split; [eapply run_app; [exact Hr|econstructor; [exact Hf|constructor]]|].
    split; [exact HmA|]. split; [|exact HR]. rewrite run_cost_app. cbn. lia.
  Qed.

  Lemma inv_init : LInv [] [LNode 0 0 MSync 0 0 [] im].
  Proof.
    constructor; cbn; try tauto.
    - intros n [<-|[]]. split; [cbn; lia|]. exists []. cbn. repeat split; auto. constructor.
    - intros n [<-|[]]. discriminate.
    - right. eexists. split; [left; reflexivity|]. cbn. repeat split; lia.
  Qed.

  Lemma inv_skip cd open curr rest : LInv cd open -> lheap_pop open = Some (curr, rest) ->
    check_closed (closed_of cd) (l_m curr) (l_pos curr) = true -> LInv cd rest.
  Proof.
    intros HI Hp Hc. pose proof (lheap_pop_spec _ _ _ Hp) as (H1 & H2 & _).
    apply check_closed_cd in Hc as (q0 & c0 & Hin0 & Hq0).
    assert (Hcur : In curr open) by (apply H1; auto).
    assert (Hrest : forall n, In n rest -> In n open) by (intros; apply H1; auto).
    assert (T : forall m q c, cover cd open m q c -> cover cd rest m q c).
    { intros m q c [H|(n & Hn & E1 & E2 & E3)]; [left; exact H|]. apply H1 in Hn as [->|Hn]; [|right; exists n; auto].
      left. subst m. exists q0, c0. split; [exact Hin0|]. pose proof (li_cost _ _ HI _ _ _ _ Hin0 Hcur). lia. }
    constructor.
    - intros n Hn. apply (li_open _ _ HI), Hrest, Hn.
    - apply HI.
    - intros m q c n Hin Hn. exact (li_cost _ _ HI _ _ _ _ Hin (Hrest _ Hn)).
    - intros m q c t m' Hin Hf. apply T, (li_succ _ _ HI _ _ _ _ _ Hin Hf).
    - intros m q c Hin. eapply log_done_mono, (li_log _ _ HI _ _ _ Hin). exact T.
    - intros n Hn Ht. eapply log_done_mono, (li_olog _ _ HI _ (Hrest _ Hn) Ht). exact T.
    - apply T, HI.
  Qed.

  Lemma inv_expand cd open curr rest cnt open' cnt' : LInv cd open -> lheap_pop open = Some (curr, rest) ->
    ~ (l_m curr = fm /\ l_pos curr = length trace) ->
    expand pn trace cs (closed_of ((l_m curr, l_pos curr, l_cost curr) :: cd)) curr rest cnt = (open', cnt') ->
    LInv ((l_m curr, l_pos curr, l_cost curr) :: cd) open'.
  Proof.
    intros HI Hp Hfin He. pose proof (lheap_pop_spec _ _ _ Hp) as (H1 & H2 & _).
    set (e := (l_m curr, l_pos curr, l_cost curr)) in *. set (cd' := e :: cd) in *.
    assert (Hcur : In curr open) by (apply H1; auto).
    assert (Hrest : forall n, In n rest -> In n open) by (intros; apply H1; auto).
    pose proof (li_open _ _ HI _ Hcur) as Hok. pose proof (node_ok_proper _ Hok) as Hprop.
    pose proof (expand_spec _ _ _ _ _ _ He) as (X1 & X2 & X3 & X4 & _).
    destruct Hcosts as (C1 & C2 & C3).
    assert (Hall : forall m q c, In (m, q, c) cd' -> c <= l_cost curr).
    { intros m q c [[= <- <- <-]|Hin]; [lia|]. exact (li_cost _ _ HI _ _ _ _ Hin Hcur). }
    assert (Hcc : forall m p c, check_closed (closed_of cd') m p = true -> l_cost curr <= c -> cover cd' open' m p c).
    { intros m p c H Hc. apply check_closed_cd in H as (q0 & c0 & Hin & Hq). left. exists q0, c0.
      split; [exact Hin|]. specialize (Hall _ _ _ Hin). lia. }
    assert (T : forall m q c, cover cd open m q c -> cover cd' open' m q c).
    { intros m q c [(q0 & c0 & H & ?)|(n & Hn & E1 & E2 & E3)].
      - left. exists q0, c0. split; [right; exact H|lia].
      - apply H1 in Hn as [->|Hn]; [|right; exists n; auto].
        left. exists (l_pos curr), (l_cost curr). subst m. split; [left; reflexivity|lia]. }
    assert (HL : log_done (cover cd' open') (l_m curr) (l_pos curr) (l_cost curr)).
    { destruct (decide (l_ty curr = MModel)) as [Et|Et].
      - eapply log_done_mono, (li_olog _ _ HI _ Hcur Et). exact T.
      - destruct (decide (l_pos curr = length trace)) as [Ep|Ep]; [left; exact Ep|right].
        assert (Hlt : (l_pos curr < length trace)%nat) by (destruct Hok as [? _]; lia).
        exists (l_m curr), (l_cost curr), []. split; [constructor|]. split; [exact Hprop|]. split; [cbn; lia|].
        specialize (C3 _ Hlt). destruct (X4 Et Hlt) as [H|H]; [apply Hcc; [exact H|lia]|right; exact H]. }
    constructor.
    - intros n Hn. destruct (X2 n Hn) as [H|[(t & k & Ht & Hs & ->)|[(t & k & Ht & ->)|(k & Hlt & ->)]]].
      + apply (li_open _ _ HI), Hrest, H.
      + apply node_ok_sync; auto.
      + apply node_ok_model; auto.
      + apply node_ok_log; auto.
    - intros m q c [[= <- <- <-]|Hin]; [|exact (li_cd _ _ HI _ _ _ Hin)].
      split; [exact Hprop|]. split; [apply Hok|]. split; [exact Hfin|].
      destruct Hok as (_ & ms & _ & _ & Hr & _). exists (tm_trans ms). exact Hr.
    - intros m q c n Hin Hn. specialize (Hall _ _ _ Hin).
      assert (l_cost curr <= l_cost n); [|lia].
      destruct (X2 n Hn) as [H|[(t & k & Ht & Hs & ->)|[(t & k & Ht & ->)|(k & Hlt & ->)]]]; cbn.
      + apply H2, Hrest, H.
      + lia.
      + apply (lm_enabled_iff pn _ t Hsn Hprop) in Ht as [Ht _]. specialize (C2 t Ht). lia.
      + specialize (C3 _ Hlt). lia.
    - intros m q c t m' [[= <- <- <-]|Hin] Hf; [|apply T, (li_succ _ _ HI _ _ _ _ _ Hin Hf)].
      pose proof (proj1 Hf) as Ht. pose proof (C2 t Ht) as Hct.
      assert (Hen : In t (lm_enabled pn (l_m curr))).
      { apply (lm_enabled_iff pn _ t Hsn Hprop). split; [exact Ht|apply Hf]. }
      assert (E : m' = next_marking (l_m curr) t).
      { eapply fires_det; [exact Hf|]. apply next_marking_fires; auto. apply Hf. }
      subst m'. destruct (X3 t Hen) as [(u & _ & _ & _ & _ & [H|H])|(_ & [H|[H|H]])].
      + apply (cover_mono _ _ _ (S (l_pos curr)) (l_cost curr)); [apply Hcc; [exact H|lia]|lia|lia].
      + eapply cover_mono; [right; exact H|lia|lia].
      + rewrite H. left. exists (l_pos curr), (l_cost curr). split; [left; reflexivity|lia].
      + apply Hcc; [exact H|lia].
      + right. exact H.
    - intros m q c [[= <- <- <-]|Hin]; [exact HL|]. eapply log_done_mono, (li_log _ _ HI _ _ _ Hin). exact T.
    - intros n Hn Hty. destruct (X2 n Hn) as [H|[(t & k & Ht & Hs & ->)|[(t & k & Ht & ->)|(k & Hlt & ->)]]]; try discriminate.
      + eapply log_done_mono, (li_olog _ _ HI _ (Hrest _ H) Hty). exact T.
      + cbn. apply (lm_enabled_iff pn _ t Hsn Hprop) in Ht as [Ht Hent]. eapply log_done_step; [exact HL|].
        apply next_marking_fires; auto.
    - apply T, HI.
  Qed.

  Lemma lm_loop_sound fuel : forall cd open cnt, LInv cd open ->
    match lm_loop pn fm trace cs fuel (closed_of cd) open cnt with
    | LFound n => node_ok n /\ l_m n = fm /\ l_pos n = length trace /\
                  forall ts, run pn im ts fm -> l_cost n <= skip_cost cs (length trace) + run_cost (c_model cs) ts
    | LExhausted => forall ts, ~ run pn im ts fm
    | LInterrupted => True
    end.
  Proof.
    induction fuel as [|fuel IH]; intros cd open cnt HI; cbn [lm_loop].
    - destruct open; [|exact I]. intros ts Hr. exact (budget _ _ _ HI Hr (fun n H => match H with end)).
    - destruct open as [|x open]; [intros ts Hr; exact (budget _ _ _ HI Hr (fun n H => match H with end))|].
      set (op := x :: open) in *. destruct (lheap_pop op) as [[curr rest]|] eqn:Hp.
      2:{ apply lheap_pop_none in Hp. discriminate. }
      destruct (check_closed (closed_of cd) (l_m curr) (l_pos curr)) eqn:Ec.
      { apply IH. eapply inv_skip; eassumption. }
      pose proof (lheap_pop_spec _ _ _ Hp) as (H1 & H2 & _).
      destruct (bool_decide (l_m curr = fm) && Nat.eqb (l_pos curr) (length trace)) eqn:Ef.
      + apply andb_true_iff in Ef as [E1 E2]. apply bool_decide_eq_true in E1. apply Nat.eqb_eq in E2.
        split; [apply (li_open _ _ HI), H1; auto|]. split; [exact E1|]. split; [exact E2|].
        intros ts Hr. destruct (Z_le_gt_dec (l_cost curr) (skip_cost cs (length trace) + run_cost (c_model cs) ts)) as [H|H]; [exact H|].
        exfalso. apply (budget _ _ _ HI Hr). intros n Hn. specialize (H2 n Hn). lia.
      + change ((l_m curr, l_pos curr) :: closed_of cd) with (closed_of ((l_m curr, l_pos curr, l_cost curr) :: cd)).
        destruct (expand _ _ _ _ _ _ _) as [open' cnt'] eqn:Ee. apply IH. eapply inv_expand; [exact HI|exact Hp| |exact Ee].
        intros [E1 E2]. rewrite (bool_decide_eq_true_2 _ E1), E2, Nat.eqb_refl in Ef. discriminate.
  Qed.

  (** ---- Termination ---- *)
  Lemma check_closed_false closed m p q : (forall q', In (m, q') closed -> exists q2, closed_at closed m = Some q2 /\ (q' <= q2)%nat) ->
    check_closed closed m p = false -> In (m, q) closed -> (q < p)%nat.
  Proof.
    intros Hmax Hc Hin. destruct (Hmax _ Hin) as (q2 & E & Hle). unfold check_closed in Hc. rewrite E in Hc.
    apply Nat.leb_gt in Hc. lia.
  Qed.
  Definition newest_max (closed : list (marking * nat)) : Prop :=
    forall m q, In (m, q) closed -> exists q2, closed_at closed m = Some q2 /\ (q <= q2)%nat.
  Lemma newest_max_add closed m p : newest_max closed -> check_closed closed m p = false -> newest_max ((m, p) :: closed).
  Proof.
    intros Hn Hc m' q Hin. unfold closed_at. cbn [List.find fst]. destruct (bool_decide (m = m')) eqn:E.
    - apply bool_decide_eq_true in E. subst m'. exists p. split; [reflexivity|].
      destruct Hin as [[= ->]|Hin]; [lia|]. assert (q < p)%nat; [|lia]. eapply check_closed_false; eauto.
    - apply bool_decide_eq_false in E. destruct Hin as [[= -> ->]|Hin]; [congruence|]. exact (Hn _ _ Hin).
  Qed.

  Lemma lm_loop_terminates (l : list marking) : (forall m, reachable pn im m -> In m l) ->
    forall fuel cd open cnt, LInv cd open -> newest_max (closed_of cd) -> NoDup (closed_of cd) ->
    (length open + (length l * S (length trace) - length cd) * S (length (n_trans pn)) <= fuel)%nat ->
    lm_loop pn fm trace cs fuel (closed_of cd) open cnt <> LInterrupted.
  Proof.
    intros Hl. induction fuel as [|fuel IH]; intros cd open cnt HI Hmax Hnd Hf; cbn [lm_loop].
    - destruct open as [|x open]; [discriminate|]. exfalso. cbn [length] in Hf. revert Hf. generalize ((length l * S (length trace) - length cd) * S (length (n_trans pn)))%nat. intros K HK. lia.
    - destruct open as [|x open]; [discriminate|]. set (op := x :: open) in *.
      destruct (lheap_pop op) as [[curr rest]|] eqn:Hp; [|discriminate].
      pose proof (lheap_pop_spec _ _ _ Hp) as (H1 & H2 & H3).
      destruct (check_closed (closed_of cd) (l_m curr) (l_pos curr)) eqn:Ec.
      + apply IH; [eapply inv_skip; eassumption|exact Hmax|exact Hnd|].
        revert Hf. generalize ((length l * S (length trace) - length cd) * S (length (n_trans pn)))%nat. intros K HK. lia.
      + destruct (bool_decide (l_m curr = fm) && Nat.eqb (l_pos curr) (length trace)) eqn:Ef; [discriminate|].
        set (cd' := (l_m curr, l_pos curr, l_cost curr) :: cd).
        change ((l_m curr, l_pos curr) :: closed_of cd) with (closed_of cd').
        destruct (expand _ _ _ _ _ _ _) as [open' cnt'] eqn:Ee.
        pose proof (expand_spec _ _ _ _ _ _ Ee) as (_ & _ & _ & _ & Hlen).
        assert (HI' : LInv cd' open').
        { eapply inv_expand; [exact HI|exact Hp| |exact Ee].
          intros [E1 E2]. rewrite (bool_decide_eq_true_2 _ E1), E2, Nat.eqb_refl in Ef. discriminate. }
        assert (Hnd' : NoDup (closed_of cd')).
        { cbn. apply NoDup_cons. split; [|exact Hnd]. intros Hin. apply elem_of_list_In in Hin.
          pose proof (check_closed_false _ _ _ _ (Hmax _) Ec Hin). lia. }
        apply IH; [exact HI'|apply newest_max_add; assumption|exact Hnd'|].
        assert (Hlt : (S (length cd) <= length l * S (length trace))%nat).
        { replace (S (length cd)) with (length (closed_of cd')) by (unfold closed_of; rewrite map_length; reflexivity).
          replace (S (length trace)) with (length (seq 0 (S (length trace)))) by apply seq_length.
          rewrite <- prod_length. apply NoDup_incl_length; [apply NoDup_ListNoDup, Hnd'|].
          intros [m q] Hin. apply in_map_iff in Hin as ([[m' q'] c] & [= -> ->] & Hin).
          destruct (li_cd _ _ HI' _ _ _ Hin) as (_ & Hq & _ & Hr). apply in_prod; [apply Hl, Hr|]. apply in_seq. lia. }
        assert (E : (length l * S (length trace) - length cd = S (length l * S (length trace) - length cd'))%nat)
          by (cbn [cd' length]; lia).
        rewrite E, Nat.mul_succ_l in Hf. unfold op in *.
        revert Hf. generalize ((length l * S (length trace) - length cd') * S (length (n_trans pn)))%nat. intros K HK. lia.
  Qed.

  Lemma lm_search_terminates (l : list marking) : (forall m, reachable pn im m -> In m l) ->
    exists fuel, lm_search pn fm trace cs fuel im <> LInterrupted.
  Proof.
    intros Hl. eexists. apply (lm_loop_terminates l Hl _ [] _ 0 inv_init).
    - intros m q [].
    - constructor.
    - apply le_n.
  Qed.
End Search.
