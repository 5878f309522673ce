(** The invariant of the search. *)
From Coq Require Import List Arith Bool Lia Permutation.
Import ListNotations.
From Verif Require Import Model_Dict Proofs_Dict Model_DfgAlign Spec_DfgNet Spec_DfgAlign Proofs_DfgAlign.
Local Open Scope nat_scope.

Section S.
  Context (K : nat) (edges : list (nat * nat)) (sa ea : list nat) (trace : list nat).
  Context (pop : list ast -> option (ast * list ast)) (nord : list node -> list node).
  Context (HK : 0 < K).
  Context (Hpop0 : pop [] = None).
  Context (Hpop : forall l, l <> [] -> exists s r, pop l = Some (s, r) /\ Permutation l (s :: r) /\ forall x, In x l -> a_f s <= a_f x).
  Context (Hnord : forall l, Permutation (nord l) l).
  Notation outgoing := (outgoing edges sa ea).
  Notation in_model := (in_model edges sa ea).
  Notation N := (length trace).
  Notation walk := (walk K edges sa ea trace).
  Notation out := (out edges sa).
  Notation fin := (fin ea).
  Notation lc := (lc K edges sa ea trace).
  Notation successors := (successors K edges sa ea trace nord).
  Notation search := (search K edges sa ea trace pop nord).

  Lemma nord_in x l : In x (nord l) <-> In x l.
  Proof. split; apply Permutation_in; [apply Hnord|apply Permutation_sym, Hnord]. Qed.

  (** number of letters that the graph does not know *)
  Definition om (l : list nat) : nat := length (filter (fun a => negb (in_model a)) l).

  Inductive succ_of (s : ast) : ast -> Prop :=
  | so_sync a nv : nth_error trace (a_idx s) = Some a -> a_node s <> NEnd -> out (a_node s) a ->
      succ_of s (AState (a_f s) (a_idx s + 1) nv (a_real s) (NAct a) false false (Some s))
  | so_fin nv : a_node s <> NEnd -> fin (a_node s) -> (forall a, nth_error trace (a_idx s) = Some a -> in_model a = true) ->
      succ_of s (AState (a_f s) (a_idx s) nv (a_real s) NEnd false false (Some s))
  | so_model b nv : a_node s <> NEnd -> out (a_node s) b ->
      (forall a, nth_error trace (a_idx s) = Some a -> in_model a = true /\ ~ out (a_node s) a) ->
      succ_of s (AState (a_f s + K) (a_idx s) nv (a_real s + K) (NAct b) false true (Some s))
  | so_log a nv : nth_error trace (a_idx s) = Some a -> a_mm s = false ->
      succ_of s (AState (a_f s + lc (a_idx s)) (a_idx s + 1) nv (a_real s + K) (a_node s) true false (Some s)).

  Definition cansync (s : ast) : bool :=
    match nth_error trace (a_idx s) with Some a => existsb (node_eqb (NAct a)) (nord (outgoing (a_node s))) | None => false end.
  Lemma cansync_iff s : cansync s = true <-> exists a, nth_error trace (a_idx s) = Some a /\ out (a_node s) a.
  Proof.
    unfold cansync. destruct (nth_error trace (a_idx s)) as [a|].
    - rewrite existsb_exists. split.
      + intros (m & Hm & E). destruct (node_eqb_spec (NAct a) m) as [<-|]; [|discriminate]. exists a. split; [reflexivity|].
        apply (proj1 (out_iff edges sa ea _ _)), nord_in, Hm.
      + intros (b & [= ->] & H). exists (NAct b). split; [apply nord_in, out_iff, H|]. destruct (node_eqb_spec (NAct b) (NAct b)); congruence.
    - split; [discriminate|]. intros (a & ? & _). discriminate.
  Qed.

  Lemma succ_spec nv s c : In c (successors nv s) -> succ_of s c.
  Proof.
    unfold Model_DfgAlign.successors. rewrite in_app_iff. intros [H|H].
    - assert (Hn : a_node s <> NEnd) by (intros E; rewrite E in H; contradiction).
      assert (H' : In c (if match nth_error trace (a_idx s) with Some a => negb (in_model a) | None => false end then [] else
        match nth_error trace (a_idx s) with
        | Some a => if cansync s then [AState (a_f s) (a_idx s + 1) nv (a_real s) (NAct a) false false (Some s)] else []
        | None => [] end ++ concat (map (fun m => match m with
               | NEnd => [AState (a_f s) (a_idx s) nv (a_real s) NEnd false false (Some s)]
               | _ => if cansync s then [] else [AState (a_f s + K) (a_idx s) nv (a_real s + K) m false true (Some s)]
               end) (nord (outgoing (a_node s)))))).
      { unfold cansync. destruct (a_node s); [exact H|congruence|exact H]. }
      clear H. set (bb := match nth_error trace (a_idx s) with Some a => negb (in_model a) | None => false end) in H'.
      destruct bb eqn:Eb; [contradiction|]. unfold bb in Eb. clear bb.
      assert (Hm : forall a, nth_error trace (a_idx s) = Some a -> in_model a = true).
      { intros a Ea. rewrite Ea in Eb. destruct (in_model a); [reflexivity|discriminate]. }
      apply in_app_iff in H' as [H|H].
      + destruct (nth_error trace (a_idx s)) as [a|] eqn:Ea; [|contradiction]. destruct (cansync s) eqn:Ec; [|contradiction].
        destruct H as [<-|[]]. apply cansync_iff in Ec as (a' & Ea' & Ho). assert (a' = a) by congruence. subst a'. apply so_sync; auto.
      + apply in_concat in H as (l & Hl & Hc). apply in_map_iff in Hl as (m & <- & Hmm). apply (proj1 (nord_in _ _)) in Hmm.
        destruct m as [| |b].
        * exfalso. exact (start_notin _ _ _ _ Hmm).
        * destruct Hc as [<-|[]]. apply so_fin; auto. apply (proj1 (fin_iff edges sa ea _)), Hmm.
        * destruct (cansync s) eqn:Ec; [contradiction|]. destruct Hc as [<-|[]]. apply so_model; auto; [apply (proj1 (out_iff edges sa ea _ _)), Hmm|].
          intros a Ea. split; [auto|]. intros Ho. assert (cansync s = true) by (apply cansync_iff; eauto). congruence.
    - destruct (nth_error trace (a_idx s)) as [a|] eqn:Ea; [|contradiction]. destruct (a_mm s) eqn:Em; [contradiction|]. destruct H as [<-|[]].
      replace (log_cost K edges sa ea a) with (lc (a_idx s)) by (unfold Proofs_DfgAlign.lc; rewrite Ea; reflexivity).
      apply so_log with a; auto.
  Qed.

  Lemma moves_in nv s c : a_node s <> NEnd -> (forall a, nth_error trace (a_idx s) = Some a -> in_model a = true) ->
    In c (match nth_error trace (a_idx s) with
        | Some a => if cansync s then [AState (a_f s) (a_idx s + 1) nv (a_real s) (NAct a) false false (Some s)] else []
        | None => [] end ++ concat (map (fun m => match m with
               | NEnd => [AState (a_f s) (a_idx s) nv (a_real s) NEnd false false (Some s)]
               | _ => if cansync s then [] else [AState (a_f s + K) (a_idx s) nv (a_real s + K) m false true (Some s)]
               end) (nord (outgoing (a_node s))))) -> In c (successors nv s).
  Proof.
    intros Hn Hm H. unfold Model_DfgAlign.successors. apply in_app_iff. left.
    assert (Eb : match nth_error trace (a_idx s) with Some a => negb (in_model a) | None => false end = false).
    { destruct (nth_error trace (a_idx s)) as [a|]; [|reflexivity]. rewrite (Hm a eq_refl). reflexivity. }
    rewrite Eb. unfold cansync in H. destruct (a_node s); [exact H|congruence|exact H].
  Qed.
  Lemma succ_sync nv s a : nth_error trace (a_idx s) = Some a -> a_node s <> NEnd -> out (a_node s) a ->
    In (AState (a_f s) (a_idx s + 1) nv (a_real s) (NAct a) false false (Some s)) (successors nv s).
  Proof.
    intros Ea Hn Ho. apply moves_in; [exact Hn| |].
    - intros b Eb. assert (b = a) by congruence. subst b. exact (out_model _ _ ea _ _ Ho).
    - apply in_app_iff. left. rewrite (proj2 (cansync_iff s)) by eauto. rewrite Ea. left. reflexivity.
  Qed.
  Lemma succ_fin nv s : a_node s <> NEnd -> fin (a_node s) -> (forall a, nth_error trace (a_idx s) = Some a -> in_model a = true) ->
    In (AState (a_f s) (a_idx s) nv (a_real s) NEnd false false (Some s)) (successors nv s).
  Proof.
    intros Hn Hf Hm. apply moves_in; [exact Hn|exact Hm|]. apply in_app_iff. right. apply in_concat.
    exists [AState (a_f s) (a_idx s) nv (a_real s) NEnd false false (Some s)]. split; [|left; reflexivity].
    apply in_map_iff. exists NEnd. split; [reflexivity|]. apply nord_in, fin_iff, Hf.
  Qed.
  Lemma succ_model nv s b : a_node s <> NEnd -> out (a_node s) b ->
    (forall a, nth_error trace (a_idx s) = Some a -> in_model a = true /\ ~ out (a_node s) a) ->
    In (AState (a_f s + K) (a_idx s) nv (a_real s + K) (NAct b) false true (Some s)) (successors nv s).
  Proof.
    intros Hn Ho Hm. apply moves_in; [exact Hn|intros a Ea; apply Hm, Ea|]. apply in_app_iff. right. apply in_concat.
    exists [AState (a_f s + K) (a_idx s) nv (a_real s + K) (NAct b) false true (Some s)]. split; [|left; reflexivity].
    apply in_map_iff. exists (NAct b). split; [|apply nord_in, out_iff, Ho].
    destruct (cansync s) eqn:Ec; [|reflexivity]. apply cansync_iff in Ec as (a & Ea & Ha). destruct (Hm a Ea). contradiction.
  Qed.
  Lemma succ_log nv s a : nth_error trace (a_idx s) = Some a -> a_mm s = false ->
    In (AState (a_f s + lc (a_idx s)) (a_idx s + 1) nv (a_real s + K) (a_node s) true false (Some s)) (successors nv s).
  Proof.
    intros Ea Em. unfold Model_DfgAlign.successors. apply in_app_iff. right. rewrite Ea, Em. left.
    unfold Proofs_DfgAlign.lc. rewrite Ea. reflexivity.
  Qed.

  Lemma lc_model i a : nth_error trace i = Some a -> in_model a = true -> lc i = K.
  Proof. intros E H. unfold Proofs_DfgAlign.lc, log_cost. rewrite E, H. reflexivity. Qed.

  (** The invariant. *)
  Definition lower (OPT : nat) : Prop := forall ss c, walk NStart 0 ss NEnd N c -> OPT <= c.
  Definition good (OPT : nat) (z : ast) : Prop := exists ss c, walk (a_node z) (a_idx z) ss NEnd N c /\ a_f z + c <= OPT.
  Definition live (closed : node -> option nat) (s : ast) : Prop := closed_at closed (a_node s) (a_idx s) = false.
  Definition hist (gen : list ast) (s : ast) : Prop := exists ss, walk NStart 0 ss (a_node s) (a_idx s) (a_f s) /\
    forall k, nth_error ss k = Some true -> exists x a, In x gen /\ nth_error trace k = Some a /\ a_node x = NAct a /\ a_idx x = S k /\ a_f x <= a_f s.
  Definition mm_ok (gen : list ast) (t : ast) : Prop := a_mm t = true -> forall a, nth_error trace (a_idx t) = Some a ->
    in_model a = true /\ exists z cq, In z gen /\ a_idx z = S (a_idx t) /\ (forall i, walk (a_node z) i [] (a_node t) i cq) /\ a_f z + cq <= a_f t + K.
  Record Inv (open : list ast) (closed : node -> option nat) (gen : list ast) : Prop := {
    i_open : forall x, In x open -> In x gen;
    i_hist : forall s, In s gen -> hist gen s;
    i_idx : forall s, In s gen -> a_idx s <= N;
    i_closed : forall n j, closed n = Some j -> exists t, In t gen /\ a_node t = n /\ a_idx t = j /\ (forall x, In x open -> a_f t <= a_f x) /\
       (n = NEnd -> j < N /\ exists z, In z gen /\ a_node z = NEnd /\ a_idx z = S j /\ a_f z <= a_f t + lc j);
    i_mm : forall t, In t gen -> mm_ok gen t;
    i_end : forall t, In t gen -> a_node t = NEnd -> a_mm t = false;
    i_real : forall t, In t gen -> a_real t = a_f t + K * om (firstn (a_idx t) trace);
    i_good : forall OPT, lower OPT -> forall z, In z gen -> good OPT z -> exists y, In y open /\ live closed y /\ good OPT y /\ a_idx z <= a_idx y;
  }.

  Lemma om_app l l' : om (l ++ l') = om l + om l'.
  Proof. unfold om. rewrite filter_app, app_length. reflexivity. Qed.
  Lemma firstn_S i a : nth_error trace i = Some a -> firstn (i + 1) trace = firstn i trace ++ [a].
  Proof.
    intros E. rewrite Nat.add_1_r. revert i E. induction trace as [|x l IH]; intros [|i] E; try discriminate.
    - injection E as ->. reflexivity.
    - cbn [nth_error] in E. change (firstn (S (S i)) (x :: l)) with (x :: firstn (S i) l). rewrite (IH i E). reflexivity.
  Qed.
  Lemma live_false closed s : ~ live closed s <-> exists j, closed (a_node s) = Some j /\ a_idx s <= j.
  Proof.
    unfold live, closed_at. destruct (closed (a_node s)) as [j|]; split.
    - intros H. exists j. split; [reflexivity|]. destruct (Nat.leb_spec (a_idx s) j); [assumption|]. congruence.
    - intros (j' & [= <-] & H) E. apply Nat.leb_gt in E. lia.
    - congruence.
    - intros (j & ? & _). discriminate.
  Qed.
  Lemma live_dec closed s : live closed s \/ ~ live closed s.
  Proof. unfold live. destruct (closed_at closed (a_node s) (a_idx s)); [right|left]; congruence. Qed.

  Lemma good_walk OPT gen z : lower OPT -> hist gen z -> good OPT z -> exists ss c, walk (a_node z) (a_idx z) ss NEnd N c /\ a_f z + c = OPT.
  Proof.
    intros HO (ss0 & W0 & _) (ss & c & W & Hle). exists ss, c. split; [exact W|].
    pose proof (HO _ _ (walk_app _ _ _ _ _ _ _ _ _ _ _ W0 _ _ _ _ W)). lia.
  Qed.

  (** What an expanded optimal state produces. *)
  Lemma child OPT gen nv s : lower OPT -> In s gen -> hist gen s -> mm_ok gen s -> (a_node s = NEnd -> a_mm s = false) ->
    ~ (a_node s = NEnd /\ a_idx s >= N) -> good OPT s ->
    exists z, In z (successors nv s ++ gen) /\ good OPT z /\
      (a_idx z = S (a_idx s) \/
       (In z (successors nv s) /\ a_idx z = a_idx s /\ ((a_node z = NEnd /\ a_node s <> NEnd /\ a_f z = a_f s) \/ (a_f z = a_f s + K)))).
  Proof.
    intros HO Hin Hh Hmm He Hng (ss & c & W & Hle).
    (* a log move first *)
    assert (LOG : forall a ss' c', nth_error trace (a_idx s) = Some a -> walk (a_node s) (S (a_idx s)) ss' NEnd N c' -> c = lc (a_idx s) + c' ->
              exists z, In z (successors nv s ++ gen) /\ good OPT z /\ a_idx z = S (a_idx s)).
    { intros a ss' c' Ea W' Ec. destruct (a_mm s) eqn:Em.
      - destruct (Hmm Em a Ea) as (Hm & z & cq & Hz & Ei & Wz & Hf). exists z. split; [apply in_app_iff; auto|]. split; [|exact Ei].
        exists ([] ++ ss'), (cq + c'). rewrite Ei. split; [exact (walk_app _ _ _ _ _ _ _ _ _ _ _ (Wz _) _ _ _ _ W')|].
        rewrite (lc_model _ _ Ea Hm) in Ec. lia.
      - exists (AState (a_f s + lc (a_idx s)) (a_idx s + 1) nv (a_real s + K) (a_node s) true false (Some s)).
        split; [apply in_app_iff; left; apply succ_log with a; auto|]. cbn. split; [|lia].
        exists ss', c'. cbn. rewrite Nat.add_1_r. split; [exact W'|lia]. }
    destruct (node_eqb_spec (a_node s) NEnd) as [En|En].
    - (* at the end node *)
      assert (Hi : a_idx s < N) by (destruct (Nat.lt_ge_cases (a_idx s) N); [assumption|tauto]).
      rewrite En in W. pose proof (walk_len _ _ _ _ _ _ _ _ _ _ _ W) as Hl.
      destruct ss as [|[|] ss]; [cbn in Hl; lia| |].
      + exfalso. clear -W. inversion W as [n i E1 E2 E3 E4 E5|n i a ss' n' j c' E Ho H|n i a ss' n' j c' E H|n i a ss' n' j c' Ho H|n i ss' n' j c' Hf H]; subst.
        * destruct Ho as [[? _]|(? & ? & _)]; discriminate.
        * destruct Ho as [[? _]|(? & ? & _)]; discriminate.
        * destruct Hf as (? & ? & _). discriminate.
      + destruct (walk_log_first _ _ _ _ _ _ _ _ _ _ _ W) as (a & c' & Ea & W' & Ec). rewrite En in LOG.
        destruct (LOG a ss c' Ea W' Ec) as (z & H1 & H2 & H3). exists z. auto.
    - assert (INM : forall a, nth_error trace (a_idx s) = Some a -> in_model a = false -> exists z, In z (successors nv s ++ gen) /\ good OPT z /\ a_idx z = S (a_idx s)).
      { intros a Ea Hm. pose proof (walk_len _ _ _ _ _ _ _ _ _ _ _ W) as Hl. assert (a_idx s < N) by (apply nth_error_Some; congruence).
        destruct ss as [|[|] ss]; [cbn in Hl; lia| |].
        - destruct (walk_sync_first _ _ _ _ _ _ _ _ _ _ _ W) as (b & c' & Eb & (m & Ho) & _). assert (b = a) by congruence. subst b.
          rewrite (out_model _ _ ea _ _ Ho) in Hm. discriminate.
        - destruct (walk_log_first _ _ _ _ _ _ _ _ _ _ _ W) as (b & c' & Eb & W' & Ec). exact (LOG b ss c' Eb W' Ec). }
      destruct (cansync s) eqn:Ec.
      + apply cansync_iff in Ec as (a & Ea & Ho). pose proof (walk_len _ _ _ _ _ _ _ _ _ _ _ W) as Hl. assert (a_idx s < N) by (apply nth_error_Some; congruence).
        destruct ss as [|[|] ss]; [cbn in Hl; lia| |].
        * destruct (walk_sync_first _ _ _ _ _ _ _ _ _ _ _ W) as (b & c' & Eb & _ & W' & Hc). assert (b = a) by congruence. subst b.
          exists (AState (a_f s) (a_idx s + 1) nv (a_real s) (NAct a) false false (Some s)).
          split; [apply in_app_iff; left; apply succ_sync; auto|]. cbn. split; [|left; lia].
          exists ss, c'. cbn. rewrite Nat.add_1_r. split; [exact W'|lia].
        * destruct (walk_log_first _ _ _ _ _ _ _ _ _ _ _ W) as (b & c' & Eb & W' & Ec).
          destruct (LOG b ss c' Eb W' Ec) as (z & H1 & H2 & H3). exists z. auto.
      + assert (HN : forall a, nth_error trace (a_idx s) = Some a -> ~ out (a_node s) a).
        { intros a Ea Ho. assert (cansync s = true) by (apply cansync_iff; eauto). congruence. }
        destruct (nth_error trace (a_idx s)) as [a0|] eqn:Ea0.
        1: destruct (in_model a0) eqn:Em0; [|destruct (INM a0 eq_refl Em0) as (z & H1 & H2 & H3); exists z; auto].
        all: inversion W as [n i E1 E2 E3 E4 E5|n i a ss' n' j c' E Ho H|n i a ss' n' j c' E H|n i a ss' n' j c' Ho H|n i ss' n' j c' Hf H]; subst; try congruence.
        * exfalso. exact (HN a ltac:(congruence) Ho).
        * destruct (LOG a ss' c' ltac:(congruence) H eq_refl) as (z & H1 & H2 & H3). exists z. auto.
        * exists (AState (a_f s + K) (a_idx s) nv (a_real s + K) (NAct a) false true (Some s)).
          assert (Hz : In (AState (a_f s + K) (a_idx s) nv (a_real s + K) (NAct a) false true (Some s)) (successors nv s)).
          { apply succ_model; auto. intros b Eb. split; [|apply HN; congruence]. congruence. }
          split; [apply in_app_iff; left; exact Hz|]. split; [exists ss, c'; cbn; split; [exact H|lia]|]. right. split; [exact Hz|]. cbn. auto.
        * exists (AState (a_f s) (a_idx s) nv (a_real s) NEnd false false (Some s)).
          assert (Hz : In (AState (a_f s) (a_idx s) nv (a_real s) NEnd false false (Some s)) (successors nv s)).
          { apply succ_fin; auto. intros b Eb. congruence. }
          split; [apply in_app_iff; left; exact Hz|]. split; [exists ss, c; cbn; split; [exact H|lia]|]. right. split; [exact Hz|]. cbn. auto.
        * exists (AState (a_f s + K) (a_idx s) nv (a_real s + K) (NAct a) false true (Some s)).
          assert (Hz : In (AState (a_f s + K) (a_idx s) nv (a_real s + K) (NAct a) false true (Some s)) (successors nv s)).
          { apply succ_model; auto. intros b Eb. congruence. }
          split; [apply in_app_iff; left; exact Hz|]. split; [exists ss, c'; cbn; split; [exact H|lia]|]. right. split; [exact Hz|]. cbn. auto.
        * exists (AState (a_f s) (a_idx s) nv (a_real s) NEnd false false (Some s)).
          assert (Hz : In (AState (a_f s) (a_idx s) nv (a_real s) NEnd false false (Some s)) (successors nv s)).
          { apply succ_fin; auto. intros b Eb. congruence. }
          split; [apply in_app_iff; left; exact Hz|]. split; [exists ss, c; cbn; split; [exact H|lia]|]. right. split; [exact Hz|]. cbn. auto.
  Qed.

  Lemma succ_f s c : succ_of s c -> a_f s <= a_f c.
  Proof. intros []; cbn; lia. Qed.
  Lemma succ_idx s c : succ_of s c -> a_idx s <= N -> a_idx c <= N.
  Proof. intros H Hi. inversion H; cbn; try lia; assert (a_idx s < N) by (apply nth_error_Some; congruence); lia. Qed.
  Lemma hist_mono gen gen' s : (forall x, In x gen -> In x gen') -> hist gen s -> hist gen' s.
  Proof.
    intros Hi (ss & W & Hh). exists ss. split; [exact W|]. intros k Hk. destruct (Hh k Hk) as (x & a & Hx & H). exists x, a. split; [apply Hi, Hx|exact H].
  Qed.
  Lemma walk0 n i : walk n i [] n i 0. Proof. constructor. Qed.
  Lemma succ_hist gen gen' s c : (forall x, In x gen -> In x gen') -> In c gen' -> hist gen s -> succ_of s c -> hist gen' c.
  Proof.
    intros Hi Hc (ss & W & Hh) HS.
    assert (OLD : forall f, a_f s <= f -> forall k, nth_error ss k = Some true ->
              exists x a, In x gen' /\ nth_error trace k = Some a /\ a_node x = NAct a /\ a_idx x = S k /\ a_f x <= f).
    { intros f Hf k Hk. destruct (Hh k Hk) as (x & a & Hx & E1 & E2 & E3 & E4). exists x, a. repeat split; auto. lia. }
    pose proof (walk_len _ _ _ _ _ _ _ _ _ _ _ W) as Hl. cbn in Hl.
    inversion HS as [a nv Ea Hn Ho|nv Hn Hf Hm|b nv Hn Ho Hm|a nv Ea Hmm]; subst c.
    - exists (ss ++ [true]). cbn [a_node a_idx a_f]. split.
      + rewrite Nat.add_1_r. rewrite <- (Nat.add_0_r (a_f s)). refine (walk_app _ _ _ _ _ _ _ _ _ _ _ W _ _ _ _ _).
        apply w_sync with a; auto. apply walk0.
      + intros k Hk. destruct (Nat.lt_ge_cases k (length ss)) as [L|L].
        * rewrite nth_error_app1 in Hk by exact L. apply OLD; [cbn; lia|exact Hk].
        * rewrite nth_error_app2 in Hk by exact L. destruct (k - length ss) as [|r] eqn:Er; [|destruct r; discriminate].
          assert (k = a_idx s) by lia. subst k. eexists _, a. split; [exact Hc|]. cbn. rewrite Nat.add_1_r. auto.
    - exists ss. cbn [a_node a_idx a_f]. split; [|apply OLD; lia].
      rewrite <- (Nat.add_0_r (a_f s)), <- (app_nil_r ss). refine (walk_app _ _ _ _ _ _ _ _ _ _ _ W _ _ _ _ _). apply w_fin; [exact Hf|apply walk0].
    - exists ss. cbn [a_node a_idx a_f]. split; [|apply OLD; lia].
      rewrite <- (app_nil_r ss). refine (walk_app _ _ _ _ _ _ _ _ _ _ _ W _ _ _ _ _). rewrite <- (Nat.add_0_r K) at 2. apply w_model with b; [exact Ho|apply walk0].
    - exists (ss ++ [false]). cbn [a_node a_idx a_f]. split.
      + rewrite Nat.add_1_r. refine (walk_app _ _ _ _ _ _ _ _ _ _ _ W _ _ _ _ _).
        rewrite <- (Nat.add_0_r (lc (a_idx s))). apply w_log with a; [exact Ea|apply walk0].
      + intros k Hk. destruct (Nat.lt_ge_cases k (length ss)) as [L|L].
        * rewrite nth_error_app1 in Hk by exact L. apply OLD; [cbn; lia|exact Hk].
        * rewrite nth_error_app2 in Hk by exact L. destruct (k - length ss) as [|r] eqn:Er; [|destruct r]; discriminate.
  Qed.
  Lemma succ_mm gen nv s c : In s gen -> mm_ok gen s -> In c (successors nv s) -> mm_ok (successors nv s ++ gen) c.
  Proof.
    intros Hin Hmm Hc. pose proof (succ_spec _ _ _ Hc) as HS.
    inversion HS as [a nv' Ea Hn Ho|nv' Hn Hf Hm|b nv' Hn Ho Hm|a nv' Ea Hmm']; subst c; intros Em a' Ea'; cbn in Em; try discriminate.
    cbn [a_idx a_node a_f] in *. destruct (Hm a' Ea') as [Hm1 _]. split; [exact Hm1|].
    destruct (a_mm s) eqn:Es.
    - destruct (Hmm Es a' Ea') as (_ & z & cq & Hz & Ei & Wz & Hf). exists z, (cq + K). split; [apply in_app_iff; auto|]. split; [exact Ei|]. split; [|lia].
      intros i. refine (walk_app _ _ _ _ _ _ _ [] _ _ _ (Wz i) [] _ _ _ _). rewrite <- (Nat.add_0_r K) at 2. apply w_model with b; [exact Ho|apply walk0].
    - eexists _, K. split; [apply in_app_iff; left; exact (succ_log nv s a' Ea' Es)|]. cbn. split; [lia|]. split.
      + intros i. rewrite <- (Nat.add_0_r K) at 2. apply w_model with b; [exact Ho|apply walk0].
      + rewrite (lc_model _ _ Ea' Hm1). lia.
  Qed.
  Lemma succ_real gen s c : In s gen -> a_real s = a_f s + K * om (firstn (a_idx s) trace) -> succ_of s c ->
    a_real c = a_f c + K * om (firstn (a_idx c) trace).
  Proof.
    intros _ Hr HS. inversion HS as [a nv Ea Hn Ho|nv Hn Hf Hm|b nv Hn Ho Hm|a nv Ea Hmm]; subst c; cbn [a_real a_f a_idx].
    - rewrite (firstn_S _ _ Ea), om_app, Hr. unfold om at 3. cbn [filter]. rewrite (out_model _ _ ea _ _ Ho). cbn. lia.
    - exact Hr.
    - lia.
    - rewrite (firstn_S _ _ Ea), om_app, Hr. unfold om at 3, Proofs_DfgAlign.lc, log_cost. rewrite Ea. cbn [filter]. destruct (in_model a); cbn; lia.
  Qed.

  (** walks from the end node *)
  Lemma walk_end n i ss n' j c : walk n i ss n' j c -> n = NEnd -> n' = NEnd /\ c = lw K edges sa ea trace i ss /\ (forall k b, nth_error ss k = Some b -> b = false).
  Proof.
    intros W. induction W as [n i|n i a ss n' j c E Ho H IH|n i a ss n' j c E H IH|n i a ss n' j c Ho H IH|n i ss n' j c Hf H IH]; intros En.
    - split; [exact En|]. split; [reflexivity|]. intros [|k]; discriminate.
    - subst n. destruct Ho as [[? _]|(? & ? & _)]; discriminate.
    - destruct (IH En) as (-> & -> & Hk). split; [reflexivity|]. split; [reflexivity|]. intros [|k] b Hb; [injection Hb as <-; reflexivity|exact (Hk k b Hb)].
    - subst n. destruct Ho as [[? _]|(? & ? & _)]; discriminate.
    - subst n. destruct Hf as (? & ? & _). discriminate.
  Qed.
  Lemma lw_false_le ss i d : (forall k b, nth_error ss k = Some b -> b = false) -> d <= length ss ->
    lw K edges sa ea trace (i + d) (repeat false (length ss - d)) <= lw K edges sa ea trace i ss.
  Proof.
    revert i d. induction ss as [|b ss IH]; intros i d Hk Hd.
    - cbn in Hd. assert (d = 0) by lia. subst d. cbn. lia.
    - destruct d as [|d].
      + cbn [length Nat.sub repeat lw]. rewrite (Hk 0 b eq_refl), Nat.add_0_r. cbn [negb].
        specialize (IH (S i) 0 (fun k => Hk (S k)) ltac:(lia)). rewrite Nat.sub_0_r, Nat.add_0_r in IH. lia.
      + cbn [length Nat.sub lw]. replace (i + S d) with (S i + d) by lia. cbn in Hd.
        specialize (IH (S i) d (fun k => Hk (S k)) ltac:(lia)). lia.
  Qed.
  Lemma end_walk m i : i + m = N -> walk NEnd i (repeat false m) NEnd N (lw K edges sa ea trace i (repeat false m)).
  Proof.
    revert i. induction m as [|m IH]; intros i Hi.
    - rewrite Nat.add_0_r in Hi. subst i. constructor.
    - cbn [repeat lw]. destruct (nth_error trace i) as [a|] eqn:Ea; [|apply nth_error_None in Ea; lia].
      apply w_log with a; [exact Ea|]. apply IH. lia.
  Qed.

  Section Step.
    Context (open open' : list ast) (closed : node -> option nat) (gen : list ast) (s : ast) (nv : nat).
    Context (HI : Inv open closed gen) (HP : Permutation open (s :: open')) (Hmin : forall x, In x open -> a_f s <= a_f x).
    Context (HL : live closed s) (HG : ~ (a_node s = NEnd /\ a_idx s >= N)).
    Let closed' := close closed (a_node s) (a_idx s).
    Let kids := successors nv s.
    Let open2 := filter (fun c => negb (closed_at closed' (a_node c) (a_idx c))) kids ++ open'.
    Let gen2 := kids ++ gen.

    Lemma st_in : In s open. Proof. apply (Permutation_in _ (Permutation_sym HP)). left. reflexivity. Qed.
    Lemma st_gen : In s gen. Proof. apply (i_open _ _ _ HI), st_in. Qed.
    Lemma st_old x : In x gen -> In x gen2. Proof. intros H. apply in_app_iff. right. exact H. Qed.
    Lemma st_open2 x : In x open2 -> In x gen2 /\ a_f s <= a_f x.
    Proof.
      unfold open2. rewrite in_app_iff. intros [H|H].
      - apply filter_In in H as [H _]. split; [apply in_app_iff; auto|]. apply succ_f, succ_spec with nv, H.
      - assert (In x open) by (apply (Permutation_in _ (Permutation_sym HP)); right; exact H). split; [apply st_old, (i_open _ _ _ HI); assumption|auto].
    Qed.
    Lemma st_hist x : In x gen2 -> hist gen2 x.
    Proof.
      intros H. pose proof H as H'. apply in_app_iff in H as [H|H].
      - eapply succ_hist; [exact st_old|exact H'|apply (i_hist _ _ _ HI), st_gen|apply succ_spec with nv, H].
      - apply hist_mono with gen; [exact st_old|apply (i_hist _ _ _ HI), H].
    Qed.
    Lemma st_idx x : In x gen2 -> a_idx x <= N.
    Proof.
      intros H. apply in_app_iff in H as [H|H]; [|apply (i_idx _ _ _ HI), H].
      eapply succ_idx; [apply succ_spec with nv, H|apply (i_idx _ _ _ HI), st_gen].
    Qed.
    Lemma st_closed n j : closed' n = Some j -> exists t, In t gen /\ a_node t = n /\ a_idx t = j /\ a_f t <= a_f s /\
       (n = NEnd -> j < N /\ exists z, In z gen2 /\ a_node z = NEnd /\ a_idx z = S j /\ a_f z <= a_f t + lc j).
    Proof.
      unfold closed', close. destruct (node_eqb_spec n (a_node s)) as [->|Hn].
      - intros [= <-]. exists s. split; [apply st_gen|]. split; [reflexivity|]. split; [reflexivity|]. split; [lia|].
        intros En. assert (Hlt : a_idx s < N) by (destruct (Nat.lt_ge_cases (a_idx s) N); [assumption|tauto]). split; [exact Hlt|].
        destruct (nth_error trace (a_idx s)) as [a|] eqn:Ea; [|apply nth_error_None in Ea; lia].
        eexists. split; [apply in_app_iff; left; exact (succ_log nv s a Ea (i_end _ _ _ HI s st_gen En))|]. cbn. rewrite Nat.add_1_r. auto.
      - intros E. destruct (i_closed _ _ _ HI n j E) as (t & Ht & E1 & E2 & Hf & Hend). exists t. split; [exact Ht|]. split; [exact E1|]. split; [exact E2|].
        split; [apply Hf, st_in|]. intros En. destruct (Hend En) as (Hj & z & Hz & H). split; [exact Hj|]. exists z. split; [apply st_old, Hz|exact H].
    Qed.

    (** a state dominated by a closed entry *)
    Lemma dominated OPT c t d : lower OPT -> In t gen2 -> a_node t = a_node c -> a_idx c <= a_idx t -> a_f t + d <= a_f c -> good OPT c ->
      (good (OPT - d) t) \/ (exists x, In x gen2 /\ good (OPT - d) x /\ a_idx c < a_idx x).
    Proof.
      intros HO Ht En Hi Hf (ss & cA & WA & Hle).
      destruct (st_hist t Ht) as (ssB & WB & HB). rewrite <- En in WA.
      destruct (crossing K edges sa ea trace (OPT - d) (a_node t) (a_idx c) (a_idx t) ssB (a_f t) ss cA (a_f c - d)) as [(ss' & c' & W & H)|(k & a & c2 & ss2 & Hk & Eb & Ea & W & H)].
      - intros ss' c' W. specialize (HO _ _ W). lia.
      - exact WB.
      - exact WA.
      - exact Hi.
      - apply st_idx, Ht.
      - lia.
      - lia.
      - left. exists ss', c'. auto.
      - right. destruct (HB k Eb) as (x & a' & Hx & Ea' & En' & Ei & Hfx). assert (a' = a) by congruence. subst a'.
        exists x. split; [exact Hx|]. split; [|lia]. exists ss2, c2. rewrite En', Ei. split; [exact W|]. lia.
    Qed.
    Lemma not_better OPT d x : lower OPT -> 0 < d -> d <= OPT -> In x gen2 -> good (OPT - d) x -> False.
    Proof.
      intros HO Hd Hle Hx (ss & c & W & H). destruct (st_hist x Hx) as (ss0 & W0 & _).
      pose proof (HO _ _ (walk_app _ _ _ _ _ _ _ _ _ _ _ W0 _ _ _ _ W)). lia.
    Qed.

    Lemma st_good OPT : lower OPT -> forall m z, N - a_idx z <= m -> In z gen2 -> good OPT z ->
      exists y, In y open2 /\ live closed' y /\ good OPT y /\ a_idx z <= a_idx y.
    Proof.
      intros HO. induction m as [m IH] using lt_wf_ind. intros z Hm Hz Hgz.
      assert (BIG : forall x, In x gen2 -> good OPT x -> a_idx z < a_idx x -> exists y, In y open2 /\ live closed' y /\ good OPT y /\ a_idx z <= a_idx y).
      { intros x Hx Hgx Hlt. pose proof (st_idx x Hx). destruct (IH (N - a_idx x) ltac:(lia) x ltac:(lia) Hx Hgx) as (y & H1 & H2 & H3 & H4). exists y. repeat split; auto. lia. }
      (* an optimal s *)
      assert (CHILDREN : forall c, In c kids -> good OPT c -> a_idx z <= a_idx c ->
                (a_node c = NEnd /\ a_node s <> NEnd /\ a_f c = a_f s) \/ a_f c = a_f s + K ->
                exists y, In y open2 /\ live closed' y /\ good OPT y /\ a_idx z <= a_idx y).
      { intros c Hc Hgc Hzc Hcase. destruct (live_dec closed' c) as [L|L].
        - exists c. split; [|auto]. apply in_app_iff. left. apply filter_In. split; [exact Hc|]. unfold live in L. rewrite L. reflexivity.
        - apply live_false in L as (j & Ej & Hj). destruct (st_closed _ _ Ej) as (t & Ht & En & Ei & Hf & Hend). subst j.
          destruct Hcase as [(Ec & _ & Efc)|Efc].
          + destruct (Hend Ec) as (Hlt & z' & Hz' & En' & Ei' & Hf').
            apply BIG with z'; [exact Hz'| |lia].
            destruct Hgc as (ss & cc & W & Hle). rewrite Ec in W. pose proof (walk_len _ _ _ _ _ _ _ _ _ _ _ W) as Hl.
            destruct (walk_end _ _ _ _ _ _ W eq_refl) as (_ & Ecc & Hk).
            exists (repeat false (N - S (a_idx t))). eexists. rewrite En', Ei'. split; [apply end_walk; lia|].
            pose proof (lw_false_le ss (a_idx c) (a_idx t - a_idx c) Hk ltac:(lia)) as Hlw.
            replace (a_idx c + (a_idx t - a_idx c)) with (a_idx t) in Hlw by lia.
            replace (length ss - (a_idx t - a_idx c)) with (S (N - S (a_idx t))) in Hlw by lia. cbn [repeat lw] in Hlw. lia.
          + exfalso. assert (HKO : K <= OPT) by (destruct Hgc as (? & ? & _ & ?); lia).
            destruct (dominated OPT c t K HO (st_old _ Ht) En Hj ltac:(lia) Hgc) as [Hgt|(x & Hx & Hgx & _)].
            * exact (not_better OPT K t HO HK HKO (st_old _ Ht) Hgt).
            * exact (not_better OPT K x HO HK HKO Hx Hgx). }
      assert (SOPT : good OPT s -> a_idx z <= a_idx s -> exists y, In y open2 /\ live closed' y /\ good OPT y /\ a_idx z <= a_idx y).
      { intros Hgs Hzs. destruct (child OPT gen nv s HO st_gen (i_hist _ _ _ HI s st_gen) (i_mm _ _ _ HI s st_gen) (i_end _ _ _ HI s st_gen) HG Hgs) as (c & Hc & Hgc & [Ei|(Hk & Ei & Hcase)]).
        - apply BIG with c; auto. lia.
        - apply CHILDREN with c; auto. lia. }
      assert (OLD : forall x, In x gen -> good OPT x -> a_idx z <= a_idx x -> exists y, In y open2 /\ live closed' y /\ good OPT y /\ a_idx z <= a_idx y).
      { intros x Hx Hgx Hzx. destruct (i_good _ _ _ HI OPT HO x Hx Hgx) as (y & Hy & Ly & Hgy & Hxy).
        destruct (live_dec closed' y) as [L|L].
        - assert (Hys : In y open').
          { apply (Permutation_in _ HP) in Hy as [<-|Hy]; [|exact Hy]. exfalso. unfold live, closed_at, closed', close in L.
            destruct (node_eqb_spec (a_node s) (a_node s)); [|congruence]. apply Nat.leb_gt in L. lia. }
          exists y. split; [apply in_app_iff; right; exact Hys|]. repeat split; auto. lia.
        - apply live_false in L as (j & Ej & Hj). unfold closed', close in Ej. destruct (node_eqb_spec (a_node y) (a_node s)) as [En|En].
          + injection Ej as <-.
            destruct (dominated OPT y s 0 HO (st_old _ st_gen) (eq_sym En) Hj ltac:(rewrite Nat.add_0_r; apply Hmin, Hy) Hgy) as [Hgs|(x' & Hx' & Hgx' & Hlt)]; rewrite Nat.sub_0_r in *.
            * apply SOPT; [exact Hgs|lia].
            * apply BIG with x'; auto. lia.
          + exfalso. apply (proj2 (live_false closed y)); [|exact Ly]. eauto. }
      pose proof Hz as Hz0. apply in_app_iff in Hz as [Hz|Hz]; [|apply OLD with z; auto].
      (* a new child: s itself was optimal *)
      destruct (Nat.lt_ge_cases (a_idx s) (a_idx z)) as [Hlt|Hge].
      - (* larger index *)
        destruct (live_dec closed' z) as [L|L].
        + exists z. split; [|auto]. apply in_app_iff. left. apply filter_In. split; [exact Hz|]. unfold live in L. rewrite L. reflexivity.
        + apply live_false in L as (j & Ej & Hj). destruct (st_closed _ _ Ej) as (t & Ht & En & Ei & Hf & Hend). subst j.
          pose proof (succ_f _ _ (succ_spec _ _ _ Hz)) as Hfz.
          destruct (dominated OPT z t 0 HO (st_old _ Ht) En Hj ltac:(lia) Hgz) as [Hgt|(x' & Hx' & Hgx' & Hlt')]; rewrite Nat.sub_0_r in *.
          * apply OLD with t; auto.
          * apply BIG with x'; auto.
      - apply CHILDREN with z; auto. pose proof (succ_spec _ _ _ Hz) as HS.
        inversion HS as [a nv' Ea Hn Ho|nv' Hn Hf Hm'|b nv' Hn Ho Hm'|a nv' Ea Hmm']; subst z; cbn in Hge |- *; try lia; auto.
    Qed.
    Lemma st_inv : Inv open2 closed' gen2.
    Proof.
      split.
      - intros x Hx. apply st_open2, Hx.
      - exact st_hist.
      - exact st_idx.
      - intros n j E. destruct (st_closed n j E) as (t & Ht & E1 & E2 & Hf & Hend). exists t. split; [apply st_old, Ht|]. split; [exact E1|]. split; [exact E2|].
        split; [|exact Hend]. intros x Hx. apply st_open2 in Hx as [_ Hx]. lia.
      - intros t Ht. apply in_app_iff in Ht as [Ht|Ht]; [apply succ_mm; auto; [apply st_gen|apply (i_mm _ _ _ HI), st_gen]|].
        intros Em a Ea. destruct (i_mm _ _ _ HI t Ht Em a Ea) as (Hm & z & cq & Hz & H). split; [exact Hm|]. exists z, cq. split; [apply st_old, Hz|exact H].
      - intros t Ht En. apply in_app_iff in Ht as [Ht|Ht]; [|apply (i_end _ _ _ HI t Ht En)].
        pose proof (succ_spec _ _ _ Ht) as HS. inversion HS; subst t; cbn in *; try reflexivity; discriminate.
      - intros t Ht. apply in_app_iff in Ht as [Ht|Ht]; [|apply (i_real _ _ _ HI t Ht)].
        apply succ_real with gen s; [apply st_gen|apply (i_real _ _ _ HI), st_gen|apply succ_spec with nv, Ht].
      - intros OPT HO z Hz Hg. apply st_good with (N - a_idx z); auto.
    Qed.
    Lemma kids_in c : In c kids -> succ_of s c. Proof. apply succ_spec. Qed.
  End Step.

  Lemma inv_skip open open' closed gen s : Inv open closed gen -> Permutation open (s :: open') -> ~ live closed s -> Inv open' closed gen.
  Proof.
    intros HI HP HL. assert (Hin : forall x, In x open' -> In x open) by (intros x Hx; apply (Permutation_in _ (Permutation_sym HP)); right; exact Hx).
    destruct HI. split; auto.
    - intros n j E. destruct (i_closed0 n j E) as (t & Ht & E1 & E2 & Hf & Hend). exists t. repeat (split; auto).
    - intros OPT HO z Hz Hg. destruct (i_good0 OPT HO z Hz Hg) as (y & Hy & Ly & H). exists y. split; [|auto].
      apply (Permutation_in _ HP) in Hy as [<-|Hy]; [contradiction|exact Hy].
  Qed.
  Lemma inv_start : Inv [start_state] (fun _ => None) [start_state].
  Proof.
    split.
    - auto.
    - intros s [<-|[]]. exists []. split; [constructor|]. intros [|k]; discriminate.
    - intros s [<-|[]]. cbn. lia.
    - intros n j E. discriminate.
    - intros t [<-|[]] E. discriminate.
    - intros t [<-|[]] E. reflexivity.
    - intros t [<-|[]]. cbn. lia.
    - intros OPT HO z [<-|[]] Hg. exists start_state. split; [left; reflexivity|]. split; [reflexivity|]. auto.
  Qed.

  Definition result_ok (o : outcome) : Prop :=
    match o with
    | Found s => a_node s = NEnd /\ a_idx s = N /\ (exists ss, walk NStart 0 ss NEnd N (a_f s)) /\
                 a_real s = a_f s + K * om trace /\ forall OPT, lower OPT -> (exists ss, walk NStart 0 ss NEnd N OPT) -> a_f s <= OPT
    | Exhausted => forall OPT, lower OPT -> (exists ss, walk NStart 0 ss NEnd N OPT) -> False
    | OutOfFuel => True
    end.
  Lemma pop_cases open : (open = [] /\ pop open = None) \/
    exists s r, pop open = Some (s, r) /\ Permutation open (s :: r) /\ forall x, In x open -> a_f s <= a_f x.
  Proof.
    destruct open as [|x l]; [left; auto|]. right. apply Hpop. discriminate.
  Qed.
  Lemma search_ok fuel : forall open closed nv gen, In start_state gen -> Inv open closed gen -> result_ok (search fuel open closed nv).
  Proof.
    induction fuel as [|fuel IH]; intros open closed nv gen Hs HI; [exact I|]. cbn [Model_DfgAlign.search].
    destruct (pop_cases open) as [(-> & Ep)|(s & r & Ep & HP & Hmin)]; rewrite Ep.
    - intros OPT HO (ss & W). destruct (i_good _ _ _ HI OPT HO start_state Hs) as (y & [] & _). exists ss, OPT. cbn. auto.
    - destruct (closed_at closed (a_node s) (a_idx s)) eqn:Ec.
      + apply IH with gen; [exact Hs|]. apply (inv_skip open r closed gen s HI HP). unfold live. congruence.
      + assert (Hsg : In s gen) by (apply (i_open _ _ _ HI), (Permutation_in _ (Permutation_sym HP)); left; reflexivity).
        destruct (node_eqb (a_node s) NEnd && negb (Nat.ltb (a_idx s) N)) eqn:Eg.
        * apply andb_true_iff in Eg as [E1 E2]. destruct (node_eqb_spec (a_node s) NEnd) as [En|]; [|discriminate].
          apply negb_true_iff, Nat.ltb_ge in E2. pose proof (i_idx _ _ _ HI s Hsg) as Hi. assert (Ei : a_idx s = N) by lia.
          cbn [result_ok]. split; [exact En|]. split; [exact Ei|]. split; [|split].
          -- destruct (i_hist _ _ _ HI s Hsg) as (ss & W & _). exists ss. rewrite En, Ei in W. exact W.
          -- rewrite (i_real _ _ _ HI s Hsg), Ei, firstn_all. reflexivity.
          -- intros OPT HO (ss & W). destruct (i_good _ _ _ HI OPT HO start_state Hs) as (y & Hy & _ & (ss' & c' & _ & Hle) & _).
             { exists ss, OPT. cbn. auto. }
             pose proof (Hmin y Hy). lia.
        * apply IH with (successors (nv + 1) s ++ gen); [apply in_app_iff; auto|]. apply (st_inv open r closed gen s (nv + 1)); auto.
          intros [E1 E2]. rewrite E1 in Eg. cbn in Eg. apply negb_false_iff, Nat.ltb_lt in Eg. lia.
  Qed.
  Lemma align_ok fuel : result_ok (align_dfg K edges sa ea trace pop nord fuel).
  Proof. apply search_ok with [start_state]; [left; reflexivity|apply inv_start]. Qed.

  (** minimality without a choice principle *)
  Lemma found_min fuel s : align_dfg K edges sa ea trace pop nord fuel = Found s ->
    a_real s = a_f s + K * om trace /\ (exists ss, walk NStart 0 ss NEnd N (a_f s)) /\ forall c ss, walk NStart 0 ss NEnd N c -> a_f s <= c.
  Proof.
    intros E. pose proof (align_ok fuel) as H. rewrite E in H. destruct H as (_ & _ & He & Hr & Hm). split; [exact Hr|]. split; [exact He|].
    intros c. induction c as [c IH] using lt_wf_ind. intros ss W. destruct (Nat.lt_ge_cases c (a_f s)) as [L|L]; [|exact L].
    apply Hm; [|eauto]. intros ss' c' W'. destruct (Nat.lt_ge_cases c' c) as [L'|L']; [|exact L']. specialize (IH c' L' ss' W'). lia.
  Qed.
  Lemma exhausted_none fuel : align_dfg K edges sa ea trace pop nord fuel = Exhausted -> forall c ss, walk NStart 0 ss NEnd N c -> False.
  Proof.
    intros E. pose proof (align_ok fuel) as H. rewrite E in H. cbn in H.
    intros c. induction c as [c IH] using lt_wf_ind. intros ss W. apply (H c); [|eauto].
    intros ss' c' W'. destruct (Nat.lt_ge_cases c' c) as [L'|L']; [|exact L']. destruct (IH c' L' ss' W').
  Qed.
End S.
