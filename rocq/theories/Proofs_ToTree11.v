(** Termination of the main loop for every net. *)
From Coq Require Import List Arith Lia Permutation Bool.
Import ListNotations.
From Verif Require Import Model_Graph Model_Tree Model_ToTree Proofs_ToTree6 Proofs_ToTree8.

Record W (N : tnet) : Prop := { w_ids : NoDup (map tid (ts N)); w_pl : NoDup (pl N) }.
Section Term.
  Variables (ord : list tr -> list tr) (ordp : list nat -> list nat).
  Hypothesis Hord : forall l, Permutation (ord l) l.
  Hypothesis Hordp : forall l, Permutation (ordp l) l.
  Lemma once_shape N N' : group_once ord N = Some N' -> exists t1 t2, In t1 (ts N) /\ In t2 (ts N) /\ differ t1 t2 = true /\
    map tid (ts N') = new_id N :: map tid (without t1 t2 (ts N)) /\ exists Q, pl N' = cut Q (pl N).
  Proof.
    intros H. assert (C0 : cut [] (pl N) = pl N) by (apply cut_id; auto). unfold group_once in H.
    destruct (first_pair ord choice_requirement N) as [[t1 t2]|] eqn:E1.
    { injection H as <-; apply (first_pair_some ord Hord) in E1 as (A & B & C). unfold choice_requirement in C. rewrite !andb_true_iff in C.
      exists t1, t2. repeat split; try tauto. exists []. auto. }
    destruct (first_pair ord sequence_requirement N) as [[t1 t2]|] eqn:E2.
    { injection H as <-; apply (first_pair_some ord Hord) in E2 as (A & B & C). unfold sequence_requirement in C. rewrite !andb_true_iff in C.
      exists t1, t2. repeat split; try tauto; [|exists (post t1); reflexivity]. unfold merge_sequence, remove_places. cbn [ts map tid]. rewrite map_map. reflexivity. }
    destruct (first_pair ord concurrent_requirement N) as [[t1 t2]|] eqn:E3.
    { injection H as <-; apply (first_pair_some ord Hord) in E3 as (A & B & C). unfold concurrent_requirement in C. rewrite !andb_true_iff in C.
      exists t1, t2. repeat split; try tauto. exists []. auto. }
    destruct (first_pair ord loop_requirement N) as [[t1 t2]|] eqn:E4; [|discriminate].
    injection H as <-; apply (first_pair_some ord Hord) in E4 as (A & B & C). unfold loop_requirement in C. rewrite !andb_true_iff in C.
    exists t1, t2. repeat split; try tauto. exists []. auto.
  Qed.
  Lemma nodup_map_filter {A} (g : A -> nat) f l : NoDup (map g l) -> NoDup (map g (filter f l)).
  Proof.
    induction l as [|a l IH]; cbn; auto. intros H. inversion H; subst. destruct (f a); cbn; auto. constructor; auto. intros Hi. apply H2.
    apply in_map_iff in Hi as (x & <- & Hx). apply filter_In in Hx as [Hx _]. apply in_map; auto.
  Qed.
  Lemma new_lt N x : In x (map tid (ts N)) -> x < new_id N.
  Proof.
    intros H. unfold new_id. pose proof (list_max_le (map tid (ts N)) (list_max (map tid (ts N)))) as [A _]. specialize (A (le_n _)). rewrite Forall_forall in A. specialize (A x H). lia.
  Qed.
  Lemma once_W N N' : W N -> group_once ord N = Some N' -> W N'.
  Proof.
    intros [A B] H. apply once_shape in H as (t1 & t2 & H1 & H2 & D & E & Q & P). split.
    - rewrite E. constructor; [|apply nodup_map_filter; auto]. intros Hi. apply in_map_iff in Hi as (x & Ex & Hx). apply filter_In in Hx as [Hx _].
      apply (in_map tid) in Hx. apply new_lt in Hx. lia.
    - rewrite P. apply NoDup_filter. auto.
  Qed.
  Lemma once_mu ini N N' : group_once ord N = Some N' -> mu ini N' < mu ini N.
  Proof.
    intros H. apply once_shape in H as (t1 & t2 & H1 & H2 & D & E & Q & P). unfold mu. rewrite P. pose proof (cut_mu ini Q (pl N)).
    assert (E2 : length (ts N') = S (length (without t1 t2 (ts N)))) by (rewrite <- (map_length tid), E; cbn; rewrite map_length; auto). rewrite E2.
    assert (E3 : without t1 t2 (ts N) = filter (fun x => differ x t2) (filter (fun x => differ x t1) (ts N))).
    { unfold without. clear. induction (ts N) as [|a l IH]; cbn; auto. destruct (differ a t1); cbn; rewrite ?IH; auto. }
    rewrite E3. assert (R : forall x, differ x x = false) by (intros x; unfold differ; rewrite Nat.eqb_refl; auto).
    pose proof (filter_one (fun x => differ x t1) (ts N) t1 H1 (R t1)) as L1.
    assert (L2 := filter_one (fun x => differ x t2) (filter (fun x => differ x t1) (ts N)) t2). cbn in L2.
    specialize (L2 ltac:(apply filter_In; split; auto; unfold differ in *; rewrite Nat.eqb_sym; auto) (R t2)). lia.
  Qed.
  Lemma split_W ini N p : W N -> W (split_place ini N p).
  Proof.
    intros [A B]. unfold split_place. assert (G : forall q, In q (pl N) -> q <= list_max (ini ++ pl N)).
    { intros q Hq. pose proof (list_max_le (ini ++ pl N) (list_max (ini ++ pl N))) as [Z _]. specialize (Z (le_n _)). rewrite Forall_forall in Z. apply Z, in_app_iff; auto. }
    split; cbn [ts pl map tid].
    - rewrite map_map. cbn [tid]. constructor; auto. intros Hi. apply new_lt in Hi. lia.
    - constructor.
      + intros [Hi|Hi]; [lia|]. apply cut_in in Hi as [Hi _]. apply G in Hi. lia.
      + constructor; [|apply NoDup_filter; auto]. intros Hi. apply cut_in in Hi as [Hi _]. apply G in Hi. lia.
  Qed.
  Lemma split_mu' ini N p : W N -> In p (pl N) -> smem p ini = true -> mu ini (split_place ini N p) = mu ini N.
  Proof.
    intros HN Hp Hi. unfold mu, split_place. cbn [ts pl length]. rewrite map_length.
    assert (F : forall q, list_max (ini ++ pl N) < q -> smem q ini = false).
    { intros q Hq. destruct (smem q ini) eqn:E; auto. apply smem_iff in E.
      pose proof (list_max_le (ini ++ pl N) (list_max (ini ++ pl N))) as [Z _]. specialize (Z (le_n _)). rewrite Forall_forall in Z. specialize (Z q). rewrite in_app_iff in Z. specialize (Z (or_introl E)). lia. }
    cbn [filter]. rewrite !F by lia. rewrite <- (cut_one p (pl N) (w_pl _ HN) Hp ini Hi). lia.
  Qed.
  Lemma dummies_W ini im fm : forall l M, W M -> NoDup l -> (forall p, In p l -> In p (pl M)) ->
    let M' := fold_left (fun M p => if smem p ini && negb (smem p im) && negb (smem p fm) then split_place ini M p else M) l M in W M' /\ mu ini M' = mu ini M.
  Proof.
    induction l as [|p l IH]; intros M HM HD Hl M'; [auto|]. inversion HD as [|? ? A B]; subst. cbn in M'.
    destruct (smem p ini && negb (smem p im) && negb (smem p fm)) eqn:E.
    - destruct (IH (split_place ini M p)) as [S2 M2]; auto.
      + apply split_W; auto.
      + intros q Hq. cbn [pl split_place]. right; right. apply cut_in. split; [apply Hl; right; auto|]. intros [<- |[]]; auto.
      + split; auto. unfold M'. rewrite M2. apply split_mu'; auto; [apply Hl; left; auto|]. rewrite !andb_true_iff in E. tauto.
    - apply IH; auto. intros q Hq. apply Hl. right; auto.
  Qed.
  Lemma group_ends ini : forall f N, W N -> mu ini N < f -> exists F, group ord ordp f ini N = Some F.
  Proof.
    induction f as [|f IH]; intros N HN Hf; [lia|]. cbn [group].
    destruct (length (ts N) <=? 1); [eauto|]. destruct (negb (length (start_places N) =? 1) && negb (length (end_places N) =? 1)); [eauto|].
    destruct (group_once ord N) as [N'|] eqn:E.
    - apply IH; [apply (once_W _ _ HN E)|]. pose proof (once_mu ini _ _ E). lia.
    - cbv zeta. destruct (dummies_W ini (start_places N) (end_places N) (ordp (pl N)) N HN) as [W1 M1].
      + eapply Permutation_NoDup; [symmetry; apply Hordp|apply (w_pl _ HN)].
      + intros p Hp. rewrite Hordp in Hp. auto.
      + fold (insert_dummies ordp ini (start_places N) (end_places N) N) in W1, M1. set (N1 := insert_dummies ordp ini (start_places N) (end_places N) N) in *.
        destruct (group_once ord N1) as [N'|] eqn:E'; [|eauto]. apply IH; [apply (once_W _ _ W1 E')|]. pose proof (once_mu ini _ _ E'). lia.
  Qed.
End Term.
