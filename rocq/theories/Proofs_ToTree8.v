(** The main loop: language, termination. *)
From Coq Require Import List Arith Lia Permutation Bool.
Import ListNotations.
From Verif Require Import Model_Graph Model_Tree Spec_Tree Model_ToTree Proofs_ToTree1 Proofs_ToTree2 Proofs_ToTree3 Proofs_ToTree4 Proofs_ToTree5 Proofs_ToTree6 Proofs_ToTree7.

Section Group.
  Variables (ord : list tr -> list tr) (ordp : list nat -> list nat).
  Hypothesis Hord : forall l, Permutation (ord l) l.
  Hypothesis Hordp : forall l, Permutation (ordp l) l.
  Variables (i o : nat).
  Lemma same_refl N : NI i o N -> same i o N N.
  Proof. intros H. split; auto. Qed.
  Lemma same_trans A B C : same i o A B -> same i o B C -> same i o A C.
  Proof.
    intros [NB FB] [NC FC]. split; auto. intros S. destruct (FC S) as [SB EB]. destruct (FB SB) as [SA EA]. split; auto. intros w. rewrite EA, EB. tauto.
  Qed.
  Lemma first_pair_some req N t1 t2 : first_pair ord req N = Some (t1, t2) -> In t1 (ts N) /\ In t2 (ts N) /\ req N t1 t2 = true.
  Proof.
    intros H. apply find_some in H as [A B]. cbn in B. apply in_prod_iff in A as [A1 A2]. rewrite Hord in A1, A2. auto.
  Qed.
  Lemma group_once_same N N' : NI i o N -> group_once ord N = Some N' -> same i o N N'.
  Proof.
    intros HN H. unfold group_once in H.
    destruct (first_pair ord choice_requirement N) as [[t1 t2]|] eqn:E1; [injection H as <-; apply first_pair_some in E1 as (A & B & C); apply choice_same; auto|].
    destruct (first_pair ord sequence_requirement N) as [[t1 t2]|] eqn:E2; [injection H as <-; apply first_pair_some in E2 as (A & B & C); apply seq_same; auto|].
    destruct (first_pair ord concurrent_requirement N) as [[t1 t2]|] eqn:E3; [injection H as <-; apply first_pair_some in E3 as (A & B & C); apply conc_same; auto|].
    destruct (first_pair ord loop_requirement N) as [[t1 t2]|] eqn:E4; [injection H as <-; apply first_pair_some in E4 as (A & B & C); apply loop_same; auto|]. discriminate.
  Qed.
  (** the measure: transitions plus original places left *)
  Definition mu (ini : list nat) (N : tnet) : nat := length (ts N) + length (filter (fun p => smem p ini) (pl N)).
  Lemma filter_length_le {A} (f : A -> bool) l : length (filter f l) <= length l.
  Proof. induction l as [|a l IH]; cbn; auto. destruct (f a); cbn; lia. Qed.
  Lemma filter_one {A} (f : A -> bool) l x : In x l -> f x = false -> length (filter f l) < length l.
  Proof.
    induction l as [|a l IH]; cbn; intros Hx Fx; [easy|]. destruct Hx as [-> |Hx]; [rewrite Fx; pose proof (filter_length_le f l); lia|].
    specialize (IH Hx Fx). destruct (f a); cbn; lia.
  Qed.
  Lemma without_length N t1 t2 : NI i o N -> In t1 (ts N) -> In t2 (ts N) -> t1 <> t2 -> S (length (without t1 t2 (ts N))) < length (ts N).
  Proof.
    intros HN A B D. assert (E : without t1 t2 (ts N) = filter (fun x => differ x t2) (filter (fun x => differ x t1) (ts N))).
    { unfold without. clear A B. induction (ts N) as [|a l IH]; cbn; auto. destruct (differ a t1); cbn; rewrite ?IH; auto. }
    rewrite E. clear E. assert (R : forall x, differ x x = false) by (intros x; unfold differ; rewrite Nat.eqb_refl; auto).
    pose proof (filter_one (fun x => differ x t1) (ts N) t1 A (R t1)) as L1.
    assert (L2 := filter_one (fun x => differ x t2) (filter (fun x => differ x t1) (ts N)) t2). cbn in L2.
    specialize (L2 ltac:(apply filter_In; split; auto; apply (differ_iff i o N HN); auto) (R t2)). lia.
  Qed.
  Lemma cut_mu ini Q l : length (filter (fun p => smem p ini) (cut Q l)) <= length (filter (fun p => smem p ini) l).
  Proof. unfold cut. induction l as [|a l IH]; cbn; auto. destruct (negb (smem a Q)), (smem a ini) eqn:E; cbn; rewrite ?E; cbn; lia. Qed.
  Lemma group_once_mu ini N N' : NI i o N -> group_once ord N = Some N' -> mu ini N' < mu ini N.
  Proof.
    intros HN H. unfold group_once in H.
    destruct (first_pair ord choice_requirement N) as [[t1 t2]|] eqn:E1.
    { injection H as <-; apply first_pair_some in E1 as (A & B & C). unfold choice_requirement in C. rewrite !andb_true_iff in C. destruct C as ((((C & _) & _) & _) & _).
      apply (differ_iff i o N HN) in C; auto. pose proof (without_length N t1 t2 HN A B C). unfold mu. cbn [ts pl merge_choice length]. lia. }
    destruct (first_pair ord sequence_requirement N) as [[t1 t2]|] eqn:E2.
    { injection H as <-; apply first_pair_some in E2 as (A & B & C). apply (seq_req i o N HN) in C as [C _]; auto. pose proof (without_length N t1 t2 HN A B C).
      unfold mu, merge_sequence, remove_places. cbn [ts pl length map]. rewrite map_length. pose proof (cut_mu ini (post t1) (pl N)). lia. }
    destruct (first_pair ord concurrent_requirement N) as [[t1 t2]|] eqn:E3.
    { injection H as <-; apply first_pair_some in E3 as (A & B & C). apply (conc_req i o N HN) in C as [C _]; auto. pose proof (without_length N t1 t2 HN A B C). unfold mu. cbn [ts pl merge_concurrent length]. lia. }
    destruct (first_pair ord loop_requirement N) as [[t1 t2]|] eqn:E4; [|discriminate].
    injection H as <-; apply first_pair_some in E4 as (A & B & C). apply (loop_req i o N HN) in C as [C _]; auto. pose proof (without_length N t1 t2 HN A B C). unfold mu. cbn [ts pl merge_loop length]. lia.
  Qed.
  Lemma cut_one p l : NoDup l -> In p l -> forall ini, smem p ini = true -> S (length (filter (fun q => smem q ini) (cut [p] l))) = length (filter (fun q => smem q ini) l).
  Proof.
    intros HD Hp ini Hi. induction HD as [|a l A B IH]; [easy|]. cbn [cut filter]. change (smem a [p]) with ((a =? p) || false). rewrite orb_false_r.
    destruct Hp as [-> |Hp].
    - rewrite Nat.eqb_refl. cbn [negb]. rewrite Hi. fold (cut [p] l). rewrite cut_id; [cbn; auto|]. intros q Hq [<- |[]]. auto.
    - destruct (Nat.eqb_spec a p) as [-> |n]; [tauto|]. cbn [negb filter]. destruct (smem a ini); cbn [length]; fold (cut [p] l); rewrite <- (IH Hp); auto.
  Qed.
  Lemma split_mu ini N p : NI i o N -> In p (pl N) -> smem p ini = true -> mu ini (split_place ini N p) = mu ini N.
  Proof.
    intros HN Hp Hi. unfold mu, split_place. cbn [ts pl length]. rewrite map_length.
    assert (F : forall q, list_max (ini ++ pl N) < q -> smem q ini = false).
    { intros q Hq. destruct (smem q ini) eqn:E; auto. apply smem_iff in E. assert (q <= list_max (ini ++ pl N)) by (apply fresh_gt; apply in_app_iff; auto). lia. }
    cbn [filter]. rewrite !F by lia. rewrite <- (cut_one p (pl N) (ni_pd _ _ _ HN) Hp ini Hi). lia.
  Qed.
  Definition needs (ini im fm : list nat) (p : nat) : bool := smem p ini && negb (smem p im) && negb (smem p fm).
  Lemma dummies_same ini im fm : forall l M, NI i o M -> NoDup l ->
    (forall p, In p l -> needs ini im fm p = true -> (exists x, In x (ts M) /\ In p (post x)) /\ (exists x, In x (ts M) /\ In p (pre x))) ->
    let M' := fold_left (fun M p => if smem p ini && negb (smem p im) && negb (smem p fm) then split_place ini M p else M) l M in
    same i o M M' /\ mu ini M' = mu ini M.
  Proof.
    induction l as [|p l IH]; intros M HM HD Hn M'; [split; [apply same_refl; auto|auto]|]. inversion HD as [|? ? A B]; subst. cbn in M'.
    change (smem p ini && negb (smem p im) && negb (smem p fm)) with (needs ini im fm p) in M'. destruct (needs ini im fm p) eqn:E.
    - destruct (Hn p (or_introl eq_refl) E) as [P C]. pose proof (split_same i o M HM ini p P C) as S1.
      destruct (IH (split_place ini M p)) as [S2 M2]; auto; [apply S1| |].
      + intros q Hq En. destruct (Hn q (or_intror Hq) En) as [(x & X1 & X2) (y & Y1 & Y2)]. assert (n : q <> p) by (intros ->; auto).
        split; [exists (fx p (S (list_max (ini ++ pl M))) (S (S (list_max (ini ++ pl M)))) x)|exists (fx p (S (list_max (ini ++ pl M))) (S (S (list_max (ini ++ pl M)))) y)].
        * split; [right; apply (in_map (fx _ _ _)); auto|]. cbn [post fx]. pose proof (in_redirect p (S (list_max (ini ++ pl M))) _ _ X2) as Z. destruct (Nat.eqb_spec q p); [congruence|auto].
        * split; [right; apply (in_map (fx _ _ _)); auto|]. cbn [pre fx]. pose proof (in_redirect p (S (S (list_max (ini ++ pl M)))) _ _ Y2) as Z. destruct (Nat.eqb_spec q p); [congruence|auto].
      + split; [eapply same_trans; eauto|]. unfold M'. rewrite M2. apply split_mu; auto.
        * destruct P as (x & X1 & X2). eapply (ni_pl _ _ _ HM); eauto.
        * unfold needs in E. rewrite !andb_true_iff in E. tauto.
    - apply IH; auto. intros q Hq. apply Hn. right; auto.
  Qed.
  Lemma insert_same ini N : NI i o N -> let N1 := insert_dummies ordp ini (start_places N) (end_places N) N in same i o N N1 /\ mu ini N1 = mu ini N.
  Proof.
    intros HN. apply dummies_same; auto.
    - eapply Permutation_NoDup; [symmetry; apply Hordp|apply (ni_pd _ _ _ HN)].
    - intros p Hp E. rewrite Hordp in Hp. unfold needs in E. rewrite !andb_true_iff, !negb_true_iff in E. destruct E as [[_ E1] E2].
      split.
      + destruct (producers N p) as [|x l] eqn:EP.
        * assert (smem p (start_places N) = true); [|congruence]. apply smem_iff. apply filter_In. split; auto. rewrite EP. auto.
        * exists x. apply producers_in. rewrite EP. left; auto.
      + destruct (consumers N p) as [|x l] eqn:EP.
        * assert (smem p (end_places N) = true); [|congruence]. apply smem_iff. apply filter_In. split; auto. rewrite EP. auto.
        * exists x. apply consumers_in. rewrite EP. left; auto.
  Qed.
  Lemma group_same ini : forall f N F, NI i o N -> group ord ordp f ini N = Some F -> same i o N F.
  Proof.
    induction f as [|f IH]; intros N F HN H; [discriminate|]. cbn [group] in H.
    destruct (length (ts N) <=? 1); [injection H as <-; apply same_refl; auto|].
    destruct (negb (length (start_places N) =? 1) && negb (length (end_places N) =? 1)); [injection H as <-; apply same_refl; auto|].
    destruct (group_once ord N) as [N'|] eqn:E.
    - pose proof (group_once_same _ _ HN E) as S1. eapply same_trans; [exact S1|]. apply IH; auto. apply S1.
    - cbv zeta in H. destruct (insert_same ini N HN) as [S1 _]. set (N1 := insert_dummies ordp ini (start_places N) (end_places N) N) in *.
      destruct (group_once ord N1) as [N'|] eqn:E'.
      + pose proof (group_once_same _ _ (proj1 S1) E') as S2. eapply same_trans; [exact S1|]. eapply same_trans; [exact S2|]. apply IH; auto. apply S2.
      + injection H as <-. auto.
  Qed.
  Lemma group_total ini : forall f N, NI i o N -> mu ini N < f -> exists F, group ord ordp f ini N = Some F.
  Proof.
    induction f as [|f IH]; intros N HN Hf; [lia|]. cbn [group].
    destruct (length (ts N) <=? 1); [eauto|]. destruct (negb (length (start_places N) =? 1) && negb (length (end_places N) =? 1)); [eauto|].
    destruct (group_once ord N) as [N'|] eqn:E.
    - apply IH; [apply (group_once_same _ _ HN E)|]. pose proof (group_once_mu ini _ _ HN E). lia.
    - cbv zeta. destruct (insert_same ini N HN) as [S1 M1]. set (N1 := insert_dummies ordp ini (start_places N) (end_places N) N) in *.
      destruct (group_once ord N1) as [N'|] eqn:E'; [|eauto].
      apply IH; [apply (group_once_same _ _ (proj1 S1) E')|]. pose proof (group_once_mu ini _ _ (proj1 S1) E'). lia.
  Qed.
  (** ** A net with one transition *)
  Lemma single_pre F t : NI i o F -> ts F = [t] -> pre t = [i] /\ i <> o /\ ~ In i (post t).
  Proof.
    intros HF E. assert (Ht : In t (ts F)) by (rewrite E; left; auto). destruct (ni_tr _ _ _ HF t Ht) as (a1 & a2 & a3 & a4 & a5 & a6).
    assert (U : forall p, In p (pre t) -> p = i).
    { intros p Hp. destruct (Nat.eq_dec p i) as [|n]; auto. exfalso. apply (ni_ns _ _ _ HF (fun q => q = p) (not_eq_sym n)) with (x := t) (p := p); auto.
      rewrite E. intros x q [<- |[]] _ ->. eauto. }
    assert (Ep : pre t = [i]). { destruct (pre t) as [|a [|b l]]; [congruence|rewrite (U a); cbn; auto|]. exfalso. rewrite (U a), (U b) in a3; cbn; auto. inversion a3; subst. apply H1. left; auto. }
    split; auto. split; auto. intros <-. apply a6. rewrite Ep. left; auto.
  Qed.
  Lemma single_safe F t : NI i o F -> ts F = [t] -> safe (ts F) i.
  Proof.
    intros HF E. destruct (single_pre F t HF E) as (Ep & _ & Hi). assert (Ht : In t (ts F)) by (rewrite E; left; auto). destruct (ni_tr _ _ _ HF t Ht) as (a1 & a2 & a3 & a4 & a5 & a6).
    rewrite E. assert (U : forall m, areach [t] i m -> Permutation m [i] \/ Permutation m (post t)).
    { induction 1 as [|m x k m2 H IH Hx P1 P2]; auto. destruct Hx as [<- |[]]. rewrite Ep in P1. destruct IH as [IH|IH].
      - rewrite IH in P1. apply Permutation_length_1_inv in P1. injection P1 as ->. rewrite app_nil_r in P2. auto.
      - exfalso. apply Hi. rewrite <- IH, P1. left; auto. }
    intros m Hm p. destruct (U m Hm) as [P|P]; rewrite (proj1 (perm_cnt _ _) P p); apply cnt_le1; auto. repeat constructor; auto.
  Qed.
  Lemma single_lang F t w : NI i o F -> ts F = [t] -> (lacc L (ts F) i o w <-> post t = [o] /\ lang (lab t) w).
  Proof.
    intros HF E. destruct (single_pre F t HF E) as (Ep & Hio & Hi). rewrite E. split.
    - assert (U : forall c w, lreach L [t] i c w ->
        (Permutation (fst c) [i] /\ snd c = [] /\ w = []) \/ (fst c = [] /\ snd c = [(t, w)]) \/ (Permutation (fst c) (post t) /\ snd c = [] /\ L t w)).
      { induction 1 as [m Hm|c v u d H IH S]; [left; auto|]. inversion S; subst; cbn [fst snd] in *.
        - destruct H0 as [<- |[]]. rewrite Ep in H1. destruct IH as [(A & B & C)|[(A & B)|(A & B & C)]].
          + subst. rewrite A in H1. apply Permutation_length_1_inv in H1. injection H1 as ->. right; left. split; auto. apply Permutation_sym, Permutation_length_1_inv in H2. auto.
          + exfalso. subst. apply Permutation_nil in H1. discriminate.
          + exfalso. apply Hi. rewrite <- A, H1. left; auto.
        - destruct IH as [(A & B & C)|[(A & B)|(A & B & C)]]; subst; try (apply Permutation_nil in H0; discriminate).
          apply Permutation_length_1_inv in H0. injection H0 as -> -> ->. right; left. apply Permutation_nil in H1. split; auto. apply Permutation_sym, Permutation_length_1_inv in H2. auto.
        - destruct IH as [(A & B & C)|[(A & B)|(A & B & C)]]; subst; try (apply Permutation_nil in H0; discriminate).
          apply Permutation_length_1_inv in H0. injection H0 as -> -> ->. right; right. rewrite !app_nil_r in *. split; auto. apply Permutation_sym, Permutation_nil in H3. auto. }
      intros H. destruct (U _ _ H) as [(A & _ & _)|[(A & _)|(A & _ & B)]]; cbn in *.
      + apply Permutation_length_1 in A. congruence.
      + discriminate.
      + apply Permutation_length_1_inv in A. auto.
    - intros [Po Hl]. apply acc_iff. assert (R : erun L [t] ([i], []) w ([o], [])).
      { assert (EM : forall v, erun L [t] ([], [(t, v)]) v ([], [(t, [])])).
        { induction v as [|a v IH]; [constructor; split; auto|]. change (a :: v) with ([a] ++ v) at 2. eapply erun_trans; [apply r_emit|auto]. }
        eapply then_run; [rewrite <- Ep; apply r_start; [left; auto|exact Hl]|]. rewrite <- (app_nil_r w). eapply erun_trans; [rewrite app_nil_r; apply EM|]. rewrite <- Po. apply r_fin. }
      apply (ereach_run _ _ _ _ [] _ _ (er_init _ _ _ [i] (Permutation_refl _)) R).
  Qed.
End Group.
