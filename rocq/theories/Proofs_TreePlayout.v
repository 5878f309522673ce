(** The playout of a process tree generates exactly its language. *)
From Coq Require Import List Arith Lia Bool Permutation.
Import ListNotations.
From Verif Require Import Model_Tree Spec_Tree Proofs_Shuffle Model_TreePlayout.

Lemma rearranged_iff a b : rearranged a b = true <-> Permutation a b.
Proof.
  unfold rearranged. rewrite forallb_forall, (Permutation_count_occ Nat.eq_dec). split.
  - intros H x. destruct (in_dec Nat.eq_dec x (a ++ b)) as [Hi|Hi]; [apply Nat.eqb_eq, H, Hi|]. rewrite in_app_iff in Hi.
    transitivity 0; [|symmetry]; apply count_occ_not_In; tauto.
  - intros H x _. apply Nat.eqb_eq, H.
Qed.
Lemma vl_app s1 s2 : visible_labels (s1 ++ s2) = visible_labels s1 ++ visible_labels s2.
Proof. unfold visible_labels. now rewrite map_app, concat_app. Qed.
Lemma vl_concat ss : visible_labels (concat ss) = concat (map visible_labels ss).
Proof. induction ss as [|s ss IH]; [reflexivity|]. cbn [concat map]. now rewrite vl_app, IH. Qed.

Lemma choices_app k l1 l2 : choices k (l1 ++ l2) = choices k l1 ++ choices (k + length l1) l2.
Proof.
  revert k. induction l1 as [|s l1 IH]; intros k; cbn [choices app length]; [now rewrite Nat.add_0_r|]. rewrite IH, app_assoc. do 2 f_equal. lia.
Qed.
Lemma choices_pop l1 x s l2 : Permutation (choices 0 (l1 ++ (x :: s) :: l2)) (length l1 :: choices 0 (l1 ++ s :: l2)).
Proof. rewrite !choices_app. cbn [choices length repeat app Nat.add]. symmetry. apply Permutation_middle. Qed.
Lemma pop_at_some {X} (ss : list (list X)) c x ss' : pop_at ss c = Some (x, ss') <-> exists l1 s l2, ss = l1 ++ (x :: s) :: l2 /\ ss' = l1 ++ s :: l2 /\ length l1 = c.
Proof.
  split.
  - revert c ss'. induction ss as [|s ss IH]; intros c ss' H; [destruct c; discriminate|]. destruct c as [|c].
    + destruct s as [|y s]; [discriminate|]. cbn in H. injection H as -> <-. exists [], s, ss. auto.
    + assert (H' : match pop_at ss c with Some (x, r') => Some (x, s :: r') | None => None end = Some (x, ss')) by (destruct s; exact H).
      destruct (pop_at ss c) as [[y r]|] eqn:E; [|discriminate]. injection H' as -> <-. destruct (IH c r E) as (l1 & s' & l2 & -> & -> & <-). exists (s :: l1), s', l2. auto.
  - intros (l1 & s & l2 & -> & -> & <-). induction l1 as [|y l1 IH]; [reflexivity|]. cbn [app length pop_at]. rewrite IH. destruct y; reflexivity.
Qed.
Lemma choices_in k ss c : In c (choices k ss) -> exists l1 x s l2, ss = l1 ++ (x :: s) :: l2 /\ k + length l1 = c.
Proof.
  revert k. induction ss as [|s ss IH]; intros k H; [contradiction|]. cbn [choices] in H. apply in_app_or in H as [H|H].
  - apply repeat_spec in H as E. destruct s as [|x s]; [contradiction|]. exists [], x, s, ss. split; [reflexivity|]. cbn. lia.
  - destruct (IH (S k) H) as (l1 & x & s' & l2 & -> & E). exists (s :: l1), x, s', l2. split; [reflexivity|]. cbn. lia.
Qed.
Lemma choices_nil k ss : choices k ss = [] -> forall s, In s ss -> s = [].
Proof.
  revert k. induction ss as [|s ss IH]; intros k H x Hx; [contradiction|]. cbn in H. apply app_eq_nil in H as [H1 H2]. destruct Hx as [<-|Hx]; [|eapply IH; eauto].
  destruct s; [reflexivity|discriminate].
Qed.
(** every rearrangement interleaves the sequences *)
Lemma pops_ok p : forall ss, Permutation p (choices 0 ss) -> exists s, pops ss p = Some s /\ shuffle ss s /\ shuffle (map visible_labels ss) (visible_labels s).
Proof.
  induction p as [|c p IH]; intros ss H.
  - apply Permutation_nil in H. pose proof (choices_nil 0 ss H) as Hn. exists []. split; [reflexivity|]. split; [now constructor|]. constructor.
    intros w Hw. apply in_map_iff in Hw as (s & <- & Hs). now rewrite (Hn s Hs).
  - assert (Hc : In c (choices 0 ss)) by (apply (Permutation_in c H); now left).
    destruct (choices_in 0 ss c Hc) as (l1 & x & s & l2 & -> & <-). cbn [Nat.add] in *.
    rewrite choices_pop in H. apply Permutation_cons_inv in H. destruct (IH _ H) as (r & Er & Hs & Hv). exists (x :: r). cbn [pops].
    assert (Ep : pop_at (l1 ++ (x :: s) :: l2) (length l1) = Some (x, l1 ++ s :: l2)) by (apply pop_at_some; eauto 6). rewrite Ep, Er. split; [reflexivity|].
    split; [now constructor|]. rewrite map_app in *. cbn [map] in *. destruct x as [a|]; [|exact Hv]. change (visible_labels (Some a :: s)) with (a :: visible_labels s).
    change (visible_labels (Some a :: r)) with (a :: visible_labels r). now constructor.
Qed.
Lemma vl_cons_inv s a w : visible_labels s = a :: w -> exists n s', s = repeat None n ++ Some a :: s' /\ visible_labels s' = w.
Proof.
  induction s as [|[b|] s IH]; intros H; [discriminate| |].
  - injection H as -> H. exists 0, s. auto.
  - change (visible_labels (None :: s)) with (visible_labels s) in H. destruct (IH H) as (n & s' & -> & E). exists (S n), s'. auto.
Qed.
(** every interleaving comes from a rearrangement *)
Lemma pops_taus (l1 : list (list (option nat))) n s l2 p r : pops (l1 ++ s :: l2) p = Some r -> pops (l1 ++ (repeat None n ++ s) :: l2) (repeat (length l1) n ++ p) = Some (repeat None n ++ r).
Proof.
  intros H. induction n as [|n IH]; [exact H|]. cbn [repeat app pops]. rewrite (proj2 (pop_at_some _ _ _ _) (ex_intro _ l1 (ex_intro _ (repeat None n ++ s) (ex_intro _ l2 (conj eq_refl (conj eq_refl eq_refl)))))).
  now rewrite IH.
Qed.
Lemma choices_taus (l1 : list (list (option nat))) n s l2 p : Permutation p (choices 0 (l1 ++ s :: l2)) -> Permutation (repeat (length l1) n ++ p) (choices 0 (l1 ++ (repeat None n ++ s) :: l2)).
Proof.
  intros H. induction n as [|n IH]; [exact H|]. cbn [repeat app]. rewrite choices_pop. now constructor.
Qed.
Lemma pops_all ss : pops ss (choices 0 ss) <> None.
Proof. destruct (pops_ok (choices 0 ss) ss (Permutation_refl _)) as (s & E & _). rewrite E. discriminate. Qed.
Lemma pops_complete ws w : shuffle ws w -> forall ss, map visible_labels ss = ws -> exists p s, Permutation p (choices 0 ss) /\ pops ss p = Some s /\ visible_labels s = w.
Proof.
  induction 1 as [ws H|l1 a w l2 u H IH]; intros ss E.
  - exists (choices 0 ss). destruct (pops_ok (choices 0 ss) ss (Permutation_refl _)) as (s & Es & _ & Hv). exists s. split; [reflexivity|]. split; [exact Es|].
    rewrite E in Hv. assert (Hn : forall ws (u : list nat), shuffle ws u -> (forall w, In w ws -> w = []) -> u = []).
    { clear. intros ws u H. destruct H as [|l1 a w l2 u H]; [reflexivity|]. intros Hx. specialize (Hx (a :: w)). rewrite in_app_iff in Hx. cbn in Hx. discriminate Hx. auto. }
    eapply Hn; eauto.
  - apply map_eq_app in E as (s1 & s2 & -> & E1 & E2). destruct s2 as [|s s2]; [discriminate|]. cbn [map] in E2. injection E2 as Es E2.
    destruct (vl_cons_inv _ _ _ Es) as (n & s' & -> & Es'). destruct (IH (s1 ++ s' :: s2)) as (p & r & Hp & Er & Ev).
    { rewrite map_app. cbn [map]. congruence. }
    exists (repeat (length s1) n ++ length s1 :: p), (repeat None n ++ Some a :: r). split; [|split].
    + apply choices_taus. rewrite choices_pop. now constructor.
    + apply pops_taus. cbn [pops]. rewrite (proj2 (pop_at_some _ _ _ _) (ex_intro _ s1 (ex_intro _ s' (ex_intro _ s2 (conj eq_refl (conj eq_refl eq_refl)))))). now rewrite Er.
    + rewrite vl_app. assert (En : visible_labels (repeat None n) = []) by (clear; induction n; [reflexivity|exact IHn]). rewrite En. cbn. change (a :: visible_labels r = a :: u). now rewrite Ev.
Qed.

(** ** Soundness *)
Lemma ex_list_sound {T} (ex : T -> list draw -> option (list (option nat) * list draw)) (R : T -> list nat -> Prop) cs :
  (forall c ds s ds', In c cs -> ex c ds = Some (s, ds') -> R c (visible_labels s)) ->
  forall ds ss ds', ex_list ex cs ds = Some (ss, ds') -> Forall2 R cs (map visible_labels ss).
Proof.
  induction cs as [|c cs IH]; intros Hex ds ss ds' H; cbn in H; [injection H as <- _; constructor|].
  destruct (ex c ds) as [[s d1]|] eqn:E; [|discriminate]. destruct (ex_list ex cs d1) as [[ss' d2]|] eqn:E2; [|discriminate]. injection H as <- _. cbn. constructor.
  - eapply Hex; [now left|exact E].
  - eapply IH; [|exact E2]. intros. eapply Hex; [right|]; eauto.
Qed.
Lemma perm_nth_map {X} (d : X) p cs : Permutation p (seq 0 (length cs)) -> Permutation cs (map (fun i => nth i cs d) p).
Proof.
  intros H. transitivity (map (fun i => nth i cs d) (seq 0 (length cs))).
  - clear H p. assert (E : map (fun i => nth i cs d) (seq 0 (length cs)) = cs); [|now rewrite E].
    induction cs as [|c cs IH]; [reflexivity|]. cbn [length seq map nth]. f_equal. rewrite <- seq_shift, map_map. cbn [nth]. exact IH.
  - apply Permutation_map. now symmetry.
Qed.
Lemma sound fuel : forall t ds s ds', get_ex_seq fuel t ds = Some (s, ds') -> lang t (visible_labels s).
Proof.
  induction fuel as [|fuel IH]; intros t ds s ds' H; [discriminate|]. destruct t as [[a|]|o cs]; cbn [get_ex_seq] in H.
  - injection H as <- _. constructor.
  - injection H as <- _. constructor.
  - destruct o.
    + destruct (ex_list _ cs ds) as [[ss d]|] eqn:E; [|discriminate]. injection H as <- _. rewrite vl_concat. constructor. eapply ex_list_sound; [|exact E]. intros; eapply IH; eauto.
    + destruct ds as [|[i| |] ds1]; try discriminate. destruct (nth_error cs i) as [c|] eqn:En; [|discriminate]. eapply L_xor; [eapply nth_error_In, En|eapply IH, H].
    + destruct (ex_list _ cs ds) as [[ss [|[| |p] d]]|] eqn:E; try discriminate. destruct (rearranged p _) eqn:Er; [|discriminate]. apply rearranged_iff in Er.
      destruct (pops_ok p ss Er) as (r & Ep & _ & Hv). rewrite Ep in H. injection H as <- _. eapply L_par; [|exact Hv]. eapply ex_list_sound; [|exact E]. intros; eapply IH; eauto.
    + discriminate || idtac. destruct cs as [|c r]; [discriminate|]. destruct (get_ex_seq fuel c ds) as [[s0 [|[|[]|] d]]|] eqn:E; try discriminate.
      * destruct r as [|c1 r]; [discriminate|]. destruct (get_ex_seq fuel c1 d) as [[s1 d1]|] eqn:E1; [|discriminate].
        destruct (get_ex_seq fuel (Node Loop (c :: c1 :: r)) d1) as [[s2 d2]|] eqn:E2; [|discriminate]. injection H as <- _. rewrite !vl_app.
        eapply L_loop_redo; [eapply IH, E|now left|eapply IH, E1|eapply IH, E2].
      * injection H as <- _. constructor. eapply IH, E.
    + discriminate.
    + destruct ds as [|[| |p] ds1]; try discriminate. destruct (rearranged p _) eqn:Er; [|discriminate]. apply rearranged_iff in Er.
      destruct (ex_list _ _ ds1) as [[ss d]|] eqn:E; [|discriminate]. injection H as <- _. rewrite vl_concat. eapply L_int; [apply (perm_nth_map (Leaf None) _ _ Er)|].
      eapply ex_list_sound; [|exact E]. intros; eapply IH; eauto.
Qed.

(** ** Completeness *)
Lemma ex_list_mono {T} (ex ex' : T -> list draw -> option (list (option nat) * list draw)) cs :
  (forall c ds r, ex c ds = Some r -> ex' c ds = Some r) -> forall ds r, ex_list ex cs ds = Some r -> ex_list ex' cs ds = Some r.
Proof.
  intros H. induction cs as [|c cs IH]; intros ds r E; [exact E|]. cbn in *. destruct (ex c ds) as [[s d]|] eqn:E1; [|discriminate]. rewrite (H _ _ _ E1).
  destruct (ex_list ex cs d) as [[ss d']|] eqn:E2; [|discriminate]. now rewrite (IH _ _ E2).
Qed.
Lemma mono n : forall m t ds r, get_ex_seq n t ds = Some r -> n <= m -> get_ex_seq m t ds = Some r.
Proof.
  induction n as [|n IH]; intros m t ds r H Hm; [discriminate|]. destruct m as [|m]; [lia|].
  assert (IH' : forall c ds r, get_ex_seq n c ds = Some r -> get_ex_seq m c ds = Some r) by (intros; apply IH; [assumption|lia]).
  destruct t as [l|o cs]; cbn [get_ex_seq] in *; [exact H|]. destruct o; try exact H.
  - destruct (ex_list (get_ex_seq n) cs ds) as [[ss d]|] eqn:E; [|discriminate]. now rewrite (ex_list_mono _ (get_ex_seq m) cs IH' _ _ E).
  - destruct ds as [|[i| |] ds1]; try discriminate. destruct (nth_error cs i); [|discriminate]. auto.
  - destruct (ex_list (get_ex_seq n) cs ds) as [[ss d]|] eqn:E; [|discriminate]. rewrite (ex_list_mono _ (get_ex_seq m) cs IH' _ _ E). exact H.
  - destruct cs as [|c r0]; [exact H|]. destruct (get_ex_seq n c ds) as [[s0 d]|] eqn:E; [|discriminate]. rewrite (IH' _ _ _ E).
    destruct d as [|[|[]|] d]; try exact H. destruct r0 as [|c1 r0]; [exact H|]. destruct (get_ex_seq n c1 d) as [[s1 d1]|] eqn:E1; [|discriminate]. rewrite (IH' _ _ _ E1).
    destruct (get_ex_seq n (Node Loop (c :: c1 :: r0)) d1) as [[s2 d2]|] eqn:E2; [|discriminate]. now rewrite (IH' _ _ _ E2).
  - destruct ds as [|[| |p] ds1]; try discriminate. destruct (rearranged p _); [|exact H].
    destruct (ex_list (get_ex_seq n) _ ds1) as [[ss d]|] eqn:E; [|discriminate]. now rewrite (ex_list_mono _ (get_ex_seq m) _ IH' _ _ E).
Qed.
(** the playout can be made to generate [w] *)
Definition can (t : tree nat) (w : list nat) : Prop :=
  exists n ds s, visible_labels s = w /\ forall rest, get_ex_seq n t (ds ++ rest) = Some (s, rest).
Lemma can_list cs ws : Forall2 can cs ws -> exists n ds ss, map visible_labels ss = ws /\ forall rest, ex_list (get_ex_seq n) cs (ds ++ rest) = Some (ss, rest).
Proof.
  induction 1 as [|c w cs ws (n & ds & s & Es & Hs) H (m & ds' & ss & Ess & Hss)]; [exists 0, [], []; auto|].
  exists (n + m), (ds ++ ds'), (s :: ss). split; [cbn; congruence|]. intros rest. cbn [ex_list]. rewrite <- app_assoc.
  rewrite (mono n (n + m) _ _ _ (Hs (ds' ++ rest))) by lia. rewrite (ex_list_mono (get_ex_seq m) (get_ex_seq (n + m)) cs) with (r := (ss, rest)); [reflexivity| |apply Hss].
  intros c' d r Hr. eapply mono; [exact Hr|lia].
Qed.
(** what the code supports: no inclusive choice, loops with one redo part *)
Definition playable (t : tree nat) : Prop :=
  everywhere (fun u => match u with Node Or _ => False | Node Loop cs => length cs = 2 | _ => True end) t.
Lemma nodup_map_on {X Y} (f : X -> Y) l : (forall x y, In x l -> In y l -> f x = f y -> x = y) -> NoDup l -> NoDup (map f l).
Proof.
  intros Hf H. induction H as [|x l Hx H IH]; cbn; constructor.
  - intros Hi. apply in_map_iff in Hi as (y & E & Hy). apply Hx. rewrite <- (Hf y x); [exact Hy|now right|now left|exact E].
  - apply IH. intros y z Hy Hz. apply Hf; now right.
Qed.
Lemma nth_map_seq {X} (g : nat -> X) d n i : i < n -> nth i (map g (seq 0 n)) d = g i.
Proof.
  intros H. rewrite (nth_indep _ d (g 0)) by (rewrite map_length, seq_length; exact H). rewrite (map_nth g (seq 0 n) 0 i), seq_nth by exact H. reflexivity.
Qed.
Lemma nth_perm (cs : list (tree nat)) cs' : Permutation cs cs' -> exists p, Permutation p (seq 0 (length cs)) /\ cs' = map (fun i => nth i cs (Leaf None)) p.
Proof.
  intros H. apply (Permutation_nth cs cs' (Leaf None)) in H as (Hl & f & Hb & Hi & Hn). cbv zeta in *.
  exists (map f (seq 0 (length cs))). split.
  - apply NoDup_Permutation_bis.
    + apply nodup_map_on; [|apply seq_NoDup]. intros x y Hx Hy E. apply in_seq in Hx, Hy. apply Hi; auto; lia.
    + rewrite map_length, seq_length. lia.
    + intros x Hx. apply in_map_iff in Hx as (y & <- & Hy). apply in_seq in Hy. apply in_seq. specialize (Hb y). lia.
  - rewrite map_map. apply (nth_ext _ _ (Leaf None) (Leaf None)); [rewrite map_length, seq_length; exact Hl|]. intros i Hi'. rewrite Hl in Hi'. rewrite (Hn i Hi').
    symmetry. apply (nth_map_seq (fun i => nth (f i) cs (Leaf None))), Hi'.
Qed.
Lemma Forall2_can cs ws : (forall c, In c cs -> playable c /\ forall w, lang c w -> playable c -> can c w) -> Forall2 lang cs ws -> Forall2 can cs ws.
Proof. intros H F. induction F as [|c w cs ws Hl F IH]; constructor; [apply H; [now left|exact Hl|apply H; now left]|]. apply IH. intros. apply H. now right. Qed.
Lemma complete t : playable t -> forall w, lang t w -> can t w.
Proof.
  induction t as [l|o cs IHc] using tree_ind2; intros Hp w Hl.
  - exists 1, [], [l]. split; [|reflexivity]. inversion Hl; reflexivity.
  - inversion Hp as [|? ? Ho Hcs]; subst. rewrite Forall_forall in IHc, Hcs.
    assert (Hch : forall c, In c cs -> playable c /\ forall w, lang c w -> playable c -> can c w).
    { intros c Hc. split; [now apply Hcs|]. intros w' Hw' Hpc. now apply IHc. }
    destruct o.
    + apply lang_seq in Hl as (ws & F & ->). destruct (can_list cs ws (Forall2_can cs ws Hch F)) as (n & ds & ss & <- & Hss).
      exists (S n), ds, (concat ss). split; [apply vl_concat|]. intros rest. cbn [get_ex_seq]. now rewrite Hss.
    + apply lang_xor in Hl as (c & Hc & Hw). destruct (Hch c Hc) as [Hpc Hcan]. destruct (Hcan w Hw Hpc) as (n & ds & s & Es & Hs).
      apply In_nth_error in Hc as (i & Hi). exists (S n), (DChoice i :: ds), s. split; [exact Es|]. intros rest. cbn [get_ex_seq app]. rewrite Hi. apply Hs.
    + apply lang_par in Hl as (ws & F & Hsh). destruct (can_list cs ws (Forall2_can cs ws Hch F)) as (n & ds & ss & Ews & Hss).
      destruct (pops_complete ws w Hsh ss Ews) as (p & s & Hperm & Ep & Ev). exists (S n), (ds ++ [DShuffle p]), s. split; [exact Ev|]. intros rest. cbn [get_ex_seq].
      rewrite <- app_assoc. rewrite Hss. cbn [app]. rewrite (proj2 (rearranged_iff p (choices 0 ss)) Hperm), Ep. reflexivity.
    + cbn in Ho. destruct cs as [|c [|c1 [|? ?]]]; try discriminate. 
      remember (Node Loop [c; c1]) as t0. induction Hl as [|a|cs0 ws0 F0|cs0 c0 w0 H0 H1|cs0 ws0 w0 F0 S0|cs0 cs1 ws0 w0 S0 N0 F0 Sh0|cs0 cs1 ws0 P0 F0|d rs w0 Hd IHd|d rs r w0 v w1 Hd IHd Hr Hv IHv Hrest IHrest]; try discriminate; injection Heqt0 as E1 E2; subst d rs.
      * destruct (proj2 (Hch c (or_introl eq_refl)) w0 Hd (proj1 (Hch c (or_introl eq_refl)))) as (n & ds & s & Es & Hs).
        exists (S n), (ds ++ [DCoin false]), s. split; [exact Es|]. intros rest. cbn [get_ex_seq]. rewrite <- app_assoc, Hs. reflexivity.
      * destruct Hr as [<-|[]]. destruct (proj2 (Hch c (or_introl eq_refl)) w0 Hd (proj1 (Hch c (or_introl eq_refl)))) as (n & ds & s & Es & Hs).
        destruct (proj2 (Hch c1 (or_intror (or_introl eq_refl))) v Hv (proj1 (Hch c1 (or_intror (or_introl eq_refl))))) as (n1 & ds1 & s1 & Es1 & Hs1).
        destruct (IHrest eq_refl Hp) as (n2 & ds2 & s2 & Es2 & Hs2).
        exists (S (n + n1 + n2)), (ds ++ DCoin true :: ds1 ++ ds2), (s ++ s1 ++ s2). split; [rewrite !vl_app; congruence|]. intros rest. cbn [get_ex_seq].
        rewrite <- app_assoc. cbn [app]. rewrite (mono n (n + n1 + n2) _ _ _ (Hs (DCoin true :: (ds1 ++ ds2) ++ rest))) by lia. rewrite <- app_assoc.
        rewrite (mono n1 (n + n1 + n2) _ _ _ (Hs1 (ds2 ++ rest))) by lia. rewrite (mono n2 (n + n1 + n2) _ _ _ (Hs2 rest)) by lia. reflexivity.
    + contradiction.
    + apply lang_int in Hl as (cs' & ws & Hperm & F & ->). destruct (nth_perm cs cs' Hperm) as (p & Hp' & ->).
      assert (Hch' : forall c, In c (map (fun i => nth i cs (Leaf None)) p) -> playable c /\ forall w, lang c w -> playable c -> can c w).
      { intros c Hc. apply Hch. apply (Permutation_in c (Permutation_sym Hperm)), Hc. }
      destruct (can_list _ ws (Forall2_can _ ws Hch' F)) as (n & ds & ss & <- & Hss).
      exists (S n), (DShuffle p :: ds), (concat ss). split; [apply vl_concat|]. intros rest. cbn [get_ex_seq app]. rewrite (proj2 (rearranged_iff p _) Hp'). now rewrite Hss.
Qed.
