(** Proofs about the removal of implicit places. *)
From stdpp Require Import gmap.
From Coq Require Import ZArith List Arith Bool Lia Permutation.
Import ListNotations.
From Verif Require Import Model_Petri Model_Graph Model_TreeNet Model_Murata Spec_Petri Spec_Murata Proofs_Petri.
From Verif Require Import Proofs_Replay1.
From Verif Require Proofs_Graph.
Local Open Scope Z_scope.
Local Arguments smem : simpl never.

Section M.
  Variable net : petri_net (option nat).
  Variable im : marking.
  Hypothesis Hnd : List.NoDup (n_places net).
  Hypothesis Hsim : simple_net net.
  Hypothesis Harc : arcs_on_places net.
  Hypothesis Him : proper im.
  Definition others (red : list nat) (pl : nat) : list nat := List.filter (fun q => negb (smem q red) && negb (Nat.eqb q pl)) (n_places net).
  Lemma others_in red pl q : In q (others red pl) <-> In q (n_places net) /\ ~ In q red /\ q <> pl.
  Proof. unfold others. rewrite filter_In, andb_true_iff, !negb_true_iff, Proofs_Graph.smem_false, Nat.eqb_neq. tauto. Qed.
  Lemma zsum_weight_cons (x : nat -> Z) q0 w l : forall O, List.NoDup O ->
    zsum (fun q => x q * weight ((q0, w) :: l) q) O = (if in_dec Nat.eq_dec q0 O then x q0 * w else 0) + zsum (fun q => x q * weight l q) O.
  Proof.
    induction O as [|a O IH]; intros HO; [reflexivity|]. inversion HO as [|? ? Ha HO']; subst. specialize (IH HO'). cbn [zsum]. rewrite IH. cbn [weight].
    destruct (Nat.eqb_spec q0 a) as [->|Hq].
    - destruct (in_dec Nat.eq_dec a O); [contradiction|]. destruct (in_dec Nat.eq_dec a (a :: O)) as [|nn]; [|exfalso; apply nn; left; auto]. lia.
    - destruct (in_dec Nat.eq_dec q0 O) as [i1|n1], (in_dec Nat.eq_dec q0 (a :: O)) as [i2|n2]; try lia; exfalso; [apply n2; right; auto|destruct i2; auto; congruence].
  Qed.
  Lemma lhs_signed x s red pl l : ~ In pl red -> (forall q w, In (q, w) l -> In q (n_places net)) ->
    lhs x (signed s red pl l) = s * (x pl * weight l pl - zsum (fun q => x q * weight l q) (others red pl)).
  Proof.
    intros Hpl. induction l as [|[q w] l IH]; intros Hl.
    - cbn. rewrite (zsum_ext _ (fun _ => 0)) by (intros; lia). assert (Z0 : zsum (fun _ : nat => 0) (others red pl) = 0) by (induction (others red pl) as [|? ? I]; cbn; lia). rewrite Z0. lia.
    - rewrite zsum_weight_cons by (apply NoDup_filter, Hnd). unfold signed in *. cbn [List.filter fst]. cbn [weight]. destruct (in_dec Nat.eq_dec q (others red pl)) as [Hin|Hout].
      + apply others_in in Hin as (_ & A & B). apply Proofs_Graph.smem_false in A. rewrite A. cbn [negb map lhs fst snd]. rewrite IH by (intros; eapply Hl; right; eauto).
        apply Nat.eqb_neq in B as B'. rewrite B'. lia.
      + destruct (Nat.eqb_spec q pl) as [->|Hq].
        * apply Proofs_Graph.smem_false in Hpl as A. rewrite A. cbn [negb map lhs fst snd]. rewrite Nat.eqb_refl. rewrite IH by (intros; eapply Hl; right; eauto). lia.
        * destruct (smem q red) eqn:A; cbn [negb map lhs fst snd].
          { rewrite IH by (intros; eapply Hl; right; eauto). lia. }
          { exfalso. apply Hout, others_in. split; [eapply Hl; left; eauto|]. split; [apply Proofs_Graph.smem_false; auto|auto]. }
  Qed.
  (** What a solution of the program says when the last variable is zero. *)
  Definition wit (x : nat -> Z) (red : list nat) (pl : nat) : Prop := (forall q, 0 <= x q) /\ 1 <= x pl /\ (forall q, im !! q <> None -> x q = 0) /\
    forall t, In t (n_trans net) -> x pl * weight (t_in t) pl <= zsum (fun q => x q * weight (t_in t) q) (others red pl) /\
      zsum (fun q => x q * weight (t_out t) q) (others red pl) <= x pl * weight (t_out t) pl.
  Definition zeroed (Aeq : list row) : Prop := forall x b, (forall p, 0 <= x p) -> 0 <= b -> (forall r, In r Aeq -> value x b r = c_rhs r) -> b = 0 /\ forall q, im !! q <> None -> x q = 0.
  Lemma zeroed_first p0 : im !! p0 = None -> zeroed [eq_row im [] p0].
  Proof.
    intros Hp x b Hx Hb Hr. specialize (Hr _ (or_introl eq_refl)). unfold value, eq_row in Hr. cbn [c_coef c_last c_rhs] in Hr.
    assert (G : forall l : list (nat * Z), (forall q v, In (q, v) l -> 0 < v /\ q <> p0) -> lhs x (signed 1 [] p0 l) <= 0 /\ (0 <= lhs x (signed 1 [] p0 l) -> forall q v, In (q, v) l -> x q = 0)).
    { induction l as [|[q v] l IH]; intros Hl; [cbn; split; [lia|intros _ ? ? []]|]. destruct IH as [I1 I2]; [intros; apply Hl; right; auto|].
      unfold signed in *. cbn [List.filter fst]. cbn [smem existsb negb map lhs fst snd] in *. change (smem q []) with false. cbn [negb map lhs fst snd].
      destruct (Hl q v (or_introl eq_refl)) as [Hv Hq]. apply Nat.eqb_neq in Hq as ->. specialize (Hx q).
      assert (Hm : 0 <= v * x q) by nia. split; [lia|]. intros H0 q' v' [[= <- <-]|Hin]; [nia|]. eapply I2; eauto. lia. }
    destruct (G (map_to_list im)) as [G1 G2].
    { intros q v Hin. apply elem_of_list_In, elem_of_map_to_list in Hin. split; [eapply Him; eauto|]. intros ->. congruence. }
    split; [lia|]. intros q Hq. destruct (im !! q) as [v|] eqn:E; [|congruence]. apply (G2 ltac:(lia) q v). apply elem_of_list_In, elem_of_map_to_list. auto.
  Qed.
  Lemma zeroed_more Aeq Aeq' : zeroed Aeq -> incl Aeq Aeq' -> zeroed Aeq'.
  Proof. intros Hz Hi x b Hx Hb Hr. apply Hz; auto. Qed.
  Lemma feasible_wit Aeq Aub red pl : In pl (n_places net) -> ~ In pl red -> zeroed Aeq -> incl (ub_rows net red pl) Aub -> feasible Aeq Aub -> exists x, wit x red pl.
  Proof.
    intros Hpl Hred Hz Hi (x & b & Hx & Hb & He & Hu). destruct (Hz x b Hx Hb He) as [-> Hm]. exists x. split; auto. split; [|split; auto].
    - assert (R := Hu (CRow [(pl, -1)] 0 (if Nat.eqb pl pl then -1 else 0))). rewrite Nat.eqb_refl in R. unfold value in R. cbn [c_coef c_last c_rhs lhs] in R.
      enough (-1 * x pl + 0 + 0 * 0 <= -1) by lia. apply R, Hi. unfold ub_rows. rewrite !in_app_iff. right. right. left. apply in_map_iff. exists pl. rewrite Nat.eqb_refl. split; auto.
      apply filter_In. split; auto. apply negb_true_iff, Proofs_Graph.smem_false. auto.
    - intros t Ht. split.
      + assert (R := Hu (CRow (signed 1 red pl (t_in t)) (-1) 0)). unfold value in R. cbn [c_coef c_last c_rhs] in R. rewrite lhs_signed in R; auto; [|intros q w Hq; eapply Harc; eauto].
        enough (1 * (x pl * weight (t_in t) pl - zsum (fun q : nat => x q * weight (t_in t) q) (others red pl)) + -1 * 0 <= 0) by lia. apply R, Hi. unfold ub_rows. rewrite !in_app_iff. left. apply in_map_iff. exists t. auto.
      + assert (R := Hu (CRow (signed (-1) red pl (t_out t)) 0 0)). unfold value in R. cbn [c_coef c_last c_rhs] in R. rewrite lhs_signed in R; auto; [|intros q w Hq; eapply Harc; eauto].
        enough (-1 * (x pl * weight (t_out t) pl - zsum (fun q : nat => x q * weight (t_out t) q) (others red pl)) + 0 * 0 <= 0) by lia. apply R, Hi. unfold ub_rows. rewrite !in_app_iff. right. left. apply in_map_iff. exists t. auto.
  Qed.
  Definition good (from : nat) (red : list nat) : Prop := forall l1 p l2, red = l1 ++ p :: l2 -> (from <= length l1)%nat -> exists x, wit x l1 p.
  Lemma scan_grows order Aeq Aub red red' : scan net im order Aeq Aub red red' -> exists ext, red' = red ++ ext /\ incl ext order /\ (List.NoDup order -> List.NoDup ext).
  Proof.
    induction 1 as [|pl rest Aeq Aub red red' Hf Hs IH|pl rest Aeq Aub red red' Hf Hs IH].
    - exists []. rewrite app_nil_r. repeat split; [intros ? []|constructor].
    - destruct IH as (ext & -> & I & N). exists (pl :: ext). rewrite <- app_assoc. split; auto. split; [intros z [<-|Hz]; [left; auto|right; auto]|]. intros Hn. inversion Hn; subst. constructor; auto.
    - destruct IH as (ext & -> & I & N). exists ext. split; auto. split; [intros z Hz; right; auto|]. intros Hn. inversion Hn; subst. auto.
  Qed.
  Lemma scan_good order Aeq Aub red red' : scan net im order Aeq Aub red red' -> List.NoDup (red ++ order) -> incl order (n_places net) ->
    (match order with [] => True | p :: _ => zeroed (Aeq ++ [eq_row im red p]) end) -> good (length red) red'.
  Proof.
    induction 1 as [|pl rest Aeq Aub red red' Hf Hs IH|pl rest Aeq Aub red red' Hf Hs IH]; intros Hn Hi Hz.
    - intros l1 p l2 -> Hl. rewrite app_length in Hl. cbn in Hl. lia.
    - assert (Hpl : ~ In pl red). { intros Hin. apply NoDup_remove_2 in Hn. apply Hn, in_app_iff. auto. }
      assert (G : good (length (red ++ [pl])) red').
      { apply IH; [rewrite <- app_assoc; auto|intros z Hz'; apply Hi; right; auto|]. destruct rest; auto. eapply zeroed_more; [exact Hz|]. intros r Hr. apply in_app_iff. auto. }
      destruct (scan_grows _ _ _ _ _ Hs) as (ext & E & _). intros l1 p l2 E' Hl.
      destruct (Nat.eq_dec (length l1) (length red)) as [Hll|Hll].
      + rewrite E in E'. rewrite <- app_assoc in E'. cbn [app] in E'.
        assert (X : red = l1 /\ pl :: ext = p :: l2). { clear -E' Hll. revert l1 E' Hll. induction red as [|a red IH]; intros [|c l1] E' Hll; cbn in *; try lia; auto. injection E' as -> E'. destruct (IH l1 E') as [-> ?]; auto. }
        destruct X as [<- X]. injection X as <- <-. eapply feasible_wit; eauto; [apply Hi; left; auto|]. intros r Hr. apply in_app_iff. auto.
      + apply (G l1 p l2 E'). rewrite app_length. cbn. lia.
    - apply IH; [apply NoDup_remove_1 in Hn; auto|intros z Hz'; apply Hi; right; auto|]. destruct rest; auto. eapply zeroed_more; [exact Hz|]. intros r Hr. apply in_app_iff. auto.
  Qed.

  Variable red : list nat.
  Hypothesis Hgood : good 0 red.
  Hypothesis Hredn : List.NoDup red.
  (** Invariant: the tokens on a redundant place dominate the weighted tokens on the others. *)
  Definition inv (m : marking) : Prop := forall l1 p l2 x, red = l1 ++ p :: l2 -> wit x l1 p -> zsum (fun q => x q * tokens m q) (others l1 p) <= x p * tokens m p.
  Lemma inv_im : inv im.
  Proof.
    intros l1 p l2 x _ (Hx & _ & Hz & _). assert (T : forall q, x q * tokens im q = 0).
    { intros q. unfold tokens. destruct (im !! q) eqn:E; [rewrite Hz; [lia|congruence]|lia]. }
    rewrite T. rewrite (zsum_ext _ (fun _ => 0)) by (intros; apply T). induction (others l1 p); cbn; lia.
  Qed.
  Lemma zsum_lin (f g h k : nat -> Z) l : (forall q, f q = g q - h q + k q) -> zsum f l = zsum g l - zsum h l + zsum k l.
  Proof. intros E. induction l as [|a l IH]; cbn; [lia|]. rewrite IH, E. lia. Qed.
  Lemma inv_step t m m' : inv m -> fires net t m m' -> inv m'.
  Proof.
    intros Hi (Ht & _ & _ & HT) l1 p l2 x E W. specialize (Hi l1 p l2 x E W). destruct W as (_ & _ & _ & W). destruct (W t Ht) as [W1 W2].
    rewrite (zsum_lin _ (fun q => x q * tokens m q) (fun q => x q * weight (t_in t) q) (fun q => x q * weight (t_out t) q)) by (intros q; rewrite HT; lia). rewrite HT. lia.
  Qed.
  Lemma inv_enabled t m : In t (n_trans net) -> inv m -> (forall q, In q (n_places net) -> ~ In q red -> weight (t_in t) q <= tokens m q) -> forall q, In q red -> weight (t_in t) q <= tokens m q.
  Proof.
    intros Ht Hi Hq.
    assert (G : forall n l1 p l2, red = l1 ++ p :: l2 -> length l2 = n -> weight (t_in t) p <= tokens m p).
    { induction n as [n IH] using lt_wf_ind. intros l1 p l2 E Hn. destruct (Hgood l1 p l2 E) as [x W]; [lia|]. specialize (Hi l1 p l2 x E W). destruct W as (Hx & Hp & _ & W). destruct (W t Ht) as [W1 _].
      assert (S : zsum (fun q => x q * weight (t_in t) q) (others l1 p) <= zsum (fun q => x q * tokens m q) (others l1 p)).
      { apply zsum_le. intros q Hin. apply others_in in Hin as (A & B & C). apply Z.mul_le_mono_nonneg_l; auto. destruct (in_dec Nat.eq_dec q red) as [R|R]; [|auto].
        rewrite E in R. apply in_app_iff in R as [R|[R|R]]; [contradiction|congruence|]. apply in_split in R as (a & c & ->).
        apply (IH (length c)) with (l1 := l1 ++ p :: a) (l2 := c); auto; [rewrite app_length in Hn; cbn in Hn; lia|]. rewrite <- app_assoc. auto. }
      assert (x p * weight (t_in t) p <= x p * tokens m p) by lia. apply (Zmult_le_reg_r _ _ (x p)); [lia|]. lia. }
    intros q Hin. apply in_split in Hin as (l1 & l2 & E). apply (G (length l2) l1 q l2); auto.
  Qed.
End M.

(** The reduced net. *)
Definition shrink (ps : list nat) (t : transition (option nat)) : transition (option nat) :=
  Trans (t_id t) (t_label t) (List.filter (fun pw => negb (smem (fst pw) ps)) (t_in t)) (List.filter (fun pw => negb (smem (fst pw) ps)) (t_out t)).
Lemma filter_filter {A} (f g : A -> bool) l : List.filter g (List.filter f l) = List.filter (fun x => f x && g x) l.
Proof. induction l as [|a l IH]; [reflexivity|]. cbn. destruct (f a); cbn; [destruct (g a)|]; rewrite IH; auto. Qed.
Lemma filter_all_true {A} (l : list A) : List.filter (fun _ => true) l = l.
Proof. induction l; cbn; congruence. Qed.
Lemma smem_cons x p ps : smem x (p :: ps) = Nat.eqb x p || smem x ps.
Proof. reflexivity. Qed.
Lemma remove_all_eq ps : forall net, n_places (remove_all net ps) = List.filter (fun p => negb (smem p ps)) (n_places net) /\ n_trans (remove_all net ps) = map (shrink ps) (n_trans net).
Proof.
  induction ps as [|p ps IH]; intros net; cbn [remove_all fold_left].
  - split; [symmetry; apply filter_all_true|]. rewrite <- (map_id (n_trans net)) at 1. apply map_ext. intros [i l a b]. unfold shrink. cbn. rewrite !filter_all_true. auto.
  - destruct (IH (remove_place net p)) as [A B]. unfold remove_all in A, B. rewrite A, B. unfold remove_place at 1. cbn [n_places]. split.
    + unfold drop_place. rewrite filter_filter. apply filter_ext. intros q. rewrite smem_cons, negb_orb. auto.
    + cbn [remove_place n_trans]. rewrite map_map. apply map_ext. intros t. unfold shrink. cbn [t_id t_label t_in t_out]. unfold drop_arc. rewrite !filter_filter. f_equal; apply filter_ext; intros q; rewrite smem_cons, negb_orb; auto.
Qed.
Lemma weight_filter ps l q : weight (List.filter (fun pw => negb (smem (fst pw) ps)) l) q = if smem q ps then 0 else weight l q.
Proof.
  induction l as [|[p w] l IH]; cbn [List.filter weight fst]; [destruct (smem q ps); auto|]. destruct (smem p ps) eqn:E; cbn [negb weight]; rewrite IH; destruct (Nat.eqb_spec p q) as [->|]; try rewrite E; auto; destruct (smem q ps); lia.
Qed.
Lemma unmark_get ps : forall m p, unmark m ps !! p = if smem p ps then None else m !! p.
Proof.
  induction ps as [|a ps IH]; intros m p; [reflexivity|]. unfold unmark in *. cbn [fold_left]. rewrite IH, smem_cons. destruct (smem p ps); [rewrite orb_true_r; auto|]. rewrite orb_false_r.
  destruct (Nat.eqb_spec p a) as [->|Hn]; [apply lookup_delete|apply lookup_delete_ne; auto].
Qed.
Lemma unmark_tokens m ps p : tokens (unmark m ps) p = if smem p ps then 0 else tokens m p.
Proof. unfold tokens. rewrite unmark_get. destruct (smem p ps); auto. Qed.
Lemma unmark_proper m ps : proper m -> proper (unmark m ps).
Proof. intros Hm p v. rewrite unmark_get. destruct (smem p ps); [discriminate|apply Hm]. Qed.
Section Corr.
  Variable net : petri_net (option nat).
  Variable im : marking.
  Variables red ps : list nat.
  Hypothesis Hnd : List.NoDup (n_places net).
  Hypothesis Hsim : simple_net net.
  Hypothesis Harc : arcs_on_places net.
  Hypothesis Hgood : good net im 0 red.
  Hypothesis Hps : incl ps red.
  Lemma fires_down t m m' : fires net t m m' -> proper m' -> fires (remove_all net ps) (shrink ps t) (unmark m ps) (unmark m' ps).
  Proof.
    intros (Ht & He & Hp & HT) _. split; [rewrite (proj2 (remove_all_eq ps net)); apply in_map; auto|]. split; [|split; [apply unmark_proper; auto|]].
    - intros p. cbn [shrink t_in]. rewrite weight_filter, unmark_tokens. destruct (smem p ps); [lia|apply He].
    - intros p. cbn [shrink t_in t_out]. rewrite !weight_filter, !unmark_tokens. destruct (smem p ps); [lia|apply HT].
  Qed.
  Lemma fires_up u m m1 : proper m -> inv net im red m -> fires (remove_all net ps) u (unmark m ps) m1 -> exists t m', u = shrink ps t /\ fires net t m m' /\ m1 = unmark m' ps.
  Proof.
    intros Hm Hi (Hu & He & Hp & HT). rewrite (proj2 (remove_all_eq ps net)) in Hu. apply in_map_iff in Hu as (t & <- & Ht).
    assert (En : enabled_at t m).
    { assert (A : forall q, ~ In q ps -> weight (t_in t) q <= tokens m q).
      { intros q Hq. specialize (He q). cbn [shrink t_in] in He. apply Proofs_Graph.smem_false in Hq as Hq'. rewrite weight_filter, unmark_tokens, Hq' in He. auto. }
      intros q. destruct (in_dec Nat.eq_dec q ps) as [Hin|Hout]; [|auto]. apply (inv_enabled net im red Hgood t m Ht Hi); auto. }
    pose proof (fired_marking t m) as FM. pose proof (fired_proper t m (Hsim t Ht) Hm En) as FP. set (m' := fold_left produce (t_out t) (fold_left consume (t_in t) m)) in *.
    assert (F : fires net t m m') by (repeat split; auto). exists t, m'. split; auto. split; auto. apply (fires_det (remove_all net ps) (shrink ps t) (unmark m ps)); [repeat split; auto|apply fires_down; auto].
    rewrite (proj2 (remove_all_eq ps net)). apply in_map; auto.
  Qed.
  Lemma run_down ts : forall m m', run net m ts m' -> run (remove_all net ps) (unmark m ps) (map (shrink ps) ts) (unmark m' ps).
  Proof. induction ts as [|t ts IH]; intros m m' Hr; inversion Hr; subst; [constructor|]. cbn. econstructor; [apply fires_down; eauto; apply H2|auto]. Qed.
  Lemma run_up us : forall m m1, proper m -> inv net im red m -> run (remove_all net ps) (unmark m ps) us m1 -> exists ts m', us = map (shrink ps) ts /\ run net m ts m' /\ m1 = unmark m' ps.
  Proof.
    induction us as [|u us IH]; intros m m1 Hm Hi Hr; inversion Hr; subst; [exists [], m; repeat split; constructor|].
    destruct (fires_up u m m2 Hm Hi H2) as (t & m' & -> & F & ->). destruct (IH m' m1) as (ts & m'' & -> & R & ->); auto; [apply F|eapply inv_step; eauto|].
    exists (t :: ts), m''. repeat split; auto. econstructor; eauto.
  Qed.
End Corr.
Lemma shrink_same ps ts : same_firings ts (map (shrink ps) ts).
Proof. unfold same_firings. rewrite !map_map. split; apply map_ext; reflexivity. Qed.
Lemma visible_same ts us : same_firings ts us -> visible ts = visible us.
Proof.
  intros [_ E]. revert us E. induction ts as [|t ts IH]; intros [|u us] E; try discriminate; auto. cbn in *. injection E as -> E. rewrite (IH us E). auto.
Qed.
