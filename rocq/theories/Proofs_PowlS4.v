(** Termination and shape of the simplified model. *)
From Coq Require Import List Arith Lia Bool.
Import ListNotations.
From Verif Require Import Model_Rel Model_Powl Spec_Powl Spec_PowlSimplify Proofs_Powl2 Proofs_Powl4 Model_PowlSimplify Proofs_PowlS1 Proofs_PowlS2 Proofs_PowlS3.

Lemma max_le (l : list nat) n : list_max l <= n <-> forall x, In x l -> x <= n.
Proof. rewrite list_max_le, Forall_forall. tauto. Qed.
Lemma depth_kids cs n : list_max (map depth cs) <= n <-> forall c, In c cs -> depth c <= n.
Proof.
  rewrite max_le. split; [intros H c Hc; apply H, in_map, Hc|]. intros H x Hx. apply in_map_iff in Hx as (c & <- & Hc). auto.
Qed.
(** the nodes of the flattened order come from the children, whatever the orders are *)
Lemma group_of_child conn s d : In d (g_ds (group_of conn s)) -> child_of d s.
Proof.
  assert (K : In d (g_ds (kept s)) -> child_of d s) by (intros [<-|[]]; left; auto). destruct s as [l|cs|a r|ds r]; auto. unfold group_of. destruct conn; [|intros H; right; auto].
  destruct (get_start_nodes (length ds) r) as [|x [|? ?]]; auto. destruct (get_end_nodes (length ds) r) as [|y [|? ?]]; auto. intros H; right; auto.
Qed.
Lemma keys_range gs k : In k (keys gs) -> fst k < length gs /\ (snd k < length (g_ds (grp gs (fst k))) \/ g_sub (grp gs (fst k)) = false /\ snd k = 0).
Proof.
  unfold keys. rewrite in_app_iff, in_map_iff, in_flat_map. intros [([j g] & <- & H)|([j g] & H & Hx)]; apply filter_In in H as [H Hs]; apply in_igs in H as [H ->]; cbn [fst snd] in *.
  - split; auto. right. apply negb_true_iff in Hs. auto.
  - apply in_map_iff in Hx as (y & <- & Hy). cbn [fst snd]. apply in_seq in Hy. split; auto. left. lia.
Qed.
Lemma group_of_kept conn s : g_sub (group_of conn s) = false -> group_of conn s = kept s.
Proof.
  destruct s as [l|cs|a r|ds r]; auto. unfold group_of. destruct conn; [|discriminate].
  destruct (get_start_nodes (length ds) r) as [|x [|? ?]]; auto. destruct (get_end_nodes (length ds) r) as [|y [|? ?]]; auto. discriminate.
Qed.
Lemma new_child ss e d : In d (new_nodes (groups (length ss) e ss)) -> exists s, In s ss /\ child_of d s.
Proof.
  unfold new_nodes. rewrite in_map_iff. intros (k & <- & Hk). apply keys_range in Hk as [Hi Hx]. rewrite groups_length in Hi. fold (grp (groups (length ss) e ss) (fst k)).
  rewrite groups_nth in * by auto. exists (nth (fst k) ss (PLeaf None)). split; [apply nth_In; auto|]. eapply group_of_child. apply nth_In.
  destruct Hx as [Hx|[Hs E]]; [exact Hx|]. rewrite (group_of_kept _ _ Hs). rewrite E. cbn. lia.
Qed.

(** * Termination *)
Lemma merge_depth cs a b : merge cs = Some (a, b) -> exists c, In c cs /\ depth a < depth c /\ depth b < depth c.
Proof.
  assert (G : forall c0 c1, merge_with c0 c1 = Some (a, b) -> depth a < depth c1 /\ depth b < depth c1).
  { intros c0 c1 H. destruct c1 as [|?|d r|]; try discriminate. cbn in H. destruct (is_tau c0); [|discriminate]. destruct (is_tau d); [injection H as <- <-; cbn; lia|].
    destruct (is_tau r); [injection H as <- <-; cbn; lia|discriminate]. }
  unfold merge. destruct cs as [|c0 [|c1 [|? ?]]]; try discriminate. destruct (merge_with c0 c1) as [[x y]|] eqn:E.
  - intros [= -> ->]. exists c1. split; [right; left; auto|eauto].
  - intros H. exists c0. split; [left; auto|eauto].
Qed.
Lemma map_opt_depth (f : powl -> option powl) n cs : (forall c, In c cs -> exists c', f c = Some c' /\ depth c' <= n) ->
  exists ds, map_opt_list f cs = Some ds /\ forall d, In d ds -> depth d <= n.
Proof.
  induction cs as [|c cs IH]; intros H; [exists []; split; auto; intros d []|]. destruct (H c) as (c' & E & Hd); [left; auto|]. destruct IH as (ds & E' & Hds); [intros; apply H; right; auto|].
  exists (c' :: ds). cbn. rewrite E, E'. split; auto. intros d [<-|Hx]; auto.
Qed.
Theorem simplify_total f : forall t, depth t <= f -> exists t', simplify f t = Some t' /\ depth t' <= depth t.
Proof.
  induction f as [|f IH]; intros t Ht; [destruct t; cbn in Ht; lia|]. destruct t as [l|cs|d r|cs e].
  - exists (PLeaf l). split; auto.
  - cbn [depth] in *. set (n := list_max (map depth cs)) in *. assert (Hk : forall c, In c cs -> depth c <= n) by (apply depth_kids; auto). cbn [simplify]. destruct (merge cs) as [[a b]|] eqn:Em.
    + destruct (merge_depth _ _ _ Em) as (c & Hc & Ha & Hb). specialize (Hk c Hc). destruct (IH a) as (a' & Ea & Da); [lia|]. destruct (IH b) as (b' & Eb & Db); [lia|].
      exists (PLoop a' b'). rewrite Ea, Eb. split; auto. cbn. lia.
    + assert (G : forall cs', (forall c, In c cs' -> depth c <= n) -> exists css, map_opt_list (piece f) cs' = Some css /\ forall d, In d (concat css) -> depth d <= n).
      { induction cs' as [|c cs' IHc]; intros H; [exists []; split; auto; intros d []|]. destruct IHc as (css & E & Hd); [intros; apply H; right; auto|]. pose proof (H c (or_introl eq_refl)) as Hc.
        destruct (IH c) as (c' & Ec & Dc); [lia|]. assert (P : exists ds, piece f c = Some ds /\ forall d, In d ds -> depth d <= n).
        { unfold piece. rewrite Ec. destruct c' as [l|ds|a b|ds e]; try (eexists; split; [reflexivity|]; intros d [<-|[]]; lia).
          apply map_opt_depth. intros d Hdd. assert (depth d < depth (PXor ds)). { cbn. enough (depth d <= list_max (map depth ds)) by lia. revert d Hdd. apply depth_kids. auto. }
          destruct (IH d) as (d' & E' & D'); [lia|]. exists d'. split; auto. lia. }
        destruct P as (ds & Ep & Hp). exists (ds :: css). cbn. rewrite Ep, E. split; auto. intros d Hx. apply in_app_iff in Hx as [Hx|Hx]; auto. }
      destruct (G cs Hk) as (css & E & Hd). change (exists t', (match map_opt_list (piece f) cs with Some css => Some (PXor (concat css)) | None => None end) = Some t' /\ depth t' <= S n).
      rewrite E. eexists. split; [reflexivity|]. cbn. apply le_n_S, depth_kids. auto.
  - cbn [depth simplify] in *. destruct (IH d) as (a' & Ea & Da); [lia|]. destruct (IH r) as (b' & Eb & Db); [lia|]. exists (PLoop a' b'). rewrite Ea, Eb. split; auto. cbn. lia.
  - cbn [depth simplify] in *. set (n := list_max (map depth cs)) in *. assert (Hk : forall c, In c cs -> depth c <= n) by (apply depth_kids; auto).
    destruct (map_opt_depth (simplify f) n cs) as (ss & E & Hs).
    { intros c Hc. destruct (IH c) as (c' & Ec & Dc); [specialize (Hk c Hc); lia|]. exists c'. split; auto. specialize (Hk c Hc). lia. }
    rewrite E. eexists. split; [reflexivity|]. unfold flatten. cbn. apply le_n_S, depth_kids. intros d Hd. apply new_child in Hd as (s & Hin & Hc). specialize (Hs s Hin). destruct Hc as [->|Hc]; auto.
    destruct s as [| | |ds r]; try destruct Hc. cbn in Hs. assert (depth d <= list_max (map depth ds)) by (revert d Hc; apply depth_kids; auto). lia.
Qed.

(** * Choices *)
Lemma forall2_in_r {A B} (R : A -> B -> Prop) l l' b : Forall2 R l l' -> In b l' -> exists a, In a l /\ R a b.
Proof. induction 1 as [|a c l l' H HF IH]; [intros []|]. intros [->|Hb]; [exists a; split; [left|]; auto|]. destruct (IH Hb) as (x & Hx & Hr). exists x. split; [right|]; auto. Qed.
Lemma merge_child (P : powl -> Prop) cs a b : (forall d r, P (PLoop d r) -> P d /\ P r) -> merge cs = Some (a, b) -> Forall P cs -> P a /\ P b.
Proof.
  intros HP. assert (G : forall c0 c1, merge_with c0 c1 = Some (a, b) -> P c1 -> P a /\ P b).
  { intros c0 c1 H Hw. destruct c1 as [|?|d r|]; try discriminate. cbn in H. destruct (is_tau c0); [|discriminate]. apply HP in Hw. destruct (is_tau d); [injection H as <- <-; tauto|].
    destruct (is_tau r); [injection H as <- <-; tauto|discriminate]. }
  unfold merge. destruct cs as [|c0 [|c1 [|? ?]]]; try discriminate. intros H HF. inversion HF as [|? ? H0 HF1]; subst. inversion HF1; subst.
  destruct (merge_with c0 c1) as [[x y]|] eqn:E; [injection H as <- <-|]; eauto.
Qed.
Theorem simplify_real f : forall t t', real_choices t -> simplify f t = Some t' -> real_choices t'.
Proof.
  induction f as [|f IH]; intros t t' Hr E; [discriminate|]. destruct t as [l|cs|d r|cs e]; cbn in E.
  - injection E as <-. auto.
  - inversion Hr as [|? Hl HF| |]; subst. destruct (merge cs) as [[a b]|] eqn:Em.
    + destruct (simplify f a) as [a'|] eqn:Ea; [|discriminate]. destruct (simplify f b) as [b'|] eqn:Eb; [|discriminate]. injection E as <-.
      destruct (merge_child real_choices cs a b) as [Ha Hb]; auto; [intros ? ? H; inversion H; auto|]. constructor; eauto.
    + change (match map_opt_list (piece f) cs with Some css => Some (PXor (concat css)) | None => None end = Some t') in E.
      destruct (map_opt_list (piece f) cs) as [css|] eqn:Ec; [|discriminate]. injection E as <-. apply map_opt_forall2 in Ec. clear Em Hr.
      assert (G : length cs <= length (concat css) /\ Forall real_choices (concat css)).
      { clear Hl. induction Ec as [|c ds cs css Hc _ IHf]; [split; [auto|constructor]|]. inversion HF as [|? ? Rc RF]; subst. destruct (IHf RF) as (A & B). cbn. rewrite app_length.
        enough (1 <= length ds /\ Forall real_choices ds) by (split; [lia|apply Forall_app; tauto]).
        unfold piece in Hc. destruct (simplify f c) as [s|] eqn:Es; [|discriminate]. pose proof (IH c s Rc Es) as Rs.
        destruct s as [l|xs|a b|xs e]; try (injection Hc as <-; split; [cbn; lia|auto]). inversion Rs as [|? Rl RF'| |]; subst. apply map_opt_forall2 in Hc. split; [pose proof (flen _ _ _ Hc); lia|].
        apply Forall_forall. intros d Hd. destruct (forall2_in_r _ _ _ _ Hc Hd) as (x & Hx & Ex). rewrite Forall_forall in RF'. eauto. }
      constructor; [lia|tauto].
  - inversion Hr; subst. destruct (simplify f d) as [a'|] eqn:Ea; [|discriminate]. destruct (simplify f r) as [b'|] eqn:Eb; [|discriminate]. injection E as <-. constructor; eauto.
  - inversion Hr as [| | |? ? HF]; subst. destruct (map_opt_list (simplify f) cs) as [ss|] eqn:Es; [|discriminate]. injection E as <-. apply map_opt_forall2 in Es.
    unfold flatten. cbn zeta. constructor. apply Forall_forall. intros d Hd. apply new_child in Hd as (s & Hin & Hc). destruct (forall2_in_r _ _ _ _ Es Hin) as (x & Hx & Ex).
    rewrite Forall_forall in HF. pose proof (IH x s (HF x Hx) Ex) as Rs. destruct Hc as [->|Hc]; auto. destruct s as [| | |ds r]; try destruct Hc. inversion Rs as [| | |? ? RF]; subst. rewrite Forall_forall in RF. auto.
Qed.
(** a choice comes from a choice only *)
Lemma simplify_choice f t t' : simplify f t = Some t' -> is_choice t' -> is_choice t.
Proof.
  destruct f as [|f]; [discriminate|]. destruct t as [l|cs|d r|cs e]; cbn; auto.
  - intros [= <-]. auto.
  - destruct (simplify f d), (simplify f r); try discriminate. intros [= <-] [].
  - destruct (map_opt_list _ cs); try discriminate. intros [= <-] [].
Qed.
Theorem simplify_flat f : forall t t', simplify f t = Some t' -> flat_choices t'.
Proof.
  induction f as [|f IH]; intros t t' E; [discriminate|]. destruct t as [l|cs|d r|cs e]; cbn in E.
  - injection E as <-. constructor.
  - destruct (merge cs) as [[a b]|] eqn:Em.
    + destruct (simplify f a) as [a'|] eqn:Ea; [|discriminate]. destruct (simplify f b) as [b'|] eqn:Eb; [|discriminate]. injection E as <-. constructor; eauto.
    + change (match map_opt_list (piece f) cs with Some css => Some (PXor (concat css)) | None => None end = Some t') in E.
      destruct (map_opt_list (piece f) cs) as [css|] eqn:Ec; [|discriminate]. injection E as <-. apply map_opt_forall2 in Ec. clear Em.
      assert (G : forall d, In d (concat css) -> ~ is_choice d /\ flat_choices d).
      { induction Ec as [|c ds cs css Hc _ IHf]; [intros d []|]. intros d Hd. cbn in Hd. apply in_app_iff in Hd as [Hd|Hd]; auto.
        unfold piece in Hc. destruct (simplify f c) as [s|] eqn:Es; [|discriminate]. pose proof (IH c s Es) as Rs.
        destruct s as [l|xs|a b|xs e]; try (injection Hc as <-; destruct Hd as [<-|[]]; split; auto). inversion Rs as [|? Rl RF'| |]; subst. apply map_opt_forall2 in Hc.
        destruct (forall2_in_r _ _ _ _ Hc Hd) as (x & Hx & Ex). split; [|eauto]. intros Hch. apply (simplify_choice _ _ _ Ex) in Hch. rewrite Forall_forall in Rl. apply (Rl x); auto. }
      constructor; apply Forall_forall; intros d Hd; apply G; auto.
  - destruct (simplify f d) as [a'|] eqn:Ea; [|discriminate]. destruct (simplify f r) as [b'|] eqn:Eb; [|discriminate]. injection E as <-. constructor; eauto.
  - destruct (map_opt_list (simplify f) cs) as [ss|] eqn:Es; [|discriminate]. injection E as <-. apply map_opt_forall2 in Es.
    unfold flatten. cbn zeta. constructor. apply Forall_forall. intros d Hd. apply new_child in Hd as (s & Hin & Hc). destruct (forall2_in_r _ _ _ _ Es Hin) as (x & Hx & Ex).
    pose proof (IH x s Ex) as Rs. destruct Hc as [->|Hc]; auto. destruct s as [| | |ds r]; try destruct Hc. inversion Rs as [| | |? ? RF]; subst. rewrite Forall_forall in RF. auto.
Qed.
