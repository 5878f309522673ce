(** Process trees as POWL models. *)
From Coq Require Import List Arith Lia Bool ZArith Permutation Relation_Operators.
Import ListNotations.
From Verif Require Import Model_Tree Model_Rel Spec_Rel Proofs_Rel Spec_Tree Model_Powl Spec_Powl Proofs_Shuffle Proofs_Po Proofs_Powl1 Proofs_Powl2 Proofs_Powl3.

Lemma events_cons k x tw : events_of k (x :: tw) = if Nat.eqb (fst x) k then snd x :: events_of k tw else events_of k tw.
Proof. unfold events_of. cbn. destruct (Nat.eqb (fst x) k); auto. Qed.
Lemma events_app k u v : events_of k (u ++ v) = events_of k u ++ events_of k v.
Proof. apply (proj_app k u v). Qed.

(** * Concurrency *)
Lemma weave_shuffle tw : forall ws, (forall x, In x tw -> fst x < length ws) -> (forall k, k < length ws -> events_of k tw = nth k ws []) -> shuffle ws (map snd tw).
Proof.
  induction tw as [|[k a] tw IH]; intros ws Ht He.
  - apply sh_nil. intros w Hw. apply (In_nth ws w []) in Hw as (k & Hk & <-). rewrite <- (He k Hk). reflexivity.
  - assert (Hk : k < length ws) by (apply (Ht (k, a)); left; auto).
    pose proof (He k Hk) as Ek. rewrite events_cons in Ek. cbn in Ek. rewrite Nat.eqb_refl in Ek.
    destruct (nth_split ws [] Hk) as (l1 & l2 & Ews & Hl1). rewrite <- Ek in Ews. cbn [map snd]. rewrite Ews. apply sh_cons. apply IH.
    + intros x Hx. specialize (Ht x (or_intror Hx)). rewrite Ews in Ht. rewrite app_length in *. cbn in *. auto.
    + intros j Hj. assert (Hj' : j < length ws) by (rewrite Ews; rewrite app_length in *; cbn in *; auto). specialize (He j Hj'). rewrite events_cons in He. cbn in He.
      destruct (Nat.eqb_spec k j) as [Ekj|Hne].
      * clear He. rewrite <- Ekj. rewrite app_nth2, Hl1, Nat.sub_diag by lia. reflexivity.
      * rewrite He, Ews. destruct (lt_dec j (length l1)) as [H|H]; [rewrite !app_nth1; auto|]. rewrite !app_nth2 by lia. destruct (j - length l1) as [|m] eqn:Em; [lia|reflexivity].
Qed.
Lemma shuffle_weave ws w : shuffle ws w -> exists tw, map snd tw = w /\ (forall x, In x tw -> fst x < length ws) /\ (forall k, k < length ws -> events_of k tw = nth k ws []).
Proof.
  induction 1 as [ws H|l1 a w l2 u _ (tw & E1 & E2 & E3)].
  - exists []. split; auto. split; [intros x []|]. intros k Hk. cbn. symmetry. apply H, nth_In, Hk.
  - exists ((length l1, a) :: tw). split; [cbn; rewrite E1; auto|]. split.
    + intros x [<-|Hx]; cbn; rewrite app_length; cbn; [lia|]. specialize (E2 x Hx). rewrite app_length in E2. cbn in E2. auto.
    + intros k Hk. rewrite events_cons. cbn. rewrite E3 by (rewrite app_length in *; cbn in *; auto). destruct (Nat.eqb_spec (length l1) k) as [Ekj|Hne].
      * rewrite <- Ekj. rewrite !app_nth2, Nat.sub_diag by lia. reflexivity.
      * destruct (lt_dec k (length l1)) as [H|H]; [rewrite !app_nth1; auto|]. rewrite !app_nth2 by lia. destruct (k - length l1) as [|m] eqn:Em; [lia|reflexivity].
Qed.
Lemma no_edges_closure n i j : ~ closure n no_edges i j.
Proof. intros H. induction H as [x y (_ & _ & H)|]; [discriminate|auto]. Qed.
Lemma plang_par ps w : plang (PPo ps no_edges) w <-> exists ws, Forall2 plang ps ws /\ shuffle ws w.
Proof.
  split.
  - intros H. inversion H as [| | | | |? ? ws tw HF (H1 & H2 & _)]; subst. exists ws. split; auto. apply weave_shuffle; auto.
  - intros (ws & HF & Hs). destruct (shuffle_weave _ _ Hs) as (tw & <- & H1 & H2). apply (PL_po _ _ ws); auto. split; auto. split; auto.
    clear. induction tw as [|x tw IH]; constructor; auto. apply Forall_forall. intros y _. apply no_edges_closure.
Qed.

(** * Sequence *)
Lemma consecutive_closure n i j : closure n consecutive i j <-> i < j < n.
Proof.
  split.
  - intros H. induction H as [x y (H1 & H2 & H)|x y z _ IH1 _ IH2]; [apply Nat.eqb_eq in H; lia|lia].
  - intros [H1 H2]. replace j with (i + S (j - i - 1)) in * by lia. revert H2. generalize (j - i - 1) as d. clear. induction d as [|d IH]; intros H.
    + apply t_step. repeat split; try lia. apply Nat.eqb_eq. lia.
    + eapply t_trans; [apply IH; lia|]. apply t_step. repeat split; try lia. apply Nat.eqb_eq. lia.
Qed.
Definition tagged (k0 : nat) (ws : list (list nat)) : list (nat * nat) := concat (map (fun kw => map (pair (fst kw)) (snd kw)) (combine (seq k0 (length ws)) ws)).
Lemma tagged_cons k0 w ws : tagged k0 (w :: ws) = map (pair k0) w ++ tagged (S k0) ws.
Proof. reflexivity. Qed.
Lemma tagged_snd ws : forall k0, map snd (tagged k0 ws) = concat ws.
Proof. induction ws as [|w ws IH]; intros k0; [reflexivity|]. rewrite tagged_cons, map_app, IH, map_map. cbn. rewrite map_id. reflexivity. Qed.
Lemma tagged_range ws : forall k0 x, In x (tagged k0 ws) -> k0 <= fst x < k0 + length ws.
Proof.
  induction ws as [|w ws IH]; intros k0 x Hx; [destruct Hx|]. rewrite tagged_cons in Hx. apply in_app_iff in Hx as [Hx|Hx].
  - apply in_map_iff in Hx as (a & <- & _). cbn. lia.
  - apply IH in Hx. cbn. lia.
Qed.
Lemma events_none k tw : (forall x, In x tw -> fst x <> k) -> events_of k tw = [].
Proof. intros H. unfold events_of. rewrite filter_none; auto. intros x Hx. apply Nat.eqb_neq, H, Hx. Qed.
Lemma tagged_events ws : forall k0 k, k < length ws -> events_of (k0 + k) (tagged k0 ws) = nth k ws [].
Proof.
  induction ws as [|w ws IH]; intros k0 k Hk; cbn in Hk; [lia|]. rewrite tagged_cons, events_app. destruct k as [|k].
  - rewrite Nat.add_0_r. rewrite (proj_tag k0 w : events_of k0 _ = w). rewrite events_none; [apply app_nil_r|]. intros x Hx. apply tagged_range in Hx. lia.
  - rewrite (events_none _ (map (pair k0) w)); [|intros x Hx; apply in_map_iff in Hx as (a & <- & _); cbn; lia]. cbn [nth app].
    rewrite Nat.add_succ_r. rewrite <- Nat.add_succ_l. apply IH. lia.
Qed.
Lemma tagged_sorted ws : forall k0, ForallOrdPairs (fun x y => fst x <= fst y) (tagged k0 ws).
Proof.
  induction ws as [|w ws IH]; intros k0; [constructor|]. rewrite tagged_cons. apply fop_app; auto.
  - induction w as [|a w IHw]; cbn; constructor; auto. apply Forall_forall. intros y Hy. apply in_map_iff in Hy as (b & <- & _). cbn. auto.
  - intros x y Hx Hy. apply in_map_iff in Hx as (b & <- & _). apply tagged_range in Hy. cbn. lia.
Qed.
Lemma sorted_tagged ws : forall k0 tw, (forall x, In x tw -> k0 <= fst x < k0 + length ws) -> ForallOrdPairs (fun x y => fst x <= fst y) tw ->
  (forall k, k < length ws -> events_of (k0 + k) tw = nth k ws []) -> tw = tagged k0 ws.
Proof.
  induction ws as [|w ws IH]; intros k0 tw Hr Ho He.
  - destruct tw as [|x tw]; [reflexivity|]. specialize (Hr x (or_introl eq_refl)). cbn in Hr. lia.
  - rewrite tagged_cons. assert (Hr' : forall x, In x tw -> k0 <= fst x < k0 + S (length ws)) by (intros x Hx; apply (Hr x Hx)). clear Hr. rename Hr' into Hr. revert w He. induction tw as [|[k a] tw IHt]; intros w He.
    + pose proof (He 0 ltac:(cbn; lia)) as E0. cbn in E0. subst w. cbn. apply IH; [intros x []|constructor|].
      intros k Hk. specialize (He (S k) ltac:(cbn; lia)). cbn in *. auto.
    + destruct (Nat.eq_dec k k0) as [->|Hne].
      * pose proof (He 0 ltac:(cbn; lia)) as E0. rewrite events_cons in E0. cbn in E0. rewrite Nat.add_0_r, Nat.eqb_refl in E0. subst w. cbn [map app]. f_equal.
        inversion Ho; subst. apply IHt; auto.
        -- intros x Hx. apply (Hr x). right; auto.
        -- intros k Hk. specialize (He k Hk). rewrite events_cons in He. cbn [fst snd] in He. destruct k as [|k].
           ++ rewrite Nat.add_0_r. reflexivity.
           ++ destruct (Nat.eqb_spec k0 (k0 + S k)) as [E|E]; [lia|]. rewrite He. reflexivity.
      * assert (Hgt : forall x, In x ((k, a) :: tw) -> S k0 <= fst x).
        { assert (Hk : k0 < k) by (specialize (Hr (k, a) (or_introl eq_refl)); cbn in Hr; lia).
          inversion Ho as [|? ? Hx _]; subst. rewrite Forall_forall in Hx. intros x [<-|Hx0]; cbn; [lia|]. specialize (Hx x Hx0). cbn in Hx. lia. }
        pose proof (He 0 ltac:(cbn; lia)) as E0. rewrite Nat.add_0_r, events_none in E0 by (intros x Hx; apply Hgt in Hx; lia). cbn in E0. subst w. cbn [map app].
        apply IH; auto.
        -- intros x Hx. specialize (Hr x Hx). specialize (Hgt x Hx). cbn in Hr. lia.
        -- intros j Hj. specialize (He (S j) ltac:(cbn; lia)). rewrite Nat.add_succ_r in He. exact He.
Qed.
Lemma plang_seq ps w : plang (PPo ps consecutive) w <-> exists ws, Forall2 plang ps ws /\ w = concat ws.
Proof.
  split.
  - intros H. inversion H as [| | | | |? ? ws tw HF (H1 & H2 & H3)]; subst. exists ws. split; auto. rewrite (sorted_tagged ws 0 tw), tagged_snd; auto.
    + intros x Hx. specialize (H1 x Hx). lia.
    + revert H1. clear H H2. induction H3 as [|x l Hx Hl IH]; intros H1; constructor.
      * rewrite Forall_forall in *. intros y Hy. specialize (Hx y Hy). rewrite consecutive_closure in Hx. pose proof (H1 x (or_introl eq_refl)). lia.
      * apply IH. intros y Hy. apply H1. right; auto.
  - intros (ws & HF & ->). rewrite <- (tagged_snd ws 0). apply (PL_po _ _ ws); auto. split; [|split].
    + intros x Hx. apply tagged_range in Hx. lia.
    + intros k Hk. apply (tagged_events ws 0 k Hk).
    + pose proof (tagged_sorted ws 0) as H. induction H as [|x l Hx Hl IH]; constructor; auto. rewrite Forall_forall in *. intros y Hy. specialize (Hx y Hy). rewrite consecutive_closure. lia.
Qed.

(** * Trees *)
Lemma map_opt_forall2 {A B} (f : A -> option B) l l' : map_opt_list f l = Some l' -> Forall2 (fun a b => f a = Some b) l l'.
Proof.
  revert l'. induction l as [|a l IH]; intros l' E; cbn in E; [inversion E; constructor|].
  destruct (f a) eqn:Ea; [|discriminate]. destruct (map_opt_list f l) eqn:El; [|discriminate]. inversion E; subst. constructor; auto.
Qed.
Definition no_int (t : tree nat) : Prop := match t with Node Interleaving _ => False | _ => True end.
Definition agree (t : tree nat) (p : powl) : Prop := forall w, plang p w <-> lang t w.
Lemma agree_words cs ps ws : Forall2 agree cs ps -> (Forall2 plang ps ws <-> Forall2 lang cs ws).
Proof.
  intros H. revert ws. induction H as [|c p cs ps Hc H IH]; intros ws.
  - split; intros G; inversion G; constructor.
  - split; intros G; inversion G; subst; constructor; try (apply Hc; auto); apply IH; auto.
Qed.
Lemma iterate_ext (D D' R R' : list nat -> Prop) : (forall w, D w <-> D' w) -> (forall w, R w <-> R' w) -> forall w, iterate D R w <-> iterate D' R' w.
Proof. intros H1 H2 w. split; apply iterate_mono; intros; try apply H1; try apply H2; auto. Qed.
Theorem to_powl_agree t : forall p, everywhere no_int t -> tree_to_powl t = Some p -> agree t p.
Proof.
  induction t as [l|o cs IH] using tree_ind2; intros p Hn E; cbn [tree_to_powl] in E.
  - inversion E; subst. intros w. rewrite plang_leaf. destruct l; [rewrite lang_act|rewrite lang_tau]; tauto.
  - destruct (map_opt_list tree_to_powl cs) as [ps|] eqn:Em; [|discriminate]. apply map_opt_forall2 in Em.
    assert (Hno : no_int (Node o cs) /\ Forall (everywhere no_int) cs) by (inversion Hn; auto). destruct Hno as [Hno Hcs].
    assert (HA : Forall2 agree cs ps).
    { clear E Hno Hn. induction Em as [|c p0 cs ps Hc Em IH']; constructor; inversion IH; inversion Hcs; subst; auto. }
    destruct o.
    + inversion E; subst. intros w. rewrite plang_seq, lang_seq. split; intros (ws & HF & ->); exists ws; split; auto; eapply agree_words; eauto.
    + destruct (length ps <? 2); [discriminate|]. inversion E; subst. intros w. rewrite plang_xor, lang_xor. clear - HA. split.
      * intros (q & Hq & Hw). induction HA as [|c p cs ps Hc HA IH]; [destruct Hq|]. destruct Hq as [<-|Hq]; [exists c; split; [left; auto|apply Hc; auto]|].
        destruct (IH Hq) as (d & Hd & Hw'). exists d. split; [right; auto|auto].
      * intros (q & Hq & Hw). induction HA as [|c p cs ps Hc HA IH]; [destruct Hq|]. destruct Hq as [<-|Hq]; [exists p; split; [left; auto|apply Hc; auto]|].
        destruct (IH Hq) as (d & Hd & Hw'). exists d. split; [right; auto|auto].
    + inversion E; subst. intros w. rewrite plang_par, lang_par. split; intros (ws & HF & Hs); exists ws; split; auto; eapply agree_words; eauto.
    + destruct ps as [|d [|r [|? ?]]]; try discriminate. inversion E; subst. inversion HA as [|c ? cs0 ? Hc HA1]; subst. inversion HA1 as [|c1 ? ? ? Hc1 HA2]; subst. inversion HA2; subst.
      intros w. rewrite plang_loop, lang_loop. apply iterate_ext; auto. intros v. rewrite (Hc1 v). split; [intros H; exists c1; split; [left; auto|auto]|intros (x & [<-|[]] & H); auto].
    + discriminate.
    + destruct Hno.
Qed.
Lemma acyclic_consecutive n : acyclic n consecutive.
Proof. intros i H. apply consecutive_closure in H. lia. Qed.
Lemma acyclic_no_edges n : acyclic n no_edges.
Proof. intros i. apply no_edges_closure. Qed.
Theorem to_powl_wf t : forall p, wf_tree t -> tree_to_powl t = Some p -> wf_powl p.
Proof.
  induction t as [l|o cs IH] using tree_ind2; intros p Hn E; cbn [tree_to_powl] in E.
  - inversion E; subst. constructor.
  - destruct (map_opt_list tree_to_powl cs) as [ps|] eqn:Em; [|discriminate]. apply map_opt_forall2 in Em.
    apply wf_node_inv in Hn as [Hsh Hcs]. pose proof (shape_ok_nonempty _ _ Hsh) as Hne.
    assert (Hpn : ps <> []) by (intros ->; inversion Em; subst; congruence).
    assert (HA : Forall wf_powl ps).
    { clear E Hsh Hne Hpn. induction Em as [|c p0 cs ps Hc Em IH']; constructor; inversion IH; inversion Hcs; subst; auto. }
    destruct o; try discriminate.
    + inversion E; subst. constructor; auto. apply acyclic_consecutive.
    + destruct (length ps <? 2); [discriminate|]. inversion E; subst. constructor; auto.
    + inversion E; subst. constructor; auto. apply acyclic_no_edges.
    + destruct ps as [|d [|r [|? ?]]]; try discriminate. inversion E; subst. inversion HA as [|? ? ? HA1]; subst. inversion HA1; subst. constructor; auto.
    + inversion E; subst. constructor; auto. apply acyclic_no_edges.
Qed.
