(** The simplified model has the same language. *)
From Coq Require Import List Arith Lia Bool Relation_Operators.
Import ListNotations.
From Verif Require Import Model_Tree Spec_Tree Proofs_Shuffle Model_Rel Spec_Rel Proofs_Rel Model_Powl Spec_Powl Proofs_Po Proofs_Powl1 Proofs_Powl2 Proofs_Powl3 Proofs_Powl4 Model_PowlSimplify Proofs_PowlS1 Proofs_PowlS2.

Definition same (p q : powl) : Prop := forall w, plang p w <-> plang q w.
Lemma same_xor cs ds : Forall2 same cs ds -> same (PXor cs) (PXor ds).
Proof.
  intros HF w. rewrite !plang_xor. split.
  - intros (c & Hc & Hw). induction HF as [|a b l l' Hab HF IH]; [destruct Hc|]. destruct Hc as [->|Hc]; [exists b; split; [left; auto|apply Hab; auto]|].
    destruct (IH Hc) as (d & Hd & Hl). exists d. split; [right; auto|auto].
  - intros (c & Hc & Hw). induction HF as [|a b l l' Hab HF IH]; [destruct Hc|]. destruct Hc as [->|Hc]; [exists a; split; [left; auto|apply Hab; auto]|].
    destruct (IH Hc) as (d & Hd & Hl). exists d. split; [right; auto|auto].
Qed.
Lemma same_loop d r d' r' : same d d' -> same r r' -> same (PLoop d r) (PLoop d' r').
Proof. intros H1 H2 w. rewrite !plang_loop. apply iterate_ext; auto. Qed.
Lemma same_po cs ds e : Forall2 same cs ds -> same (PPo cs e) (PPo ds e).
Proof.
  intros HF w. pose proof (flen _ _ _ HF) as Hl. rewrite !po_words, <- Hl.
  assert (Hk : forall k, k < length cs -> same (nth k cs (PLeaf None)) (nth k ds (PLeaf None))).
  { clear Hl. induction HF as [|a b l l' Hab HF IH]; intros k Hk; cbn in *; [lia|]. destruct k; auto. apply IH. lia. }
  split; intros (tw & E & H1 & H2 & H3); exists tw; split; auto; split; auto; split; auto; intros k Hk'; apply Hk; auto.
Qed.
Lemma same_one s : same s (PPo [s] no_edges).
Proof.
  intros w. rewrite plang_par. split.
  - intros H. exists [w]. split; [repeat constructor; auto|]. apply shuffle_one. auto.
  - intros (ws & HF & Hs). inversion HF as [|? v ? ? Hv Hn]; subst. inversion Hn; subst. apply shuffle_one in Hs. subst. auto.
Qed.

(** * Groups *)
Definition child_of (d s : powl) : Prop := d = s \/ match s with PPo ds _ => In d ds | _ => False end.
Record group_ok (conn : bool) (s : powl) (g : group) : Prop := {
  k_same : same s (gl g);
  k_some : g_ds g <> [];
  k_kept : g_sub g = false -> length (g_ds g) = 1 /\ g_r g = no_edges;
  k_acyclic : acyclic (length (g_ds g)) (g_r g);
  k_wf : Forall wf_powl (g_ds g);
  k_child : forall d, In d (g_ds g) -> child_of d s;
  k_end : conn = true -> g_end g < length (g_ds g) /\ forall x, x < length (g_ds g) -> x = g_end g \/ closure (length (g_ds g)) (g_r g) x (g_end g);
  k_start : conn = true -> g_start g < length (g_ds g) /\ forall x, x < length (g_ds g) -> x = g_start g \/ closure (length (g_ds g)) (g_r g) (g_start g) x }.
Lemma kept_ok conn s : wf_powl s -> group_ok conn s (kept s).
Proof.
  intros Hw. constructor; cbn [kept g_ds g_r g_sub g_start g_end gl length].
  - apply same_one.
  - discriminate.
  - auto.
  - intros i H. apply no_edges_closure in H. auto.
  - auto.
  - intros d [<-|[]]. left; auto.
  - intros _. split; [lia|]. intros x Hx. left. lia.
  - intros _. split; [lia|]. intros x Hx. left. lia.
Qed.
Lemma group_of_ok conn s : wf_powl s -> group_ok conn s (group_of conn s).
Proof.
  intros Hw. destruct s as [l|cs|d r|ds r]; try (apply kept_ok; auto). pose proof Hw as Hw'. inversion Hw' as [| | |? ? Hne Ha HF]; subst. unfold group_of. destruct conn.
  - destruct (get_start_nodes (length ds) r) as [|x [|? ?]] eqn:Es; try (apply kept_ok; auto).
    destruct (get_end_nodes (length ds) r) as [|y [|? ?]] eqn:Ee; try (apply kept_ok; auto).
    constructor; cbn [g_ds g_r g_sub g_start g_end gl]; [intros w; tauto|auto|discriminate|auto|auto|intros d Hd; right; auto| |]; intros _; [apply unique_end|apply unique_start]; auto.
  - constructor; cbn [g_ds g_r g_sub g_start g_end gl]; [intros w; tauto|auto|discriminate|auto|auto|intros d Hd; right; auto|discriminate|discriminate].
Qed.
Lemma groups_length e ss : length (groups (length ss) e ss) = length ss.
Proof. unfold groups. rewrite map_length, combine_length, seq_length. lia. Qed.
Lemma groups_nth e ss i : i < length ss -> grp (groups (length ss) e ss) i = group_of (connected (length ss) e i) (nth i ss (PLeaf None)).
Proof.
  intros Hi. unfold grp, groups. set (F := fun js : nat * powl => group_of (connected (length ss) e (fst js)) (snd js)).
  rewrite (nth_indep _ g_dummy (F (0, PLeaf None))) by (rewrite map_length, combine_length, seq_length; lia).
  rewrite map_nth, combine_nth by apply seq_length. rewrite seq_nth by auto. reflexivity.
Qed.
Lemma connected_true n e i j : on n e i j -> connected n e i = true /\ connected n e j = true.
Proof.
  intros (Hi & Hj & H). unfold connected. split; apply existsb_exists; [exists j|exists i]; (split; [apply in_seq; lia|]); rewrite H; auto. apply orb_true_r.
Qed.
Section Flat.
Variables (ss : list powl) (e : rel).
Hypothesis Hwf : wf_powl (PPo ss e).
Notation gs := (groups (length ss) e ss).
Lemma all_groups i : i < length ss -> group_ok (connected (length ss) e i) (nth i ss (PLeaf None)) (grp gs i).
Proof.
  intros Hi. rewrite groups_nth by auto. apply group_of_ok. inversion Hwf as [| | |? ? _ _ HF]; subst. rewrite Forall_forall in HF. apply HF, nth_In, Hi.
Qed.
Lemma flat_groups_ok : groups_ok gs e.
Proof.
  pose proof (groups_length e ss) as Hl. constructor; rewrite ?Hl.
  - inversion Hwf; auto.
  - intros i Hi. apply (k_some _ _ _ (all_groups i Hi)).
  - intros i Hi. apply (k_kept _ _ _ (all_groups i Hi)).
  - intros i Hi. apply (k_acyclic _ _ _ (all_groups i Hi)).
  - intros i j H. pose proof (connected_true _ _ _ _ H) as [Hc _]. destruct H as (Hi & _). apply (k_end _ _ _ (all_groups i Hi) Hc).
  - intros i j H. pose proof (connected_true _ _ _ _ H) as [_ Hc]. destruct H as (_ & Hj & _). apply (k_start _ _ _ (all_groups j Hj) Hc).
Qed.
Lemma flat_same : same (flatten ss e) (PPo ss e).
Proof.
  intros w. unfold flatten. cbn zeta. rewrite (flat_lang _ _ flat_groups_ok). symmetry. revert w. change (same (PPo ss e) (PPo (map gl gs) e)). apply same_po.
  assert (G : forall l l' : list powl, length l = length l' -> (forall i, i < length l -> same (nth i l (PLeaf None)) (nth i l' (PLeaf None))) -> Forall2 same l l').
  { induction l as [|a l IH]; intros [|b l'] El H; try discriminate; constructor; [apply (H 0); cbn; lia|]. apply IH; [cbn in El; lia|]. intros i Hi. apply (H (S i)). cbn. lia. }
  apply G; [rewrite map_length, groups_length; auto|]. intros i Hi. rewrite (nth_indep (map gl gs) (PLeaf None) (gl g_dummy)) by (rewrite map_length, groups_length; auto). rewrite map_nth.
  apply (k_same _ _ _ (all_groups i Hi)).
Qed.
Lemma new_nodes_in d : In d (new_nodes gs) -> wf_powl d /\ exists s, In s ss /\ child_of d s.
Proof.
  unfold new_nodes. rewrite in_map_iff. intros (k & <- & Hk). apply (keys_in gs e k flat_groups_ok) in Hk as [Hi Hx]. rewrite groups_length in Hi. fold (grp gs (fst k)) in *.
  pose proof (nth_In _ (PLeaf None) Hx) as Hd. pose proof (all_groups (fst k) Hi) as G. split.
  - pose proof (k_wf _ _ _ G) as F. rewrite Forall_forall in F. apply F. exact Hd.
  - exists (nth (fst k) ss (PLeaf None)). split; [apply nth_In; auto|]. apply (k_child _ _ _ G). exact Hd.
Qed.
Lemma flat_wf : wf_powl (flatten ss e).
Proof.
  unfold flatten. cbn zeta. constructor.
  - inversion Hwf as [| | |? ? Hne _ _]; subst. intros H. apply map_eq_nil in H.
    assert (Hk : In (0, 0) (keys gs)); [|rewrite H in Hk; destruct Hk]. apply (keys_in gs e _ flat_groups_ok). assert (Hl : 0 < length ss) by (destruct ss; [congruence|cbn; lia]).
    split; [cbn; rewrite groups_length; auto|]. cbn [fst snd]. pose proof (k_some _ _ _ (all_groups 0 Hl)) as Hs. unfold grp in Hs. destruct (g_ds _); [congruence|cbn; lia].
  - unfold new_nodes. rewrite map_length. apply new_acyclic. apply flat_groups_ok.
  - apply Forall_forall. intros d Hd. apply new_nodes_in in Hd. tauto.
Qed.
End Flat.

(** * Choices *)
Lemma iterate_tau_redo (R : list nat -> Prop) : iterate (fun w => w = []) R [].
Proof. apply it_exit. auto. Qed.
Lemma tau_lang p w : is_tau p = true -> (plang p w <-> w = []).
Proof. destruct p as [[a|]| | |]; try discriminate. intros _. apply plang_leaf. Qed.
(** the iterations of a loop with a silent redo part, and with a silent do part *)
Inductive reps (D : list nat -> Prop) : list nat -> Prop :=
| reps_none : reps D []
| reps_more w v : D w -> reps D v -> reps D (w ++ v).
Lemma loop_tau_do (t d : powl) w : is_tau t = true -> (plang (PLoop t d) w <-> reps (plang d) w).
Proof.
  intros Ht. rewrite plang_loop. split.
  - induction 1 as [w Hw|w v w' Hw Hv _ IH]; apply tau_lang in Hw; auto; subst; [constructor|]. cbn. constructor; auto.
  - induction 1 as [|u v Hu _ IH]; [apply it_exit; apply tau_lang; auto|]. apply (it_redo _ _ [] u v); auto. apply tau_lang; auto.
Qed.
Lemma loop_tau_redo (d t : powl) w : is_tau t = true -> (plang (PLoop d t) w \/ w = [] <-> reps (plang d) w).
Proof.
  intros Ht. rewrite plang_loop. split.
  - intros [H| ->]; [|constructor]. induction H as [w Hw|w v w' Hw Hv _ IH].
    + rewrite <- (app_nil_r w). constructor; auto. constructor.
    + apply tau_lang in Hv; auto. subst. cbn. constructor; auto.
  - induction 1 as [|u v Hu _ IH]; [right; auto|]. left. destruct IH as [IH| ->].
    + apply (it_redo _ _ u [] v); auto. apply tau_lang; auto.
    + rewrite app_nil_r. apply it_exit. auto.
Qed.
Lemma merge_with_same c0 c1 a b : merge_with c0 c1 = Some (a, b) -> same (PXor [c0; c1]) (PLoop a b).
Proof.
  destruct c1 as [|?|d r|]; try discriminate. cbn. destruct (is_tau c0) eqn:E0; [|discriminate]. intros H w. rewrite plang_xor.
  assert (E : (exists c, In c [c0; PLoop d r] /\ plang c w) <-> plang (PLoop d r) w \/ w = []).
  { rewrite <- (tau_lang c0 w E0). split; [intros (c & [<-|[<-|[]]] & Hw); auto|]. intros [H'|H']; [exists (PLoop d r)|exists c0]; cbn; auto. }
  rewrite E. clear E. destruct (is_tau d) eqn:Ed; [injection H as <- <-|].
  - rewrite (loop_tau_do d r w Ed). split; [intros [?| ->]; [auto|constructor]|auto].
  - destruct (is_tau r) eqn:Er; [injection H as <- <-|discriminate]. rewrite (loop_tau_redo d r w Er), (loop_tau_do r d w Er). tauto.
Qed.
Lemma merge_same cs a b : merge cs = Some (a, b) -> same (PXor cs) (PLoop a b).
Proof.
  unfold merge. destruct cs as [|c0 [|c1 [|? ?]]]; try discriminate. destruct (merge_with c0 c1) as [[x y]|] eqn:E; [intros [= <- <-]; apply merge_with_same; auto|].
  intros H w. rewrite <- (merge_with_same _ _ _ _ H w). rewrite !plang_xor. split; intros (c & Hc & Hw); exists c; split; auto; cbn in *; tauto.
Qed.
Lemma merge_wf cs a b : merge cs = Some (a, b) -> Forall wf_powl cs -> wf_powl a /\ wf_powl b.
Proof.
  assert (G : forall c0 c1, merge_with c0 c1 = Some (a, b) -> wf_powl c1 -> wf_powl a /\ wf_powl b).
  { intros c0 c1 H Hw. destruct c1 as [|?|d r|]; try discriminate. cbn in H. destruct (is_tau c0); [|discriminate]. inversion Hw; subst. destruct (is_tau d); [injection H as <- <-; auto|].
    destruct (is_tau r); [injection H as <- <-; auto|discriminate]. }
  unfold merge. destruct cs as [|c0 [|c1 [|? ?]]]; try discriminate. intros H HF. inversion HF as [|? ? H0 HF1]; subst. inversion HF1; subst.
  destruct (merge_with c0 c1) as [[x y]|] eqn:E; [injection H as <- <-|]; eauto.
Qed.

(** * The main theorem *)
Definition piece (f : nat) (c : powl) : option (list powl) :=
  match simplify f c with Some (PXor ds) => map_opt_list (simplify f) ds | Some s => Some [s] | None => None end.
Definition good (t t' : powl) : Prop := wf_powl t' /\ same t t'.
Lemma same_refl t : same t t. Proof. intros w; tauto. Qed.
Lemma same_trans p q r : same p q -> same q r -> same p r.
Proof. intros H1 H2 w. rewrite (H1 w). apply H2. Qed.
Lemma forall2_good f cs ds : (forall t t', wf_powl t -> simplify f t = Some t' -> good t t') -> Forall wf_powl cs -> map_opt_list (simplify f) cs = Some ds ->
  Forall wf_powl ds /\ Forall2 same cs ds.
Proof.
  intros IH HF E. apply map_opt_forall2 in E. induction E as [|c d cs ds Hc _ IHf]; [split; constructor|]. inversion HF; subst. destruct IHf as [A B]; auto.
  destruct (IH c d) as [C D]; auto.
Qed.
Lemma piece_good f c ds : (forall t t', wf_powl t -> simplify f t = Some t' -> good t t') -> wf_powl c -> piece f c = Some ds ->
  ds <> [] /\ Forall wf_powl ds /\ same c (PXor ds).
Proof.
  intros IH Hc E. unfold piece in E. destruct (simplify f c) as [s|] eqn:Es; [|discriminate]. destruct (IH c s Hc Es) as [Hw Hs].
  assert (One : Some [s] = Some ds -> ds <> [] /\ Forall wf_powl ds /\ same c (PXor ds)).
  { intros [= <-]. split; [discriminate|]. split; [auto|]. intros w. rewrite (Hs w), plang_xor. split; [exists s; split; [left; auto|auto]|intros (x & [<-|[]] & ?); auto]. }
  destruct s as [l|cs|d r|cs e]; auto. inversion Hw; subst. destruct (forall2_good f cs ds) as [A B]; auto. split; [|split; auto].
  - intros ->. inversion B; subst. auto.
  - eapply same_trans; [exact Hs|]. apply same_xor. auto.
Qed.
Lemma concat_same cs css : Forall2 (fun c ds => same c (PXor ds)) cs css -> same (PXor cs) (PXor (concat css)).
Proof.
  intros HF w. rewrite !plang_xor. split.
  - intros (c & Hc & Hw). induction HF as [|a b l l' Hab HF IH]; [destruct Hc|]. destruct Hc as [->|Hc].
    + apply Hab, plang_xor in Hw as (d & Hd & Hw). exists d. split; [apply in_app_iff; auto|auto].
    + destruct (IH Hc) as (d & Hd & Hl). exists d. split; [apply in_app_iff; auto|auto].
  - intros (d & Hd & Hw). induction HF as [|a b l l' Hab HF IH]; [destruct Hd|]. cbn in Hd. apply in_app_iff in Hd as [Hd|Hd].
    + exists a. split; [left; auto|]. apply Hab, plang_xor. eauto.
    + destruct (IH Hd) as (c & Hc & Hl). exists c. split; [right; auto|auto].
Qed.
Theorem simplify_good f : forall t t', wf_powl t -> simplify f t = Some t' -> good t t'.
Proof.
  induction f as [|f IH]; intros t t' Hw E; [discriminate|]. destruct t as [l|cs|d r|cs e]; cbn in E.
  - injection E as <-. split; [auto|apply same_refl].
  - inversion Hw as [|? Hne HF| |]; subst. destruct (merge cs) as [[a b]|] eqn:Em.
    + destruct (merge_wf _ _ _ Em HF) as [Ha Hb]. destruct (simplify f a) as [a'|] eqn:Ea; [|discriminate]. destruct (simplify f b) as [b'|] eqn:Eb; [|discriminate]. injection E as <-.
      destruct (IH a a' Ha Ea), (IH b b' Hb Eb). split; [constructor; auto|]. eapply same_trans; [apply merge_same; eauto|]. apply same_loop; auto.
    + change (match map_opt_list (piece f) cs with Some css => Some (PXor (concat css)) | None => None end = Some t') in E.
      destruct (map_opt_list (piece f) cs) as [css|] eqn:Ec; [|discriminate]. injection E as <-. apply map_opt_forall2 in Ec. clear Em Hw.
      assert (G : Forall (Forall wf_powl) css /\ Forall (fun ds => ds <> []) css /\ Forall2 (fun c ds => same c (PXor ds)) cs css).
      { clear Hne. induction Ec as [|c ds cs css Hc _ IHf]; [repeat split; constructor|]. inversion HF; subst. destruct IHf as (A & B & C); auto.
        destruct (piece_good f c ds IH) as (D & F & S); auto. }
      destruct G as (A & B & C). split; [|apply concat_same; auto]. constructor.
      * destruct C as [|c ds cs css H1 _]; [congruence|]. inversion B; subst. cbn. destruct ds; [congruence|discriminate].
      * apply Forall_forall. intros d Hd. apply in_concat in Hd as (ds & Hds & Hd). rewrite Forall_forall in A. specialize (A _ Hds). rewrite Forall_forall in A. auto.
  - inversion Hw; subst. destruct (simplify f d) as [a'|] eqn:Ea; [|discriminate]. destruct (simplify f r) as [b'|] eqn:Eb; [|discriminate]. injection E as <-.
    destruct (IH d a'), (IH r b'); auto. split; [constructor; auto|]. apply same_loop; auto.
  - inversion Hw as [| | |? ? Hne Ha HF]; subst. destruct (map_opt_list (simplify f) cs) as [ss|] eqn:Es; [|discriminate]. injection E as <-.
    destruct (forall2_good f cs ss IH HF Es) as [A B]. pose proof (flen _ _ _ B) as Hl.
    assert (Hws : wf_powl (PPo ss e)). { constructor; auto; [|rewrite <- Hl; auto]. destruct ss, cs; cbn in *; congruence. }
    split; [apply flat_wf; auto|]. eapply same_trans; [apply same_po; exact B|]. intros w. symmetry. apply flat_same; auto.
Qed.
