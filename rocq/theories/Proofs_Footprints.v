(** Footprints of logs and footprints conformance. *)
From Coq Require Import List Arith Lia Bool Permutation ZArith QArith Lqa.
Import ListNotations.
From Verif Require Import Model_Tree Spec_Tree Proofs_Shuffle Proofs_Fold Model_TreeFP Spec_TreeFP Proofs_TreeFP Model_Bottomup Proofs_Bottomup.
From Verif Require Import Model_Dict Proofs_Dict Model_Dfg Proofs_Dfg Model_Footprints.
Local Open Scope nat_scope.

(** ** The footprints of a tree, computed bottom-up *)
Definition rec_fp (u : tree nat) : footprint := match footprints u with Some f => f | None => fp_leaf None end.
Lemma map_opt_all_rec {V} (d : list (tree nat * V)) (rec : tree nat -> V) cs :
  (forall x, In x cs -> find_node d x = Some (rec x)) -> map_opt (find_node d) cs = Some (map rec cs).
Proof.
  induction cs as [|c cs IH]; intros H; [reflexivity|]. cbn. rewrite (H c) by now left. rewrite IH; [reflexivity|]. intros. apply H. now right.
Qed.
Lemma all_some_rec cs : (forall x, In x cs -> exists f, footprints x = Some f) -> all_some (map footprints cs) = Some (map rec_fp cs).
Proof.
  induction cs as [|c cs IH]; intros H; [reflexivity|]. cbn. destruct (H c) as (f & E); [now left|]. unfold rec_fp at 1. rewrite E.
  rewrite IH; [reflexivity|]. intros. apply H. now right.
Qed.
Lemma fp_tree_wf u : fp_tree u -> wf_tree u.
Proof.
  unfold fp_tree, wf_tree. induction u as [l|o cs IH] using tree_ind2; intros H; [constructor; exact I|].
  inversion H as [|? ? Hs Hf]; subst. constructor.
  - destruct o; cbn in *; try tauto; lia.
  - rewrite Forall_forall in *. auto.
Qed.
Lemma node_fp_spec u d : fp_tree u -> (forall x, In x (children u) -> find_node d x = Some (rec_fp x)) -> node_footprints u d = Some (rec_fp u).
Proof.
  intros Hu Hd. destruct u as [l|o cs]; [reflexivity|]. inversion Hu as [|? ? Hs Hf]; subst.
  assert (Hcs : cs <> []) by (destruct o; cbn in Hs; try tauto; destruct cs; [discriminate|discriminate]).
  assert (Hall : all_some (map footprints cs) = Some (map rec_fp cs)).
  { apply all_some_rec. intros x Hx. rewrite Forall_forall in Hf. destruct (footprints_exact x (Hf x Hx)) as (f & E & _). eauto. }
  destruct (footprints_exact (Node o cs) Hu) as (f & Ef & _).
  unfold rec_fp. rewrite Ef. cbn [children] in Hd. unfold node_footprints. destruct cs as [|c cs]; [congruence|].
  rewrite (map_opt_all_rec d rec_fp (c :: cs) Hd). rewrite footprints_node, Hall in Ef. destruct o; exact Ef.
Qed.

(** ** The minimal length of a trace *)
Fixpoint min_len (u : tree nat) : nat :=
  match u with
  | Leaf None => 0
  | Leaf (Some _) => 1
  | Node o cs =>
    let ls := map min_len cs in
    match o with
    | Xor => match ls with [] => 0 | x :: r => fold_left Nat.min r x end
    | Loop => match ls with [] => 0 | x :: _ => x end
    | Interleaving => 0
    | _ => list_sum ls
    end
  end.
Lemma node_min_spec u d : wf_tree u -> (match u with Node Interleaving _ => False | _ => True end) ->
  (forall x, In x (children u) -> find_node d x = Some (min_len x)) -> min_length_node u d = Some (min_len u).
Proof.
  intros Hw Hi Hd. destruct u as [[a|]|o cs]; [reflexivity|reflexivity|]. cbn [children] in Hd.
  pose proof (map_opt_all_rec d min_len cs Hd) as E. destruct cs as [|c cs].
  { inversion Hw as [|? ? Hs _]; subst. destruct o; cbn in Hs; try congruence; lia. }
  unfold min_length_node. rewrite E. destruct o; try contradiction; try reflexivity. apply (Hd c). now left.
Qed.
Lemma fold_min_le r : forall x, fold_left Nat.min r x <= x /\ forall y, In y r -> fold_left Nat.min r x <= y.
Proof.
  induction r as [|z r IH]; intros x; cbn; [split; [lia|intros y []]|]. destruct (IH (Nat.min x z)) as [H1 H2]. split; [lia|].
  intros y [->|Hy]; [lia|auto].
Qed.
Lemma fold_min_in r : forall x, fold_left Nat.min r x = x \/ In (fold_left Nat.min r x) r.
Proof.
  induction r as [|z r IH]; intros x; cbn; [auto|]. destruct (IH (Nat.min x z)) as [E|H]; [|auto].
  destruct (Nat.min_spec x z) as [[_ M]|[_ M]]; rewrite M in *; auto.
Qed.
Lemma shuffle_length {A} (ws : list (list A)) u : shuffle ws u -> length u = list_sum (map (@length A) ws).
Proof.
  induction 1 as [ws H|l1 a w l2 u H IH].
  - induction ws as [|w ws IH]; [reflexivity|]. change (list_sum (map (@length A) (w :: ws))) with (length w + list_sum (map (@length A) ws)).
    rewrite <- IH by (intros; apply H; now right). now rewrite (H w) by now left.
  - rewrite map_app, list_sum_app in *. cbn [map length] in *.
    change (list_sum (length w :: map (@length A) l2)) with (length w + list_sum (map (@length A) l2)) in IH.
    change (list_sum (S (length w) :: map (@length A) l2)) with (S (length w) + list_sum (map (@length A) l2)). cbn [length]. rewrite IH. lia.
Qed.
Lemma shuffle_concat {A} (ws : list (list A)) : shuffle ws (concat ws).
Proof.
  induction ws as [|w ws IH]; [constructor; intros w []|]. cbn. induction w as [|a w IHw]; cbn.
  - clear -IH. remember ws as ws0. clear Heqws0. revert IH. generalize (concat ws0). intros u H. induction H as [v H|l1 a w l2 u H IH].
    + constructor. intros w [<-|Hw]; auto.
    + change ([] :: l1 ++ (a :: w) :: l2) with (([] :: l1) ++ (a :: w) :: l2). constructor. exact IH.
  - apply (sh_cons [] a w ws (w ++ concat ws)). exact IHw.
Qed.
Lemma concat_length_sum {A} (ws : list (list A)) : length (concat ws) = list_sum (map (@length A) ws).
Proof. induction ws as [|w ws IH]; [reflexivity|]. cbn [concat map]. rewrite app_length, IH. reflexivity. Qed.
Lemma list_sum_cons x l : list_sum (x :: l) = x + list_sum l. Proof. reflexivity. Qed.

Definition plain_ops (u : tree nat) : Prop :=
  everywhere (fun u => match u with Node (Or | Interleaving) _ => False | _ => True end) u.
Lemma min_len_spec u : wf_tree u -> plain_ops u -> (exists w, lang u w /\ length w = min_len u) /\ (forall w, lang u w -> min_len u <= length w).
Proof.
  induction u as [l|o cs IH] using tree_ind2; intros Hw Hp.
  - destruct l as [a|]; split.
    + exists [a]. split; [constructor|reflexivity].
    + intros w H. inversion H; subst. cbn. lia.
    + exists []. split; [constructor|reflexivity].
    + intros w H. inversion H; subst. cbn. lia.
  - inversion Hw as [|? ? Hs Hwf]; subst. inversion Hp as [|? ? Ho Hpf]; subst.
    assert (IH' : forall c, In c cs -> (exists w, lang c w /\ length w = min_len c) /\ (forall w, lang c w -> min_len c <= length w)).
    { intros c Hc. rewrite Forall_forall in Hwf, Hpf. rewrite Forall_forall in IH. apply (IH c Hc); [exact (Hwf c Hc)|exact (Hpf c Hc)]. }
    clear IH Hwf Hpf Hw Hp.
    assert (Hsum : exists ws, Forall2 lang cs ws /\ list_sum (map (@length nat) ws) = list_sum (map min_len cs)).
    { clear Hs Ho. induction cs as [|c cs IHc]; [exists []; split; [constructor|reflexivity]|].
      destruct (IH' c (or_introl eq_refl)) as [(w & Hl & E) _]. destruct IHc as (ws & HF & Es); [intros; apply IH'; now right|].
      exists (w :: ws). split; [now constructor|]. cbn [map]. rewrite !list_sum_cons, E, Es. reflexivity. }
    assert (Hle : forall ws, Forall2 lang cs ws -> list_sum (map min_len cs) <= list_sum (map (@length nat) ws)).
    { clear Hs Ho Hsum. intros ws HF. induction HF as [|c w cs ws Hcw HF IHf]; [reflexivity|]. cbn [map]. rewrite !list_sum_cons.
      destruct (IH' c (or_introl eq_refl)) as [_ Hmin]. specialize (Hmin w Hcw). assert (IHf' := IHf (fun x Hx => IH' x (or_intror Hx))). lia. }
    destruct o; cbn in Ho; try contradiction.
    + destruct Hsum as (ws & HF & Es). split.
      * exists (concat ws). split; [now constructor|]. rewrite concat_length_sum, Es. reflexivity.
      * intros w H. inversion H as [| |? ws' HF'| | | | | |]; subst. rewrite concat_length_sum. apply (Hle ws' HF').
    + cbn [min_len]. destruct cs as [|c cs]; [cbn in Hs; congruence|]. cbn [map]. split.
      * destruct (fold_min_in (map min_len cs) (min_len c)) as [E|Hin].
        -- destruct (IH' c (or_introl eq_refl)) as [(w & Hl & El) _]. exists w. split; [eapply L_xor; [now left|exact Hl]|]. now rewrite E.
        -- apply in_map_iff in Hin as (d & Ed & Hd). destruct (IH' d (or_intror Hd)) as [(w & Hl & El) _]. exists w. split; [eapply L_xor; [right; exact Hd|exact Hl]|]. congruence.
      * intros w H. inversion H as [| | |? d ? Hd Hl| | | | |]; subst. destruct (IH' d Hd) as [_ Hmin]. specialize (Hmin w Hl).
        destruct (fold_min_le (map min_len cs) (min_len c)) as [H1 H2]. destruct Hd as [->|Hd]; [lia|]. specialize (H2 _ (in_map min_len _ _ Hd)). lia.
    + destruct Hsum as (ws & HF & Es). split.
      * exists (concat ws). split; [eapply L_par; [exact HF|apply shuffle_concat]|]. rewrite concat_length_sum, Es. reflexivity.
      * intros w H. inversion H as [| | | |? ws' ? HF' Hsh| | | |]; subst. rewrite (shuffle_length _ _ Hsh). apply (Hle ws' HF').
    + destruct cs as [|c cs]; [cbn in Hs; lia|]. cbn [min_len map]. destruct (IH' c (or_introl eq_refl)) as [(w & Hl & El) Hmin]. split.
      * exists w. split; [now constructor|exact El].
      * intros v H. inversion H as [| | | | | | |? ? ? Hd|? ? r w0 v0 w1 Hd Hr Hv Hrest]; subst; [now apply Hmin|]. rewrite app_length. specialize (Hmin _ Hd). lia.
Qed.

Section TreeFP.
  Context (t : tree nat) (Hu : unique_labels t) (ord1 ord2 : list chain -> list chain) (Ho1 : forall l, Permutation (ord1 l) l) (Ho2 : forall l, Permutation (ord2 l) l).
  Context (fuel : nat) (Hf : size t < fuel).

  Lemma min_trace_length_spec : wf_tree t -> no_interleaving t -> get_min_trace_length ord2 fuel t = Some (min_len t).
  Proof.
    intros Hw Hi. destruct Hu as [Hn Hv]. unfold get_min_trace_length. destruct (bottomup_spec t Hw Hn Hv ord2 fuel Ho2 Hf) as (r & -> & Hp & Hord & Ht).
    destruct (fill_spec t Hw min_length_node min_len) with (r := r) as (d & -> & Hd); [|exact Hp|exact Hord|apply Hd, Ht].
    intros n d Hpn Hch. apply node_min_spec; [eapply pos_everywhere; eauto| |exact Hch].
    pose proof (pos_everywhere t _ n Hi Hpn) as H. destruct (node_of n); [exact I|inversion H; subst; assumption].
  Qed.
  Lemma fp_no_int : fp_tree t -> no_interleaving t.
  Proof.
    unfold fp_tree, no_interleaving. generalize t. clear. intros u. induction u as [l|o cs IH] using tree_ind2; intros H; [constructor; exact I|].
    inversion H as [|? ? Hs Hc]; subst. constructor; [destruct o; cbn in Hs; tauto|]. rewrite Forall_forall in *. auto.
  Qed.
  Lemma fp_plain : fp_tree t -> plain_ops t.
  Proof.
    unfold fp_tree, plain_ops. generalize t. clear. intros u. induction u as [l|o cs IH] using tree_ind2; intros H; [constructor; exact I|].
    inversion H as [|? ? Hs Hc]; subst. constructor; [destruct o; cbn in Hs; tauto|]. rewrite Forall_forall in *. auto.
  Qed.
  Lemma tree_footprints_spec : fp_tree t -> tree_footprints ord1 ord2 fuel t = Some (rec_fp t, min_len t).
  Proof.
    intros Ht. pose proof (fp_tree_wf t Ht) as Hw. unfold tree_footprints. destruct Hu as [Hn Hv].
    destruct (bottomup_spec t Hw Hn Hv ord1 fuel Ho1 Hf) as (r & -> & Hp & Hord & Hin).
    destruct (fill_spec t Hw node_footprints rec_fp) with (r := r) as (d & -> & Hd); [|exact Hp|exact Hord|].
    - intros n d Hpn Hch. apply node_fp_spec; [eapply pos_everywhere; eauto|exact Hch].
    - rewrite (Hd t Hin), (min_trace_length_spec Hw (fp_no_int Ht)). reflexivity.
  Qed.
  Lemma rec_exact : fp_tree t -> exact (lang t) (rec_fp t).
  Proof. intros Ht. destruct (footprints_exact t Ht) as (f & E & H). unfold rec_fp. now rewrite E. Qed.
End TreeFP.

(** ** Footprints of logs *)
Lemma in_adj t a b : In (a, b) (adj t) <-> exists w1 w2, t = w1 ++ a :: b :: w2.
Proof.
  induction t as [|x t IH]; [split; [intros []|intros ([|] & w2 & E); discriminate]|]. destruct t as [|y t].
  - split; [intros []|]. intros ([|z [|? ?]] & w2 & E); discriminate.
  - change (adj (x :: y :: t)) with ((x, y) :: adj (y :: t)). split.
    + intros [E|H]; [injection E as -> ->; exists [], t; reflexivity|]. apply IH in H as (w1 & w2 & ->). exists (x :: w1), w2. reflexivity.
    + intros ([|z w1] & w2 & E); cbn in E; [injection E as -> -> ->; now left|]. injection E as -> E. right. apply IH. exists w1, w2. exact E.
Qed.
Lemma native_keys l a b : In (a, b) (d_keys (native 1 false l)) <-> follows (fun w => In w l) a b.
Proof.
  rewrite native1, c_of_keys, in_concat. split.
  - intros (x & Hx & Hab). apply in_map_iff in Hx as (t & <- & Ht). apply in_adj in Hab as (w1 & w2 & ->). exists w1, w2. exact Ht.
  - intros (w1 & w2 & H). exists (adj (w1 ++ a :: b :: w2)). split; [now apply in_map|]. apply in_adj. eauto.
Qed.
Lemma native_pos l k : 0 < c_get (native 1 false l) k <-> In k (d_keys (native 1 false l)).
Proof. rewrite native1, c_get_of, c_of_keys. apply occ_pos. Qed.
Lemma native_nodup l : NoDup (d_keys (native 1 false l)).
Proof. rewrite native1. apply c_of_nodup. Qed.
Lemma isin_in {K} {EK : Key K} (x : K) l : isin x l = true <-> In x l.
Proof. unfold isin. rewrite existsb_exists. split; [intros (y & Hy & E); apply keqb_true in E; now subst|intros H; exists x; split; [exact H|apply keqb_refl]]. Qed.
Lemma union_in {K} {EK : Key K} (x : K) a b : In x (union a b) <-> In x a \/ In x b.
Proof. unfold union. rewrite dedup_in, in_app_iff. reflexivity. Qed.
Lemma union_nodup {K} {EK : Key K} (a b : list K) : NoDup (union a b). Proof. apply dedup_nodup. Qed.
Lemma diff_in {K} {EK : Key K} (x : K) a b : In x (diff a b) <-> In x a /\ ~ In x b.
Proof. unfold diff. rewrite filter_In, negb_true_iff. rewrite <- (isin_in x b). destruct (isin x b); intuition congruence. Qed.
Lemma isnil_iff {X} (l : list X) : isnil l = true <-> forall x, ~ In x l.
Proof. destruct l as [|y l]; cbn; split; intros H; auto; [discriminate|]. exfalso. apply (H y). now left. Qed.

Lemma log_seq l a b : In (a, b) (l_seq (log_footprints l)) <-> follows (fun w => In w l) a b /\ ~ follows (fun w => In w l) b a.
Proof.
  cbn. unfold causal_alpha. rewrite filter_In. cbn [fst snd]. rewrite <- !native_keys, <- !d_mem_in. rewrite andb_true_iff, orb_true_iff, negb_true_iff, Nat.ltb_lt, Nat.eqb_eq.
  pose proof (native_pos l (b, a)) as Hp. pose proof (native_pos l (a, b)) as Hq. rewrite <- d_mem_in in Hp, Hq. rewrite d_mem_in.
  rewrite d_mem_in in Hq. destruct (d_mem (native 1 false l) (b, a)) eqn:E; split.
  - intros (H1 & H2 & [H3|H3]); [discriminate|]. destruct Hp as [_ Hp]. specialize (Hp eq_refl). lia.
  - intros (_ & H). congruence.
  - intros (H1 & _). split; [exact H1|discriminate].
  - intros (H1 & _). split; [exact H1|]. split; [tauto|auto].
Qed.
Lemma log_par l a b : In (a, b) (l_par (log_footprints l)) <-> follows (fun w => In w l) a b /\ follows (fun w => In w l) b a.
Proof. cbn. unfold parallel_pairs. rewrite filter_In. cbn [fst snd]. rewrite d_mem_in, !native_keys. reflexivity. Qed.
Lemma log_start l a : In a (l_start (log_footprints l)) <-> begins (fun w => In w l) a.
Proof.
  cbn. rewrite starts_eq, c_of_keys, in_concat. split.
  - intros (x & Hx & Ha). apply in_map_iff in Hx as (t & <- & Ht). destruct t as [|b t]; [contradiction|]. destruct Ha as [->|[]]. exists t. exact Ht.
  - intros (w & H). exists [a]. split; [|now left]. apply in_map_iff. exists (a :: w). auto.
Qed.
Lemma lasts_snoc w (a : nat) : lasts (w ++ [a]) = [a].
Proof. unfold lasts. destruct (w ++ [a]) eqn:E; [destruct w; discriminate|]. rewrite <- E. rewrite last_nth || idtac. rewrite app_length, Nat.add_sub || idtac. f_equal. rewrite app_nth2 by lia. rewrite Nat.sub_diag. reflexivity. Qed.
Lemma log_end l a : In a (l_end (log_footprints l)) <-> finishes (fun w => In w l) a.
Proof.
  cbn. rewrite ends_eq, c_of_keys, in_concat. split.
  - intros (x & Hx & Ha). apply in_map_iff in Hx as (t & <- & Ht). destruct t as [|b t]; [contradiction|].
    destruct (@exists_last _ (b :: t)) as (w & z & E); [discriminate|]. rewrite E in *. rewrite lasts_snoc in Ha. destruct Ha as [->|[]]. exists w. exact Ht.
  - intros (w & H). exists [a]. split; [|now left]. apply in_map_iff. exists (w ++ [a]). split; [apply lasts_snoc|exact H].
Qed.
Lemma log_acts l a : In a (l_acts (log_footprints l)) <-> occurs (fun w => In w l) a.
Proof. cbn. rewrite dedup_in, in_concat. unfold occurs. reflexivity. Qed.
Lemma log_min l : (l = [] -> l_min (log_footprints l) = 0) /\ (l <> [] -> (exists w, In w l /\ length w = l_min (log_footprints l)) /\ forall w, In w l -> l_min (log_footprints l) <= length w).
Proof.
  cbn. destruct l as [|t r]; split; try congruence; intros _. split.
  - destruct (fold_min_in (map (@length nat) r) (length t)) as [E|H].
    + exists t. split; [now left|auto].
    + apply in_map_iff in H as (w & E & Hw). exists w. split; [now right|exact E].
  - destruct (fold_min_le (map (@length nat) r) (length t)) as [H1 H2]. intros w [<-|Hw]; [exact H1|]. apply H2. now apply (in_map (@length nat)).
Qed.

Lemma single_follows t a b : follows (fun w => In w [t]) a b <-> follows (eq t) a b.
Proof. split; intros (w1 & w2 & H); exists w1, w2; [destruct H as [H|[]]; exact H|left; exact H]. Qed.
Lemma trace_seq t a b : In (a, b) (l_seq (trace_footprints t)) <-> follows (eq t) a b /\ ~ follows (eq t) b a.
Proof.
  unfold trace_footprints. cbv zeta. cbn [l_seq]. rewrite filter_In. cbn [fst snd]. rewrite negb_true_iff, native_keys, <- !single_follows, <- (native_keys [t] b a), <- d_mem_in.
  destruct (d_mem _ _); intuition congruence.
Qed.
Lemma trace_par t a b : In (a, b) (l_par (trace_footprints t)) <-> follows (eq t) a b /\ follows (eq t) b a.
Proof. unfold trace_footprints. cbv zeta. cbn [l_par]. unfold parallel_pairs. rewrite filter_In. cbn [fst snd]. rewrite d_mem_in, !native_keys, !single_follows. reflexivity. Qed.
Lemma trace_start t a : In a (l_start (trace_footprints t)) <-> begins (eq t) a.
Proof. cbn. destruct t as [|b t]; split; [intros []|intros (w & E); discriminate|intros [->|[]]; exists t; reflexivity|intros (w & E); injection E as -> _; now left]. Qed.
Lemma trace_end t a : In a (l_end (trace_footprints t)) <-> finishes (eq t) a.
Proof.
  cbn. destruct t as [|b t]; [split; [intros []|intros ([|] & E); discriminate]|].
  destruct (@exists_last _ (b :: t)) as (w & z & E); [discriminate|]. rewrite E, last_last. split.
  - intros [->|[]]. exists w. reflexivity.
  - intros (v & Ev). apply app_inj_tail in Ev as [_ ->]. now left.
Qed.
Lemma trace_acts t a : In a (l_acts (trace_footprints t)) <-> occurs (eq t) a.
Proof. cbn. rewrite dedup_in. unfold occurs. split; [intros H; exists t; auto|intros (w & <- & H); exact H]. Qed.

(** ** Conformance *)
(** the cache plays no role *)
Lemma conf_traces_map ae mf l : conf_log_traces ae mf l = map (fun t => conf_trace ae (trace_footprints t) mf) l.
Proof.
  unfold conf_log_traces. enough (G : forall l cache, (forall t c, d_get cache t = Some c -> c = conf_trace ae (trace_footprints t) mf) ->
    conf_traces ae mf cache l = map (fun t => conf_trace ae (trace_footprints t) mf) l) by (apply G; intros t c; discriminate).
  clear l. induction l as [|t l IH]; intros cache H; [reflexivity|]. cbn [conf_traces map]. destruct (d_get cache t) as [c|] eqn:E.
  - rewrite (H t c E). f_equal. now apply IH.
  - cbv zeta. f_equal. apply IH. intros u c. rewrite d_get_set. destruct (keqb_spec t u) as [->|]; [intros [= <-]; reflexivity|apply H].
Qed.

Definition covers (mf : model_fp) (k : nat * nat) : Prop := In k (m_seq mf) \/ In k (m_par mf).
Lemma conf_fp_in (lf : log_fp) mf k : In k (diff (union (l_seq lf) (l_par lf)) (union (m_seq mf) (m_par mf))) <-> (In k (l_seq lf) \/ In k (l_par lf)) /\ ~ covers mf k.
Proof. rewrite diff_in, !union_in. reflexivity. Qed.

Lemma follows_dec l a b : follows (fun w => In w l) a b \/ ~ follows (fun w => In w l) a b.
Proof. rewrite <- native_keys, <- d_mem_in. destruct (d_mem _ _); auto. Qed.
Lemma follows_dec1 t a b : follows (eq t) a b \/ ~ follows (eq t) a b.
Proof. rewrite <- single_follows. apply follows_dec. Qed.
Lemma log_pairs l a b : In (a, b) (l_seq (log_footprints l)) \/ In (a, b) (l_par (log_footprints l)) <-> follows (fun w => In w l) a b.
Proof. rewrite log_seq, log_par. pose proof (follows_dec l b a). tauto. Qed.
Lemma trace_pairs t a b : In (a, b) (l_seq (trace_footprints t)) \/ In (a, b) (l_par (trace_footprints t)) <-> follows (eq t) a b.
Proof. rewrite trace_seq, trace_par. pose proof (follows_dec1 t b a). tauto. Qed.

(** ** Fitness and precision *)
Lemma qn_le a b : (a <= b)%nat -> (qn a <= qn b)%Q.
Proof. intros H. unfold qn. rewrite <- Zle_Qle. lia. Qed.
Lemma qn_pos a : (0 < a)%nat -> (0 < qn a)%Q.
Proof. intros H. unfold qn. change 0%Q with (inject_Z 0). rewrite <- Zlt_Qlt. lia. Qed.
Lemma qn_nonneg a : (0 <= qn a)%Q. Proof. unfold qn. change 0%Q with (inject_Z 0). rewrite <- Zle_Qle. lia. Qed.
Lemma qn_add a b : (qn (a + b) == qn a + qn b)%Q.
Proof. unfold qn. rewrite Nat2Z.inj_add, inject_Z_plus. reflexivity. Qed.
Lemma qn_inj a b : (qn a == qn b)%Q -> a = b.
Proof. unfold qn. intros H. apply Nat2Z.inj. rewrite <- inject_Z_injective. exact H. Qed.

(** the formula with its parameters *)
Lemma fitness_formula (sum dev sp se ds : nat) : (0 < sum)%nat -> (dev <= sum)%nat -> (ds <= se)%nat -> (0 < sp)%nat ->
  let f := (((1 - qn dev / qn sum) * qn sp + (qn se - qn ds)) / qn (sp + se))%Q in
  (0 <= f)%Q /\ (f <= 1)%Q /\ ((f == 1)%Q <-> dev = 0%nat /\ ds = 0%nat).
Proof.
  intros Hs Hd Hde Hsp f. pose proof (qn_pos sum Hs) as Ps. pose proof (qn_pos sp Hsp) as Psp.
  pose proof (qn_le _ _ Hd) as Ld. pose proof (qn_le _ _ Hde) as Le. pose proof (qn_nonneg dev) as Nd. pose proof (qn_nonneg ds) as Nds. pose proof (qn_nonneg se) as Nse.
  set (x := (qn dev / qn sum)%Q). assert (Hx0 : (0 <= x)%Q) by (apply Qle_shift_div_l; [exact Ps|lra]).
  assert (Hx1 : (x <= 1)%Q) by (apply Qle_shift_div_r; [exact Ps|lra]).
  assert (Pt : (0 < qn (sp + se))%Q) by (apply qn_pos; lia). pose proof (qn_add sp se) as Et.
  assert (Hmul : (0 <= (1 - x) * qn sp)%Q) by (apply Qmult_le_0_compat; lra).
  assert (Hmul2 : (0 <= x * qn sp)%Q) by (apply Qmult_le_0_compat; lra).
  assert (Eq : ((1 - x) * qn sp == qn sp - x * qn sp)%Q) by ring.
  split; [|split].
  - unfold f. fold x. apply Qle_shift_div_l; [exact Pt|]. lra.
  - unfold f. fold x. apply Qle_shift_div_r; [exact Pt|]. lra.
  - split.
    + intros E. unfold f in E. fold x in E.
      assert (E' : ((1 - x) * qn sp + (qn se - qn ds) == qn (sp + se))%Q).
      { assert (E1 : ((1 - x) * qn sp + (qn se - qn ds) == ((1 - x) * qn sp + (qn se - qn ds)) / qn (sp + se) * qn (sp + se))%Q) by (field; lra).
        rewrite E1, E. ring. }
      assert (Z1 : (x * qn sp == 0)%Q) by lra. assert (Z2 : (qn ds == 0)%Q) by lra. split.
      * apply Qmult_integral in Z1 as [Z1|Z1]; [|lra]. assert (Zd : (qn dev == 0)%Q).
        { assert (qn dev == x * qn sum)%Q as ->; [unfold x; field; lra|]. rewrite Z1. ring. }
        apply qn_inj. rewrite Zd. reflexivity.
      * apply qn_inj. rewrite Z2. reflexivity.
    + intros [-> ->]. unfold f. assert (E0 : (qn 0 == 0)%Q) by reflexivity. rewrite E0, Et. field. repeat split; lra.
Qed.

Lemma sum_get_le {K} {EK : Key K} (g : @counter K) ks : NoDup (d_keys g) -> NoDup ks -> (forall k, In k ks -> In k (d_keys g)) ->
  list_sum (map (c_get g) ks) <= list_sum (d_values g).
Proof.
  revert ks. induction g as [|[k v] g IH]; intros ks Hg Hk Hin.
  - destruct ks as [|k ks]; [reflexivity|]. destruct (Hin k (or_introl eq_refl)).
  - cbn in Hg. inversion Hg as [|? ? Hkg Hg']; subst. change (d_values ((k, v) :: g)) with (v :: d_values g). rewrite list_sum_cons.
    set (ks' := filter (fun x => negb (keqb k x)) ks).
    assert (Hks' : list_sum (map (c_get ((k, v) :: g)) ks) <= v + list_sum (map (c_get g) ks')).
    { clear Hin IH. unfold ks'. clear ks'. induction ks as [|x ks IHk]; [cbn; lia|]. inversion Hk as [|? ? Hx Hk']; subst. cbn [map filter]. rewrite list_sum_cons.
      unfold c_get at 1. cbn [d_get]. destruct (keqb_spec k x) as [E|Hne]; cbn [negb].
      - subst x. assert (E2 : list_sum (map (c_get ((k, v) :: g)) ks) = list_sum (map (c_get g) (filter (fun x => negb (keqb k x)) ks))).
        { clear -Hx. induction ks as [|y ks IH]; [reflexivity|]. cbn [map filter]. destruct (keqb_spec k y) as [->|Hne]; [destruct Hx; now left|]. cbn [negb map].
          rewrite !list_sum_cons. rewrite IH by (intros H; apply Hx; now right). unfold c_get at 1. cbn [d_get]. destruct (keqb_spec k y); [congruence|]. reflexivity. }
        rewrite E2. lia.
      - cbn [map]. rewrite list_sum_cons. specialize (IHk Hk'). change (match d_get g x with Some n => n | None => 0 end) with (c_get g x). lia. }
    assert (H' : list_sum (map (c_get g) ks') <= list_sum (d_values g)).
    { apply IH; [exact Hg'|apply NoDup_filter, Hk|]. intros x Hx. unfold ks' in Hx. apply filter_In in Hx as [Hx En]. destruct (keqb_spec k x); [discriminate|].
      destruct (Hin x Hx) as [E|H]; [cbn in E; congruence|exact H]. }
    lia.
Qed.
Lemma sum_get_zero {K} {EK : Key K} (g : @counter K) ks : (forall k, In k ks -> 0 < c_get g k) -> list_sum (map (c_get g) ks) = 0 <-> ks = [].
Proof.
  intros H. split; [|intros ->; reflexivity]. destruct ks as [|k ks]; [reflexivity|]. cbn [map]. rewrite list_sum_cons. specialize (H k (or_introl eq_refl)). lia.
Qed.
Lemma diff_length {K} {EK : Key K} (a b : list K) : length (diff a b) <= length a.
Proof. unfold diff. induction a as [|x a IH]; cbn; [lia|]. destruct (isin x b); cbn; lia. Qed.
Lemma diff_nodup {K} {EK : Key K} (a b : list K) : NoDup a -> NoDup (diff a b). Proof. apply NoDup_filter. Qed.

(** any footprints whose pairs come from a counter with positive values *)
Lemma fitness_generic lf (c : conf) : NoDup (d_keys (l_dfg lf)) -> (forall k, In k (d_keys (l_dfg lf)) -> 0 < c_get (l_dfg lf) k) ->
  l_dfg lf <> [] -> 0 < length (l_seq lf) + length (l_par lf) ->
  NoDup (c_fp c) -> (forall k, In k (c_fp c) -> In k (d_keys (l_dfg lf))) ->
  length (c_start c) + length (c_end c) <= length (l_start lf) + length (l_end lf) ->
  (0 <= fp_fitness lf c)%Q /\ (fp_fitness lf c <= 1)%Q /\ ((fp_fitness lf c == 1)%Q <-> c_fp c = [] /\ c_start c = [] /\ c_end c = []).
Proof.
  intros Hg Hpos Hne Hsp Hf Hin Hlen.
  assert (Hv : fp_fitness lf c = (((1 - qn (list_sum (map (c_get (l_dfg lf)) (c_fp c))) / qn (list_sum (d_values (l_dfg lf)))) * qn (length (l_seq lf) + length (l_par lf)) +
      (qn (length (l_start lf) + length (l_end lf)) - qn (length (c_start c)) - qn (length (c_end c)))) / qn (length (l_seq lf) + length (l_par lf) + (length (l_start lf) + length (l_end lf))))%Q).
  { unfold fp_fitness. destruct (l_dfg lf); [congruence|reflexivity]. }
  destruct (l_dfg lf) as [|kv g] eqn:E; [congruence|]. rewrite <- E in *.
  assert (Hsum : 0 < list_sum (d_values (l_dfg lf))).
  { rewrite E. destruct kv as [k v]. change (d_values ((k, v) :: g)) with (v :: d_values g). rewrite list_sum_cons. specialize (Hpos k). rewrite E in Hpos. unfold c_get in Hpos. cbn [d_get] in Hpos. rewrite keqb_refl in Hpos. specialize (Hpos (or_introl eq_refl)). lia. }
  pose proof (sum_get_le (l_dfg lf) (c_fp c) Hg Hf Hin) as Hdev.
  pose proof (fitness_formula _ _ _ _ _ Hsum Hdev Hlen Hsp) as H. cbv zeta in H.
  assert (Eq : (((1 - qn (list_sum (map (c_get (l_dfg lf)) (c_fp c))) / qn (list_sum (d_values (l_dfg lf)))) * qn (length (l_seq lf) + length (l_par lf)) +
      (qn (length (l_start lf) + length (l_end lf)) - qn (length (c_start c)) - qn (length (c_end c)))) / qn (length (l_seq lf) + length (l_par lf) + (length (l_start lf) + length (l_end lf))) ==
    ((1 - qn (list_sum (map (c_get (l_dfg lf)) (c_fp c))) / qn (list_sum (d_values (l_dfg lf)))) * qn (length (l_seq lf) + length (l_par lf)) +
      (qn (length (l_start lf) + length (l_end lf)) - qn (length (c_start c) + length (c_end c)))) / qn (length (l_seq lf) + length (l_par lf) + (length (l_start lf) + length (l_end lf))))%Q).
  { rewrite (qn_add (length (c_start c)) (length (c_end c))). apply Qdiv_comp; [ring|reflexivity]. }
  rewrite Hv, Eq. destruct H as (H1 & H2 & H3). split; [exact H1|]. split; [exact H2|]. rewrite H3.
  rewrite (sum_get_zero (l_dfg lf) (c_fp c)) by auto. split.
  - intros [-> H]. assert (length (c_start c) = 0 /\ length (c_end c) = 0) as [A B] by lia. apply length_zero_iff_nil in A, B. auto.
  - intros (-> & -> & ->). auto.
Qed.

Lemma log_counts l : length (l_seq (log_footprints l)) + length (l_par (log_footprints l)) = length (d_keys (native 1 false l)).
Proof.
  cbn. unfold causal_alpha, parallel_pairs. assert (H : forall k, In k (d_keys (native 1 false l)) -> 0 < c_get (native 1 false l) k) by (intros k Hk; now apply native_pos).
  assert (Hr : forall k, d_mem (native 1 false l) k = true -> 0 < c_get (native 1 false l) k) by (intros k Hk; apply native_pos, d_mem_in, Hk).
  induction (d_keys (native 1 false l)) as [|k ks IH]; [reflexivity|]. cbn [filter].
  specialize (IH (fun x Hx => H x (or_intror Hx))). specialize (H k (or_introl eq_refl)). apply Nat.ltb_lt in H. rewrite H. cbn [andb].
  destruct (d_mem (native 1 false l) (snd k, fst k)) eqn:E; cbn [negb orb].
  - specialize (Hr _ E). destruct (Nat.eqb_spec (c_get (native 1 false l) (snd k, fst k)) 0); [lia|]. cbn [length]. lia.
  - cbn [length]. lia.
Qed.
Lemma precision_range lf mf : NoDup (l_seq lf ++ l_par lf) \/ True ->
  (0 <= fp_precision lf mf)%Q /\ (fp_precision lf mf <= 1)%Q /\
  ((fp_precision lf mf == 1)%Q <-> forall k, covers mf k -> In k (l_seq lf) \/ In k (l_par lf)).
Proof.
  intros _. unfold fp_precision. pose proof (union_in (EK := key_pair)) as Hun.
  assert (Hcov : forall k, covers mf k <-> In k (union (m_seq mf) (m_par mf))) by (intros k; rewrite union_in; reflexivity).
  assert (Hlog : forall k, In k (l_seq lf) \/ In k (l_par lf) <-> In k (union (l_seq lf) (l_par lf))) by (intros k; rewrite union_in; reflexivity).
  pose proof (union_nodup (l_seq lf) (l_par lf)) as Nl. pose proof (union_nodup (m_seq mf) (m_par mf)) as Nm.
  set (mc := union (m_seq mf) (m_par mf)) in *. set (lc := union (l_seq lf) (l_par lf)) in *.
  destruct mc as [|k0 mc0] eqn:Em.
  - split; [discriminate|]. split; [discriminate|]. split; [|reflexivity]. intros _ k Hk. apply Hcov in Hk. contradiction.
  - rewrite <- Em in *. set (it := filter (fun x => isin x mc) lc).
    assert (Hit : forall k, In k it <-> In k lc /\ In k mc) by (intros k; unfold it; rewrite filter_In, isin_in; reflexivity).
    assert (Nit : NoDup it) by (apply NoDup_filter, Nl).
    assert (Hle : length it <= length mc) by (apply NoDup_incl_length; [exact Nit|intros k Hk; apply Hit, Hk]).
    assert (Hmpos : 0 < length mc) by (rewrite Em; cbn; lia).
    pose proof (qn_pos _ Hmpos) as Pm. pose proof (qn_le _ _ Hle) as Lm. pose proof (qn_nonneg (length it)) as Nn.
    split; [apply Qle_shift_div_l; [exact Pm|lra]|]. split; [apply Qle_shift_div_r; [exact Pm|lra]|]. split.
    + intros E. assert (El : length it = length mc).
      { apply qn_inj. rewrite <- (Qmult_1_l (qn (length mc))), <- E. field. lra. }
      intros k Hk. apply Hcov in Hk. apply Hlog. assert (Hi : In k it); [|apply Hit, Hi].
      assert (Hi2 : incl mc it); [|apply Hi2, Hk]. apply (NoDup_length_incl (l := it) (l' := mc) Nit); [lia|intros x Hx; apply Hit, Hx].
    + intros H. assert (El : length it = length mc).
      { apply Nat.le_antisymm; [exact Hle|]. apply NoDup_incl_length; [exact Nm|]. intros k Hk. apply Hit. split; [|exact Hk]. apply Hlog, H, Hcov, Hk. }
      rewrite El. field. lra.
Qed.
