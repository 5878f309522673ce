(** Folding keeps the language and ends in a normal form. *)
From Coq Require Import String Ascii List Arith Lia Permutation Bool.
Import ListNotations.
From Verif Require Import Model_Tree Spec_Tree Proofs_Shuffle.
Local Open Scope list_scope.

Section F.
  Context {A : Type} (eqb : A -> A -> bool) (lab : A -> list ascii).
  Hypothesis eqb_ok : forall a b, eqb a b = true <-> a = b.
  Implicit Types (t u c : tree A) (cs : list (tree A)).
  Notation tau := (@Leaf A None).

  (** internal well-formedness: a loop may also consist of a single silent child *)
  Definition shape_i t : Prop :=
    match t with Leaf _ => True | Node o cs => cs <> [] /\ (o = Loop -> 2 <= length cs \/ cs = [tau]) end.
  Definition wfi t := everywhere shape_i t.

  Lemma wfi_node o cs : wfi (Node o cs) <-> cs <> [] /\ (o = Loop -> 2 <= length cs \/ cs = [tau]) /\ Forall wfi cs.
  Proof.
    split.
    - intros H. inversion H as [|? ? H1 H2]; subst. destruct H1. auto.
    - intros (H1 & H2 & H3). constructor; [split; auto|auto].
  Qed.
  Lemma wfi_leaf l : wfi (Leaf l). Proof. constructor. exact I. Qed.
  Lemma wf_wfi t : wf_tree t -> wfi t.
  Proof.
    induction t as [l|o cs IH] using tree_ind2; intros H; [apply wfi_leaf|].
    apply wf_node_inv in H as (Hs & H). apply wfi_node. split; [eapply shape_ok_nonempty; eauto|]. split.
    - intros ->. left. exact Hs.
    - rewrite Forall_forall in *. auto.
  Qed.

  (** ** sizes *)
  Definition sizes cs := list_sum (map (@size A) cs).
  Lemma size_node o cs : size (Node o cs) = S (sizes cs).
  Proof. cbn. f_equal. induction cs as [|c cs IH]; cbn; [reflexivity|]. unfold sizes in *. cbn. rewrite IH. reflexivity. Qed.
  Lemma size_pos t : 1 <= size t. Proof. destruct t; cbn; lia. Qed.
  Lemma sizes_app cs ds : sizes (cs ++ ds) = sizes cs + sizes ds.
  Proof. unfold sizes. rewrite map_app. apply list_sum_app. Qed.
  Lemma sizes_cons c cs : sizes (c :: cs) = size c + sizes cs. Proof. reflexivity. Qed.

  (** ** printed lengths *)
  Definition clen t : nat := match t with Leaf (Some a) => length (lab a) + 2 | _ => length (show lab t) end.
  Definition slen t : nat := length (show lab t).
  Definition clens cs := list_sum (map (fun c => clen c + 2) cs).
  Lemma clens_app cs ds : clens (cs ++ ds) = clens cs + clens ds.
  Proof. unfold clens. rewrite map_app. apply list_sum_app. Qed.
  Lemma clens_cons c cs : clens (c :: cs) = clen c + 2 + clens cs. Proof. reflexivity. Qed.
  Definition show_list := fix go (cs : list (tree A)) : list ascii :=
           match cs with
           | [] => []
           | c :: r =>
               (match c with Leaf (Some a) => s_quote ++ lab a ++ s_quote | _ => show lab c end) ++
               (match r with [] => [] | _ => s_sep end) ++ go r
           end.
  Lemma show_node o cs : show lab (Node o cs) = op_str o ++ s_open ++ show_list cs ++ s_close.
  Proof. reflexivity. Qed.
  Lemma show_list_len cs : length (show_list cs) = clens cs - 2.
  Proof.
    induction cs as [|c cs IH]; [reflexivity|].
    change (show_list (c :: cs)) with ((match c with Leaf (Some a) => s_quote ++ lab a ++ s_quote | _ => show lab c end) ++
               (match cs with [] => [] | _ => s_sep end) ++ show_list cs).
    rewrite !app_length, IH, clens_cons.
    assert (E : length (match c with Leaf (Some a) => s_quote ++ lab a ++ s_quote | _ => show lab c end) = clen c).
    { destruct c as [[a|]|]; [|reflexivity|reflexivity]. rewrite !app_length. cbn. lia. }
    rewrite E. destruct cs as [|d cs]; [cbn; lia|]. rewrite clens_cons. cbn [length s_sep list_ascii_of_string]. lia.
  Qed.
  Lemma clen_node o cs : cs <> [] -> clen (Node o cs) = length (op_str o) + 2 + clens cs.
  Proof.
    intros Hne. unfold clen. rewrite show_node, !app_length, show_list_len.
    destruct cs as [|c cs']; [congruence|]. rewrite clens_cons. cbn [length s_open s_close list_ascii_of_string]. lia.
  Qed.
  Lemma slen_clen t : slen t <= clen t.
  Proof. destruct t as [[a|]|]; unfold slen; cbn; lia. Qed.
  Lemma slen_node o cs : slen (Node o cs) = clen (Node o cs). Proof. reflexivity. Qed.

  (** [t] unchanged, or both measures shrink *)
  Definition shrunk t' t : Prop := size t' < size t /\ clen t' < clen t.
  Definition shrink t' t : Prop := t' = t \/ shrunk t' t.
  Definition shrunks cs' cs : Prop := sizes cs' < sizes cs /\ clens cs' < clens cs.
  Definition shrinks cs' cs : Prop := cs' = cs \/ shrunks cs' cs.
  Lemma shrink_trans a b c : shrink a b -> shrink b c -> shrink a c.
  Proof. unfold shrink, shrunk. intros [->|[? ?]] [->|[? ?]]; auto; right; lia. Qed.
  Lemma shrinks_trans l1 l2 l3 : shrinks l1 l2 -> shrinks l2 l3 -> shrinks l1 l3.
  Proof. unfold shrinks, shrunks. intros [->|[? ?]] [->|[? ?]]; auto; right; lia. Qed.
  Lemma shrinks_node o cs cs' : cs' <> [] -> cs <> [] -> shrinks cs' cs -> shrink (Node o cs') (Node o cs).
  Proof.
    intros H1 H2 [->|[H3 H4]]; [left; auto|right]. unfold shrunk. rewrite !size_node, !clen_node by auto. lia.
  Qed.
  Lemma shrink_list cs cs' : Forall2 shrink cs' cs -> shrinks cs' cs.
  Proof.
    induction 1 as [|c' c cs' cs H _ IH]; [left; auto|].
    destruct H as [->|[H1 H2]], IH as [->|[H3 H4]]; [left; auto|right..]; unfold shrunks;
      rewrite !sizes_cons, !clens_cons; lia.
  Qed.
  Lemma shrink_slen t' t : shrink t' t -> slen t' = slen t -> t' = t.
  Proof.
    intros [->|[H1 H2]] E; [auto|]. destruct t as [l|o cs]; [cbn in H1; pose proof (size_pos t'); lia|].
    rewrite slen_node in E. pose proof (slen_clen t'). lia.
  Qed.

  (** ** equality *)
  Lemma op_eqb_ok a b : op_eqb a b = true <-> a = b.
  Proof. destruct a, b; cbn; split; intros; congruence. Qed.
  Lemma tree_eqb_node o c cs o' d ds : tree_eqb eqb (Node o (c :: cs)) (Node o' (d :: ds)) =
    op_eqb o o' && (tree_eqb eqb c d &&
      (fix go cs ds := match cs, ds with
                         | [], [] => true
                         | c :: cs', d :: ds' => tree_eqb eqb c d && go cs' ds'
                         | _, _ => false
                         end) cs ds).
  Proof. reflexivity. Qed.
  Lemma tree_eqb_ok t : wfi t -> forall u, wfi u -> tree_eqb eqb t u = true <-> t = u.
  Proof.
    induction t as [l|o cs IH] using tree_ind2; intros Ht u Hu.
    - destruct l as [a|], u as [[b|]|o' [|d ds]]; cbn; rewrite ?eqb_ok; split; intros; try congruence.
      apply wfi_node in Hu as (Hn & _). congruence.
    - apply wfi_node in Ht as (Hn & _ & Hf). destruct cs as [|c cs]; [congruence|].
      destruct u as [[b|]|o' ds]; [cbn; split; congruence..|].
      apply wfi_node in Hu as (Hn' & _ & Hf'). destruct ds as [|d ds]; [congruence|].
      rewrite tree_eqb_node, andb_true_iff, op_eqb_ok.
      enough (E : (tree_eqb eqb c d &&
      (fix go cs ds := match cs, ds with
                         | [], [] => true
                         | c :: cs', d :: ds' => tree_eqb eqb c d && go cs' ds'
                         | _, _ => false
                         end) cs ds) = true <-> c :: cs = d :: ds).
      { rewrite E. split; [intros [-> E']; congruence|intros E'; inversion E'; auto]. }
      clear Hn Hn'. revert c d ds IH Hf Hf'. induction cs as [|c2 cs IHcs]; intros c d ds IH Hf Hf';
        inversion IH as [|? ? Hc IH']; inversion Hf as [|? ? Hfc Hf1]; inversion Hf' as [|? ? Hfd Hf1']; subst;
        rewrite andb_true_iff, (Hc Hfc d Hfd).
      + destruct ds; split; [intros [-> _]; auto|intros E; inversion E; auto|intros [_ ?]; discriminate|intros; congruence].
      + destruct ds as [|d2 ds]; [split; [intros [_ ?]; discriminate|intros; congruence]|].
        rewrite (IHcs c2 d2 ds IH' Hf1 Hf1'). split; [intros [-> E]; congruence|intros E; inversion E; auto].
  Qed.

  (** ** removing silent children *)
  Inductive taus_removed : list (tree A) -> list (tree A) -> Prop :=
  | tr_refl cs : taus_removed cs cs
  | tr_step l1 l2 cs : taus_removed (l1 ++ l2) cs -> taus_removed (l1 ++ tau :: l2) cs.

  Lemma taus_removed_trans l1 l2 l3 : taus_removed l1 l2 -> taus_removed l2 l3 -> taus_removed l1 l3.
  Proof. induction 1; intros; auto. constructor; auto. Qed.
  Lemma taus_removed_shrinks cs cs' : taus_removed cs cs' -> shrinks cs' cs.
  Proof.
    induction 1 as [|l1 l2 cs _ IH]; [left; auto|]. right. unfold shrunks.
    rewrite sizes_app, clens_app, sizes_cons, clens_cons.
    destruct IH as [->|[H1 H2]]; [rewrite sizes_app, clens_app|rewrite sizes_app in H1; rewrite clens_app in H2];
      cbn [size clen show length]; lia.
  Qed.
  Lemma taus_removed_Forall P cs cs' : taus_removed cs cs' -> Forall P cs -> Forall P cs'.
  Proof.
    induction 1 as [|l1 l2 cs _ IH]; auto. intros H. apply IH. apply Forall_app in H as [H1 H2].
    inversion H2; subst. apply Forall_app; auto.
  Qed.
  Lemma taus_removed_in cs cs' c : taus_removed cs cs' -> In c cs -> c <> tau -> In c cs'.
  Proof.
    induction 1 as [|l1 l2 cs _ IH]; auto. intros Hin Hne. apply IH; auto.
    apply in_app_or in Hin as [?|[?|?]]; [apply in_or_app; auto|congruence|apply in_or_app; auto].
  Qed.
  Lemma taus_removed_in_back cs cs' c : taus_removed cs cs' -> In c cs' -> In c cs.
  Proof.
    induction 1 as [|l1 l2 cs _ IH]; auto. intros Hin. apply IH, in_app_or in Hin. apply in_or_app.
    destruct Hin; [auto|right; right; auto].
  Qed.

  Lemma seq_tau l1 l2 : same_lang (Node Sequence (l1 ++ tau :: l2)) (Node Sequence (l1 ++ l2)).
  Proof.
    intros w. rewrite !lang_seq. split.
    - intros (ws & H & ->). apply Forall2_app_inv_l in H as (w1 & w2 & H1 & H2 & ->).
      inversion H2 as [|? x ? w3 Hx H3]; subst. apply lang_tau in Hx as ->. exists (w1 ++ w3).
      split; [apply Forall2_app; auto|]. rewrite !concat_app. reflexivity.
    - intros (ws & H & ->). apply Forall2_app_inv_l in H as (w1 & w2 & H1 & H2 & ->).
      exists (w1 ++ [] :: w2). split; [apply Forall2_app; auto; constructor; auto; constructor|].
      rewrite !concat_app. reflexivity.
  Qed.
  Lemma par_tau l1 l2 : same_lang (Node Parallel (l1 ++ tau :: l2)) (Node Parallel (l1 ++ l2)).
  Proof.
    intros w. rewrite !lang_par. split.
    - intros (ws & H & Hs). apply Forall2_app_inv_l in H as (w1 & w2 & H1 & H2 & ->).
      inversion H2 as [|? x ? w3 Hx H3]; subst. apply lang_tau in Hx as ->. exists (w1 ++ w3).
      split; [apply Forall2_app; auto|]. apply shuffle_nil_elt. auto.
    - intros (ws & H & Hs). apply Forall2_app_inv_l in H as (w1 & w2 & H1 & H2 & ->).
      exists (w1 ++ [] :: w2). split; [apply Forall2_app; auto; constructor; auto; constructor|].
      apply shuffle_nil_elt. auto.
  Qed.
  Lemma xor_tau l1 l2 : In tau (l1 ++ l2) -> same_lang (Node Xor (l1 ++ tau :: l2)) (Node Xor (l1 ++ l2)).
  Proof.
    intros Hin w. rewrite !lang_xor. split.
    - intros (c & Hc & Hw). apply in_app_or in Hc as [?|[<-|?]]; [exists c|exists tau|exists c];
        split; auto; apply in_or_app; auto.
    - intros (c & Hc & Hw). exists c. split; auto. apply in_app_or in Hc. apply in_or_app.
      destruct Hc; [auto|right; right; auto].
  Qed.
  Lemma select_app {X} (l1 l2 k : list X) : select (l1 ++ l2) k <-> exists k1 k2, k = k1 ++ k2 /\ select l1 k1 /\ select l2 k2.
  Proof.
    split.
    - revert k. induction l1 as [|x l1 IH]; cbn; intros k H; [exists [], k; repeat split; auto; constructor|].
      inversion H as [|? ? ? HH|? ? ? HH]; subst.
      + destruct (IH _ HH) as (k1 & k2 & -> & ? & ?). exists k1, k2. repeat split; auto. constructor; auto.
      + destruct (IH _ HH) as (k1 & k2 & -> & ? & ?). exists (x :: k1), k2. repeat split; auto. apply sel_take; auto.
    - intros (k1 & k2 & -> & H1 & H2). induction H1; cbn; auto; [apply sel_skip|apply sel_take]; auto.
  Qed.
  Lemma select_one {X} (l : list X) x : In x l -> select l [x].
  Proof. intros H. apply in_split in H as (l1 & l2 & ->). apply select_app. exists [], [x].
    repeat split; [apply select_nil|apply sel_take, select_nil]. Qed.
  Lemma or_tau l1 l2 : In tau (l1 ++ l2) -> same_lang (Node Or (l1 ++ tau :: l2)) (Node Or (l1 ++ l2)).
  Proof.
    intros Hin w. rewrite !lang_or. split.
    - intros (cs' & ws & Hsel & Hne & HF & Hs). apply select_app in Hsel as (k1 & k2 & -> & S1 & S2).
      inversion S2 as [|? ? ? S3|x l k3 S3]; subst.
      + exists (k1 ++ k2), ws. repeat split; auto. apply select_app; eauto.
      + apply Forall2_app_inv_l in HF as (w1 & w2 & H1 & H2 & ->).
        inversion H2 as [|? y ? w3 Hx H3]; subst. apply lang_tau in Hx as ->.
        pose proof (proj1 (shuffle_nil_elt _ _ _) Hs) as Hs'. clear Hs. rename Hs' into Hs. destruct (k1 ++ k3) as [|z zs] eqn:E.
        * apply app_eq_nil in E as [-> ->]. inversion H1; inversion H3; subst. cbn in Hs. apply shuffle_empty in Hs. subst.
          exists [tau], [[]]. repeat split; [apply select_one; auto|discriminate|repeat constructor|].
          apply shuffle_nils. intros ? [<-|[]]; auto.
        * exists (k1 ++ k3), (w1 ++ w3). split; [apply select_app; eauto|]. split; [rewrite E; discriminate|].
          split; auto. apply Forall2_app; auto.
    - intros (cs' & ws & Hsel & Hne & HF & Hs). apply select_app in Hsel as (k1 & k2 & -> & S1 & S2).
      exists (k1 ++ k2), ws. repeat split; auto. apply select_app. exists k1, k2. repeat split; auto. apply sel_skip; auto.
  Qed.

  Lemma taus_removed_lang o cs cs' : taus_removed cs cs' ->
    (o = Sequence \/ o = Parallel) \/ ((o = Xor \/ o = Or) /\ In tau cs') ->
    same_lang (Node o cs) (Node o cs').
  Proof.
    induction 1 as [|l1 l2 cs H IH]; intros Ho; [apply same_lang_refl|].
    eapply same_lang_trans; [|apply IH; auto].
    destruct Ho as [[->| ->]|[[->| ->] Hin]]; [apply seq_tau|apply par_tau|apply xor_tau|apply or_tau];
      eapply taus_removed_in_back; eauto.
  Qed.

  Lemma py_remove_first l1 x l2 : wfi x -> Forall wfi (l1 ++ l2) -> ~ In x l1 ->
    py_remove eqb x (l1 ++ x :: l2) = l1 ++ l2.
  Proof.
    intros Hx Hf Hn. induction l1 as [|y l1 IH]; cbn.
    - replace (tree_eqb eqb x x) with true; [reflexivity|]. symmetry. apply tree_eqb_ok; auto.
    - inversion Hf; subst. destruct (tree_eqb eqb y x) eqn:E.
      + apply tree_eqb_ok in E; auto. subst. destruct Hn. left; auto.
      + f_equal. apply IH; auto. intros Hi. apply Hn. right; auto.
  Qed.
  Lemma is_tau_leaf_ok t : is_tau_leaf t = true <-> t = tau.
  Proof. destruct t as [[a|]|]; cbn; split; congruence. Qed.
  Lemma first_split x l : In x l -> wfi x -> Forall wfi l -> exists l1 l2, l = l1 ++ x :: l2 /\ ~ In x l1.
  Proof.
    induction l as [|y l IH]; intros Hin Hx Hf; [destruct Hin|]. inversion Hf; subst.
    destruct (tree_eqb eqb y x) eqn:E.
    - apply tree_eqb_ok in E; auto. subst. exists [], l. split; auto.
    - assert (y <> x) by (intros ->; rewrite (proj2 (tree_eqb_ok x Hx x Hx) eq_refl) in E; discriminate).
      destruct Hin as [|Hin]; [congruence|]. destruct (IH Hin) as (l1 & l2 & -> & Hn); auto.
      exists (y :: l1), l2. split; auto. intros [?|?]; auto.
  Qed.
  Lemma remove_tau cs : Forall wfi cs -> In tau cs -> exists l1 l2, cs = l1 ++ tau :: l2 /\ py_remove eqb tau cs = l1 ++ l2.
  Proof.
    intros Hf Hin. destruct (first_split tau cs Hin (wfi_leaf _) Hf) as (l1 & l2 & -> & Hn). exists l1, l2. split; auto.
    apply py_remove_first; auto; [apply wfi_leaf|]. apply Forall_app in Hf as [? Hf]. inversion Hf; subst. apply Forall_app; auto.
  Qed.

  Notation ntau cs := (length (List.filter is_tau_leaf cs)).
  Lemma ntau_in cs : 0 < ntau cs -> In tau cs.
  Proof.
    induction cs as [|c cs IH]; cbn; [lia|]. destruct (is_tau_leaf c) eqn:E; [apply is_tau_leaf_ok in E; auto|].
    intros H. right. auto.
  Qed.
  Lemma drop_taus_ok n cs : Forall wfi cs -> n <= ntau cs ->
    taus_removed cs (drop_taus eqb n cs) /\ ntau (drop_taus eqb n cs) = ntau cs - n.
  Proof.
    revert cs. induction n as [|n IH]; intros cs Hf Hn; cbn; [split; [constructor|lia]|].
    destruct (List.find is_tau_leaf cs) as [c|] eqn:E.
    - apply find_some in E as [Hin Hc]. apply is_tau_leaf_ok in Hc. subst.
      destruct (remove_tau cs Hf Hin) as (l1 & l2 & -> & ->).
      assert (Hf' : Forall wfi (l1 ++ l2)).
      { apply Forall_app in Hf as [? Hf]. inversion Hf; subst. apply Forall_app; auto. }
      rewrite filter_app, app_length in Hn. cbn in Hn.
      destruct (IH (l1 ++ l2) Hf') as [H1 H2]; [rewrite filter_app, app_length; lia|].
      split; [constructor; auto|]. rewrite H2, !filter_app, !app_length. cbn. lia.
    - pose proof (find_none _ _ E). assert (Hin : In tau cs) by (apply ntau_in; lia).
      specialize (H _ Hin). discriminate.
  Qed.
  Lemma remove_iter_ok n i cs : Forall wfi cs -> taus_removed cs (remove_iter eqb n i cs).
  Proof.
    revert i cs. induction n as [|n IH]; intros i cs Hf; cbn; [constructor|].
    destruct (nth_error cs i) as [c|] eqn:E; [|constructor]. destruct (is_tau_leaf c) eqn:Ec; [|apply IH; auto].
    apply is_tau_leaf_ok in Ec. subst. apply nth_error_In in E.
    destruct (remove_tau cs Hf E) as (l1 & l2 & -> & ->). constructor. apply IH.
    apply Forall_app in Hf as [? Hf]. inversion Hf; subst. apply Forall_app; auto.
  Qed.
  Lemma filter_all cs : length cs = ntau cs -> forall c, In c cs -> c = tau.
  Proof.
    assert (B : forall cs, ntau cs <= length cs) by (intros l; induction l as [|x l IHl]; cbn; [lia|destruct (is_tau_leaf x); cbn; lia]).
    induction cs as [|c cs IH]; cbn; intros H x Hx; [destruct Hx|].
    destruct (is_tau_leaf c) eqn:E.
    - cbn in H. destruct Hx as [<-|Hx]; [apply is_tau_leaf_ok; auto|apply IH; auto].
    - pose proof (B cs). lia.
  Qed.
  Lemma filter_some cs : length cs <> ntau cs -> exists c, In c cs /\ c <> tau.
  Proof.
    induction cs as [|c cs IH]; cbn; intros H; [lia|]. destruct (is_tau_leaf c) eqn:E.
    - cbn in H. destruct IH as (x & ? & ?); [lia|]. exists x. auto.
    - exists c. split; auto. intros ->. discriminate.
  Qed.

  Lemma loop_tau2 : same_lang (Node Loop [tau; tau]) (Node Loop [tau]).
  Proof.
    assert (G : forall rs, (forall r, In r rs -> r = tau) -> forall w, lang (Node Loop (tau :: rs)) w <-> w = []).
    { intros rs Hrs w. rewrite lang_loop. split.
      - induction 1 as [w H|w v w' Hd (r & Hr & Hv) _ IH]; [apply lang_tau; auto|].
        apply lang_tau in Hd. rewrite (Hrs _ Hr) in Hv. apply lang_tau in Hv. subst. auto.
      - intros ->. constructor. constructor. }
    intros w. rewrite !G; [reflexivity|intros ? []|intros ? [<-|[]]; auto].
  Qed.
  Lemma single_lang o c : wfi (Node o [c]) -> same_lang (Node o [c]) c.
  Proof.
    intros Hwf. apply wfi_node in Hwf as (_ & Hl & _). intros w. destruct o.
    - rewrite lang_seq. split.
      + intros (ws & H & ->). inversion H as [|? x ? ? Hx Hn]; subst. inversion Hn; subst. cbn. rewrite app_nil_r. auto.
      + intros H. exists [w]. split; [repeat constructor; auto|]. cbn. rewrite app_nil_r. auto.
    - rewrite lang_xor. split; [intros (d & [<-|[]] & H); auto|intros H; exists c; split; [left|]; auto].
    - rewrite lang_par. split.
      + intros (ws & H & Hs). inversion H as [|? x ? ? Hx Hn]; subst. inversion Hn; subst. apply shuffle_one in Hs. subst. auto.
      + intros H. exists [w]. split; [repeat constructor; auto|]. apply shuffle_one. auto.
    - destruct (Hl eq_refl) as [H|H]; [cbn in H; lia|]. inversion H; subst.
      rewrite lang_loop. split.
      + inversion 1 as [|? ? ? ? (? & [] & _)]; subst; auto.
      + intros Hw. constructor. auto.
    - rewrite lang_or. split.
      + intros (cs' & ws & Hsel & Hne & H & Hs). inversion Hsel as [|? ? ? S|? ? ? S]; subst; inversion S; subst; [congruence|].
        inversion H as [|? x ? ? Hx Hn]; subst. inversion Hn; subst. apply shuffle_one in Hs. subst. auto.
      + intros H. exists [c], [w]. split; [apply select_all|]. split; [discriminate|].
        split; [repeat constructor; auto|]. apply shuffle_one. auto.
    - rewrite lang_int. split.
      + intros (cs' & ws & Hp & H & ->). apply Permutation_length_1_inv in Hp. subst.
        inversion H as [|? x ? ? Hx Hn]; subst. inversion Hn; subst. cbn. rewrite app_nil_r. auto.
      + intros H. exists [c], [w]. split; [constructor; auto|]. split; [repeat constructor; auto|]. cbn. rewrite app_nil_r. auto.
  Qed.

  (** reduce_children on a node with well-formed children *)
  Lemma reduce_children_ok o cs : wfi (Node o cs) ->
    let cs' := reduce_children eqb o cs in
    wfi (Node o cs') /\ same_lang (Node o cs) (Node o cs') /\ shrinks cs' cs.
  Proof.
    intros Hwf. cbn zeta. pose proof (proj1 (wfi_node _ _) Hwf) as (Hne & Hl & Hf). unfold reduce_children.
    destruct (Nat.eqb_spec (ntau cs) 0) as [E0|E0]; [split; auto; split; [apply same_lang_refl|left; auto]|].
    assert (Same : wfi (Node o cs) /\ same_lang (Node o cs) (Node o cs) /\ shrinks cs cs)
      by (split; auto; split; [apply same_lang_refl|left; auto]).
    assert (Keep : (o = Sequence \/ o = Parallel) \/ (o = Xor \/ o = Or) ->
        let cs' := drop_taus eqb (ntau cs - 1) cs in
        wfi (Node o cs') /\ same_lang (Node o cs) (Node o cs') /\ shrinks cs' cs).
    { intros Ho. cbn zeta. destruct (drop_taus_ok (ntau cs - 1) cs Hf) as [H1 H2]; [lia|].
      assert (Hin : In tau (drop_taus eqb (ntau cs - 1) cs)) by (apply ntau_in; rewrite H2; lia).
      split; [|split].
      - apply wfi_node. split; [intros E; rewrite E in Hin; destruct Hin|]. split.
        + intros ->. destruct Ho as [[?|?]|[?|?]]; discriminate.
        + eapply taus_removed_Forall; eauto.
      - apply taus_removed_lang; auto. destruct Ho; auto.
      - apply taus_removed_shrinks. auto. }
    destruct (Nat.eqb_spec (length cs) (ntau cs)) as [E|E].
    - destruct o; auto.
      destruct (Nat.eqb_spec (length cs) 2) as [E2|E2]; [|exact Same].
      pose proof (filter_all cs E) as Ht. destruct cs as [|a [|b [|? ?]]]; cbn in E2; try discriminate.
      rewrite (Ht a), (Ht b) by (cbn; auto). cbn.
      split; [|split].
      + apply wfi_node. split; [discriminate|]. split; [auto|]. repeat constructor.
      + apply loop_tau2.
      + right. split; cbn; lia.
    - destruct (filter_some cs E) as (x & Hx & Hxt).
      assert (Iter : o = Sequence \/ o = Parallel -> let cs' := remove_iter eqb (length cs) 0 cs in
          wfi (Node o cs') /\ same_lang (Node o cs) (Node o cs') /\ shrinks cs' cs).
      { intros Ho. cbn zeta. pose proof (remove_iter_ok (length cs) 0 cs Hf) as H1. split; [|split].
        - apply wfi_node. split; [|split].
          + intros E'. pose proof (taus_removed_in _ _ _ H1 Hx Hxt) as Hin. rewrite E' in Hin. destruct Hin.
          + intros ->. destruct Ho; discriminate.
          + eapply taus_removed_Forall; eauto.
        - apply taus_removed_lang; auto.
        - apply taus_removed_shrinks. auto. }
      destruct o; auto.
  Qed.

  Lemma reduce_node o cs : reduce_tau_leafs eqb (Node o cs) = Node o (reduce_children eqb o (map (reduce_tau_leafs eqb) cs)).
  Proof. cbn. do 2 f_equal. Qed.

  Lemma reduce_ok t : wfi t -> wfi (reduce_tau_leafs eqb t) /\ same_lang t (reduce_tau_leafs eqb t) /\
    shrink (reduce_tau_leafs eqb t) t.
  Proof.
    induction t as [l|o cs IH] using tree_ind2; intros Hwf.
    - cbn. split; auto. split; [apply same_lang_refl|left; auto].
    - apply wfi_node in Hwf as (Hne & Hl & Hf). rewrite reduce_node.
      assert (H : Forall wfi (map (reduce_tau_leafs eqb) cs) /\ Forall2 same_lang cs (map (reduce_tau_leafs eqb) cs) /\
                  Forall2 shrink (map (reduce_tau_leafs eqb) cs) cs).
      { clear Hne Hl. induction cs as [|c cs IHc]; [repeat constructor|]. inversion IH; inversion Hf; subst.
        destruct IHc as (? & ? & ?); auto. destruct H1 as (? & ? & ?); auto. cbn. repeat split; constructor; auto. }
      destruct H as (H1 & H2 & H3).
      assert (Hwf' : wfi (Node o (map (reduce_tau_leafs eqb) cs))).
      { apply wfi_node. split; [intros E; apply map_eq_nil in E; auto|]. split; auto.
        intros Ho. rewrite map_length. destruct (Hl Ho) as [?| ->]; [auto|right; reflexivity]. }
      destruct (reduce_children_ok o _ Hwf') as (H4 & H5 & H6). split; auto. split.
      + eapply same_lang_trans; [|exact H5]. apply same_lang_node. auto.
      + apply shrinks_node; auto.
        * apply wfi_node in H4 as (? & _). auto.
        * eapply shrinks_trans; [exact H6|]. apply shrink_list. auto.
  Qed.

  (** ** splicing *)
  Lemma splice_lang o (l1 ccs l2 : list (tree A)) : o = Sequence \/ o = Xor \/ o = Parallel ->
    same_lang (Node o (l1 ++ Node o ccs :: l2)) (Node o (l1 ++ ccs ++ l2)).
  Proof.
    intros [->|[->| ->]] w.
    - rewrite !lang_seq. split.
      + intros (ws & H & ->). apply Forall2_app_inv_l in H as (w1 & w2 & H1 & H2 & ->).
        inversion H2 as [|? x ? w3 Hx H3]; subst. apply lang_seq in Hx as (wc & Hc & ->).
        exists (w1 ++ wc ++ w3). split; [repeat apply Forall2_app; auto|]. rewrite !concat_app. cbn. auto.
      + intros (ws & H & ->). apply Forall2_app_inv_l in H as (w1 & w2 & H1 & H2 & ->).
        apply Forall2_app_inv_l in H2 as (wc & w3 & Hc & H3 & ->).
        exists (w1 ++ concat wc :: w3). split; [apply Forall2_app; auto; constructor; auto; apply lang_seq; eauto|].
        rewrite !concat_app. cbn. auto.
    - rewrite !lang_xor. split.
      + intros (c & Hc & Hw). apply in_app_or in Hc as [?|[<-|?]].
        * exists c. rewrite !in_app_iff. auto.
        * apply lang_xor in Hw as (d & Hd & Hw). exists d. rewrite !in_app_iff. auto.
        * exists c. rewrite !in_app_iff. auto.
      + intros (c & Hc & Hw). rewrite !in_app_iff in Hc. destruct Hc as [?|[?|?]].
        * exists c. rewrite in_app_iff. auto.
        * exists (Node Xor ccs). split; [apply in_elt|]. apply lang_xor. eauto.
        * exists c. rewrite in_app_iff. split; auto. right; right; auto.
    - rewrite !lang_par. split.
      + intros (ws & H & Hs). apply Forall2_app_inv_l in H as (w1 & w2 & H1 & H2 & ->).
        inversion H2 as [|? x ? w3 Hx H3]; subst. apply lang_par in Hx as (wc & Hc & Hsc).
        exists (w1 ++ wc ++ w3). split; [repeat apply Forall2_app; auto|]. apply shuffle_flatten. eauto.
      + intros (ws & H & Hs). apply Forall2_app_inv_l in H as (w1 & w2 & H1 & H2 & ->).
        apply Forall2_app_inv_l in H2 as (wc & w3 & Hc & H3 & ->).
        apply shuffle_flatten in Hs as (v & Hv & Hs).
        exists (w1 ++ v :: w3). split; [apply Forall2_app; auto; constructor; auto; apply lang_par; eauto|auto].
  Qed.

  Lemma py_index_first l1 x l2 : wfi x -> Forall wfi l1 -> ~ In x l1 ->
    py_index eqb x (l1 ++ x :: l2) = Some (length l1).
  Proof.
    intros Hx Hf Hn. induction l1 as [|y l1 IH]; cbn.
    - rewrite (proj2 (tree_eqb_ok x Hx x Hx) eq_refl). reflexivity.
    - inversion Hf; subst. destruct (tree_eqb eqb y x) eqn:E.
      + apply tree_eqb_ok in E; auto. subst. destruct Hn. left; auto.
      + rewrite IH; auto. intros Hi. apply Hn. right; auto.
  Qed.
  Lemma size_in c cs : In c cs -> size c <= sizes cs.
  Proof. induction cs as [|d cs IH]; [intros []|]. rewrite sizes_cons. intros [->|H]; [lia|]. specialize (IH H). lia. Qed.

  Definition has_op o t := match t with Node o' _ => op_eqb o' o | Leaf _ => false end.

  Lemma splice_ok o : (o = Sequence \/ o = Xor \/ o = Parallel) ->
    forall chlds cs others, Permutation cs (chlds ++ others) -> Forall wfi cs -> cs <> [] ->
    exists cs', splice eqb o chlds cs = Some cs' /\ same_lang (Node o cs) (Node o cs') /\
      (forall P, (forall o l, @everywhere A P (Node o l) -> Forall (everywhere P) l) ->
         Forall (everywhere P) cs -> Forall (everywhere P) cs') /\
      Forall wfi cs' /\ cs' <> [] /\ shrinks cs' cs /\
      ((exists c, In c chlds /\ has_op o c = true) -> shrunks cs' cs).
  Proof.
    intros Ho. induction chlds as [|c chlds IH]; intros cs others Hp Hf Hne.
    - exists cs. split; [reflexivity|]. split; [apply same_lang_refl|]. repeat split; auto; [left; auto|..];
      destruct H as (? & [] & _).
    - assert (Hskip : has_op o c = false -> splice eqb o (c :: chlds) cs = splice eqb o chlds cs).
      { destruct c as [l|o' ccs]; cbn; [reflexivity|]. intros ->. reflexivity. }
      destruct (has_op o c) eqn:Eop.
      + destruct c as [l|o' ccs]; [discriminate|]. cbn in Eop. cbn [splice]. rewrite Eop. apply op_eqb_ok in Eop. subst o'.
        assert (Hin : In (Node o ccs) cs) by (eapply Permutation_in; [symmetry; exact Hp|left; auto]).
        assert (Hwc : wfi (Node o ccs)) by (rewrite Forall_forall in Hf; auto).
        destruct (first_split _ _ Hin Hwc Hf) as (l1 & l2 & -> & Hn).
        pose proof Hf as Hf'. apply Forall_app in Hf' as [Hf1 Hf2]. inversion Hf2 as [|? ? _ Hf3]; subst.
        pose proof (proj1 (wfi_node _ _) Hwc) as (Hcne & _ & Hcf).
        rewrite py_index_first by auto.
        rewrite firstn_app, skipn_app, Nat.sub_diag, firstn_all, skipn_all, firstn_O, skipn_O, app_nil_r. cbn [app].
        rewrite app_assoc, py_remove_first.
        2: exact Hwc. 2: { repeat (apply Forall_app; split); auto. }
        2: { rewrite in_app_iff. intros [?|Hi]; [auto|]. apply size_in in Hi. rewrite size_node in Hi. lia. }
        assert (Hp' : Permutation ((l1 ++ ccs) ++ l2) (chlds ++ others ++ ccs)).
        { rewrite <- app_assoc. rewrite (Permutation_app_comm ccs), app_assoc. rewrite (app_assoc chlds).
          apply Permutation_app_tail. cbn in Hp. symmetry in Hp. apply Permutation_cons_app_inv in Hp. symmetry. exact Hp. }
        destruct (IH ((l1 ++ ccs) ++ l2) _ Hp') as (cs' & E & HL & HP & Hw & Hne' & Hs & _).
        { repeat (apply Forall_app; split); auto. }
        { destruct ccs; [congruence|]. destruct l1; discriminate. }
        assert (Hstep : shrunks ((l1 ++ ccs) ++ l2) (l1 ++ Node o ccs :: l2)).
        { unfold shrunks. rewrite !sizes_app, !clens_app, sizes_cons, clens_cons, size_node, clen_node by auto. lia. }
        assert (Hstep' : shrunks cs' (l1 ++ Node o ccs :: l2)).
        { destruct Hs as [->|[? ?]]; auto. destruct Hstep. split; lia. }
        exists cs'. split; [exact E|]. split; [|split; [|split; [|split; [|split]]]]; auto.
        * eapply same_lang_trans; [|exact HL]. rewrite <- app_assoc. apply splice_lang. auto.
        * intros P HPinv HPc. apply HP; auto. apply Forall_app in HPc as [HP1 HP2]. inversion HP2 as [|? ? HPn HP3]; subst.
          apply HPinv in HPn. repeat (apply Forall_app; split); auto.
        * right. auto.
      + rewrite Hskip by auto. destruct (IH cs (c :: others)) as (cs' & E & HL & HP & Hw & Hne' & Hs & Hx); auto.
        { etransitivity; [exact Hp|]. cbn. apply Permutation_middle. }
        exists cs'. do 6 (split; [auto|]). intros (d & [<-|Hd] & Hdo); [congruence|]. apply Hx. eauto.
  Qed.

  (** ** _fold *)
  Lemma everywhere_inv P o l : @everywhere A P (Node o l) -> Forall (everywhere P) l.
  Proof. inversion 1; auto. Qed.
  Lemma wf_node o cs : shape_ok (Node o cs) -> Forall wf_tree cs -> wf_tree (@Node A o cs).
  Proof. constructor; auto. Qed.
  Lemma all_taus_lang o cs : o = Sequence \/ o = Parallel -> taus_removed cs [] -> same_lang (Node o cs) tau.
  Proof.
    intros Ho H. eapply same_lang_trans; [apply taus_removed_lang; [exact H|auto]|].
    intros w. destruct Ho as [->| ->].
    - rewrite lang_seq, lang_tau. split; [intros (ws & Hf & ->); inversion Hf; auto|intros ->; exists []; split; auto].
    - rewrite lang_par, lang_tau. split.
      + intros (ws & Hf & Hs). inversion Hf; subst. apply shuffle_empty in Hs. auto.
      + intros ->. exists []. split; auto. constructor. intros ? [].
  Qed.
  Lemma filter_taus cs : taus_removed cs (List.filter (fun c => negb (is_tau_leaf c)) cs).
  Proof.
    enough (G : forall l1, taus_removed (l1 ++ cs) (l1 ++ List.filter (fun c => negb (is_tau_leaf c)) cs)) by apply (G []).
    induction cs as [|c cs IH]; intros l1; [constructor|]. cbn. destruct (is_tau_leaf c) eqn:E; cbn.
    - apply is_tau_leaf_ok in E. subst. constructor. apply IH.
    - specialize (IH (l1 ++ [c])). rewrite <- !app_assoc in IH. exact IH.
  Qed.
  Lemma drop_silent_ok o cs : taus_removed cs (drop_silent o cs).
  Proof. destruct o; cbn; try constructor; apply filter_taus. Qed.

  Lemma somes_map_Some {X} (l : list X) : somes (map Some l) = l.
  Proof. induction l; cbn; congruence. Qed.

  (** the node case of [_fold] after the recursive calls *)
  Definition combine o (cs1 : list (tree A)) : option (option (tree A)) :=
    match cs1 with
    | [] => Some None
    | [c] => Some (Some c)
    | _ => match drop_silent o cs1 with
           | [] => Some (Some tau)
           | cs2 => match o with
                    | Sequence | Xor | Parallel => option_map (fun cs3 => Some (Node o cs3)) (splice eqb o cs2 cs2)
                    | _ => Some (Some (Node o cs2))
                    end
           end
    end.
  Lemma pfold_S n t : pfold eqb (S n) t =
    match reduce_tau_leafs eqb t with
    | Leaf l => Some (Some (Leaf l))
    | Node o [] => Some (Some (Node o []))
    | Node o cs => match map_opt (pfold eqb n) cs with None => None | Some rs => combine o (somes rs) end
    end.
  Proof.
    cbn [pfold]. destruct (reduce_tau_leafs eqb t) as [l|o [|c cs]]; try reflexivity.
    destruct (map_opt (pfold eqb n) (c :: cs)) as [rs|]; [|reflexivity]. unfold combine.
    destruct (somes rs) as [|x [|y l]]; reflexivity.
  Qed.

  (** a folded node: no single children, no silent or same-operator children where they matter *)
  Definition tidy t : Prop :=
    match t with
    | Leaf _ => True
    | Node o cs => 2 <= length cs /\
        ((o = Sequence \/ o = Parallel) -> ~ In tau cs) /\
        ((o = Sequence \/ o = Xor \/ o = Parallel) -> forall c, In c cs -> has_op o c = false)
    end.

  Lemma combine_ok o cs : wfi (Node o cs) -> Forall wf_tree cs ->
    exists t', combine o cs = Some (Some t') /\ wf_tree t' /\ same_lang (Node o cs) t' /\ shrink t' (Node o cs) /\
      (t' = Node o cs -> tidy (Node o cs)).
  Proof.
    intros Hwf Hwfc. pose proof (proj1 (wfi_node _ _) Hwf) as (Hne & Hl & Hf).
    destruct cs as [|c [|d ds]]; [congruence| |].
    - cbn. exists c. split; [auto|]. inversion Hwfc; subst. split; auto. split; [apply single_lang; auto|].
      assert (Hs : shrunk c (Node o [c])).
      { unfold shrunk. rewrite size_node, clen_node by discriminate. unfold sizes, clens. cbn. lia. }
      split; [right; auto|]. intros E. destruct Hs as [Hs _]. rewrite <- E in Hs. lia.
    - remember (c :: d :: ds) as cs eqn:Ecs. assert (Hlen : 2 <= length cs) by (subst; cbn; lia).
      pose proof (drop_silent_ok o cs) as Htr.
      assert (Hc : combine o cs = match drop_silent o cs with
           | [] => Some (Some tau)
           | cs2 => match o with
                    | Sequence | Xor | Parallel => option_map (fun cs3 => Some (Node o cs3)) (splice eqb o cs2 cs2)
                    | _ => Some (Some (Node o cs2))
                    end
           end) by (subst; reflexivity).
      rewrite Hc. clear Hc Ecs c d ds.
      remember (drop_silent o cs) as cs2 eqn:E2.
      destruct cs2 as [|x cs2].
      + exists tau. split; auto. split; [constructor; exact I|].
        assert (Ho : o = Sequence \/ o = Parallel).
        { destruct o; auto; cbn in E2; subst; cbn in Hlen; lia. }
        split; [apply all_taus_lang; auto|].
        assert (Hs : shrunk tau (Node o cs)).
        { unfold shrunk. rewrite size_node, clen_node by auto. pose proof (taus_removed_shrinks _ _ Htr) as [E|[H1 H2]].
          - subst. cbn in Hlen. lia.
          - change (sizes []) with 0 in H1. change (clens []) with 0 in H2. change (size tau) with 1.
            change (clen tau) with 3. assert (1 <= length (op_str o)) by (destruct o; cbn; lia). lia. }
        split; [right; auto|]. intros E. discriminate.
      + remember (x :: cs2) as ds eqn:Eds. assert (Hdne : ds <> []) by (subst; discriminate).
        assert (Hfd : Forall wfi ds) by (eapply taus_removed_Forall; eauto).
        assert (Hwd : Forall wf_tree ds) by (eapply taus_removed_Forall; eauto).
        clear Eds x cs2.
        assert (Hplain : drop_silent o cs = cs -> o = Loop \/ o = Or \/ o = Interleaving ->
          exists t', Some (Some (Node o ds)) = Some (Some t') /\ wf_tree t' /\ same_lang (Node o cs) t' /\
            shrink t' (Node o cs) /\ (t' = Node o cs -> tidy (Node o cs))).
        { intros E Ho. rewrite E in E2. subst ds. exists (Node o cs). split; auto.
          split; [|split; [apply same_lang_refl|split; [left; auto|]]].
          - apply wf_node; auto. destruct Ho as [->|[->| ->]]; cbn; auto.
          - intros _. split; [lia|]. destruct Ho as [->|[->| ->]]; split; intros [?|?]; try discriminate; destruct H; discriminate. }
        assert (Hspl : (o = Sequence \/ o = Xor \/ o = Parallel) -> same_lang (Node o cs) (Node o ds) ->
          exists t', option_map (fun cs3 => Some (Node o cs3)) (splice eqb o ds ds) = Some (Some t') /\ wf_tree t' /\
            same_lang (Node o cs) t' /\ shrink t' (Node o cs) /\ (t' = Node o cs -> tidy (Node o cs))).
        { intros Ho HL. destruct (splice_ok o Ho ds ds []) as (cs' & E & HL' & HP & Hw & Hne' & Hs & Hx); auto.
          { rewrite app_nil_r. auto. }
          exists (Node o cs'). rewrite E. split; auto. split; [|split; [|split]].
          - apply wf_node; [destruct Ho as [->|[->| ->]]; auto|]. apply HP; auto. apply everywhere_inv.
          - eapply same_lang_trans; eauto.
          - apply shrinks_node; auto. eapply shrinks_trans; [exact Hs|]. apply taus_removed_shrinks. auto.
          - intros Ecs. inversion Ecs; subst cs'. pose proof (taus_removed_shrinks _ _ Htr) as Hs2.
            assert (Eds : ds = cs).
            { destruct Hs2 as [?|[H1 H2]]; auto. destruct Hs as [?|[H3 H4]]; [congruence|lia]. }
            rewrite Eds in *. split; [lia|]. split.
            + intros Ho' Hin. assert (Hf0 : List.filter (fun c => negb (is_tau_leaf c)) cs = cs)
                by (destruct Ho' as [->| ->]; auto).
              rewrite <- Hf0 in Hin. apply filter_In in Hin as [_ Hin]. discriminate.
            + intros _ c Hin. destruct (has_op o c) eqn:Eo; auto. destruct Hx as [H1 _]; [eauto|]. lia. }
        destruct o; auto.
        * apply Hspl; auto. apply taus_removed_lang; auto.
        * apply Hspl; auto. cbn in E2. subst. apply same_lang_refl.
        * apply Hspl; auto. apply taus_removed_lang; auto.
  Qed.

  Lemma pfold_ok n t : size t <= n -> wfi t ->
    exists t', pfold eqb n t = Some (Some t') /\ wf_tree t' /\ same_lang t t' /\ shrink t' t /\
      (t' = t -> everywhere tidy t).
  Proof.
    revert t. induction n as [|n IH]; intros t Hsz Hwf; [pose proof (size_pos t); lia|].
    rewrite pfold_S. destruct (reduce_ok t Hwf) as (Hw & HL & Hs).
    destruct (reduce_tau_leafs eqb t) as [l|o cs] eqn:E.
    - exists (Leaf l). repeat (split; auto). { constructor. exact I. } intros <-. constructor. exact I.
    - pose proof (proj1 (wfi_node _ _) Hw) as (Hne & Hl & Hf).
      assert (Hsc : S (sizes cs) <= S n) by (rewrite <- (size_node o); destruct Hs as [->|[? ?]]; lia).
      assert (Hm : exists cs', map_opt (pfold eqb n) cs = Some (map Some cs') /\ Forall2 same_lang cs cs' /\
        Forall wf_tree cs' /\ Forall2 shrink cs' cs /\ (cs' = cs -> Forall (everywhere tidy) cs)).
      { clear Hne Hl Hw HL Hs E. induction cs as [|c cs IHc]; [exists []; repeat split; constructor|].
        inversion Hf; subst. rewrite sizes_cons in Hsc. pose proof (size_pos c).
        destruct IHc as (cs' & E & H4 & H5 & H6 & H7); [auto|lia|].
        destruct (IH c) as (c' & Ec & H8 & H9 & H10 & H11); [lia|auto|].
        exists (c' :: cs'). cbn. rewrite Ec, E. split; [auto|]. split; [constructor; auto|]. split; [constructor; auto|].
        split; [constructor; auto|]. intros Eq. inversion Eq; subst. constructor; auto. }
      destruct Hm as (cs' & Em & HLc & Hwc & Hsh & Htidy). destruct cs as [|c0 cs0] eqn:Ecs; [congruence|]. rewrite <- Ecs in *.
      rewrite Em, somes_map_Some.
      assert (Hlen : length cs' = length cs) by (clear - Hsh; induction Hsh; cbn; auto).
      assert (Hwf2 : wfi (Node o cs')).
      { apply wfi_node. split; [intros ->; subst; cbn in Hlen; lia|]. split.
        - intros Ho. rewrite Hlen. destruct (Hl Ho) as [?|Et]; auto. right. rewrite Et in Hsh.
          inversion Hsh as [|c' ? ? ? H1 H2]; subst. inversion H2; subst.
          destruct H1 as [->|[H1 _]]; [auto|]. cbn in H1. pose proof (size_pos c'). lia.
        - rewrite Forall_forall in *. intros x Hx. apply wf_wfi. auto. }
      destruct (combine_ok o cs' Hwf2 Hwc) as (t' & Ec & Hwt & HLt & Hst & Ht).
      exists t'. split; auto. split; auto.
      assert (Hchain : shrink (Node o cs') (Node o cs)).
      { apply shrinks_node; auto; [|apply shrink_list; auto]. apply wfi_node in Hwf2 as (? & _). auto. }
      assert (Hall : shrink t' t) by (eapply shrink_trans; [exact Hst|]; eapply shrink_trans; [exact Hchain|exact Hs]).
      split; [|split; [exact Hall|]].
      + eapply same_lang_trans; [exact HL|]. eapply same_lang_trans; [apply same_lang_node; exact HLc|exact HLt].
      + intros ->.
        assert (Z1 : size t <= size (Node o cs')) by (destruct Hst as [E0|[H0 _]]; [rewrite <- E0|]; lia).
        assert (Z2 : size (Node o cs') <= size (Node o cs)) by (destruct Hchain as [E0|[H0 _]]; [rewrite E0|]; lia).
        assert (E1 : Node o cs = t) by (destruct Hs as [?|[H1 _]]; [auto|lia]).
        assert (E2 : Node o cs' = Node o cs) by (destruct Hchain as [?|[H1 _]]; [auto|rewrite E1 in H1; lia]).
        rewrite <- E1. constructor.
        * rewrite <- E2. apply Ht. congruence.
        * apply Htidy. congruence.
  Qed.

  (** ** fold *)
  Lemma unwrap_ok t : wfi t -> wfi (unwrap t) /\ same_lang t (unwrap t) /\ shrink (unwrap t) t.
  Proof.
    induction t as [l|o cs IH] using tree_ind2; intros Hwf; [cbn; split; auto; split; [apply same_lang_refl|left; auto]|].
    destruct cs as [|c [|d ds]]; [cbn; split; auto; split; [apply same_lang_refl|left; auto]| |cbn; split; auto; split; [apply same_lang_refl|left; auto]].
    cbn. inversion IH; subst. pose proof (proj1 (wfi_node _ _) Hwf) as (_ & _ & Hf). inversion Hf; subst.
    destruct H1 as (H5 & H6 & H7); auto. split; auto. split.
    - eapply same_lang_trans; [apply single_lang; auto|auto].
    - eapply shrink_trans; [exact H7|]. right. unfold shrunk.
      rewrite size_node, clen_node by discriminate. unfold sizes, clens. cbn. lia.
  Qed.
  Lemma shrink_size a b : shrink a b -> size a <= size b. Proof. intros [->|[? _]]; lia. Qed.
  Lemma shrink_neq a b : shrink a b -> a <> b -> size a < size b. Proof. intros [->|[? _]]; [congruence|lia]. Qed.

  Lemma fold_ok n t : size t < n -> wfi t ->
    exists t', fold eqb lab n t = Some t' /\ wf_tree t' /\ same_lang t t' /\ shrink t' t /\ everywhere tidy t'.
  Proof.
    revert t. induction n as [|n IH]; intros t Hsz Hwf; [lia|]. cbn [fold].
    destruct (pfold_ok (size t) t (le_n _) Hwf) as (t1 & -> & Hw1 & HL1 & Hs1 & _).
    destruct (unwrap_ok t1 (wf_wfi _ Hw1)) as (Hw2 & HL2 & Hs2).
    destruct (reduce_ok _ Hw2) as (Hw3 & HL3 & Hs3). cbv zeta.
    set (t2 := unwrap t1) in *. set (t3 := reduce_tau_leafs eqb t2) in *.
    pose proof (shrink_size _ _ Hs1). pose proof (shrink_size _ _ Hs2). pose proof (shrink_size _ _ Hs3).
    assert (H4 : exists t4, (if Nat.eqb (length (show lab t3)) (length (show lab t2)) then Some t3 else fold eqb lab n t3) = Some t4 /\
      wfi t4 /\ same_lang t3 t4 /\ shrink t4 t3).
    { destruct (Nat.eqb_spec (length (show lab t3)) (length (show lab t2))) as [E|E].
      - exists t3. split; auto. split; auto. split; [apply same_lang_refl|left; auto].
      - destruct (IH t3) as (t4 & -> & Hw4 & HL4 & Hs4 & _); auto.
        { assert (Hneq : t3 <> t2) by (intros Heq; rewrite Heq in E; auto). pose proof (shrink_neq _ _ Hs3 Hneq). lia. }
        exists t4. split; auto using wf_wfi. }
    destruct H4 as (t4 & -> & Hw4 & HL4 & Hs4).
    destruct (pfold_ok (size t4) t4 (le_n _) Hw4) as (t5 & -> & Hw5 & HL5 & Hs5 & Ht5).
    pose proof (shrink_size _ _ Hs4). pose proof (shrink_size _ _ Hs5).
    assert (HL : same_lang t t5).
    { eapply same_lang_trans; [exact HL1|]. eapply same_lang_trans; [exact HL2|]. eapply same_lang_trans; [exact HL3|].
      eapply same_lang_trans; [exact HL4|exact HL5]. }
    assert (HS : shrink t5 t).
    { eapply shrink_trans; [exact Hs5|]. eapply shrink_trans; [exact Hs4|]. eapply shrink_trans; [exact Hs3|].
      eapply shrink_trans; [exact Hs2|exact Hs1]. }
    destruct (Nat.eqb_spec (length (show lab t5)) (length (show lab t4))) as [E|E].
    - pose proof (shrink_slen _ _ Hs5 E) as ->. exists t4. split; auto.
    - destruct (IH t5) as (t6 & E6 & Hw6 & HL6 & Hs6 & Ht6); auto using wf_wfi.
      { assert (Hneq : t5 <> t4) by (intros Heq; rewrite Heq in E; auto). pose proof (shrink_neq _ _ Hs5 Hneq). lia. }
      exists t6. split; auto. split; auto. split; [eapply same_lang_trans; eauto|]. split; auto. eapply shrink_trans; eauto.
  Qed.
End F.
