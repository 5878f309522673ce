(** Printing and parsing. *)
From Coq Require Import String Ascii List Arith ZArith Bool Lia.
Import ListNotations.
From Verif Require Import Model_Tree Spec_Tree Proofs_Shuffle Proofs_Fold Model_Parse Spec_Parse.
Local Open Scope list_scope.

(** ** stripping *)
Definition ends_ok (s : text) : Prop := s = [] \/ exists s' c, s = s' ++ [c] /\ is_space c = false.
Definition clean (s : text) : Prop := forall c, In c s -> c <> c_cr /\ c <> c_nl.
Lemma lstrip_id c s : is_space c = false -> lstrip (c :: s) = c :: s.
Proof. intros H. cbn. rewrite H. reflexivity. Qed.
Lemma lstrip_suffix s : exists p, s = p ++ lstrip s.
Proof.
  induction s as [|c s [p IH]]; [exists []; reflexivity|]. cbn. destruct (is_space c); [exists (c :: p); cbn; congruence|exists []; auto].
Qed.
Lemma lstrip_ends s : ends_ok s -> ends_ok (lstrip s).
Proof.
  intros [->|(s' & c & -> & Hc)]; [left; auto|]. right.
  induction s' as [|d s' IH]; cbn.
  - rewrite Hc. exists [], c. auto.
  - destruct (is_space d); auto. exists (d :: s'), c. auto.
Qed.
Lemma rstrip_ends s : ends_ok s -> rev (lstrip (rev s)) = s.
Proof.
  intros [->|(s' & c & -> & Hc)]; [reflexivity|]. rewrite rev_app_distr. cbn [rev app]. rewrite lstrip_id by auto.
  cbn. rewrite rev_involutive. reflexivity.
Qed.
Lemma strip_ends s : ends_ok s -> strip s = lstrip s.
Proof. intros H. unfold strip. apply rstrip_ends, lstrip_ends, H. Qed.
Lemma strip_cons c s : ends_ok (c :: s) -> is_space c = false -> strip (c :: s) = c :: s.
Proof. intros H Hc. rewrite strip_ends, lstrip_id; auto. Qed.
Lemma strip_space c s : ends_ok (c :: s) -> is_space c = true -> strip (c :: s) = strip s.
Proof.
  intros H Hc. rewrite !strip_ends; auto; [cbn; rewrite Hc; auto|].
  destruct H as [H|(s' & d & E & Hd)]; [discriminate|]. destruct s' as [|x s']; inversion E; subst; [congruence|right; eauto].
Qed.
Lemma lstrip_len s : length (lstrip s) <= length s.
Proof. induction s as [|c s IH]; cbn; [lia|]. destruct (is_space c); cbn; lia. Qed.
Lemma strip_len s : length (strip s) <= length s.
Proof.
  unfold strip. rewrite rev_length. pose proof (lstrip_len (rev (lstrip s))). rewrite rev_length in *.
  pose proof (lstrip_len s). lia.
Qed.
Lemma filter_le {X} (f : X -> bool) l : length (filter f l) <= length l.
Proof. induction l as [|c l IH]; cbn; [lia|]. destruct (f c); cbn; lia. Qed.
Lemma normalise_len s : length (normalise s) <= length s.
Proof.
  unfold normalise. rewrite map_length. etransitivity; [|apply strip_len]. apply filter_le.
Qed.
Lemma ends_app s r : r <> [] -> ends_ok r -> ends_ok (s ++ r).
Proof.
  intros Hn [->|(s' & c & -> & Hc)]; [congruence|]. right. exists (s ++ s'), c. rewrite app_assoc. auto.
Qed.
Lemma ends_app_one s r c : is_space c = false -> ends_ok r -> ends_ok (s ++ c :: r).
Proof.
  intros Hc [->|(s' & d & -> & Hd)]; right; [exists s, c; auto|]. exists (s ++ c :: s'), d. split; auto.
  change (c :: s' ++ [d]) with ((c :: s') ++ [d]). rewrite app_assoc. auto.
Qed.
Lemma normalise_clean s : ends_ok s -> clean s -> normalise s = strip s.
Proof.
  intros He Hc. unfold normalise. rewrite strip_ends by auto.
  assert (Hl : clean (lstrip s)).
  { intros c Hin. apply Hc. destruct (lstrip_suffix s) as (p & ->). apply in_or_app. auto. }
  revert Hl. generalize (lstrip s). clear. intros l Hl.
  induction l as [|c l IH]; [reflexivity|]. cbn [filter].
  destruct (Hl c (or_introl eq_refl)) as [H1 H2].
  replace (Ascii.eqb c c_cr) with false by (symmetry; apply Ascii.eqb_neq; auto). cbn [negb map].
  replace (Ascii.eqb c c_nl) with false by (symmetry; apply Ascii.eqb_neq; auto).
  f_equal. apply IH. intros d Hd. apply Hl. right. auto.
Qed.

(** ** fuel *)
Definition finish_leaf (k : nat) (d : Z) (r : text) : option (list (Z * kind)) :=
  let dr := closes (List.length r) d r in
  match strip (snd dr) with
  | [] => Some []
  | _ :: r' => parse_rec k r' (fst dr)
  end.
Lemma closes_len n d s : length (snd (closes n d s)) <= length s.
Proof.
  revert d s. induction n as [|n IH]; intros d s; cbn [closes snd]; [lia|]. pose proof (strip_len s) as H.
  destruct (strip s) as [|c r]; cbn [snd]; [lia|]. destruct (Ascii.eqb c c_close); cbn [snd]; [|lia].
  specialize (IH (d - 1)%Z r). cbn [length] in H. lia.
Qed.
Lemma closes_stable n m d s : length s <= n -> length s <= m -> closes n d s = closes m d s.
Proof.
  revert m d s. induction n as [|n IH]; intros m d s Hn Hm.
  - destruct s; [|cbn in Hn; lia]. destruct m; reflexivity.
  - destruct m as [|m]; [destruct s; [reflexivity|cbn in Hm; lia]|]. cbn [closes]. pose proof (strip_len s) as H.
    destruct (strip s) as [|c r]; auto. cbn [length] in H. destruct (Ascii.eqb c c_close); auto. apply IH; lia.
Qed.
Lemma after_prefix_len p s r : after_prefix p s = Some r -> length s = length p + length r.
Proof.
  revert s. induction p as [|c p IH]; intros s H; cbn [after_prefix] in H; [inversion H; auto|].
  destruct s as [|d s]; [discriminate|]. destruct (Ascii.eqb c d); [|discriminate]. cbn. rewrite (IH _ H). lia.
Qed.
Lemma read_op_len os s o r : read_op os s = Some (o, r) -> length r < length s.
Proof.
  induction os as [|o' os IH]; cbn; [discriminate|]. destruct (after_prefix (op_str o') s) as [r'|] eqn:E; auto.
  intros H. injection H as <- <-. apply after_prefix_len in E.
  assert (1 <= length (op_str o')) by (destruct o'; cbn; lia). clear IH. lia.
Qed.
Lemma split_quote_len s u v : split_quote s = Some (u, v) -> length s = length u + length v /\ v <> [].
Proof.
  revert u v. induction s as [|c s IH]; intros u v H; cbn [split_quote] in H; [discriminate|].
  destruct (Ascii.eqb c c_quote); [injection H as <- <-; cbn; split; [lia|discriminate]|].
  destruct (split_quote s) as [[u' v']|]; [|discriminate]. inversion H; subst. destruct (IH _ _ eq_refl). cbn. split; [lia|auto].
Qed.
Lemma read_leaf_len s l r : read_leaf s = Some (l, r) -> length r < length s.
Proof.
  destruct s as [|c s]; cbn [read_leaf]; [discriminate|]. destruct (Ascii.eqb c c_quote).
  - destruct (split_quote s) as [[u [|x v]]|] eqn:E; intros H; inversion H; subst; cbn; try lia.
    destruct (split_quote_len _ _ _ E) as [E' _]. cbn in E'. lia.
  - destruct (after_prefix s_tau (c :: s)) as [r'|] eqn:E; intros H; inversion H; subst. apply after_prefix_len in E.
    change (length s_tau) with 3 in E. lia.
Qed.
Lemma parse_rec_S n s d : parse_rec (S n) s d =
  match read_op op_order (normalise s) with
  | Some (o, r) =>
      if (d <? 0)%Z then None
      else match strip r with
           | c :: r' => if Ascii.eqb c c_open then option_map (cons (d, KOp o)) (parse_rec n r' (d + 1)) else None
           | [] => None
           end
  | None =>
      match read_leaf (normalise s) with
      | None => None
      | Some (l, r) => if (d <? 0)%Z then None else option_map (cons (d, KLeaf l)) (finish_leaf n d r)
      end
  end.
Proof.
  cbn [parse_rec]. destruct (read_op op_order (normalise s)) as [[o r]|]; auto.
  destruct (read_leaf (normalise s)) as [[l r]|]; auto. destruct (d <? 0)%Z; auto. unfold finish_leaf.
  destruct (strip (snd (closes (length r) d r))); auto.
Qed.
Lemma parse_mono n m s d r : n <= m -> parse_rec n s d = Some r -> parse_rec m s d = Some r.
Proof.
  revert m s d r. induction n as [|n IH]; intros m s d r Hnm H; [discriminate|].
  destruct m as [|m]; [lia|]. rewrite parse_rec_S in *.
  destruct (read_op op_order (normalise s)) as [[o r']|].
  - destruct (d <? 0)%Z; auto. destruct (strip r') as [|c r'']; auto. destruct (Ascii.eqb c c_open); auto.
    destruct (parse_rec n r'' (d + 1)) eqn:E; [|discriminate]. erewrite IH; eauto. lia.
  - destruct (read_leaf (normalise s)) as [[l r']|]; auto. destruct (d <? 0)%Z; auto. unfold finish_leaf in *.
    destruct (strip (snd (closes (length r') d r'))) as [|c r'']; auto.
    destruct (parse_rec n r'' _) eqn:E; [|discriminate]. erewrite IH; eauto. lia.
Qed.
Lemma parse_stable n m s d : length s < n -> length s < m -> parse_rec n s d = parse_rec m s d.
Proof.
  revert m s d. induction n as [|n IH]; intros m s d Hn Hm; [lia|]. destruct m as [|m]; [lia|].
  rewrite !parse_rec_S. pose proof (normalise_len s).
  destruct (read_op op_order (normalise s)) as [[o r']|] eqn:E.
  - apply read_op_len in E. pose proof (strip_len r'). destruct (d <? 0)%Z; auto.
    destruct (strip r') as [|c r'']; auto. cbn [length] in *. destruct (Ascii.eqb c c_open); auto. rewrite (IH m) by lia. reflexivity.
  - destruct (read_leaf (normalise s)) as [[l r']|] eqn:E2; auto. apply read_leaf_len in E2. destruct (d <? 0)%Z; auto.
    unfold finish_leaf. pose proof (closes_len (length r') d r'). set (dr := closes (length r') d r') in *.
    pose proof (strip_len (snd dr)). destruct (strip (snd dr)) as [|c r'']; auto. cbn [length] in *. rewrite (IH m) by lia. reflexivity.
Qed.

(** ** the printed text *)
Definition ctext (t : tree text) : text := match t with Leaf (Some a) => s_quote ++ a ++ s_quote | _ => show_tree t end.
Fixpoint ctexts (cs : list (tree text)) : text :=
  match cs with
  | [] => []
  | c :: r => ctext c ++ (match r with [] => [] | _ => s_sep end) ++ ctexts r
  end.
Lemma ctext_node o cs : ctext (Node o cs) = op_str o ++ s_open ++ ctexts cs ++ s_close.
Proof. reflexivity. Qed.

(** nodes in order of creation *)
Fixpoint flat (t : tree text) (d : Z) : list (Z * kind) :=
  match t with
  | Leaf l => [(d, KLeaf l)]
  | Node o cs => (d, KOp o) :: (fix go cs := match cs with [] => [] | c :: r => flat c (d + 1) ++ go r end) cs
  end.
Definition flats (cs : list (tree text)) (d : Z) : list (Z * kind) := flat_map (fun c => flat c d) cs.
Lemma flat_node o cs d : flat (Node o cs) d = (d, KOp o) :: flats cs (d + 1).
Proof.
  cbn [flat]. apply (f_equal (cons (d, KOp o))). induction cs as [|c cs IH]; [reflexivity|].
  change (flats (c :: cs) (d + 1)) with (flat c (d + 1) ++ flats cs (d + 1)). rewrite <- IH. reflexivity.
Qed.

Lemma assemble_flat t : forall d l, (forall e u r, assemble l = (e, u) :: r -> e <= d)%Z ->
  assemble (flat t d ++ l) = (d, t) :: assemble l.
Proof.
  induction t as [lb|o cs IH] using tree_ind2; intros d l Hl.
  - change (assemble (flat (Leaf lb) d ++ l)) with (attach (d, KLeaf lb) (assemble l)). unfold attach. cbn [fst snd].
    destruct (assemble l) as [|[e u] r] eqn:E; [reflexivity|]. cbn.
    specialize (Hl _ _ _ eq_refl). replace (e =? d + 1)%Z with false by (symmetry; apply Z.eqb_neq; lia). reflexivity.
  - rewrite flat_node. change (((d, KOp o) :: flats cs (d + 1)) ++ l) with ((d, KOp o) :: (flats cs (d + 1) ++ l)).
    change (assemble ((d, KOp o) :: (flats cs (d + 1) ++ l))) with (attach (d, KOp o) (assemble (flats cs (d + 1) ++ l))).
    assert (G : assemble (flats cs (d + 1) ++ l) = map (fun c => (d + 1, c)%Z) cs ++ assemble l).
    { clear - IH Hl. induction IH as [|c cs Hc _ IHcs]; [reflexivity|].
      cbn [flats flat_map]. rewrite <- app_assoc, Hc; [cbn; f_equal; exact IHcs|].
      intros e u r E. fold (flats cs (d + 1)) in E. rewrite IHcs in E. destruct cs; cbn in E; [specialize (Hl _ _ _ E); lia|inversion E; lia]. }
    rewrite G. unfold attach. cbn [fst snd].
    assert (G2 : take_children d (map (fun c => (d + 1, c)%Z) cs ++ assemble l) = (cs, assemble l)).
    { clear - Hl. induction cs as [|c cs IH]; cbn.
      - destruct (assemble l) as [|[e u] r] eqn:E; [reflexivity|]. cbn. specialize (Hl _ _ _ eq_refl).
        replace (e =? d + 1)%Z with false by (symmetry; apply Z.eqb_neq; lia). reflexivity.
      - rewrite Z.eqb_refl. rewrite IH. reflexivity. }
    rewrite G2. reflexivity.
Qed.

(** ** parsing the printed text *)
Definition rest_ok (r : text) : Prop := ends_ok r /\ clean r.
Lemma finish_close k d r : rest_ok r -> finish_leaf k (d + 1) (s_close ++ r) = finish_leaf k d r.
Proof.
  intros [He Hc]. unfold finish_leaf.
  assert (E : closes (length (s_close ++ r)) (d + 1) (s_close ++ r) = closes (length r) d r).
  { change (s_close ++ r) with (c_sp :: c_close :: r). cbn [length].
    assert (H1 : ends_ok (c_close :: r)) by (apply (ends_app_one [] r); auto).
    assert (H2 : ends_ok (c_sp :: c_close :: r)) by (apply (ends_app_one [c_sp] r); auto).
    cbn [closes]. rewrite (strip_space c_sp) by auto. rewrite strip_cons by auto.
    change (Ascii.eqb c_close c_close) with true. cbv iota.
    replace (d + 1 - 1)%Z with d by lia. apply (closes_stable (S (length r))); lia. }
  rewrite E. reflexivity.
Qed.
Lemma finish_comma k d r : rest_ok (s_sep ++ r) -> finish_leaf k d (s_sep ++ r) = parse_rec k (c_sp :: r) d.
Proof.
  intros [He Hc]. unfold finish_leaf. change (s_sep ++ r) with (ascii_of_nat 44 :: c_sp :: r) in *. cbn [length].
  cbn [closes]. rewrite strip_cons by auto. change (Ascii.eqb (ascii_of_nat 44) c_close) with false. cbv iota. cbn [snd fst].
  rewrite strip_cons by auto. reflexivity.
Qed.

Lemma parse_space k r d : rest_ok (c_sp :: r) -> parse_rec k (c_sp :: r) d = parse_rec k r d.
Proof.
  intros [He Hc]. destruct k as [|k]; [reflexivity|]. rewrite !parse_rec_S.
  assert (E : normalise (c_sp :: r) = normalise r).
  { unfold normalise. rewrite strip_space; auto. }
  rewrite E. reflexivity.
Qed.

Lemma after_prefix_app p r : after_prefix p (p ++ r) = Some r.
Proof. induction p as [|c p IH]; [reflexivity|]. cbn. rewrite Ascii.eqb_refl. auto. Qed.
Lemma read_op_show o r : read_op op_order (op_str o ++ r) = Some (o, r).
Proof. destruct o; reflexivity. Qed.
Lemma split_quote_label l r : label_ok l -> split_quote (l ++ c_quote :: r) = Some (l, c_quote :: r).
Proof.
  intros Hl. induction l as [|c l IH]; [reflexivity|]. cbn [app split_quote].
  destruct (Hl c (or_introl eq_refl)) as [H _]. replace (Ascii.eqb c c_quote) with false by (symmetry; apply Ascii.eqb_neq; auto).
  rewrite IH; auto. intros d Hd. apply Hl. right. auto.
Qed.

Lemma clean_app s r : clean s -> clean r -> clean (s ++ r).
Proof. intros H1 H2 c H. apply in_app_or in H as [?|?]; auto. Qed.
Lemma clean_lit s : forallb (fun c => negb (Ascii.eqb c c_cr) && negb (Ascii.eqb c c_nl)) s = true -> clean s.
Proof.
  intros H c Hc. rewrite forallb_forall in H. specialize (H c Hc). apply andb_true_iff in H as [H1 H2].
  apply negb_true_iff, Ascii.eqb_neq in H1. apply negb_true_iff, Ascii.eqb_neq in H2. auto.
Qed.
Lemma clean_ctext t : everywhere node_ok t -> clean (ctext t).
Proof.
  induction t as [l|o cs IH] using tree_ind2; intros H; inversion H as [? Hn|? ? Hn Hc]; subst.
  - destruct l as [l|]; [|apply clean_lit; reflexivity]. cbn [ctext]. apply clean_app; [apply clean_lit; reflexivity|].
    apply clean_app; [|apply clean_lit; reflexivity]. intros c Hin. apply Hn in Hin. tauto.
  - rewrite ctext_node. apply clean_app; [apply clean_lit; destruct o; reflexivity|].
    apply clean_app; [apply clean_lit; reflexivity|]. apply clean_app; [|apply clean_lit; reflexivity].
    clear Hn H. induction IH as [|c cs Hcc _ IHcs]; [apply clean_lit; reflexivity|].
    inversion Hc; subst. cbn [ctexts]. apply clean_app; auto. apply clean_app; auto. destruct cs; apply clean_lit; reflexivity.
Qed.
Lemma clean_ctexts cs : Forall (everywhere node_ok) cs -> clean (ctexts cs).
Proof.
  induction 1 as [|c cs Hc _ IH]; [apply clean_lit; reflexivity|]. cbn [ctexts]. apply clean_app; [apply clean_ctext; auto|].
  apply clean_app; auto. destruct cs; apply clean_lit; reflexivity.
Qed.
Lemma ends_close r : ends_ok r -> ends_ok (s_close ++ r).
Proof. intros H. change (s_close ++ r) with ([c_sp] ++ c_close :: r). apply ends_app_one; auto. Qed.
Lemma rest_close r : rest_ok r -> rest_ok (s_close ++ r).
Proof. intros [H1 H2]. split; [apply ends_close; auto|apply clean_app; auto; apply clean_lit; reflexivity]. Qed.
Lemma rest_pre s r : r <> [] -> clean s -> rest_ok r -> rest_ok (s ++ r).
Proof. intros Hn Hs [H1 H2]. split; [apply ends_app; auto|apply clean_app; auto]. Qed.

Lemma parse_text t : everywhere node_ok t -> forall k d rest r, (0 <= d)%Z -> rest_ok rest ->
  finish_leaf k d rest = Some r ->
  exists n, parse_rec n (ctext t ++ rest) d = Some (flat t d ++ r).
Proof.
  induction t as [l|o cs IH] using tree_ind2; intros H k d rest r Hd Hr Hf; inversion H as [? Hn|? ? Hn Hc]; subst.
  - exists (S k). rewrite parse_rec_S. destruct l as [l|].
    + assert (E : normalise (ctext (Leaf (Some l)) ++ rest) = c_quote :: l ++ c_quote :: rest).
      { cbn [ctext]. rewrite <- !app_assoc. change (s_quote ++ rest) with (c_quote :: rest). change (s_quote ++ l ++ c_quote :: rest) with (c_quote :: l ++ c_quote :: rest).
        assert (He : ends_ok (c_quote :: l ++ c_quote :: rest)) by (apply (ends_app_one (c_quote :: l)); [reflexivity|apply Hr]).
        rewrite normalise_clean; auto; [apply strip_cons; auto|].
        apply (clean_app (c_quote :: l) (c_quote :: rest)).
        - apply (clean_app [c_quote] l); [apply clean_lit; reflexivity|]. intros c Hin. apply Hn in Hin. tauto.
        - apply (clean_app [c_quote] rest); [apply clean_lit; reflexivity|apply Hr]. }
      rewrite E. replace (read_op op_order (c_quote :: l ++ c_quote :: rest)) with (@None (operator * text)) by reflexivity.
      cbn [read_leaf]. rewrite Ascii.eqb_refl, split_quote_label by auto.
      replace (d <? 0)%Z with false by (symmetry; apply Z.ltb_ge; lia). rewrite Hf. reflexivity.
    + assert (E : normalise (s_tau ++ rest) = s_tau ++ rest).
      { change (s_tau ++ rest) with ([ascii_of_nat 116; ascii_of_nat 97] ++ ascii_of_nat 117 :: rest).
        assert (He : ends_ok ([ascii_of_nat 116; ascii_of_nat 97] ++ ascii_of_nat 117 :: rest)) by (apply ends_app_one; [reflexivity|apply Hr]).
        rewrite normalise_clean; auto; [apply strip_cons; auto|].
        apply (clean_app s_tau rest); [apply clean_lit; reflexivity|apply Hr]. }
      change (ctext (Leaf None) ++ rest) with (s_tau ++ rest). rewrite E.
      replace (read_op op_order (s_tau ++ rest)) with (@None (operator * text)) by reflexivity.
      change (read_leaf (s_tau ++ rest)) with (Some (@None text, rest)).
      replace (d <? 0)%Z with false by (symmetry; apply Z.ltb_ge; lia). rewrite Hf. reflexivity.
  - cbn in Hn.
    assert (G : exists n, parse_rec n (ctexts cs ++ s_close ++ rest) (d + 1) = Some (flats cs (d + 1) ++ r)).
    { clear H. induction IH as [|c cs IHc _ IHcs]; [congruence|]. inversion Hc as [|? ? Hc1 Hc2]; subst. destruct cs as [|c2 cs].
      - cbn [ctexts flats flat_map app]. rewrite !app_nil_r. apply (IHc Hc1 k); [lia|apply rest_close; auto|].
        rewrite finish_close; auto.
      - destruct (fun Hx => IHcs Hx Hc2) as (n & En); [discriminate|].
        set (cs' := c2 :: cs) in *.
        assert (Hrest : rest_ok (ctexts cs' ++ s_close ++ rest)).
        { apply rest_pre; [discriminate|apply clean_ctexts; auto|apply rest_close; auto]. }
        assert (Hne : ctexts cs' ++ s_close ++ rest <> []).
        { destruct (ctexts cs'); discriminate. }
        replace (ctexts (c :: cs') ++ s_close ++ rest) with (ctext c ++ s_sep ++ ctexts cs' ++ s_close ++ rest).
        2:{ change (ctexts (c :: cs')) with (ctext c ++ s_sep ++ ctexts cs'). rewrite <- !app_assoc. reflexivity. }
        change (flats (c :: cs') (d + 1)) with (flat c (d + 1) ++ flats cs' (d + 1)). rewrite <- app_assoc.
        apply (IHc Hc1 n); [lia| |].
        + apply rest_pre; auto. apply clean_lit; reflexivity.
        + rewrite finish_comma; [|apply rest_pre; auto; apply clean_lit; reflexivity].
          rewrite parse_space; [exact En|]. apply (rest_pre [c_sp]); auto. apply clean_lit; reflexivity. }
    destruct G as (n & En). exists (S n). rewrite parse_rec_S, ctext_node, <- !app_assoc.
    set (body := ctexts cs ++ s_close ++ rest) in *.
    assert (Hb : rest_ok body) by (apply rest_pre; [discriminate|apply clean_ctexts; auto|apply rest_close; auto]).
    assert (Hbn : body <> []) by (unfold body; destruct (ctexts cs); discriminate).
    assert (Ho : rest_ok (s_open ++ body)) by (apply rest_pre; auto; apply clean_lit; reflexivity).
    assert (E : normalise (op_str o ++ s_open ++ body) = op_str o ++ s_open ++ body).
    { assert (Hop : rest_ok (op_str o ++ s_open ++ body)).
      { apply rest_pre; [discriminate|apply clean_lit; destruct o; reflexivity|auto]. }
      destruct Hop as [He Hcl]. rewrite normalise_clean by auto.
      destruct o; apply (strip_cons _ _ He); reflexivity. }
    rewrite E, read_op_show. replace (d <? 0)%Z with false by (symmetry; apply Z.ltb_ge; lia).
    change (s_open ++ body) with (c_open :: c_sp :: body) in *. destruct Ho as [He Hcl]. rewrite strip_cons by auto.
    rewrite Ascii.eqb_refl. rewrite parse_space by (apply (rest_pre [c_sp] body); auto; apply clean_lit; reflexivity).
    rewrite En, flat_node. reflexivity.
Qed.

Theorem parse_show t : everywhere node_ok t -> (forall l, t <> Leaf (Some l)) -> parse (show_tree t) = Some t.
Proof.
  intros H Hl. assert (E : ctext t = show_tree t) by (destruct t as [[l|]|]; auto; destruct (Hl l); auto).
  destruct (parse_text t H 0 0%Z [] []) as (n & En); [lia|split; [left; auto|intros c []]|reflexivity|].
  rewrite !app_nil_r, E in En. unfold parse.
  assert (E2 : parse_rec (S (length (show_tree t))) (show_tree t) 0 = Some (flat t 0)).
  { rewrite (parse_stable _ (S (length (show_tree t)) + n)) by lia. eapply parse_mono; [|exact En]. lia. }
  rewrite E2. pose proof (assemble_flat t 0 []) as HA. rewrite app_nil_r in HA. rewrite HA; [reflexivity|].
  intros e u r Hn. discriminate.
Qed.
