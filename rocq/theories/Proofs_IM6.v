(** Inductive Miner: logs built from updates, and the projections on the exclusive choice, sequence and concurrency cuts. *)
From Coq Require Import List Arith Bool ZArith Lia Permutation Sorting.Sorted.
Import ListNotations.
From Verif Require Import Model_Dict Model_Dfg Model_Graph Model_Lev Model_Tree Model_IM Spec_Tree.
From Verif Require Import Proofs_Dict Proofs_Dfg Proofs_Graph Proofs_IM1 Proofs_IM4.
Local Open Scope nat_scope.
Local Arguments keqb {K Key} : simpl never.
Local Arguments Nat.ltb : simpl never.
Local Arguments Nat.leb : simpl never.
Local Arguments Nat.eqb : simpl never.

(** ** Counters built by a sequence of updates *)
Definition adds (l : list (trace * nat)) (d : uvcl) : uvcl := fold_left (fun (d : uvcl) kn => c_add d (fst kn) (snd kn)) l d.
Definition sets (l : list (trace * nat)) (d : uvcl) : uvcl := fold_left (fun (d : uvcl) kn => d_set d (fst kn) (snd kn)) l d.
Definition positive (l : list (trace * nat)) : Prop := forall t n, In (t, n) l -> 0 < n.
Definition uvcl_ok (v : uvcl) : Prop := NoDup (@d_keys trace nat v) /\ positive v.
Lemma adds_keys l : forall d k, In k (d_keys (adds l d)) <-> In k (d_keys d) \/ In k (map fst l).
Proof. induction l as [|[t n] l IH]; intros d k; cbn [adds fold_left map In]; [tauto|]. change (fold_left _ l ?x) with (adds l x). rewrite IH. unfold c_add. rewrite d_in_keys_set. cbn [fst]. intuition. Qed.
Lemma sets_keys l : forall d k, In k (d_keys (sets l d)) <-> In k (d_keys d) \/ In k (map fst l).
Proof. induction l as [|[t n] l IH]; intros d k; cbn [sets fold_left map In]; [tauto|]. change (fold_left _ l ?x) with (sets l x). rewrite IH. rewrite d_in_keys_set. cbn [fst]. intuition. Qed.
Lemma d_set_in (d : uvcl) k n k' n' : In (k', n') (d_set d k n) -> In (k', n') d \/ n' = n.
Proof.
  induction d as [|[a b] d IH]; cbn [d_set]; [intros [[= <- <-]|[]]; auto|]. destruct (keqb a k).
  - intros [[= <- <-]|H]; [auto|left; right; auto].
  - intros [[= <- <-]|H]; [left; left; auto|]. destruct (IH H); auto. left; right; auto.
Qed.
Lemma set_ok (d : uvcl) k n : uvcl_ok d -> 0 < n -> uvcl_ok (d_set d k n).
Proof. intros [H1 H2] Hn. split; [apply d_nodup_set; auto|]. intros k' n' H. apply d_set_in in H. destruct H as [H| ->]; eauto. Qed.
Lemma ok_nil : uvcl_ok [].
Proof. split; [constructor|intros ? ? []]. Qed.
Lemma adds_ok l : forall d, uvcl_ok d -> positive l -> uvcl_ok (adds l d).
Proof.
  induction l as [|[t n] l IH]; intros d H P; auto. change (uvcl_ok (adds l (c_add d t n))). apply IH; [|intros k m Hk; apply (P k m); right; auto].
  unfold c_add. apply set_ok; auto. assert (0 < n) by (apply (P t); left; auto). lia.
Qed.
Lemma sets_ok l : forall d, uvcl_ok d -> positive l -> uvcl_ok (sets l d).
Proof.
  induction l as [|[t n] l IH]; intros d H P; auto. change (uvcl_ok (sets l (d_set d t n))). apply IH; [|intros k m Hk; apply (P k m); right; auto].
  apply set_ok; auto. apply (P t); left; auto.
Qed.
(** weighted sums over a counter *)
Definition wsum (w : trace -> nat) (v : list (trace * nat)) : nat := list_sum (map (fun tn => snd tn * w (fst tn)) v).
Lemma wsum_cons w t n v : wsum w ((t, n) :: v) = n * w t + wsum w v.
Proof. reflexivity. Qed.
Lemma wsum_app w v u : wsum w (v ++ u) = wsum w v + wsum w u.
Proof. unfold wsum. rewrite map_app, list_sum_app. auto. Qed.
Lemma wsum_add w (d : uvcl) k n : NoDup (d_keys d) -> wsum w (c_add d k n) = wsum w d + n * w k.
Proof.
  unfold c_add. induction d as [|[a b] d IH]; intros H; cbn [d_set].
  - rewrite wsum_cons. unfold c_get. cbn [d_get]. change (wsum w []) with 0. lia.
  - inversion H as [|? ? H1 H2]; subst. unfold c_get in *. cbn [d_get]. destruct (keqb_spec a k) as [->|N]; rewrite !wsum_cons; [nia|]. rewrite IH by auto. lia.
Qed.
Lemma wsum_adds w l : forall d : uvcl, NoDup (d_keys d) -> wsum w (adds l d) = wsum w d + wsum w l.
Proof.
  induction l as [|[t n] l IH]; intros d H; [change (wsum w []) with 0; change (adds [] d) with d; lia|]. change (wsum w (adds l (c_add d t n)) = wsum w d + wsum w ((t, n) :: l)).
  rewrite IH by (apply d_nodup_set; auto). rewrite wsum_add by auto. rewrite wsum_cons. lia.
Qed.
Lemma total_wsum v : total_count v = wsum (fun _ => 1) v.
Proof. unfold total_count, wsum. f_equal. apply map_ext. intros [t n]. cbn. lia. Qed.
Lemma fold_adds (f : trace -> trace) (p : trace -> bool) (v : uvcl) : forall d : uvcl,
  fold_left (fun (d : uvcl) tn => if p (fst tn) then c_add d (f (fst tn)) (snd tn) else d) v d =
  adds (map (fun tn => (f (fst tn), snd tn)) (filter (fun tn => p (fst tn)) v)) d.
Proof. induction v as [|[t n] v IH]; intros d; cbn [fold_left filter fst snd]; auto. destruct (p t); cbn [map adds fold_left fst snd]; rewrite IH; reflexivity. Qed.
Lemma fold_adds' (f : trace -> trace) (v : uvcl) : forall d : uvcl,
  fold_left (fun (d : uvcl) tn => c_add d (f (fst tn)) (snd tn)) v d = adds (map (fun tn => (f (fst tn), snd tn)) v) d.
Proof. induction v as [|[t n] v IH]; intros d; cbn [fold_left]; auto. cbn [map adds fold_left fst snd]; rewrite IH; reflexivity. Qed.
Lemma fold_sets (f : trace -> trace) (v : uvcl) : forall d : uvcl,
  fold_left (fun (d : uvcl) tn => d_set d (f (fst tn)) (snd tn)) v d = sets (map (fun tn => (f (fst tn), snd tn)) v) d.
Proof. induction v as [|[t n] v IH]; intros d; cbn [fold_left]; auto. cbn [map sets fold_left fst snd]; rewrite IH; reflexivity. Qed.
Lemma positive_map (f : trace -> trace) (v : uvcl) : positive v -> positive (map (fun tn => (f (fst tn), snd tn)) v).
Proof. intros P k n H. apply in_map_iff in H. destruct H as ([t m] & [= <- <-] & H). eapply P; eauto. Qed.
Lemma positive_filter p (v : uvcl) : positive v -> positive (filter p v).
Proof. intros P k n H. apply filter_In in H. destruct H. eapply P; eauto. Qed.
Lemma keys_map (f : trace -> trace) (v : uvcl) k : In k (map fst (map (fun tn => (f (fst tn), snd tn)) v)) <-> exists t, In t (d_keys v) /\ f t = k.
Proof.
  rewrite map_map, in_map_iff. unfold d_keys. split.
  - intros ([t n] & <- & H). exists t. split; auto. apply in_map_iff. exists (t, n); auto.
  - intros (t & H & <-). apply in_map_iff in H. destruct H as ([t' n] & <- & H). exists (t', n); auto.
Qed.
Lemma keys_filter_map (f : trace -> trace) (p : trace -> bool) (v : uvcl) k :
  In k (map fst (map (fun tn => (f (fst tn), snd tn)) (filter (fun tn => p (fst tn)) v))) <-> exists t, In t (d_keys v) /\ p t = true /\ f t = k.
Proof.
  rewrite map_map, in_map_iff. unfold d_keys. split.
  - intros ([t n] & <- & H). apply filter_In in H. destruct H as [H Hp]. exists t. split; auto. apply in_map_iff. exists (t, n); auto.
  - intros (t & H & Hp & <-). apply in_map_iff in H. destruct H as ([t' n] & <- & H). exists (t', n); split; auto. apply filter_In. auto.
Qed.

(** ** What a decomposition of a log has to satisfy *)
Definition fits (v : uvcl) (t : tree nat) : Prop := (forall w, In w (d_keys v) -> lang t w) /\ (v = [] -> lang t []).
Lemma forall2_nth {X Y} (R : X -> Y -> Prop) (l : list X) (k : list Y) i x : Forall2 R l k -> nth_error l i = Some x -> exists y, nth_error k i = Some y /\ R x y.
Proof.
  intros H. revert i. induction H as [|a b l k Hab H IH]; intros [|i] E; try discriminate.
  - injection E as ->. exists b; auto.
  - apply IH; auto.
Qed.

(** ** argmax *)
Lemma argmax_spec l : forall i best, snd (best : nat * nat) < i ->
  let r := argmax_from i l best in (r = snd best /\ (forall j, j < length l -> nth j l 0 < fst best)) \/
   (i <= r < i + length l /\ fst best <= nth (r - i) l 0 /\ forall j, j < length l -> nth j l 0 <= nth (r - i) l 0).
Proof.
  induction l as [|c l IH]; intros i best Hb; cbn [argmax_from length].
  - left. split; auto. intros j Hj; lia.
  - destruct (Nat.leb_spec (fst best) c) as [L|L].
    + destruct (IH (S i) (c, i) ltac:(cbn; lia)) as [[E H]|(H1 & H2 & H3)]; cbn [fst snd] in *; set (r := argmax_from (S i) l (c, i)) in *.
      * right. rewrite E, Nat.sub_diag. cbn [nth]. split; [lia|]. split; auto. intros [|j] Hj; auto. specialize (H j ltac:(lia)). lia.
      * right. replace (r - i) with (S (r - S i)) by lia. cbn [nth]. split; [lia|]. split; [lia|]. intros [|j] Hj; [lia|]. apply H3. lia.
    + destruct (IH (S i) best ltac:(lia)) as [[E H]|(H1 & H2 & H3)]; set (r := argmax_from (S i) l best) in *.
      * left. split; auto. intros [|j] Hj; auto. apply H. lia.
      * right. replace (r - i) with (S (r - S i)) by lia. cbn [nth]. split; [lia|]. split; [lia|]. intros [|j] Hj; [lia|]. apply H3. lia.
Qed.
Lemma argmax_ok l : l <> [] -> argmax l < length l /\ forall j, j < length l -> nth j l 0 <= nth (argmax l) l 0.
Proof.
  intros N. unfold argmax. destruct l as [|c l]; [congruence|]. cbn [argmax_from]. replace (if fst (0, 0) <=? c then (c, 0) else (0, 0)) with (c, 0) by (destruct (Nat.leb_spec (fst (0, 0)) c) as [L|L]; auto; cbn in L; lia).
  destruct (argmax_spec l 1 (c, 0) ltac:(cbn; lia)) as [[E H]|(H1 & H2 & H3)]; cbn [fst snd] in *; set (r := argmax_from 1 l (c, 0)) in *; cbn [length].
  - rewrite E. cbn [nth]. split; [lia|]. intros [|j] Hj; auto. specialize (H j ltac:(lia)). lia.
  - split; [lia|]. destruct r as [|r]; [lia|]. cbn [nth]. replace (S r - 1) with r in * by lia. intros [|j] Hj; [lia|]. apply H3. lia.
Qed.
(** the argmax of a measure that is positive at position i only *)
Lemma argmax_only {X} (m : X -> nat) (l : list X) i d : i < length l -> 0 < m (nth i l d) ->
  (forall j, j < length l -> 0 < m (nth j l d) -> j = i) -> argmax (map m l) = i.
Proof.
  intros Hi Hp Hu. destruct (argmax_ok (map m l)) as [A1 A2]; [destruct l; [cbn in Hi; lia|discriminate]|]. rewrite map_length in *. apply Hu; auto.
  specialize (A2 i Hi). rewrite (nth_indep (map m l) 0 (m d)), map_nth in A2 by (rewrite map_length; auto).
  rewrite (nth_indep (map m l) 0 (m d) (n := argmax (map m l))), map_nth in A2 by (rewrite map_length; auto). lia.
Qed.

(** ** Groups and projections *)
Lemma proj_in g t x : In x (proj g t) <-> In x t /\ In x g.
Proof. unfold proj. rewrite filter_In, smem_in. tauto. Qed.
Lemma proj_all g t : incl t g -> proj g t = t.
Proof. unfold proj. induction t as [|x t IH]; intros H; cbn; auto. rewrite (proj2 (smem_in x g)) by (apply H; left; auto). rewrite IH; auto. intros y Hy; apply H; right; auto. Qed.
Lemma proj_none g t : (forall x, In x t -> ~ In x g) -> proj g t = [].
Proof. unfold proj. induction t as [|x t IH]; intros H; cbn; auto. rewrite (proj2 (smem_false x g)) by (apply H; left; auto). apply IH. intros y Hy; apply H; right; auto. Qed.
Lemma group_unique (gs : list group) i j x : NoDup (concat gs) -> In x (nth i gs []) -> In x (nth j gs []) -> i = j.
Proof.
  intros H Hi Hj. destruct (nth_concat_nodup gs H) as [_ U]. eapply U; eauto.
Qed.
Lemma alphabet_strict (u v : uvcl) y : incl (alphabet u) (alphabet v) -> In y (alphabet v) -> ~ In y (alphabet u) -> length (alphabet u) < length (alphabet v).
Proof.
  intros H1 H2 H3. change (length (y :: alphabet u) <= length (alphabet v)). apply NoDup_incl_length; [constructor; auto; apply alphabet_nodup|].
  intros x [<-|Hx]; auto.
Qed.
(** every sublog is a log over fewer activities *)
Definition shrinks (v : uvcl) (subs : list uvcl) : Prop :=
  forall s, In s subs -> uvcl_ok s /\ incl (alphabet s) (alphabet v) /\ length (alphabet s) < length (alphabet v).
Lemma cut_strict (v u : uvcl) (gs : list group) i : incl (concat gs) (alphabet v) -> NoDup (concat gs) -> nonempties gs -> 2 <= length gs -> i < length gs ->
  incl (alphabet u) (nth i gs []) -> incl (alphabet u) (alphabet v) /\ length (alphabet u) < length (alphabet v).
Proof.
  intros H1 H2 H3 H4 Hi H5.
  assert (Hj : exists j, j < length gs /\ j <> i) by (destruct i; [exists 1|exists 0]; lia). destruct Hj as (j & Hj & Nj).
  assert (Nn : nth j gs [] <> []) by (apply (proj1 (Forall_forall _ _) H3), nth_In; auto).
  destruct (nth j gs []) as [|y r] eqn:E; [congruence|]. assert (Hy : In y (nth j gs [])) by (rewrite E; left; auto).
  assert (I : incl (alphabet u) (alphabet v)). { intros x Hx. apply H1, in_concat. exists (nth i gs []). split; [apply nth_In; auto|auto]. }
  split; auto. apply (alphabet_strict u v y); auto.
  - apply H1, in_concat. exists (nth j gs []). split; [apply nth_In; auto|auto].
  - intros Hu. apply Nj. apply (group_unique gs j i y); auto.
Qed.
Lemma concat_nodup_sub (gs : list group) : forall ss : list (list nat), Forall2 (fun s g => incl s g) ss gs -> Forall (@NoDup nat) ss -> NoDup (concat gs) -> NoDup (concat ss).
Proof.
  intros ss H. induction H as [|s g ss gs Hs H IH]; intros N1 N2; cbn; [constructor|]. cbn in N2.
  apply NoDup_app_intro; [exact (Forall_inv N1)|apply IH; [exact (Forall_inv_tail N1)|eapply NoDup_app_r; eauto]|].
  intros x Hx Hy. apply (NoDup_app_disj _ _ x N2); auto. clear - H Hy. induction H as [|s' g' ss gs Hs' H IH]; auto. cbn in *. apply in_app_or in Hy. apply in_or_app. destruct Hy; auto.
Qed.
Lemma partition_alphabet (v : uvcl) (subs : list uvcl) (gs : list group) : NoDup (concat gs) -> Forall2 (fun s g => incl (alphabet s) g) subs gs ->
  (forall s, In s subs -> incl (alphabet s) (alphabet v)) -> (forall x, In x (alphabet v) -> exists s, In s subs /\ In x (alphabet s)) ->
  Permutation (concat (map alphabet subs)) (alphabet v).
Proof.
  intros H1 H2 H3 H4. apply NoDup_Permutation.
  - apply (concat_nodup_sub gs); auto.
    + clear - H2. induction H2; cbn; constructor; auto.
    + clear. induction subs; cbn; constructor; auto. apply alphabet_nodup.
  - apply alphabet_nodup.
  - intros x. rewrite in_concat. split.
    + intros (l & Hl & Hx). apply in_map_iff in Hl. destruct Hl as (s & <- & Hs). eapply H3; eauto.
    + intros Hx. destruct (H4 x Hx) as (s & Hs & Hx'). exists (alphabet s). split; auto. apply in_map; auto.
Qed.
Lemma forall2_seq {X} (P : uvcl -> X -> Prop) (F : nat -> uvcl) (gs : list X) d : (forall i, i < length gs -> P (F i) (nth i gs d)) -> Forall2 P (map F (seq 0 (length gs))) gs.
Proof.
  revert F. induction gs as [|g gs IH]; intros F H; cbn [length seq map]; constructor.
  - apply (H 0). cbn; lia.
  - rewrite <- seq_shift, map_map. apply IH. intros i Hi. apply (H (S i)). cbn; lia.
Qed.
Lemma in_map_seq {X} (F : nat -> X) n s : In s (map F (seq 0 n)) <-> exists i, i < n /\ F i = s.
Proof. rewrite in_map_iff. split; intros (i & H1 & H2); exists i; [apply in_seq in H2|]; split; auto; [lia|apply in_seq; lia]. Qed.
Lemma nth_error_map_seq {X} (F : nat -> X) n i : i < n -> nth_error (map F (seq 0 n)) i = Some (F i).
Proof. intros H. rewrite nth_error_map. assert (E : nth_error (seq 0 n) i = Some i). { rewrite (nth_error_nth' _ 0) by (rewrite seq_length; auto). rewrite seq_nth; auto. } rewrite E. auto. Qed.

(** ** Exclusive choice *)
Section Xor.
  Variables (v : uvcl) (gs : list group).
  Hypothesis Hv : uvcl_ok v.
  Definition xor_sub (i : nat) : uvcl := fold_left (fun (d : uvcl) tn =>
        if Nat.eqb (xor_index gs (fst tn)) i then c_add d (proj (nth i gs []) (fst tn)) (snd tn) else d) v [].
  Lemma xor_sub_keys i k : In k (d_keys (xor_sub i)) <-> exists t, In t (d_keys v) /\ xor_index gs t = i /\ proj (nth i gs []) t = k.
  Proof.
    unfold xor_sub. rewrite (fold_adds (proj (nth i gs [])) (fun t => Nat.eqb (xor_index gs t) i)), adds_keys.
    pose proof (keys_filter_map (proj (nth i gs [])) (fun t => Nat.eqb (xor_index gs t) i) v k) as KM. cbn beta in KM.
    split; [intros [[]|H]; apply KM in H; destruct H as (t & H1 & H2 & H3); exists t; apply Nat.eqb_eq in H2; auto|intros (t & H1 & H2 & H3); right; apply KM; exists t; split; auto; split; auto; apply Nat.eqb_eq; auto].
  Qed.
  Lemma xor_sub_ok i : uvcl_ok (xor_sub i).
  Proof. unfold xor_sub. rewrite (fold_adds (proj (nth i gs [])) (fun t => Nat.eqb (xor_index gs t) i)). apply adds_ok; [apply ok_nil|]. apply positive_map, positive_filter, Hv. Qed.
  Lemma xor_sub_alphabet i : incl (alphabet (xor_sub i)) (nth i gs []).
  Proof. intros x Hx. apply alphabet_iff in Hx. destruct Hx as (k & Hk & Hx). apply xor_sub_keys in Hk. destruct Hk as (t & _ & _ & <-). apply proj_in in Hx. tauto. Qed.
  Lemma xor_shrinks : incl (concat gs) (alphabet v) -> NoDup (concat gs) -> nonempties gs -> 2 <= length gs -> shrinks v (xor_project v gs).
  Proof.
    intros H1 H2 H3 H4 s Hs. unfold xor_project in Hs. apply in_map_seq in Hs. destruct Hs as (i & Hi & <-). change (uvcl_ok (xor_sub i) /\ incl (alphabet (xor_sub i)) (alphabet v) /\ length (alphabet (xor_sub i)) < length (alphabet v)).
    split; [apply xor_sub_ok|]. apply (cut_strict v (xor_sub i) gs i); auto. apply xor_sub_alphabet.
  Qed.
  (** a trace lies in one component *)
  Hypothesis closed : forall c x y, In c gs -> In x c -> In (x, y) (edges (discover_dfg_uvcl v)) \/ In (y, x) (edges (discover_dfg_uvcl v)) -> In y c.
  Hypothesis cover : forall x, In x (alphabet v) <-> In x (concat gs).
  Hypothesis disj : NoDup (concat gs).
  Lemma xor_one_group t : In t (d_keys v) -> t <> [] -> exists i, i < length gs /\ incl t (nth i gs []).
  Proof.
    intros Ht Nt. destruct t as [|a t]; [congruence|]. assert (Ha : In a (concat gs)) by (apply cover, alphabet_iff; exists (a :: t); split; auto; left; auto).
    apply in_concat_nth in Ha. destruct Ha as (i & Hi & Ha). exists i. split; auto.
    assert (Hadj : forall x y, In (x, y) (adj (a :: t)) -> In (x, y) (edges (discover_dfg_uvcl v))) by (intros x y H; apply dfg_edges; eauto).
    clear Ht Nt. revert a Ha Hadj. induction t as [|b t IH]; intros a Ha Hadj x [<-|Hx]; auto; [destruct Hx|]. apply (IH b); auto.
    - apply (closed _ a b); auto; [apply nth_In; auto|]. left. apply Hadj. left; auto.
    - intros y z H. apply Hadj. right; auto.
  Qed.
  Lemma xor_index_group t i : t <> [] -> i < length gs -> incl t (nth i gs []) -> xor_index gs t = i.
  Proof.
    intros Nt Hi H. unfold xor_index. apply (argmax_only (fun g => length (proj g t)) gs i []); auto.
    - rewrite proj_all by auto. destruct t; [congruence|cbn; lia].
    - intros j Hj P. destruct (proj (nth j gs []) t) as [|x r] eqn:E; [cbn in P; lia|].
      assert (Hx : In x (proj (nth j gs []) t)) by (rewrite E; left; auto). apply proj_in in Hx. apply (group_unique gs j i x); auto; [tauto|apply H; tauto].
  Qed.
  Hypothesis no_empty : ~ In [] (d_keys v).
  Lemma xor_key t : In t (d_keys v) -> exists i, i < length gs /\ In t (d_keys (xor_sub i)).
  Proof.
    intros Ht. assert (Nt : t <> []) by (intros ->; auto). destruct (xor_one_group t Ht Nt) as (i & Hi & H). exists i. split; auto.
    apply xor_sub_keys. exists t. split; auto. split; [apply xor_index_group; auto|apply proj_all; auto].
  Qed.
  Lemma xor_fits ts : v <> [] -> Forall2 fits (xor_project v gs) ts -> fits v (Node Xor ts).
  Proof.
    intros Nv H. split; [|congruence]. intros t Ht. destruct (xor_key t Ht) as (i & Hi & Hk).
    destruct (forall2_nth _ _ _ i (xor_sub i) H) as (u & Hu & F); [apply nth_error_map_seq; auto|]. apply (L_xor _ u); [eapply nth_error_In; eauto|apply F; auto].
  Qed.
  Lemma xor_alphabet : Permutation (concat (map alphabet (xor_project v gs))) (alphabet v).
  Proof.
    apply (partition_alphabet v _ gs); auto.
    - apply (forall2_seq _ xor_sub gs []). intros. apply xor_sub_alphabet.
    - intros s Hs x Hx. apply in_map_seq in Hs. destruct Hs as (i & Hi & <-). change (In x (alphabet (xor_sub i))) in Hx. apply xor_sub_alphabet in Hx. apply cover, in_concat_nth. eauto.
    - intros x Hx. apply alphabet_iff in Hx. destruct Hx as (t & Ht & Hx). destruct (xor_key t Ht) as (i & Hi & Hk). exists (xor_sub i). split; [apply in_map_seq; eauto|]. apply alphabet_iff. eauto.
  Qed.
End Xor.

(** ** Concurrency *)
Lemma shuffle_filters {X} (fs : list (X -> bool)) (t : list X) :
  (forall x, In x t -> exists l1 f l2, fs = l1 ++ f :: l2 /\ f x = true /\ forall f', In f' l1 \/ In f' l2 -> f' x = false) ->
  shuffle (map (fun f => filter f t) fs) t.
Proof.
  induction t as [|x t IH]; intros H.
  - constructor. intros w Hw. apply in_map_iff in Hw. destruct Hw as (f & <- & _). auto.
  - destruct (H x ltac:(left; auto)) as (l1 & f & l2 & -> & Hf & Ho). rewrite map_app. assert (E0 : filter f (x :: t) = x :: filter f t) by (cbn; rewrite Hf; auto). rewrite (map_cons _ f l2), E0.
    assert (E : forall l, (forall f', In f' l -> f' x = false) -> map (fun f : X -> bool => filter f (x :: t)) l = map (fun f => filter f t) l).
    { intros l Hl. apply map_ext_in. intros f' Hf'. cbn. rewrite Hl; auto. }
    rewrite !E by auto. constructor. rewrite <- (map_cons (fun f => filter f t)), <- map_app. apply IH. intros y Hy. apply H. right; auto.
Qed.
Lemma par_project_eq v gs : par_project v gs = map (fun g => sets (map (fun tn => (proj g (fst tn), snd tn)) v) []) gs.
Proof. unfold par_project. apply map_ext. intros g. apply fold_sets. Qed.
Section Par.
  Variables (v : uvcl) (gs : list group).
  Hypothesis Hv : uvcl_ok v.
  Definition par_sub (g : group) : uvcl := sets (map (fun tn => (proj g (fst tn), snd tn)) v) [].
  Lemma par_sub_keys g k : In k (d_keys (par_sub g)) <-> exists t, In t (d_keys v) /\ proj g t = k.
  Proof. unfold par_sub. rewrite sets_keys. pose proof (keys_map (proj g) v k) as KM. cbn beta in KM. rewrite KM. cbn [d_keys map In]. tauto. Qed.
  Lemma par_sub_alphabet g x : In x (alphabet (par_sub g)) <-> In x g /\ In x (alphabet v).
  Proof.
    rewrite !alphabet_iff. split.
    - intros (k & Hk & Hx). apply par_sub_keys in Hk. destruct Hk as (t & Ht & <-). apply proj_in in Hx. split; [tauto|]. exists t. tauto.
    - intros (Hg & t & Ht & Hx). exists (proj g t). split; [apply par_sub_keys; eauto|apply proj_in; auto].
  Qed.
  Lemma par_shrinks : incl (concat gs) (alphabet v) -> NoDup (concat gs) -> nonempties gs -> 2 <= length gs -> shrinks v (par_project v gs).
  Proof.
    intros H1 H2 H3 H4 s Hs. rewrite par_project_eq in Hs. apply in_map_iff in Hs. destruct Hs as (g & <- & Hg). change (uvcl_ok (par_sub g) /\ incl (alphabet (par_sub g)) (alphabet v) /\ length (alphabet (par_sub g)) < length (alphabet v)).
    split; [apply sets_ok; [apply ok_nil|apply positive_map, Hv]|]. apply (In_nth _ _ []) in Hg. destruct Hg as (i & Hi & <-). apply (cut_strict v _ gs i); auto.
    intros x Hx. apply par_sub_alphabet in Hx. tauto.
  Qed.
  Hypothesis cover : forall x, In x (alphabet v) <-> In x (concat gs).
  Hypothesis disj : NoDup (concat gs).
  Lemma par_shuffle t : In t (d_keys v) -> shuffle (map (fun g => proj g t) gs) t.
  Proof.
    intros Ht. pose proof (shuffle_filters (map (fun (g : group) e => smem e g) gs) t) as S. rewrite map_map in S. apply S. clear S.
    intros x Hx. assert (Hc : In x (concat gs)) by (apply cover, alphabet_iff; eauto). apply in_concat in Hc. destruct Hc as (g & Hg & Hxg).
    apply in_split in Hg. destruct Hg as (l1 & l2 & E). exists (map (fun (g : group) e => smem e g) l1), (fun e => smem e g), (map (fun (g : group) e => smem e g) l2).
    split; [rewrite E, map_app; auto|]. split; [apply smem_in; auto|]. intros f' Hf'. rewrite <- in_app_iff, <- map_app in Hf'. apply in_map_iff in Hf'. destruct Hf' as (h & <- & Hh).
    apply smem_false. intros Hxh. rewrite E in disj. assert (P : Permutation (concat (l1 ++ g :: l2)) (concat (g :: l1 ++ l2))) by (apply concat_perm, Permutation_sym, Permutation_middle).
    apply (Permutation_NoDup P) in disj. cbn in disj. apply (NoDup_app_disj _ _ x disj); auto. apply in_concat. eauto.
  Qed.
  Lemma par_fits ts : v <> [] -> Forall2 fits (par_project v gs) ts -> fits v (Node Parallel ts).
  Proof.
    intros Nv H. split; [|congruence]. intros t Ht. apply (L_par _ (map (fun g => proj g t) gs)); [|apply par_shuffle; auto].
    rewrite par_project_eq in H. change (Forall2 fits (map par_sub gs) ts) in H. clear cover disj. revert ts H. induction gs as [|g l IH]; intros ts H; inversion H; subst; cbn [map]; constructor; auto.
    match goal with F : fits _ _ |- _ => apply F end. apply par_sub_keys. eauto.
  Qed.
  Lemma par_alphabet : Permutation (concat (map alphabet (par_project v gs))) (alphabet v).
  Proof.
    rewrite par_project_eq. apply (partition_alphabet v _ gs); auto.
    - clear. induction gs as [|g l IH]; cbn [map]; constructor; auto. intros x Hx. apply (par_sub_alphabet g) in Hx. tauto.
    - intros s Hs x Hx. apply in_map_iff in Hs. destruct Hs as (g & <- & Hg). apply (par_sub_alphabet g) in Hx. tauto.
    - intros x Hx. pose proof (proj1 (cover x) Hx) as Hc. apply in_concat in Hc. destruct Hc as (g & Hg & Hxg). exists (par_sub g). split; [apply in_map_iff; exists g; auto|]. apply par_sub_alphabet; auto.
  Qed.
End Par.
