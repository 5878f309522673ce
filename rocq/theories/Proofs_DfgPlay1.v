(** Chances of traces: the code computes them, they are positive exactly for traces of the graph, and together at most one. *)
From Coq Require Import List Arith QArith Qround Bool Permutation Lia Lqa.
Import ListNotations.
Open Scope nat_scope.
From Verif Require Import Model_DfgPlay Spec_DfgPlay.

Lemma share_nonneg c n : (0 <= share c n)%Q.
Proof. unfold share, Qdiv. apply Qmult_le_0_compat; [|apply Qinv_le_0_compat]; change 0%Q with (inject_Z 0); rewrite <- Zle_Qle; lia. Qed.
Lemma share_0 n : (share 0 n == 0)%Q. Proof. unfold share. cbn. unfold Qdiv. apply Qmult_0_l. Qed.
Lemma share_pos c n : 0 < c -> 0 < n -> (0 < share c n)%Q.
Proof. intros A B. unfold share. apply Qlt_shift_div_l; rewrite ?Qmult_0_l; change 0%Q with (inject_Z 0); rewrite <- Zlt_Qlt; lia. Qed.
Lemma total_app {K} (l k : list (K * nat)) : total (l ++ k) = total l + total k.
Proof. unfold total. rewrite map_app, list_sum_app. reflexivity. Qed.
Lemma total_in {K} (l : list (K * nat)) x c : In (x, c) l -> c <= total l.
Proof. induction l as [|y l IH]; [easy|]. change (total (y :: l)) with (snd y + total l). intros [-> |H]; [cbn; lia|]. apply IH in H. lia. Qed.
Lemma total_cons {K} (y : K * nat) l : total (y :: l) = snd y + total l. Proof. reflexivity. Qed.
Lemma only_key {K} (q : K * nat -> bool) (l : list (K * nat)) x c : NoDup (map fst l) -> In (x, c) l -> (forall y, q y = true <-> fst y = x) -> total (filter q l) = c.
Proof.
  intros N H Q. induction l as [|y l IH]; [easy|]. cbn in N. inversion N as [|? ? N1 N2]; subst. cbn. destruct H as [-> |H].
  - rewrite (proj2 (Q (x, c)) eq_refl). assert (Z : filter q l = []). { clear -N1 Q. induction l as [|z l IH]; [reflexivity|]. cbn in *. destruct (q z) eqn:E; [apply Q in E; exfalso; apply N1; auto|]. apply IH. auto. }
    rewrite Z. cbn. lia.
  - destruct (q y) eqn:E; [|auto]. apply Q in E. exfalso. apply N1. rewrite E. apply (in_map fst _ _ H).
Qed.
Lemma no_key {K} (q : K * nat -> bool) (l : list (K * nat)) : (forall y, In y l -> q y = false) -> total (filter q l) = 0.
Proof. induction l as [|y l IH]; intros H; [reflexivity|]. cbn. rewrite (H y) by (left; auto). apply IH. intros; apply H; right; auto. Qed.
Lemma key_eq s (l : list (nat * nat)) : forall y : nat * nat, (fst y =? s) = true <-> fst y = s. Proof. intros; apply Nat.eqb_eq. Qed.
Lemma ekey_eq a b : forall y : nat * nat * nat, (fst (fst y) =? a) && (snd (fst y) =? b) = true <-> fst y = (a, b).
Proof. intros [[x z] c]. cbn. rewrite andb_true_iff, !Nat.eqb_eq. split; [intros [-> ->]; auto|intros E; injection E; auto]. Qed.
Lemma count_key l a c : NoDup (map fst l) -> In (a, c) l -> count l a = c.
Proof. intros N H. apply (only_key _ l a c); auto. intros; apply Nat.eqb_eq. Qed.
Lemma count_none l a : ~ In a (map fst l) -> count l a = 0.
Proof. intros N. apply no_key. intros y Hy. apply Nat.eqb_neq. intros <-. apply N. now apply in_map. Qed.
Lemma edge_key d a b c : NoDup (map fst d) -> In (a, b, c) d -> edge_count d a b = c.
Proof. intros N H. apply (only_key _ d (a, b) c); auto. intros; apply ekey_eq. Qed.
Lemma edge_none d a b : ~ In (a, b) (map fst d) -> edge_count d a b = 0.
Proof. intros N. apply no_key. intros y Hy. destruct (_ && _) eqn:E; auto. apply ekey_eq in E. exfalso. apply N. rewrite <- E. now apply in_map. Qed.

Section G.
  Variable dfg : edges.
  Variables sa ea : freqs.
  Hypothesis HP : proper_dfg dfg sa ea.
  Notation row := (row dfg ea). Notation tro := (transitions_of dfg ea).
  Lemma row_edge s b c : In (Some b, c) (row s) <-> In (s, b, c) dfg.
  Proof.
    unfold row. rewrite in_app_iff, !in_map_iff. split.
    - intros [([[x z] k] & E & H)|(y & E & _)]; [|discriminate]. cbn in E. injection E as -> ->. apply filter_In in H as [H Q]. cbn in Q. apply Nat.eqb_eq in Q. now subst.
    - intros H. left. exists (s, b, c). split; auto. apply filter_In. split; auto. cbn. apply Nat.eqb_refl.
  Qed.
  Lemma row_end s c : In (None, c) (row s) <-> In (s, c) ea.
  Proof.
    unfold row. rewrite in_app_iff, !in_map_iff. split.
    - intros [(y & E & _)|([x k] & E & H)]; [discriminate|]. cbn in E. injection E as ->. apply filter_In in H as [H Q]. cbn in Q. apply Nat.eqb_eq in Q. now subst.
    - intros H. right. exists (s, c). split; auto. apply filter_In. split; auto. cbn. apply Nat.eqb_refl.
  Qed.
  Lemma row_pos s o c : In (o, c) (row s) -> 0 < c.
  Proof. destruct HP as (_ & _ & _ & A & B). destruct o as [b|]; [rewrite row_edge|rewrite row_end]; intros H; [apply A in H; auto|apply (B s); auto]. Qed.
  Lemma nodup_filter {X} (q : X -> bool) l : NoDup l -> NoDup (filter q l).
  Proof. induction 1 as [|x l H N IH]; cbn; [constructor|]. destruct (q x); auto. constructor; auto. rewrite filter_In. tauto. Qed.
  Lemma nodup_inj {X Y} (f : X -> Y) l : NoDup l -> (forall x y, In x l -> In y l -> f x = f y -> x = y) -> NoDup (map f l).
  Proof. induction 1 as [|x l H N IH]; intros I; cbn; constructor. { rewrite in_map_iff. intros (y & E & Hy). rewrite (I x y) in H; [auto|left; auto|right; auto|auto]. } apply IH. intros; apply I; auto; right; auto. Qed.
  Lemma row_keys s : NoDup (map fst (row s)).
  Proof.
    destruct HP as (A & _ & B & _). unfold row. rewrite map_app, !map_map. cbn [fst].
    assert (N1 : NoDup (map (fun e : nat * nat * nat => Some (snd (fst e))) (filter (fun e => fst (fst e) =? s) dfg))).
    { apply nodup_inj; [apply nodup_filter; eapply NoDup_map_inv; exact A|]. intros [[x y] c] [[x' y'] c'] H1 H2 E. cbn in E. injection E as ->. apply filter_In in H1 as [H1 Q1]. apply filter_In in H2 as [H2 Q2]. cbn in Q1, Q2. apply Nat.eqb_eq in Q1, Q2. subst.
      pose proof (edge_key dfg _ _ _ A H1). pose proof (edge_key dfg _ _ _ A H2). congruence. }
    assert (N2 : NoDup (map (fun e : nat * nat => @None nat) (filter (fun e => fst e =? s) ea))).
    { apply nodup_inj; [apply nodup_filter; eapply NoDup_map_inv; exact B|]. intros [x c] [x' c'] H1 H2 _. apply filter_In in H1 as [H1 Q1]. apply filter_In in H2 as [H2 Q2]. cbn in Q1, Q2. apply Nat.eqb_eq in Q1, Q2. subst.
      pose proof (count_key ea _ _ B H1). pose proof (count_key ea _ _ B H2). congruence. }
    revert N1 N2. generalize (filter (fun e => fst (fst e) =? s) dfg). intros l N1 N2. induction l as [|e l IH]; [exact N2|]. cbn in *. inversion N1 as [|? ? X Y]; subst. constructor; auto.
    rewrite in_app_iff. intros [Q|Q]; [auto|]. apply in_map_iff in Q as (y & Q & _). discriminate.
  Qed.
  Lemma row_total s : sum_values (row s) = out_total dfg ea s.
  Proof. unfold sum_values, row, out_total, count, total. rewrite map_app, list_sum_app, !map_map. reflexivity. Qed.
  Lemma tro_row s r : tro s = Some r -> r = normalised (row s).
  Proof. unfold transitions_of. destruct (row s); [discriminate|]. intros E. now injection E. Qed.
  Lemma norm_in {K} (l : list (K * nat)) k q : In (k, q) (normalised l) <-> exists c, In (k, c) l /\ q = share c (sum_values l).
  Proof. unfold normalised. rewrite in_map_iff. split; [intros ([k' c] & E & H); cbn in E; injection E as <- <-; eauto|intros (c & H & ->); exists (k, c); auto]. Qed.
  Lemma norm_keys {K} (l : list (K * nat)) : map fst (normalised l) = map fst l.
  Proof. unfold normalised. now rewrite map_map. Qed.
  Lemma edge_step s b q : In (Some b, q) (normalised (row s)) <-> In (s, b) (map fst dfg) /\ q = share (edge_count dfg s b) (out_total dfg ea s).
  Proof.
    rewrite norm_in, row_total. destruct HP as (A & _). split.
    - intros (c & H & ->). apply row_edge in H. split; [apply (in_map fst _ _ H)|]. now rewrite (edge_key dfg _ _ _ A H).
    - intros [H ->]. apply in_map_iff in H as ([e c] & E & H). cbn in E. subst e. exists c. split; [now apply row_edge|]. now rewrite (edge_key dfg _ _ _ A H).
  Qed.
  Lemma end_step s q : In (None, q) (normalised (row s)) <-> In s (map fst ea) /\ q = share (count ea s) (out_total dfg ea s).
  Proof.
    rewrite norm_in, row_total. destruct HP as (_ & _ & A & _). split.
    - intros (c & H & ->). apply row_end in H. split; [apply (in_map fst _ _ H)|]. now rewrite (count_key ea _ _ A H).
    - intros [H ->]. apply in_map_iff in H as ([e c] & E & H). cbn in E. subst e. exists c. split; [now apply row_end|]. now rewrite (count_key ea _ _ A H).
  Qed.
  Lemma start_step a q : In (a, q) (normalised sa) <-> In a (map fst sa) /\ q = share (count sa a) (total sa).
  Proof.
    rewrite norm_in. destruct HP as (_ & A & _). split.
    - intros (c & H & ->). split; [apply (in_map fst _ _ H)|]. now rewrite (count_key sa _ _ A H).
    - intros [H ->]. apply in_map_iff in H as ([e c] & E & H). cbn in E. subst e. exists c. split; auto. now rewrite (count_key sa _ _ A H).
  Qed.
  Lemma edge_pos s b : In (s, b) (map fst dfg) -> (0 < share (edge_count dfg s b) (out_total dfg ea s))%Q.
  Proof.
    intros H. apply in_map_iff in H as ([e c] & E & H). cbn in E. subst e. destruct HP as (A & _ & _ & B & _). rewrite (edge_key dfg _ _ _ A H). apply B in H as Hc. apply share_pos; auto.
    apply row_edge in H. apply total_in in H. unfold total in H. change (list_sum (map snd (row s))) with (sum_values (row s)) in H. rewrite row_total in H. lia.
  Qed.
  Lemma end_pos s : In s (map fst ea) -> (0 < share (count ea s) (out_total dfg ea s))%Q.
  Proof.
    intros H. apply in_map_iff in H as ([e c] & E & H). cbn in E. subst e. destruct HP as (_ & _ & A & _ & B). rewrite (count_key ea _ _ A H). assert (Hc : 0 < c) by (apply (B s); auto). apply share_pos; auto.
    apply row_end in H. apply total_in in H. unfold total in H. change (list_sum (map snd (row s))) with (sum_values (row s)) in H. rewrite row_total in H. lia.
  Qed.
  Lemma start_pos a : In a (map fst sa) -> (0 < share (count sa a) (total sa))%Q.
  Proof. intros H. apply in_map_iff in H as ([e c] & E & H). cbn in E. subst e. destruct HP as (_ & A & _ & _ & B). rewrite (count_key sa _ _ A H). assert (Hc : 0 < c) by (apply (B a); auto). apply share_pos; auto. apply total_in in H. lia. Qed.
  (** ** the probability of a trace *)
  Definition key_test (o : option nat) (y : option nat * Q) : bool := match fst y, o with Some a, Some b => Nat.eqb a b | None, None => true | _, _ => false end.
  Lemma key_test_eq o y : key_test o y = true <-> fst y = o.
  Proof. unfold key_test. destruct y as [[a|] q], o as [b|]; cbn; try rewrite Nat.eqb_eq; split; intros; try congruence; auto. Qed.
  Lemma lookup_some o r q : lookup o r = Some q -> In (o, q) r.
  Proof. unfold lookup. destruct (find _ r) as [y|] eqn:F; [|discriminate]. apply find_some in F as [F1 F2]. apply (key_test_eq o y) in F2. intros E. injection E as <-. destruct y; cbn in *; now subst. Qed.
  Lemma lookup_none o r q : lookup o r = None -> ~ In (o, q) r.
  Proof. unfold lookup. destruct (find _ r) as [y|] eqn:F; [discriminate|]. intros _ H. eapply find_none in F; eauto. assert (key_test o (o, q) = true) by now apply key_test_eq. unfold key_test in *. congruence. Qed.
  Lemma lookup_row_none o s q : tro s = None -> ~ In (o, q) (normalised (row s)).
  Proof. unfold transitions_of. destruct (row s); [cbn; tauto|discriminate]. Qed.
  Lemma follow_chance t : forall a, match follow dfg ea (a :: t) with Some q => (q == chance_after dfg ea a t)%Q | None => (chance_after dfg ea a t == 0)%Q end.
  Proof.
    induction t as [|b t IH]; intros a.
    - cbn [follow chance_after]. assert (N : forall q, In (None, q) (normalised (row a)) -> q = share (count ea a) (out_total dfg ea a)) by (intros q Hq; apply end_step in Hq; tauto).
      assert (Z : (forall q, ~ In (None, q) (normalised (row a))) -> (share (count ea a) (out_total dfg ea a) == 0)%Q).
      { intros H. rewrite count_none; [apply share_0|]. intros Q. eapply H. apply end_step. split; eauto. }
      destruct (tro a) as [r|] eqn:T; [|apply Z; intros; now apply lookup_row_none]. apply tro_row in T. subst r. destruct (lookup None _) as [q|] eqn:L.
      + apply lookup_some in L. rewrite (N q L). ring.
      + apply Z. intros q. now apply lookup_none.
    - specialize (IH b). change (follow dfg ea (a :: b :: t)) with (match tro a with None => None | Some row => match lookup (Some b) row, follow dfg ea (b :: t) with Some p, Some q => Some (p * q)%Q | _, _ => None end end).
      change (chance_after dfg ea a (b :: t)) with (share (edge_count dfg a b) (out_total dfg ea a) * chance_after dfg ea b t)%Q.
      assert (Z : (forall q, ~ In (Some b, q) (normalised (row a))) -> (share (edge_count dfg a b) (out_total dfg ea a) * chance_after dfg ea b t == 0)%Q).
      { intros H. rewrite edge_none; [rewrite share_0; ring|]. intros Q. eapply H. apply edge_step. split; eauto. }
      destruct (tro a) as [r|] eqn:T; [|apply Z; intros; now apply lookup_row_none]. apply tro_row in T. subst r. destruct (lookup (Some b) _) as [p|] eqn:L; [|apply Z; intros q; now apply lookup_none].
      apply lookup_some in L. apply edge_step in L as [_ ->]. destruct (follow dfg ea (b :: t)) as [q|]; rewrite IH; ring.
  Qed.
  Theorem trace_probability t : (get_trace_probability t dfg sa ea == chance dfg sa ea t)%Q.
  Proof.
    destruct t as [|a t]; [reflexivity|]. unfold get_trace_probability. pose proof (follow_chance t a) as F. cbn [chance].
    destruct (find (fun x => fst x =? a) (normalised sa)) as [[x q]|] eqn:E.
    - apply find_some in E as [E1 E2]. cbn in E2. apply Nat.eqb_eq in E2. subst x. apply start_step in E1 as [_ ->]. destruct (follow dfg ea (a :: t)) as [p|]; rewrite F; [reflexivity|ring].
    - assert (Z : (share (count sa a) (total sa) == 0)%Q).
      { rewrite count_none; [apply share_0|]. intros Q. assert (G : In (a, share (count sa a) (total sa)) (normalised sa)) by (apply start_step; auto). eapply find_none in E; [|exact G]. cbn in E. rewrite Nat.eqb_refl in E. discriminate. }
      rewrite Z. ring.
  Qed.
  Lemma after_nonneg t : forall a, (0 <= chance_after dfg ea a t)%Q.
  Proof. induction t as [|b t IH]; intros a; cbn; [apply share_nonneg|]. apply Qmult_le_0_compat; [apply share_nonneg|apply IH]. Qed.
  Lemma chance_nonneg t : (0 <= chance dfg sa ea t)%Q.
  Proof. destruct t; cbn; [lra|]. apply Qmult_le_0_compat; [apply share_nonneg|apply after_nonneg]. Qed.
  Definition chain (t : list nat) : Prop := forall i a b, nth_error t i = Some a -> nth_error t (S i) = Some b -> In (a, b) (map fst dfg).
  Lemma chain_cons a b t : chain (a :: b :: t) <-> In (a, b) (map fst dfg) /\ chain (b :: t).
  Proof.
    split.
    - intros H. split; [apply (H 0); reflexivity|]. intros i x y A B. apply (H (S i)); auto.
    - intros [H1 H2] [|i] x y A B; [cbn in A, B; injection A as <-; injection B as <-; auto|]. apply (H2 i); auto.
  Qed.
  Lemma chain_one a : chain [a]. Proof. intros [|[|i]] x y A B; discriminate. Qed.
  Lemma qpos_mult x y : (0 <= x)%Q -> (0 <= y)%Q -> (0 < x * y)%Q -> (0 < x)%Q /\ (0 < y)%Q.
  Proof.
    intros A B C. split; apply Qnot_le_lt; intros D.
    - assert (x == 0)%Q by lra. rewrite H in C. lra.
    - assert (y == 0)%Q by lra. rewrite H in C. lra.
  Qed.
  Lemma not_zero_share c n : (0 < share c n)%Q -> c <> 0.
  Proof. intros H ->. rewrite share_0 in H. lra. Qed.
  Lemma after_pos t : forall a, (0 < chance_after dfg ea a t)%Q <-> chain (a :: t) /\ In (last (a :: t) 0) (map fst ea).
  Proof.
    induction t as [|b t IH]; intros a.
    - cbn [chance_after last]. split.
      + intros H. split; [apply chain_one|]. apply not_zero_share in H. destruct (in_dec Nat.eq_dec a (map fst ea)); auto. now rewrite count_none in H.
      + intros [_ H]. now apply end_pos.
    - rewrite chain_cons. change (last (a :: b :: t) 0) with (last (b :: t) 0). cbn [chance_after]. split.
      + intros H. apply qpos_mult in H as [H1 H2]; [|apply share_nonneg|apply after_nonneg]. apply IH in H2 as [H2 H3]. apply not_zero_share in H1.
        destruct (in_dec (fun x y : nat * nat => ltac:(decide equality; apply Nat.eq_dec)) (a, b) (map fst dfg)) as [I|I]; [auto|]. now rewrite edge_none in H1.
      + intros [[H1 H2] H3]. apply Qmult_lt_0_compat; [now apply edge_pos|]. apply IH. auto.
  Qed.
  Theorem chance_pos t : (0 < chance dfg sa ea t)%Q <-> is_trace dfg sa ea t.
  Proof.
    destruct t as [|a t]; [cbn; split; [lra|intros [H _]; congruence]|]. cbn [chance]. unfold is_trace. change (hd 0 (a :: t)) with a. split.
    - intros H. apply qpos_mult in H as [H1 H2]; [|apply share_nonneg|apply after_nonneg]. apply after_pos in H2 as [H2 H3]. apply not_zero_share in H1. split; [discriminate|]. split; [|auto].
      destruct (in_dec Nat.eq_dec a (map fst sa)); auto. now rewrite count_none in H1.
    - intros (_ & H1 & H2 & H3). apply Qmult_lt_0_compat; [now apply start_pos|]. apply after_pos. auto.
  Qed.
  (** ** the chances of all traces *)
  Lemma sum_cons {X} (f : X -> Q) x l : sum_of f (x :: l) = (f x + sum_of f l)%Q. Proof. reflexivity. Qed.
  Lemma sum_ext {X} (f g : X -> Q) l : (forall x, In x l -> f x == g x)%Q -> (sum_of f l == sum_of g l)%Q.
  Proof. induction l as [|x l IH]; intros H; [reflexivity|]. rewrite !sum_cons. rewrite (H x) by (left; auto). rewrite IH; [reflexivity|]. intros; apply H; right; auto. Qed.
  Lemma sum_le {X} (f g : X -> Q) l : (forall x, In x l -> f x <= g x)%Q -> (sum_of f l <= sum_of g l)%Q.
  Proof. induction l as [|x l IH]; intros H; [cbn; lra|]. rewrite !sum_cons. assert (f x <= g x)%Q by (apply H; left; auto). assert (sum_of f l <= sum_of g l)%Q by (apply IH; intros; apply H; right; auto). lra. Qed.
  Lemma sum_scale {X} (f : X -> Q) c l : (sum_of (fun x => c * f x) l == c * sum_of f l)%Q.
  Proof. induction l as [|x l IH]; [cbn; ring|]. rewrite !sum_cons, IH. ring. Qed.
  Lemma sum_zero {X} (f : X -> Q) l : (forall x, In x l -> f x == 0)%Q -> (sum_of f l == 0)%Q.
  Proof. induction l as [|x l IH]; intros H; [reflexivity|]. rewrite sum_cons. rewrite (H x) by (left; auto). rewrite IH by (intros; apply H; right; auto). ring. Qed.
  Lemma sum_add {X} (f g : X -> Q) l : (sum_of (fun x => f x + g x) l == sum_of f l + sum_of g l)%Q.
  Proof. induction l as [|x l IH]; [cbn; ring|]. rewrite !sum_cons, IH. ring. Qed.
  Lemma sum_pick (B : list nat) b (v : Q) : NoDup B -> (sum_of (fun x => if Nat.eqb x b then v else 0) B == if in_dec Nat.eq_dec b B then v else 0)%Q.
  Proof.
    induction 1 as [|x B H N IH]; [reflexivity|]. rewrite sum_cons. rewrite IH. destruct (Nat.eqb_spec x b) as [->|E].
    - destruct (in_dec Nat.eq_dec b B); [tauto|]. destruct (in_dec Nat.eq_dec b (b :: B)) as [|Q]; [ring|exfalso; apply Q; left; auto].
    - destruct (in_dec Nat.eq_dec b B) as [I|I], (in_dec Nat.eq_dec b (x :: B)) as [J|J]; try ring; exfalso; [apply J; right; auto|destruct J; auto].
  Qed.
  Definition tails (b : nat) (L : list (list nat)) : list (list nat) := flat_map (fun r => match r with c :: r' => if Nat.eqb b c then [r'] else [] | [] => [] end) L.
  Definition empties (L : list (list nat)) : list (list nat) := filter (fun r => match r with [] => true | _ => false end) L.
  Lemma tails_in b L r : In r (tails b L) <-> In (b :: r) L.
  Proof.
    unfold tails. rewrite in_flat_map. split.
    - intros ([|c r'] & H & Q); [easy|]. destruct (Nat.eqb_spec b c) as [->|]; [|easy]. destruct Q as [->|[]]. auto.
    - intros H. exists (b :: r). split; auto. rewrite Nat.eqb_refl. left; auto.
  Qed.
  Lemma tails_nodup b L : NoDup L -> NoDup (tails b L).
  Proof.
    induction 1 as [|[|c r] L H N IH]; [constructor|exact IH|]. change (tails b ((c :: r) :: L)) with ((if Nat.eqb b c then [r] else []) ++ tails b L). destruct (Nat.eqb_spec b c) as [->|]; [|exact IH]. cbn [app]. constructor; auto. rewrite tails_in. auto.
  Qed.
  (** each continuation is the empty one or starts with some activity of [B], or does not count *)
  Lemma split_sum (B : list nat) (h : nat -> list nat -> Q) (e : Q) L : NoDup B -> (forall b r, ~ In b B -> h b r == 0)%Q ->
    (sum_of (fun r => match r with [] => e | b :: r' => h b r' end) L == sum_of (fun _ => e) (empties L) + sum_of (fun b => sum_of (h b) (tails b L)) B)%Q.
  Proof.
    intros N H. induction L as [|r L IH].
    - cbn. rewrite sum_zero; [ring|]. intros; reflexivity.
    - rewrite sum_cons, IH. destruct r as [|c r].
      + change (empties ([] :: L)) with ([] :: empties L). rewrite sum_cons. change (fun b => sum_of (h b) (tails b ([] :: L))) with (fun b => sum_of (h b) (tails b L)). ring.
      + change (empties ((c :: r) :: L)) with (empties L). assert (E : (sum_of (fun b => sum_of (h b) (tails b ((c :: r) :: L))) B == sum_of (fun b => sum_of (h b) (tails b L)) B + sum_of (fun b => if Nat.eqb b c then h c r else 0) B)%Q).
        { rewrite <- sum_add. apply sum_ext. intros b _. change (tails b ((c :: r) :: L)) with ((if Nat.eqb b c then [r] else []) ++ tails b L). destruct (Nat.eqb_spec b c) as [->|]; cbn [app]; [rewrite sum_cons; ring|ring]. }
        rewrite E, sum_pick by auto. destruct (in_dec Nat.eq_dec c B) as [I|I]; [ring|]. rewrite (H c r I). ring.
  Qed.
  Lemma sum_share {K} (l : list (K * nat)) n : (sum_of (fun x => share (snd x) n) l == share (total l) n)%Q.
  Proof.
    induction l as [|x l IH]; [change (total (@nil (K * nat))) with 0; rewrite share_0; reflexivity|]. rewrite sum_cons, IH, total_cons. unfold share.
    rewrite Nat2Z.inj_add, inject_Z_plus. unfold Qdiv. ring.
  Qed.
  Lemma share_le_1 c n : c <= n -> (share c n <= 1)%Q.
  Proof. intros H. destruct n as [|n]; [assert (c = 0) by lia; subst; rewrite share_0; lra|]. unfold share. apply Qle_shift_div_r; [change 0%Q with (inject_Z 0); rewrite <- Zlt_Qlt; lia|]. rewrite Qmult_1_l, <- Zle_Qle. lia. Qed.
  Lemma share_add a b n : (share a n + share b n == share (a + b) n)%Q.
  Proof. unfold share. rewrite Nat2Z.inj_add, inject_Z_plus. unfold Qdiv. ring. Qed.
  Definition outs (s : nat) : list (nat * nat * nat) := filter (fun e => fst (fst e) =? s) dfg.
  Lemma outs_keys s : NoDup (map (fun e : nat * nat * nat => snd (fst e)) (outs s)).
  Proof.
    destruct HP as (A & _). apply nodup_inj; [apply nodup_filter; eapply NoDup_map_inv; exact A|]. intros [[x y] c] [[x' y'] c'] H1 H2 E. cbn in E. subst y'. apply filter_In in H1 as [H1 Q1]. apply filter_In in H2 as [H2 Q2]. cbn in Q1, Q2. apply Nat.eqb_eq in Q1, Q2. subst.
    pose proof (edge_key dfg _ _ _ A H1). pose proof (edge_key dfg _ _ _ A H2). congruence.
  Qed.
  Lemma empties_sum e L : NoDup L -> (0 <= e)%Q -> (sum_of (fun _ => e) (empties L) <= e)%Q.
  Proof.
    intros N He. assert (G : length (empties L) <= 1).
    { induction N as [|[|c r] L H N IH]; [cbn; lia| |exact IH]. cbn. assert (Z : empties L = []); [|unfold empties in Z; rewrite Z; cbn; lia]. unfold empties. clear -H. induction L as [|[|c r] L IH]; [reflexivity|exfalso; apply H; left; auto|]. cbn. apply IH. intros Q. apply H. right; auto. }
    destruct (empties L) as [|x [|]]; cbn in *; try lia; lra.
  Qed.
  Lemma sum_map {X Y} (k : Y -> X) (f : X -> Q) l : (sum_of f (map k l) == sum_of (fun y => f (k y)) l)%Q.
  Proof. induction l as [|x l IH]; [reflexivity|]. cbn [map]. rewrite !sum_cons, IH. reflexivity. Qed.
  Lemma after_total n : forall s L, NoDup L -> (forall r, In r L -> length r < n) -> (sum_of (chance_after dfg ea s) L <= 1)%Q.
  Proof.
    induction n as [|n IH]; intros s L N HL; [destruct L as [|r L]; [cbn; lra|]; specialize (HL r (or_introl eq_refl)); lia|].
    set (B := map (fun e : nat * nat * nat => snd (fst e)) (outs s)).
    set (h := fun b r => (share (edge_count dfg s b) (out_total dfg ea s) * chance_after dfg ea b r)%Q).
    assert (E : (sum_of (chance_after dfg ea s) L == sum_of (fun r => match r with [] => share (count ea s) (out_total dfg ea s) | b :: r' => h b r' end) L)%Q) by (apply sum_ext; intros [|b r] _; reflexivity).
    rewrite E, (split_sum B h); [|apply outs_keys|].
    - assert (S1 : (sum_of (fun b => sum_of (h b) (tails b L)) B <= share (total (outs s)) (out_total dfg ea s))%Q).
      { unfold B. rewrite sum_map, <- sum_share. apply sum_le. intros [[x b] c] Hx. cbn [fst snd]. unfold outs in Hx. apply filter_In in Hx as [Hx Q]. cbn in Q. apply Nat.eqb_eq in Q. subst x. destruct HP as (A & _). unfold h. rewrite sum_scale, (edge_key dfg _ _ _ A Hx).
        assert (T : (sum_of (chance_after dfg ea b) (tails b L) <= 1)%Q) by (apply IH; [now apply tails_nodup|]; intros r Hr; apply tails_in in Hr; apply HL in Hr; cbn in Hr; lia).
        pose proof (share_nonneg c (out_total dfg ea s)). nra. }
      pose proof (empties_sum (share (count ea s) (out_total dfg ea s)) L N (share_nonneg _ _)) as S2.
      assert (S3 : (share (count ea s) (out_total dfg ea s) + share (total (outs s)) (out_total dfg ea s) <= 1)%Q) by (rewrite share_add; apply share_le_1; unfold out_total, outs; lia). lra.
    - intros b r Hb. unfold h. rewrite edge_none; [rewrite share_0; ring|]. intros Q. apply Hb. unfold B. apply in_map_iff in Q as ([e c] & Ee & Q). cbn in Ee. subst e. apply in_map_iff. exists (s, b, c). split; auto. unfold outs. apply filter_In. split; auto. cbn. apply Nat.eqb_refl.
  Qed.
  Lemma bounded_len (L : list (list nat)) : exists n, forall r, In r L -> length r < n.
  Proof. exists (S (list_max (map (@length nat) L))). intros r Hr. assert (Q : Forall (fun k => k <= list_max (map (@length nat) L)) (map (@length nat) L)) by (apply list_max_le; auto). rewrite Forall_forall in Q. specialize (Q (length r) (in_map _ _ _ Hr)). lia. Qed.
  Theorem chances_total L : NoDup L -> (sum_of (chance dfg sa ea) L <= 1)%Q.
  Proof.
    intros N. set (h := fun b r => (share (count sa b) (total sa) * chance_after dfg ea b r)%Q).
    assert (E : (sum_of (chance dfg sa ea) L == sum_of (fun r => match r with [] => 0%Q | b :: r' => h b r' end) L)%Q) by (apply sum_ext; intros [|b r] _; reflexivity).
    rewrite E, (split_sum (map fst sa) h); [|apply HP|].
    - rewrite sum_zero by (intros; reflexivity). assert (S1 : (sum_of (fun b => sum_of (h b) (tails b L)) (map fst sa) <= share (total sa) (total sa))%Q).
      { rewrite sum_map, <- sum_share. apply sum_le. intros [a c] Hx. cbn [fst snd]. destruct HP as (_ & A & _). unfold h. rewrite sum_scale, (count_key sa _ _ A Hx).
        destruct (bounded_len (tails a L)) as (n & Hn). pose proof (after_total n a (tails a L) (tails_nodup a L N) Hn) as T. pose proof (share_nonneg c (total sa)). nra. }
      pose proof (share_le_1 (total sa) (total sa) ltac:(lia)). lra.
    - intros b r Hb. unfold h. rewrite count_none by auto. rewrite share_0. ring.
  Qed.
End G.
