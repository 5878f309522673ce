From Coq Require Import List Arith Bool ZArith QArith Lia Permutation Sorted.
Import ListNotations.
From Verif Require Import Model_Dict Proofs_Dict Model_Dfg Spec_Dfg Proofs_Dfg Model_Lev Proofs_Lev Model_Declare Spec_Declare.
Local Open Scope nat_scope.
Local Arguments keqb {K Key} : simpl never.
Local Arguments Nat.ltb : simpl never.

Lemma mem_in a t : mem a t = true <-> In a t.
Proof.
  unfold mem. rewrite existsb_exists. split; [intros (x & H & E); apply Nat.eqb_eq in E; subst; auto|intros H; exists a; rewrite Nat.eqb_refl; auto].
Qed.
Lemma mem_false a t : mem a t = false <-> ~ In a t.
Proof. rewrite <- mem_in. destruct (mem a t); split; congruence. Qed.

(** ** Positions *)
Fixpoint posn (k a : nat) (t : trace) : list nat :=
  match t with [] => [] | x :: r => if Nat.eqb x a then k :: posn (S k) a r else posn (S k) a r end.
Definition ai_step (d : dict nat (list nat)) (ia : nat * nat) : dict nat (list nat) :=
  let d := if d_mem d (snd ia) then d else d_set d (snd ia) [] in
  d_set d (snd ia) (match d_get d (snd ia) with Some l => l | None => [] end ++ [fst ia]).
Lemma idxs_step d i x a : idxs (ai_step d (i, x)) a = idxs d a ++ if Nat.eqb x a then [i] else [].
Proof.
  unfold ai_step, idxs. cbn [fst snd]. rewrite d_get_set. change (keqb x a) with (Nat.eqb x a). destruct (Nat.eqb_spec x a) as [->|H].
  - unfold d_mem. destruct (d_get d a) eqn:E; [rewrite E; auto|]. rewrite d_get_set_same. auto.
  - rewrite app_nil_r. unfold d_mem. destruct (d_get d x); auto. rewrite d_get_set_other; auto.
Qed.
Lemma idxs_gen t : forall k d a, idxs (fold_left ai_step (combine (seq k (length t)) t) d) a = idxs d a ++ posn k a t.
Proof.
  induction t as [|x t IH]; intros k d a; cbn [length seq combine fold_left posn]; [rewrite app_nil_r; auto|]. rewrite IH, idxs_step.
  destruct (Nat.eqb x a); rewrite <- app_assoc; auto.
Qed.
Lemma idxs_posn t a : idxs (act_idxs t) a = posn 0 a t.
Proof. apply (idxs_gen t 0 []). Qed.
Lemma posn_in t : forall k a i, In i (posn k a t) <-> k <= i /\ nth_error t (i - k) = Some a.
Proof.
  induction t as [|x t IH]; intros k a i; cbn [posn].
  - split; [intros []|]. intros [_ H]. destruct (i - k); discriminate.
  - assert (E : In i (posn (S k) a t) <-> S k <= i /\ nth_error (x :: t) (i - k) = Some a).
    { rewrite IH. split; intros [H1 H2]; (split; [lia|]); replace (i - k) with (S (i - S k)) in * by lia; auto. }
    destruct (Nat.eqb_spec x a) as [->|H]; cbn [In]; rewrite E.
    + split; [intros [<-|H]; [rewrite Nat.sub_diag; auto|split; [lia|tauto]]|]. intros [H1 H2]. destruct (Nat.eq_dec k i); [auto|right; split; [lia|auto]].
    + split; [intros [H1 H2]; split; [lia|auto]|]. intros [H1 H2]. split; auto. destruct (Nat.eq_dec k i) as [->|]; [|lia]. rewrite Nat.sub_diag in H2. cbn in H2. congruence.
Qed.
Lemma posn0_in t a i : In i (posn 0 a t) <-> nth_error t i = Some a.
Proof. rewrite posn_in, Nat.sub_0_r. intuition lia. Qed.
Lemma pmax_spec l : l <> [] -> In (pmax l) l /\ forall x, In x l -> x <= pmax l.
Proof.
  destruct l as [|x l]; [congruence|]. intros _. cbn [pmax]. revert x. induction l as [|y l IH]; intros x; cbn [fold_left].
  - split; [left; auto|intros z [->|[]]; auto].
  - destruct (IH (Nat.max x y)) as [H1 H2]. split.
    + destruct H1 as [H1|H1]; [|right; right; auto]. destruct (Nat.max_spec x y) as [[_ E]|[_ E]]; rewrite E in H1 at 1; [right; left|left]; congruence.
    + intros z Hz. assert (M : Nat.max x y <= fold_left Nat.max l (Nat.max x y)) by (apply H2; left; auto). destruct Hz as [->|[->|Hz]]; [lia|lia|apply H2; right; auto].
Qed.
Lemma pmin_spec l : l <> [] -> In (pmin l) l /\ forall x, In x l -> pmin l <= x.
Proof.
  destruct l as [|x l]; [congruence|]. intros _. cbn [pmin]. revert x. induction l as [|y l IH]; intros x; cbn [fold_left].
  - split; [left; auto|intros z [->|[]]; auto].
  - destruct (IH (Nat.min x y)) as [H1 H2]. split.
    + destruct H1 as [H1|H1]; [|right; right; auto]. destruct (Nat.min_spec x y) as [[_ E]|[_ E]]; rewrite E in H1 at 1; [left|right; left]; congruence.
    + intros z Hz. assert (M : fold_left Nat.min l (Nat.min x y) <= Nat.min x y) by (apply H2; left; auto). destruct Hz as [->|[->|Hz]]; [lia|lia|apply H2; right; auto].
Qed.
Lemma posn_ne t a : In a t -> posn 0 a t <> [].
Proof. intros H. apply In_nth_error in H. destruct H as (i & H). apply posn0_in in H. intros E. rewrite E in H. destruct H. Qed.
Lemma response_pos t a b : response t a b <-> forall i, nth_error t i = Some a -> exists j, i < j /\ nth_error t j = Some b.
Proof.
  split.
  - intros H i Hi. apply nth_error_split in Hi. destruct Hi as (u & v & E & L). specialize (H u v E). apply In_nth_error in H. destruct H as (j & H).
    exists (S i + j). split; [lia|]. subst t. rewrite nth_error_app2 by lia. replace (S i + j - length u) with (S j) by lia. auto.
  - intros H u v E. destruct (H (length u)) as (j & Hj & G); [subst; rewrite nth_error_app2, Nat.sub_diag by lia; auto|].
    subst t. rewrite nth_error_app2 in G by lia. replace (j - length u) with (S (j - length u - 1)) in G by lia. cbn in G. eapply nth_error_In; eauto.
Qed.
Lemma precedence_pos t a b : precedence t a b <-> forall j, nth_error t j = Some b -> exists i, i < j /\ nth_error t i = Some a.
Proof.
  split.
  - intros H i Hi. apply nth_error_split in Hi. destruct Hi as (u & v & E & L). specialize (H u v E). apply In_nth_error in H. destruct H as (j & H).
    assert (j < length u) by (apply nth_error_Some; congruence). exists j. split; [lia|]. subst t. rewrite nth_error_app1 by lia. auto.
  - intros H u v E. destruct (H (length u)) as (j & Hj & G); [subst; rewrite nth_error_app2, Nat.sub_diag by lia; auto|].
    subst t. rewrite nth_error_app1 in G by lia. eapply nth_error_In; eauto.
Qed.
Lemma bad_response_spec t a b : a <> b -> bad_response t (a, b) = true <-> ~ response t a b.
Proof.
  intros Hab. unfold bad_response. cbn [fst snd]. rewrite !idxs_posn, response_pos. destruct (mem a t) eqn:Ea; cbn [andb].
  2:{ split; [discriminate|]. intros H. exfalso. apply H. intros i Hi. apply mem_false in Ea. apply nth_error_In in Hi. tauto. }
  apply mem_in in Ea. destruct (mem b t) eqn:Eb; cbn [negb orb].
  2:{ split; auto. intros _ H. apply mem_false in Eb. apply In_nth_error in Ea. destruct Ea as (i & Hi). destruct (H i Hi) as (j & _ & Hj). apply nth_error_In in Hj. tauto. }
  apply mem_in in Eb. destruct (pmax_spec _ (posn_ne _ _ Ea)) as [A1 A2], (pmax_spec _ (posn_ne _ _ Eb)) as [B1 B2].
  apply posn0_in in A1, B1. destruct (Nat.ltb_spec (pmax (posn 0 b t)) (pmax (posn 0 a t))) as [H|H].
  - split; auto. intros _ G. destruct (G _ A1) as (j & Hj & Gj). apply posn0_in in Gj. apply B2 in Gj. lia.
  - split; [discriminate|]. intros G. exfalso. apply G. intros i Hi. exists (pmax (posn 0 b t)). split; auto.
    pose proof Hi as Hi'. apply posn0_in, A2 in Hi'. destruct (Nat.eq_dec i (pmax (posn 0 b t))); [congruence|lia].
Qed.
Lemma bad_precedence_spec t a b : a <> b -> bad_precedence t (a, b) = true <-> ~ precedence t a b.
Proof.
  intros Hab. unfold bad_precedence. cbn [fst snd]. rewrite !idxs_posn, precedence_pos. destruct (mem b t) eqn:Eb; cbn [andb].
  2:{ split; [discriminate|]. intros H. exfalso. apply H. intros i Hi. apply mem_false in Eb. apply nth_error_In in Hi. tauto. }
  apply mem_in in Eb. destruct (mem a t) eqn:Ea; cbn [negb orb].
  2:{ split; auto. intros _ H. apply mem_false in Ea. apply In_nth_error in Eb. destruct Eb as (i & Hi). destruct (H i Hi) as (j & _ & Hj). apply nth_error_In in Hj. tauto. }
  apply mem_in in Ea. destruct (pmin_spec _ (posn_ne _ _ Ea)) as [A1 A2], (pmin_spec _ (posn_ne _ _ Eb)) as [B1 B2].
  apply posn0_in in A1, B1. destruct (Nat.ltb_spec (pmin (posn 0 b t)) (pmin (posn 0 a t))) as [H|H].
  - split; auto. intros _ G. destruct (G _ B1) as (j & Hj & Gj). apply posn0_in in Gj. apply A2 in Gj. lia.
  - split; [discriminate|]. intros G. exfalso. apply G. intros i Hi. exists (pmin (posn 0 a t)). split; auto.
    pose proof Hi as Hi'. apply posn0_in, B2 in Hi'. destruct (Nat.eq_dec i (pmin (posn 0 a t))); [congruence|lia].
Qed.
Lemma bad_succession_spec t a b : a <> b -> bad_succession t (a, b) = true <-> ~ (In a t /\ In b t /\ response t a b /\ precedence t a b).
Proof.
  intros Hab. pose proof (bad_response_spec t a b Hab) as R. pose proof (bad_precedence_spec t a b Hab) as P.
  unfold bad_response, bad_precedence, bad_succession in *. cbn [fst snd] in *. pose proof (mem_in a t) as Ma. pose proof (mem_in b t) as Mb.
  destruct (mem a t); cbn [andb orb negb] in *; [|split; auto; intros _ (H & _); apply Ma in H; discriminate].
  destruct (mem b t); cbn [andb orb negb] in *; [|split; auto; intros _ (_ & H & _); apply Mb in H; discriminate].
  destruct (Nat.ltb (pmin _) (pmin _)); cbn [orb].
  - split; auto. intros _ (_ & _ & _ & H). apply (proj1 P eq_refl). auto.
  - destruct (Nat.ltb (pmax _) (pmax _)).
    + split; auto. intros _ (_ & _ & H & _). apply (proj1 R eq_refl). auto.
    + split; [discriminate|]. intros H. exfalso. apply H. assert (Rd : ~ ~ response t a b) by (intros X; apply R in X; discriminate). assert (Pd : ~ ~ precedence t a b) by (intros X; apply P in X; discriminate).
      split; [apply Ma; auto|]. split; [apply Mb; auto|].
      (* both properties are decidable *)
      split.
      * rewrite response_pos in *. intros i Hi. destruct (existsb (fun j => Nat.ltb i j && match nth_error t j with Some x => Nat.eqb x b | None => false end) (seq 0 (length t))) eqn:E.
        -- apply existsb_exists in E. destruct E as (j & _ & E). apply andb_true_iff in E. destruct E as [E1 E2]. apply Nat.ltb_lt in E1. exists j. split; auto. destruct (nth_error t j); [|discriminate]. apply Nat.eqb_eq in E2. congruence.
        -- exfalso. apply Rd. intros G. destruct (G i Hi) as (j & Hj & Gj). assert (X : existsb (fun j => Nat.ltb i j && match nth_error t j with Some x => Nat.eqb x b | None => false end) (seq 0 (length t)) = true); [|congruence].
           apply existsb_exists. exists j. split; [apply in_seq; split; [lia|]; apply nth_error_Some; congruence|]. rewrite Gj, Nat.eqb_refl, andb_true_r. apply Nat.ltb_lt. auto.
      * rewrite precedence_pos in *. intros i Hi. destruct (existsb (fun j => Nat.ltb j i && match nth_error t j with Some x => Nat.eqb x a | None => false end) (seq 0 (length t))) eqn:E.
        -- apply existsb_exists in E. destruct E as (j & _ & E). apply andb_true_iff in E. destruct E as [E1 E2]. apply Nat.ltb_lt in E1. exists j. split; auto. destruct (nth_error t j); [|discriminate]. apply Nat.eqb_eq in E2. congruence.
        -- exfalso. apply Pd. intros G. destruct (G i Hi) as (j & Hj & Gj). assert (X : existsb (fun j => Nat.ltb j i && match nth_error t j with Some x => Nat.eqb x a | None => false end) (seq 0 (length t)) = true); [|congruence].
           apply existsb_exists. exists j. split; [apply in_seq; split; [lia|]; apply nth_error_Some; congruence|]. rewrite Gj, Nat.eqb_refl, andb_true_r. apply Nat.ltb_lt. auto.
Qed.

(** ** The sorted occurrences of two activities *)
Fixpoint occs (k a b : nat) (t : trace) : list (nat * nat) :=
  match t with [] => [] | x :: r => if Nat.eqb x a || Nat.eqb x b then (x, k) :: occs (S k) a b r else occs (S k) a b r end.
Lemma occs_ge t : forall k a b x i, In (x, i) (occs k a b t) -> k <= i.
Proof.
  induction t as [|y t IH]; intros k a b x i; cbn [occs]; [intros []|]. destruct (_ || _); cbn [In]; [intros [[= <- <-]|H]; auto|intros H]; apply IH in H; lia.
Qed.
Lemma occs_sorted t : forall k a b, StronglySorted (fun x y => (Z.of_nat (snd x) < Z.of_nat (snd y))%Z) (occs k a b t).
Proof.
  induction t as [|y t IH]; intros k a b; cbn [occs]; [constructor|]. destruct (_ || _); auto. constructor; auto. apply Forall_forall. intros [x i] H. apply occs_ge in H. cbn. lia.
Qed.
Lemma occs_perm t : forall k a b, a <> b -> Permutation (map (fun i => (a, i)) (posn k a t) ++ map (fun i => (b, i)) (posn k b t)) (occs k a b t).
Proof.
  induction t as [|y t IH]; intros k a b H; cbn [occs posn map app]; auto. destruct (Nat.eqb_spec y a) as [->|Ha]; cbn [orb].
  - destruct (Nat.eqb_spec a b); [congruence|]. cbn [map app]. constructor. auto.
  - destruct (Nat.eqb_spec y b) as [->|Hb]; auto. cbn [map]. etransitivity; [symmetry; apply Permutation_middle|]. constructor. auto.
Qed.
Lemma sorted_unique {A} (f : A -> Z) l' : forall l, StronglySorted (fun x y => (f x <= f y)%Z) l -> StronglySorted (fun x y => (f x < f y)%Z) l' -> Permutation l l' -> l = l'.
Proof.
  induction l' as [|x l' IH]; intros l H1 H2 P; [apply Permutation_sym, Permutation_nil in P; auto|].
  destruct l as [|y l]; [apply Permutation_nil in P; discriminate|]. inversion H1 as [|? ? S1 F1]; subst. inversion H2 as [|? ? S2 F2]; subst.
  assert (E : y = x).
  { assert (Hy : In y (x :: l')) by (eapply Permutation_in; [exact P|left; auto]). destruct Hy as [->|Hy]; auto.
    rewrite Forall_forall in F1, F2. assert (Hx : In x (y :: l)) by (eapply Permutation_in; [apply Permutation_sym; exact P|left; auto]). destruct Hx as [?|Hx]; auto.
    specialize (F1 _ Hx). specialize (F2 _ Hy). lia. }
  subst y. f_equal. apply IH; auto. eapply Permutation_cons_inv; eauto.
Qed.
Lemma posn_nil t : forall k a, ~ In a t -> posn k a t = [].
Proof.
  induction t as [|y t IH]; intros k a H; cbn [posn]; auto. destruct (Nat.eqb_spec y a) as [->|Hn]; [exfalso; apply H; left; auto|]. apply IH. intros G. apply H. right; auto.
Qed.
Lemma spec_idxs_occs t a b : a <> b -> spec_idxs t (a, b) = occs 0 a b t.
Proof.
  intros H. unfold spec_idxs. cbn [fst snd]. rewrite !idxs_posn.
  assert (E : forall c, (if mem c t then map (fun i => (c, i)) (posn 0 c t) else []) = map (fun i => (c, i)) (posn 0 c t)).
  { intros c. destruct (mem c t) eqn:Ec; auto. apply mem_false in Ec. rewrite posn_nil; auto. }
  rewrite !E. apply (sorted_unique (fun x => Z.of_nat (snd x))).
  - apply sorted_by_sorted.
  - apply occs_sorted.
  - etransitivity; [symmetry; apply sorted_by_perm|]. apply occs_perm; auto.
Qed.
Lemma occs_fst t : forall k a b, map fst (occs k a b t) = proj a b t.
Proof. induction t as [|y t IH]; intros k a b; cbn; auto. destruct (_ || _); cbn; rewrite IH; auto. Qed.
Lemma occs_app u : forall k a b v, occs k a b (u ++ v) = occs k a b u ++ occs (k + length u) a b v.
Proof.
  induction u as [|y u IH]; intros k a b v; cbn [occs app length]; [rewrite Nat.add_0_r; auto|]. rewrite IH. replace (S k + length u) with (k + S (length u)) by lia. destruct (_ || _); auto.
Qed.

(** ** The loop over pairs *)
Fixpoint pk (chain : bool) (a b : nat) (l : list (nat * nat)) : bool :=
  match l with
  | [] => true
  | [_] => false
  | x :: y :: r => Nat.eqb (fst x) a && Nat.eqb (fst y) b && (negb chain || Nat.eqb (snd y) (snd x + 1)) && pk chain a b r
  end.
Lemma two_step {A} (P : list A -> Prop) : P [] -> (forall x, P [x]) -> (forall x y r, P r -> P (x :: y :: r)) -> forall l, P l.
Proof.
  intros H0 H1 H2. assert (G : forall l, P l /\ forall x, P (x :: l)); [|intros l; apply G]. induction l as [|x l [IH1 IH2]]; split; auto.
Qed.
Lemma pairs_ok_pk chain a b l : pairs_ok chain (a, b) l = pk chain a b l.
Proof.
  induction l as [|x|x y r IH] using two_step; auto.
  - unfold pairs_ok. cbn. rewrite orb_true_r. auto.
  - cbn [pk]. rewrite <- IH. unfold pairs_ok. cbn [length seq forallb fst snd]. rewrite <- !seq_shift, !map_map.
    change (Nat.even 0) with true. change (Nat.even 1) with false. cbn [andb negb]. change (0 + 1) with 1. cbn [nth].
    assert (E0 : Nat.eqb 0 (S (S (length r)) - 1) = false) by (apply Nat.eqb_neq; lia). rewrite E0.
    f_equal.
    + destruct (Nat.eqb (fst x) a), (Nat.eqb (fst y) b), chain, (Nat.eqb (snd y) (snd x + 1)); auto.
    + clear IH E0.
      assert (G : forall n k, k + n <= length r ->
         forallb (fun i => negb (Nat.even i && (negb (Nat.eqb (fst (nth i (x :: y :: r) (0, 0))) a) || Nat.eqb i (S (S (length r)) - 1)
            || negb (Nat.eqb (fst (nth (i + 1) (x :: y :: r) (0, 0))) b) || (chain && negb (Nat.eqb (snd (nth (i + 1) (x :: y :: r) (0, 0))) (snd (nth i (x :: y :: r) (0, 0)) + 1))))))
           (map (fun i => S (S i)) (seq k n)) =
         forallb (fun i => negb (Nat.even i && (negb (Nat.eqb (fst (nth i r (0, 0))) a) || Nat.eqb i (length r - 1)
            || negb (Nat.eqb (fst (nth (i + 1) r (0, 0))) b) || (chain && negb (Nat.eqb (snd (nth (i + 1) r (0, 0))) (snd (nth i r (0, 0)) + 1)))))) (seq k n)).
      { induction n as [|n IHn]; intros k Hk; auto. cbn [seq map forallb]. rewrite IHn by lia. f_equal.
        change (Nat.even (S (S k))) with (Nat.even k). change (S (S k) + 1) with (S (S (k + 1))). cbn [nth].
        replace (Nat.eqb (S (S k)) (S (S (length r)) - 1)) with (Nat.eqb k (length r - 1)); auto.
        destruct (Nat.eqb_spec k (length r - 1)), (Nat.eqb_spec (S (S k)) (S (S (length r)) - 1)); auto; lia. }
      apply (G (length r) 0). lia.
Qed.

(** ** Alternation *)
Lemma filter_split {A} (p : A -> bool) t : forall u a v, filter p t = u ++ a :: v -> exists u' v', t = u' ++ a :: v' /\ filter p u' = u /\ filter p v' = v.
Proof.
  induction t as [|x t IH]; intros u a v E; cbn in E; [destruct u; discriminate|]. destruct (p x) eqn:Ex.
  - destruct u as [|y u]; cbn in E; inversion E; subst.
    + exists [], t. auto.
    + destruct (IH u a v) as (u' & v' & E1 & E2 & E3); auto. exists (y :: u'), v'. cbn. rewrite Ex, E1, E2. auto.
  - destruct (IH u a v E) as (u' & v' & E1 & E2 & E3). exists (x :: u'), v'. cbn. rewrite Ex, E1, E2. auto.
Qed.
Lemma proj_app a b u v : proj a b (u ++ v) = proj a b u ++ proj a b v.
Proof. apply filter_app. Qed.
Lemma proj_a a b v : proj a b (a :: v) = a :: proj a b v.
Proof. unfold proj. cbn. rewrite Nat.eqb_refl. auto. Qed.
Lemma proj_b a b v : proj a b (b :: v) = b :: proj a b v.
Proof. unfold proj. cbn. rewrite Nat.eqb_refl, orb_true_r. auto. Qed.
Lemma proj_x a b x v : x <> a -> x <> b -> proj a b (x :: v) = proj a b v.
Proof. intros Ha Hb. unfold proj. cbn. destruct (Nat.eqb_spec x a), (Nat.eqb_spec x b); try congruence. auto. Qed.
Lemma proj_in_a a b t : In a (proj a b t) <-> In a t.
Proof. unfold proj. rewrite filter_In, Nat.eqb_refl. cbn. tauto. Qed.
Lemma proj_in_b a b t : In b (proj a b t) <-> In b t.
Proof. unfold proj. rewrite filter_In, Nat.eqb_refl, orb_true_r. tauto. Qed.
Lemma alt_response_proj t a b : alt_response t a b <-> alt_response (proj a b t) a b.
Proof.
  split.
  - intros H u v E. destruct (filter_split _ _ _ _ _ E) as (u' & v' & E1 & E2 & E3). destruct (H _ _ E1) as (v1 & v2 & E4 & E5).
    exists (proj a b v1), (proj a b v2). split; [unfold proj in *; rewrite <- E3, E4; fold (proj a b (v1 ++ b :: v2)); rewrite proj_app, proj_b; auto|]. rewrite proj_in_a. auto.
  - intros H u v E. destruct (H (proj a b u) (proj a b v)) as (w1 & w2 & E1 & E2); [rewrite E, proj_app, proj_a; auto|].
    destruct (filter_split _ _ _ _ _ E1) as (v1 & v2 & E3 & E4 & E5). exists v1, v2. split; auto. rewrite <- (proj_in_a a b). unfold proj. rewrite E4. auto.
Qed.
Lemma alt_precedence_proj t a b : alt_precedence t a b <-> alt_precedence (proj a b t) a b.
Proof.
  split.
  - intros H u v E. destruct (filter_split _ _ _ _ _ E) as (u' & v' & E1 & E2 & E3). destruct (H _ _ E1) as (u1 & u2 & E4 & E5).
    exists (proj a b u1), (proj a b u2). split; [unfold proj in *; rewrite <- E2, E4; fold (proj a b (u1 ++ a :: u2)); rewrite proj_app, proj_a; auto|]. rewrite proj_in_b. auto.
  - intros H u v E. destruct (H (proj a b u) (proj a b v)) as (w1 & w2 & E1 & E2); [rewrite E, proj_app, proj_b; auto|].
    destruct (filter_split _ _ _ _ _ E1) as (u1 & u2 & E3 & E4 & E5). exists u1, u2. split; auto. rewrite <- (proj_in_b a b). unfold proj. rewrite E5. auto.
Qed.
Definition alt_succ (t : trace) a b := alt_response t a b /\ alt_precedence t a b.
Definition chain_succ (t : trace) a b := chain_response t a b /\ chain_precedence t a b.
Definition succ (chain : bool) := if chain then chain_succ else alt_succ.
Lemma alt_succ_proj t a b : alt_succ t a b <-> alt_succ (proj a b t) a b.
Proof. unfold alt_succ. rewrite alt_response_proj, alt_precedence_proj. tauto. Qed.
Lemma alt_succ_ab a b r : a <> b -> alt_succ (a :: b :: r) a b <-> alt_succ r a b.
Proof.
  intros Hab. split; intros [H1 H2]; split.
  - intros u v E. apply (H1 (a :: b :: u) v). subst. auto.
  - intros u v E. destruct (H2 (a :: b :: u) v) as (u1 & u2 & E1 & E2); [subst; auto|]. destruct u1 as [|z u1]; cbn in E1; inversion E1; subst; [exfalso; apply E2; left; auto|].
    destruct u1 as [|z' u1]; cbn in *; [congruence|]. match goal with E : b :: u = _ |- _ => inversion E; subst end. eauto.
  - intros [|x [|y u]] v E; cbn in E; inversion E; subst.
    + exists [], r. auto.
    + congruence.
    + eauto.
  - intros [|x [|y u]] v E; cbn in E; inversion E; subst.
    + congruence.
    + exists [], []. auto.
    + destruct (H2 u v eq_refl) as (u1 & u2 & -> & E2). exists (x :: y :: u1), u2. auto.
Qed.
Lemma alt_succ_b a b r : a <> b -> ~ alt_succ (b :: r) a b.
Proof. intros Hab [_ H]. destruct (H [] r eq_refl) as (u1 & u2 & E & _). destruct u1; discriminate. Qed.
Lemma alt_succ_aa a b r : a <> b -> ~ alt_succ (a :: a :: r) a b.
Proof. intros Hab [H _]. destruct (H [] (a :: r) eq_refl) as (v1 & v2 & E & G). destruct v1; cbn in E; inversion E; subst; [congruence|]. apply G. left; auto. Qed.
Lemma alt_succ_a a b : ~ alt_succ [a] a b.
Proof. intros [H _]. destruct (H [] [] eq_refl) as (v1 & v2 & E & _). destruct v1; discriminate. Qed.
Lemma alt_succ_nil a b : alt_succ [] a b.
Proof. split; intros [|] ? E; discriminate. Qed.
Lemma word_in a b t x : In x (proj a b t) -> x = a \/ x = b.
Proof. unfold proj. rewrite filter_In. intros [_ H]. apply orb_true_iff in H. destruct H as [H|H]; apply Nat.eqb_eq in H; auto. Qed.
Lemma pk_alt_word a b (l : list (nat * nat)) : a <> b -> (forall x, In x (map fst l) -> x = a \/ x = b) -> pk false a b l = true <-> alt_succ (map fst l) a b.
Proof.
  intros Hab. induction l as [|x|x y r IH] using two_step; intros Hw.
  - split; auto. intros _. apply alt_succ_nil.
  - cbn. split; [discriminate|]. intros H. exfalso. destruct (Hw (fst x)) as [E|E]; [left; auto| |]; rewrite E in H; [eapply alt_succ_a; eauto|eapply alt_succ_b; eauto].
  - cbn [pk map negb orb]. rewrite andb_true_r. destruct (Hw (fst x)) as [Ex|Ex]; [left; auto| |]; rewrite Ex.
    + rewrite Nat.eqb_refl. cbn [andb]. destruct (Hw (fst y)) as [Ey|Ey]; [right; left; auto| |]; rewrite Ey.
      * apply Nat.eqb_neq in Hab as Hab'. rewrite Hab'. cbn. split; [discriminate|]. intros H. exfalso. eapply alt_succ_aa; eauto.
      * rewrite Nat.eqb_refl. cbn [andb]. rewrite IH, alt_succ_ab; auto. tauto. intros z Hz. apply Hw. right; right; auto.
    + assert (Hba : Nat.eqb b a = false) by (apply Nat.eqb_neq; auto). rewrite Hba. cbn. split; [discriminate|]. intros H. exfalso. eapply alt_succ_b; eauto.
Qed.
Lemma chain_succ_x a b x r : x <> a -> x <> b -> chain_succ (x :: r) a b <-> chain_succ r a b.
Proof.
  intros Ha Hb. split; intros [H1 H2]; split.
  - intros u v E. apply (H1 (x :: u) v). subst. auto.
  - intros u v E. destruct (H2 (x :: u) v) as (u' & E'); [subst; auto|]. destruct u' as [|z u']; cbn in E'; inversion E'; subst; [congruence|eauto].
  - intros [|y u] v E; inversion E; subst; [congruence|eauto].
  - intros [|y u] v E; inversion E; subst; [congruence|]. destruct (H2 u v eq_refl) as (u' & ->). exists (y :: u'). auto.
Qed.
Lemma chain_succ_ab a b r : a <> b -> chain_succ (a :: b :: r) a b <-> chain_succ r a b.
Proof.
  intros Hab. split; intros [H1 H2]; split.
  - intros u v E. apply (H1 (a :: b :: u) v). subst. auto.
  - intros u v E. destruct (H2 (a :: b :: u) v) as (u' & E'); [subst; auto|]. destruct u' as [|z [|z' u']]; cbn in E'; inversion E'; subst; [congruence|eauto].
  - intros [|x [|y u]] v E; cbn in E; inversion E; subst; [eauto|congruence|eauto].
  - intros [|x [|y u]] v E; cbn in E; inversion E; subst; [congruence|exists []; auto|]. destruct (H2 u v eq_refl) as (u' & ->). exists (x :: y :: u'). auto.
Qed.
Lemma chain_succ_b a b r : ~ chain_succ (b :: r) a b.
Proof. intros [_ H]. destruct (H [] r eq_refl) as (u' & E). destruct u'; discriminate. Qed.
Lemma chain_succ_a a b r : chain_succ (a :: r) a b -> exists r', r = b :: r'.
Proof. intros [H _]. apply (H [] r). auto. Qed.
Lemma pk_chain a b : a <> b -> forall t k, pk true a b (occs k a b t) = true <-> chain_succ t a b.
Proof.
  intros Hab. assert (Hba : Nat.eqb b a = false) by (apply Nat.eqb_neq; auto).
  intros t. induction t as [t IH] using (well_founded_induction (Wf_nat.well_founded_ltof _ (@length nat))). unfold Wf_nat.ltof in IH. intros k.
  destruct t as [|x t]; [cbn; split; auto; intros _; split; intros [|] ? E; discriminate|].
  destruct (Nat.eq_dec x a) as [->|Ha].
  - cbn [occs]. rewrite Nat.eqb_refl. cbn [orb]. split.
    + intros H. destruct t as [|y t]; [discriminate|]. destruct (Nat.eq_dec y b) as [->|Hb].
      * apply chain_succ_ab; auto. cbn [occs] in H. rewrite Hba, Nat.eqb_refl in H. cbn [orb pk fst snd] in H. apply andb_true_iff in H. destruct H as [_ H]. apply (IH t) in H; auto. cbn. lia.
      * exfalso. cbn [occs] in H. apply Nat.eqb_neq in Hb. rewrite Hb in H. destruct (Nat.eqb_spec y a) as [->|Hy].
        -- cbn [orb] in H. cbn [pk fst] in H. rewrite Hb, andb_false_r in H. discriminate.
        -- cbn [orb] in H. destruct (occs (S (S k)) a b t) as [|[z i] l] eqn:E; [discriminate|]. cbn [pk fst snd] in H.
           assert (L : S (S k) <= i) by (eapply (occs_ge t _ a b z); rewrite E; left; auto). destruct (Nat.eqb_spec i (k + 1)); [lia|]. rewrite andb_false_r in H. discriminate.
    + intros H. destruct (chain_succ_a _ _ _ H) as (r & ->). apply (proj1 (chain_succ_ab _ _ _ Hab)) in H. cbn [occs]. rewrite Hba, Nat.eqb_refl. cbn [orb pk fst snd]. rewrite !Nat.eqb_refl.
      replace (Nat.eqb (S k) (k + 1)) with true by (symmetry; apply Nat.eqb_eq; lia). cbn [andb negb orb]. apply (IH r); [cbn; lia|auto].
  - cbn [occs]. apply Nat.eqb_neq in Ha as Ha'. rewrite Ha'. cbn [orb]. destruct (Nat.eq_dec x b) as [->|Hb].
    + rewrite Nat.eqb_refl. split; [|intros H; exfalso; eapply chain_succ_b; eauto]. destruct (occs (S k) a b t); cbn [pk fst]; [discriminate|]. rewrite Hba. discriminate.
    + apply Nat.eqb_neq in Hb as Hb'. rewrite Hb'. rewrite chain_succ_x by auto. apply IH. cbn. lia.
Qed.
Lemma pk_succ chain a b t k : a <> b -> pk chain a b (occs k a b t) = true <-> succ chain t a b.
Proof.
  intros Hab. destruct chain; [apply pk_chain; auto|]. cbn [succ]. rewrite pk_alt_word; auto; rewrite occs_fst; [symmetry; apply alt_succ_proj|apply word_in].
Qed.
Theorem alt_succession_spec chain t a b : a <> b -> bad_alt_succession chain t (a, b) = true <-> ~ succ chain t a b.
Proof.
  intros Hab. unfold bad_alt_succession. rewrite spec_idxs_occs, pairs_ok_pk by auto. pose proof (pk_succ chain a b t 0 Hab) as H.
  destruct (pk _ _ _ _); cbn; split; intros; try congruence; try tauto. intros G. apply H in G. discriminate.
Qed.
(** *** Alternate and chain response: what is checked *)
Lemma succ_x chain a b x r : x <> a -> x <> b -> succ chain (x :: r) a b <-> succ chain r a b.
Proof. intros Ha Hb. destruct chain; cbn [succ]; [apply chain_succ_x; auto|]. rewrite (alt_succ_proj (x :: r)), (alt_succ_proj r), proj_x; auto. tauto. Qed.
Lemma succ_b chain a b r : a <> b -> ~ succ chain (b :: r) a b.
Proof. intros Hab. destruct chain; cbn [succ]; [apply chain_succ_b|apply alt_succ_b; auto]. Qed.
Lemma drop_first_occs a b : a <> b -> forall t k, exists u v, t = u ++ v /\ ~ In a u /\ drop_first a (occs k a b t) = occs (k + length u) a b v /\ (v = [] \/ exists v', v = a :: v').
Proof.
  intros Hab. induction t as [|x t IH]; intros k; [exists [], []; auto|]. destruct (Nat.eq_dec x a) as [->|Ha].
  - exists [], (a :: t). cbn [app length occs]. rewrite Nat.add_0_r, Nat.eqb_refl. cbn [orb drop_first fst]. rewrite Nat.eqb_refl. cbn [negb]. rewrite ?Nat.eqb_refl. cbn [orb]. split; auto. split; auto. split; eauto.
  - destruct (IH (S k)) as (u & v & E1 & E2 & E3 & E4). exists (x :: u), v. cbn [app length occs]. apply Nat.eqb_neq in Ha as Ha'. rewrite Ha'. cbn [orb].
    split; [congruence|]. split; [intros [?|?]; congruence|]. replace (k + S (length u)) with (S k + length u) by lia. split; auto.
    destruct (Nat.eqb x b); auto. cbn [drop_first fst]. rewrite Ha'. cbn [negb]. auto.
Qed.
Lemma succ_skip chain a b : a <> b -> forall z v, ~ In a z -> succ chain (z ++ v) a b -> succ chain v a b.
Proof.
  intros Hab. induction z as [|x z IH]; intros v Hz H; auto. cbn [app] in H. destruct (Nat.eq_dec x b) as [->|Hb]; [exfalso; eapply succ_b; eauto|].
  apply IH; [intros G; apply Hz; right; auto|]. apply succ_x in H; auto. intros ->. apply Hz. left; auto.
Qed.
Lemma split_before {A} (u v u' v' : list A) (a : A) : u ++ v = u' ++ v' -> ~ In a u' -> (v = [] \/ exists w, v = a :: w) -> ~ In a u -> (v = [] -> ~ In a (u' ++ v')) ->
  (exists z, v' = z ++ v /\ ~ In a z) \/ (v = [] /\ ~ In a v').
Proof.
  revert u'. induction u as [|x u IH]; intros u' E H1 H2 H3 H4; cbn in E.
  - destruct H2 as [->|(w & ->)]; [right; split; auto; intros G; apply H4; auto; apply in_or_app; auto|]. destruct u' as [|y u']; cbn in E; [left; exists []; subst; auto|].
    inversion E; subst. exfalso. apply H1. left; auto.
  - destruct u' as [|y u']; cbn in E.
    + left. exists (x :: u). subst v'. auto.
    + inversion E; subst. apply (IH u'); auto; [intros G; apply H1; right; auto|intros G; apply H3; right; auto|]. intros Hv G. apply (H4 Hv). right; auto.
Qed.
Lemma succ_none chain a b v : a <> b -> ~ In a v -> succ chain v a b -> succ chain [] a b.
Proof. intros Hab Hv H. apply (succ_skip chain a b Hab v []); auto. rewrite app_nil_r. auto. Qed.
Theorem alt_response_spec chain t a b : a <> b -> bad_alt_response chain t (a, b) = false <-> exists u v, t = u ++ v /\ ~ In a u /\ succ chain v a b.
Proof.
  intros Hab. unfold bad_alt_response. rewrite spec_idxs_occs, pairs_ok_pk by auto. cbn [fst snd].
  destruct (drop_first_occs a b Hab t 0) as (u & v & E1 & E2 & E3 & E4). rewrite E3. rewrite negb_false_iff, (pk_succ chain a b v) by auto. split; [eauto|].
  intros (u' & v' & F1 & F2 & F3). rewrite F1 in E1. symmetry in E1. destruct (split_before u v u' v' a E1 F2 E4 E2) as [(z & -> & Hz)|[-> Hv]].
  - intros ->. rewrite app_nil_r in E1. rewrite <- E1. auto.
  - eapply succ_skip; eauto.
  - eapply succ_none; eauto.
Qed.
(** *** Alternate and chain precedence: what is checked *)
Lemma drop_second_occs a b : a <> b -> forall t k, exists u v, t = u ++ v /\ drop_second b (occs k a b t) = occs (k + length u) a b v /\
  (exists x j, (x = [] \/ x = [b]) /\ proj a b u = x ++ repeat a j) /\
  ((proj a b t = [] /\ proj a b v = []) \/ (exists z, proj a b v = [z]) \/ (exists z r, proj a b v = z :: b :: r)).
Proof.
  intros Hab t k.
  assert (G : forall n t k, length t <= n -> exists u v, t = u ++ v /\ drop_second b (occs k a b t) = occs (k + length u) a b v /\
     ((proj a b t = [] /\ u = []) \/ (exists x j, (x = a \/ x = b) /\ (proj a b u = [] \/ proj a b u = x :: repeat a j) /\
        ((exists z, proj a b v = [z]) \/ (exists z r, proj a b v = z :: b :: r))))).
  { clear t k. induction n as [|n IH]; intros t k L; [destruct t; [exists [], []; auto|cbn in L; lia]|].
    destruct t as [|x t]; [exists [], []; auto|]. cbn in L.
    destruct (Nat.eqb x a || Nat.eqb x b) eqn:Ex.
    - cbn [occs]. rewrite Ex. destruct (occs (S k) a b t) as [|[y i] l] eqn:El.
      + exists [], (x :: t). cbn [app length drop_second]. rewrite Nat.add_0_r. split; auto. split; [cbn [occs]; rewrite Ex, El; auto|]. right. exists a, 0. split; auto. split; auto. left. exists x.
        unfold proj. cbn. rewrite Ex. f_equal. change (proj a b t = []). rewrite <- (occs_fst t (S k)), El. auto.
      + cbn [drop_second fst]. destruct (Nat.eqb_spec y b) as [->|Hy]; cbn [negb].
        * exists [], (x :: t). cbn [app length]. rewrite Nat.add_0_r. split; auto. split; [cbn [occs]; rewrite Ex, El; auto|]. right. exists a, 0. split; auto. split; auto. right. exists x, (map fst l).
          unfold proj. cbn. rewrite Ex. f_equal. change (proj a b t = b :: map fst l). rewrite <- (occs_fst t (S k)), El. auto.
        * assert (Hya : y = a). { destruct (word_in a b t y); auto; [rewrite <- (occs_fst t (S k)), El; left; auto|congruence]. } subst y.
          destruct (IH t (S k)) as (u & v & E1 & E2 & E3); [lia|]. rewrite El in E2. exists (x :: u), v. cbn [app length]. split; [congruence|]. replace (k + S (length u)) with (S k + length u) by lia. split; auto.
          right. exists x. assert (Hx : x = a \/ x = b) by (apply orb_true_iff in Ex; destruct Ex as [Ex|Ex]; apply Nat.eqb_eq in Ex; auto).
          assert (Pt : proj a b t = a :: map fst l) by (rewrite <- (occs_fst t (S k)), El; auto).
          destruct E3 as [[E3 _]|(x' & j & Hx' & E3 & E4)]; [congruence|].
          assert (Pu : exists j', proj a b u = repeat a j').
          { destruct E3 as [E3|E3]; [exists 0; auto|]. subst t. rewrite proj_app, E3 in Pt. cbn in Pt. inversion Pt; subst x'. exists (S j). rewrite E3. auto. }
          destruct Pu as (j' & Pu). exists j'. split; auto. split; auto. right. unfold proj. cbn. rewrite Ex. f_equal. exact Pu.
    - destruct (IH t (S k)) as (u & v & E1 & E2 & E3); [lia|].
      assert (Px : forall w, proj a b (x :: w) = proj a b w) by (intros w; unfold proj; cbn; rewrite Ex; auto).
      destruct E3 as [[E3 E4]|E3].
      + exists [], (x :: t). cbn [app length]. split; auto. split; [|left; rewrite Px; auto]. rewrite Nat.add_0_r. cbn [occs]. rewrite Ex. subst u. cbn in E1. subst v. rewrite E2. cbn [length]. rewrite Nat.add_0_r. auto.
      + exists (x :: u), v. cbn [app length occs]. rewrite Ex. split; [congruence|]. replace (k + S (length u)) with (S k + length u) by lia. split; auto. right. rewrite Px. auto. }
  destruct (G (length t) t k (le_n _)) as (u & v & E1 & E2 & E3). exists u, v. split; auto. split; auto. destruct E3 as [[E3 ->]|(x & j & Hx & E3 & E4)].
  - split; [exists [], 0; auto|]. left. cbn in E1. subst v. auto.
  - split; [|right; auto]. destruct E3 as [E3|E3].
    + exists [], 0. auto.
    + destruct Hx as [->| ->]; [exists [], (S j); auto|exists [b], j; auto].
Qed.
Lemma drop_second_pre a b j1 : forall (L1 : list (nat * nat)) x i i' r, a <> b -> (x = [] \/ x = [b]) -> map fst L1 = x ++ repeat a j1 ->
  drop_second b (L1 ++ (a, i) :: (b, i') :: r) = (a, i) :: (b, i') :: r.
Proof.
  assert (G : forall j L1 i i' r, a <> b -> map fst L1 = repeat a j -> drop_second b (L1 ++ (a, i) :: (b, i') :: r) = (a, i) :: (b, i') :: r).
  { induction j as [|j IH]; intros L1 i i' r Hab E.
    - destruct L1; [|discriminate]. cbn. rewrite Nat.eqb_refl. auto.
    - destruct L1 as [|[y k] L1]; [discriminate|]. cbn in E. inversion E; subst. specialize (IH L1 i i' r Hab). destruct L1 as [|[y' k'] L1].
      + cbn [app drop_second fst]. apply Nat.eqb_neq in Hab as Hab'. rewrite Hab'. cbn [negb]. apply IH. auto.
      + cbn [app]. cbn [drop_second fst]. assert (y' = a) by (destruct j; cbn in *; congruence). subst y'. apply Nat.eqb_neq in Hab as Hab'. rewrite Hab'. cbn [negb]. apply IH. auto. }
  intros L1 x i i' r Hab Hx E. destruct Hx as [->| ->]; [eapply G; eauto|]. destruct L1 as [|[y k] L1]; [discriminate|]. cbn in E. inversion E as [[E1 E2]]. subst y.
  pose proof (G j1 L1 i i' r Hab E2) as H. destruct L1 as [|[y' k'] L1].
  - cbn [app drop_second fst]. apply Nat.eqb_neq in Hab as Hab'. rewrite Hab'. cbn [negb]. auto.
  - cbn [app] in *. cbn [drop_second fst]. assert (y' = a) by (destruct j1; cbn in *; congruence). subst y'. apply Nat.eqb_neq in Hab as Hab'. rewrite Hab'. cbn [negb]. auto.
Qed.
Lemma succ_alt chain t a b : succ chain t a b -> alt_succ t a b.
Proof.
  destruct chain; auto. cbn. intros [H1 H2]. split.
  - intros u v E. destruct (H1 u v E) as (v' & ->). exists [], v'. auto.
  - intros u v E. destruct (H2 u v E) as (u' & ->). exists u', []. auto.
Qed.
Theorem alt_precedence_spec chain t a b : a <> b -> bad_alt_precedence chain t (a, b) = false <->
  (~ In a t /\ ~ In b t) \/ exists u v x j, t = u ++ v /\ (x = [] \/ x = [b]) /\ proj a b u = x ++ repeat a j /\ In a v /\ succ chain v a b.
Proof.
  intros Hab. unfold bad_alt_precedence. rewrite spec_idxs_occs, pairs_ok_pk by auto. cbn [fst snd].
  assert (N : proj a b t = [] <-> ~ In a t /\ ~ In b t).
  { split; [intros E; rewrite <- (proj_in_a a b), <- (proj_in_b a b), E; auto|]. intros [H1 H2]. destruct (proj a b t) as [|x w] eqn:E; auto. exfalso.
    destruct (word_in a b t x) as [->| ->]; [rewrite E; left; auto|apply H1, (proj_in_a a b); rewrite E; left; auto|apply H2, (proj_in_b a b); rewrite E; left; auto]. }
  rewrite negb_false_iff. split.
  - destruct (drop_second_occs a b Hab t 0) as (u & v & E1 & E2 & (x & j & Hx & E3) & E4). rewrite E2, (pk_succ chain a b v) by auto. intros H.
    destruct E4 as [[E4 _]|[(z & E4)|(z & r & E4)]]; [left; apply N; auto| |].
    + exfalso. apply succ_alt, alt_succ_proj in H. rewrite E4 in H. destruct (word_in a b v z) as [->| ->]; [rewrite E4; left; auto|eapply alt_succ_a; eauto|eapply alt_succ_b; eauto].
    + right. exists u, v, x, j. repeat split; auto. apply (proj_in_a a b). rewrite E4. destruct (word_in a b v z) as [->| ->]; [rewrite E4; left; auto|left; auto|].
      exfalso. apply succ_alt, alt_succ_proj in H. rewrite E4 in H. eapply alt_succ_b; eauto.
  - intros [H|(u & v & x & j & E & Hx & Hu & Ha & Hs)].
    + assert (E : occs 0 a b t = []) by (apply N in H; rewrite <- (occs_fst t 0) in H; destruct (occs 0 a b t); [auto|discriminate]). rewrite E. auto.
    + subst t. rewrite occs_app. cbn [Nat.add]. assert (Hw : pk chain a b (occs (length u) a b v) = true) by (apply pk_succ; auto).
      destruct (occs (length u) a b v) as [|[y i] [|[y' i'] r]] eqn:Ev.
      * exfalso. apply (proj_in_a a b) in Ha. rewrite <- (occs_fst v (length u)), Ev in Ha. destruct Ha.
      * discriminate.
      * assert (Hy : y = a /\ y' = b). { cbn [pk fst] in Hw. destruct (Nat.eqb_spec y a), (Nat.eqb_spec y' b); auto; discriminate. } destruct Hy as [-> ->].
        rewrite (drop_second_pre a b j (occs 0 a b u) x); auto. rewrite occs_fst. auto.
Qed.
