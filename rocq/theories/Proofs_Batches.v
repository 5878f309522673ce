From Coq Require Import List Arith ZArith Bool Permutation Lia.
From Verif Require Import Model_Batches Spec_Batches.
Import ListNotations.
Open Scope Z_scope.

(** ** permutations *)
Lemma upd_0 {X} (x v : X) l : upd (x :: l) 0 v = v :: l.
Proof. reflexivity. Qed.
Lemma upd_S {X} (x v : X) l i : upd (x :: l) (S i) v = x :: upd l i v.
Proof. reflexivity. Qed.
Lemma upd_perm {X} (l : list X) i a v : nth_error l i = Some a -> Permutation (v :: l) (a :: upd l i v).
Proof.
  revert i. induction l as [|x l IH]; intros [|i] H; try discriminate.
  - injection H as ->. rewrite upd_0. apply perm_swap.
  - rewrite upd_S. rewrite perm_swap. rewrite (IH i H). apply perm_swap.
Qed.
Lemma upd_nth {X} (l : list X) i a v : nth_error l i = Some a -> nth_error (upd l i v) i = Some v.
Proof. revert i. induction l as [|x l IH]; intros [|i] H; try discriminate; [reflexivity|rewrite upd_S; exact (IH i H)]. Qed.
Lemma upd_other {X} (l : list X) i j v : i <> j -> nth_error (upd l i v) j = nth_error l j.
Proof. revert i j. induction l as [|x l IH]; intros [|i] [|j] H; try reflexivity; [congruence|rewrite upd_S; apply IH; congruence]. Qed.
Lemma swap_perm {X} i j (l : list X) : Permutation l (swap i j l).
Proof.
  unfold swap. destruct (nth_error l i) as [a|] eqn:Ei; [|reflexivity]. destruct (nth_error l j) as [b|] eqn:Ej; [|reflexivity].
  assert (E : nth_error (upd l i b) j = Some b) by (destruct (Nat.eq_dec i j) as [->|N]; [eapply upd_nth; eauto|rewrite upd_other; auto]).
  pose proof (upd_perm l i a b Ei) as P1. pose proof (upd_perm _ j b a E) as P2. rewrite P2 in P1. eapply Permutation_cons_inv; eauto.
Qed.
Lemma siftdown_perm k : forall s p l, Permutation l (siftdown k s p l).
Proof. induction k as [|k IH]; intros s p l; [reflexivity|]. cbn [siftdown]. destruct (s <? p)%nat; [|reflexivity]. destruct (less _ _ _); [|reflexivity]. etransitivity; [apply swap_perm|apply IH]. Qed.
Lemma to_leaf_perm k : forall p l, Permutation l (snd (to_leaf k p l)).
Proof. induction k as [|k IH]; intros p l; [reflexivity|]. cbn [to_leaf]. destruct (_ <? length l)%nat; [|reflexivity]. etransitivity; [apply swap_perm|apply IH]. Qed.
Lemma heapify_perm l : Permutation l (heapify l).
Proof.
  unfold heapify. induction (seq 0 _) as [|i s IH]; [reflexivity|]. cbn [fold_right]. etransitivity; [exact IH|]. unfold siftup. etransitivity; [apply to_leaf_perm|apply siftdown_perm].
Qed.
Lemma heappush_perm l x : Permutation (x :: l) (heappush l x).
Proof. unfold heappush. etransitivity; [|apply siftdown_perm]. apply Permutation_cons_append. Qed.
Lemma insert_perm x l : Permutation (x :: l) (insert x l).
Proof. induction l as [|y l IH]; [reflexivity|]. cbn [insert]. destruct (lt x y); [reflexivity|]. rewrite perm_swap. now constructor. Qed.
Lemma sort_perm l : Permutation l (sort l).
Proof.
  unfold sort. assert (G : forall l acc, Permutation (l ++ acc) (fold_left (fun acc x => insert x acc) l acc)); [|specialize (G l []); rewrite app_nil_r in G; exact G].
  clear l. induction l as [|x l IH]; intros acc; [reflexivity|]. cbn [fold_left app]. etransitivity; [|apply IH]. rewrite <- insert_perm. apply Permutation_middle.
Qed.

(** ** what all intervals satisfy *)
Lemma ev_eqb_eq a b : ev_eqb a b = true <-> a = b.
Proof. unfold ev_eqb. rewrite !andb_true_iff, !Z.eqb_eq, Nat.eqb_eq. destruct a, b. cbn. split; [intros [[-> ->] ->]; reflexivity|intros [= -> -> ->]; auto]. Qed.
Lemma union_in a b e : In e (union a b) <-> In e a \/ In e b.
Proof.
  unfold union. rewrite in_app_iff, filter_In. split; [tauto|]. intros [H|H]; [auto|]. destruct (existsb (ev_eqb e) a) eqn:X; [|right; auto]. left. apply existsb_exists in X as (f & Hf & E). apply ev_eqb_eq in E. subst. exact Hf.
Qed.
Lemma union_nodup a b : NoDup a -> NoDup b -> NoDup (union a b).
Proof.
  intros A B. unfold union. assert (F : NoDup (filter (fun e => negb (existsb (ev_eqb e) a)) b)) by (apply NoDup_filter; auto).
  assert (D : forall x, In x a -> ~ In x (filter (fun e => negb (existsb (ev_eqb e) a)) b)). { intros x H Q. apply filter_In in Q as [_ Q]. apply negb_true_iff in Q. assert (Z : existsb (ev_eqb x) a = true) by (apply existsb_exists; exists x; split; auto; apply ev_eqb_eq; auto). congruence. }
  revert D F. generalize (filter (fun e => negb (existsb (ev_eqb e) a)) b). intros c D F. clear B b. induction A as [|x a N A IH]; [exact F|]. cbn. constructor; [rewrite in_app_iff; intros [Q|Q]; [auto|exact (D x (or_introl eq_refl) Q)]|apply IH; intros y Hy; apply D; right; auto].
Qed.
Lemma merge_spans a b : spans a -> spans b -> spans (merge a b).
Proof.
  intros (A1 & (e1 & A2 & A3) & (e2 & A4 & A5) & A6) (B1 & (f1 & B2 & B3) & (f2 & B4 & B5) & B6). unfold spans, merge. cbn [evs lo hi]. split; [apply union_nodup; auto|]. split; [|split].
  - destruct (Z.le_ge_cases (lo a) (lo b)) as [L|L]; [exists e1|exists f1]; rewrite union_in; (split; [auto|lia]).
  - destruct (Z.le_ge_cases (hi a) (hi b)) as [L|L]; [exists f2|exists e2]; rewrite union_in; (split; [auto|lia]).
  - intros e He. apply union_in in He as [He|He]; [apply A6 in He|apply B6 in He]; lia.
Qed.
Section E.
  Variable events : list ev.
  Definition good (l : list iv) : Prop := (forall x, In x l -> spans x) /\ forall e, In e events <-> exists x, In x l /\ In e (evs x).
  Lemma good_perm l k : Permutation l k -> good l -> good k.
  Proof.
    intros P [G1 G2]. split; [intros x Hx; apply G1; rewrite P; auto|]. intros e. rewrite G2. split; intros (x & Hx & He); exists x; (split; [|auto]); [rewrite <- P; auto|rewrite P; auto].
  Qed.
  Lemma good_merge a b r : good (a :: b :: r) -> good (merge a b :: r).
  Proof.
    intros [G1 G2]. split.
    - intros x [<- |Hx]; [apply merge_spans; apply G1; [left; auto|right; left; auto]|apply G1; right; right; auto].
    - intros e. rewrite G2. split.
      + intros (x & [<- |[<- |Hx]] & He); [exists (merge a b)|exists (merge a b)|exists x; split; [right; auto|auto]]; (split; [left; auto|apply union_in; auto]).
      + intros (x & [<- |Hx] & He); [apply union_in in He as [He|He]; [exists a|exists b]; (split; [cbn; auto|auto])|exists x; split; [right; right; auto|auto]].
  Qed.
  Lemma good_start : good (map (fun e => Iv (st e) (et e) [e]) events).
  Proof.
    split.
    - intros x Hx. apply in_map_iff in Hx as (e & <- & _). unfold spans. cbn. split; [repeat constructor; auto|]. split; [exists e; auto|]. split; [exists e; auto|]. intros f [<- |[]]. lia.
    - intros e. split.
      + intros He. exists (Iv (st e) (et e) [e]). split; [apply in_map_iff; exists e; auto|left; auto].
      + intros (x & Hx & He). apply in_map_iff in Hx as (f & <- & Hf). destruct He as [<- |[]]. exact Hf.
  Qed.
  (** ** overlaps *)
  Lemma first_overlap_perm l : forall r m, first_overlap l = Some (r, m) -> exists a b r', Permutation l (a :: b :: r') /\ m = merge a b /\ Permutation r r' /\ lo b < hi a.
  Proof.
    induction l as [|a l IH]; intros r m H; [discriminate|]. destruct l as [|b l]; [discriminate|]. change (first_overlap (a :: b :: l)) with (if lo b <? hi a then Some (l, merge a b) else match first_overlap (b :: l) with Some (r', m) => Some (a :: r', m) | None => None end) in H. destruct (lo b <? hi a) eqn:L.
    - injection H as <- <-. apply Z.ltb_lt in L. exists a, b, l. auto.
    - destruct (first_overlap (b :: l)) as [[r' m']|] eqn:F; [|discriminate]. injection H as <- <-. destruct (IH r' m' eq_refl) as (x & y & k & P & -> & Q & L'). exists x, y, (a :: k). split; [|split; [|split]]; auto.
      rewrite P. rewrite (perm_swap x a). apply perm_skip. apply perm_swap.
  Qed.
  Lemma merge_overlapping_good k : forall l, (length l < k)%nat -> good l -> exists l', merge_overlapping k l = Some l' /\ good l' /\ first_overlap l' = None.
  Proof.
    induction k as [|k IH]; intros l L G; [lia|]. cbn [merge_overlapping]. destruct (first_overlap l) as [[r m]|] eqn:F; [|exists l; auto]. apply first_overlap_perm in F as (a & b & r' & P & -> & Q & _). apply IH.
    - rewrite <- (Permutation_length (sort_perm _)), app_length, (Permutation_length Q). apply Permutation_length in P. cbn in *. lia.
    - eapply good_perm; [apply sort_perm|]. eapply good_perm; [|apply good_merge; eapply good_perm; [exact P|exact G]]. rewrite Q. apply Permutation_cons_append.
  Qed.
  (** ** near intervals *)
  Definition apart (d : Z) (l : list iv) (i : nat) : Prop := forall j a b, (j < i)%nat -> nth_error l j = Some a -> nth_error l (S j) = Some b -> d < lo b - hi a.
  Lemma split_at {X} (l : list X) i a b : nth_error l i = Some a -> nth_error l (S i) = Some b -> l = firstn i l ++ a :: b :: skipn (2 + i) l.
  Proof.
    revert i. induction l as [|x l IH]; intros [|i] H1 H2; try discriminate.
    - cbn in H1. injection H1 as ->. destruct l as [|y l]; [discriminate|]. cbn in H2. injection H2 as ->. reflexivity.
    - cbn [firstn app]. change (skipn (2 + S i) (x :: l)) with (skipn (2 + i) l). rewrite <- (IH i); auto.
  Qed.
  Lemma near_pass_good d k : forall i l ch, (length l - i < k)%nat -> good l -> exists l' ch', near_pass k d i l ch = Some (l', ch') /\ good l' /\ (ch = true -> ch' = true) /\
    (length l' <= length l)%nat /\ (ch = false -> ch' = true -> (length l' < length l)%nat) /\ (ch' = false -> l' = l /\ forall j a b, (i <= j)%nat -> nth_error l j = Some a -> nth_error l (S j) = Some b -> d < lo b - hi a).
  Proof.
    induction k as [|k IH]; intros i l ch L G; [lia|]. cbn [near_pass]. destruct (nth_error l i) as [a|] eqn:E1.
    2:{ exists l, ch. split; [auto|]. split; [auto|]. split; [auto|]. split; [lia|]. split; [congruence|]. intros _. split; [auto|]. intros j a b H1 H2 _. apply nth_error_None in E1. assert (j < length l)%nat by (apply nth_error_Some; congruence). lia. }
    destruct (nth_error l (S i)) as [b|] eqn:E2.
    2:{ exists l, ch. split; [auto|]. split; [auto|]. split; [auto|]. split; [lia|]. split; [congruence|]. intros _. split; [auto|]. intros j x y H1 _ H2. apply nth_error_None in E2. assert (S j < length l)%nat by (apply nth_error_Some; congruence). lia. }
    destruct (lo b - hi a <=? d) eqn:D.
    - pose proof (split_at l i a b E1 E2) as Sp. set (r := firstn i l ++ skipn (2 + i) l) in *. assert (P : Permutation l (a :: b :: r)). { rewrite Sp at 1. unfold r. rewrite <- Permutation_middle. apply perm_skip. symmetry. apply Permutation_middle. }
      assert (G' : good (heappush r (merge a b))) by (eapply good_perm; [apply heappush_perm|]; apply good_merge; eapply good_perm; [exact P|exact G]).
      assert (LL : length (heappush r (merge a b)) = Nat.pred (length l)) by (rewrite <- (Permutation_length (heappush_perm _ _)), (Permutation_length P); reflexivity).
      assert (S i < length l)%nat by (apply nth_error_Some; congruence). destruct (IH i (heappush r (merge a b)) true) as (l' & ch' & H1 & H2 & H3 & H4 & H5 & H6); [lia|auto|]. exists l', ch'. split; [auto|]. split; [auto|]. split; [auto|]. split; [lia|]. split; [lia|]. intros Q. rewrite H3 in Q by auto. discriminate.
    - apply Z.leb_gt in D. assert (i < length l)%nat by (apply nth_error_Some; congruence). destruct (IH (S i) l ch) as (l' & ch' & H1 & H2 & H3 & H4 & H5 & H6); [lia|auto|]. exists l', ch'. split; [auto|]. split; [auto|]. split; [auto|]. split; [lia|]. split; [auto|]. intros Q. destruct (H6 Q) as [-> H7]. split; auto.
      intros j x y Hj X1 X2. destruct (Nat.eq_dec i j) as [<- |N]; [rewrite E1 in X1; rewrite E2 in X2; injection X1 as <-; injection X2 as <-; lia|apply (H7 j); auto; lia].
  Qed.
  Lemma merge_near_good d k : forall l, (length l < k)%nat -> good l -> exists l', merge_near k d l = Some l' /\ good l' /\ forall j a b, nth_error l' j = Some a -> nth_error l' (S j) = Some b -> d < lo b - hi a.
  Proof.
    induction k as [|k IH]; intros l L G; [lia|]. cbn [merge_near]. destruct (near_pass_good d (S (length l)) 0 l false ltac:(lia) G) as (l' & ch & E & G' & _ & L1 & L2 & A). rewrite E. destruct ch.
    - apply IH; auto. specialize (L2 eq_refl eq_refl). lia.
    - destruct (A eq_refl) as [-> A']. exists l. split; [auto|]. split; [auto|]. intros j a b. apply A'. lia.
  Qed.
  Theorem intervals_good d : exists l, intervals d events = Some l /\ good l /\ forall j a b, nth_error l j = Some a -> nth_error l (S j) = Some b -> d < lo b - hi a.
  Proof.
    unfold intervals. assert (G0 : good (heapify (map (fun e => Iv (st e) (et e) [e]) events))) by (eapply good_perm; [apply heapify_perm|apply good_start]).
    assert (L0 : (length (heapify (map (fun e => Iv (st e) (et e) [e]) events)) < S (length events))%nat) by (rewrite <- (Permutation_length (heapify_perm (map (fun e => Iv (st e) (et e) [e]) events))), map_length; lia).
    destruct (merge_overlapping_good (S (length events)) _ L0 G0) as (l & E & G & _). rewrite E. apply merge_near_good; auto.
  Qed.
  Lemma sep_all d l : 0 <= d -> (forall x, In x l -> lo x <= hi x) -> (forall j a b, nth_error l j = Some a -> nth_error l (S j) = Some b -> d < lo b - hi a) ->
    forall i j a b, (i < j)%nat -> nth_error l i = Some a -> nth_error l j = Some b -> hi a + d < lo b.
  Proof.
    intros D W A i j a b L Hi Hj. revert b Hj. induction L as [|j L IH]; intros b Hj; [specialize (A i a b Hi Hj); lia|].
    destruct (nth_error l j) as [c|] eqn:Ec; [|apply nth_error_None in Ec; assert (S j < length l)%nat by (apply nth_error_Some; congruence); lia]. specialize (IH c eq_refl). specialize (A j c b Ec Hj). assert (lo c <= hi c) by (apply W; eapply nth_error_In; eauto). lia.
  Qed.
End E.
Lemma spans_le b : spans b -> (forall e, In e (evs b) -> st e <= et e) -> lo b <= hi b.
Proof. intros (_ & (e & He & E) & _ & B) H. specialize (H e He). specialize (B e He). lia. Qed.

(** ** types *)
Lemma minimum_spec l : l <> [] -> In (minimum l) l /\ forall x, In x l -> minimum l <= x.
Proof.
  destruct l as [|x l]; [congruence|]. intros _. cbn [minimum]. revert x. induction l as [|y l IH]; intros x; cbn [fold_left]; [split; [left; auto|intros z [<- |[]]; lia]|].
  destruct (IH (Z.min x y)) as [H1 H2]. split.
  - destruct H1 as [H1|H1]; [|right; right; auto]. rewrite <- H1. destruct (Z.min_spec x y) as [[_ ->]|[_ ->]]; [left; auto|right; left; auto].
  - intros z [<- |[<- |Hz]]; [specialize (H2 _ (or_introl eq_refl)); lia|specialize (H2 _ (or_introl eq_refl)); lia|apply H2; right; auto].
Qed.
Lemma maximum_spec l : l <> [] -> In (maximum l) l /\ forall x, In x l -> x <= maximum l.
Proof.
  destruct l as [|x l]; [congruence|]. intros _. cbn [maximum]. revert x. induction l as [|y l IH]; intros x; cbn [fold_left]; [split; [left; auto|intros z [<- |[]]; lia]|].
  destruct (IH (Z.max x y)) as [H1 H2]. split.
  - destruct H1 as [H1|H1]; [|right; right; auto]. rewrite <- H1. destruct (Z.max_spec x y) as [[_ ->]|[_ ->]]; [right; left; auto|left; auto].
  - intros z [<- |[<- |Hz]]; [specialize (H2 _ (or_introl eq_refl)); lia|specialize (H2 _ (or_introl eq_refl)); lia|apply H2; right; auto].
Qed.
Lemma same_iff (f : ev -> Z) l : l <> [] -> (minimum (map f l) =? maximum (map f l)) = true <-> forall a b, In a l -> In b l -> f a = f b.
Proof.
  intros N. assert (N' : map f l <> []) by (destruct l; [congruence|discriminate]). destruct (minimum_spec _ N') as [M1 M2]. destruct (maximum_spec _ N') as [X1 X2]. rewrite Z.eqb_eq. split.
  - intros E a b Ha Hb. apply (in_map f) in Ha, Hb. pose proof (M2 _ Ha). pose proof (M2 _ Hb). pose proof (X2 _ Ha). pose proof (X2 _ Hb). lia.
  - intros H. apply in_map_iff in M1 as (a & E1 & Ha). apply in_map_iff in X1 as (b & E2 & Hb). rewrite <- E1, <- E2. auto.
Qed.
Lemma insert_ev_perm x l : Permutation (x :: l) (insert_ev x l).
Proof. induction l as [|y l IH]; [reflexivity|]. cbn [insert_ev]. destruct (ev_leb x y); [reflexivity|]. rewrite perm_swap. now constructor. Qed.
Lemma sorted_perm l : Permutation l (sorted_events l).
Proof. induction l as [|x l IH]; [reflexivity|]. cbn [sorted_events fold_right]. rewrite <- insert_ev_perm. now constructor. Qed.
Lemma leb_earlier a b : ev_leb a b = true <-> earlier a b.
Proof. unfold ev_leb, earlier. rewrite orb_true_iff, andb_true_iff, orb_true_iff, andb_true_iff, !Z.ltb_lt, !Z.eqb_eq, Nat.leb_le. reflexivity. Qed.
Lemma earlier_trans a b c : earlier a b -> earlier b c -> earlier a c.
Proof. unfold earlier. lia. Qed.
Lemma earlier_total a b : earlier a b \/ earlier b a.
Proof. unfold earlier. lia. Qed.
Inductive srt : list ev -> Prop := srt_nil : srt [] | srt_cons x l : (forall y, In y l -> earlier x y) -> srt l -> srt (x :: l).
Lemma insert_srt x l : srt l -> srt (insert_ev x l).
Proof.
  induction 1 as [|y l H S IH]; [constructor; [easy|constructor]|]. cbn [insert_ev]. destruct (ev_leb x y) eqn:E.
  - apply leb_earlier in E. constructor; [intros z [<- |Hz]; [auto|eapply earlier_trans; eauto]|constructor; auto].
  - assert (Q : earlier y x) by (destruct (earlier_total x y) as [Q|Q]; [apply leb_earlier in Q; congruence|auto]). constructor; auto. intros z Hz. rewrite <- insert_ev_perm in Hz. destruct Hz as [<- |Hz]; auto.
Qed.
Lemma sorted_srt l : srt (sorted_events l).
Proof. induction l as [|x l IH]; [constructor|]. cbn [sorted_events fold_right]. apply insert_srt, IH. Qed.
Lemma srt_order l : srt l -> in_order l.
Proof.
  induction 1 as [|x l H S IH]; intros i j a b L Hi Hj; [destruct i; discriminate|]. destruct j as [|j]; [lia|]. cbn in Hj. destruct i as [|i]; cbn in Hi; [injection Hi as <-; apply H; eapply nth_error_In; eauto|apply (IH i j); auto; lia].
Qed.
Lemma earlier_antisym a b : earlier a b -> earlier b a -> a = b.
Proof. unfold earlier. intros H1 H2. assert (st a = st b /\ et a = et b /\ case a = case b) as (E1 & E2 & E3) by lia. destruct a, b. cbn in *. congruence. Qed.
Lemma order_unique l : forall k, in_order l -> in_order k -> Permutation l k -> l = k.
Proof.
  assert (T : forall x l, in_order (x :: l) -> in_order l /\ forall y, In y l -> earlier x y). { clear l. intros x l H. split; [intros i j a b L Hi Hj; apply (H (S i) (S j)); auto; lia|]. intros y Hy. apply In_nth_error in Hy as (j & Hj). apply (H O (S j) x y); [lia|reflexivity|exact Hj]. }
  assert (R : forall x, earlier x x) by (unfold earlier; lia).
  induction l as [|x l IH]; intros k A B P; [apply Permutation_nil in P; auto|]. destruct k as [|y k]; [symmetry in P; apply Permutation_nil in P; discriminate|]. destruct (T _ _ A) as [A1 A2]. destruct (T _ _ B) as [B1 B2].
  assert (E : x = y). { apply earlier_antisym.
    - assert (I : In y (x :: l)) by (rewrite P; left; auto). destruct I as [<- |I]; auto.
    - assert (I : In x (y :: k)) by (rewrite <- P; left; auto). destruct I as [<- |I]; auto. }
  subst y. f_equal. apply IH; auto. eapply Permutation_cons_inv; eauto.
Qed.
Lemma sequential_iff l : sequential l = true <-> one_by_one l.
Proof.
  induction l as [|a l IH]; [split; [intros _ [|i] x y H; discriminate|auto]|]. destruct l as [|b l]; [split; [intros _ [|i] x y H1 H2; cbn in H2; [discriminate|destruct i; discriminate]|auto]|].
  change (sequential (a :: b :: l)) with ((et a =? st b) && sequential (b :: l)). rewrite andb_true_iff, Z.eqb_eq, IH. split.
  - intros [E H] [|i] x y H1 H2; [cbn in H1, H2; congruence|exact (H i x y H1 H2)].
  - intros H. split; [apply (H O a b); reflexivity|]. intros i x y H1 H2. exact (H (S i) x y H1 H2).
Qed.
