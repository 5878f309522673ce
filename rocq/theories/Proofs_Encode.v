(** Proofs for C109. *)
From Coq Require Import List Arith Bool Permutation Sorting.Sorted Lia.
From Verif Require Import Model_Encode Spec_Encode.
Import ListNotations.

(** ** letters *)
Definition val (acc : nat) (w : list nat) : nat := fold_left (fun v d => v * 26 + d + 1) w acc.
Lemma val_app a u w : val a (u ++ w) = val (val a u) w.
Proof. apply fold_left_app. Qed.
Lemma letters_app fuel : forall i r, letters fuel i r = letters fuel i [] ++ r.
Proof. induction fuel as [|k IH]; intros i r; cbn [letters app]; auto. destruct (i <? 26); auto. rewrite IH, (IH _ [i mod 26]), <- app_assoc. auto. Qed.
Lemma letters_val fuel : forall i, i < fuel -> val 0 (letters fuel i []) = i + 1.
Proof.
  induction fuel as [|k IH]; intros i L; [lia|]. cbn [letters]. pose proof (Nat.div_mod i 26 ltac:(lia)) as D. destruct (Nat.ltb_spec i 26).
  - unfold val. cbn [fold_left]. rewrite Nat.mod_small by lia. lia.
  - rewrite letters_app, val_app. assert (1 <= i / 26) by (apply Nat.div_le_lower_bound; lia). assert (i / 26 < i) by (apply Nat.div_lt; lia). rewrite IH by lia. unfold val. cbn [fold_left]. lia.
Qed.
Lemma letters_word fuel : forall i, 0 < fuel -> word (letters fuel i []).
Proof.
  induction fuel as [|k IH]; intros i L; [lia|]. cbn [letters]. pose proof (Nat.mod_upper_bound i 26 ltac:(lia)). destruct (i <? 26).
  - split; [discriminate|]. intros d [<-|[]]. auto.
  - rewrite letters_app. split; [destruct (letters k (i / 26 - 1) []); discriminate|]. intros d Hd. apply in_app_or in Hd as [Hd|[<-|[]]]; auto. destruct k; [destruct Hd|]. eapply IH; eauto. lia.
Qed.
Lemma code_val i : val 0 (code i) = i + 1.
Proof. apply letters_val. lia. Qed.
Lemma val_lt u : forall w a b, a < b -> length u = length w -> (forall d, In d u -> d < 26) -> val a u < val b w.
Proof.
  induction u as [|x u IH]; intros [|y w] a b L E D; cbn in E; try discriminate; cbn; auto. apply IH; [|lia|intros; apply D; right; auto]. specialize (D x (or_introl eq_refl)). nia.
Qed.
Lemma val_shorter w : forall u b, 0 < b -> length u <= length w -> (forall d, In d u -> d < 26) -> val 0 u < val b w.
Proof.
  induction w as [|y w IH]; intros u b L E D.
  - destruct u; [cbn; auto|cbn in E; lia].
  - destruct (Nat.eq_dec (length u) (length (y :: w))) as [Q|Q]; [apply val_lt; auto|]. cbn. apply IH; [lia|cbn in *; lia|auto].
Qed.
Lemma val_lex u w : lex u w -> forall a, (forall d, In d u -> d < 26) -> val a u < val a w.
Proof. intros H. induction H as [x y u w L E|x u w H IH]; intros a D; cbn; [apply val_lt; auto; [lia|intros; apply D; right; auto]|apply IH; intros; apply D; right; auto]. Qed.
Lemma val_shortlex u w : word u -> word w -> shortlex u w -> val 0 u < val 0 w.
Proof.
  intros [_ Du] [Nw Dw] [L|[L H]]; [|apply val_lex; auto]. destruct w as [|y w]; [congruence|]. cbn. apply val_shorter; auto; [lia|cbn in L; lia].
Qed.
Lemma lex_total u : forall w, length u = length w -> lex u w \/ u = w \/ lex w u.
Proof.
  induction u as [|x u IH]; intros [|y w] E; cbn in E; try discriminate; auto. injection E as E. destruct (lt_eq_lt_dec x y) as [[L|L]|L].
  - left. constructor; auto.
  - subst y. destruct (IH w E) as [H|[H|H]]; [left; apply lex_later; auto|right; left; congruence|right; right; apply lex_later; auto].
  - right; right. constructor; auto.
Qed.
Lemma shortlex_total u w : shortlex u w \/ u = w \/ shortlex w u.
Proof. unfold shortlex. destruct (lt_eq_lt_dec (length u) (length w)) as [[L|L]|L]; auto. destruct (lex_total u w L) as [H|[H|H]]; auto. Qed.
Lemma val_inj u w : word u -> word w -> val 0 u = val 0 w -> u = w.
Proof. intros U W E. destruct (shortlex_total u w) as [H|[H|H]]; auto; apply val_shortlex in H; auto; lia. Qed.
Lemma code_word i : word (code i).
Proof. apply letters_word. lia. Qed.
Lemma code_inj i j : code i = code j -> i = j.
Proof. intros E. pose proof (code_val i). pose proof (code_val j). rewrite E in *. lia. Qed.
Lemma code_onto w : word w -> exists i, code i = w.
Proof.
  intros W. assert (P : 0 < val 0 w). { destruct W as [N _]. destruct w as [|x w]; [congruence|]. cbn. apply (Nat.lt_le_trans _ (x + 1)); [lia|]. generalize (x + 1). induction w as [|y w IH]; intros a; cbn; auto. specialize (IH ltac:(discriminate) (a * 26 + y + 1)). lia. }
  exists (val 0 w - 1). apply val_inj; auto; [apply code_word|]. rewrite code_val. lia.
Qed.
Lemma code_order i j : i < j <-> shortlex (code i) (code j).
Proof.
  split; intros H.
  - destruct (shortlex_total (code i) (code j)) as [Q|[Q|Q]]; auto; [apply code_inj in Q; lia|]. apply val_shortlex in Q; try apply code_word. rewrite !code_val in Q. lia.
  - apply val_shortlex in H; try apply code_word. rewrite !code_val in H. lia.
Qed.

(** ** the dictionary *)
Lemma firsts_in seen l a : In a (firsts seen l) <-> In a l /\ ~ In a seen.
Proof.
  revert seen. induction l as [|b l IH]; intros seen; cbn; [tauto|]. destruct (existsb (Nat.eqb b) seen) eqn:E.
  - apply existsb_exists in E as (x & Hx & E). apply Nat.eqb_eq in E. subst x. rewrite IH. intuition (subst; auto; tauto).
  - assert (N : ~ In b seen) by (intros H; assert (existsb (Nat.eqb b) seen = true) by (apply existsb_exists; exists b; split; auto; apply Nat.eqb_refl); congruence).
    cbn. rewrite IH. cbn. destruct (Nat.eq_dec a b) as [->|]; intuition congruence.
Qed.
Lemma firsts_NoDup l : forall seen, NoDup (firsts seen l).
Proof. induction l as [|b l IH]; intros seen; cbn; [constructor|]. destruct (existsb _ seen); auto. constructor; auto. rewrite firsts_in. cbn. tauto. Qed.
Lemma insert_perm f x l : Permutation (insert f x l) (x :: l).
Proof. induction l as [|y l IH]; cbn; auto. destruct (f y <=? f x); auto. rewrite IH. apply perm_swap. Qed.
Lemma sort_perm f l : Permutation (fold_right (insert f) [] l) l.
Proof. induction l as [|y l IH]; cbn; auto. rewrite insert_perm. auto. Qed.
Lemma sort_sorted f l : StronglySorted (fun a b => f b <= f a) (fold_right (insert f) [] l).
Proof.
  induction l as [|x l IH]; cbn; [constructor|]. induction IH as [|y s S IHs F]; cbn; [constructor; constructor|]. destruct (Nat.leb_spec (f y) (f x)).
  - constructor; [constructor; auto|]. constructor; auto. eapply Forall_impl; [|exact F]. cbn. intros. lia.
  - constructor; auto. rewrite Forall_forall in F |- *. intros z Hz. rewrite insert_perm in Hz. destruct Hz as [<-|Hz]; [lia|auto].
Qed.
Lemma vc_in col a : In a (value_counts col) <-> In a col.
Proof. unfold value_counts. split; intros H; [rewrite sort_perm in H; apply firsts_in in H; tauto|rewrite sort_perm; apply firsts_in; auto]. Qed.
Lemma vc_NoDup col : NoDup (value_counts col).
Proof. eapply Permutation_NoDup; [symmetry; apply sort_perm|apply firsts_NoDup]. Qed.
Lemma get_iff {K V} (eqb : K -> K -> bool) (E : forall x y, eqb x y = true <-> x = y) (d : list (K * V)) k v : NoDup (map fst d) -> get eqb d k = Some v <-> In (k, v) d.
Proof.
  intros N. unfold get. induction d as [|[k' v'] d IH]; cbn; [split; [discriminate|tauto]|]. inversion N as [|x y N1 N2]; subst. destruct (eqb k k') eqn:Q.
  - apply E in Q. subst k'. cbn. split; [intros H; left; congruence|]. intros [H|H]; [congruence|]. exfalso. apply N1. apply in_map_iff. exists (k, v). auto.
  - rewrite IH by auto. split; auto. intros [H|H]; auto. injection H as -> ->. assert (eqb k k = true) by (apply E; auto). congruence.
Qed.
Lemma word_eqb_iff a : forall b, word_eqb a b = true <-> a = b.
Proof. induction a as [|x a IH]; intros [|y b]; cbn; try (split; [discriminate|discriminate]); [tauto|]. rewrite andb_true_iff, Nat.eqb_eq, IH. split; [intros [-> ->]; auto|intros H; injection H as -> ->; auto]. Qed.
Lemma combine_seq_in {X} (l : list X) : forall s x i, In (x, i) (combine l (seq s (length l))) <-> s <= i /\ nth_error l (i - s) = Some x.
Proof.
  induction l as [|y l IH]; intros s x i; cbn; [split; [tauto|intros [_ H]; destruct (i - s); discriminate]|]. rewrite IH. split.
  - intros [H|[H1 H2]]; [injection H as <- <-; rewrite Nat.sub_diag; auto|]. split; [lia|]. replace (i - s) with (S (i - S s)) by lia. auto.
  - intros [H1 H2]. destruct (Nat.eq_dec i s) as [->|N]; [rewrite Nat.sub_diag in H2; cbn in H2; left; congruence|]. right. split; [lia|]. replace (i - s) with (S (i - S s)) in H2 by lia. auto.
Qed.
Lemma combine_fst {X Y} (l : list X) : forall r : list Y, length r = length l -> map fst (combine l r) = l.
Proof. induction l as [|x l IH]; intros [|y r] E; cbn in *; try discriminate; auto. f_equal. apply IH. lia. Qed.
Lemma remap_fst col : map fst (remap_dict col) = value_counts col.
Proof. unfold remap_dict. rewrite map_map. cbn. rewrite combine_fst; auto. apply seq_length. Qed.
Lemma remap_get col a w : get Nat.eqb (remap_dict col) a = Some w <-> exists i, nth_error (value_counts col) i = Some a /\ w = code i.
Proof.
  rewrite get_iff; [|apply Nat.eqb_eq|rewrite remap_fst; apply vc_NoDup]. unfold remap_dict. rewrite in_map_iff. split.
  - intros ((x & i) & E & H). cbn in E. injection E as -> <-. apply combine_seq_in in H as [_ H]. rewrite Nat.sub_0_r in H. eauto.
  - intros (i & H & ->). exists (a, i). split; auto. apply combine_seq_in. rewrite Nat.sub_0_r. split; auto. lia.
Qed.
Lemma inverse_get col w a : get word_eqb (inverse (remap_dict col)) w = Some a <-> get Nat.eqb (remap_dict col) a = Some w.
Proof.
  rewrite (get_iff word_eqb word_eqb_iff), (get_iff Nat.eqb Nat.eqb_eq); [|rewrite remap_fst; apply vc_NoDup|].
  - unfold inverse. rewrite in_map_iff. split; [intros ((x & y) & E & H); cbn in E; injection E as -> ->; auto|intros H; exists (a, w); auto].
  - unfold inverse, remap_dict. rewrite !map_map. cbn [fst snd]. rewrite <- (map_map snd code). apply FinFun.Injective_map_NoDup; [intros i j; apply code_inj|].
    assert (Q : forall (l : list nat) s, map snd (combine l (seq s (length l))) = seq s (length l)) by (clear; induction l as [|x l IH]; intros s; cbn; auto; rewrite IH; auto). rewrite Q. apply seq_NoDup.
Qed.

(** ** single characters *)
Lemma skip_spec fuel : forall c, c <= skip fuel c /\ (forall x, c <= x < skip fuel c -> In x list_to_avoid) /\ (In (skip fuel c) list_to_avoid -> skip fuel c = c + fuel).
Proof.
  induction fuel as [|k IH]; intros c; cbn [skip]; [split; [lia|split; [intros; lia|intros; lia]]|]. destruct (existsb (Nat.eqb c) list_to_avoid) eqn:E.
  - destruct (IH (S c)) as (H1 & H2 & H3). split; [lia|]. split; [|intros H; apply H3 in H; lia]. intros x Hx. destruct (Nat.eq_dec x c) as [->|]; [|apply H2; lia]. apply existsb_exists in E as (y & Hy & E). apply Nat.eqb_eq in E. congruence.
  - split; [lia|]. split; [intros; lia|]. intros H. assert (existsb (Nat.eqb c) list_to_avoid = true) by (apply existsb_exists; exists c; split; auto; apply Nat.eqb_refl). congruence.
Qed.
Lemma next_char_spec c : c < next_char c /\ ~ In (next_char c) list_to_avoid /\ forall x, c < x < next_char c -> In x list_to_avoid.
Proof.
  unfold next_char. destruct (skip_spec (S (length list_to_avoid)) (S c)) as (H1 & H2 & H3). split; [lia|]. split; [|intros x Hx; apply H2; lia]. intros H. apply H3 in H. rewrite H in H2.
  assert (I : incl (seq (S c) (S (length list_to_avoid))) list_to_avoid) by (intros x Hx; apply in_seq in Hx; apply H2; lia). pose proof (NoDup_incl_length (seq_NoDup _ _) I). rewrite seq_length in *. lia.
Qed.
Definition ok (s : list (nat * nat) * nat) : Prop :=
  NoDup (map fst (fst s)) /\ NoDup (map snd (fst s)) /\ forall a c, In (a, c) (fst s) -> c <= snd s /\ 0 < c /\ ~ In c list_to_avoid.
Lemma new_ok s a : ok s -> ~ In a (map fst (fst s)) -> ok (get_new_char s a).
Proof.
  intros (N1 & N2 & B) F. destruct s as [m n]. destruct (next_char_spec n) as (C1 & C2 & _). unfold get_new_char, ok. cbn [fst snd map] in *. split; [constructor; auto|]. split.
  - constructor; auto. intros H. apply in_map_iff in H as ((x & y) & E & H). cbn [snd] in E. subst y. destruct (B _ _ H) as [B1 _]. lia.
  - intros x c [E|H]; [injection E as <- <-; split; [lia|split; [lia|auto]]|]. destruct (B _ _ H) as (B1 & B2 & B3). split; [lia|split; auto].
Qed.
Lemma add_ok l : forall s, ok s -> ok (fold_left add_activity l s) /\ forall a, In a (map fst (fst (fold_left add_activity l s))) <-> In a (map fst (fst s)) \/ In a l.
Proof.
  induction l as [|b l IH]; intros s O; cbn [fold_left]; [split; auto; intros a; cbn; tauto|].
  assert (Q : ok (add_activity s b) /\ forall a, In a (map fst (fst (add_activity s b))) <-> In a (map fst (fst s)) \/ a = b).
  { unfold add_activity. destruct (existsb _ (fst s)) eqn:E.
    - split; auto. apply existsb_exists in E as (p & Hp & E). apply Nat.eqb_eq in E. intros a. split; auto. intros [H| ->]; auto. subst b. apply in_map; auto.
    - split; [apply new_ok; auto; intros H; apply in_map_iff in H as (p & <- & H); assert (existsb (fun p0 => Nat.eqb (fst p) (fst p0)) (fst s) = true) by (apply existsb_exists; exists p; split; auto; apply Nat.eqb_refl); congruence|].
      intros a. cbn. split; [intros [<-|H]; auto|intros [H| ->]; auto]. }
  destruct Q as [Q1 Q2]. destruct (IH _ Q1) as [I1 I2]. split; auto. intros a. rewrite I2, Q2. cbn. intuition congruence.
Qed.
Lemma new_all_ok l : forall s, ok s -> NoDup l -> (forall a, In a l -> ~ In a (map fst (fst s))) -> ok (fold_left get_new_char l s) /\ forall a, In a (map fst (fst (fold_left get_new_char l s))) <-> In a (map fst (fst s)) \/ In a l.
Proof.
  induction l as [|b l IH]; intros s O N D; cbn [fold_left]; [split; auto; intros a; cbn; tauto|]. inversion N as [|x y N1 N2]; subst.
  destruct (IH (get_new_char s b)) as [I1 I2]; auto; [apply new_ok; auto; apply D; left; auto| |].
  - intros a Ha. cbn. intros [<-|H]; auto. apply (D a); auto. right; auto.
  - split; auto. intros a. rewrite I2. cbn. intuition congruence.
Qed.
Lemma ok_nil : ok ([], 0).
Proof. split; [constructor|]. split; [constructor|intros a c []]. Qed.
Lemma NoDup_snd_inj (d : list (nat * nat)) a b c : NoDup (map snd d) -> In (a, c) d -> In (b, c) d -> a = b.
Proof.
  intros N. induction d as [|[x y] d IH]; cbn in *; [tauto|]. inversion N as [|u v N1 N2]; subst. intros [Ha|Ha] [Hb|Hb]; auto; try congruence.
  - injection Ha as -> ->. exfalso. apply N1. apply in_map_iff. exists (b, c). auto.
  - injection Hb as -> ->. exfalso. apply N1. apply in_map_iff. exists (a, c). auto.
Qed.
Lemma encoded_inj m n : ok (m, n) -> forall t u, (forall a, In a t -> In a (map fst m)) -> (forall a, In a u -> In a (map fst m)) -> encoded_trace m t = encoded_trace m u -> t = u.
Proof.
  intros (N1 & N2 & _). cbn [fst snd] in *. assert (G : forall a, In a (map fst m) -> exists c, get Nat.eqb m a = Some c /\ In (a, c) m).
  { intros a H. apply in_map_iff in H as ((x & c) & <- & H). exists c. split; auto. apply get_iff; auto. apply Nat.eqb_eq. }
  induction t as [|a t IH]; intros [|b u] Ht Hu E; auto; cbn in E.
  - destruct (G b) as (c & Gc & _); [apply Hu; left; auto|]. rewrite Gc in E. discriminate.
  - destruct (G a) as (c & Gc & _); [apply Ht; left; auto|]. rewrite Gc in E. discriminate.
  - destruct (G a) as (c & Gc & Ic); [apply Ht; left; auto|]. destruct (G b) as (c' & Gc' & Ic'); [apply Hu; left; auto|]. rewrite Gc, Gc' in E. cbn in E. injection E as -> E.
    f_equal; [eapply NoDup_snd_inj; eauto|]. apply IH; auto; intros x Hx; [apply Ht|apply Hu]; right; auto.
Qed.
