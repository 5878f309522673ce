(** Proofs for C111: the input of the distance. *)
From Coq Require Import List Arith Bool QArith Lqa Permutation Sorting.Sorted Lia.
From Verif Require Import Spec_Lev Model_Lev Proofs_Lev Model_Encode Proofs_Encode Model_Emd Spec_Emd Proofs_Emd1 Proofs_Emd2.
Import ListNotations.
Open Scope nat_scope.

Lemma sequence_some {X Y} (f : X -> option Y) g l : (forall x, In x l -> f x = Some (g x)) -> sequence (map f l) = Some (map g l).
Proof. induction l as [|x l IH]; intros H; cbn; auto. rewrite (H x) by (left; auto). rewrite IH by (intros; apply H; right; auto). auto. Qed.
Lemma sequence_none {X Y} (f : X -> option Y) l x : In x l -> f x = None -> sequence (map f l) = None.
Proof. induction l as [|y l IH]; intros I H; [destruct I|]. cbn. destruct I as [->|I]; [rewrite H; auto|]. rewrite IH by auto. destruct (f y); auto. Qed.

Definition dist (a b : list nat) : Q := frac (levenshtein_distance a b) (Nat.max (length a) (length b)).
Lemma normalized_some a b : a <> [] -> normalized a b = Some (dist a b).
Proof. intros H. unfold normalized, dist. destruct (Nat.max (length a) (length b)) eqn:E; auto. destruct a; [congruence|]. cbn in E. destruct (length b); discriminate. Qed.
Lemma frac_bounds a b : a <= b -> 0 < b -> (0 <= frac a b <= 1)%Q /\ ((frac a b == 0)%Q <-> a = 0).
Proof.
  intros H P. unfold frac. assert (Pb : (0 < inject_Z (Z.of_nat b))%Q) by (change 0%Q with (inject_Z 0); rewrite <- Zlt_Qlt; lia). split; [split|].
  - apply Qle_shift_div_l; auto. rewrite Qmult_0_l. change 0%Q with (inject_Z 0). rewrite <- Zle_Qle. lia.
  - apply Qle_shift_div_r; auto. rewrite Qmult_1_l. rewrite <- Zle_Qle. lia.
  - split; intros E.
    + assert (E' : (inject_Z (Z.of_nat a) == 0)%Q). { rewrite <- (Qmult_div_r (inject_Z (Z.of_nat a)) (inject_Z (Z.of_nat b))) by lra. rewrite E. apply Qmult_0_r. } unfold Qeq in E'. cbn in E'. lia.
    + subst. cbn. unfold Qdiv. apply Qmult_0_l.
Qed.
Lemma dist_ok a b : a <> [] -> (0 <= dist a b <= 1)%Q /\ ((dist a b == 0)%Q <-> a = b).
Proof.
  intros H. unfold dist. pose proof (lev_max a b). assert (0 < length a) by (destruct a; [congruence|cbn; lia]). destruct (frac_bounds (levenshtein_distance a b) (Nat.max (length a) (length b))) as [B Z]; [auto|lia|]. split; auto.
  rewrite Z. destruct (levenshtein_metric a b a) as (_ & M & _). exact M.
Qed.

Lemma firsts_acts l : forall seen, NoDup (firsts seen l) /\ forall x, In x (firsts seen l) <-> In x l /\ ~ In x seen.
Proof.
  induction l as [|a l IH]; intros seen; cbn; [split; [constructor|tauto]|]. destruct (existsb (Nat.eqb a) seen) eqn:E.
  - destruct (IH seen) as [N I]. split; auto. intros x. rewrite I. apply existsb_exists in E as (y & Hy & Q). apply Nat.eqb_eq in Q. subst y. split; intros [H1 H2]; split; auto. destruct H1 as [<-|]; tauto.
  - destruct (IH (a :: seen)) as [N I]. assert (Na : ~ In a seen). { intros H. assert (existsb (Nat.eqb a) seen = true) by (apply existsb_exists; exists a; split; auto; apply Nat.eqb_refl). congruence. }
    split; [constructor; auto; rewrite I; cbn; tauto|]. intros x. cbn. rewrite I. cbn. destruct (Nat.eq_dec a x) as [<-|]; tauto.
Qed.
Lemma encoded_length m t : (forall a, In a t -> In a (map fst m)) -> length (encoded_trace m t) = length t.
Proof.
  unfold encoded_trace. induction t as [|a t IH]; intros H; [auto|]. cbn [flat_map]. assert (G : exists c, get Nat.eqb m a = Some c).
  { specialize (H a (or_introl eq_refl)). unfold get. destruct (find _ m) eqn:E; [eauto|]. apply in_map_iff in H as (p & <- & H). apply (find_none _ _ E) in H. rewrite Nat.eqb_refl in H. discriminate. }
  destruct G as (c & ->). cbn [app length]. f_equal. apply IH. intros b Hb. apply H. right; auto.
Qed.

(** renaming characters keeps the distance *)
Lemma lev_inner_map g c s2 : (forall x, In x s2 -> Nat.eqb (g c) (g x) = Nat.eqb c x) -> forall prev cur, lev_inner (g c) (map g s2) prev cur = lev_inner c s2 prev cur.
Proof.
  induction s2 as [|x s2 IH]; intros H prev cur; [auto|]. destruct prev as [|p0 [|p1 prev]]; auto. cbn [map]. cbn [lev_inner]. rewrite (H x) by (left; auto). f_equal. apply IH. intros; apply H; right; auto.
Qed.
Lemma lev_map g a b : (forall x y, (In x a \/ In x b) -> (In y a \/ In y b) -> g x = g y -> x = y) -> levenshtein_distance (map g a) (map g b) = levenshtein_distance a b.
Proof.
  intros H. assert (Q : forall x y, (In x a \/ In x b) -> (In y a \/ In y b) -> Nat.eqb (g x) (g y) = Nat.eqb x y).
  { intros x y Hx Hy. destruct (Nat.eqb_spec x y) as [->|N]; [apply Nat.eqb_refl|]. apply Nat.eqb_neq. intros E. apply N, H; auto. }
  assert (O : forall s1 s2, (forall x y, In x s1 -> In y s2 -> Nat.eqb (g x) (g y) = Nat.eqb x y) -> forall i prev, lev_outer i (map g s1) (map g s2) prev = lev_outer i s1 s2 prev).
  { induction s1 as [|c s1 IH]; intros s2 A i prev; auto. cbn [map lev_outer]. rewrite lev_inner_map by (intros; apply A; auto; left; auto). apply IH. intros; apply A; auto. right; auto. }
  unfold levenshtein_distance, lev_main. rewrite !map_length. rewrite !O by auto. auto.
Qed.
Definition char (m : list (nat * nat)) (a : nat) : nat := match get Nat.eqb m a with Some c => c | None => 0 end.
Lemma encoded_map m t : (forall a, In a t -> In a (map fst m)) -> encoded_trace m t = map (char m) t.
Proof.
  unfold encoded_trace. induction t as [|a t IH]; intros H; [auto|]. cbn [flat_map map]. assert (G : exists c, get Nat.eqb m a = Some c).
  { specialize (H a (or_introl eq_refl)). unfold get. destruct (find _ m) eqn:E; [eauto|]. apply in_map_iff in H as (p & <- & H). apply (find_none _ _ E) in H. rewrite Nat.eqb_refl in H. discriminate. }
  destruct G as (c & G). unfold char at 1. rewrite G. cbn [app]. f_equal. apply IH. intros b Hb. apply H. right; auto.
Qed.

Section emd.
Context (lang1 lang2 : language) (N1 : NoDup (map fst lang1)) (N2 : NoDup (map fst lang2)).
Let m := acts_corresp lang1 lang2.
Let enc := encoded_trace m.
Let e1 := encode m lang1.
Let e2 := encode m lang2.
Let f2 := add_missing e1 e2.
Let f1 := add_missing f2 e1.
Definition known (t : list nat) : Prop := In t (map fst lang1) \/ In t (map fst lang2).
Lemma known_acts t : known t -> forall a, In a t -> In a (map fst m).
Proof.
  intros K a Ha. unfold m, acts_corresp, from_log. destruct (firsts_acts (flat_map fst lang1 ++ flat_map fst lang2) []) as [N I]. destruct (new_all_ok (all_activities lang1 lang2) ([], 0)) as [_ H]; [apply ok_nil|exact N|intros b _ []|]. apply H. right.
  apply I. split; [|intros []]. apply in_app_iff. rewrite !in_flat_map. destruct K as [K|K]; apply in_map_iff in K as (p & <- & K); [left|right]; exists p; auto.
Qed.
Lemma enc_inj t u : known t -> known u -> enc t = enc u -> t = u.
Proof.
  intros Kt Ku E. destruct (firsts_acts (flat_map fst lang1 ++ flat_map fst lang2) []) as [N I]. destruct (new_all_ok (all_activities lang1 lang2) ([], 0)) as [O _]; [apply ok_nil|exact N|intros b _ []|].
  destruct (fold_left get_new_char (all_activities lang1 lang2) ([], 0)) as [m' n'] eqn:F. assert (m = m') by (unfold m, acts_corresp, from_log; rewrite F; auto). subst m'. eapply encoded_inj; eauto; intros a Ha; [eapply known_acts with (t := t)|eapply known_acts with (t := u)]; eauto.
Qed.
Lemma enc_dist t u : known t -> known u -> dist (enc t) (enc u) = dist t u.
Proof.
  intros Kt Ku. unfold enc, dist. rewrite !encoded_length by (apply known_acts; auto). f_equal. rewrite !encoded_map by (apply known_acts; auto). apply lev_map.
  assert (A : forall x, In x t \/ In x u -> In x (map fst m)) by (intros x [Hx|Hx]; [eapply known_acts; [exact Kt|auto]|eapply known_acts; [exact Ku|auto]]).
  intros x y Hx Hy E. destruct (firsts_acts (flat_map fst lang1 ++ flat_map fst lang2) []) as [N I]. destruct (new_all_ok (all_activities lang1 lang2) ([], 0)) as [O _]; [apply ok_nil|exact N|intros b _ []|].
  destruct (fold_left get_new_char (all_activities lang1 lang2) ([], 0)) as [m' n'] eqn:F. assert (m = m') by (unfold m, acts_corresp, from_log; rewrite F; auto). subst m'.
  assert (L : [x] = [y]); [|congruence]. apply (encoded_inj _ _ O); try (intros a [<-|[]]; apply A; auto). rewrite !encoded_map by (intros a [<-|[]]; apply A; auto). cbn [map]. rewrite E. auto.
Qed.
Lemma e_keys (lang : language) : map fst (encode m lang) = map enc (map fst lang).
Proof. unfold encode. rewrite !map_map. auto. Qed.
Lemma NoDup_enc (l : list (list nat)) : (forall t, In t l -> known t) -> NoDup l -> NoDup (map enc l).
Proof.
  intros K N. induction N as [|t l H N IH]; cbn; constructor.
  - intros I. apply in_map_iff in I as (u & E & I). apply enc_inj in E; [subst; auto|apply K; right; auto|apply K; left; auto].
  - apply IH. intros; apply K; right; auto.
Qed.
Lemma Ne1 : NoDup (map fst e1).
Proof. unfold e1. rewrite e_keys. apply NoDup_enc; auto. left; auto. Qed.
Lemma Ne2 : NoDup (map fst e2).
Proof. unfold e2. rewrite e_keys. apply NoDup_enc; auto. right; auto. Qed.
Lemma Nf2 : NoDup (map fst f2).
Proof. apply missing_NoDup; [apply Ne1|apply Ne2]. Qed.
Lemma Nf1 : NoDup (map fst f1).
Proof. apply missing_NoDup; [apply Nf2|apply Ne1]. Qed.
Lemma keys1 w : In w (map fst f1) <-> exists t, known t /\ w = enc t.
Proof.
  unfold f1, f2. rewrite !missing_keys. unfold e1, e2. rewrite !e_keys, !in_map_iff. unfold known. split; [intros [(t & <- & H)|[(t & <- & H)|(t & <- & H)]]; eauto|]. intros (t & [H|H] & ->); eauto.
Qed.
Lemma keys2 w : In w (map fst f2) <-> exists t, known t /\ w = enc t.
Proof.
  unfold f2. rewrite !missing_keys. unfold e1, e2. rewrite !e_keys, !in_map_iff. unfold known. split; [intros [(t & <- & H)|(t & <- & H)]; eauto|]. intros (t & [H|H] & ->); eauto.
Qed.
Lemma same_keys : map fst (sort_keys f1) = map fst (sort_keys f2).
Proof.
  apply SS_eq; try apply sort_keys_SS. rewrite !sort_keys_perm. apply NoDup_Permutation; [apply Nf1|apply Nf2|]. intros w. rewrite keys1, keys2. tauto.
Qed.
Lemma probability_in (lang : language) t p : NoDup (map fst lang) -> In (t, p) lang -> (probability lang t == p)%Q.
Proof.
  intros N I. unfold probability. rewrite (total_single lang _ (t, p)).
  - cbn [fst snd]. destruct (list_eq_dec Nat.eq_dec t t); [reflexivity|congruence].
  - eapply NoDup_map_inv; eauto.
  - auto.
  - intros (u & q) H Nu. cbn [fst snd]. destruct (list_eq_dec Nat.eq_dec u t) as [->|]; [|reflexivity]. exfalso. apply Nu. clear Nu. induction lang as [|(x & y) lang IH]; [destruct I|]. cbn in N. inversion N as [|? ? A N']; subst. destruct H as [E|H], I as [E'|I]; try congruence; auto.
    + injection E as -> ->. exfalso. apply A. apply (in_map fst) in I. auto.
    + injection E' as -> ->. exfalso. apply A. apply (in_map fst) in H. auto.
Qed.
Lemma probability_out (lang : language) t : ~ In t (map fst lang) -> (probability lang t == 0)%Q.
Proof. intros H. apply total_zero. intros (u & q) I. cbn [fst snd]. destruct (list_eq_dec Nat.eq_dec u t) as [->|]; [|reflexivity]. exfalso. apply H. apply (in_map fst) in I. auto. Qed.
Lemma enc_pair (lang : language) t p : (forall u, In u (map fst lang) -> known u) -> known t -> In (enc t, p) (encode m lang) -> In (t, p) lang.
Proof. intros K Kt H. apply in_map_iff in H as ((u & q) & E & H). cbn in E. injection E as E ->. apply enc_inj in E; [subst; auto|apply K; apply (in_map fst) in H; auto|auto]. Qed.
Lemma val1 t p : known t -> In (enc t, p) f1 -> (p == probability lang1 t)%Q.
Proof.
  intros K H. unfold f1 in H. apply missing_in in H as [H|(H & _ & A)].
  - apply enc_pair in H; auto; [|left; auto]. symmetry. apply probability_in; auto.
  - cbn in *. subst p. symmetry. apply probability_out. intros I. apply A. unfold e1. rewrite e_keys. apply in_map; auto.
Qed.
Lemma val2 t p : known t -> In (enc t, p) f2 -> (p == probability lang2 t)%Q.
Proof.
  intros K H. unfold f2 in H. apply missing_in in H as [H|(H & _ & A)].
  - apply enc_pair in H; auto; [|right; auto]. symmetry. apply probability_in; auto.
  - cbn in *. subst p. symmetry. apply probability_out. intros I. apply A. unfold e2. rewrite e_keys. apply in_map; auto.
Qed.
Lemma total_missing (other e : language) : (total (add_missing other e) snd == total e snd)%Q.
Proof. unfold add_missing. rewrite total_app, total_map. rewrite (total_zero (filter _ _)); [lra|]. intros; reflexivity. Qed.
Lemma total_hist (e : language) : (total (map snd (sort_keys e)) (fun x => x) == total e snd)%Q.
Proof. rewrite total_map. apply total_perm. apply sort_keys_perm. Qed.
Lemma total_encode (lang : language) : total (encode m lang) snd = total lang snd.
Proof. unfold encode. rewrite total_map. auto. Qed.

Let K := map fst (sort_keys f1).
Let h1 := map snd (sort_keys f1).
Let h2 := map snd (sort_keys f2).
Lemma lenK1 : length h1 = length K.
Proof. unfold h1, K. rewrite !map_length. auto. Qed.
Lemma lenK2 : length h2 = length K.
Proof. unfold h2, K. rewrite same_keys, !map_length. auto. Qed.
Lemma NK : NoDup K.
Proof. unfold K. rewrite sort_keys_perm. apply Nf1. Qed.
Lemma in_K w : In w K <-> exists t, known t /\ w = enc t.
Proof. rewrite <- keys1. unfold K. rewrite (Permutation_map fst (sort_keys_perm f1)). tauto. Qed.
Lemma nth_pair (l : language) i : i < length l -> nth i l ([], 0%Q) = (nth i (map fst l) [], at_ (map snd l) i).
Proof.
  intros H. rewrite (surjective_pairing (nth i l ([], 0%Q))). unfold at_. rewrite <- (map_nth fst), <- (map_nth snd). auto.
Qed.
Lemma at_K i : i < length K -> exists t, known t /\ nth i K [] = enc t /\ (at_ h1 i == probability lang1 t)%Q /\ (at_ h2 i == probability lang2 t)%Q.
Proof.
  intros H. assert (I : In (nth i K []) K) by (apply nth_In; auto). apply in_K in I as (t & Kt & E). exists t. split; auto. split; auto. split.
  - apply val1; auto. rewrite <- E. unfold K, h1. rewrite <- nth_pair by (unfold K in H; rewrite map_length in H; auto). eapply Permutation_in; [apply sort_keys_perm|]. apply nth_In. unfold K in H. rewrite map_length in H. auto.
  - apply val2; auto. rewrite <- E. unfold K, h2. rewrite same_keys. assert (H' : i < length (sort_keys f2)) by (unfold K in H; rewrite same_keys, map_length in H; auto). rewrite <- nth_pair by auto. eapply Permutation_in; [apply sort_keys_perm|]. apply nth_In. auto.
Qed.
Lemma K_at t : known t -> exists i, i < length K /\ (at_ h1 i == probability lang1 t)%Q /\ (at_ h2 i == probability lang2 t)%Q.
Proof.
  intros Kt. assert (I : In (enc t) K) by (apply in_K; eauto). apply (In_nth _ _ []) in I as (i & Hi & E). exists i. split; auto. destruct (at_K i Hi) as (u & Ku & E' & V). assert (t = u) by (apply enc_inj; auto; congruence). subst u. auto.
Qed.
Definition matrix : list (list Q) := map (fun x => map (fun y => dist x y) K) K.
Lemma cell_matrix i j : i < length K -> j < length K -> cell matrix i j = dist (nth i K []) (nth j K []).
Proof.
  intros Hi Hj. unfold cell, matrix. rewrite (nth_indep _ [] (map (fun y => dist [] y) K)) by (rewrite map_length; auto). change (map (fun y => dist [] y) K) with ((fun x => map (fun y => dist x y) K) []). rewrite map_nth.
  rewrite (nth_indep _ 0%Q (dist (nth i K []) [])) by (rewrite map_length; auto). rewrite (map_nth (fun y => dist (nth i K []) y)). auto.
Qed.
Lemma input_ok : ~ known [] -> emd_input lang1 lang2 = Some (h1, h2, matrix).
Proof.
  intros H. unfold emd_input, encode_two_languages. cbn [fst snd]. fold m. fold e1 e2. fold f2. fold f1. 
  rewrite (sequence_some (fun x : list nat * Q => sequence (map (fun y : list nat * Q => normalized (fst x) (fst y)) (sort_keys f2))) (fun x => map (fun y => dist (fst x) (fst y)) (sort_keys f2))).
  - assert (M : map (fun x : list nat * Q => map (fun y : list nat * Q => dist (fst x) (fst y)) (sort_keys f2)) (sort_keys f1) = matrix).
    { unfold matrix. unfold K at 2. rewrite map_map. apply map_ext. intros x. unfold K. rewrite same_keys, map_map. auto. }
    rewrite M. auto.
  - intros x Hx. apply sequence_some. intros y _. apply normalized_some. assert (I : In (fst x) K) by (unfold K; apply in_map; auto). apply in_K in I as (t & Kt & ->). intros E. apply H. unfold enc in E. assert (L : length t = 0) by (rewrite <- (encoded_length m t), E; auto; apply known_acts; auto). destruct t; [auto|discriminate].
Qed.
Lemma input_none : known [] -> emd_input lang1 lang2 = None.
Proof.
  intros H. unfold emd_input, encode_two_languages. cbn [fst snd]. fold m. fold e1 e2. fold f2. fold f1. assert (I : In [] K) by (apply in_K; exists []; auto). unfold K in I. pose proof I as J. rewrite same_keys in J. apply in_map_iff in I as (x & Ex & I). apply in_map_iff in J as (y & Ey & J).
  rewrite (sequence_none _ _ x I); auto. apply (sequence_none _ _ y J). rewrite Ex, Ey. reflexivity.
Qed.
Lemma emd_correct : stochastic lang1 -> stochastic lang2 -> ~ known [] -> exists d, emd_input lang1 lang2 = Some (h1, h2, d) /\ forall v, emd h1 h2 d v -> (0 <= v <= 1)%Q /\ ((v == 0)%Q <-> forall t, (probability lang1 t == probability lang2 t)%Q).
Proof.
  intros (_ & P1 & T1) (_ & P2 & T2) H. exists matrix. split; [apply input_ok; auto|]. intros v V.
  assert (G1 : forall i, (0 <= at_ h1 i)%Q). { intros i. destruct (le_lt_dec (length K) i) as [L|L]; [unfold at_; rewrite nth_overflow by (rewrite lenK1; auto); lra|]. destruct (at_K i L) as (t & _ & _ & E & _). rewrite E. apply total_nonneg. intros (u & q) I. cbn [fst snd]. destruct (list_eq_dec _ _ _); [eapply P1; eauto|lra]. }
  assert (S1 : (total h1 (fun x => x) == 1)%Q) by (unfold h1; rewrite total_hist; unfold f1; rewrite total_missing; unfold e1; rewrite total_encode; auto).
  assert (D : forall i j, i < length K -> j < length K -> (0 <= cell matrix i j <= 1)%Q /\ ((cell matrix i j == 0)%Q <-> i = j)).
  { intros i j Hi Hj. rewrite cell_matrix by auto. destruct (dist_ok (nth i K []) (nth j K [])) as [B Z].
    - destruct (at_K i Hi) as (t & Kt & E & _). rewrite E. intros E'. apply H. assert (L : length t = 0) by (rewrite <- (encoded_length m t); [fold enc; rewrite E'; auto|apply known_acts; auto]). destruct t; [auto|discriminate].
    - split; auto. rewrite Z. split; [|congruence]. apply NoDup_nth; auto. apply NK. }
  destruct (emd_zero h1 h2 matrix (length K) lenK1 lenK2 G1 S1 D v V) as [B Z]. split; auto. rewrite Z. split.
  - intros A t. destruct (in_dec (list_eq_dec Nat.eq_dec) t (map fst lang1 ++ map fst lang2)) as [I|I]; rewrite in_app_iff in I.
    + destruct (K_at t I) as (i & Hi & E1 & E2). rewrite <- E1, <- E2. auto.
    + rewrite !probability_out by tauto. reflexivity.
  - intros A i Hi. destruct (at_K i Hi) as (t & _ & _ & E1 & E2). rewrite E1, E2. auto.
Qed.
End emd.
