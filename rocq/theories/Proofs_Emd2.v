(** Proofs for C111: encoded languages. *)
From Coq Require Import List Arith Bool QArith Permutation Sorting.Sorted Lia.
From Verif Require Import Spec_Lev Model_Lev Proofs_Lev Model_Encode Proofs_Encode Model_Emd.
Import ListNotations.
Open Scope nat_scope.

(** ** the normalized distance *)
Lemma edits_max a : forall b, exists k, k <= Nat.max (length a) (length b) /\ edits k a b.
Proof.
  induction a as [|x a IH]; intros b.
  - exists (length b). split; [cbn; lia|]. induction b as [|y b IHb]; [constructor|]. change (length (y :: b)) with (1 + length b). apply (ed_S (length b) [] [y] (y :: b)); [apply (e_ins [] y [])|].
    assert (G : forall k u w, edits k u w -> edits k (y :: u) (y :: w)) by (intros; apply edits_cons; auto). apply G. exact IHb.
  - destruct b as [|y b].
    + exists (S (length a)). split; [cbn; lia|]. destruct (IH []) as (k & L & E). clear IH. assert (G : edits (length a) a []). { clear. induction a as [|z a IH]; [constructor|]. eapply ed_S; [apply (e_del [] z a)|exact IH]. } eapply ed_S; [apply (e_del [] x a)|exact G].
    + destruct (IH b) as (k & L & E). exists (S k). split; [cbn; lia|]. eapply ed_S; [apply (e_sub [] x y a)|]. apply edits_cons. exact E.
Qed.
Lemma lev_max a b : levenshtein_distance a b <= Nat.max (length a) (length b).
Proof. destruct (edits_max a b) as (k & L & E). destruct (levenshtein_correct a b) as [_ M]. specialize (M k E). lia. Qed.

(** ** sorted keys *)
Lemma word_leb_refl a : word_leb a a = true.
Proof. induction a as [|x a IH]; cbn; auto. rewrite Nat.eqb_refl, IH, orb_true_r. auto. Qed.
Lemma word_leb_cons x a y b : word_leb (x :: a) (y :: b) = true <-> x < y \/ x = y /\ word_leb a b = true.
Proof. change (word_leb (x :: a) (y :: b)) with ((x <? y) || ((x =? y) && word_leb a b)). rewrite orb_true_iff, andb_true_iff, Nat.ltb_lt, Nat.eqb_eq. tauto. Qed.
Lemma word_leb_total a : forall b, word_leb a b = false -> word_leb b a = true.
Proof.
  induction a as [|x a IH]; intros [|y b] H; try (cbn in *; congruence). apply word_leb_cons. apply not_true_iff_false in H. rewrite word_leb_cons in H.
  destruct (lt_eq_lt_dec x y) as [[L| ->]|L]; [tauto| |auto]. right. split; auto. apply IH. apply not_true_iff_false. tauto.
Qed.
Lemma word_leb_trans a : forall b c, word_leb a b = true -> word_leb b c = true -> word_leb a c = true.
Proof.
  induction a as [|x a IH]; intros [|y b] [|z c] H1 H2; auto; try discriminate. apply word_leb_cons in H1, H2. apply word_leb_cons. destruct H1 as [H1|[-> H1]], H2 as [H2|[-> H2]]; try (left; lia). right. split; auto. eapply IH; eauto.
Qed.
Lemma word_leb_antisym a : forall b, word_leb a b = true -> word_leb b a = true -> a = b.
Proof. induction a as [|x a IH]; intros [|y b] H1 H2; auto; try discriminate. apply word_leb_cons in H1, H2. destruct H1 as [H1|[-> H1]], H2 as [H2|[Q H2]]; try lia. f_equal. auto. Qed.
Lemma insert_key_perm x l : Permutation (insert_key x l) (x :: l).
Proof. induction l as [|y l IH]; cbn; auto. destruct (word_leb _ _); auto. rewrite IH. apply perm_swap. Qed.
Lemma sort_keys_perm l : Permutation (sort_keys l) l.
Proof. induction l as [|y l IH]; cbn; auto. rewrite insert_key_perm. auto. Qed.
Definition ge (a b : list nat) : Prop := word_leb b a = true.
Lemma sort_keys_SS l : StronglySorted ge (map fst (sort_keys l)).
Proof.
  induction l as [|x l IH]; cbn; [constructor|]. fold (sort_keys l). revert IH. generalize (sort_keys l) as s. clear l. intros s S. induction s as [|y s IH]; cbn; [constructor; constructor|]. inversion S as [|? ? S' F]; subst. destruct (word_leb (fst y) (fst x)) eqn:E; cbn [map].
  - constructor; auto. constructor; auto. eapply Forall_impl; [|exact F]. intros z Hz. unfold ge in *. eapply word_leb_trans; eauto.
  - constructor; auto. apply Forall_forall. intros z Hz. apply in_map_iff in Hz as (w & <- & Hw). rewrite insert_key_perm in Hw. destruct Hw as [<-|Hw]; [apply word_leb_total; auto|]. rewrite Forall_forall in F. apply F. apply in_map. auto.
Qed.
Lemma SS_eq (l : list (list nat)) : forall k, StronglySorted ge l -> StronglySorted ge k -> Permutation l k -> l = k.
Proof.
  induction l as [|x l IH]; intros k S1 S2 P; [apply Permutation_nil in P; auto|]. destruct k as [|y k]; [symmetry in P; apply Permutation_nil in P; discriminate|]. inversion S1 as [|? ? S1' F1]; inversion S2 as [|? ? S2' F2]; subst. rewrite Forall_forall in F1, F2.
  assert (x = y). { assert (Hx : In x (y :: k)) by (rewrite <- P; left; auto). assert (Hy : In y (x :: l)) by (rewrite P; left; auto). destruct Hx as [|Hx]; auto. destruct Hy as [|Hy]; auto. specialize (F1 y Hy). specialize (F2 x Hx). apply word_leb_antisym; auto. }
  subst y. f_equal. apply IH; auto. eapply Permutation_cons_inv; eauto.
Qed.

(** ** missing keys *)
Lemma has_iff w (e : language) : existsb (fun q => word_eqb w (fst q)) e = true <-> In w (map fst e).
Proof. rewrite existsb_exists, in_map_iff. split; intros (p & H1 & H2); exists p; [apply word_eqb_iff in H2|apply and_comm; split; [apply word_eqb_iff|]]; auto. Qed.
Lemma missing_in other e p : In p (add_missing other e) <-> In p e \/ snd p = 0%Q /\ In (fst p) (map fst other) /\ ~ In (fst p) (map fst e).
Proof.
  unfold add_missing. rewrite in_app_iff, in_map_iff. split; (intros [H|H]; [left; auto|right]).
  - destruct H as (q & <- & H). apply filter_In in H as [H1 H2]. cbn. split; auto. split; [apply in_map; auto|]. rewrite <- has_iff. apply negb_true_iff in H2. congruence.
  - destruct H as (H1 & H2 & H3). apply in_map_iff in H2 as (q & Q & H2). exists q. split; [destruct p; cbn in *; congruence|]. apply filter_In. split; auto. apply negb_true_iff. rewrite Q. apply not_true_iff_false. rewrite has_iff. auto.
Qed.
Lemma missing_keys other e w : In w (map fst (add_missing other e)) <-> In w (map fst e) \/ In w (map fst other).
Proof.
  rewrite in_map_iff. split.
  - intros (p & <- & H). apply missing_in in H as [H|(_ & H & _)]; auto. left. apply in_map; auto.
  - intros H. destruct (existsb (fun q => word_eqb w (fst q)) e) eqn:E; [apply has_iff, in_map_iff in E as (p & <- & E); exists p; split; auto; apply missing_in; auto|].
    assert (N : ~ In w (map fst e)) by (rewrite <- has_iff; congruence). exists (w, 0%Q). split; auto. apply missing_in. right. cbn. tauto.
Qed.
Lemma missing_NoDup other e : NoDup (map fst other) -> NoDup (map fst e) -> NoDup (map fst (add_missing other e)).
Proof.
  intros N1 N2. unfold add_missing. rewrite map_app, map_map. cbn [fst]. change (fun x : list nat * Q => fst x) with (@fst (list nat) Q). assert (A : forall l : language, NoDup (map fst l) -> NoDup (map fst (filter (fun p => negb (existsb (fun q => word_eqb (fst p) (fst q)) e)) l))).
  { induction l as [|x l IH]; cbn; intros N; [constructor|]. inversion N as [|? ? H N']; subst. destruct (negb _); auto. cbn. constructor; auto. intros I. apply H. apply in_map_iff in I as (p & <- & I). apply filter_In in I as [I _]. apply in_map; auto. }
  specialize (A other N1). revert A. assert (Dj : forall w, In w (map fst e) -> ~ In w (map fst (filter (fun p => negb (existsb (fun q => word_eqb (fst p) (fst q)) e)) other))).
  { intros w H I. apply in_map_iff in I as (p & <- & I). apply filter_In in I as [_ I]. apply negb_true_iff in I. apply has_iff in H. congruence. }
  revert Dj. generalize (map fst (filter (fun p => negb (existsb (fun q => word_eqb (fst p) (fst q)) e)) other)). intros k Dj A. induction N2 as [|x l H N2 IH]; cbn; auto. constructor; [rewrite in_app_iff; intros [|]; auto; eapply Dj; eauto; left; auto|]. apply IH. intros w Hw. apply Dj. right; auto.
Qed.
