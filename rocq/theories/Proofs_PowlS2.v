(** The new nodes and the new order. *)
From Coq Require Import List Arith Lia Bool Relation_Operators.
Import ListNotations.
From Verif Require Import Model_Rel Spec_Rel Proofs_Rel Model_Powl Spec_Powl Proofs_Po Proofs_Powl1 Proofs_Powl2 Proofs_Powl3 Proofs_Powl4 Proofs_Dfg Model_PowlSimplify Proofs_PowlS1.

(** * A unique first and a unique last node *)
Lemma on_some_dec n e x : (exists j, on n e x j) \/ ~ exists j, on n e x j.
Proof.
  assert (G : forall l, (exists j, In j l /\ on n e x j) \/ ~ exists j, In j l /\ on n e x j).
  { induction l as [|y l IH]; [right; intros (j & [] & _)|]. destruct (on_dec n e x y) as [H|H]; [left; exists y; split; [left|]; auto|].
    destruct IH as [(j & Hj & Ho)|IH]; [left; exists j; split; [right|]; auto|]. right. intros (j & [<-|Hj] & Ho); eauto. }
  destruct (G (seq 0 n)) as [(j & _ & Hj)|H]; [left; eauto|]. right. intros (j & Hj). apply H. exists j. split; auto. apply in_seq. destruct Hj as (_ & ? & _). lia.
Qed.
Lemma some_on_dec n e x : (exists j, on n e j x) \/ ~ exists j, on n e j x.
Proof.
  assert (G : forall l, (exists j, In j l /\ on n e j x) \/ ~ exists j, In j l /\ on n e j x).
  { induction l as [|y l IH]; [right; intros (j & [] & _)|]. destruct (on_dec n e y x) as [H|H]; [left; exists y; split; [left|]; auto|].
    destruct IH as [(j & Hj & Ho)|IH]; [left; exists j; split; [right|]; auto|]. right. intros (j & [<-|Hj] & Ho); eauto. }
  destruct (G (seq 0 n)) as [(j & _ & Hj)|H]; [left; eauto|]. right. intros (j & Hj). apply H. exists j. split; auto. apply in_seq. destruct Hj as (? & _). lia.
Qed.
Lemma unique_end n e y : acyclic n e -> get_end_nodes n e = [y] -> y < n /\ forall x, x < n -> x = y \/ closure n e x y.
Proof.
  intros Ha Hy. assert (Hin : forall x, In x (get_end_nodes n e) <-> x = y) by (intros x; rewrite Hy; cbn; intuition).
  split; [apply (end_nodes_correct n e y); apply Hin; auto|]. intros x Hx. remember (n - rank n e x) as b eqn:Eb. revert x Hx Eb. induction b as [b IH] using lt_wf_ind. intros x Hx ->.
  destruct (on_some_dec n e x) as [(j & Hj)|Hn].
  - right. assert (C : closure n e x j) by (apply t_step; auto). assert (Hr : rank n e x < rank n e j) by (apply rank_lt; auto; apply lt_iff; auto).
    pose proof (rank_le n e j). destruct (IH (n - rank n e j) ltac:(lia) j ltac:(apply Hj) eq_refl) as [->|C']; [auto|]. eapply closure_trans; eauto.
  - left. apply Hin, end_nodes_correct. auto.
Qed.
Lemma unique_start n e y : acyclic n e -> get_start_nodes n e = [y] -> y < n /\ forall x, x < n -> x = y \/ closure n e y x.
Proof.
  intros Ha Hy. assert (Hin : forall x, In x (get_start_nodes n e) <-> x = y) by (intros x; rewrite Hy; cbn; intuition).
  split; [apply (start_nodes_correct n e y); apply Hin; auto|]. intros x Hx. remember (rank n e x) as b eqn:Eb. revert x Hx Eb. induction b as [b IH] using lt_wf_ind. intros x Hx ->.
  destruct (some_on_dec n e x) as [(j & Hj)|Hn].
  - right. assert (C : closure n e j x) by (apply t_step; auto). assert (Hr : rank n e j < rank n e x) by (apply rank_lt; auto; apply lt_iff; auto).
    destruct (IH (rank n e j) ltac:(lia) j ltac:(apply Hj) eq_refl) as [->|C']; [auto|]. eapply closure_trans; eauto.
  - left. apply Hin, start_nodes_correct. auto.
Qed.

(** * The keys *)
Definition grp (gs : list group) (i : nat) : group := nth i gs g_dummy.
Record groups_ok (gs : list group) (e : rel) : Prop := {
  go_acyclic : acyclic (length gs) e;
  go_some : forall i, i < length gs -> g_ds (grp gs i) <> [];
  go_kept : forall i, i < length gs -> g_sub (grp gs i) = false -> length (g_ds (grp gs i)) = 1 /\ g_r (grp gs i) = no_edges;
  go_inner : forall i, i < length gs -> acyclic (length (g_ds (grp gs i))) (g_r (grp gs i));
  go_end : forall i j, on (length gs) e i j -> g_end (grp gs i) < length (g_ds (grp gs i)) /\
     forall x, x < length (g_ds (grp gs i)) -> x = g_end (grp gs i) \/ closure (length (g_ds (grp gs i))) (g_r (grp gs i)) x (g_end (grp gs i));
  go_start : forall i j, on (length gs) e i j -> g_start (grp gs j) < length (g_ds (grp gs j)) /\
     forall y, y < length (g_ds (grp gs j)) -> y = g_start (grp gs j) \/ closure (length (g_ds (grp gs j))) (g_r (grp gs j)) (g_start (grp gs j)) y }.

Lemma in_igs (gs : list group) i g : In (i, g) (combine (seq 0 (length gs)) gs) <-> i < length gs /\ g = grp gs i.
Proof.
  unfold grp. assert (G : forall s, In (i, g) (combine (seq s (length gs)) gs) <-> s <= i < s + length gs /\ g = nth (i - s) gs g_dummy).
  { induction gs as [|h gs IH]; intros s; cbn [length seq combine]; [cbn; split; [tauto|lia]|]. cbn [In]. rewrite IH. split.
    - intros [[= <- <-]|[H ->]]; [split; [lia|]; rewrite Nat.sub_diag; auto|]. split; [lia|]. replace (i - s) with (S (i - S s)) by lia. auto.
    - intros [H ->]. destruct (Nat.eq_dec s i) as [->|Hn]; [left; rewrite Nat.sub_diag; auto|]. right. split; [lia|]. replace (i - s) with (S (i - S s)) by lia. auto. }
  rewrite G, Nat.sub_0_r. split; intros [H ->]; split; auto; lia.
Qed.
Lemma igs_nodup (gs : list group) : NoDup (map fst (combine (seq 0 (length gs)) gs)).
Proof.
  assert (G : forall s, map fst (combine (seq s (length gs)) gs) = seq s (length gs)).
  { induction gs as [|h gs IH]; intros s; cbn; [auto|]. rewrite IH. auto. }
  rewrite G. apply seq_NoDup.
Qed.
Lemma nodup_filter_fst {A B} (p : A * B -> bool) l : NoDup (map fst l) -> NoDup (map fst (filter p l)).
Proof.
  induction l as [|x l IH]; cbn; [auto|]. intros H. inversion H; subst. destruct (p x); cbn; [|auto]. constructor; auto.
  intros Hx. apply H2. apply in_map_iff in Hx as (y & E & Hy). apply in_map_iff. exists y. split; auto. apply filter_In in Hy. tauto.
Qed.
Lemma keys_in gs e k : groups_ok gs e -> (In k (keys gs) <-> key_ok gs k).
Proof.
  intros Hg. unfold keys, key_ok. rewrite in_app_iff, in_map_iff, in_flat_map. destruct k as [i x]. cbn [fst snd]. fold (grp gs i). split.
  - intros [([j g] & [= <- <-] & H)|([j g] & H & Hx)].
    + apply filter_In in H as [H Hs]. apply in_igs in H as [H ->]. apply negb_true_iff in Hs. cbn in Hs. destruct (go_kept _ _ Hg j H Hs) as [E _]. cbn [fst] in *. fold (grp gs j). lia.
    + apply in_map_iff in Hx as (y & [= <- <-] & Hy). apply filter_In in H as [H Hs]. apply in_igs in H as [H ->]. cbn [fst snd] in *. apply in_seq in Hy. fold (grp gs j). lia.
  - intros [Hi Hx]. destruct (g_sub (grp gs i)) eqn:Es.
    + right. exists (i, grp gs i). split; [apply filter_In; split; [apply in_igs; auto|exact Es]|]. cbn. apply in_map_iff. exists x. split; auto. apply in_seq. lia.
    + left. destruct (go_kept _ _ Hg i Hi Es) as [E _]. exists (i, grp gs i). split; [cbn; f_equal; lia|]. apply filter_In. split; [apply in_igs; auto|]. cbn. rewrite Es. auto.
Qed.
Lemma keys_nodup gs : NoDup (keys gs).
Proof.
  unfold keys. apply NoDup_app_intro.
  - pose proof (nodup_filter_fst (fun ig => negb (g_sub (snd ig))) _ (igs_nodup gs)) as H. revert H. generalize (filter (fun ig : nat * group => negb (g_sub (snd ig))) (combine (seq 0 (length gs)) gs)). clear.
    induction l as [|x l IH]; cbn; constructor; inversion H; subst; auto. intros Hx. apply in_map_iff in Hx as (y & [= E] & Hy). apply H2. rewrite <- E. apply in_map. auto.
  - pose proof (nodup_filter_fst (fun ig => g_sub (snd ig)) _ (igs_nodup gs)) as H. revert H. generalize (filter (fun ig : nat * group => g_sub (snd ig)) (combine (seq 0 (length gs)) gs)). clear.
    induction l as [|x l IH]; cbn; [constructor|]. intros H. inversion H; subst. apply NoDup_app_intro; [|auto|].
    + apply FinFun.Injective_map_NoDup; [|apply seq_NoDup]. intros a b [= ->]; auto.
    + intros k Hk Hl. apply in_map_iff in Hk as (a & <- & _). apply in_flat_map in Hl as (y & Hy & Hk). apply in_map_iff in Hk as (b & [= E _] & _). apply H2. rewrite <- E. apply in_map. auto.
  - intros k Hk Hl. apply in_map_iff in Hk as ([j g] & <- & H). apply filter_In in H as [H Hs]. apply in_igs in H as [H ->].
    apply in_flat_map in Hl as ([j' g'] & H' & Hl). apply filter_In in H' as [H' Hs']. apply in_igs in H' as [H' ->]. apply in_map_iff in Hl as (b & [= E _] & _). cbn in *. subst. rewrite Hs' in Hs. discriminate.
Qed.

(** * The new order *)
Lemma new_edges_keys gs e a b : let k := nth a (keys gs) (0, 0) in let k' := nth b (keys gs) (0, 0) in
  new_edges gs e a b = true <->
  (e (fst k) (fst k') = true /\ snd k = g_end (grp gs (fst k)) /\ snd k' = g_start (grp gs (fst k'))) \/
  (fst k = fst k' /\ g_sub (grp gs (fst k)) = true /\ g_r (grp gs (fst k)) (snd k) (snd k') = true).
Proof.
  cbn zeta. unfold new_edges. destruct (nth a (keys gs) (0, 0)) as [i x], (nth b (keys gs) (0, 0)) as [j y]. cbn [fst snd]. unfold grp.
  rewrite orb_true_iff, !andb_true_iff, !Nat.eqb_eq. tauto.
Qed.
Lemma prec_trans gs e k1 k2 k3 : prec gs e k1 k2 -> prec gs e k2 k3 -> prec gs e k1 k3.
Proof.
  unfold prec. intros [H1|[E1 H1]] [H2|[E2 H2]].
  - left. eapply closure_trans; eauto.
  - left. rewrite <- E2. auto.
  - left. rewrite E1. auto.
  - right. split; [congruence|]. rewrite <- E1 in H2. eapply closure_trans; eauto.
Qed.
Section Order.
Variables (gs : list group) (e : rel).
Hypothesis Hg : groups_ok gs e.
Notation ks := (keys gs).
Notation N := (length (keys gs)).
Notation below k k' := (closure (length (keys gs)) (new_edges gs e) (pos k (keys gs)) (pos k' (keys gs))).
Lemma new_closure_prec a b : closure N (new_edges gs e) a b -> prec gs e (nth a ks (0, 0)) (nth b ks (0, 0)).
Proof.
  intros H. induction H as [a b (Ha & Hb & H)|a b c _ IH1 _ IH2]; [|eapply prec_trans; eauto].
  destruct (proj1 (keys_in gs e _ Hg) (nth_In ks (0, 0) Ha)) as [A1 A2], (proj1 (keys_in gs e _ Hg) (nth_In ks (0, 0) Hb)) as [B1 B2].
  apply new_edges_keys in H as [(H & _)|(E & Hs & H)].
  - left. apply t_step. split; auto.
  - right. split; auto. apply t_step. split; auto. split; [rewrite E; auto|auto].
Qed.
Lemma key_pos k : key_ok gs k -> pos k ks < N /\ nth (pos k ks) ks (0, 0) = k.
Proof. intros H. apply pos_ok. apply (keys_in gs e); auto. Qed.
Lemma inner_below i x y : i < length gs -> closure (length (g_ds (grp gs i))) (g_r (grp gs i)) x y -> below (i, x) (i, y).
Proof.
  intros Hi H. induction H as [x y (Hx & Hy & H)|x y z _ IH1 _ IH2]; [|eapply closure_trans; eauto].
  destruct (key_pos (i, x)) as [A1 A2]; [split; auto|]. destruct (key_pos (i, y)) as [B1 B2]; [split; auto|].
  apply t_step. split; auto. split; auto. apply new_edges_keys. rewrite A2, B2. cbn. right. split; auto. split; auto.
  destruct (g_sub (grp gs i)) eqn:Es; auto. destruct (go_kept _ _ Hg i Hi Es) as [_ E]. rewrite E in H. discriminate.
Qed.
Lemma outer_below i j : closure (length gs) e i j -> forall x y, key_ok gs (i, x) -> key_ok gs (j, y) -> below (i, x) (j, y).
Proof.
  intros H. induction H as [i j H|i m j H1 IH1 _ IH2]; intros x y Hx Hy.
  - destruct (go_end _ _ Hg i j H) as [E1 E2], (go_start _ _ Hg i j H) as [S1 S2]. pose proof H as (Hi & Hj & He).
    assert (C : below (i, g_end (grp gs i)) (j, g_start (grp gs j))).
    { destruct (key_pos (i, g_end (grp gs i))) as [A1 A2]; [split; auto|]. destruct (key_pos (j, g_start (grp gs j))) as [B1 B2]; [split; auto|].
      apply t_step. split; auto. split; auto. apply new_edges_keys. rewrite A2, B2. cbn. left. auto. }
    assert (C1 : below (i, x) (j, g_start (grp gs j))).
    { destruct (E2 x (proj2 Hx)) as [->|Hc]; auto. eapply closure_trans; [apply inner_below; eauto|]. exact C. }
    destruct (S2 y (proj2 Hy)) as [->|Hc]; auto. eapply closure_trans; [exact C1|]. apply inner_below; eauto.
  - apply closure_bounds in H1 as [_ Hm]. assert (Hk : key_ok gs (m, 0)).
    { split; auto. cbn. pose proof (go_some _ _ Hg m Hm) as Hd. unfold grp in Hd. destruct (g_ds _); [congruence|cbn; lia]. }
    eapply closure_trans; [apply IH1; eauto|]. apply IH2; auto.
Qed.
Lemma new_closure a b : a < N -> b < N -> (closure N (new_edges gs e) a b <-> prec gs e (nth a ks (0, 0)) (nth b ks (0, 0))).
Proof.
  intros Ha Hb. split; [apply new_closure_prec|]. pose proof (pos_nth ks a (keys_nodup gs) Ha) as Ea. pose proof (pos_nth ks b (keys_nodup gs) Hb) as Eb.
  pose proof (proj1 (keys_in gs e _ Hg) (nth_In ks (0, 0) Ha)) as Ka. pose proof (proj1 (keys_in gs e _ Hg) (nth_In ks (0, 0) Hb)) as Kb. revert Ea Eb Ka Kb.
  generalize (nth a ks (0, 0)) as k, (nth b ks (0, 0)) as k'. intros [i x] [j y] <- <- Ka Kb [H|[E H]]; cbn in *.
  - apply outer_below; auto.
  - subst j. apply inner_below; auto. apply Ka.
Qed.
Lemma new_acyclic : acyclic N (new_edges gs e).
Proof.
  intros a H. pose proof (closure_bounds _ _ _ _ H) as [Ha _]. apply new_closure_prec in H as [H|[_ H]]; [apply (go_acyclic _ _ Hg _ H)|].
  refine (go_inner _ _ Hg _ _ _ H). apply (proj1 (keys_in gs e _ Hg) (nth_In ks (0, 0) Ha)).
Qed.
Lemma flat_lang w : plang (PPo (new_nodes gs) (new_edges gs e)) w <-> plang (PPo (map gl gs) e) w.
Proof.
  rewrite nested_pairs. symmetry. unfold new_nodes. apply (index_lang gs e (keys gs) (new_edges gs e)).
  - apply keys_nodup.
  - intros k. apply (keys_in gs e); auto.
  - apply new_closure.
Qed.
End Order.
