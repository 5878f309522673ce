(** Sums and connection dictionaries. *)
From Coq Require Import List Arith ZArith QArith Bool Lia Lqa Permutation Setoid.
Import ListNotations.
From Verif Require Import Model_Lev Model_Dict Model_Sna Spec_Eval Spec_Sna Proofs_Dict.
Local Open Scope Q_scope.

Lemma qs_app l k : Qsum (l ++ k) == Qsum l + Qsum k.
Proof. induction l as [|x l IH]; cbn [app Qsum]; [ring|rewrite IH; ring]. Qed.
Lemma qs_perm l k : Permutation l k -> Qsum l == Qsum k.
Proof. induction 1; cbn [Qsum]; try (rewrite ?IHPermutation; ring). rewrite IHPermutation1. exact IHPermutation2. Qed.
Lemma qs_ext {X} (f g : X -> Q) l : (forall x, In x l -> f x == g x) -> Qsum (map f l) == Qsum (map g l).
Proof. induction l as [|x l IH]; intros H; cbn [map Qsum]; [reflexivity|]. rewrite (H x), IH; [reflexivity|intros; apply H; right; auto|left; auto]. Qed.
Lemma qs_zero {X} (f : X -> Q) l : (forall x, In x l -> f x == 0) -> Qsum (map f l) == 0.
Proof. intros H. rewrite (qs_ext f (fun _ => 0)) by auto. induction l; cbn [map Qsum]; [reflexivity|]. rewrite IHl; [ring|intros; apply H; right; auto]. Qed.
Lemma qs_scale {X} c (f : X -> Q) l : Qsum (map (fun x => c * f x) l) == c * Qsum (map f l).
Proof. induction l as [|x l IH]; cbn [map Qsum]; [ring|rewrite IH; ring]. Qed.
Lemma qs_nonneg l : (forall x, In x l -> 0 <= x) -> 0 <= Qsum l.
Proof. induction l as [|x l IH]; intros H; cbn [Qsum]; [lra|]. pose proof (H x (or_introl eq_refl)). assert (0 <= Qsum l) by (apply IH; intros; apply H; right; auto). lra. Qed.
Lemma qs_le {X} (f g : X -> Q) l : (forall x, In x l -> f x <= g x) -> Qsum (map f l) <= Qsum (map g l).
Proof. induction l as [|x l IH]; intros H; cbn [map Qsum]; [lra|]. pose proof (H x (or_introl eq_refl)). assert (Qsum (map f l) <= Qsum (map g l)) by (apply IH; intros; apply H; right; auto). lra. Qed.
Lemma q_nat_S n : q_nat (S n) == q_nat n + 1.
Proof. unfold q_nat. rewrite Nat2Z.inj_succ. unfold Z.succ. rewrite inject_Z_plus. reflexivity. Qed.
Lemma q_nat_add n m : q_nat (n + m) == q_nat n + q_nat m.
Proof. unfold q_nat. rewrite Nat2Z.inj_add, inject_Z_plus. reflexivity. Qed.
Lemma q_nat_nonneg n : 0 <= q_nat n.
Proof. unfold q_nat. change 0 with (inject_Z 0). rewrite <- Zle_Qle. lia. Qed.
Lemma q_nat_pos n : (0 < n)%nat -> 0 < q_nat n.
Proof. intros H. unfold q_nat. change 0 with (inject_Z 0). rewrite <- Zlt_Qlt. lia. Qed.
(** counting the variants of a log *)
Lemma counted (f : list nat -> Q) : forall log, Qsum (map (fun kv => q_nat (snd kv) * f (fst kv)) (variants log)) == Qsum (map f log).
Proof.
  assert (A : forall (d : dict (list nat) nat) k, Qsum (map (fun kv => q_nat (snd kv) * f (fst kv)) (c_add d k 1)) == Qsum (map (fun kv => q_nat (snd kv) * f (fst kv)) d) + f k).
  { intros d k. unfold c_add. assert (G : forall v, Qsum (map (fun kv => q_nat (snd kv) * f (fst kv)) (d_set d k v)) == Qsum (map (fun kv => q_nat (snd kv) * f (fst kv)) d) + (q_nat v - q_nat (c_get d k)) * f k).
    { intros v. unfold c_get. induction d as [|[k' n'] d IH].
      - cbn [d_set d_get map Qsum fst snd]. unfold q_nat at 3. cbn. ring.
      - cbn [d_set d_get]. destruct (keqb_spec k' k) as [->|Hne]; cbn [map Qsum fst snd]; [ring|]. rewrite IH. ring. }
    rewrite G, q_nat_add. change (q_nat 1) with 1. ring. }
  intros log. unfold variants. induction log as [|t log IH] using rev_ind; [reflexivity|]. rewrite c_of_snoc, A, IH, map_app, qs_app. cbn [map Qsum]. ring.
Qed.
Lemma variants_in log v : In v (variants log) -> In (fst v) log /\ (0 < snd v)%nat.
Proof.
  destruct v as [k n]. intros H. assert (Hk : In k (d_keys (c_of log))) by (apply in_map_iff; exists (k, n); auto). pose proof (proj1 (c_of_keys log k) Hk) as Hl. split; [exact Hl|]. cbn [snd].
  apply d_in_get in H; [|apply c_of_nodup]. pose proof (c_get_of log k) as C. unfold c_get in C. unfold variants in H. rewrite H in C. rewrite C. apply occ_pos. auto.
Qed.
Lemma variants_all log t : In t log -> exists n, In (t, n) (variants log).
Proof. intros H. apply (proj2 (c_of_keys log t)) in H. unfold d_keys in H. apply in_map_iff in H as ([k n] & E & Hin). cbn in E. subst k. exists n. auto. Qed.
Lemma variants_total log : list_sum (map snd (variants log)) = length log.
Proof.
  assert (A : forall (d : dict (list nat) nat) k, list_sum (map snd (c_add d k 1)) = S (list_sum (map snd d))).
  { intros d k. unfold c_add. assert (G : forall v, (list_sum (map snd (d_set d k v)) + c_get d k = list_sum (map snd d) + v)%nat).
    { intros v. unfold c_get. induction d as [|[k' n'] d IH]; cbn [d_set d_get map list_sum fold_right snd]; [unfold list_sum; cbn; lia|]. destruct (keqb_spec k' k) as [->|Hne]; cbn [map snd]; unfold list_sum in *; cbn [fold_right]; lia. }
    specialize (G (c_get d k + 1)%nat). lia. }
  unfold variants. induction log as [|t log IH] using rev_ind; [reflexivity|]. rewrite c_of_snoc, A, IH, app_length. cbn. lia.
Qed.
(** connection dictionaries *)
Lemma q_get_add d k v k' : q_get (q_add d k v) k' == q_get d k' + (if keqb k k' then v else 0).
Proof. unfold q_add. unfold q_get at 1. rewrite d_get_set. destruct (keqb_spec k k') as [->|]; [reflexivity|]. fold (q_get d k'). ring. Qed.
Lemma q_in_add d k v k' : In k' (d_keys (q_add d k v)) <-> k' = k \/ In k' (d_keys d).
Proof. unfold q_add. apply d_in_keys_set. Qed.
Lemma q_nodup_add d k v : NoDup (d_keys d) -> NoDup (d_keys (q_add d k v)).
Proof. unfold q_add. apply d_nodup_set. Qed.
Lemma q_sum_add d k v : Qsum (map snd (q_add d k v)) == Qsum (map snd d) + v.
Proof.
  unfold q_add. assert (G : forall w, Qsum (map snd (d_set d k w)) == Qsum (map snd d) + (w - q_get d k)).
  { intros w. unfold q_get. induction d as [|[k' n'] d IH]; cbn [d_set d_get map Qsum snd]; [ring|]. destruct (keqb_spec k' k) as [->|Hne]; cbn [map Qsum snd]; [ring|]. rewrite IH. ring. }
  rewrite G. ring.
Qed.
Lemma q_get_div (d : conn) c k v : d_get (map (fun kv => (fst kv, snd kv / c)) d) k = Some v <-> exists w, d_get d k = Some w /\ v = w / c.
Proof.
  induction d as [|[k' n'] d IH]; cbn [map d_get fst snd]; [split; [discriminate|intros (w & X & _); discriminate]|]. destruct (keqb_spec k' k) as [->|Hne]; [|exact IH].
  split; [intros [= <-]; eauto|intros (w & [= <-] & ->); auto].
Qed.
Lemma keys_div {V} (d : dict (nat * nat) V) (g : V -> V) : d_keys (map (fun kv => (fst kv, g (snd kv))) d) = d_keys d.
Proof. unfold d_keys. rewrite map_map. reflexivity. Qed.
Lemma sum_div d c : Qsum (map snd (map (fun kv : (nat * nat) * Q => (fst kv, snd kv / c)) d)) == Qsum (map snd d) / c.
Proof. rewrite map_map. cbn [snd]. induction d as [|x d IH]; cbn [map Qsum]; [unfold Qdiv; ring|rewrite IH; unfold Qdiv; ring]. Qed.
(** pairs of positions *)
Lemma pairs_S n : pairs (S n) = map (fun j => (O, j)) (seq 1 n) ++ map (fun ij => (S (fst ij), S (snd ij))) (pairs n).
Proof.
  unfold pairs. cbn [seq flat_map]. replace (S n - 1)%nat with n by lia. f_equal. rewrite <- seq_shift, flat_map_concat_map, map_map, flat_map_concat_map, concat_map, map_map. f_equal. apply map_ext. intros i.
  rewrite map_map. cbn [fst snd]. replace (S n - S (S i))%nat with (n - S i)%nat by lia. rewrite <- (seq_shift (n - S i) (S i)), map_map. reflexivity.
Qed.
Lemma pairs_in n i j : In (i, j) (pairs n) <-> (i < j < n)%nat.
Proof.
  unfold pairs. rewrite in_flat_map. split.
  - intros (x & Hx & Hy). apply in_map_iff in Hy as (y & [= <- <-] & Hy). apply in_seq in Hx, Hy. lia.
  - intros H. exists i. split; [apply in_seq; lia|]. apply in_map_iff. exists j. split; auto. apply in_seq. lia.
Qed.
Lemma is_S t x i a : is (x :: t) (S i) a = is t i a. Proof. reflexivity. Qed.
Lemma is_range t i a : 0 <= is t i a <= 1.
Proof. unfold is. destruct (nth_error t i) as [x|]; [destruct (Nat.eqb x a)|]; lra. Qed.
