(** C111: stochastic languages and the earth mover's distance between them. *)
From Coq Require Import List Arith Bool QArith Lqa Lia.
From Verif Require Import Spec_Lev Model_Lev Proofs_Lev Model_Encode Proofs_Encode Model_Emd Spec_Emd Proofs_Emd1 Proofs_Emd2 Proofs_Emd3.
Import ListNotations.
Open Scope nat_scope.

Lemma distinct_ok (l : list (list nat)) : forall seen, NoDup (distinct seen l) /\ forall x, In x (distinct seen l) <-> In x l /\ ~ In x seen.
Proof.
  induction l as [|a l IH]; intros seen; cbn; [split; [constructor|tauto]|]. destruct (existsb (word_eqb a) seen) eqn:E.
  - destruct (IH seen) as [N I]. split; auto. intros x. rewrite I. apply existsb_exists in E as (y & Hy & Q). apply word_eqb_iff in Q. subst y. split; intros [H1 H2]; split; auto. destruct H1 as [<-|]; tauto.
  - destruct (IH (a :: seen)) as [N I]. assert (Na : ~ In a seen). { intros H. assert (existsb (word_eqb a) seen = true) by (apply existsb_exists; exists a; split; auto; apply word_eqb_iff; auto). congruence. }
    split; [constructor; auto; rewrite I; cbn; tauto|]. intros x. cbn. rewrite I. cbn. destruct (list_eq_dec Nat.eq_dec a x) as [<-|]; tauto.
Qed.
Lemma occurrences_count log t : occurrences log t = count_occ (list_eq_dec Nat.eq_dec) log t.
Proof.
  unfold occurrences. induction log as [|u log IH]; cbn [filter count_occ]; auto. destruct (list_eq_dec Nat.eq_dec u t) as [->|N].
  - replace (word_eqb t t) with true by (symmetry; apply word_eqb_iff; auto). cbn [length]. auto.
  - replace (word_eqb t u) with false; auto. symmetry. apply not_true_iff_false. rewrite word_eqb_iff. congruence.
Qed.
Definition sum_occ (log k : list (list nat)) : nat := fold_right (fun t n => occurrences log t + n) 0 k.
Lemma sum_occ_cons u log k : NoDup k -> sum_occ (u :: log) k = sum_occ log k + (if in_dec (list_eq_dec Nat.eq_dec) u k then 1 else 0).
Proof.
  intros N. induction N as [|t k H N IH]; [auto|]. cbn [sum_occ fold_right]. fold (sum_occ (u :: log) k) (sum_occ log k). rewrite IH, !occurrences_count. cbn [count_occ].
  destruct (list_eq_dec Nat.eq_dec u t) as [->|D]; destruct (in_dec _ _ (t :: k)) as [J|J]; destruct (in_dec _ _ k) as [I|I]; cbn in J; try tauto; try lia.
  all: intuition (try congruence; try lia).
Qed.
Lemma sum_occ_all log k : NoDup k -> (forall t, In t log -> In t k) -> sum_occ log k = length log.
Proof.
  intros N. induction log as [|u log IH]; intros H.
  - clear. induction k as [|t k IH]; auto.
  - rewrite sum_occ_cons by auto. rewrite IH by (intros; apply H; right; auto). destruct (in_dec _ _ _) as [I|I]; [cbn; lia|]. exfalso. apply I. apply H. left; auto.
Qed.

Lemma language_keys log : map fst (get_language log) = distinct [] log.
Proof. unfold get_language. rewrite !map_map. cbn [fst]. apply map_id. Qed.
Lemma language_in log t p : In (t, p) (get_language log) <-> In t log /\ p = share log t.
Proof.
  unfold get_language. rewrite map_map, in_map_iff. cbn [fst snd]. destruct (distinct_ok log []) as [N I].
  assert (S : fold_right (fun q n => snd q + n) 0 (map (fun t => (t, occurrences log t)) (distinct [] log)) = length log).
  { rewrite <- (sum_occ_all log (distinct [] log) N) by (intros; apply I; auto). clear. induction (distinct [] log) as [|x k IH]; auto. cbn. fold (sum_occ log k). rewrite IH. auto. }
  rewrite S. split.
  - intros (u & E & H). injection E as <- <-. split; [apply I; auto|]. unfold share, frac. rewrite occurrences_count. auto.
  - intros (H & ->). exists t. split; [unfold share, frac; rewrite occurrences_count; auto|apply I; auto].
Qed.
Lemma total_share log k c : total k (fun t => (inject_Z (Z.of_nat (occurrences log t)) / c)%Q) == inject_Z (Z.of_nat (sum_occ log k)) / c.
Proof.
  induction k as [|t k IH]; [cbn; unfold Qdiv; rewrite Qmult_0_l; reflexivity|]. cbn [total fold_right sum_occ]. fold (total k (fun t => (inject_Z (Z.of_nat (occurrences log t)) / c)%Q)) (sum_occ log k). rewrite IH, Nat2Z.inj_add, inject_Z_plus. unfold Qdiv. ring.
Qed.

(** The stochastic language of a log: its keys are the different traces, each with its share of the traces; the shares of a non-empty log sum up to 1. *)
Theorem C111_language : forall log,
  NoDup (map fst (get_language log)) /\
  (forall t p, In (t, p) (get_language log) <-> In t log /\ p = share log t) /\
  (forall t, probability (get_language log) t == share log t)%Q /\
  (log <> [] -> stochastic (get_language log)).
Proof.
  intros log. destruct (distinct_ok log []) as [N I]. assert (N' : NoDup (map fst (get_language log))) by (rewrite language_keys; auto). split; auto. split; [apply language_in|]. split.
  - intros t. destruct (in_dec (list_eq_dec Nat.eq_dec) t log) as [H|H].
    + apply probability_in; auto. apply language_in. auto.
    + rewrite probability_out by (rewrite language_keys, I; tauto). unfold share. rewrite (proj1 (count_occ_not_In _ _ _) H). unfold Qdiv. cbn. rewrite Qmult_0_l. reflexivity.
  - intros H. assert (P : (0 < inject_Z (Z.of_nat (length log)))%Q) by (change 0%Q with (inject_Z 0); rewrite <- Zlt_Qlt; destruct log; [congruence|cbn [length]; lia]). split; auto. split.
    + intros t p J. apply language_in in J as [_ ->]. unfold share. apply Qle_shift_div_l; auto. rewrite Qmult_0_l. change 0%Q with (inject_Z 0). rewrite <- Zle_Qle. lia.
    + unfold get_language. rewrite !total_map. cbn [fst snd]. assert (S : fold_right (fun q n => snd q + n) 0 (map (fun t => (t, occurrences log t)) (distinct [] log)) = length log).
      { rewrite <- (sum_occ_all log (distinct [] log) N) by (intros; apply I; auto). clear. induction (distinct [] log) as [|x k IH]; auto. cbn. fold (sum_occ log k). rewrite IH. auto. }
      rewrite S. unfold frac. rewrite total_share, (sum_occ_all log _ N) by (intros; apply I; auto). unfold Qdiv. apply Qmult_inv_r. lra.
Qed.
Print Assumptions C111_language.

(** What the distance is computed from: two histograms that list the same traces in the same order, and the distances between them. The earth mover's distance between the
    histograms is between 0 and 1, and 0 exactly when every trace has the same probability in both languages; if no trace is empty. *)
Theorem C111_emd : forall lang1 lang2, stochastic lang1 -> stochastic lang2 -> ~ In [] (map fst lang1 ++ map fst lang2) ->
  exists h1 h2 d, emd_input lang1 lang2 = Some (h1, h2, d) /\
    forall v, emd h1 h2 d v -> (0 <= v <= 1)%Q /\ ((v == 0)%Q <-> forall t, (probability lang1 t == probability lang2 t)%Q).
Proof.
  intros lang1 lang2 S1 S2 H. destruct (emd_correct lang1 lang2) as (d & E & V); try (apply S1); try (apply S2); auto.
  - unfold known. rewrite <- in_app_iff. auto.
  - eauto 6.
Qed.
Print Assumptions C111_emd.
(** The bins of the histograms are the traces of the two languages: each of them has one, with its two probabilities, and the cells are the normalized edit distances. *)
Theorem C111_histograms : forall lang1 lang2, NoDup (map fst lang1) -> NoDup (map fst lang2) -> ~ In [] (map fst lang1 ++ map fst lang2) ->
  exists h1 h2 d ts, emd_input lang1 lang2 = Some (h1, h2, d) /\ length h1 = length ts /\ length h2 = length ts /\
    NoDup ts /\ (forall t, In t ts <-> In t (map fst lang1) \/ In t (map fst lang2)) /\
    (forall i, i < length ts -> (at_ h1 i == probability lang1 (nth i ts []))%Q /\ (at_ h2 i == probability lang2 (nth i ts []))%Q) /\
    forall i j n, i < length ts -> j < length ts -> edit_distance (nth i ts []) (nth j ts []) n ->
      cell d i j = (inject_Z (Z.of_nat n) / inject_Z (Z.of_nat (Nat.max (length (nth i ts [])) (length (nth j ts [])))))%Q.
Proof.
  intros lang1 lang2 N1 N2 H. assert (Hk : ~ known lang1 lang2 []) by (unfold known; rewrite <- in_app_iff; auto). eexists _, _, _.
  set (K := map fst (sort_keys (add_missing (add_missing (encode (acts_corresp lang1 lang2) lang1) (encode (acts_corresp lang1 lang2) lang2)) (encode (acts_corresp lang1 lang2) lang1)))).
  assert (P : exists ts, length ts = length K /\ forall i, i < length K -> known lang1 lang2 (nth i ts []) /\ nth i K [] = encoded_trace (acts_corresp lang1 lang2) (nth i ts [])).
  { assert (G : forall l, (forall w, In w l -> exists t, known lang1 lang2 t /\ w = encoded_trace (acts_corresp lang1 lang2) t) -> exists ts, length ts = length l /\ forall i, i < length l -> known lang1 lang2 (nth i ts []) /\ nth i l [] = encoded_trace (acts_corresp lang1 lang2) (nth i ts [])).
    { induction l as [|w l IH]; intros Hl; [exists []; split; auto; cbn; lia|]. destruct IH as (ts & L & T); [intros; apply Hl; right; auto|]. destruct (Hl w (or_introl eq_refl)) as (t & Kt & E). exists (t :: ts). split; [cbn; auto|]. intros [|i] Hi; cbn in *; [auto|apply T; lia]. }
    apply G. intros w Hw. apply in_K in Hw; auto. }
  destruct P as (ts & L & T). exists ts. split; [apply input_ok; auto|]. split; [rewrite lenK1; auto|]. split; [rewrite lenK2; auto|].
  assert (NK : NoDup K) by (apply Proofs_Emd3.NK; auto). split; [|split; [|split]].
  - apply (NoDup_nth ts []). intros i j Hi Hj E. rewrite L in Hi, Hj. apply (proj1 (NoDup_nth K []) NK i j); auto. rewrite (proj2 (T i Hi)), (proj2 (T j Hj)), E. auto.
  - intros t. split; intros I.
    + apply (In_nth _ _ []) in I as (i & Hi & <-). rewrite L in Hi. apply T; auto.
    + assert (J : In (encoded_trace (acts_corresp lang1 lang2) t) K) by (apply in_K; eauto). apply (In_nth _ _ []) in J as (i & Hi & E). destruct (T i Hi) as [Ki Ei]. assert (t = nth i ts []) by (apply (enc_inj lang1 lang2); auto; congruence). subst t. apply nth_In. rewrite L. auto.
  - intros i Hi. rewrite L in Hi. destruct (at_K lang1 lang2 N1 N2 i Hi) as (t & Kt & E & V). assert (t = nth i ts []). { apply (enc_inj lang1 lang2); auto; [apply T; auto|]. rewrite <- E. apply T; auto. } subst t. exact V.
  - intros i j n Hi Hj E. rewrite L in Hi, Hj. rewrite cell_matrix by auto. change (dist (nth i K []) (nth j K []) = (inject_Z (Z.of_nat n) / inject_Z (Z.of_nat (Nat.max (length (nth i ts [])) (length (nth j ts [])))))%Q).
    rewrite (proj2 (T i Hi)), (proj2 (T j Hj)). rewrite (enc_dist lang1 lang2) by (apply T; auto). unfold dist, frac. rewrite (edit_distance_unique _ _ _ _ E (levenshtein_correct _ _)). auto.
Qed.
Print Assumptions C111_histograms.

(** With an empty trace in one of the languages there is no distance (ZeroDivisionError). *)
Theorem C111_empty_refuted : forall lang1 lang2, NoDup (map fst lang1) -> NoDup (map fst lang2) -> In [] (map fst lang1 ++ map fst lang2) -> emd_input lang1 lang2 = None.
Proof. intros. apply input_none; auto. unfold known. rewrite <- in_app_iff. auto. Qed.
Print Assumptions C111_empty_refuted.

(** Two logs: the one has <1, 2> three times and <1> once, the other one <1> only. *)
Example C111_example :
  emd_input (get_language [[1; 2]; [1]; [1; 2]; [1; 2]]) (get_language [[1]; [1]]) = Some ([3 # 4; 1 # 4]%Q, [0; 2 # 2]%Q, [[0 # 2; 1 # 2]; [1 # 2; 0 # 1]]%Q)
  /\ emd_input (get_language [[1]; []]) (get_language [[1]; []]) = None
  /\ stochastic (get_language [[1; 2]; [1]; [1; 2]; [1; 2]]) /\ stochastic (get_language [[1]; [1]]) /\ ~ In [] (map fst (get_language [[1; 2]; [1]; [1; 2]; [1; 2]]) ++ map fst (get_language [[1]; [1]])).
Proof.
  split; [vm_compute; reflexivity|]. split; [vm_compute; reflexivity|]. split; [apply C111_language; discriminate|]. split; [apply C111_language; discriminate|]. vm_compute. intuition discriminate.
Qed.
(** ... and 3/8 is their distance *)
Example C111_distance : emd [3 # 4; 1 # 4]%Q [0; 2 # 2]%Q [[0 # 2; 1 # 2]; [1 # 2; 0 # 1]]%Q (3 # 8)%Q.
Proof.
  split.
  - exists (fun i j => match i, j with 0, 1 => (3 # 4)%Q | 1, 1 => (1 # 4)%Q | _, _ => 0%Q end). split; [|vm_compute; reflexivity]. split; [intros [|[|i]] [|[|j]]; cbv; discriminate|]. split.
    + intros [|[|i]] Hi; [vm_compute; reflexivity..|cbn in Hi; lia].
    + intros [|[|i]] Hi; [vm_compute; reflexivity..|cbn in Hi; lia].
  - intros f (P & R & C). pose proof (R 0 ltac:(cbn; lia)) as R0. pose proof (C 0 ltac:(cbn; lia)) as C0. cbn [length seq total fold_right at_ nth] in R0, C0. unfold cost, cell. cbn [length seq total fold_right nth]. pose proof (P 0 0). pose proof (P 1 0). pose proof (P 0 1).
    assert (E0 : f 0 0 == 0%Q) by lra. assert (E1 : f 0 1 == (3 # 4)%Q) by lra. pose proof (P 1 1). assert (Z : ((3 # 8) <= f 0%nat 1%nat * (1 # 2))%Q) by (rewrite E1; discriminate). assert (Z2 : (0 <= f 1%nat 0%nat * (1 # 2))%Q) by lra. assert ((0 # 2 == 0)%Q) by reflexivity. assert ((0 # 1 == 0)%Q) by reflexivity. lra.
Qed.
