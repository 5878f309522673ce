From Coq Require Import List Arith Bool Lia Permutation.
Import ListNotations.
From Verif Require Import Model_Dict Proofs_Dict Model_Dfg Spec_Dfg.
Local Arguments keqb {K Key} : simpl never.

(** * Counting positions *)
Lemma exactly_ext {X} n (P Q : X -> Prop) : (forall x, P x <-> Q x) -> exactly n P -> exactly n Q.
Proof. intros H (l & H1 & H2 & H3). exists l. repeat split; auto; intros; [apply H, H3; auto|apply H3, H; auto]. Qed.
Lemma exactly_unique {X} n m (P : X -> Prop) : exactly n P -> exactly m P -> n = m.
Proof.
  intros (l & H1 & <- & H3) (k & G1 & <- & G3). apply Permutation_length, NoDup_Permutation; auto.
  intros x. rewrite H3, G3. tauto.
Qed.
Lemma exactly_0 {X} (P : X -> Prop) : (forall x, ~ P x) -> exactly 0 P.
Proof. intros H. exists []. repeat split; [constructor|intros []|intros Hx; apply (H x Hx)]. Qed.
Lemma NoDup_app_intro {A} (l k : list A) : NoDup l -> NoDup k -> (forall x, In x l -> In x k -> False) -> NoDup (l ++ k).
Proof.
  induction l as [|x l IH]; cbn; intros H1 H2 H3; auto. inversion H1; subst. constructor.
  - rewrite in_app_iff. intros [?|?]; [auto|apply (H3 x); auto].
  - apply IH; auto. intros y ? ?. apply (H3 y); auto.
Qed.
Lemma NoDup_map_inj {A B} (f : A -> B) l : (forall x y, f x = f y -> x = y) -> NoDup l -> NoDup (map f l).
Proof.
  intros Hf. induction 1; cbn; constructor; auto. rewrite in_map_iff. intros (y & E & Hy). apply Hf in E. subst. auto.
Qed.
Lemma exactly_log (P : trace -> nat -> Prop) (f : trace -> nat) (l : log) :
  (forall t, exactly (f t) (P t)) ->
  exactly (list_sum (map f l)) (fun p => exists t, nth_error l (fst p) = Some t /\ P t (snd p)).
Proof.
  intros H. induction l as [|t l IH].
  - apply exactly_0. intros [[|j] i]; cbn; intros (t & E & _); discriminate.
  - destruct IH as (k & H1 & H2 & H3). destruct (H t) as (m & G1 & G2 & G3).
    exists (map (fun i => (0, i)) m ++ map (fun p => (S (fst p), snd p)) k). split; [|split].
    + apply NoDup_app_intro.
      * apply NoDup_map_inj; auto. intros; congruence.
      * apply NoDup_map_inj; auto. intros [] [] E; cbn in E; congruence.
      * intros [j i]. rewrite !in_map_iff. intros (x & E & _) (y & E' & _). congruence.
    + rewrite app_length, !map_length. unfold list_sum in *. cbn. lia.
    + intros [j i]. rewrite in_app_iff, !in_map_iff. cbn [fst snd]. split.
      * intros [(x & E & Hx)|([a b] & E & Hx)].
        -- injection E as <- <-. exists t. split; auto. apply G3; auto.
        -- cbn in E. injection E as <- <-. apply H3 in Hx. exact Hx.
      * intros (u & E & Hu). destruct j as [|j]; cbn in E.
        -- injection E as ->. left. exists i. split; auto. apply G3; auto.
        -- right. exists (j, i). split; auto. apply H3. exists u. auto.
Qed.
Lemma exactly_filter {A} (p : nat -> bool) (m n : nat) (P : A -> Prop) (g : nat -> A) :
  (forall x y, g x = g y -> x = y) ->
  (forall x, P x <-> exists i, x = g i /\ m <= i < m + n /\ p i = true) -> exactly (length (filter p (seq m n))) P.
Proof.
  intros Hg HP. exists (map g (filter p (seq m n))). split; [|split].
  - apply NoDup_map_inj; auto. apply NoDup_filter, seq_NoDup.
  - apply map_length.
  - intros x. rewrite in_map_iff, HP. split.
    + intros (i & <- & Hi). apply filter_In in Hi. rewrite in_seq in Hi. exists i. tauto.
    + intros (i & -> & Hi & E). exists i. split; auto. apply filter_In. rewrite in_seq. tauto.
Qed.
Lemma filter_map_len {A B} (f : A -> B) p l : length (filter p (map f l)) = length (filter (fun x => p (f x)) l).
Proof. induction l as [|x l IH]; cbn; auto. destruct (p (f x)); cbn; auto. Qed.
Lemma nth_nth_error (t : list nat) i x : i < length t -> nth i t 0 = x <-> nth_error t i = Some x.
Proof.
  intros H. rewrite (nth_error_nth' t 0 H). split; congruence.
Qed.
Lemma exactly_pairs w a b t :
  exactly (occ (a, b) (window_pairs w t)) (fun i => nth_error t i = Some a /\ nth_error t (i + w) = Some b).
Proof.
  unfold occ, window_pairs. rewrite filter_map_len.
  assert (E : forall n, filter (fun x => keqb (nth (x - w) t 0, nth x t 0) (a, b)) (seq w n) =
              map (fun i => i + w) (filter (fun i => keqb (nth i t 0, nth (i + w) t 0) (a, b)) (seq 0 n))).
  { intros n. assert (G : forall m, filter (fun x => keqb (nth (x - w) t 0, nth x t 0) (a, b)) (seq (m + w) n) =
              map (fun i => i + w) (filter (fun i => keqb (nth i t 0, nth (i + w) t 0) (a, b)) (seq m n))).
    { induction n as [|n IH]; intros m; cbn [seq filter]; auto. change (S (m + w)) with (S m + w). rewrite (IH (S m)).
      replace (m + w - w) with m by lia. destruct (keqb _ _); auto. }
    apply (G 0). }
  rewrite E, map_length. apply (exactly_filter _ 0 _ _ (fun x => x)); auto.
  intros i. split.
  - intros [H1 H2]. assert (i + w < length t) by (apply nth_error_Some; congruence). exists i. split; auto. split; [lia|].
    apply keqb_true. apply nth_nth_error in H1; [|lia]. apply nth_nth_error in H2; [|lia]. congruence.
  - intros (j & <- & Hj & E'). apply keqb_true in E'. injection E' as E1 E2. split; apply nth_nth_error; auto; lia.
Qed.
Lemma exactly_occ a t : exactly (occ a t) (fun i => nth_error t i = Some a).
Proof.
  assert (E : occ a t = length (filter (fun i => keqb (nth i t 0) a) (seq 0 (length t)))).
  { unfold occ. rewrite <- (filter_map_len (fun i => nth i t 0) (fun x => keqb x a)). f_equal. f_equal.
    clear. induction t as [|x t IH]; auto. cbn [length seq map]. f_equal. rewrite <- seq_shift, map_map. exact IH. }
  rewrite E. apply (exactly_filter _ 0 _ _ (fun x => x)); auto. intros i. split.
  - intros H. assert (i < length t) by (apply nth_error_Some; congruence). exists i. split; auto. split; [lia|].
    apply keqb_true, nth_nth_error; auto.
  - intros (j & <- & Hj & H). apply keqb_true in H. apply nth_nth_error; auto; lia.
Qed.
Lemma occ_concat {A} {K : Key A} (k : A) l : occ k (concat l) = list_sum (map (occ k) l).
Proof. induction l as [|x l IH]; auto. cbn [concat map]. rewrite occ_app, IH. reflexivity. Qed.

Theorem native_counts w l a b :
  exactly (c_get (native w false l) (a, b)) (fun p => at_pos l (fst p) (snd p) a /\ at_pos l (fst p) (snd p + w) b).
Proof.
  unfold native. rewrite c_get_of, occ_concat, map_map.
  eapply exactly_ext; [|apply (exactly_log (fun t i => nth_error t i = Some a /\ nth_error t (i + w) = Some b) _ l), exactly_pairs].
  intros [j i]; cbn [fst snd]. unfold at_pos. split.
  - intros (t & E & H1 & H2). split; exists t; auto.
  - intros [(t & E & H1) (t' & E' & H2)]. rewrite E in E'. injection E' as <-. exists t. auto.
Qed.

(** * Start and end activities *)
Definition firsts (t : trace) : list nat := match t with [] => [] | a :: _ => [a] end.
Definition lasts (t : trace) : list nat := match t with [] => [] | _ => [last t 0] end.
Lemma incr0 (d : @counter nat) a : (let d := if d_mem d a then d else d_set d a 0 in d_set d a (c_get d a + 1)) = c_add d a 1.
Proof.
  cbn zeta. unfold c_add, d_mem. destruct (d_get d a) eqn:E; auto. unfold c_get. rewrite d_get_set_same, E. cbn.
  induction d as [|[k v] d IH]; cbn in *; [rewrite keqb_refl; auto|]. destruct (keqb_spec k a) as [->|Hk]; [discriminate|].
  cbn. rewrite keqb_neq by auto. f_equal. apply IH. auto.
Qed.
Lemma starts_eq l : get_start_activities l = c_of (concat (map firsts l)).
Proof.
  unfold get_start_activities, c_of. generalize (@nil (nat * nat)). induction l as [|t l IH]; intros d; cbn [fold_left map concat]; auto.
  destruct t as [|a t]; cbn [firsts app fold_left]; [apply IH|]. rewrite incr0. apply IH.
Qed.
Lemma ends_eq l : get_end_activities l = c_of (concat (map lasts l)).
Proof.
  unfold get_end_activities, c_of. generalize (@nil (nat * nat)). induction l as [|t l IH]; intros d; cbn [fold_left map concat]; auto.
  destruct t as [|a t]; [apply IH|]. unfold lasts at 1. cbn [app fold_left]. rewrite incr0. apply IH.
Qed.
Lemma exactly_firsts a t : exactly (occ a (firsts t)) (fun i => i = 0 /\ nth_error t i = Some a).
Proof.
  destruct t as [|x t]; cbn [firsts].
  - apply exactly_0. intros [|i]; cbn; intros [? ?]; congruence.
  - rewrite occ_cons. unfold occ. cbn [filter length]. destruct (keqb_spec x a) as [->|H].
    + exists [0]. split; [repeat constructor; auto|]. split; auto. intros i. cbn. split; [intros [<-|[]]; auto|intros [-> _]; auto].
    + apply exactly_0. intros i [-> E]. cbn in E. congruence.
Qed.
Lemma last_nth (t : list nat) : last t 0 = nth (length t - 1) t 0.
Proof.
  induction t as [|x t IH]; auto. destruct t as [|y t]; auto. cbn [length] in *. replace (S (S (length t)) - 1) with (S (S (length t) - 1)) by lia.
  cbn [last nth] in *. exact IH.
Qed.
Lemma exactly_lasts a t : exactly (occ a (lasts t)) (fun i => length t = S i /\ nth_error t i = Some a).
Proof.
  destruct t as [|x t]; [apply exactly_0; intros i [E _]; discriminate|]. unfold lasts.
  rewrite last_nth. set (u := x :: t). rewrite occ_cons. unfold occ. cbn [filter length].
  assert (Hn : length u - 1 < length u) by (cbn; lia).
  destruct (keqb_spec (nth (length u - 1) u 0) a) as [E|E].
  - exists [length u - 1]. split; [repeat constructor; auto|]. split; auto. intros i. cbn [In]. split.
    + intros [<-|[]]. split; [lia|]. apply nth_nth_error; auto.
    + intros [El Ei]. left. lia.
  - apply exactly_0. intros i [El Ei]. apply E. apply nth_nth_error; auto. replace (length u - 1) with i by lia. auto.
Qed.
Theorem start_counts l a : exactly (c_get (get_start_activities l) a) (fun p => snd p = 0 /\ at_pos l (fst p) (snd p) a).
Proof.
  rewrite starts_eq, c_get_of, occ_concat, map_map.
  eapply exactly_ext; [|apply (exactly_log (fun t i => i = 0 /\ nth_error t i = Some a) _ l), exactly_firsts].
  intros [j i]; cbn [fst snd]. unfold at_pos. split; [intros (t & E & H1 & H2); split; auto; exists t; auto|intros [H (t & E & H1)]; exists t; auto].
Qed.
Theorem end_counts l a : exactly (c_get (get_end_activities l) a) (fun p => last_pos l (fst p) (snd p) /\ at_pos l (fst p) (snd p) a).
Proof.
  rewrite ends_eq, c_get_of, occ_concat, map_map.
  eapply exactly_ext; [|apply (exactly_log (fun t i => length t = S i /\ nth_error t i = Some a) _ l), exactly_lasts].
  intros [j i]; cbn [fst snd]. unfold at_pos, last_pos. split.
  - intros (t & E & H1 & H2). split; exists t; auto.
  - intros [(t & E & H1) (t' & E' & H2)]. rewrite E in E'. injection E' as <-. exists t. auto.
Qed.

(** * Conservation *)
Fixpoint adj (t : trace) : list (nat * nat) :=
  match t with
  | a :: ((b :: _) as r) => (a, b) :: adj r
  | _ => []
  end.
Lemma consecutive_adj t : consecutive t = adj t.
Proof.
  unfold consecutive. induction t as [|a t IH]; auto. destruct t as [|b t]; auto.
  cbn [length]. replace (S (S (length t)) - 1) with (S (length t)) by lia. cbn [seq map].
  change (adj (a :: b :: t)) with ((a, b) :: adj (b :: t)). rewrite <- IH. f_equal. cbn [length]. rewrite Nat.sub_succ, Nat.sub_0_r, <- seq_shift, map_map. reflexivity.
Qed.
Lemma window1_adj t : window_pairs 1 t = adj t.
Proof.
  rewrite <- consecutive_adj. unfold window_pairs, consecutive. rewrite <- (seq_shift _ 0), map_map. apply map_ext.
  intros i. rewrite Nat.sub_succ, Nat.sub_0_r, Nat.add_1_r. reflexivity.
Qed.
Lemma native1 l : native 1 false l = c_of (concat (map adj l)).
Proof. unfold native. f_equal. f_equal. apply map_ext. intros t. apply window1_adj. Qed.
Lemma adj_fst t : map fst (adj t) ++ lasts t = t.
Proof.
  induction t as [|a t IH]; auto. destruct t as [|b t]; auto. cbn [adj map fst app]. f_equal. exact IH.
Qed.
Lemma adj_snd t : firsts t ++ map snd (adj t) = t.
Proof.
  induction t as [|a t IH]; auto. destruct t as [|b t]; auto. cbn [adj map snd firsts app] in *. congruence.
Qed.
Lemma total_c_sum {K} (P : K -> bool) (d : @counter K) : total P d = c_sum P d.
Proof.
  unfold total, c_sum. induction d as [|[k n] d IH]; auto. cbn [filter map fst snd]. destruct (P k); cbn [map list_sum fold_right snd]; unfold list_sum in *; cbn; lia.
Qed.
Lemma occ_map_fst a (l : list (nat * nat)) : length (filter (fun k => Nat.eqb (fst k) a) l) = occ a (map fst l).
Proof. unfold occ. rewrite filter_map_len. reflexivity. Qed.
Lemma occ_map_snd a (l : list (nat * nat)) : length (filter (fun k => Nat.eqb (snd k) a) l) = occ a (map snd l).
Proof. unfold occ. rewrite filter_map_len. reflexivity. Qed.
Lemma conserve_out l a : c_get (get_end_activities l) a + total (fun k => Nat.eqb (fst k) a) (native 1 false l) = occ a (concat l).
Proof.
  rewrite total_c_sum, native1, c_sum_of, occ_map_fst, ends_eq, c_get_of, concat_map, map_map, !occ_concat, !map_map.
  induction l as [|t l IH]; auto. cbn [map]. unfold list_sum in *. cbn [fold_right].
  rewrite <- (adj_fst t) at 3. rewrite occ_app. lia.
Qed.
Lemma conserve_in l a : c_get (get_start_activities l) a + total (fun k => Nat.eqb (snd k) a) (native 1 false l) = occ a (concat l).
Proof.
  rewrite total_c_sum, native1, c_sum_of, occ_map_snd, starts_eq, c_get_of, concat_map, map_map, !occ_concat, !map_map.
  induction l as [|t l IH]; auto. cbn [map]. unfold list_sum in *. cbn [fold_right].
  rewrite <- (adj_snd t) at 3. rewrite occ_app. lia.
Qed.
Lemma conserve_total l : total (fun _ => true) (native 1 false l) + length (filter (fun t => negb (Nat.eqb (length t) 0)) l) = length (concat l).
Proof.
  rewrite total_c_sum, native1, c_sum_of. induction l as [|t l IH]; auto. cbn [map concat filter].
  rewrite filter_app, !app_length.
  assert (L : length t = length (firsts t) + length (adj t)) by (rewrite <- (adj_snd t) at 1; rewrite app_length, map_length; auto).
  assert (E : forall m : list (nat * nat), filter (fun _ => true) m = m) by (induction m as [|? ? E]; cbn; congruence).
  rewrite E in IH. rewrite !E. destruct t as [|a t]; cbn [length Nat.eqb negb firsts] in *; [exact IH|]. cbn [length]. lia.
Qed.
Lemma occ_log_exactly l a : exactly (occ a (concat l)) (fun p => at_pos l (fst p) (snd p) a).
Proof. rewrite occ_concat. apply (exactly_log (fun t i => nth_error t i = Some a)), exactly_occ. Qed.

(** * Variants *)
Lemma fold_add_gen (l : list (nat * nat)) n (d : @counter (nat * nat)) k :
  c_get (fold_left (fun d k => c_add d k n) l d) k = c_get d k + n * occ k l.
Proof.
  revert d. induction l as [|x l IH]; intros d; cbn [fold_left]; [unfold occ; cbn; lia|]. rewrite IH, c_get_add, occ_cons.
  destruct (keqb x k); lia.
Qed.
Lemma uvcl_graph_gen (v : @counter trace) (d : @counter (nat * nat)) k :
  c_get (fold_left (fun d tn => fold_left (fun d k => c_add d k (snd tn)) (consecutive (fst tn)) d) v d) k =
  c_get d k + list_sum (map (fun tn => snd tn * occ k (adj (fst tn))) v).
Proof.
  revert d. induction v as [|[t n] v IH]; intros d; [cbn; lia|]. cbn [fold_left]. rewrite IH, fold_add_gen, consecutive_adj. cbn [map fst snd].
  unfold list_sum. cbn [fold_right]. lia.
Qed.
(** a weighted sum over the variants is the sum over the log *)
Lemma variants_sum (f : trace -> nat) (l : log) : list_sum (map (fun tn => snd tn * f (fst tn)) (get_variants l)) = list_sum (map f l).
Proof.
  unfold get_variants. induction l as [|t l IH] using rev_ind; auto. rewrite c_of_snoc, map_app, list_sum_app. cbn [map]. rewrite <- IH.
  unfold c_add. generalize (c_of_nodup l). generalize (c_of l) as d. intros d Hn.
  assert (G : forall v, c_get d t <= v -> list_sum (map (fun tn : trace * nat => snd tn * f (fst tn)) (d_set d t v)) =
     list_sum (map (fun tn : trace * nat => snd tn * f (fst tn)) d) + (v - c_get d t) * f t).
  { clear IH. induction d as [|[k n] d IH]; intros v Hv; unfold c_get in *; cbn [d_get d_set] in *.
    - cbn. lia.
    - cbn [map d_keys fst] in Hn. inversion Hn; subst. destruct (keqb_spec k t) as [->|Hk].
      + cbn [map fst snd]. unfold list_sum. cbn [fold_right]. nia.
      + cbn [map fst snd]. unfold list_sum in *. cbn [fold_right]. rewrite IH; auto. lia. }
  rewrite G by lia. cbn. replace (c_get d t + 1 - c_get d t) with 1 by lia. lia.
Qed.
Theorem uvcl_graph l k : c_get (graph (discover_dfg_uvcl (get_variants l))) k = c_get (native 1 false l) k.
Proof.
  unfold discover_dfg_uvcl. cbn [graph]. rewrite uvcl_graph_gen. cbn [c_get d_get plus]. rewrite (variants_sum (fun t => occ k (adj t))).
  rewrite native1, c_get_of, occ_concat, map_map. reflexivity.
Qed.
Lemma uvcl_se_inner a (v : @counter trace) s e k :
  let r := fold_left (fun '(s, e) '(t, n) =>
        match t with
        | [] => (s, e)
        | b :: _ =>
          (if Nat.eqb b a then c_add s a n else s,
           if Nat.eqb (nth (length t - 1) t 0) a then c_add e a n else e)
        end) v (s, e) in
  c_get (fst r) k = c_get s k + (if Nat.eqb a k then list_sum (map (fun tn => snd tn * occ a (firsts (fst tn))) v) else 0) /\
  c_get (snd r) k = c_get e k + (if Nat.eqb a k then list_sum (map (fun tn => snd tn * occ a (lasts (fst tn))) v) else 0).
Proof.
  cbn zeta. revert s e. induction v as [|[t n] v IH]; intros s e; cbn [fold_left map]; [cbn; destruct (Nat.eqb a k); lia|].
  destruct t as [|b t].
  - destruct (IH s e) as [H1 H2]. rewrite H1, H2. cbn [fst snd firsts lasts]. change (occ a []) with 0. rewrite Nat.mul_0_r. unfold list_sum. cbn [fold_right].
    destruct (Nat.eqb a k); cbn [plus]; split; lia.
  - destruct (IH (if b =? a then c_add s a n else s) (if nth (length (b :: t) - 1) (b :: t) 0 =? a then c_add e a n else e)) as [H1 H2].
    rewrite H1, H2. clear H1 H2 IH. cbn [fst snd firsts]. replace (lasts (b :: t)) with [nth (length (b :: t) - 1) (b :: t) 0] by (unfold lasts; rewrite last_nth; auto).
    generalize (nth (length (b :: t) - 1) (b :: t) 0) as z. intros z. rewrite !occ_cons. unfold list_sum. cbn [fold_right].
    change (@keqb nat key_nat) with Nat.eqb. change (occ a []) with 0.
    split.
    + destruct (b =? a); [rewrite c_get_add|]; change (@keqb nat key_nat) with Nat.eqb; destruct (a =? k); lia.
    + destruct (z =? a); [rewrite c_get_add|]; change (@keqb nat key_nat) with Nat.eqb; destruct (a =? k); lia.
Qed.
Lemma uvcl_se alph (v : @counter trace) se k :
  NoDup alph ->
  let r := fold_left (fun se a =>
     fold_left (fun '(s, e) '(t, n) =>
        match t with
        | [] => (s, e)
        | b :: _ =>
          (if Nat.eqb b a then c_add s a n else s,
           if Nat.eqb (nth (length t - 1) t 0) a then c_add e a n else e)
        end) v se) alph se in
  c_get (fst r) k = c_get (fst se) k + (if existsb (Nat.eqb k) alph then list_sum (map (fun tn => snd tn * occ k (firsts (fst tn))) v) else 0) /\
  c_get (snd r) k = c_get (snd se) k + (if existsb (Nat.eqb k) alph then list_sum (map (fun tn => snd tn * occ k (lasts (fst tn))) v) else 0).
Proof.
  cbn zeta. revert se. induction alph as [|a alph IH]; intros [s e] Hn; [cbn; lia|]. inversion Hn as [|? ? Ha Hn']; subst. cbn [fold_left].
  match goal with |- context [fold_left ?F alph ?x] => set (r0 := x) end. destruct (IH r0 Hn') as [H1 H2]. rewrite H1, H2.
  destruct (uvcl_se_inner a v s e k) as [G1 G2]. fold r0 in G1, G2. rewrite G1, G2. cbn [existsb fst snd].
  rewrite (Nat.eqb_sym k a). destruct (Nat.eqb_spec a k) as [->|Hk]; cbn [orb]; [|lia].
  replace (existsb (Nat.eqb k) alph) with false; [lia|].
  symmetry. apply not_true_is_false. rewrite existsb_exists. intros (x & Hx & E). apply Nat.eqb_eq in E. subst. auto.
Qed.
Lemma c_of_keys_nat l (k : trace) : In k (d_keys (c_of l)) <-> In k l. Proof. apply c_of_keys. Qed.
Lemma list_sum_zero {A} (f : A -> nat) l : (forall x, In x l -> f x = 0) -> list_sum (map f l) = 0.
Proof. intros H. induction l as [|x l IH]; auto. cbn [map]. unfold list_sum in *. cbn [fold_right]. rewrite H, IH; cbn; auto. intros; apply H; cbn; auto. Qed.
Theorem uvcl_start_end l k :
  c_get (start_acts (discover_dfg_uvcl (get_variants l))) k = c_get (get_start_activities l) k /\
  c_get (end_acts (discover_dfg_uvcl (get_variants l))) k = c_get (get_end_activities l) k.
Proof.
  unfold discover_dfg_uvcl. cbn [start_acts end_acts].
  destruct (uvcl_se (get_alphabet (d_keys (get_variants l))) (get_variants l) ([], []) k (dedup_nodup _)) as [H1 H2].
  rewrite H1, H2. cbn [fst snd c_get d_get plus]. clear H1 H2.
  rewrite (variants_sum (fun t => occ k (firsts t))), (variants_sum (fun t => occ k (lasts t))).
  rewrite starts_eq, ends_eq, !c_get_of, !occ_concat, !map_map.
  destruct (existsb _ _) eqn:E; auto.
  assert (Hk : forall t, In t l -> ~ In k t).
  { intros t Ht Hk. apply not_true_iff_false in E. apply E. apply existsb_exists. exists k. split; [|apply Nat.eqb_refl].
    unfold get_alphabet. apply dedup_in. apply in_concat. exists t. split; auto. apply c_of_keys. auto. }
  assert (Z : forall (t : trace) m, ~ In k t -> incl m t -> occ k m = 0).
  { intros t m Hn Hi. destruct (occ k m) eqn:Em; auto. exfalso. apply Hn, Hi, occ_pos. lia. }
  split; symmetry; apply list_sum_zero; intros t Ht; apply (Z t); auto.
  - intros x Hx. rewrite <- (adj_snd t). apply in_app_iff. auto.
  - intros x Hx. rewrite <- (adj_fst t). apply in_app_iff. auto.
Qed.
Theorem discover_dfg_eq l : graph (discover_dfg l) = native 1 false l /\ start_acts (discover_dfg l) = get_start_activities l /\
  end_acts (discover_dfg l) = get_end_activities l.
Proof.
  unfold discover_dfg. cbn [graph start_acts end_acts]. rewrite starts_eq, ends_eq, native1. repeat split.
  - unfold c_of. f_equal. f_equal. apply map_ext. intros t. apply consecutive_adj.
  - f_equal. f_equal. apply map_ext. intros [|a t]; auto. unfold lasts. rewrite last_nth. auto.
Qed.

(** * The live DFG *)
Definition step_ca (s : state) (ca : nat * nat) : state := process s (Event (Some (fst ca)) (Some (snd ca))).
Lemma live_cases evs s : fold_left process evs s = fold_left step_ca (cases_acts evs) s.
Proof.
  revert s. induction evs as [|[[c|] [a|]] evs IH]; intros s; cbn [fold_left cases_acts]; auto.
Qed.
Definition tr (cas : list (nat * nat)) (c : nat) : trace := map snd (filter (fun ca => Nat.eqb (fst ca) c) cas).
Definition grp (cas : list (nat * nat)) : log := map (tr cas) (nodup Nat.eq_dec (map fst cas)).
Lemma tr_snoc cas c a c' : tr (cas ++ [(c, a)]) c' = tr cas c' ++ if Nat.eqb c c' then [a] else [].
Proof. unfold tr. rewrite filter_app, map_app. cbn. destruct (Nat.eqb c c'); auto. Qed.
Lemma tr_nil cas c : tr cas c = [] <-> ~ In c (map fst cas).
Proof.
  unfold tr. split.
  - intros H Hin. apply in_map_iff in Hin as ([c' a] & <- & Hin). apply map_eq_nil in H.
    assert (In (c', a) []) by (rewrite <- H; apply filter_In; split; auto; cbn; apply Nat.eqb_refl). auto.
  - intros H. induction cas as [|[c' a] cas IH]; auto. cbn in *. destruct (Nat.eqb_spec c' c) as [->|]; [tauto|]. apply IH. tauto.
Qed.
Lemma sum_perm (f : trace -> nat) l l' : Permutation l l' -> list_sum (map f l) = list_sum (map f l').
Proof. intros H. induction H; unfold list_sum in *; cbn [map fold_right]; try lia. Qed.
Lemma sum_update (f : nat -> nat) (g : nat -> nat) c l : NoDup l -> In c l -> (forall x, x <> c -> f x = g x) ->
  list_sum (map f l) + g c = list_sum (map g l) + f c.
Proof.
  intros Hn Hin Hfg. induction l as [|x l IH]; [destruct Hin|]. inversion Hn as [|? ? Hx Hn']; subst.
  cbn [map]. unfold list_sum in *. cbn [fold_right]. destruct (Nat.eq_dec x c) as [->|Hxc].
  - assert (E : map f l = map g l) by (apply map_ext_in; intros y Hy; apply Hfg; intros ->; auto). rewrite E. lia.
  - destruct Hin as [?|Hin]; [congruence|]. specialize (IH Hn' Hin). rewrite (Hfg x Hxc). lia.
Qed.
Lemma grp_snoc (f : trace -> nat) cas c a : f [] = 0 ->
  list_sum (map f (grp (cas ++ [(c, a)]))) + f (tr cas c) = list_sum (map f (grp cas)) + f (tr cas c ++ [a]).
Proof.
  intros F0. unfold grp. rewrite !map_map, map_app. cbn [map fst].
  set (l' := nodup Nat.eq_dec (map fst cas ++ [c])). set (l := nodup Nat.eq_dec (map fst cas)).
  assert (Hn' : NoDup l') by apply NoDup_nodup. assert (Hn : NoDup l) by apply NoDup_nodup.
  assert (Hl' : forall x, In x l' <-> In x (map fst cas) \/ x = c).
  { intros x. unfold l'. rewrite nodup_In, in_app_iff. cbn. intuition. }
  assert (Hl : forall x, In x l <-> In x (map fst cas)) by (intros x; apply nodup_In).
  assert (E1 := sum_update (fun x => f (tr (cas ++ [(c, a)]) x)) (fun x => f (tr cas x)) c l' Hn').
  cbn beta in E1. rewrite tr_snoc, Nat.eqb_refl in E1.
  rewrite E1; [|apply Hl'; auto|intros x Hx; rewrite tr_snoc; destruct (Nat.eqb_spec c x); [congruence|]; rewrite app_nil_r; auto].
  f_equal. clear E1. destruct (in_dec Nat.eq_dec c (map fst cas)) as [Hc|Hc].
  - assert (P : Permutation l' l) by (apply NoDup_Permutation; auto; intros x; rewrite Hl', Hl; split; [intros [?| ->]; auto|auto]).
    rewrite <- (map_map (tr cas) f l'), <- (map_map (tr cas) f l). apply sum_perm. apply Permutation_map. auto.
  - assert (P : Permutation l' (c :: l)).
    { apply NoDup_Permutation; auto; [constructor; auto; rewrite Hl; auto|]. intros x. rewrite Hl'. cbn. rewrite Hl. intuition. }
    rewrite <- (map_map (tr cas) f l'), <- (map_map (tr cas) f l). rewrite (sum_perm f _ _ (Permutation_map _ P)).
    cbn [map]. apply tr_nil in Hc. rewrite Hc, F0. reflexivity.
Qed.
Definition is_counter {K} {EK : Key K} (d : @counter K) (g : K -> nat) : Prop := forall k, d_get d k = if Nat.eqb (g k) 0 then None else Some (g k).
Lemma is_counter_of {K} {EK : Key K} (l : list K) : is_counter (c_of l) (fun k => occ k l).
Proof. intros k. apply d_get_c_of. Qed.
Lemma is_counter_incr {K} {EK : Key K} (d : @counter K) g g' k : is_counter d g ->
  (forall k', g' k' = g k' + if keqb k k' then 1 else 0) -> is_counter (incr d k) g'.
Proof.
  intros H Hg k'. unfold incr. rewrite (H k), Hg. assert (H' := H k').
  destruct (Nat.eqb_spec (g k) 0) as [E|E]; rewrite d_get_set; destruct (keqb_spec k k') as [->|Hk].
  - rewrite E. auto.
  - rewrite Nat.add_0_r. auto.
  - replace (g k' + 1 =? 0) with false by (symmetry; apply Nat.eqb_neq; lia). auto.
  - rewrite Nat.add_0_r. auto.
Qed.
Lemma is_counter_ext {K} {EK : Key K} (d : @counter K) g g' : is_counter d g -> (forall k, g k = g' k) -> is_counter d g'.
Proof. intros H E k. rewrite H, E. auto. Qed.
Lemma adj_snoc t a : adj (t ++ [a]) = adj t ++ match t with [] => [] | _ => [(last t 0, a)] end.
Proof.
  induction t as [|x t IH]; auto. destruct t as [|y t]; auto. cbn [app adj] in *. rewrite IH. reflexivity.
Qed.
Lemma firsts_snoc t a : firsts (t ++ [a]) = match t with [] => [a] | _ => firsts t end.
Proof. destruct t; auto. Qed.
Record inv (cas : list (nat * nat)) (s : state) : Prop := {
  inv_case : forall c, d_get (case_dict s) c = match tr cas c with [] => None | _ => Some (last (tr cas c) 0) end;
  inv_nodup : NoDup (d_keys (case_dict s));
  inv_dfg : is_counter (s_dfg s) (fun k => list_sum (map (fun t => occ k (adj t)) (grp cas)));
  inv_acts : is_counter (s_acts s) (fun k => list_sum (map (fun t : trace => occ k t) (grp cas)));
  inv_start : is_counter (s_start s) (fun k => list_sum (map (fun t => occ k (firsts t)) (grp cas))) }.
Lemma inv_run cas : inv cas (fold_left step_ca cas init).
Proof.
  induction cas as [|[c a] cas IH] using rev_ind.
  - constructor; cbn; intros; auto; [constructor|intros ?; reflexivity..].
  - rewrite fold_left_app. cbn [fold_left]. set (s := fold_left step_ca cas init) in *. destruct IH as [I1 I2 I3 I4 I5].
    unfold step_ca, process. cbn [e_case e_act fst snd]. assert (Ic := I1 c).
    assert (S3 := fun k => grp_snoc (fun t => occ k (adj t)) cas c a eq_refl).
    assert (S4 := fun k => grp_snoc (fun t : trace => occ k t) cas c a eq_refl).
    assert (S5 := fun k => grp_snoc (fun t => occ k (firsts t)) cas c a eq_refl). cbn beta in *.
    assert (A4 : is_counter (incr (s_acts s) a) (fun k => list_sum (map (fun t : trace => occ k t) (grp (cas ++ [(c, a)]))))).
    { eapply is_counter_incr; [apply I4|]. intros k'. cbn beta. specialize (S4 k'). rewrite occ_app, occ_cons in S4. change (occ k' []) with 0 in S4. lia. }
    assert (A1 : forall c', d_get (d_set (case_dict s) c a) c' = match tr (cas ++ [(c, a)]) c' with [] => None | _ => Some (last (tr (cas ++ [(c, a)]) c') 0) end).
    { intros c'. rewrite d_get_set, tr_snoc. change (@keqb nat key_nat c c') with (Nat.eqb c c'). destruct (Nat.eqb_spec c c') as [->|Hc].
      - rewrite last_last. destruct (tr cas c'); auto.
      - rewrite app_nil_r. apply I1. }
    destruct (tr cas c) as [|x t] eqn:Et; rewrite Ic.
    + constructor; cbn [case_dict s_dfg s_acts s_start]; auto; [apply d_nodup_set; auto| |].
      * eapply is_counter_ext; [apply I3|]. intros k. specialize (S3 k). cbn in S3. cbn beta. lia.
      * eapply is_counter_incr; [apply I5|]. intros k. cbn beta. specialize (S5 k). cbn [app firsts] in S5. rewrite occ_cons in S5.
        change (occ k []) with 0 in S5. lia.
    + constructor; cbn [case_dict s_dfg s_acts s_start]; auto; [apply d_nodup_set; auto| |].
      * eapply is_counter_incr; [apply I3|]. intros k. cbn beta. specialize (S3 k). rewrite adj_snoc, occ_app, occ_cons in S3.
        change (occ k []) with 0 in S3. lia.
      * eapply is_counter_ext; [apply I5|]. intros k. cbn beta. specialize (S5 k). rewrite firsts_snoc in S5. lia.
Qed.
Lemma case_trace_tr evs c : case_trace evs c = tr (cases_acts evs) c. Proof. reflexivity. Qed.
Lemma grouped_grp evs : grouped evs = grp (cases_acts evs). Proof. reflexivity. Qed.
Lemma is_counter_same {K} {EK : Key K} (d d' : @counter K) g : is_counter d g -> is_counter d' g -> same_dict d d'.
Proof. intros H1 H2 k. rewrite H1, H2. auto. Qed.
Lemma values_keys {K V} {EK : Key K} (d : dict K V) (dv : V) (f : K -> V) : NoDup (d_keys d) -> (forall k, In k (d_keys d) -> d_get d k = Some (f k)) ->
  d_values d = map f (d_keys d).
Proof.
  induction d as [|[k v] d IH]; cbn; auto. intros Hn H. inversion Hn as [|? ? H1 H2]; subst. f_equal.
  - specialize (H k (or_introl eq_refl)). rewrite keqb_refl in H. congruence.
  - apply IH; auto. intros k' Hk'. specialize (H k' (or_intror Hk')). rewrite keqb_neq in H; auto. intros ->. auto.
Qed.
Theorem live_batch evs :
  let '(dfg, acts, starts, ends) := live evs in
  same_dict dfg (native 1 false (grouped evs)) /\
  same_dict acts (c_of (concat (grouped evs))) /\
  same_dict starts (get_start_activities (grouped evs)) /\
  same_dict ends (get_end_activities (grouped evs)).
Proof.
  unfold live, current_result. rewrite live_cases, grouped_grp. set (cas := cases_acts evs).
  destruct (inv_run cas) as [I1 I2 I3 I4 I5]. set (s := fold_left step_ca cas init) in *. split; [|split; [|split]].
  - eapply is_counter_same; [apply I3|]. rewrite native1. eapply is_counter_ext; [apply is_counter_of|]. intros k. cbn beta. rewrite occ_concat, map_map. auto.
  - eapply is_counter_same; [apply I4|]. eapply is_counter_ext; [apply is_counter_of|]. intros k. cbn beta. rewrite occ_concat. auto.
  - eapply is_counter_same; [apply I5|]. rewrite starts_eq. eapply is_counter_ext; [apply is_counter_of|]. intros k. cbn beta. rewrite occ_concat, map_map. auto.
  - rewrite ends_eq. eapply is_counter_same; [apply is_counter_of|]. eapply is_counter_ext; [apply is_counter_of|]. intros a. cbn beta.
    assert (Hk : forall c, In c (d_keys (case_dict s)) <-> In c (map fst cas)).
    { intros c. rewrite <- d_get_keys, I1. destruct (tr cas c) as [|x t] eqn:E.
      - split; [congruence|]. intros H. apply tr_nil in E. tauto.
      - split; [|congruence]. intros _. destruct (in_dec Nat.eq_dec c (map fst cas)) as [|H]; auto. apply tr_nil in H. congruence. }
    rewrite (values_keys _ 0 (fun c => last (tr cas c) 0)); auto.
    2:{ intros c Hc. apply Hk in Hc. rewrite I1. destruct (tr cas c) eqn:E; auto. apply tr_nil in E. tauto. }
    unfold grp. rewrite map_map.
    assert (P : Permutation (d_keys (case_dict s)) (nodup Nat.eq_dec (map fst cas))).
    { apply NoDup_Permutation; auto; [apply NoDup_nodup|]. intros c. rewrite Hk, nodup_In. tauto. }
    assert (Q : concat (map (fun x => lasts (tr cas x)) (nodup Nat.eq_dec (map fst cas))) = map (fun c => last (tr cas c) 0) (nodup Nat.eq_dec (map fst cas))).
    { assert (G : forall l, incl l (map fst cas) -> concat (map (fun x => lasts (tr cas x)) l) = map (fun c => last (tr cas c) 0) l).
      { induction l as [|c l IH]; intros Hi; auto. cbn [map concat]. rewrite IH by (intros y Hy; apply Hi; cbn; auto).
        destruct (tr cas c) eqn:E; auto. apply tr_nil in E. exfalso. apply E, Hi. cbn. auto. }
      apply G. intros c. apply nodup_In. }
    rewrite Q. unfold occ. apply Permutation_length.
    assert (PF : forall l l', Permutation l l' -> Permutation (filter (fun x => Nat.eqb x a) l) (filter (fun x => Nat.eqb x a) l')).
    { induction 1 as [|x l l' H IH|x y l|l1 l2 l3 H1 IH1 H2 IH2]; cbn.
      - auto.
      - destruct (x =? a); auto.
      - destruct (x =? a), (y =? a); auto. apply perm_swap.
      - eapply perm_trans; [exact IH1|exact IH2]. }
    apply PF. apply Permutation_map. apply Permutation_sym. auto.
Qed.

(** * Minimum self distance *)
Lemma adj_filter_seq p n s i j :
  In (i, j) (adj (filter p (seq s n))) <-> s <= i < j /\ j < s + n /\ p i = true /\ p j = true /\ forall k, i < k < j -> p k = false.
Proof.
  revert s i j. induction n as [|n IH]; intros s i j; cbn [seq filter]; [cbn; lia|].
  assert (first : forall m b, firsts (filter p (seq b m)) = [] \/ exists j, firsts (filter p (seq b m)) = [j] /\ b <= j < b + m /\ p j = true /\ forall k, b <= k < j -> p k = false).
  { clear. induction m as [|m IH]; intros b; cbn [seq filter]; auto. destruct (p b) eqn:E.
    - right. exists b. repeat split; auto; try lia. 
    - destruct (IH (S b)) as [H|(j & H1 & H2 & H3 & H4)]; auto. right. exists j. repeat split; auto; try lia.
      intros k Hk. destruct (Nat.eq_dec k b) as [->|]; auto. apply H4. lia. }
  assert (nofirst : forall m b, firsts (filter p (seq b m)) = [] -> forall k, b <= k < b + m -> p k = false).
  { clear. induction m as [|m IH]; intros b H k Hk; cbn [seq filter] in *; [lia|]. destruct (p b) eqn:E; [discriminate|].
    destruct (Nat.eq_dec k b) as [->|]; auto. apply (IH (S b)); auto. lia. }
  destruct (p s) eqn:Es.
  - specialize (first n (S s)). specialize (nofirst n (S s)). assert (IH' := IH (S s) i j). destruct (filter p (seq (S s) n)) as [|y r] eqn:Er.
    + cbn. split; [intros []|]. intros (H1 & H2 & H3 & H4 & H5). specialize (nofirst eq_refl j ltac:(lia)). congruence.
    + destruct first as [F|(j0 & F1 & F2 & F3 & F4)]; [discriminate|]. cbn in F1. injection F1 as ->.
      change (adj (s :: j0 :: r)) with ((s, j0) :: adj (j0 :: r)). cbn [In]. rewrite IH'. split.
      * intros [E|(H1 & H2 & H3 & H4 & H5)].
        -- injection E as <- <-. split; [lia|]. split; [lia|]. split; auto.
        -- repeat split; auto; lia.
      * intros (H1 & H2 & H3 & H4 & H5). destruct (Nat.eq_dec i s) as [->|Hi].
        -- left. f_equal. destruct (Nat.lt_trichotomy j0 j) as [L|[L|L]]; auto.
           ++ rewrite (H5 j0) in F3 by lia. discriminate.
           ++ rewrite (F4 j) in H4 by lia. discriminate.
        -- right. repeat split; auto; lia.
  - rewrite IH. split.
    + intros (H1 & H2 & H3 & H4 & H5). repeat split; auto; lia.
    + intros (H1 & H2 & H3 & H4 & H5). destruct (Nat.eq_dec i s) as [->|]; [congruence|]. repeat split; auto; lia.
Qed.
Lemma gaps_adj t : gaps t = map (fun p => snd p - fst p - 1) (adj t).
Proof. rewrite <- window1_adj. unfold window_pairs, gaps. rewrite map_map. apply map_ext. auto. Qed.
Lemma adj_indices a t i j : In (i, j) (adj (indices a t)) <-> next_occurrence t a i j.
Proof.
  unfold indices. rewrite adj_filter_seq. unfold next_occurrence. split.
  - intros (H1 & H2 & H3 & H4 & H5). apply Nat.eqb_eq in H3, H4. split; [lia|]. split; [apply nth_nth_error; auto; lia|].
    split; [apply nth_nth_error; auto; lia|]. intros k Hk E. assert (k < length t) by (apply nth_error_Some; congruence).
    apply nth_nth_error in E; auto. specialize (H5 k Hk). apply Nat.eqb_neq in H5. auto.
  - intros (H1 & H2 & H3 & H4). assert (j < length t) by (apply nth_error_Some; congruence).
    assert (i < length t) by lia. apply nth_nth_error in H2, H3; auto. repeat split; auto; try lia; try (apply Nat.eqb_eq; auto).
    intros k Hk. apply Nat.eqb_neq. intros E. apply (H4 k Hk). apply nth_nth_error; auto. lia.
Qed.
Lemma adj_nil t : adj t = [] <-> length t <= 1.
Proof. destruct t as [|a [|b t]]; cbn; split; intros; auto; try lia; discriminate. Qed.
Lemma in_gaps l a g : In g (concat (map gaps (filter (fun t => Nat.ltb 1 (length t)) (map (indices a) l)))) <->
  exists t i j, In t l /\ next_occurrence t a i j /\ g = j - i - 1.
Proof.
  rewrite in_concat. split.
  - intros (x & Hx & Hg). apply in_map_iff in Hx as (ix & <- & Hix). apply filter_In in Hix as [Hix _].
    apply in_map_iff in Hix as (t & <- & Ht). rewrite gaps_adj in Hg. apply in_map_iff in Hg as ([i j] & <- & Hij).
    exists t, i, j. split; auto. split; auto. apply adj_indices; auto.
  - intros (t & i & j & Ht & Hn & ->). exists (gaps (indices a t)). split.
    + apply in_map. apply filter_In. split; [apply in_map; auto|]. apply Nat.ltb_lt.
      apply adj_indices in Hn. destruct (adj (indices a t)) eqn:E; [destruct Hn|].
      destruct (le_lt_dec (length (indices a t)) 1) as [L|L]; auto. apply adj_nil in L. congruence.
    + rewrite gaps_adj. apply in_map_iff. exists (i, j). split; auto. apply adj_indices; auto.
Qed.
Lemma min_list_spec l m : min_list l = Some m <-> In m l /\ forall x, In x l -> m <= x.
Proof.
  revert m. induction l as [|x l IH]; intros m; cbn; [split; [discriminate|tauto]|].
  destruct (min_list l) as [k|] eqn:E.
  - destruct (proj1 (IH k) eq_refl) as [H1 H2]. split.
    + intros [= <-]. destruct (Nat.min_spec x k) as [[? ->]|[? ->]]; split; auto; intros y [<-|Hy]; try lia; specialize (H2 y Hy); lia.
    + intros [Hm Hle]. f_equal. assert (A := Hle x (or_introl eq_refl)). assert (B := Hle k (or_intror H1)).
      destruct Hm as [<-|Hm]; [lia|]. specialize (H2 m Hm). lia.
  - destruct l as [|y l]; [|cbn in E; destruct (min_list l); discriminate]. split.
    + intros [= <-]. split; auto. intros y [<-|[]]. auto.
    + intros [[<-|[]] _]. auto.
Qed.
Lemma min_list_none l : min_list l = None <-> l = [].
Proof. destruct l; cbn; split; auto; try discriminate. destruct (min_list l); discriminate. Qed.
Lemma fold_dict {V} (f : nat -> option V) alph (d : dict nat V) a : NoDup alph ->
  d_get (fold_left (fun d a => match f a with Some m => d_set d a m | None => d end) alph d) a =
  if existsb (Nat.eqb a) alph then match f a with Some m => Some m | None => d_get d a end else d_get d a.
Proof.
  revert d. induction alph as [|b alph IH]; intros d Hn; cbn [fold_left existsb]; auto. inversion Hn as [|? ? Hb Hn']; subst.
  rewrite (IH _ Hn'). destruct (Nat.eqb_spec a b) as [->|Hab]; cbn [orb].
  - replace (existsb (Nat.eqb b) alph) with false by (symmetry; apply not_true_is_false; rewrite existsb_exists; intros (x & Hx & E); apply Nat.eqb_eq in E; subst; auto).
    destruct (f b); auto. apply d_get_set_same.
  - destruct (f b); auto. rewrite d_get_set_other; auto.
Qed.
Lemma next_in t a i j : next_occurrence t a i j -> In a t.
Proof. intros (_ & H & _). eapply nth_error_In; eauto. Qed.
Lemma alphabet_in l a : existsb (Nat.eqb a) (get_alphabet l) = true <-> exists t, In t l /\ In a t.
Proof.
  unfold get_alphabet. rewrite existsb_exists. split.
  - intros (x & Hx & E). apply Nat.eqb_eq in E. subst. pose proof (proj1 (dedup_in _ _) Hx) as Hx'. apply in_concat in Hx'. auto.
  - intros H. exists a. split; [apply dedup_in, in_concat; auto|apply Nat.eqb_refl].
Qed.
Lemma occ_indices a t : length (filter (fun e => Nat.eqb e a) t) = length (indices a t).
Proof.
  unfold indices. rewrite <- (filter_map_len (fun i => nth i t 0) (fun x => Nat.eqb x a)). f_equal. f_equal.
  clear. induction t as [|x t IH]; auto. cbn [length seq map]. f_equal. rewrite <- seq_shift, map_map. exact IH.
Qed.
Lemma fold_left_ext {A B} (f g : A -> B -> A) l x : (forall x y, f x y = g x y) -> fold_left f l x = fold_left g l x.
Proof. intros H. revert x. induction l as [|y l IH]; intros x; cbn; auto. rewrite H. auto. Qed.
Lemma msd_eq l : msd l = fold_left (fun d a => match min_list (concat (map gaps (filter (fun t => Nat.ltb 1 (length t)) (map (indices a) l)))) with Some m => d_set d a m | None => d end) (get_alphabet l) [].
Proof.
  unfold msd. apply fold_left_ext. intros d a.
  destruct (Nat.ltb_spec 0 (length (filter (fun t => Nat.ltb 1 (length t)) (map (fun t => filter (fun e => Nat.eqb e a) t) l)))) as [H|H]; auto.
  replace (filter (fun t => 1 <? length t) (map (indices a) l)) with (@nil (list nat)); auto.
  symmetry. rewrite filter_map_len in H. induction l as [|t l IH]; cbn [map filter] in *; auto. rewrite <- occ_indices.
  destruct (1 <? length (filter (fun e => e =? a) t)); [cbn in H; lia|]. apply IH. auto.
Qed.
Theorem msd_spec l a m : d_get (msd l) a = Some m <->
  (exists t i j, In t l /\ next_occurrence t a i j /\ m = j - i - 1) /\
  (forall t i j, In t l -> next_occurrence t a i j -> m <= j - i - 1).
Proof.
  rewrite msd_eq, (fold_dict (fun a => min_list (concat (map gaps (filter (fun t => Nat.ltb 1 (length t)) (map (indices a) l)))))) by apply dedup_nodup.
  assert (E : (if existsb (Nat.eqb a) (get_alphabet l) then match min_list (concat (map gaps (filter (fun t => 1 <? length t) (map (indices a) l)))) with Some m => Some m | None => d_get [] a end else d_get [] a) =
     min_list (concat (map gaps (filter (fun t => 1 <? length t) (map (indices a) l))))).
  { destruct (existsb _ _) eqn:E.
    - destruct (min_list _); auto.
    - symmetry. apply min_list_none. destruct (concat _) as [|g r] eqn:G; auto. exfalso.
      assert (Hg : In g (concat (map gaps (filter (fun t => 1 <? length t) (map (indices a) l))))) by (rewrite G; cbn; auto).
      apply in_gaps in Hg as (t & i & j & Ht & Hn & _). apply not_true_iff_false in E. apply E, alphabet_in. exists t. split; auto. eapply next_in; eauto. }
  rewrite E, min_list_spec. rewrite in_gaps. split; intros [H1 H2]; split; auto.
  - intros t i j Ht Hn. apply H2. apply in_gaps. exists t, i, j. auto.
  - intros x Hx. apply in_gaps in Hx as (t & i & j & Ht & Hn & ->). eauto.
Qed.
Lemma nth_adj_seq (ix : list nat) (f : nat -> nat -> list nat) :
  map (fun i => f (nth i ix 0) (nth (i + 1) ix 0)) (seq 0 (length ix - 1)) = map (fun p => f (fst p) (snd p)) (adj ix).
Proof. rewrite <- consecutive_adj. unfold consecutive. rewrite map_map. apply map_ext. auto. Qed.
Lemma nth_error_firstn' (u : list nat) m n : n < m -> nth_error (firstn m u) n = nth_error u n.
Proof. revert m n. induction u as [|x u IH]; intros [|m] [|n] H; cbn; auto; try lia. apply IH. lia. Qed.
Lemma nth_error_skipn' (u : list nat) i n : nth_error (skipn i u) n = nth_error u (i + n).
Proof. revert u. induction i as [|i IH]; intros [|x u]; cbn; auto. destruct n; auto. Qed.
Lemma in_slice t i j b : In b (slice t i j) <-> exists k, i <= k < j /\ nth_error t k = Some b.
Proof.
  unfold slice. split.
  - intros H. apply In_nth_error in H as (n & H). assert (n < j - i). { assert (n < length (firstn (j - i) (skipn i t))) by (apply nth_error_Some; congruence). rewrite firstn_length in *. lia. }
    exists (i + n). split; [lia|]. rewrite nth_error_firstn', nth_error_skipn' in H; auto.
  - intros (k & Hk & E). apply nth_error_In with (n := k - i). rewrite nth_error_firstn' by lia. rewrite nth_error_skipn'. replace (i + (k - i)) with k by lia. auto.
Qed.
Lemma witnesses_get l d a : d_get (msd_witnesses l d) a =
  if existsb (Nat.eqb a) (get_alphabet l) then
    match d_get d a with Some m => if Nat.ltb 0 m then
      Some (concat (map (fun t =>
          if Nat.ltb 1 (length (filter (fun e => Nat.eqb e a) t)) then
            let ix := indices a t in
            concat (map (fun i => if Nat.eqb (nth (i + 1) ix 0 - nth i ix 0 - 1) m then slice t (nth i ix 0 + 1) (nth (i + 1) ix 0) else [])
                        (seq 0 (length ix - 1)))
          else []) l)) else None | None => None end
  else None.
Proof.
  set (F := fun a => match d_get d a with Some m => if Nat.ltb 0 m then
      Some (concat (map (fun t =>
          if Nat.ltb 1 (length (filter (fun e => Nat.eqb e a) t)) then
            let ix := indices a t in
            concat (map (fun i => if Nat.eqb (nth (i + 1) ix 0 - nth i ix 0 - 1) m then slice t (nth i ix 0 + 1) (nth (i + 1) ix 0) else [])
                        (seq 0 (length ix - 1)))
          else []) l)) else None | None => None end).
  transitivity (d_get (fold_left (fun d a => match F a with Some m => d_set d a m | None => d end) (get_alphabet l) []) a).
  - unfold msd_witnesses. f_equal. apply fold_left_ext. intros x y. unfold F. destruct (d_get d y) as [m|]; auto. destruct (0 <? m); auto.
  - rewrite (fold_dict F) by apply dedup_nodup. destruct (existsb (Nat.eqb a) (get_alphabet l)); [|reflexivity]. transitivity (F a); [destruct (F a); reflexivity|]. unfold F. reflexivity.
Qed.
Theorem witnesses_spec l a ws : d_get (msd_witnesses l (msd l)) a = Some ws ->
  exists m, d_get (msd l) a = Some m /\ 0 < m /\ forall b, In b ws <->
    exists t i j k, In t l /\ next_occurrence t a i j /\ j - i - 1 = m /\ i < k < j /\ nth_error t k = Some b.
Proof.
  rewrite witnesses_get. destruct (existsb _ _); [|discriminate]. destruct (d_get (msd l) a) as [m|] eqn:Em; [|discriminate].
  destruct (Nat.ltb_spec 0 m) as [Hm|]; [|discriminate]. intros [= <-]. exists m. split; auto. split; auto. intros b.
  rewrite in_concat. split.
  - intros (x & Hx & Hb). apply in_map_iff in Hx as (t & <- & Ht). destruct (1 <? _); [|destruct Hb]. cbn zeta in Hb.
    rewrite (nth_adj_seq (indices a t) (fun x y => if y - x - 1 =? m then slice t (x + 1) y else [])) in Hb.
    apply in_concat in Hb as (y & Hy & Hb). apply in_map_iff in Hy as ([i j] & <- & Hij). cbn [fst snd] in Hb.
    destruct (Nat.eqb_spec (j - i - 1) m) as [E|]; [|destruct Hb]. apply in_slice in Hb as (k & Hk & Ek).
    exists t, i, j, k. split; auto. split; [apply adj_indices; auto|]. split; auto. split; [lia|auto].
  - intros (t & i & j & k & Ht & Hn & E & Hk & Ek).
    eexists. split; [apply in_map; exact Ht|]. cbn beta. apply adj_indices in Hn.
    replace (1 <? length (filter (fun e => e =? a) t)) with true.
    2:{ symmetry. apply Nat.ltb_lt. rewrite occ_indices. destruct (le_lt_dec (length (indices a t)) 1) as [L|L]; auto. apply adj_nil in L. rewrite L in Hn. destruct Hn. }
    cbn zeta. rewrite (nth_adj_seq (indices a t) (fun x y => if y - x - 1 =? m then slice t (x + 1) y else [])).
    apply in_concat. eexists. split; [apply in_map; exact Hn|]. cbn [fst snd]. rewrite E, Nat.eqb_refl. apply in_slice. exists k. split; [lia|auto].
Qed.
Theorem witnesses_dom l a m : d_get (msd l) a = Some m -> 0 < m -> exists ws, d_get (msd_witnesses l (msd l)) a = Some ws.
Proof.
  intros Hm Hp. rewrite witnesses_get, Hm. apply Nat.ltb_lt in Hp. rewrite Hp.
  replace (existsb (Nat.eqb a) (get_alphabet l)) with true; [eauto|]. symmetry. apply alphabet_in.
  apply msd_spec in Hm as [(t & i & j & Ht & Hn & _) _]. exists t. split; auto. eapply next_in; eauto.
Qed.

(** * Once per case *)
Lemma nodup_occ {A} {K : Key A} (k : A) l : NoDup l -> occ k l <= 1.
Proof.
  induction 1 as [|x l Hx Hn IH]; [unfold occ; cbn; lia|]. rewrite occ_cons. destruct (keqb_spec x k) as [->|]; [|lia].
  destruct (occ k l) eqn:E; [lia|]. exfalso. apply Hx, occ_pos. lia.
Qed.
Theorem native_once w l a b :
  exactly (c_get (native w true l) (a, b)) (fun j => exists i, at_pos l j i a /\ at_pos l j (i + w) b).
Proof.
  unfold native. rewrite c_get_of, occ_concat, map_map. induction l as [|t l IH].
  - apply exactly_0. intros j (i & (t & E & _) & _). destruct j; discriminate.
  - destruct IH as (k & H1 & H2 & H3). cbn [map]. unfold list_sum in *. cbn [fold_right].
    assert (Hp : In (a, b) (dedup (window_pairs w t)) <-> exists i, nth_error t i = Some a /\ nth_error t (i + w) = Some b).
    { rewrite dedup_in, <- occ_pos. destruct (exactly_pairs w a b t) as (m & G1 & G2 & G3). rewrite <- G2. split.
      - intros Hl. destruct m as [|i m]; [cbn in Hl; lia|]. exists i. apply G3. cbn. auto.
      - intros (i & Hi). apply G3 in Hi. destruct m; [destruct Hi|cbn; lia]. }
    assert (L := nodup_occ (a, b) _ (dedup_nodup (window_pairs w t))). rewrite <- occ_pos in Hp.
    destruct (occ (a, b) (dedup (window_pairs w t))) as [|n] eqn:E.
    + exists (map S k). split; [apply NoDup_map_inj; auto; intros; congruence|]. split; [rewrite map_length; auto|].
      intros j. rewrite in_map_iff. split.
      * intros (j' & <- & Hj). apply H3 in Hj. exact Hj.
      * intros (i & (u & E1 & E2) & (u' & E1' & E2')). rewrite E1 in E1'. injection E1' as <-. destruct j as [|j]; cbn in E1.
        -- injection E1 as ->. exfalso. assert (1 <= 0) by (apply Hp; eauto). lia.
        -- exists j. split; auto. apply H3. exists i. split; exists u; auto.
    + assert (n = 0) by lia. subst n. exists (0 :: map S k). split; [|split].
      * constructor; [rewrite in_map_iff; intros (x & ? & _); discriminate|]. apply NoDup_map_inj; auto; intros; congruence.
      * cbn. rewrite map_length. lia.
      * intros j. cbn [In]. rewrite in_map_iff. split.
        -- intros [<-|(j' & <- & Hj)]; [|apply H3 in Hj; exact Hj]. destruct (proj1 Hp ltac:(lia)) as (i & E1 & E2). exists i. split; exists t; auto.
        -- intros (i & (u & E1 & E2) & (u' & E1' & E2')). rewrite E1 in E1'. injection E1' as <-. destruct j as [|j]; auto. right.
           exists j. split; auto. apply H3. exists i. split; exists u; auto.
Qed.

(** * Streams with the same cases *)
Lemma grp_perm cas cas' : (forall c, tr cas c = tr cas' c) -> Permutation (grp cas) (grp cas').
Proof.
  intros H. unfold grp. assert (E : map (tr cas) (nodup Nat.eq_dec (map fst cas)) = map (tr cas') (nodup Nat.eq_dec (map fst cas))) by (apply map_ext; auto).
  rewrite E. apply Permutation_map, NoDup_Permutation; try apply NoDup_nodup. intros c. rewrite !nodup_In.
  destruct (in_dec Nat.eq_dec c (map fst cas)) as [A|A], (in_dec Nat.eq_dec c (map fst cas')) as [B|B]; try tauto.
  - apply tr_nil in B. rewrite <- H in B. apply tr_nil in B. tauto.
  - apply tr_nil in A. rewrite H in A. apply tr_nil in A. tauto.
Qed.
Lemma same_sym {K V} {EK : Key K} (d d' : dict K V) : same_dict d d' -> same_dict d' d.
Proof. intros H k. auto. Qed.
Lemma same_trans {K V} {EK : Key K} (d d' d'' : dict K V) : same_dict d d' -> same_dict d' d'' -> same_dict d d''.
Proof. intros H G k. rewrite H. auto. Qed.
Lemma c_of_perm {K} {EK : Key K} (f : trace -> list K) l l' : Permutation l l' -> same_dict (c_of (concat (map f l))) (c_of (concat (map f l'))).
Proof.
  intros P k. rewrite !d_get_c_of, !occ_concat, !map_map. rewrite (sum_perm (fun t => occ k (f t)) _ _ P). auto.
Qed.
Theorem interleaving evs evs' : (forall c, case_trace evs c = case_trace evs' c) ->
  let '(dfg, acts, starts, ends) := live evs in let '(dfg', acts', starts', ends') := live evs' in
  same_dict dfg dfg' /\ same_dict acts acts' /\ same_dict starts starts' /\ same_dict ends ends'.
Proof.
  intros H. assert (L := live_batch evs). assert (L' := live_batch evs').
  destruct (live evs) as [[[d a] s] e], (live evs') as [[[d' a'] s'] e'].
  destruct L as (L1 & L2 & L3 & L4), L' as (M1 & M2 & M3 & M4).
  assert (P : Permutation (grouped evs) (grouped evs')) by (apply grp_perm; exact H).
  rewrite native1 in L1, M1. rewrite starts_eq in L3, M3. rewrite ends_eq in L4, M4.
  assert (Q := c_of_perm (fun t => t) _ _ P). rewrite !map_id in Q.
  split; [|split; [|split]]; (eapply same_trans; [eassumption|]; apply same_sym; eapply same_trans; [eassumption|]; apply same_sym).
  - apply c_of_perm; auto.
  - exact Q.
  - apply c_of_perm; auto.
  - apply c_of_perm; auto.
Qed.
