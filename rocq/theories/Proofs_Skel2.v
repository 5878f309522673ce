From Coq Require Import List Arith Bool ZArith QArith Lia Permutation.
Import ListNotations.
From Verif Require Import Model_Dict Proofs_Dict Model_Dfg Spec_Dfg Proofs_Dfg Model_Lev Proofs_Lev Model_Skel Spec_Skel Proofs_Skel.
Local Open Scope nat_scope.
Local Arguments keqb {K Key} : simpl never.
Local Arguments Nat.ltb : simpl never.

(** ** The frequency table *)
Lemma fill_get l (rs : @counter nat) a :
  d_get (fold_left (fun rs act => if d_mem rs act then rs else d_set rs act 0) l rs) a =
  match d_get rs a with Some n => Some n | None => if existsb (fun y => keqb y a) l then Some 0 else None end.
Proof.
  revert rs. induction l as [|x l IH]; intros rs; cbn [fold_left existsb]; [destruct (d_get rs a); auto|]. rewrite IH.
  unfold d_mem. destruct (d_get rs x) eqn:Ex.
  - destruct (d_get rs a) eqn:Ea; auto. destruct (keqb_spec x a) as [->|]; [congruence|auto].
  - rewrite d_get_set. destruct (keqb_spec x a) as [->|]; [rewrite Ex; auto|]. destruct (d_get rs a); auto.
Qed.
Lemma fill_nodup l (rs : @counter nat) : NoDup (d_keys rs) -> NoDup (d_keys (fold_left (fun rs act => if d_mem rs act then rs else d_set rs act 0) l rs)).
Proof. revert rs. induction l as [|x l IH]; intros rs H; cbn; auto. apply IH. destruct (d_mem rs x); auto. apply d_nodup_set; auto. Qed.
Definition row_step (n : nat) (ret0 : dict nat (@counter nat)) (an : nat * nat) : dict nat (@counter nat) :=
  let c := match d_get ret0 (fst an) with Some c => c | None => [] end in d_set ret0 (fst an) (c_add c (snd an) n).
Lemma row_get n rs ret0 a : NoDup (d_keys rs) ->
  d_get (fold_left (row_step n) rs ret0) a =
  match d_get rs a with None => d_get ret0 a | Some m => Some (c_add (match d_get ret0 a with Some c => c | None => [] end) m n) end.
Proof.
  revert ret0. induction rs as [|[b m] rs IH]; intros ret0 H; cbn [fold_left d_get]; auto. inversion H as [|? ? H1 H2]; subst. rewrite IH by auto.
  unfold row_step. cbn [fst snd]. rewrite d_get_set. destruct (keqb_spec b a) as [->|]; auto.
  assert (E : d_get rs a = None) by (apply d_get_none; auto). rewrite E. auto.
Qed.
Lemma row_nodup n rs ret0 : NoDup (d_keys ret0) -> NoDup (d_keys (fold_left (row_step n) rs ret0)).
Proof. revert ret0. induction rs as [|x rs IH]; intros ret0 H; cbn; auto. apply IH. unfold row_step. apply d_nodup_set; auto. Qed.
Definition col_ok (v : @counter trace) (a : nat) (c : @counter nat) : Prop :=
  NoDup (d_keys c) /\ (forall m, c_get c m = list_sum (map (fun tn : trace * nat => if Nat.eqb (occ a (fst tn)) m then snd tn else 0) v)) /\
  (forall m, In m (d_keys c) <-> exists t n, In (t, n) v /\ occ a t = m).
Definition table_step (all : @counter nat) (ret0 : dict nat (@counter nat)) (tn : trace * nat) : dict nat (@counter nat) :=
  fold_left (row_step (snd tn)) (fold_left (fun rs act => if d_mem rs act then rs else d_set rs act 0) (d_keys all) (t_freq (fst tn))) ret0.
Lemma freq_table_eq v all : freq_table v all = fold_left (table_step all) v []. Proof. reflexivity. Qed.
Lemma freq_table_spec (v : @counter trace) (all : @counter nat) :
  (forall t n a, In (t, n) v -> In a t -> In a (d_keys all)) ->
  NoDup (d_keys (freq_table v all)) /\
  forall a, match d_get (freq_table v all) a with
            | None => v = [] \/ ~ In a (d_keys all)
            | Some c => v <> [] /\ In a (d_keys all) /\ col_ok v a c
            end.
Proof.
  intros Hall. rewrite freq_table_eq.
  induction v as [|[t n] v IH] using rev_ind; [split; [constructor|]; intros a; cbn; auto|].
  destruct IH as [IH1 IH2]; [intros; eapply Hall; eauto; apply in_or_app; eauto|].
  rewrite fold_left_app. cbn [fold_left]. set (T := fold_left (table_step all) v []) in *. unfold table_step. cbn [fst snd].
  set (rs := fold_left (fun rs act => if d_mem rs act then rs else d_set rs act 0) (d_keys all) (t_freq t)).
  assert (Nr : NoDup (d_keys rs)) by (apply fill_nodup, c_of_nodup).
  split; [apply (row_nodup n rs T IH1)|]. intros a.
  rewrite row_get by auto. specialize (IH2 a).
  assert (Er : d_get rs a = if existsb (fun y => keqb y a) (d_keys all) then Some (occ a t) else None).
  { unfold rs, t_freq. rewrite fill_get, d_get_c_of. destruct (Nat.eqb_spec (occ a t) 0) as [E|E]; [rewrite E; auto|].
    assert (Hin : In a t) by (apply occ_pos; lia). assert (G : In a (d_keys all)) by (eapply Hall; [apply in_or_app; right; left; reflexivity|auto]).
    apply existsb_keqb in G. rewrite G. auto. }
  rewrite Er. destruct (existsb _ _) eqn:Ea.
  - apply existsb_keqb in Ea. split; [destruct v; discriminate|]. split; auto.
    set (c := match d_get T a with Some c => c | None => [] end).
    assert (C : col_ok v a c).
    { unfold c. destruct (d_get T a); [tauto|]. destruct IH2 as [->|]; [|tauto]. repeat split; try constructor; cbn; [tauto|intros (? & ? & [] & _)]. }
    destruct C as (C1 & C2 & C3). split; [apply d_nodup_set; auto|]. split.
    + intros m. rewrite c_get_add, C2, map_app, list_sum_app. cbn [map fst snd]. change (keqb (occ a t) m) with (Nat.eqb (occ a t) m). unfold list_sum. cbn [fold_right]. destruct (Nat.eqb _ _); lia.
    + intros m. unfold c_add. rewrite d_in_keys_set, C3. split.
      * intros [->|(t' & n' & H & G)]; [exists t, n; split; auto; apply in_or_app; right; left; auto|exists t', n'; split; auto; apply in_or_app; auto].
      * intros (t' & n' & H & G). apply in_app_or in H. destruct H as [H|[[= <- <-]|[]]]; eauto.
  - assert (Na : ~ In a (d_keys all)) by (rewrite <- existsb_keqb; congruence). destruct (d_get T a); [tauto|auto].
Qed.
Lemma d_get_map {V W} (g : V -> W) (d : dict nat V) a : d_get (map (fun ac => (fst ac, g (snd ac))) d) a = option_map g (d_get d a).
Proof. induction d as [|[b v] d IH]; cbn; auto. destruct (keqb b a); auto. Qed.
Lemma cut_all thr added l : (forall x y, In (x, y) l -> 0 < y) -> (qnat (added + list_sum (map snd l)) <= thr)%Q -> cut thr added l = l.
Proof.
  revert added. induction l as [|[x y] l IH]; intros added Hp H; cbn [cut snd]; auto. destruct (Qle_bool _ _) eqn:E.
  - apply Qle_bool_iff in E. pose proof (Qle_trans _ _ _ H E) as G. unfold qnat in G. rewrite <- Zle_Qle in G. cbn [map snd] in G. unfold list_sum in G. cbn in G.
    destruct l as [|[x' y'] l]; auto. assert (0 < y') by (apply (Hp x'); right; left; auto). cbn in G. lia.
  - f_equal. apply IH; [intros; eapply Hp; right; eauto|]. cbn [map snd] in H. unfold list_sum in *. cbn [fold_right] in H. rewrite <- Nat.add_assoc. auto.
Qed.
Lemma cut_cover thr added l : (thr <= qnat (added + list_sum (map snd l)))%Q -> (thr <= qnat (added + list_sum (map snd (cut thr added l))))%Q.
Proof.
  revert added. induction l as [|[x y] l IH]; intros added H; cbn [cut snd]; auto. destruct (Qle_bool _ _) eqn:E.
  - apply Qle_bool_iff in E. cbn [map snd]. unfold list_sum. cbn [fold_right]. rewrite Nat.add_0_r. auto.
  - cbn [map snd] in *. unfold list_sum in *. cbn [fold_right] in *. rewrite Nat.add_assoc in *. auto.
Qed.
Lemma cut_in thr added l x : In x (cut thr added l) -> In x l.
Proof. revert added. induction l as [|y l IH]; intros added; cbn; auto. destruct (Qle_bool _ _); cbn; [tauto|]. intros [?|H]; eauto. Qed.
Lemma variants_pos l t n : In (t, n) (c_of l : @counter trace) -> 0 < n /\ In t l.
Proof.
  intros H. apply d_in_get in H; [|apply c_of_nodup]. rewrite d_get_c_of in H. destruct (Nat.eqb_spec (occ t l) 0); [discriminate|]. inversion H. split; [lia|]. apply occ_pos. lia.
Qed.
Lemma variants_in l t : In t l -> exists n, In (t, n) (c_of l : @counter trace).
Proof. intros H. apply (c_of_keys l) in H. apply in_map_iff in H. destruct H as ([t' n] & <- & H). eauto. Qed.
Lemma col_sum (v : @counter trace) a c : col_ok v a c -> list_sum (map snd c) = list_sum (map snd v).
Proof.
  intros (H1 & H2 & H3).
  assert (E1 : list_sum (map snd c) = list_sum (map (c_get c) (d_keys c))).
  { unfold d_keys. rewrite map_map. f_equal. apply map_ext_in. intros [m n] H. cbn. unfold c_get. rewrite (d_in_get _ _ _ H1 H). auto. }
  rewrite E1. rewrite (map_ext _ _ H2). clear E1.
  assert (G : forall w, (forall t n, In (t, n) w -> In (occ a t) (d_keys c)) ->
    list_sum (map (fun m => list_sum (map (fun tn : trace * nat => if Nat.eqb (occ a (fst tn)) m then snd tn else 0) w)) (d_keys c)) = list_sum (map snd w)).
  { induction w as [|[t n] w IH]; intros Hw; [apply list_sum_zero; auto|].
    cbn [map fst snd]. unfold list_sum in *. cbn [fold_right].
    rewrite <- IH by (intros; eapply Hw; right; eauto). clear IH.
    specialize (Hw t n (or_introl eq_refl)). clear H2 H3.
    assert (S : list_sum (map (fun m => if Nat.eqb (occ a t) m then n else 0) (d_keys c)) = n).
    { rewrite (sum_single (occ a t)) by (auto; intros y Hy; destruct (Nat.eqb_spec (occ a t) y); congruence).
      apply existsb_keqb in Hw. rewrite Hw, Nat.eqb_refl. auto. }
    unfold list_sum in S. etransitivity; [|apply f_equal2; [exact S|reflexivity]]. clear. generalize (d_keys c) as ks.
    induction ks as [|k ks IHk]; cbn [map fold_right]; auto. rewrite IHk. lia. }
  apply G. intros t n H. apply H3. eauto.
Qed.
Lemma variants_len l : list_sum (map snd (c_of l : @counter trace)) = length l.
Proof.
  pose proof (variants_sum (fun _ => 1) l) as H. unfold get_variants in H. rewrite <- (map_ext (fun tn : trace * nat => snd tn * 1)) by (intros; lia).
  rewrite H. clear. induction l as [|t l IH]; auto. cbn. f_equal. auto.
Qed.

(** ** activ_freq *)
Theorem activ_freq_spec l len_log : (length l <= len_log) ->
  NoDup (d_keys (activ_freq (c_of l) (c_of (concat l)) len_log 0)) /\
  forall a, match d_get (activ_freq (c_of l) (c_of (concat l)) len_log 0) a with
            | None => ~ occurs l a
            | Some s => occurs l a /\ forall n, In n s <-> exists t, In t l /\ count_occ Nat.eq_dec t a = n
            end.
Proof.
  intros Hl. unfold activ_freq.
  assert (Hall : forall t n a, In (t, n) (c_of l : @counter trace) -> In a t -> In a (d_keys (c_of (concat l)))).
  { intros t n a H G. apply c_of_keys, in_concat. exists t. split; auto. eapply variants_pos; eauto. }
  destruct (freq_table_spec _ _ Hall) as [N T]. split.
  - unfold d_keys in *. rewrite map_map. auto.
  - intros a.
    rewrite (d_get_map (V := @counter nat) (fun c : @counter nat => map fst (cut ((1 - 0) * qnat len_log) 0 (sorted_by (fun x => (- Z.of_nat (snd x))%Z) c)))).
    specialize (T a). destruct (d_get (freq_table (c_of l) (c_of (concat l))) a) as [c|]; cbn [option_map].
    + destruct T as (T1 & T2 & T3). split; [apply in_occurs, (c_of_keys (concat l)), T2|]. intros n.
      pose proof (sorted_by_perm (fun x : nat * nat => (- Z.of_nat (snd x))%Z) c) as P.
      rewrite cut_all.
      * assert (E : In n (map fst (sorted_by (fun x => (- Z.of_nat (snd x))%Z) c)) <-> In n (d_keys c)).
        { unfold d_keys. split; apply Permutation_in, Permutation_map; [apply Permutation_sym; auto|auto]. }
        rewrite E. destruct T3 as (C1 & C2 & C3). rewrite C3. split.
        -- intros (t & k & H & G). exists t. rewrite <- occ_count. split; auto. eapply variants_pos; eauto.
        -- intros (t & H & G). destruct (variants_in _ _ H) as (k & Hk). exists t, k. rewrite occ_count. auto.
      * intros x y H. apply (Permutation_in _ (Permutation_sym P)) in H. destruct T3 as (C1 & C2 & C3).
        pose proof (d_in_get _ _ _ C1 H) as G. assert (E : y = c_get c x) by (unfold c_get; rewrite G; auto). rewrite E, C2. apply sum_pos.
        assert (Hx : In x (d_keys c)) by (apply in_map_iff; exists (x, y); auto). apply C3 in Hx. destruct Hx as (t & k & H1 & H2). exists (t, k). split; auto.
        cbn [fst snd]. rewrite H2, Nat.eqb_refl. eapply variants_pos; eauto.
      * assert (S : list_sum (map snd (sorted_by (fun x => (- Z.of_nat (snd x))%Z) c)) = length l).
        { rewrite <- variants_len, <- (col_sum _ _ _ T3). symmetry. unfold list_sum. apply (Permutation_map snd) in P. clear -P. induction P; cbn; lia. }
        rewrite S. assert (E : ((1 - 0) * qnat len_log == qnat len_log)%Q) by ring. rewrite E. apply Qle_bool_iff, qnat_le. lia.
    + rewrite <- in_occurs. destruct T as [T|T]; [|rewrite c_of_keys in T; auto].
      destruct l as [|t l]; [cbn; auto|]. exfalso. assert (H : In t (d_keys (c_of (t :: l) : @counter trace))) by (apply c_of_keys; left; auto). rewrite T in H. destruct H.
Qed.

(** ** Conformance checking *)
Lemma memp_in k l : memp k l = true <-> In k l. Proof. apply existsb_keqb. Qed.
Lemma memn_in k l : memn k l = true <-> In k l. Proof. apply existsb_keqb. Qed.
Lemma relevant_in t m x : In x (relevant t m) <-> In x m /\ In (fst x) t.
Proof. unfold relevant. rewrite filter_In, dedup_in, memn_in. tauto. Qed.
(** the accumulators stay consistent, and no deviation is found iff the constraint holds *)
Definition acc_ok (s : acc) := a_dev s <= a_conf s /\ (a_devs s = [] <-> a_dev s = 0).
Lemma filter_nil {A} (p : A -> bool) l : length (filter p l) = 0 <-> forall x, In x l -> p x = false.
Proof.
  induction l as [|x l IH]; cbn; [split; auto; intros _ x []|]. destruct (p x) eqn:E; cbn.
  - split; [discriminate|]. intros H. rewrite (H x (or_introl eq_refl)) in E. discriminate.
  - rewrite IH. split; [intros H y [->|Hy]; auto|intros H y Hy; auto].
Qed.
Lemma filter_length_le {A} (p : A -> bool) l : length (filter p l) <= length l.
Proof. induction l as [|x l IH]; cbn; auto. destruct (p x); cbn; lia. Qed.
Lemma check_pairs_ok k inter t m info s : acc_ok s -> acc_ok (check_pairs k inter t m info s) /\
  (a_dev (check_pairs k inter t m info s) = 0 <-> a_dev s = 0 /\ forall x, In x m -> In (fst x) t -> if inter then ~ In x info else In x info).
Proof.
  intros [H1 H2]. unfold check_pairs. set (bad := filter _ _). cbn zeta.
  assert (Lb : length bad <= length (relevant t m)) by apply filter_length_le.
  split.
  - split; cbn [a_devs a_dev a_conf]; [lia|]. destruct (Nat.ltb_spec 0 (length bad)).
    + split; [intros E; destruct (a_devs s); discriminate|lia].
    + rewrite H2. lia.
  - cbn [a_dev]. assert (E : length bad = 0 <-> forall x, In x m -> In (fst x) t -> if inter then ~ In x info else In x info).
    { unfold bad. rewrite filter_nil. split.
      - intros L x Hx Ht. specialize (L x (proj2 (relevant_in _ _ _) (conj Hx Ht))). pose proof (memp_in x info) as G.
        destruct inter, (memp x info); cbn in L; try discriminate; [|tauto]. intros F. apply G in F. discriminate.
      - intros L x Hx. apply relevant_in in Hx. specialize (L x (proj1 Hx) (proj2 Hx)). pose proof (memp_in x info) as G.
        destruct inter, (memp x info); cbn; auto; exfalso; [apply L, G; auto|]. apply G in L. discriminate. }
    rewrite <- E. lia.
Qed.
Lemma min_pos_spec s b : min_pos s = Some b -> (b = true <-> ~ In 0 s).
Proof.
  unfold min_pos. destruct s as [|x r]; [discriminate|]. intros [= <-]. rewrite Nat.ltb_lt.
  assert (G : forall r x, 0 < fold_left Nat.min r x <-> 0 < x /\ ~ In 0 r).
  { induction r0 as [|y r0 IH]; intros x0; cbn [fold_left In]; [tauto|]. rewrite IH. split; [intros [? ?]; split; [lia|intros [?|?]; [lia|tauto]]|].
    intros [? ?]. split; [|tauto]. destruct (Nat.eq_dec y 0); [tauto|lia]. }
  rewrite G. cbn. split; [intros [? ?] [?|?]; [lia|tauto]|]. intros ?. split; [|tauto]. destruct (Nat.eq_dec x 0); [tauto|lia].
Qed.
Lemma min_pos_none s : min_pos s = None <-> s = [].
Proof. destruct s; cbn; split; congruence. Qed.
Definition f_bad (m : dict nat (list nat)) (an : nat * nat) : bool := match d_get m (fst an) with Some c => negb (memn (snd an) c) | None => true end.
Lemma freq_fold m f s0 : 
  let s := fold_left (fun s an =>
     match d_get m (fst an) with
     | Some c => if memn (snd an) c then s else Acc (a_devs s ++ [DevFreq (fst an) (snd an)]) (a_dev s + 1) (a_conf s)
     | None => Acc (a_devs s ++ [DevFreq (fst an) 0]) (a_dev s + 1) (a_conf s)
     end) f s0 in
  a_conf s = a_conf s0 /\ a_dev s = a_dev s0 + length (filter (f_bad m) f) /\ length (a_devs s) = length (a_devs s0) + length (filter (f_bad m) f).
Proof.
  revert s0. induction f as [|an f IH]; intros s0; cbn [fold_left filter]; cbn zeta; [cbn; lia|]. specialize (IH (match d_get m (fst an) with
     | Some c => if memn (snd an) c then s0 else Acc (a_devs s0 ++ [DevFreq (fst an) (snd an)]) (a_dev s0 + 1) (a_conf s0)
     | None => Acc (a_devs s0 ++ [DevFreq (fst an) 0]) (a_dev s0 + 1) (a_conf s0)
     end)). cbn zeta in IH. destruct IH as (E1 & E2 & E3). rewrite E1, E2, E3.
  assert (Eb : f_bad m an = match d_get m (fst an) with Some c => negb (memn (snd an) c) | None => true end) by reflexivity. rewrite Eb.
  destruct (d_get m (fst an)) as [c|]; [destruct (memn (snd an) c)|]; cbn [negb a_conf a_dev a_devs length]; rewrite ?app_length; cbn [length]; lia.
Qed.
Lemma missing_fold (l : dict nat (list nat)) s0 :
  let s := fold_left (fun s am => Acc (a_devs s ++ [DevFreq (fst am) 0]) (a_dev s + 1) (a_conf s)) l s0 in
  a_conf s = a_conf s0 /\ a_dev s = a_dev s0 + length l /\ length (a_devs s) = length (a_devs s0) + length l.
Proof.
  revert s0. induction l as [|am l IH]; intros s0; cbn [fold_left]; cbn zeta; [cbn; lia|].
  specialize (IH (Acc (a_devs s0 ++ [DevFreq (fst am) 0]) (a_dev s0 + 1) (a_conf s0))). cbn zeta in IH. destruct IH as (E1 & E2 & E3). rewrite E1, E2, E3.
  cbn [a_conf a_dev a_devs length]. rewrite app_length. cbn [length]. lia.
Qed.
Lemma filter_compl {A} (p : A -> bool) l : length (filter p l) + length (filter (fun x => negb (p x)) l) = length l.
Proof. induction l as [|x l IH]; cbn; auto. destruct (p x); cbn; lia. Qed.
Lemma check_freq_none t m s : check_freq t m s = None <-> exists a, In (a, []) m.
Proof.
  unfold check_freq. destruct (existsb _ m) eqn:E.
  - split; auto. intros _. apply existsb_exists in E. destruct E as ([a c] & H & G). cbn in G. exists a. destruct (min_pos c) eqn:F; [discriminate|]. apply min_pos_none in F. subst. auto.
  - split; [discriminate|]. intros (a & H). assert (F : existsb (fun am => match min_pos (snd am) with None => true | Some _ => false end) m = true) by (apply existsb_exists; exists (a, []); auto). congruence.
Qed.
Lemma check_freq_ok t m s s' : check_freq t m s = Some s' -> acc_ok s -> acc_ok s' /\
  (a_dev s' = 0 <-> a_dev s = 0 /\ (forall a, In a t -> exists c, d_get m a = Some c /\ In (count_occ Nat.eq_dec t a) c) /\
                                   (forall a c, In (a, c) m -> ~ In a t -> In 0 c)).
Proof.
  unfold check_freq. destruct (existsb _ m) eqn:Ee; [discriminate|]. set (missing := filter _ m). intros E [H1 H2].
  match type of E with Some ?X = _ => assert (Es : s' = X) by congruence end. clear E.
  pose proof (missing_fold missing) as M. pose proof (freq_fold m (t_freq t)) as F.
  match type of Es with _ = fold_left _ _ (fold_left _ _ ?s0) => specialize (F s0) end. cbn zeta in F.
  match type of Es with _ = fold_left _ _ ?s1 => specialize (M s1) end. cbn zeta in M. rewrite <- Es in M.
  destruct M as (M1 & M2 & M3), F as (F1 & F2 & F3). rewrite F1 in M1. rewrite F2 in M2. rewrite F3 in M3. cbn [a_conf a_dev a_devs] in *. clear F1 F2 F3 Es.
  pose proof (filter_compl (fun an : nat * nat => d_mem m (fst an)) (t_freq t)) as L1. pose proof (filter_length_le (f_bad m) (t_freq t)) as L2.
  assert (D : a_devs s' = [] <-> length (a_devs s') = 0) by (destruct (a_devs s'); cbn; split; congruence).
  assert (D0 : a_devs s = [] <-> length (a_devs s) = 0) by (destruct (a_devs s); cbn; split; congruence).
  split.
  - split; [lia|]. rewrite D, M3, M2. rewrite D0 in H2. lia.
  - rewrite M2. assert (A : a_dev s + length (filter (f_bad m) (t_freq t)) + length missing = 0 <->
      a_dev s = 0 /\ length (filter (f_bad m) (t_freq t)) = 0 /\ length missing = 0) by lia. rewrite A. clear A.
    assert (B : length (filter (f_bad m) (t_freq t)) = 0 <-> forall a, In a t -> exists c, d_get m a = Some c /\ In (count_occ Nat.eq_dec t a) c).
    { rewrite filter_nil. split.
      - intros G a Ha. assert (Hin : In (a, occ a t) (t_freq t)).
        { apply d_get_in. unfold t_freq. rewrite d_get_c_of. destruct (Nat.eqb_spec (occ a t) 0); auto. apply occ_pos in Ha. lia. }
        specialize (G _ Hin). unfold f_bad in G. cbn [fst snd] in G. destruct (d_get m a) as [c|]; [|discriminate]. exists c. split; auto.
        apply negb_false_iff, memn_in in G. rewrite <- occ_count. auto.
      - intros G [a n] Hin. unfold f_bad. cbn [fst snd]. apply d_in_get in Hin; [|apply c_of_nodup]. unfold t_freq in Hin. rewrite d_get_c_of in Hin.
        destruct (Nat.eqb_spec (occ a t) 0) as [|Ho]; [discriminate|]. inversion Hin; subst n. destruct (G a) as (c & Ec & Hc); [apply occ_pos; lia|]. rewrite Ec.
        apply negb_false_iff, memn_in. rewrite occ_count. auto. }
    assert (C : length missing = 0 <-> forall a c, In (a, c) m -> ~ In a t -> In 0 c).
    { unfold missing. rewrite filter_nil. split.
      - intros G a c Hin Ht. specialize (G _ Hin). cbn [fst snd] in G. pose proof (memn_in a t) as Gm. destruct (memn a t); [exfalso; apply Ht, Gm; auto|].
        destruct (min_pos c) as [b|] eqn:Em; [|exfalso].
        + apply min_pos_spec in Em. destruct b; [discriminate|]. destruct (in_dec Nat.eq_dec 0 c); auto. apply Em in n. discriminate.
        + assert (X : existsb (fun am => match min_pos (snd am) with None => true | Some _ => false end) m = true) by (apply existsb_exists; exists (a, c); cbn; rewrite Em; auto). congruence.
      - intros G [a c] Hin. cbn [fst snd]. destruct (min_pos c) as [b|] eqn:Em; auto. pose proof (memn_in a t) as Gm. destruct (memn a t); [apply andb_false_r|].
        apply min_pos_spec in Em. destruct b; auto. exfalso. apply (proj1 Em eq_refl). apply (G a c Hin). intros F. apply Gm in F. discriminate. }
    rewrite B, C. tauto.
Qed.
Lemma t_equivalence_in t a b : In (a, b) (t_equivalence t) <-> In a t /\ a <> b /\ count_occ Nat.eq_dec t a = count_occ Nat.eq_dec t b.
Proof.
  rewrite <- occ_pos, occ_equivalence, <- (occ_pos a t), <- !occ_count. destruct (Nat.eqb_spec a b), (Nat.eqb_spec (occ a t) (occ b t)); cbn; lia.
Qed.
Lemma t_df_in t a b : In (a, b) (t_df t) <-> exists i, nth_error t i = Some a /\ nth_error t (S i) = Some b.
Proof.
  unfold t_df. rewrite in_map_iff. split.
  - intros (i & [= E1 E2] & H). apply in_seq in H. exists i. rewrite !in_nth. replace (i + 1) with (S i) in E2 by lia. repeat split; auto; lia.
  - intros (i & H1 & H2). apply in_nth in H1, H2. exists i. rewrite in_seq. replace (i + 1) with (S i) by lia. destruct H1 as [? ->], H2 as [? ->]. split; auto. lia.
Qed.
Lemma check_kind_ok t m s k s' : check_kind t m s k = Some s' -> acc_ok s -> acc_ok s' /\ (a_dev s' = 0 <-> a_dev s = 0 /\ satisfies t m k).
Proof.
  intros E Hs. destruct k; cbn [check_kind] in E;
    [match type of E with Some ?X = _ => assert (Es : s' = X) by congruence end; clear E; subst s' ..|].
  6: { apply check_freq_ok in E; auto. }
  all: match goal with |- acc_ok (check_pairs ?k ?i ?t ?m ?info ?s) /\ _ => destruct (check_pairs_ok k i t m info s Hs) as [G1 G2] end; split; auto; rewrite G2; clear G2;
    apply and_iff_compat_l; cbn [satisfies].
  - split; [intros G a b Hin Ha; specialize (G _ Hin Ha); apply t_equivalence_in in G; tauto|]. intros G [a b] Hin Ha. cbn [fst] in Ha. apply t_equivalence_in. split; auto.
  - split.
    + intros G a b Hin Ha. specialize (G _ Hin Ha). apply rel_in in G. destruct G as (i & j & Hc & G). apply Nat.ltb_lt in Hc. eauto.
    + intros G [a b] Hin Ha. apply rel_in. destruct (G a b Hin Ha) as (i & j & Hc & G'). exists i, j. rewrite Nat.ltb_lt. auto.
  - split.
    + intros G a b Hin Ha. specialize (G _ Hin Ha). apply rel_in in G. destruct G as (i & j & Hc & G). apply Nat.ltb_lt in Hc. eauto.
    + intros G [a b] Hin Ha. apply rel_in. destruct (G a b Hin Ha) as (i & j & Hc & G'). exists i, j. rewrite Nat.ltb_lt. auto.
  - split.
    + intros G a b Hin Hn [Ha Hb]. apply (G _ Hin Ha). apply t_combos_in. auto.
    + intros G [a b] Hin Ha F. apply t_combos_in in F. apply (G a b Hin); tauto.
  - split; [intros G a b Hin Ha; specialize (G _ Hin Ha); apply t_df_in in G; auto|]. intros G [a b] Hin Ha. cbn [fst] in Ha. apply t_df_in. auto.
Qed.
Definition kstep (consid : list kind) t m (s : option acc) (k : kind) : option acc :=
  match s with None => None | Some s => if existsb (kind_eqb k) consid then check_kind t m s k else Some s end.
Lemma kfold_none consid t m ks : fold_left (kstep consid t m) ks None = None.
Proof. induction ks; auto. Qed.
Lemma kfold_ok consid t m ks s s' : fold_left (kstep consid t m) ks (Some s) = Some s' -> acc_ok s ->
  acc_ok s' /\ (a_dev s' = 0 <-> a_dev s = 0 /\ forall k, In k ks -> In k consid -> satisfies t m k).
Proof.
  revert s. induction ks as [|k ks IH]; intros s E Hs; cbn [fold_left] in E.
  - inversion E; subst. split; auto. firstorder.
  - cbn [kstep] in E. assert (Ek : existsb (kind_eqb k) consid = true <-> In k consid).
    { rewrite existsb_exists. split; [intros (x & H & G); destruct k, x; cbn in G; congruence|intros H; exists k; split; auto; destruct k; auto]. }
    destruct (existsb (kind_eqb k) consid).
    + destruct (check_kind t m s k) as [s1|] eqn:E1; [|rewrite kfold_none in E; discriminate].
      apply check_kind_ok in E1; auto. destruct E1 as [E1 E2]. apply IH in E; auto. destruct E as [E3 E4]. split; auto. rewrite E4, E2. cbn. split.
      * intros [[G1 G2] G3]. split; auto. intros k' [<-|Hk]; auto.
      * intros [G1 G2]. repeat split; auto. apply G2; auto. apply Ek; auto.
    + apply IH in E; auto. destruct E as [E3 E4]. split; auto. rewrite E4. cbn. apply and_iff_compat_l. split.
      * intros G k' [<-|Hk] Hc; auto. apply Ek in Hc. discriminate.
      * intros G k' Hk. apply G; auto.
Qed.
Lemma check_kind_some t m s k : proper_skel m -> check_kind t m s k <> None.
Proof.
  intros H. destruct k; cbn; try congruence. intros E. apply check_freq_none in E. destruct E as (a & E). apply (H _ _ E). auto.
Qed.
Lemma kfold_some consid t m ks s : proper_skel m -> fold_left (kstep consid t m) ks (Some s) <> None.
Proof.
  intros H. revert s. induction ks as [|k ks IH]; intros s; cbn [fold_left]; [congruence|]. cbn [kstep]. destruct (existsb _ _); auto.
  destruct (check_kind t m s k) eqn:E; auto. apply check_kind_some in E; auto.
Qed.
Theorem actlist_total consid m t : proper_skel m -> exists r, apply_actlist consid m t = Some r.
Proof.
  intros H. unfold apply_actlist. pose proof (kfold_some consid t m all_kinds (Acc [] 0 0) H) as G. unfold kstep in G. destruct (fold_left _ _ _); [eauto|congruence].
Qed.
Lemma qnat_pos n : 0 < n -> (0 < qnat n)%Q. Proof. unfold qnat. intros H. rewrite <- (Zlt_Qlt 0). lia. Qed.
Lemma qnat_nonneg n : (0 <= qnat n)%Q. Proof. unfold qnat. rewrite <- (Zle_Qle 0). lia. Qed.
Theorem actlist_spec consid m t r : apply_actlist consid m t = Some r ->
  (0 <= r_fitness r)%Q /\ (r_fitness r <= 1)%Q /\ (r_fitness r == 1 <-> r_fit r = true)%Q /\ (r_devs r = [] <-> r_fit r = true) /\
  (r_fit r = true <-> forall k, In k consid -> satisfies t m k).
Proof.
  unfold apply_actlist. change (fold_left _ all_kinds (Some (Acc [] 0 0))) with (fold_left (kstep consid t m) all_kinds (Some (Acc [] 0 0))).
  destruct (fold_left _ _ _) as [s|] eqn:E; [|discriminate].
  intros E'. match type of E' with Some ?X = _ => assert (Er : r = X) by congruence end. clear E'. subst r. cbn [r_fitness r_fit r_devs].
  apply kfold_ok in E; [|split; cbn; [lia|tauto]]. destruct E as [[H1 H2] H3]. cbn [a_dev] in H3.
  assert (D : a_devs s = [] <-> Nat.eqb (length (a_devs s)) 0 = true) by (destruct (a_devs s); cbn; split; congruence).
  assert (F : Nat.eqb (length (a_devs s)) 0 = true <-> a_dev s = 0) by (rewrite <- D; auto).
  repeat match goal with |- _ /\ _ => split end; auto.
  - destruct (Nat.ltb_spec 0 (a_conf s)) as [Hc|Hc]; [|discriminate]. apply Qle_minus_iff. 
    assert (Hp := qnat_pos _ Hc). assert (G : (qnat (a_dev s) / qnat (a_conf s) <= 1)%Q) by (apply Qle_shift_div_r; auto; rewrite Qmult_1_l; apply Qle_bool_iff, qnat_le; auto).
    setoid_replace (1 - qnat (a_dev s) / qnat (a_conf s) + - 0)%Q with (1 + - (qnat (a_dev s) / qnat (a_conf s)))%Q by ring. apply -> Qle_minus_iff. auto.
  - destruct (Nat.ltb_spec 0 (a_conf s)) as [Hc|Hc]; [|apply Qle_refl]. assert (Hp := qnat_pos _ Hc). apply Qle_minus_iff.
    setoid_replace (1 + - (1 - qnat (a_dev s) / qnat (a_conf s)))%Q with (qnat (a_dev s) / qnat (a_conf s))%Q by ring.
    apply Qle_shift_div_l; auto. rewrite Qmult_0_l. apply qnat_nonneg.
  - rewrite F. destruct (Nat.ltb_spec 0 (a_conf s)) as [Hc|Hc]; [|split; [lia|reflexivity]]. assert (Hp := qnat_pos _ Hc). split.
    + intros G. assert (Z : (qnat (a_dev s) / qnat (a_conf s) == 0)%Q) by (setoid_replace (qnat (a_dev s) / qnat (a_conf s))%Q with (1 - (1 - qnat (a_dev s) / qnat (a_conf s)))%Q by ring; rewrite G; ring).
      assert (W : (qnat (a_dev s) == 0)%Q). { setoid_replace (qnat (a_dev s)) with (qnat (a_dev s) / qnat (a_conf s) * qnat (a_conf s))%Q; [rewrite Z; ring|]. field. intros X. rewrite X in Hp. discriminate Hp. }
      unfold qnat, Qeq in W. cbn in W. lia.
    + intros ->. unfold qnat at 1. cbn. unfold Qdiv. ring.
  - rewrite F, H3. split.
    + intros [_ G] k Hk. apply G; auto. destruct k; cbn; tauto.
    + intros G. split; auto.
Qed.
(** ** apply_log *)
Lemma index_of_spec t l : In t l -> nth_error l (index_of t l) = Some t.
Proof.
  induction l as [|x l IH]; [intros []|]. intros H. cbn [index_of]. destruct (list_eqb_spec x t) as [->|Hn]; [auto|]. destruct H as [?|H]; [congruence|]. apply IH; auto.
Qed.
Lemma index_of_app t l l' : In t l -> index_of t (l ++ l') = index_of t l.
Proof.
  induction l as [|x l IH]; [intros []|]. intros H. cbn [index_of app]. destruct (list_eqb_spec x t); auto. destruct H as [?|H]; [congruence|]. rewrite IH; auto.
Qed.
Lemma lstep_inv l : forall k g inv,
  (forall i j, d_get inv i = Some j -> i < k) ->
  let st := fold_left lstep (combine (seq k (length l)) l) (g, inv) in
  (exists g', fst st = g ++ g') /\ (forall i, i < k -> d_get (snd st) i = d_get inv i) /\
  forall i t, nth_error l i = Some t -> exists j, d_get (snd st) (k + i) = Some j /\ nth_error (fst st) j = Some t.
Proof.
  induction l as [|t l IH]; intros k g inv Hk; cbn [length seq combine fold_left]; cbn zeta.
  - split; [exists []; rewrite app_nil_r; auto|]. split; auto. intros [|i] t; discriminate.
  - set (g1 := if existsb (fun x : trace => list_eqb x t) g then g else g ++ [t]). set (inv1 := d_set inv k (index_of t g1)).
    assert (El : lstep (g, inv) (k, t) = (g1, inv1)) by reflexivity. rewrite El.
    assert (Ht : In t g1).
    { unfold g1. destruct (existsb _ g) eqn:E; [|apply in_or_app; right; left; auto]. apply existsb_exists in E. destruct E as (x & Hx & E). destruct (list_eqb_spec x t); [subst; auto|discriminate]. }
    destruct (IH (S k) g1 inv1) as ((g' & E1) & E2 & E3).
    { intros i j. unfold inv1. rewrite d_get_set. destruct (keqb_spec k i) as [->|]; [lia|]. intros G. apply Hk in G. lia. }
    split; [|split].
    + rewrite E1. unfold g1. destruct (existsb _ g); [exists g'; auto|]. exists ([t] ++ g'). rewrite app_assoc. auto.
    + intros i Hi. rewrite E2 by lia. unfold inv1. apply d_get_set_other. lia.
    + intros [|i] t' Hn.
      * inversion Hn; subst t'. exists (index_of t g1). split; [rewrite Nat.add_0_r, E2 by lia; unfold inv1; apply d_get_set_same|].
        rewrite E1. rewrite nth_error_app1; [apply index_of_spec; auto|]. apply nth_error_Some. rewrite index_of_spec by auto. discriminate.
      * replace (k + S i) with (S k + i) by lia. apply E3. auto.
Qed.
Lemma nth_error_ext {A} (l k : list A) : (forall i, nth_error l i = nth_error k i) -> l = k.
Proof.
  revert k. induction l as [|x l IH]; intros [|y k] H; auto; [discriminate (H 0)|discriminate (H 0)|].
  pose proof (H 0) as E. cbn in E. inversion E. f_equal. apply IH. intros i. apply (H (S i)).
Qed.
Theorem apply_log_map consid m l : apply_log consid m l = map (apply_actlist consid m) l.
Proof.
  unfold apply_log.
  destruct (lstep_inv l 0 [] []) as (_ & _ & H); [discriminate|]. cbn zeta in H. cbn zeta. set (st := fold_left lstep _ _) in *.
  apply nth_error_ext. intros i. rewrite !nth_error_map. destruct (nth_error l i) as [t|] eqn:E.
  - assert (L : i < length l) by (apply nth_error_Some; congruence). rewrite (nth_error_nth' _ 0) by (rewrite seq_length; auto). rewrite seq_nth by auto. cbn [option_map]. f_equal.
    destruct (H i t E) as (j & H1 & H2). rewrite H1. apply nth_error_nth. rewrite nth_error_map, H2. auto.
  - assert (L : length l <= i) by (apply nth_error_None; auto). rewrite (proj2 (nth_error_None (seq 0 (length l)) i)); auto. rewrite seq_length. auto.
Qed.

(** ** Noise thresholds *)
Lemma enough_mono noise noise' n y : (noise <= noise')%Q -> enough noise n y = true -> enough noise' n y = true.
Proof.
  unfold enough. rewrite !Qle_bool_iff. intros H G. eapply Qle_trans; [|exact G]. rewrite !(Qmult_comm (qnat n)).
  apply Qmult_le_compat_r; [|apply qnat_nonneg]. apply Qplus_le_r. apply Qopp_le_compat. auto.
Qed.
Lemma rel_mono f l noise noise' k : (noise <= noise')%Q -> In k (discover_rel f (c_of l) (c_of (concat l)) noise) -> In k (discover_rel f (c_of l) (c_of (concat l)) noise').
Proof. destruct k as [x y]. intros H. rewrite !discover_rel_in. intros [G1 G2]. split; auto. eapply enough_mono; eauto. Qed.
Lemma never_mono l noise noise' k : (noise <= noise')%Q -> In k (never_together (c_of l) (c_of (concat l)) noise) -> In k (never_together (c_of l) (c_of (concat l)) noise').
Proof. destruct k as [x y]. intros H. rewrite !never_in. cbn zeta. intros (G1 & G2 & G3 & G4 & G5). repeat split; auto. eapply enough_mono; eauto. Qed.
Lemma exactly_sum_count (l : log) (P : trace -> Prop) (p : trace -> bool) x : (forall t, p t = true <-> P t) ->
  exactly (list_sum (map (fun t : trace => if p t then occ x t else 0) l)) (fun q => exists t, nth_error l (fst q) = Some t /\ nth_error t (snd q) = Some x /\ P t).
Proof.
  intros H. apply (exactly_log (fun t i => nth_error t i = Some x /\ P t) (fun t => if p t then occ x t else 0)). intros t.
  destruct (p t) eqn:E; specialize (H t).
  - eapply exactly_ext; [|apply (exactly_occ x t)]. intros i. cbn. tauto.
  - apply exactly_0. intros i [_ G]. apply H in G. congruence.
Qed.
Lemma equivalence_noise l noise x y n tot : exactly tot (fun p => at_pos l (fst p) (snd p) x) ->
  exactly n (fun q => exists t, nth_error l (fst q) = Some t /\ nth_error t (snd q) = Some x /\ count_occ Nat.eq_dec t x = count_occ Nat.eq_dec t y) ->
  In (x, y) (discover_rel t_equivalence (c_of l) (c_of (concat l)) noise) <-> x <> y /\ 0 < n /\ (qnat tot * (1 - noise) <= qnat n)%Q.
Proof.
  intros Ht Hn. pose proof (exactly_unique _ _ _ Ht (occ_log_exactly l x)) as ->.
  pose proof (exactly_sum_count l (fun t => count_occ Nat.eq_dec t x = count_occ Nat.eq_dec t y) (fun t => Nat.eqb (occ x t) (occ y t)) x) as E.
  rewrite (exactly_unique _ _ _ Hn (E ltac:(intros t; cbn beta; rewrite Nat.eqb_eq, !occ_count; tauto))). clear E Hn.
  rewrite discover_rel_in. unfold enough. rewrite Qle_bool_iff. destruct (Nat.eq_dec x y) as [->|Hxy].
  - split; [|intros [? _]; congruence]. intros [G _]. apply sum_pos in G. destruct G as (t & _ & G). rewrite occ_equivalence, Nat.eqb_refl in G. cbn in G. lia.
  - rewrite (map_ext (fun t : trace => occ (x, y) (t_equivalence t)) (fun t : trace => if Nat.eqb (occ x t) (occ y t) then occ x t else 0)); [tauto|].
    intros t. rewrite occ_equivalence. apply Nat.eqb_neq in Hxy. rewrite Hxy. auto.
Qed.
Lemma df_noise l noise x y n tot : exactly tot (fun p => at_pos l (fst p) (snd p) x) ->
  exactly n (fun q => at_pos l (fst q) (snd q) x /\ at_pos l (fst q) (S (snd q)) y) ->
  In (x, y) (discover_rel t_df (c_of l) (c_of (concat l)) noise) <-> 0 < n /\ (qnat tot * (1 - noise) <= qnat n)%Q.
Proof.
  intros Ht Hn. pose proof (exactly_unique _ _ _ Ht (occ_log_exactly l x)) as ->.
  assert (E : exactly (list_sum (map (fun t : trace => occ (x, y) (t_df t)) l)) (fun q => at_pos l (fst q) (snd q) x /\ at_pos l (fst q) (S (snd q)) y)).
  { eapply exactly_ext; [|apply (exactly_log (fun t i => nth_error t i = Some x /\ nth_error t (i + 1) = Some y) (fun t => occ (x, y) (t_df t)))].
    - intros [j i]. cbn. unfold at_pos. split.
      + intros (t & E & G1 & G2). replace (i + 1) with (S i) in G2 by lia. split; exists t; auto.
      + intros [(t & E & G1) (t' & E' & G2)]. assert (t' = t) by congruence. subst. exists t. replace (i + 1) with (S i) by lia. auto.
    - intros t. rewrite t_df_adj, <- window1_adj. apply exactly_pairs. }
  rewrite (exactly_unique _ _ _ Hn E). rewrite discover_rel_in. unfold enough. rewrite Qle_bool_iff. tauto.
Qed.
Lemma filter_sum {A} (p : A -> bool) (l : list A) : list_sum (map (fun x => if p x then 1 else 0) l) = length (filter p l).
Proof. unfold list_sum. induction l as [|x l IH]; cbn; auto. destruct (p x); cbn; lia. Qed.
Lemma coverage l noise a s : (0 <= noise)%Q -> d_get (activ_freq (c_of l) (c_of (concat l)) (length l) noise) a = Some s ->
  (qnat (length l) * (1 - noise) <= qnat (length (filter (fun t => memn (count_occ Nat.eq_dec t a) s) l)))%Q /\
  forall n, In n s -> exists t, In t l /\ count_occ Nat.eq_dec t a = n.
Proof.
  intros Hq. unfold activ_freq.
  rewrite (d_get_map (V := @counter nat) (fun c : @counter nat => map fst (cut ((1 - noise) * qnat (length l)) 0 (sorted_by (fun x => (- Z.of_nat (snd x))%Z) c)))).
  assert (Hall : forall t n a, In (t, n) (c_of l : @counter trace) -> In a t -> In a (d_keys (c_of (concat l)))).
  { intros t n a' H G. apply c_of_keys, in_concat. exists t. split; auto. eapply variants_pos; eauto. }
  destruct (freq_table_spec _ _ Hall) as [_ T]. specialize (T a). destruct (d_get (freq_table (c_of l) (c_of (concat l))) a) as [c|]; cbn [option_map]; [|discriminate].
  destruct T as (_ & _ & T). intros Es. assert (Es' : s = map fst (cut ((1 - noise) * qnat (length l)) 0 (sorted_by (fun x => (- Z.of_nat (snd x))%Z) c))) by congruence. clear Es.
  pose proof (sorted_by_perm (fun x : nat * nat => (- Z.of_nat (snd x))%Z) c) as P. set (sc := sorted_by _ c) in *.
  set (thr := ((1 - noise) * qnat (length l))%Q) in *.
  assert (S : list_sum (map snd sc) = length l).
  { rewrite <- variants_len, <- (col_sum _ _ _ T). symmetry. unfold list_sum. apply (Permutation_map snd) in P. clear -P. induction P; cbn; lia. }
  destruct T as (C1 & C2 & C3).
  assert (N : NoDup (map fst sc)) by (eapply Permutation_NoDup; [apply Permutation_map; exact P|exact C1]).
  assert (V : forall x y, In (x, y) (cut thr 0 sc) -> y = list_sum (map (fun t : trace => if Nat.eqb (occ a t) x then 1 else 0) l)).
  { intros x y H. apply cut_in in H. apply (Permutation_in _ (Permutation_sym P)) in H. pose proof (d_in_get _ _ _ C1 H) as G.
    assert (E : y = c_get c x) by (unfold c_get; rewrite G; auto). rewrite E, C2.
    rewrite <- (variants_sum (fun t : trace => if Nat.eqb (occ a t) x then 1 else 0) l). unfold get_variants. f_equal. apply map_ext. intros [t n]. cbn [fst snd]. destruct (Nat.eqb _ _); lia. }
  assert (Nc : NoDup (map fst (cut thr 0 sc))).
  { clear -N. generalize 0 as ad. induction sc as [|[x y] sc IH]; intros ad; cbn [cut map]; [constructor|]. cbn [map fst] in N. inversion N as [|? ? N1 N2]; subst. cbn [snd]. destruct (Qle_bool _ _); cbn [map fst].
    - constructor; [intros []|constructor].
    - constructor; auto. intros H. apply N1. apply in_map_iff in H. destruct H as (z & E & H). apply cut_in in H. apply in_map_iff. eauto. }
  split.
  - rewrite Qmult_comm. fold thr. eapply Qle_trans; [apply (cut_cover thr 0 sc)|].
    + cbn [Nat.add]. rewrite S. unfold thr. setoid_replace (qnat (length l)) with (1 * qnat (length l))%Q at 2 by ring. apply Qmult_le_compat_r; [|apply qnat_nonneg].
      apply Qle_minus_iff. setoid_replace (1 + - (1 - noise))%Q with noise by ring. auto.
    + apply Qle_bool_iff, qnat_le. cbn [Nat.add]. subst s. rewrite <- filter_sum. clear -V Nc.
      rewrite (map_ext_in snd (fun xy => list_sum (map (fun t : trace => if Nat.eqb (occ a t) (fst xy) then 1 else 0) l))) by (intros [x y] H; apply V; auto).
      clear V. rewrite <- (map_map fst (fun x => list_sum (map (fun t : trace => if Nat.eqb (occ a t) x then 1 else 0) l))). generalize dependent (map fst (cut thr 0 sc)). intros s N.
      induction l as [|t l IH].
      * rewrite list_sum_zero; auto.
      * cbn [map]. unfold list_sum in *. cbn [fold_right].
        assert (E : fold_right Init.Nat.add 0 (map (fun x => (if Nat.eqb (occ a t) x then 1 else 0) + fold_right Init.Nat.add 0 (map (fun t0 : trace => if Nat.eqb (occ a t0) x then 1 else 0) l)) s) =
                fold_right Init.Nat.add 0 (map (fun x => if Nat.eqb (occ a t) x then 1 else 0) s) + fold_right Init.Nat.add 0 (map (fun x => fold_right Init.Nat.add 0 (map (fun t0 : trace => if Nat.eqb (occ a t0) x then 1 else 0) l)) s)).
        { clear. induction s as [|x s IH]; cbn [map fold_right]; auto. rewrite IH. lia. }
        rewrite E. apply Nat.add_le_mono; auto.
        pose proof (sum_single (occ a t) (fun x => if Nat.eqb (occ a t) x then 1 else 0) s N) as G. unfold list_sum in G. rewrite G by (intros y Hy; destruct (Nat.eqb_spec (occ a t) y); congruence).
        rewrite Nat.eqb_refl. unfold memn. rewrite <- occ_count. destruct (existsb _ s); auto.
  - intros n Hn. subst s. apply in_map_iff in Hn. destruct Hn as ([x y] & <- & H). apply cut_in in H. apply (Permutation_in _ (Permutation_sym P)) in H.
    assert (Hx : In x (d_keys c)) by (apply in_map_iff; exists (x, y); auto). apply C3 in Hx. destruct Hx as (t & k & H1 & H2). exists t. rewrite <- occ_count. split; auto. eapply variants_pos; eauto.
Qed.
(** ** Dataframes: at noise 0 the number used for len(log) does not matter *)
Lemma freq_len l n : length l <= n -> activ_freq (c_of l) (c_of (concat l)) n 0 = map (fun ac => (fst ac, map fst (sorted_by (fun x => (- Z.of_nat (snd x))%Z) (snd ac)))) (freq_table (c_of l) (c_of (concat l))).
Proof.
  intros Hl. unfold activ_freq. apply map_ext_in. intros [a c] Hin. cbn [fst snd]. f_equal. f_equal.
  assert (Hall : forall t n a, In (t, n) (c_of l : @counter trace) -> In a t -> In a (d_keys (c_of (concat l)))).
  { intros t n' a' H G. apply c_of_keys, in_concat. exists t. split; auto. eapply variants_pos; eauto. }
  destruct (freq_table_spec _ _ Hall) as [N T]. specialize (T a). rewrite (d_in_get _ _ _ N Hin) in T. destruct T as (_ & _ & T3).
  pose proof (sorted_by_perm (fun x : nat * nat => (- Z.of_nat (snd x))%Z) c) as P. apply cut_all.
  - intros x y H. apply (Permutation_in _ (Permutation_sym P)) in H. destruct T3 as (C1 & C2 & C3).
    pose proof (d_in_get _ _ _ C1 H) as G. assert (E : y = c_get c x) by (unfold c_get; rewrite G; auto). rewrite E, C2. apply sum_pos.
    assert (Hx : In x (d_keys c)) by (apply in_map_iff; exists (x, y); auto). apply C3 in Hx. destruct Hx as (t & k & H1 & H2). exists (t, k). split; auto.
    cbn [fst snd]. rewrite H2, Nat.eqb_refl. eapply variants_pos; eauto.
  - assert (S : list_sum (map snd (sorted_by (fun x => (- Z.of_nat (snd x))%Z) c)) = length l).
    { rewrite <- variants_len, <- (col_sum _ _ _ T3). symmetry. unfold list_sum. apply (Permutation_map snd) in P. clear -P. induction P; cbn; lia. }
    rewrite S. assert (E : ((1 - 0) * qnat n == qnat n)%Q) by ring. rewrite E. apply Qle_bool_iff, qnat_le. lia.
Qed.
Lemma events_ge l : (forall t, In t l -> t <> []) -> length l <= length (concat l : trace).
Proof.
  induction l as [|t l IH]; cbn; auto. intros H. rewrite app_length. specialize (IH (fun t h => H t (or_intror h))). destruct t as [|a t]; [destruct (H []); auto|]. cbn. lia.
Qed.
