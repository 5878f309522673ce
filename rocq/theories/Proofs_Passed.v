(** Proofs for C112. *)
From Coq Require Import List Arith Bool ZArith QArith Lqa Lia.
From Verif Require Import Spec_Passed Model_Passed.
Import ListNotations.
Open Scope nat_scope.

(** ** grouping *)
Section dict.
  Context {K : Type} (eqb : K -> K -> bool) (E : forall x y, eqb x y = true <-> x = y).
  Lemma eqb_r x : eqb x x = true.
  Proof. apply E. auto. Qed.
  Lemma append_keys d k v x : In x (map fst (append eqb d k v)) <-> In x (map fst d) \/ x = k.
  Proof.
    induction d as [|[k' l] d IH]; cbn; [intuition|]. destruct (eqb k k') eqn:Q; cbn; [apply E in Q; subst; intuition|]. rewrite IH. tauto.
  Qed.
  Lemma append_NoDup d k v : NoDup (map fst d) -> NoDup (map fst (append eqb d k v)).
  Proof.
    induction d as [|[k' l] d IH]; cbn; intros N; [constructor; auto; constructor|]. inversion N as [|? ? H N']; subst. destruct (eqb k k') eqn:Q; cbn; constructor; auto. rewrite append_keys. intros [I| ->]; auto. rewrite eqb_r in Q. discriminate.
  Qed.
  Lemma append_in d k v x l : NoDup (map fst d) -> (In (x, l) (append eqb d k v) <-> (x <> k /\ In (x, l) d) \/ (x = k /\ ((exists l', In (k, l') d /\ l = l' ++ [v]) \/ (~ In k (map fst d) /\ l = [v])))).
  Proof.
    induction d as [|[k' l'] d IH]; cbn; intros N.
    - split; [intros [H|[]]; injection H as <- <-; right; auto|]. intros [[_ []]|[-> [(l' & [] & _)|[_ ->]]]]; auto.
    - inversion N as [|? ? H N']; subst. destruct (eqb k k') eqn:Q.
      + apply E in Q. subst k'. cbn. split.
        * intros [I|I]; [injection I as <- <-; right; split; auto; left; eauto|]. left. split; auto. intros ->. apply H. apply (in_map fst) in I. auto.
        * intros [[D [I|I]]|[-> [(l2 & [I|I] & ->)|[C _]]]]; auto; try congruence; try tauto.
          -- injection I as ->. auto.
          -- exfalso. apply H. apply (in_map fst) in I. auto.
      + assert (D : k <> k') by (intros ->; rewrite eqb_r in Q; discriminate). cbn. rewrite (IH N'). split.
        * intros [I|[[D2 I]|[-> [(l2 & I & ->)|[C ->]]]]]; auto.
          -- injection I as <- <-. left. split; auto.
          -- right. split; auto. left. eauto.
          -- right. split; auto. right. split; auto. intros [J|J]; congruence.
        * intros [[D2 [I|I]]|[-> [(l2 & [I|I] & ->)|[C ->]]]]; auto; try congruence.
          -- right. right. split; auto. left. eauto.
          -- right. right. split; auto. right. split; auto.
  Qed.
  Definition vals (k : K) (cs : list (K * Z)) : list Z := map snd (filter (fun c => eqb (fst c) k) cs).
  Lemma group_ok cs : NoDup (map fst (group eqb cs)) /\ forall k l, In (k, l) (group eqb cs) <-> In k (map fst cs) /\ l = vals k cs.
  Proof.
    induction cs as [|c cs [N I]] using rev_ind; [cbn; split; [constructor|tauto]|]. unfold group in *. rewrite fold_left_app. cbn [fold_left]. destruct c as [k v]. cbn [fst snd]. split; [apply append_NoDup; auto|].
    assert (Ik : forall x, In x (map fst (fold_left (fun d c => append eqb d (fst c) (snd c)) cs [])) <-> In x (map fst cs)).
    { intros x. rewrite in_map_iff. split; [intros ([y l] & <- & J); apply I in J; apply J|]. intros J. exists (x, vals x cs). split; auto. apply I. auto. }
    assert (V : forall x, vals x (cs ++ [(k, v)]) = vals x cs ++ if eqb k x then [v] else []).
    { intros x. unfold vals. rewrite filter_app, map_app. cbn. destruct (eqb k x); auto. }
    intros x l. rewrite append_in by auto. rewrite Ik, map_app, in_app_iff, V. cbn [map fst In]. split.
    - intros [[D J]|[-> [(l' & J & ->)|[C ->]]]].
      + apply I in J as [J ->]. split; auto. replace (eqb k x) with false; [rewrite app_nil_r; auto|]. symmetry. apply not_true_iff_false. rewrite E. congruence.
      + apply I in J as [J ->]. split; auto. rewrite eqb_r. auto.
      + split; auto. rewrite eqb_r. assert (Vn : vals k cs = []). { unfold vals. destruct (filter _ cs) as [|c r] eqn:F; auto. assert (J : In c (filter (fun c => eqb (fst c) k) cs)) by (rewrite F; left; auto). apply filter_In in J as [J1 J2]. apply E in J2. exfalso. apply C. rewrite <- J2. apply in_map; auto. } rewrite Vn. auto.
    - intros [J ->]. destruct (eqb k x) eqn:Q.
      + apply E in Q. subst x. right. split; auto. destruct (existsb (fun c => eqb (fst c) k) cs) eqn:X.
        * left. exists (vals k cs). split; auto. apply I. split; auto. apply existsb_exists in X as (c & J1 & J2). apply E in J2. rewrite <- J2. apply in_map; auto.
        * right. assert (C : ~ In k (map fst cs)). { intros J'. apply in_map_iff in J' as (c & <- & J'). assert (existsb (fun c' => eqb (fst c') (fst c)) cs = true) by (apply existsb_exists; exists c; split; auto; apply eqb_r). congruence. } split; auto. unfold vals. destruct (filter _ cs) as [|c r] eqn:F; auto. assert (J1 : In c (filter (fun c => eqb (fst c) k) cs)) by (rewrite F; left; auto). apply filter_In in J1 as [J1 J2]. apply E in J2. exfalso. apply C. rewrite <- J2. apply in_map; auto.
      + rewrite app_nil_r. left. assert (D : x <> k) by (intros ->; rewrite eqb_r in Q; discriminate). split; auto. apply I. split; auto. destruct J as [J|[J|[]]]; auto. congruence.
  Qed.
End dict.

(** ** the couples *)
Lemma couples_spec t : couples t = flat_map (wait_at t) (seq 0 (length t)).
Proof.
  induction t as [|e t IH]; auto. cbn [length seq flat_map]. rewrite <- seq_shift, flat_map_concat_map, map_map, <- flat_map_concat_map. destruct t as [|f t]; auto. change (couples (e :: f :: t)) with ((act e, act f, Z.max 0 (start f - stamp e)) :: couples (f :: t)). rewrite IH. auto.
Qed.
Lemma couples_pairs log : flat_map couples log = pairs log.
Proof. unfold pairs. apply flat_map_ext. intros t. apply couples_spec. Qed.
Lemma pair_eqb_iff x y : pair_eqb x y = true <-> x = y.
Proof. destruct x, y. unfold pair_eqb. cbn. rewrite andb_true_iff, !Nat.eqb_eq. split; [intros [-> ->]; auto|intros H; injection H; auto]. Qed.
Lemma vals_waits a b log : vals pair_eqb (a, b) (pairs log) = waits (between a b) log.
Proof. unfold vals, waits, between, pair_eqb. auto. Qed.

(** ** aggregation *)
Lemma fold_sum l : forall s, fold_left Z.add l s = (s + sum l)%Z.
Proof. induction l as [|x l IH]; intros s; cbn [fold_left sum fold_right]; [lia|]. fold (sum l). rewrite IH. lia. Qed.
Lemma fold_min l : forall x, In (fold_left Z.min l x) (x :: l) /\ forall y, In y (x :: l) -> (fold_left Z.min l x <= y)%Z.
Proof.
  induction l as [|z l IH]; intros x; cbn [fold_left]; [split; [left; auto|intros y [->|[]]; lia]|]. destruct (IH (Z.min x z)) as [I M]. split.
  - destruct I as [I|I]; [|right; right; auto]. rewrite <- I. destruct (Z.min_spec x z) as [[_ ->]|[_ ->]]; [left|right; left]; auto.
  - pose proof (M _ (or_introl eq_refl)). intros y [->|[->|J]]; [lia|lia|]. apply M. right; auto.
Qed.
Lemma fold_max l : forall x, In (fold_left Z.max l x) (x :: l) /\ forall y, In y (x :: l) -> (y <= fold_left Z.max l x)%Z.
Proof.
  induction l as [|z l IH]; intros x; cbn [fold_left]; [split; [left; auto|intros y [->|[]]; lia]|]. destruct (IH (Z.max x z)) as [I M]. split.
  - destruct I as [I|I]; [|right; right; auto]. rewrite <- I. destruct (Z.max_spec x z) as [[_ ->]|[_ ->]]; [right; left|left]; auto.
  - pose proof (M _ (or_introl eq_refl)). intros y [->|[->|J]]; [lia|lia|]. apply M. right; auto.
Qed.
Lemma aggregate_describes m l : l <> [] -> describes m l (aggregate m l).
Proof.
  intros H. destruct l as [|x l]; [congruence|]. destruct m; cbn [aggregate describes].
  - exists (fold_left Z.min l x). destruct (fold_min l x). auto.
  - exists (fold_left Z.max l x). destruct (fold_max l x). auto.
  - rewrite fold_sum. auto.
  - rewrite fold_sum. auto.
Qed.

(** ** sums over the entries *)

Lemma sum_cons x l : sum (x :: l) = (x + sum l)%Z.
Proof. auto. Qed.
Lemma sum_app x y : sum (x ++ y) = (sum x + sum y)%Z.
Proof. induction x as [|z x IH]; [cbn [app]; cbn; lia|]. cbn [app]. rewrite !sum_cons, IH. lia. Qed.
Section sums.
  Context {K : Type} (eqb : K -> K -> bool) (E : forall x y, eqb x y = true <-> x = y) (f : list Z -> Z) (g : Z -> Z) (F0 : f [] = 0%Z) (F1 : forall l v, f (l ++ [v]) = (f l + g v)%Z) (sel : K -> bool).
  Lemma append_sum d k v : sum (map (fun p => f (snd p)) (filter (fun p => sel (fst p)) (append eqb d k v))) = (sum (map (fun p => f (snd p)) (filter (fun p => sel (fst p)) d)) + (if sel k then g v else 0))%Z.
  Proof.
    induction d as [|[k' l] d IH].
    - cbn. destruct (sel k); cbn; auto. change [v] with ([] ++ [v]). rewrite F1, F0. lia.
    - cbn [append]. destruct (eqb k k') eqn:Q; cbn [filter fst].
      + apply E in Q. subst k'. destruct (sel k); [|lia]. cbn [map snd]. rewrite !sum_cons, F1. lia.
      + destruct (sel k'); cbn [map snd]; rewrite ?sum_cons, IH; lia.
  Qed.
  Lemma group_sum cs : sum (map (fun p => f (snd p)) (filter (fun p => sel (fst p)) (group eqb cs))) = sum (map (fun c => g (snd c)) (filter (fun c => sel (fst c)) cs)).
  Proof.
    induction cs as [|c cs IH] using rev_ind; auto. unfold group in *. rewrite fold_left_app. cbn [fold_left]. rewrite append_sum, IH, filter_app, map_app. cbn [filter]. rewrite sum_app. destruct (sel (fst c)); cbn [map]; rewrite ?sum_cons; cbn [sum fold_right]; lia.
  Qed.
End sums.
Lemma sum_ones {X} (l : list X) : sum (map (fun _ => 1%Z) l) = Z.of_nat (length l).
Proof. induction l as [|x l IH]; auto. cbn [map sum fold_right length]. fold (sum (map (fun _ => 1%Z) l)). rewrite IH. lia. Qed.
Lemma frequency_vals log k : frequency log k = length (vals pair_eqb k (pairs log)).
Proof.
  unfold frequency, vals. rewrite couples_pairs, map_length. f_equal. apply filter_ext. intros c. destruct (pair_eqb k (fst c)) eqn:A, (pair_eqb (fst c) k) eqn:B; auto.
  - apply pair_eqb_iff in A. rewrite A, (proj2 (pair_eqb_iff _ _) eq_refl) in B. discriminate.
  - apply pair_eqb_iff in B. rewrite B, (proj2 (pair_eqb_iff _ _) eq_refl) in A. discriminate.
Qed.
Lemma entry_vals log k l : In (k, l) (group pair_eqb (pairs log)) -> l = vals pair_eqb k (pairs log) /\ l <> [].
Proof.
  intros H. destruct (group_ok pair_eqb pair_eqb_iff (pairs log)) as [_ I]. apply I in H as [H ->]. split; auto. apply in_map_iff in H as (c & <- & H). unfold vals. intros N. apply map_eq_nil in N. assert (J : In c (filter (fun c' => pair_eqb (fst c') (fst c)) (pairs log))) by (apply filter_In; split; auto; apply pair_eqb_iff; auto). rewrite N in J. destruct J.
Qed.
Lemma fold_Qsum {X} (h : X -> Q) (z : X -> Z) l : (forall p, In p l -> h p == inject_Z (z p))%Q -> forall s, (fold_left (fun s p => s + h p) l s == s + inject_Z (sum (map z l)))%Q.
Proof.
  induction l as [|p l IH]; intros H s; cbn [fold_left map sum fold_right]; [cbn; ring|]. fold (sum (map z l)). rewrite IH by (intros; apply H; right; auto). rewrite (H p) by (left; auto). rewrite inject_Z_plus. ring.
Qed.
Lemma filter_map_fst {A B C} (h : A * B -> C) (sel : A -> bool) l : filter (fun p : A * C => sel (fst p)) (map (fun p : A * B => (fst p, h p)) l) = map (fun p => (fst p, h p)) (filter (fun p => sel (fst p)) l).
Proof. induction l as [|x l IH]; auto. cbn. destruct (sel (fst x)); cbn; rewrite IH; auto. Qed.
Lemma side_average sel other log a : snd (side sel other log a) == average (map snd (filter (fun x => Nat.eqb (sel (fst x)) a) (pairs log))).
Proof.
  unfold side. cbn [snd]. unfold performance. rewrite couples_pairs. rewrite (filter_map_fst (fun p => aggregate Mmean (snd p)) (fun k => Nat.eqb (sel k) a)).
  set (G := filter (fun p : nat * nat * list Z => Nat.eqb (sel (fst p)) a) (group pair_eqb (pairs log))).
  assert (GI : forall p, In p G -> snd p = vals pair_eqb (fst p) (pairs log) /\ snd p <> []) by (intros [k l] Hp; apply filter_In in Hp as [Hp _]; apply entry_vals in Hp; auto).
  assert (FM : forall X Y (h : Q -> Y -> Q) (m : X -> Y) (l : list X) s, fold_left h (map m l) s = fold_left (fun s x => h s (m x)) l s) by (induction l as [|x l IH]; intros s; cbn; auto).
  rewrite !FM. cbn [fst snd].
  assert (SS : (fold_left (fun s x => s + aggregate Mmean (snd x) * inject_Z (Z.of_nat (frequency log (fst x)))) G 0 == 0 + inject_Z (sum (map (fun p => sum (snd p)) G)))%Q).
  { apply (fold_Qsum (fun p => aggregate Mmean (snd p) * inject_Z (Z.of_nat (frequency log (fst p))))%Q (fun p => sum (snd p)) G). intros p Hp. destruct (GI p Hp) as [V N]. rewrite frequency_vals, <- V. cbn [aggregate]. rewrite fold_sum. rewrite Z.add_0_l. rewrite Qmult_comm. apply Qmult_div_r. intros Z0. unfold Qeq in Z0. cbn in Z0. destruct (snd p); [congruence|cbn in Z0; lia]. }
  assert (SN : (fold_left (fun s x => s + inject_Z (Z.of_nat (frequency log (fst x)))) G 0 == 0 + inject_Z (sum (map (fun p => Z.of_nat (length (snd p))) G)))%Q).
  { apply (fold_Qsum (fun x => inject_Z (Z.of_nat (frequency log (fst x)))) (fun p => Z.of_nat (length (snd p))) G). intros p Hp. destruct (GI p Hp) as [V _]. rewrite frequency_vals, <- V. reflexivity. }
  assert (S1 : sum (map (fun p => sum (snd p)) G) = sum (map (fun c => snd c) (filter (fun c => Nat.eqb (sel (fst c)) a) (pairs log)))).
  { refine (group_sum pair_eqb pair_eqb_iff sum (fun z => z) eq_refl _ (fun k => Nat.eqb (sel k) a) (pairs log)). intros l v. rewrite sum_app, sum_cons. cbn [sum fold_right]. lia. }
  assert (S2 : sum (map (fun p => Z.of_nat (length (snd p))) G) = sum (map (fun c => 1%Z) (filter (fun c => Nat.eqb (sel (fst c)) a) (pairs log)))).
  { refine (group_sum pair_eqb pair_eqb_iff (fun l => Z.of_nat (length l)) (fun _ => 1%Z) eq_refl _ (fun k => Nat.eqb (sel k) a) (pairs log)). intros l v. rewrite app_length. cbn [length]. lia. }
  rewrite sum_ones in S2. rewrite S1 in SS. rewrite S2 in SN. unfold average. rewrite map_length. fold (@snd (nat * nat) Z). change (fun c : nat * nat * Z => snd c) with (@snd (nat * nat) Z) in *. destruct (Qle_bool _ 0) eqn:Q.
  - apply Qle_bool_iff in Q. rewrite SN in Q. rewrite Qplus_0_l in Q. change 0%Q with (inject_Z 0) in Q. rewrite <- Zle_Qle in Q. destruct (filter _ (pairs log)); [reflexivity|cbn [length] in Q; lia].
  - rewrite SS, SN, !Qplus_0_l. reflexivity.
Qed.
