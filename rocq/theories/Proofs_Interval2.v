(** The counters of concurrent and eventually following activities. *)
From Coq Require Import List Arith ZArith Bool Lia Permutation Sorted.
Import ListNotations.
From Verif Require Import Model_Dict Model_Lev Model_Interval Spec_Interval Spec_Dfg Proofs_Dict Proofs_Dfg Proofs_Lev Proofs_Interval1.
From Verif Require Proofs_Precision4.
Local Open Scope nat_scope.
Notation bump := (fun (d : @counter (nat * nat)) k => c_add d k 1).

Definition shareb (strict : bool) (e1 e2 : iev) : bool :=
  let lo := Z.max (ie_start e1) (ie_start e2) in let hi := Z.min (ie_end e1) (ie_end e2) in
  (lo <=? hi)%Z && (negb strict || (lo <? hi)%Z).
Lemma shareb_iff strict e1 e2 : shareb strict e1 e2 = true <-> share strict e1 e2.
Proof.
  unfold shareb, share. rewrite andb_true_iff, orb_true_iff, Z.leb_le, Z.ltb_lt, negb_true_iff. destruct strict.
  - split; [intros [H [?|H']]; [discriminate|]; exists (Z.max (ie_start e1) (ie_start e2)), (Z.min (ie_end e1) (ie_end e2)); lia|]. intros (x & y & H). split; [lia|right; lia].
  - split; [intros [H _]; exists (Z.max (ie_start e1) (ie_start e2)); lia|]. intros (x & H). split; [lia|auto].
Qed.
Definition ckey (p : iev * iev) : nat * nat := sorted_pair (ie_act (fst p)) (ie_act (snd p)).
Lemma conc_inner_fold strict e1 rest : forall d, StronglySorted (fun a b => (ie_start a <= ie_start b)%Z) (e1 :: rest) -> (forall e, In e rest -> forward e) ->
  conc_inner strict e1 rest d = fold_left bump (map ckey (filter (fun p => shareb strict (fst p) (snd p)) (map (pair e1) rest))) d.
Proof.
  induction rest as [|e2 r IH]; intros d Hs Hf; [reflexivity|]. inversion Hs as [|? ? Hs1 HF]; subst. inversion Hs1 as [|? ? Hs2 HF2]; subst. cbn [conc_inner map filter fst snd].
  assert (Hs' : StronglySorted (fun a b => (ie_start a <= ie_start b)%Z) (e1 :: r)) by (constructor; auto; inversion HF; auto).
  unfold shareb at 1. cbn zeta. destruct (Z.leb_spec (Z.max (ie_start e1) (ie_start e2)) (Z.min (ie_end e1) (ie_end e2))) as [Hle|Hgt].
  - cbn [andb]. rewrite IH; auto; [|intros; apply Hf; right; auto]. destruct (negb strict || _); reflexivity.
  - cbn [andb]. replace (filter _ _) with (@nil (iev * iev)); [reflexivity|]. symmetry. rewrite Forall_forall in HF, HF2.
    assert (Hf2 := Hf e2 (or_introl eq_refl)). unfold forward in Hf2. pose proof (HF e2 (or_introl eq_refl)).
    clear - HF2 Hgt Hf2 H. induction r as [|e r IH]; cbn; [auto|]. unfold shareb at 1. cbn zeta.
    destruct (Z.leb_spec (Z.max (ie_start e1) (ie_start e)) (Z.min (ie_end e1) (ie_end e))) as [Hle|_]; [|cbn; apply IH; intros; apply HF2; right; auto].
    exfalso. pose proof (HF2 e (or_introl eq_refl)). lia.
Qed.
Lemma conc_outer_fold strict t : forall d, StronglySorted (fun a b => (ie_start a <= ie_start b)%Z) t -> (forall e, In e t -> forward e) ->
  conc_outer strict t d = fold_left bump (map ckey (filter (fun p => shareb strict (fst p) (snd p)) (opairs t))) d.
Proof.
  induction t as [|e t IH]; intros d Hs Hf; [reflexivity|]. cbn [conc_outer opairs]. rewrite filter_app, map_app, fold_left_app.
  rewrite <- conc_inner_fold; auto; [|intros; apply Hf; right; auto]. apply IH; [inversion Hs; auto|intros; apply Hf; right; auto].
Qed.
Lemma fold_flat {A K} {EK : Key K} (F : @counter K -> A -> @counter K) (G : A -> list K) l : forall d, (forall t d, In t l -> F d t = fold_left (fun d k => c_add d k 1) (G t) d) ->
  fold_left F l d = fold_left (fun d k => c_add d k 1) (flat_map G l) d.
Proof.
  induction l as [|t l IH]; intros d H; [reflexivity|]. cbn. rewrite fold_left_app, <- (H t d) by (left; auto). apply IH. intros; apply H; right; auto.
Qed.
Lemma occ_flat {A K} {EK : Key K} (G : A -> list K) k l : occ k (flat_map G l) = list_sum (map (fun t => occ k (G t)) l).
Proof. induction l as [|t l IH]; [reflexivity|]. cbn [flat_map map]. rewrite occ_app, IH. reflexivity. Qed.
Lemma occ_map_filter {X K} {EK : Key K} (f : X -> K) (p : X -> bool) k l : occ k (map f (filter p l)) = length (filter (fun x => p x && keqb (f x) k) l).
Proof. unfold occ. rewrite filter_map_len. induction l as [|x l IH]; cbn; [auto|]. destruct (p x); cbn; [|auto]. destruct (keqb (f x) k); cbn; auto. Qed.

Definition ckeys (strict : bool) (t : itrace) := map ckey (filter (fun p => shareb strict (fst p) (snd p)) (opairs (sorted_by ie_start t))).
Lemma concurrent_of strict l : (forall t e, In t l -> In e t -> forward e) -> concurrent_activities strict l = c_of (flat_map (ckeys strict) l).
Proof.
  intros H. unfold concurrent_activities, c_of. apply fold_flat. intros t d Ht. apply conc_outer_fold; [apply sorted_by_sorted|].
  intros e He. apply (H t e Ht). eapply Permutation_in; [symmetry; apply sorted_by_perm|exact He].
Qed.
Lemma sorted_pair_eq a b x y : a <= b -> (sorted_pair x y = (a, b) <-> (x = a /\ y = b) \/ (x = b /\ y = a)).
Proof. intros H. unfold sorted_pair. destruct (Nat.leb_spec x y); split; [intros [= -> ->]; auto|intros [[-> ->]|[-> ->]]; f_equal; lia|intros [= -> ->]; auto|intros [[-> ->]|[-> ->]]; f_equal; lia]. Qed.
Lemma share_sym strict e1 e2 : share strict e1 e2 -> share strict e2 e1.
Proof. unfold share. destruct strict; [intros (x & y & H); exists x, y; tauto|intros (x & H); exists x; tauto]. Qed.
Lemma ckeys_count strict t a b : a <= b -> exactly (occ (a, b) (ckeys strict t)) (fun ij => fst ij < snd ij /\ exists e1 e2,
  nth_error t (fst ij) = Some e1 /\ nth_error t (snd ij) = Some e2 /\ share strict e1 e2 /\ ((ie_act e1 = a /\ ie_act e2 = b) \/ (ie_act e1 = b /\ ie_act e2 = a))).
Proof.
  intros Hab. unfold ckeys. rewrite occ_map_filter.
  eapply (exactly_image _ _ _ (fun ij => if Nat.ltb (fst ij) (snd ij) then ij else (snd ij, fst ij))); [| |apply (count_pairs t (fun x y => shareb strict x y && keqb (ckey (x, y)) (a, b)))].
  - intros [i j] [i' j'] (e & f & A & B & C & _) (e' & f' & A' & B' & C' & _). cbn [fst snd] in *. unfold earlier in *.
    destruct (Nat.ltb_spec i j), (Nat.ltb_spec i' j'); intros [= E1 E2]; subst; auto; exfalso.
    + rewrite A in B'. rewrite B in A'. injection B' as ->. injection A' as ->. lia.
    + rewrite A in B'. rewrite B in A'. injection B' as ->. injection A' as ->. lia.
  - intros [i j]. cbn [fst snd]. split.
    + intros (Hij & e & f & A & B & S & K). destruct (Z.le_gt_cases (ie_start e) (ie_start f)).
      * exists (i, j). cbn [fst snd]. destruct (Nat.ltb_spec i j); [|lia]. split; auto. exists e, f. split; auto. split; auto. split; [unfold earlier; lia|]. apply andb_true_iff. split; [apply shareb_iff; auto|].
        apply keqb_true. unfold ckey. cbn [fst snd]. apply sorted_pair_eq; auto.
      * exists (j, i). cbn [fst snd]. destruct (Nat.ltb_spec j i); [lia|]. split; auto. exists f, e. split; auto. split; auto. split; [unfold earlier; lia|]. apply andb_true_iff. split; [apply shareb_iff, share_sym; auto|].
        apply keqb_true. unfold ckey. cbn [fst snd]. apply sorted_pair_eq; auto. tauto.
    + intros ([i' j'] & (e & f & A & B & C & D) & E). cbn [fst snd] in *. apply andb_true_iff in D as [D1 D2]. apply shareb_iff in D1. apply keqb_true in D2. unfold ckey in D2. cbn [fst snd] in D2. apply sorted_pair_eq in D2; auto.
      destruct (Nat.ltb_spec i' j'); injection E as <- <-; [split; auto; exists e, f; auto|]. split.
      * destruct (Nat.eq_dec i' j') as [->|]; [|lia]. rewrite A in B. injection B as ->. unfold earlier in C. lia.
      * exists f, e. split; auto. split; auto. split; [apply share_sym; auto|tauto].
Qed.

(** * Eventually follows *)
Definition leadsb (e1 e2 : iev) : bool := (ie_end e1 <=? ie_start e2)%Z.
Definition fkey (p : iev * iev) : nat * nat := (ie_act (fst p), ie_act (snd p)).
Lemma efg_outer_all t : forall d, efg_outer false t d = fold_left bump (map fkey (filter (fun p => leadsb (fst p) (snd p)) (opairs t))) d.
Proof.
  induction t as [|e t IH]; intros d; [reflexivity|]. cbn [efg_outer opairs]. rewrite filter_app, map_app, fold_left_app, <- IH. f_equal.
  clear IH. revert d. induction t as [|e2 r IH]; intros d; [reflexivity|]. cbn [efg_inner map filter fst snd]. unfold leadsb at 1. destruct (ie_end e <=? ie_start e2)%Z; cbn; apply IH.
Qed.
Lemma efg_outer_first t : forall d, efg_outer true t d = fold_left bump (map fkey (fpairs leadsb t)) d.
Proof.
  induction t as [|e t IH]; intros d; [reflexivity|]. cbn [efg_outer fpairs]. rewrite map_app, fold_left_app, <- IH. f_equal.
  clear IH. revert d. induction t as [|e2 r IH]; intros d; [reflexivity|]. cbn [efg_inner find]. unfold leadsb at 1. destruct (ie_end e <=? ie_start e2)%Z; cbn; auto.
Qed.
Definition fkeys (first : bool) (t : itrace) : list (nat * nat) :=
  map fkey (if first then fpairs leadsb (sorted_by ie_start t) else filter (fun p => leadsb (fst p) (snd p)) (opairs (sorted_by ie_start t))).
Lemma efg_of first l : eventually_follows first l = c_of (flat_map (fkeys first) l).
Proof.
  unfold eventually_follows, c_of. apply fold_flat. intros t d _. unfold fkeys. destruct first; [apply efg_outer_first|apply efg_outer_all].
Qed.
Lemma keyb a b x y : keqb (fkey (x, y)) (a, b) = true <-> ie_act x = a /\ ie_act y = b.
Proof. rewrite keqb_true. unfold fkey. cbn. split; [intros [= -> ->]; auto|intros [-> ->]; auto]. Qed.
Lemma fkeys_all t a b : exactly (occ (a, b) (fkeys false t)) (fun ij => exists e1 e2, nth_error t (fst ij) = Some e1 /\ nth_error t (snd ij) = Some e2 /\
  ie_act e1 = a /\ ie_act e2 = b /\ earlier (fst ij) (snd ij) e1 e2 /\ (ie_end e1 <= ie_start e2)%Z).
Proof.
  unfold fkeys. rewrite occ_map_filter. eapply exactly_ext; [|apply (count_pairs t (fun x y => leadsb x y && keqb (fkey (x, y)) (a, b)))]. intros [i j]. cbn [fst snd].
  split; intros (e & f & A & B & C); exists e, f; split; auto; split; auto.
  - destruct C as [C D]. apply andb_true_iff in D as [D1 D2]. apply keyb in D2. apply Z.leb_le in D1. tauto.
  - destruct C as (C1 & C2 & C3 & C4). split; auto. apply andb_true_iff. split; [apply Z.leb_le; auto|apply keyb; auto].
Qed.
Lemma fkeys_first t a b : exactly (occ (a, b) (fkeys true t)) (fun ij => exists e1 e2, nth_error t (fst ij) = Some e1 /\ nth_error t (snd ij) = Some e2 /\
  ie_act e1 = a /\ ie_act e2 = b /\ earlier (fst ij) (snd ij) e1 e2 /\ (ie_end e1 <= ie_start e2)%Z /\
  forall j' e', nth_error t j' = Some e' -> earlier (fst ij) j' e1 e' -> (ie_end e1 <= ie_start e')%Z -> j' = snd ij \/ earlier (snd ij) j' e2 e').
Proof.
  unfold fkeys, occ. rewrite filter_map_len. eapply exactly_ext; [|apply (count_first t leadsb (fun x y => keqb (fkey (x, y)) (a, b)))]. intros [i j]. cbn [fst snd].
  split; intros (e & f & A & B & C); exists e, f; split; auto; split; auto.
  - destruct C as (C & D & E & F). apply keyb in F. apply Z.leb_le in D. destruct F. repeat (split; auto). intros j' e' H1 H2 H3. apply E; auto. apply Z.leb_le; auto.
  - destruct C as (C1 & C2 & C3 & C4 & C5). split; auto. split; [apply Z.leb_le; auto|]. split; [|apply keyb; auto]. intros j' e' H1 H2 H3. apply (C5 j' e' H1 H2). apply Z.leb_le; auto.
Qed.

(** * On variants *)
Lemma uvcl_inner_get a rest f k : forall d, c_get (uvcl_inner a rest f d) k = c_get d k + occ k (map (pair a) rest) * f.
Proof. induction rest as [|b r IH]; intros d; [cbn; unfold occ; cbn; lia|]. cbn [uvcl_inner map]. rewrite IH, c_get_add, occ_cons. destruct (keqb (a, b) k); lia. Qed.
Lemma uvcl_outer_get t f k : forall d, c_get (uvcl_outer t f d) k = c_get d k + occ k (opairs t) * f.
Proof. induction t as [|a r IH]; intros d; [cbn; unfold occ; cbn; lia|]. cbn [uvcl_outer opairs]. rewrite IH, uvcl_inner_get, occ_app. lia. Qed.
Lemma uvcl_get v k : c_get (eventually_follows_uvcl v) k = list_sum (map (fun tf => occ k (opairs (fst tf)) * snd tf) v).
Proof.
  unfold eventually_follows_uvcl. assert (G : forall d, c_get (fold_left (fun d tf => uvcl_outer (fst tf) (snd tf) d) v d) k = c_get d k + list_sum (map (fun tf => occ k (opairs (fst tf)) * snd tf) v)).
  { induction v as [|[t f] v IH]; intros d; [cbn; lia|]. cbn [fold_left map fst snd]. rewrite IH, uvcl_outer_get, Proofs_Precision4.lsum_cons. cbn [fst snd]. lia. }
  rewrite G. reflexivity.
Qed.
Lemma add_keys {K} {EK : Key K} (d : @counter K) k n x : In x (d_keys (c_add d k n)) <-> x = k \/ In x (d_keys d).
Proof. apply d_in_keys_set. Qed.
Lemma uvcl_keys v x : In x (d_keys (eventually_follows_uvcl v)) <-> exists t f, In (t, f) v /\ In x (opairs t).
Proof.
  assert (I : forall a rest f d, In x (d_keys (uvcl_inner a rest f d)) <-> In x (map (pair a) rest) \/ In x (d_keys d)).
  { intros a rest f. induction rest as [|b r IH]; intros d; [cbn; tauto|]. cbn [uvcl_inner map In]. rewrite IH, add_keys. intuition. }
  assert (O : forall t f d, In x (d_keys (uvcl_outer t f d)) <-> In x (opairs t) \/ In x (d_keys d)).
  { intros t f. induction t as [|a r IH]; intros d; [cbn; tauto|]. cbn [uvcl_outer opairs]. rewrite IH, I, in_app_iff. tauto. }
  unfold eventually_follows_uvcl. assert (G : forall d, In x (d_keys (fold_left (fun d tf => uvcl_outer (fst tf) (snd tf) d) v d)) <-> In x (d_keys d) \/ exists t f, In (t, f) v /\ In x (opairs t)).
  { induction v as [|[t f] v IH]; intros d; [cbn; split; [auto|intros [?|(t & f & [] & _)]; auto]|]. cbn [fold_left fst snd]. rewrite IH, O. split.
    - intros [[H|H]|(t' & f' & H1 & H2)]; [right; exists t, f; split; [left; auto|auto]|auto|right; exists t', f'; split; [right; auto|auto]].
    - intros [H|(t' & f' & [[= <- <-]|H1] & H2)]; [auto|auto|right; exists t', f'; auto]. }
  rewrite G. cbn. tauto.
Qed.
