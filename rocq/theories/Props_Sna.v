(** C93: social networks. *)
From Coq Require Import List Arith ZArith QArith Qpower Bool Lia Lqa Permutation Setoid.
Import ListNotations.
From Verif Require Import Model_Lev Model_Dict Model_Sna Spec_Eval Spec_Sna Proofs_Dict Proofs_Lev Proofs_Sna.
Local Open Scope Q_scope.

(** ---- handover ---- *)
Section Hand.
  Variable beta : Q.
  Hypothesis Hb : 0 <= beta.
  (** the contribution of the resources after a *)
  Definition after (a k : nat) (r : list nat) (x y : nat) : Q := (if Nat.eqb a x then 1 else 0) * Qsum (map (fun j => is r j y * beta ^ Z.of_nat (k + j)) (seq 0 (length r))).
  Definition after_all (k : nat) (r : list nat) : Q := Qsum (map (fun j => beta ^ Z.of_nat (k + j)) (seq 0 (length r))).
  Lemma after_cons a k b r x y : after a k (b :: r) x y == (if keqb (a, b) (x, y) then beta ^ Z.of_nat k else 0) + after a (S k) r x y.
  Proof.
    unfold after. cbn [length seq map Qsum]. rewrite Nat.add_0_r. rewrite <- (seq_shift (length r) 0), map_map. rewrite (qs_ext (fun j => is (b :: r) (S j) y * beta ^ Z.of_nat (k + S j)) (fun j => is r j y * beta ^ Z.of_nat (S k + j))) by (intros j _; rewrite is_S, Nat.add_succ_r; reflexivity).
    unfold is at 1. cbn [nth_error]. cbn [keqb key_pair key_nat fst snd]. destruct (Nat.eqb a x), (Nat.eqb b y); cbn [andb]; ring.
  Qed.
  Lemma after_all_cons k b r : after_all k (b :: r) == beta ^ Z.of_nat k + after_all (S k) r.
  Proof. unfold after_all. cbn [length seq map Qsum]. rewrite Nat.add_0_r. rewrite <- (seq_shift (length r) 0), map_map. rewrite (qs_ext (fun j => beta ^ Z.of_nat (k + S j)) (fun j => beta ^ Z.of_nat (S k + j))) by (intros j _; rewrite Nat.add_succ_r; reflexivity). reflexivity. Qed.
  Lemma pow_nonneg k : 0 <= beta ^ Z.of_nat k.
  Proof. apply Qpower_pos. auto. Qed.
  Lemma pow_zero k : beta == 0 -> beta ^ Z.of_nat (S k) == 0.
  Proof. intros E. rewrite E. apply Qpower_0. lia. Qed.
  Lemma after_all_nonneg k r : 0 <= after_all k r.
  Proof. apply qs_nonneg. intros x Hx. apply in_map_iff in Hx as (j & <- & _). apply pow_nonneg. Qed.
  Lemma zero_after a k r x y : beta == 0 -> after a (S k) r x y == 0.
  Proof. intros E. unfold after. rewrite qs_zero; [ring|]. intros j _. change (S k + j)%nat with (S (k + j)). rewrite (pow_zero _ E). ring. Qed.
  Lemma zero_after_all k r : beta == 0 -> after_all (S k) r == 0.
  Proof. intros E. unfold after_all. apply qs_zero. intros j _. change (S k + j)%nat with (S (k + j)). apply (pow_zero _ E). Qed.
  (** what is known of the state *)
  Definition reach (a : nat) (r : list nat) (k : nat * nat) : Prop := fst k = a /\ (In (snd k) r /\ ~ beta == 0 \/ hd_error r = Some (snd k)).
  Lemma after_step occ a : forall r k st, (k = O \/ ~ beta == 0) ->
    let st' := ho_after beta occ a k r st in
    (forall x y, q_get (fst st') (x, y) == q_get (fst st) (x, y) + occ * after a k r x y) /\ snd st' == snd st + occ * after_all k r /\
    Qsum (map snd (fst st')) - snd st' == Qsum (map snd (fst st)) - snd st /\ (NoDup (d_keys (fst st)) -> NoDup (d_keys (fst st'))) /\
    (forall key, In key (d_keys (fst st')) <-> In key (d_keys (fst st)) \/ reach a r key).
  Proof.
    induction r as [|b r IH]; intros k st Hk; cbv zeta.
    - cbn [ho_after]. split; [intros x y; unfold after; cbn [length seq map Qsum]; ring|]. split; [unfold after_all; cbn [length seq map Qsum]; ring|]. split; [reflexivity|]. split; [auto|].
      intros key. split; [auto|]. intros [X|(_ & [[[] _]|X])]; [auto|discriminate].
    - cbn [ho_after]. destruct (Qeq_bool beta 0) eqn:Eb.
      + apply Qeq_bool_iff in Eb. destruct Hk as [->|Hk]; [|contradiction]. cbn [fst snd].
        split; [intros x y; rewrite q_get_add, after_cons, (zero_after _ _ _ _ _ Eb); change (beta ^ Z.of_nat 0) with 1; destruct (keqb (a, b) (x, y)); ring|].
        split; [rewrite after_all_cons, (zero_after_all _ _ Eb); change (beta ^ Z.of_nat 0) with 1; ring|]. split; [rewrite q_sum_add; ring|]. split; [apply q_nodup_add|].
        intros key. rewrite q_in_add. unfold reach. split.
        * intros [->|X]; [right; cbn; auto|auto].
        * intros [X|(E1 & [[_ X]|X])]; [auto|contradiction|]. left. destruct key. cbn in *. congruence.
      + assert (Hn : ~ beta == 0) by (intros X; apply Qeq_bool_iff in X; congruence).
        destruct (IH (S k) (q_add (fst st) (a, b) (occ * beta ^ Z.of_nat k), snd st + occ * beta ^ Z.of_nat k) (or_intror Hn)) as (A & B & C & D & E). cbn [fst snd] in *. cbv zeta in *.
        split; [intros x y; rewrite A, q_get_add, after_cons; destruct (keqb (a, b) (x, y)); ring|]. split; [rewrite B, after_all_cons; ring|]. split; [rewrite C, q_sum_add; ring|]. split; [intros X; apply D, q_nodup_add, X|].
        intros key. rewrite E, q_in_add. unfold reach. cbn [In hd_error]. destruct key as [x y]. cbn [fst snd]. split.
        * intros [[[= -> ->]|X]|(-> & [[X Y]|X])]; [right; split; auto|auto|right; split; auto|right; split; auto]. left. split; auto. right. destruct r; cbn in X; [discriminate|injection X as ->; left; auto].
        * intros [X|(-> & [[[->|X] Y]|X])]; [auto|auto|auto|]. injection X as ->. auto.
  Qed.
  Definition met (t : list nat) (k : nat * nat) : Prop := exists i j, (i < j)%nat /\ nth_error t i = Some (fst k) /\ nth_error t j = Some (snd k) /\ (beta == 0 -> j = S i).
  Lemma handed_cons a r x y : handed beta (a :: r) x y == after a 0 r x y + handed beta r x y.
  Proof.
    unfold handed at 1. cbn [length]. rewrite pairs_S, map_app, qs_app, !map_map. cbn [fst snd]. apply Qplus_comp.
    - unfold after. rewrite <- (seq_shift (length r) 0), map_map. rewrite <- qs_scale. apply qs_ext. intros j _. rewrite is_S. unfold is at 1. cbn [nth_error]. replace (S j - 0 - 1)%nat with (0 + j)%nat by lia. ring.
    - unfold handed. apply qs_ext. intros [i j] _. cbn [fst snd]. rewrite !is_S. replace (S j - S i - 1)%nat with (j - i - 1)%nat by lia. reflexivity.
  Qed.
  Lemma handed_all_cons a r : handed_all beta (a :: r) == after_all 0 r + handed_all beta r.
  Proof.
    unfold handed_all at 1. cbn [length]. rewrite pairs_S, map_app, qs_app, !map_map. cbn [fst snd]. apply Qplus_comp.
    - unfold after_all. rewrite <- (seq_shift (length r) 0), map_map. apply qs_ext. intros j _. replace (S j - 0 - 1)%nat with (0 + j)%nat by lia. reflexivity.
    - unfold handed_all. apply qs_ext. intros [i j] _. cbn [fst snd]. replace (S j - S i - 1)%nat with (j - i - 1)%nat by lia. reflexivity.
  Qed.
  Lemma met_cons a r k : met (a :: r) k <-> reach a r k \/ met r k.
  Proof.
    unfold met, reach. split.
    - intros ([|i] & [|j] & L & A & B & C); try lia.
      + left. cbn in A, B. injection A as A. split; auto. destruct (Qeq_dec beta 0) as [Z|Z]; [right|left; split; auto; eapply nth_error_In; eauto]. specialize (C Z). injection C as ->. destruct r; cbn in *; auto.
      + right. exists i, j. cbn [nth_error] in *. split; [lia|split; [exact A|split; [exact B|intros Z; specialize (C Z); lia]]].
    - intros [(A & [[B Z]|B])|(i & j & L & A & B & C)].
      + apply In_nth_error in B as (j & B). exists O, (S j). split; [lia|]. cbn. split; [congruence|]. split; auto. intros; contradiction.
      + exists O, 1%nat. split; [lia|]. cbn [nth_error]. split; [congruence|]. split; [destruct r; cbn in *; auto|auto].
      + exists (S i), (S j). cbn [nth_error]. split; [lia|split; [exact A|split; [exact B|intros Z; specialize (C Z); lia]]].
  Qed.
  Definition good (st : conn * Q) : Prop := Qsum (map snd (fst st)) == snd st /\ NoDup (d_keys (fst st)) /\ 0 <= snd st /\ (fst st <> [] -> 0 < snd st).
  Lemma handed_all_nonneg t : 0 <= handed_all beta t.
  Proof. apply qs_nonneg. intros x Hx. apply in_map_iff in Hx as (j & <- & _). apply pow_nonneg. Qed.
  Lemma trace_step occ : 0 < occ -> forall t st, good st -> let st' := ho_trace beta occ t st in
    good st' /\ (forall x y, q_get (fst st') (x, y) == q_get (fst st) (x, y) + occ * handed beta t x y) /\ snd st' == snd st + occ * handed_all beta t /\
    (forall key, In key (d_keys (fst st')) <-> In key (d_keys (fst st)) \/ met t key).
  Proof.
    intros Ho. induction t as [|a r IH]; intros st G; cbv zeta; cbn [ho_trace].
    - split; [auto|]. split; [intros x y; unfold handed; cbn; ring|]. split; [unfold handed_all; cbn; ring|]. intros key. split; [auto|]. intros [X|(i & j & _ & X & _)]; [auto|]. destruct i; discriminate.
    - destruct (after_step occ a r 0 st (or_introl eq_refl)) as (A & B & C & D & E). cbv zeta in *. set (s1 := ho_after beta occ a 0 r st) in *. destruct G as (G1 & G2 & G3 & G4).
      assert (G' : good s1).
      { pose proof (after_all_nonneg 0 r) as N. assert (0 <= occ * after_all 0 r) by nra. split; [lra|]. split; [auto|]. split; [lra|]. intros Hne. rewrite B. destruct (fst st) as [|p q] eqn:Es; [|assert (0 < snd st) by (apply G4; discriminate); lra].
        destruct r as [|b r]; [exfalso; apply Hne; unfold s1; cbn [ho_after]; exact Es|]. rewrite after_all_cons. pose proof (after_all_nonneg 1 r). change (beta ^ Z.of_nat 0) with 1. nra. }
      destruct (IH s1 G') as (I1 & I2 & I3 & I4). cbv zeta in *. split; [auto|]. split; [intros x y; rewrite I2, A, handed_cons; ring|]. split; [rewrite I3, B, handed_all_cons; ring|]. intros key. rewrite I4, E, met_cons. tauto.
  Qed.
  Lemma log_step : forall vs st, (forall v, In v vs -> (0 < snd v)%nat) -> good st -> let st' := fold_left (fun st v => ho_trace beta (q_nat (snd v)) (fst v) st) vs st in
    good st' /\ (forall x y, q_get (fst st') (x, y) == q_get (fst st) (x, y) + Qsum (map (fun v => q_nat (snd v) * handed beta (fst v) x y) vs)) /\
    snd st' == snd st + Qsum (map (fun v => q_nat (snd v) * handed_all beta (fst v)) vs) /\
    (forall key, In key (d_keys (fst st')) <-> In key (d_keys (fst st)) \/ exists v, In v vs /\ met (fst v) key).
  Proof.
    induction vs as [|v vs IH]; intros st Hv G; cbv zeta; cbn [fold_left map Qsum].
    - split; [auto|]. split; [intros; ring|]. split; [ring|]. intros key. split; [auto|intros [X|(v & [] & _)]; auto].
    - destruct (trace_step (q_nat (snd v)) (q_nat_pos _ (Hv v (or_introl eq_refl))) (fst v) st G) as (A & B & C & D). cbv zeta in *. destruct (IH _ (fun w Hw => Hv w (or_intror Hw)) A) as (I1 & I2 & I3 & I4). cbv zeta in *.
      split; [auto|]. split; [intros x y; rewrite I2, B; ring|]. split; [rewrite I3, C; ring|]. intros key. rewrite I4, D. split.
      + intros [[X|X]|(w & Hw & X)]; [auto|right; exists v; split; [left; auto|auto]|right; exists w; split; [right; auto|auto]].
      + intros [X|(w & [<-|Hw] & X)]; [auto|auto|right; exists w; auto].
  Qed.
End Hand.
(** The handover network: each pair of resources gets its share of all handovers, and only pairs with a handover appear. *)
Theorem C93_handover : forall beta log vs, 0 <= beta -> Permutation vs (variants log) -> exists d, handover beta vs = Some d /\ NoDup (map fst d) /\
  (forall a b v, d_get d (a, b) = Some v -> v == over (fun t => handed beta t a b) log / over (handed_all beta) log) /\
  (forall a b, In (a, b) (map fst d) <-> exists t i j, In t log /\ (i < j)%nat /\ nth_error t i = Some a /\ nth_error t j = Some b /\ (beta == 0 -> j = S i)) /\
  (d <> [] -> Qsum (map snd d) == 1).
Proof.
  intros beta log vs Hb P. assert (Hv : forall v, In v vs -> In (fst v) log /\ (0 < snd v)%nat) by (intros v Hv; apply variants_in; eapply Permutation_in; eauto).
  destruct (log_step beta Hb vs ([], 0)) as ((G1 & G2 & G3 & G4) & A & B & C); [intros v X; apply Hv; auto|split; [reflexivity|split; [constructor|split; [cbn; lra|intros X; cbn in X; congruence]]]|].
  cbv zeta in *. unfold handover. set (st := fold_left (fun st v => ho_trace beta (q_nat (snd v)) (fst v) st) vs ([], 0)) in *. cbn [fst snd] in *.
  assert (T : forall f, Qsum (map (fun v => q_nat (snd v) * f (fst v)) vs) == over f log) by (intros f; unfold over; rewrite <- counted; apply qs_perm, Permutation_map, P).
  assert (K : forall a b, In (a, b) (d_keys (fst st)) <-> exists t i j, In t log /\ (i < j)%nat /\ nth_error t i = Some a /\ nth_error t j = Some b /\ (beta == 0 -> j = S i)).
  { intros a b. rewrite C. split.
    - intros [[]|(v & Hin & i & j & X)]. exists (fst v), i, j. split; [apply Hv; auto|exact X].
    - intros (t & i & j & Hin & X). right. destruct (variants_all log t Hin) as (n & Hn). exists (t, n). split; [eapply Permutation_in; [apply Permutation_sym; exact P|exact Hn]|]. exists i, j. exact X. }
  destruct (fst st) as [|p q] eqn:Es.
  - exists []. split; [auto|]. split; [constructor|]. split; [intros; discriminate|]. split; [exact K|congruence].
  - assert (0 < snd st) by (apply G4; congruence). destruct (Qeq_bool (snd st) 0) eqn:Z; [apply Qeq_bool_iff in Z; lra|]. rewrite <- Es in *. exists (map (fun kv => (fst kv, snd kv / snd st)) (fst st)). split; [auto|].
    split; [fold (d_keys (map (fun kv : nat * nat * Q => (fst kv, snd kv / snd st)) (fst st))); rewrite (keys_div (fst st) (fun w => w / snd st)); exact G2|]. split; [|split].
    + intros a b v X. apply q_get_div in X as (w & X & ->). assert (E : q_get (fst st) (a, b) == w) by (unfold q_get; rewrite X; reflexivity). rewrite A in E. rewrite <- E, B, (T (handed_all beta)), (T (fun t => handed beta t a b)). unfold q_get. cbn [d_get]. rewrite !Qplus_0_l. reflexivity.
    + intros a b. fold (d_keys (map (fun kv : nat * nat * Q => (fst kv, snd kv / snd st)) (fst st))). rewrite (keys_div (fst st) (fun w => w / snd st)). apply K.
    + intros _. rewrite sum_div, G1. field. lra.
Qed.
Print Assumptions C93_handover.

(** ---- working together ---- *)
Lemma memb_in x l : existsb (Nat.eqb x) l = true <-> In x l.
Proof. rewrite existsb_exists. split; [intros (y & Hy & E); apply Nat.eqb_eq in E; subst; auto|intros H; exists x; rewrite Nat.eqb_refl; auto]. Qed.
Lemma memb_false x l : existsb (Nat.eqb x) l = false <-> ~ In x l.
Proof. rewrite <- memb_in. destruct (existsb (Nat.eqb x) l); split; congruence. Qed.
Lemma wt_row w a : forall r d, ~ In a r -> NoDup r -> let d' := fold_left (fun d b => q_add (q_add d (a, b) w) (b, a) w) r d in
  (forall x y, q_get d' (x, y) == q_get d (x, y) + (if (Nat.eqb x a && existsb (Nat.eqb y) r) || (Nat.eqb y a && existsb (Nat.eqb x) r) then w else 0)) /\
  (NoDup (d_keys d) -> NoDup (d_keys d')) /\ (forall x y, In (x, y) (d_keys d') <-> In (x, y) (d_keys d) \/ (x = a /\ In y r) \/ (y = a /\ In x r)).
Proof.
  induction r as [|b r IH]; intros d Ha N; cbv zeta; cbn [fold_left].
  - split; [intros x y; rewrite !andb_false_r; cbn; ring|]. split; [auto|]. intros x y. cbn. tauto.
  - inversion N as [|? ? Hb N']; subst. destruct (IH (q_add (q_add d (a, b) w) (b, a) w)) as (A & B & C); [intros X; apply Ha; right; auto|auto|]. cbv zeta in *. split; [|split].
    + intros x y. rewrite A, !q_get_add. cbn [existsb keqb key_pair key_nat fst snd]. assert (Hab : a <> b) by (intros ->; apply Ha; left; auto). apply memb_false in Hb. assert (Har : existsb (Nat.eqb a) r = false) by (apply memb_false; intros X; apply Ha; right; auto).
      rewrite (Nat.eqb_sym a x), (Nat.eqb_sym b y), (Nat.eqb_sym b x), (Nat.eqb_sym a y).
      destruct (Nat.eqb_spec x a) as [Hxa|Hxa], (Nat.eqb_spec y a) as [Hya|Hya], (Nat.eqb_spec x b) as [Hxb|Hxb], (Nat.eqb_spec y b) as [Hyb|Hyb]; try (exfalso; congruence); subst; rewrite ?Hb, ?Har; cbn [andb orb]; rewrite ?orb_false_r; repeat match goal with |- context [existsb ?f ?l] => destruct (existsb f l) end; cbn [andb orb]; ring.
    + intros X. apply B, q_nodup_add, q_nodup_add, X.
    + intros x y. rewrite C, !q_in_add. cbn [In]. split.
      * intros [[[= -> ->]|[[= -> ->]|X]]|[[-> X]|[-> X]]]; auto 6.
      * intros [X|[[-> [->|X]]|[-> [->|X]]]]; auto 6.
Qed.
Lemma wt_all w : forall l d, NoDup l -> let d' := wt_pairs l w d in
  (forall x y, q_get d' (x, y) == q_get d (x, y) + (if both l x y then w else 0)) /\ (NoDup (d_keys d) -> NoDup (d_keys d')) /\
  (forall x y, In (x, y) (d_keys d') <-> In (x, y) (d_keys d) \/ (x <> y /\ In x l /\ In y l)).
Proof.
  induction l as [|a r IH]; intros d N; cbv zeta; cbn [wt_pairs].
  - split; [intros x y; unfold both; cbn; rewrite andb_false_r; ring|]. split; [auto|]. intros x y. cbn. tauto.
  - inversion N as [|? ? Ha N']; subst. destruct (wt_row w a r d Ha N') as (A & B & C). cbv zeta in *. destruct (IH (fold_left (fun d b => q_add (q_add d (a, b) w) (b, a) w) r d) N') as (A' & B' & C'). cbv zeta in *. split; [|split].
    + intros x y. rewrite A', A. unfold both. cbn [existsb]. apply memb_false in Ha.
      destruct (Nat.eqb_spec x a) as [->|Hx], (Nat.eqb_spec y a) as [->|Hy]; rewrite ?Ha, ?Nat.eqb_refl; cbn [andb orb negb]; rewrite ?andb_false_r, ?andb_true_r, ?orb_false_r; cbn [andb orb negb]; try ring.
      * replace (Nat.eqb a y) with false by (symmetry; apply Nat.eqb_neq; congruence). cbn [negb andb]. destruct (existsb (Nat.eqb y) r); ring.
      * replace (Nat.eqb x a) with false by (symmetry; apply Nat.eqb_neq; congruence). cbn [negb andb]. destruct (existsb (Nat.eqb x) r); cbn [andb]; ring.
    + auto.
    + intros x y. rewrite C', C. cbn [In]. split.
      * intros [[X|[[-> X]|[-> X]]]|(X & Y & Z)]; [auto|right; split; [intros <-; contradiction|auto]|right; split; [intros ->; contradiction|auto]|auto].
      * intros [X|(X & [->|Y] & [->|Z])]; [auto|congruence|auto|auto|auto].
Qed.
Lemma both_ext l l' a b : (forall x, In x l <-> In x l') -> both l a b = both l' a b.
Proof. intros E. unfold both. assert (G : forall x, existsb (Nat.eqb x) l = existsb (Nat.eqb x) l') by (intros x; apply eq_iff_eq_true; rewrite !memb_in; auto). rewrite !G. reflexivity. Qed.
(** The working-together network: the cases in which two different resources meet, divided by [len]. *)
Lemma wt_log len log vs : Permutation vs (variants log) -> let d := working_together len vs in
  NoDup (d_keys d) /\ (forall a b v, d_get d (a, b) = Some v -> v == q_nat (together log a b) / q_nat len) /\
  (forall a b, In (a, b) (d_keys d) <-> a <> b /\ exists t, In t log /\ In a t /\ In b t).
Proof.
  intros P. cbv zeta. unfold working_together.
  assert (G : forall vs0 d0, NoDup (d_keys d0) -> let d := fold_left (fun d v => wt_pairs (sorted_by Z.of_nat (dedup (fst v))) (q_nat (snd v) / q_nat len) d) vs0 d0 in
    NoDup (d_keys d) /\ (forall a b, q_get d (a, b) == q_get d0 (a, b) + Qsum (map (fun v => q_nat (snd v) * (if both (fst v) a b then 1 / q_nat len else 0)) vs0)) /\
    (forall a b, In (a, b) (d_keys d) <-> In (a, b) (d_keys d0) \/ exists v : list nat * nat, In v vs0 /\ a <> b /\ In a (fst v) /\ In b (fst v))).
  { induction vs0 as [|v vs0 IH]; intros d0 N; cbv zeta; cbn [fold_left map Qsum]; [split; [auto|]; split; [intros; ring|]; intros a b; split; [auto|intros [X|(v & [] & _)]; auto]|].
    set (l := sorted_by Z.of_nat (dedup (fst v))). pose proof (sorted_by_perm Z.of_nat (dedup (fst v))) as SP. fold l in SP. assert (Nl : NoDup l) by (eapply Permutation_NoDup; [exact SP|apply dedup_nodup]).
    assert (El : forall x, In x l <-> In x (fst v)) by (intros x; rewrite <- (dedup_in (fst v) x); split; apply Permutation_in; [apply Permutation_sym|]; auto).
    destruct (wt_all (q_nat (snd v) / q_nat len) l d0 Nl) as (A & B & C). cbv zeta in *. destruct (IH _ (B N)) as (A' & B' & C'). cbv zeta in *. split; [auto|]. split.
    - intros a b. rewrite B', A, (both_ext l (fst v) a b El). destruct (both (fst v) a b); unfold Qdiv; ring.
    - intros a b. rewrite C', C, !El. split; [intros [[X|X]|(w & Hw & X)]; [auto|right; exists v; split; [left; auto|auto]|right; exists w; split; [right; auto|auto]]|intros [X|(w & [<-|Hw] & X)]; [auto|auto|right; exists w; auto]]. }
  destruct (G vs [] (NoDup_nil _)) as (A & B & C). cbv zeta in *. split; [auto|]. split.
  - intros a b v X. specialize (B a b). unfold q_get in B at 1. rewrite X in B. rewrite B. unfold q_get. cbn [d_get]. rewrite Qplus_0_l.
    rewrite (qs_perm _ _ (Permutation_map _ P)), (counted (fun t => if both t a b then 1 / q_nat len else 0)). unfold together. clear. induction log as [|t log IH]; [cbn; unfold Qdiv; change (q_nat 0) with 0; ring|].
    cbn [map Qsum filter]. rewrite IH. destruct (both t a b); cbn [length]; [rewrite q_nat_S|]; unfold Qdiv; ring.
  - intros a b. rewrite C. split.
    + intros [[]|(v & Hv & Hne & X)]. split; auto. exists (fst v). split; auto. apply variants_in. eapply Permutation_in; eauto.
    + intros (Hne & t & Ht & X). right. destruct (variants_all log t Ht) as (n & Hn). exists (t, n). split; [eapply Permutation_in; [apply Permutation_sym|]; eauto|auto].
Qed.

(** The working-together network of an event log: symmetric, no resource with itself, the share of the cases in which both appear. *)
Theorem C93_working_together : forall log vs, Permutation vs (variants log) -> let d := working_together (length log) vs in
  NoDup (map fst d) /\ (forall a b v, d_get d (a, b) = Some v -> v == q_nat (together log a b) / q_nat (length log)) /\
  (forall a b, In (a, b) (map fst d) <-> a <> b /\ exists t, In t log /\ In a t /\ In b t).
Proof. intros log vs P. exact (wt_log (length log) log vs P). Qed.
Print Assumptions C93_working_together.
(** The dataframe version divides by the number of events instead. *)
Theorem C93_working_together_pandas : forall log vs, Permutation vs (variants log) -> let d := working_together (length (concat log)) vs in
  NoDup (map fst d) /\ (forall a b v, d_get d (a, b) = Some v -> v == q_nat (together log a b) / q_nat (length (concat log))) /\
  (forall a b, In (a, b) (map fst d) <-> a <> b /\ exists t, In t log /\ In a t /\ In b t).
Proof. intros log vs P. exact (wt_log (length (concat log)) log vs P). Qed.
Print Assumptions C93_working_together_pandas.
Theorem C93_versions_agree_refuted : exists log a b v v', d_get (working_together (length log) (variants log)) (a, b) = Some v /\
  d_get (working_together (length (concat log)) (variants log)) (a, b) = Some v' /\ v == 1 /\ v' == 1 # 2.
Proof. exists [[1%nat; 2%nat]], 1%nat, 2%nat. eexists. eexists. split; [vm_compute; reflexivity|]. split; [vm_compute; reflexivity|]. split; reflexivity. Qed.
Print Assumptions C93_versions_agree_refuted.

(** ---- subcontracting ---- *)
Definition between (n : nat) (t : list nat) (i a b : nat) : Q := is t i a * is t (i + n) a * Qsum (map (fun j => is t j b) (seq (S i) (n - 1))).
Lemma between_nonneg n t i a b : 0 <= between n t i a b.
Proof. unfold between. pose proof (is_range t i a). pose proof (is_range t (i + n) a). assert (0 <= Qsum (map (fun j => is t j b) (seq (S i) (n - 1)))) by (apply qs_nonneg; intros x Hx; apply in_map_iff in Hx as (j & <- & _); apply is_range). apply Qmult_le_0_compat; [apply Qmult_le_0_compat|]; tauto. Qed.
Definition patterned (n : nat) (t : list nat) (i a : nat) : Prop := nth_error t i = Some a /\ nth_error t (i + n) = Some a.
Section Sub.
  Variable n : nat.
  Hypothesis Hn : (2 <= n)%nat.
  Lemma sc_fold occ t a : forall js d, let d' := fold_left (fun d j => match nth_error t j with Some b => q_add d (a, b) occ | None => d end) js d in
    (forall x y, q_get d' (x, y) == q_get d (x, y) + (if Nat.eqb a x then occ * Qsum (map (fun j => is t j y) js) else 0)) /\
    (NoDup (d_keys d) -> NoDup (d_keys d')) /\
    (forall x y, In (x, y) (d_keys d') <-> In (x, y) (d_keys d) \/ (x = a /\ exists j, In j js /\ nth_error t j = Some y)).
  Proof.
    induction js as [|j js IH]; intros d; cbv zeta; cbn [fold_left map Qsum].
    - split; [intros x y; destruct (Nat.eqb a x); ring|]. split; [auto|]. intros x y. split; [auto|intros [X|(_ & j & [] & _)]; auto].
    - destruct (IH (match nth_error t j with Some b => q_add d (a, b) occ | None => d end)) as (A & B & C). cbv zeta in *. split; [|split].
      + intros x y. rewrite A. unfold is at 2. destruct (nth_error t j) as [b|]; [|destruct (Nat.eqb a x); ring]. rewrite q_get_add. cbn [keqb key_pair key_nat fst snd]. destruct (Nat.eqb a x), (Nat.eqb b y); cbn [andb]; ring.
      + intros X. apply B. destruct (nth_error t j); auto. apply q_nodup_add. auto.
      + intros x y. rewrite C. destruct (nth_error t j) as [b|] eqn:E.
        * rewrite q_in_add. split; [intros [[[= -> ->]|X]|(-> & j' & Hj & X)]; [right; split; auto; exists j; split; [left; auto|auto]|auto|right; split; auto; exists j'; split; [right; auto|auto]]|].
          intros [X|(-> & j' & [<-|Hj] & X)]; [auto|rewrite E in X; injection X as ->; auto|right; eauto].
        * split; [intros [X|(-> & j' & Hj & X)]; [auto|right; split; auto; exists j'; split; [right; auto|auto]]|]. intros [X|(-> & j' & [<-|Hj] & X)]; [auto|congruence|right; eauto].
  Qed.
  (** what is known after some positions [P] (a list of variants with their number of cases, and positions) *)
  Definition sgood (P : list (Q * list nat * nat)) (st : sc_state) : Prop :=
    NoDup (d_keys (snd st)) /\
    (forall a, In a (fst st) <-> exists p, In p P /\ patterned n (snd (fst p)) (snd p) a) /\
    (forall a b, In (a, b) (d_keys (snd st)) -> exists p j, In p P /\ patterned n (snd (fst p)) (snd p) a /\ (snd p < j < snd p + n)%nat /\ nth_error (snd (fst p)) j = Some b) /\
    (forall a, In a (fst st) -> exists b, In (a, b) (d_keys (snd st))) /\
    (forall a b, q_get (snd st) (a, b) <= Qsum (map (fun p => fst (fst p) * between n (snd (fst p)) (snd p) a b) P)) /\
    (forall k, In k (d_keys (snd st)) -> 0 < q_get (snd st) k).
  Lemma pos_step P st occ t i : 0 < occ -> sgood P st -> sgood (P ++ [(occ, t, i)]) (sc_pos n occ t st i).
  Proof.
    intros Ho (G1 & G2 & G3 & G4 & G5 & G6).
    assert (same : (forall a, patterned n t i a -> In a (fst st)) -> sgood (P ++ [(occ, t, i)]) st).
    { intros Hs. split; [auto|]. split; [|split; [|split; [auto|split; [|auto]]]].
      - intros a. rewrite G2. split; [intros (p & Hp & X); exists p; rewrite in_app_iff; auto|intros (p & Hp & X)]. apply in_app_iff in Hp as [Hp|[<-|[]]]; [eauto|]. apply G2, Hs. auto.
      - intros a b X. destruct (G3 a b X) as (p & j & Hp & Y). exists p, j. rewrite in_app_iff. auto.
      - intros a b. rewrite map_app, qs_app. cbn [map Qsum fst snd]. pose proof (G5 a b). pose proof (between_nonneg n t i a b). nra. }
    unfold sc_pos. destruct (nth_error t i) as [a|] eqn:Ei; [|apply same; intros a [X _]; congruence]. destruct (nth_error t (i + n)) as [a'|] eqn:Ei'; [|apply same; intros a0 [_ X]; congruence].
    destruct (Nat.eqb_spec a a') as [<-|Hne]; [|apply same; intros a0 [X Y]; congruence]. destruct (existsb (Nat.eqb a) (fst st)) eqn:Es; [apply memb_in in Es; apply same; intros a0 [X _]; congruence|]. apply memb_false in Es.
    destruct (sc_fold occ t a (seq (S i) (n - 1)) (snd st)) as (A & B & C). cbv zeta in *. set (d' := fold_left _ _ _) in *. cbn [fst snd].
    assert (Len : forall j, (i < j < i + n)%nat -> exists b, nth_error t j = Some b).
    { intros j Hj. destruct (nth_error t j) as [b|] eqn:Ej; eauto. exfalso. apply nth_error_None in Ej. assert (i + n < length t)%nat by (apply nth_error_Some; congruence). lia. }
    assert (Bt : forall y, between n t i a y == Qsum (map (fun j => is t j y) (seq (S i) (n - 1)))) by (intros y; unfold between, is at 1 2; rewrite Ei, Ei', Nat.eqb_refl; ring).
    assert (Nk : forall y, ~ In (a, y) (d_keys (snd st))) by (intros y X; destruct (G3 a y X) as (p & j & Hp & Y & _); apply Es, G2; eauto).
    split; [auto|]. split; [|split; [|split; [|split]]].
    - intros x. transitivity (a = x \/ In x (fst st)); [reflexivity|]. rewrite G2. split.
      + intros [<-|(p & Hp & X)]; [exists (occ, t, i); rewrite in_app_iff; cbn; split; [auto|split; auto]|exists p; rewrite in_app_iff; auto].
      + intros (p & Hp & X). apply in_app_iff in Hp as [Hp|[<-|[]]]; [eauto|]. left. destruct X as [X _]. cbn in X. congruence.
    - intros x y X. apply C in X as [X|(-> & j & Hj & X)]; [destruct (G3 x y X) as (p & j & Hp & Y); exists p, j; rewrite in_app_iff; auto|]. exists (occ, t, i), j. rewrite in_app_iff. apply in_seq in Hj. cbn. split; [auto|]. split; [split; auto|]. split; [lia|auto].
    - intros x [<-|X]; [|destruct (G4 x X) as (b & Hb); exists b; apply C; auto]. destruct (Len (S i)) as (b & Eb); [lia|]. exists b. apply C. right. split; auto. exists (S i). split; [apply in_seq; lia|auto].
    - intros x y. rewrite A, map_app, qs_app. cbn [map Qsum fst snd]. pose proof (G5 x y). destruct (Nat.eqb_spec a x) as [<-|Hax]; [rewrite Bt; lra|]. pose proof (between_nonneg n t i x y). nra.
    - intros [x y] X. rewrite A. destruct (Nat.eqb_spec a x) as [<-|Hax].
      + apply C in X as [X|(_ & j & Hj & X)]; [destruct (Nk y X)|]. unfold q_get. destruct (d_get (snd st) (a, y)) eqn:E; [exfalso; apply (Nk y); apply d_get_keys; congruence|].
        assert (0 < Qsum (map (fun j => is t j y) (seq (S i) (n - 1)))); [|nra]. apply in_split in Hj as (l1 & l2 & ->). rewrite map_app, qs_app. cbn [map Qsum]. unfold is at 2. rewrite X, Nat.eqb_refl.
        assert (forall l, 0 <= Qsum (map (fun j => is t j y) l)) by (intros l; apply qs_nonneg; intros z Hz; apply in_map_iff in Hz as (w & <- & _); apply is_range). pose proof (H l1). pose proof (H l2). lra.
      + apply C in X as [X|(-> & _)]; [specialize (G6 _ X); lra|congruence].
  Qed.
  Definition positions (v : list nat * nat) : list (Q * list nat * nat) := map (fun i => (q_nat (snd v), fst v, i)) (seq 0 (length (fst v) - n)).
  Lemma vs_step : forall vs P st, (forall v, In v vs -> (0 < snd v)%nat) -> sgood P st -> sgood (P ++ flat_map positions vs) (fold_left (fun st v => fold_left (sc_pos n (q_nat (snd v)) (fst v)) (seq 0 (length (fst v) - n)) st) vs st).
  Proof.
    induction vs as [|v vs IH]; intros P st Hv G; cbn [fold_left flat_map]; [rewrite app_nil_r; auto|]. rewrite app_assoc. apply IH; [intros; apply Hv; right; auto|].
    pose proof (q_nat_pos _ (Hv v (or_introl eq_refl))) as Ho. unfold positions. generalize (seq 0 (length (fst v) - n)). intros l. revert P st G. induction l as [|i l IHl]; intros P st G; cbn [fold_left map]; [rewrite app_nil_r; auto|].
    replace (P ++ (q_nat (snd v), fst v, i) :: map (fun i0 => (q_nat (snd v), fst v, i0)) l) with ((P ++ [(q_nat (snd v), fst v, i)]) ++ map (fun i0 => (q_nat (snd v), fst v, i0)) l) by (rewrite <- app_assoc; reflexivity).
    apply IHl. apply pos_step; auto.
  Qed.
End Sub.
Lemma qs_flat {X Y} (f : Y -> Q) (g : X -> list Y) l : Qsum (map f (flat_map g l)) == Qsum (map (fun x => Qsum (map f (g x))) l).
Proof. induction l as [|x l IH]; cbn [flat_map map Qsum]; [reflexivity|]. rewrite map_app, qs_app, IH. reflexivity. Qed.
Lemma sub_eq n t a b : Qsum (map (fun i => between n t i a b) (seq 0 (length t - n))) == subcontracted n t a b.
Proof.
  unfold subcontracted, between. destruct (le_lt_dec n (length t)) as [H|H].
  - replace (seq 0 (length t)) with (seq 0 (length t - n) ++ seq (length t - n) n) by (rewrite <- seq_app; f_equal; lia). rewrite map_app, qs_app.
    setoid_replace (Qsum (map (fun i => is t i a * is t (i + n) a * Qsum (map (fun j => is t j b) (seq (S i) (n - 1)))) (seq (length t - n) n))) with 0; [ring|].
    apply qs_zero. intros i Hi. apply in_seq in Hi. unfold is at 2. destruct (nth_error t (i + n)) eqn:E; [exfalso; assert (i + n < length t)%nat by (apply nth_error_Some; congruence); lia|ring].
  - replace (length t - n)%nat with 0%nat by lia. cbn [seq map Qsum]. symmetry. apply qs_zero. intros i Hi. unfold is at 2. destruct (nth_error t (i + n)) eqn:E; [exfalso; assert (i + n < length t)%nat by (apply nth_error_Some; congruence); lia|ring].
Qed.

Lemma map_flat {X Y Z} (f : Y -> Z) (g : X -> list Y) l : map f (flat_map g l) = flat_map (fun x => map f (g x)) l.
Proof. induction l as [|x l IH]; cbn; [auto|rewrite map_app, IH; auto]. Qed.
(** The subcontracting network is sound: every connection comes from such a pattern, its value is positive and at most the number of times the
    pattern occurs per case, and every resource that subcontracts has a connection. *)
Theorem C93_subcontracting_sound : forall n log vs, (2 <= n)%nat -> Permutation vs (variants log) -> exists d, subcontracting n vs = Some d /\ NoDup (map fst d) /\
  (forall a b v, d_get d (a, b) = Some v -> 0 < v /\ v <= over (fun t => subcontracted n t a b) log / q_nat (length log)) /\
  (forall a b, In (a, b) (map fst d) -> exists t i j, In t log /\ (i < j < i + n)%nat /\ nth_error t i = Some a /\ nth_error t (i + n) = Some a /\ nth_error t j = Some b) /\
  (forall t i a, In t log -> nth_error t i = Some a -> nth_error t (i + n) = Some a -> exists b, In (a, b) (map fst d)).
Proof.
  intros n log vs Hn P. assert (Hv : forall v, In v vs -> In (fst v) log /\ (0 < snd v)%nat) by (intros v Hv; apply variants_in; eapply Permutation_in; eauto).
  assert (G0 : sgood n [] ([], [])).
  { split; [constructor|]. split; [intros a; split; [intros []|intros (p & [] & _)]|]. split; [intros a b []|]. split; [intros a []|]. split; [intros a b; cbn; lra|intros k []]. }
  pose proof (vs_step n Hn vs [] ([], []) (fun v H => proj2 (Hv v H)) G0) as (G1 & G2 & G3 & G4 & G5 & G6). cbn [app] in *.
  unfold subcontracting. set (st := fold_left (fun (st : sc_state) v => fold_left (sc_pos n (q_nat (snd v)) (fst v)) (seq 0 (length (fst v) - n)) st) vs ([], [])) in *. cbv zeta.
  assert (El : list_sum (map snd vs) = length log).
  { rewrite <- variants_total. clear -P. unfold list_sum. induction P; cbn [map fold_right]; lia. }
  assert (PI : forall p, In p (flat_map (positions n) vs) -> exists c, In (snd (fst p), c) vs).
  { intros p Hp. apply in_flat_map in Hp as (v & Hin & Hp). unfold positions in Hp. apply in_map_iff in Hp as (i & <- & _). cbn. exists (snd v). rewrite <- surjective_pairing. auto. }
  assert (K : forall a b, In (a, b) (d_keys (snd st)) -> exists t i j, In t log /\ (i < j < i + n)%nat /\ nth_error t i = Some a /\ nth_error t (i + n) = Some a /\ nth_error t j = Some b).
  { intros a b X. destruct (G3 a b X) as (p & j & Hp & (Y1 & Y2) & Hj & Hb). destruct (PI p Hp) as (c & Hc). exists (snd (fst p)), (snd p), j. split; [apply (Hv _ Hc)|auto]. }
  assert (C : forall t i a, In t log -> nth_error t i = Some a -> nth_error t (i + n) = Some a -> exists b, In (a, b) (d_keys (snd st))).
  { intros t i a Hin E1 E2. apply G4, G2. destruct (variants_all log t Hin) as (c & Hc). exists (q_nat c, t, i). split; [|split; auto]. apply in_flat_map. exists (t, c). split; [eapply Permutation_in; [apply Permutation_sym; exact P|exact Hc]|].
    unfold positions. apply in_map_iff. exists i. split; [reflexivity|]. cbn [fst]. apply in_seq. assert (i + n < length t)%nat by (apply nth_error_Some; congruence). lia. }
  assert (U : forall a b, Qsum (map (fun p => fst (fst p) * between n (snd (fst p)) (snd p) a b) (flat_map (positions n) vs)) == over (fun t => subcontracted n t a b) log).
  { intros a b. rewrite qs_flat. unfold over. rewrite <- counted. rewrite <- (qs_perm _ _ (Permutation_map (fun kv => q_nat (snd kv) * subcontracted n (fst kv) a b) P)). apply qs_ext. intros v _. rewrite <- sub_eq, <- qs_scale. unfold positions. rewrite map_map. apply qs_ext. intros i _. reflexivity. }
  destruct (snd st) as [|kv d] eqn:Ed.
  - exists []. split; [reflexivity|]. split; [constructor|]. split; [intros a b v H; discriminate|]. split; [intros a b []|]. exact C.
  - rewrite <- Ed in *. assert (Hl : (0 < length log)%nat).
    { destruct kv as [[a b] w]. destruct (K a b) as (t & _ & _ & Hin & _); [rewrite Ed; left; reflexivity|]. destruct log; [destruct Hin|cbn; lia]. }
    pose proof (q_nat_pos _ Hl) as Hp. rewrite El. destruct (Qeq_bool (q_nat (length log)) 0) eqn:E0; [apply Qeq_bool_eq in E0; rewrite E0 in Hp; destruct (Qlt_irrefl _ Hp)|].
    exists (map (fun kv => (fst kv, snd kv / q_nat (length log))) (snd st)). split; [reflexivity|].
    assert (Ek : map fst (map (fun kv : nat * nat * Q => (fst kv, snd kv / q_nat (length log))) (snd st)) = d_keys (snd st)) by (apply (keys_div (snd st) (fun v => v / q_nat (length log)))).
    rewrite Ek. split; [exact G1|]. split; [|split; [exact K|exact C]].
    intros a b v H. apply (proj1 (q_get_div _ _ _ _)) in H as (w & Hw & ->). assert (Hg : q_get (snd st) (a, b) = w) by (unfold q_get; rewrite Hw; reflexivity).
    pose proof (G6 (a, b) (proj1 (d_get_keys (snd st) (a, b)) ltac:(rewrite Hw; discriminate))) as Hpos. pose proof (G5 a b) as Hle. rewrite U in Hle. rewrite Hg in *. split; [apply Qlt_shift_div_l; auto; lra|]. unfold Qdiv. apply Qmult_le_compat_r; [auto|]. apply Qlt_le_weak, Qinv_lt_0_compat. auto.
Qed.
Print Assumptions C93_subcontracting_sound.
(** It is not complete: the indentation of the inner loop makes it count only the first pattern of every resource. *)
Theorem C93_subcontracting_exact_refuted : exists log d, subcontracting 2 (variants log) = Some d /\
  over (fun t => subcontracted 2 t 1 3) log / q_nat (length log) == 1 # 2 /\ ~ In (1%nat, 3%nat) (map fst d).
Proof. exists [[1; 2; 1]; [1; 3; 1]]%nat. eexists. split; [vm_compute; reflexivity|]. split; [vm_compute; reflexivity|]. intros [H|[]]; discriminate. Qed.
Print Assumptions C93_subcontracting_exact_refuted.

Example C93_example_handover : exists d, handover 0 (variants [[1; 2; 1]; [1; 2; 1]; [3; 2]]%nat) = Some d /\ map fst d = [(1, 2); (2, 1); (3, 2)]%nat /\ q_get d (1, 2)%nat == 2 # 5.
Proof. eexists. split; [vm_compute; reflexivity|]. split; vm_compute; reflexivity. Qed.
Example C93_example_together : q_get (working_together 3 (variants [[1; 2; 1]; [1; 2; 1]; [3; 2]]%nat)) (2, 1)%nat == 2 # 3.
Proof. vm_compute. reflexivity. Qed.
Example C93_example_sub : exists d, subcontracting 2 (variants [[1; 2; 1]; [1; 2; 1]; [3; 2]]%nat) = Some d /\ q_get d (1, 2)%nat == 2 # 3.
Proof. eexists. split; [vm_compute; reflexivity|]. vm_compute; reflexivity. Qed.
