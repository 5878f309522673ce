From Coq Require Import List Arith ZArith Lia Permutation Sorted.
Import ListNotations.
From Verif Require Import Model_Lev Spec_Lev.

(** alignment scripts *)
Inductive al : list nat -> list nat -> nat -> Prop :=
| al_nil : al [] [] 0
| al_mat x a b n : al a b n -> al (x :: a) (x :: b) n
| al_sub x y a b n : al a b n -> al (x :: a) (y :: b) (S n)
| al_ins y a b n : al a b n -> al a (y :: b) (S n)
| al_del x a b n : al a b n -> al (x :: a) b (S n).

Lemma al_refl a : al a a 0.
Proof. induction a; constructor; assumption. Qed.

Lemma al_app a b n : al a b n -> forall c d m, al c d m -> al (a ++ c) (b ++ d) (n + m).
Proof.
  induction 1; intros c d m Hm; cbn [app Nat.add].
  - exact Hm.
  - apply al_mat, IHal, Hm.
  - apply al_sub, IHal, Hm.
  - apply al_ins, IHal, Hm.
  - apply al_del, IHal, Hm.
Qed.

Lemma al_rev a b n : al a b n -> al (rev a) (rev b) n.
Proof.
  induction 1; cbn [rev].
  - constructor.
  - rewrite <- (Nat.add_0_r n). apply al_app; [exact IHal|apply al_refl].
  - rewrite <- Nat.add_1_r. apply al_app; [exact IHal|]. apply al_sub. constructor.
  - rewrite <- (app_nil_r (rev a)), <- Nat.add_1_r. apply al_app; [exact IHal|]. apply al_ins. constructor.
  - rewrite <- (app_nil_r (rev b)), <- Nat.add_1_r. apply al_app; [exact IHal|]. apply al_del. constructor.
Qed.

Lemma edits_app n a b m c : edits n a b -> edits m b c -> edits (n + m) a c.
Proof. induction 1; intros Hm; cbn; [exact Hm|]. econstructor; [eassumption|auto]. Qed.

Lemma edit1_cons x a b : edit1 a b -> edit1 (x :: a) (x :: b).
Proof. intros H. inversion H; subst. - apply (e_ins (x :: l)). - apply (e_del (x :: l)). - apply (e_sub (x :: l)). Qed.
Lemma edits_cons x n a b : edits n a b -> edits n (x :: a) (x :: b).
Proof. induction 1; econstructor; [apply edit1_cons; eassumption|assumption]. Qed.

Lemma al_edits a b n : al a b n -> edits n a b.
Proof.
  induction 1.
  - constructor.
  - apply edits_cons, IHal.
  - econstructor; [apply (e_sub [] x y a)|]. apply edits_cons, IHal.
  - econstructor; [apply (e_ins [] y a)|]. apply edits_cons, IHal.
  - econstructor; [apply (e_del [] x a)|]. exact IHal.
Qed.

Lemma al_trans a b n : al a b n -> forall c m, al b c m -> exists k, k <= n + m /\ al a c k.
Proof.
  induction 1; intros c m Hm.
  - exists m. split; [lia|exact Hm].
  - remember (x :: b) as xb eqn:E. revert a n H IHal. induction Hm; intros a0 n0 H IHal; try discriminate.
    + injection E as -> ->. destruct (IHal _ _ Hm) as (k & Hk & Ha). exists k. split; [lia|]. apply al_mat, Ha.
    + injection E as -> ->. destruct (IHal _ _ Hm) as (k & Hk & Ha). exists (S k). split; [lia|]. apply al_sub, Ha.
    + destruct (IHHm E a0 n0 H IHal) as (k & Hk & Ha). exists (S k). split; [lia|]. apply al_ins, Ha.
    + injection E as -> ->. destruct (IHal _ _ Hm) as (k & Hk & Ha). exists (S k). split; [lia|]. apply al_del, Ha.
  - remember (y :: b) as xb eqn:E. revert a n H IHal. induction Hm; intros a0 n0 H IHal; try discriminate.
    + injection E as -> ->. destruct (IHal _ _ Hm) as (k & Hk & Ha). exists (S k). split; [lia|]. apply al_sub, Ha.
    + injection E as -> ->. destruct (IHal _ _ Hm) as (k & Hk & Ha). exists (S k). split; [lia|]. apply al_sub, Ha.
    + destruct (IHHm E a0 n0 H IHal) as (k & Hk & Ha). exists (S k). split; [lia|]. apply al_ins, Ha.
    + injection E as -> ->. destruct (IHal _ _ Hm) as (k & Hk & Ha). exists (S k). split; [lia|]. apply al_del, Ha.
  - remember (y :: b) as xb eqn:E. revert n H IHal. induction Hm; intros n0 H IHal; try discriminate.
    + injection E as -> ->. destruct (IHal _ _ Hm) as (k & Hk & Ha). exists (S k). split; [lia|]. apply al_ins, Ha.
    + injection E as -> ->. destruct (IHal _ _ Hm) as (k & Hk & Ha). exists (S k). split; [lia|]. apply al_ins, Ha.
    + destruct (IHHm E n0 H IHal) as (k & Hk & Ha). exists (S k). split; [lia|]. apply al_ins, Ha.
    + injection E as -> ->. destruct (IHal _ _ Hm) as (k & Hk & Ha). exists k. split; [lia|exact Ha].
  - destruct (IHal _ _ Hm) as (k & Hk & Ha). exists (S k). split; [lia|]. apply al_del, Ha.
Qed.

Lemma edit1_al a b : edit1 a b -> al a b 1.
Proof.
  intros H. inversion H; subst; change 1 with (0 + 1); apply al_app; try apply al_refl.
  - apply al_ins, al_refl.
  - apply al_del, al_refl.
  - apply al_sub, al_refl.
Qed.
Lemma edits_al n a b : edits n a b -> exists k, k <= n /\ al a b k.
Proof.
  induction 1 as [a|n a b c H1 H IH]; [exists 0; split; [lia|apply al_refl]|].
  destruct IH as (k & Hk & Ha). destruct (al_trans _ _ _ (edit1_al _ _ H1) _ _ Ha) as (j & Hj & Hb).
  exists j. split; [lia|exact Hb].
Qed.

(** the recursive distance, on reversed sequences *)
Fixpoint lev (a : list nat) : list nat -> nat :=
  match a with
  | [] => fun b => length b
  | x :: a' =>
      fix go (b : list nat) : nat :=
        match b with
        | [] => length (x :: a')
        | y :: b' => Nat.min (lev a' b + 1) (Nat.min (go b' + 1) (lev a' b' + (if Nat.eqb x y then 0 else 1)))
        end
  end.

Lemma lev_cc x a y b : lev (x :: a) (y :: b) =
  Nat.min (lev a (y :: b) + 1) (Nat.min (lev (x :: a) b + 1) (lev a b + (if Nat.eqb x y then 0 else 1))).
Proof. reflexivity. Qed.
Lemma lev_nil_r a : lev a [] = length a.
Proof. destruct a; reflexivity. Qed.

Lemma al_nil_l b : al [] b (length b).
Proof. induction b; cbn; constructor; assumption. Qed.
Lemma al_nil_r a : al a [] (length a).
Proof. induction a; cbn; constructor; assumption. Qed.

Lemma lev_al a b : al a b (lev a b).
Proof.
  revert b. induction a as [|x a IHa]; [apply al_nil_l|].
  induction b as [|y b IHb]; [rewrite lev_nil_r; apply al_nil_r|]. rewrite lev_cc.
  destruct (Nat.min_spec (lev a (y :: b) + 1) (Nat.min (lev (x :: a) b + 1) (lev a b + (if Nat.eqb x y then 0 else 1)))) as [[_ ->]|[_ ->]].
  - rewrite Nat.add_1_r. apply al_del, IHa.
  - destruct (Nat.min_spec (lev (x :: a) b + 1) (lev a b + (if Nat.eqb x y then 0 else 1))) as [[_ ->]|[_ ->]].
    + rewrite Nat.add_1_r. apply al_ins, IHb.
    + destruct (Nat.eqb_spec x y) as [->|Hne].
      * rewrite Nat.add_0_r. apply al_mat, IHa.
      * rewrite Nat.add_1_r. apply al_sub, IHa.
Qed.

Lemma lev_length_bounds a b : lev a b <= length a + length b.
Proof.
  revert b. induction a as [|x a IHa]; intros b; cbn [lev length]; [lia|].
  induction b as [|y b IHb]; cbn [length]; [lia|].
  pose proof (IHa (y :: b)). cbn [length] in *. lia.
Qed.

Lemma al_diag_le x a y b : lev (x :: a) (y :: b) <= lev a b + 1.
Proof. rewrite lev_cc. destruct (Nat.eqb x y); lia. Qed.

(** deleting a character changes the distance by at most one *)
Lemma lev_del x a b : lev (x :: a) b <= lev a b + 1.
Proof. destruct b as [|y b]; [rewrite !lev_nil_r; cbn; lia|]. rewrite lev_cc. lia. Qed.
Lemma lev_ins a y b : lev a (y :: b) <= lev a b + 1.
Proof. destruct a as [|x a]; [cbn; lia|]. rewrite lev_cc. lia. Qed.

Lemma lev_min a b n : al a b n -> lev a b <= n.
Proof.
  induction 1.
  - reflexivity.
  - rewrite lev_cc, Nat.eqb_refl. lia.
  - rewrite lev_cc. destruct (Nat.eqb x y); lia.
  - pose proof (lev_ins a y b). lia.
  - pose proof (lev_del x a b). lia.
Qed.

Lemma lev_edit_distance a b : edit_distance a b (lev (rev a) (rev b)).
Proof.
  split.
  - apply al_edits. rewrite <- (rev_involutive a), <- (rev_involutive b) at 1. apply al_rev.
    pose proof (lev_al (rev a) (rev b)) as H. exact H.
  - intros k Hk. apply edits_al in Hk as (j & Hj & Ha). apply al_rev, lev_min in Ha. lia.
Qed.

(** ---- the rows ---- *)
(** row of the prefix [p] (reversed) against all prefixes of [q ++ s2], starting at the prefix [q] (reversed) *)
Fixpoint row (p q s2 : list nat) : list nat :=
  lev p q :: match s2 with [] => [] | c :: r => row p (c :: q) r end.

Lemma row_cons p q s2 : row p q s2 = lev p q :: match s2 with [] => [] | c :: r => row p (c :: q) r end.
Proof. destruct s2; reflexivity. Qed.

Lemma lev_inner_row c p q s2 :
  lev_inner c s2 (row p q s2) (lev (c :: p) q) = match s2 with [] => [] | c2 :: r => row (c :: p) (c2 :: q) r end.
Proof.
  revert q. induction s2 as [|c2 s2 IH]; intros q; [reflexivity|].
  rewrite row_cons. rewrite (row_cons p (c2 :: q) s2). cbn [lev_inner].
  rewrite (row_cons (c :: p) (c2 :: q) s2). rewrite <- lev_cc. f_equal.
  rewrite <- row_cons. apply IH.
Qed.

Lemma lev_outer_row i p s1 s2 : length p = i ->
  lev_outer i s1 s2 (row p [] s2) = row (rev s1 ++ p) [] s2.
Proof.
  revert i p. induction s1 as [|c s1 IH]; intros i p Hl; cbn [lev_outer rev app]; [reflexivity|].
  replace (i + 1) with (lev (c :: p) []) by (rewrite lev_nil_r; cbn; lia).
  rewrite lev_inner_row. rewrite <- row_cons. rewrite IH by (cbn; lia).
  rewrite <- app_assoc. reflexivity.
Qed.

Lemma row_nil q s2 : row [] q s2 = seq (length q) (length s2 + 1).
Proof.
  revert q. induction s2 as [|c s2 IH]; intros q; cbn [row]; [reflexivity|].
  rewrite IH. cbn [length]. replace (S (length s2) + 1) with (S (length s2 + 1)) by lia. reflexivity.
Qed.

Lemma row_last p q s2 d : last (row p q s2) d = lev p (rev s2 ++ q).
Proof.
  revert q. induction s2 as [|c s2 IH]; intros q; cbn [row]; [reflexivity|].
  transitivity (last (row p (c :: q) s2) d); [destruct s2; reflexivity|].
  rewrite IH. cbn [rev]. rewrite <- app_assoc. reflexivity.
Qed.

Lemma lev_main_lev s1 s2 : lev_main s1 s2 = lev (rev s1) (rev s2).
Proof.
  unfold lev_main. destruct (Nat.eqb_spec (length s2) 0) as [E|E].
  - destruct s2; [|discriminate]. cbn [rev]. rewrite lev_nil_r, rev_length. reflexivity.
  - change (seq 0 (length s2 + 1)) with (seq (length (@nil nat)) (length s2 + 1)).
    rewrite <- row_nil, (lev_outer_row 0 []), row_last, !app_nil_r by reflexivity. reflexivity.
Qed.

Lemma edit1_sym a b : edit1 a b -> edit1 b a.
Proof. intros []; constructor. Qed.
Lemma edits_snoc n a b c : edits n a b -> edit1 b c -> edits (S n) a c.
Proof. intros H1 H2. rewrite <- Nat.add_1_r. eapply edits_app; [exact H1|]. econstructor; [exact H2|constructor]. Qed.
Lemma edits_sym n a b : edits n a b -> edits n b a.
Proof. induction 1; [constructor|]. eapply edits_snoc; [eassumption|apply edit1_sym; assumption]. Qed.

Lemma edit_distance_sym a b n : edit_distance a b n -> edit_distance b a n.
Proof. intros [H1 H2]. split; [apply edits_sym, H1|]. intros k Hk. apply H2, edits_sym, Hk. Qed.
Lemma edit_distance_unique a b n m : edit_distance a b n -> edit_distance a b m -> n = m.
Proof. intros [H1 H2] [H3 H4]. apply Nat.le_antisymm; auto. Qed.

Lemma levenshtein_correct s1 s2 : edit_distance s1 s2 (levenshtein_distance s1 s2).
Proof.
  unfold levenshtein_distance. destruct (Nat.ltb (length s1) (length s2)).
  - rewrite lev_main_lev. apply edit_distance_sym, lev_edit_distance.
  - rewrite lev_main_lev. apply lev_edit_distance.
Qed.

Lemma levenshtein_metric a b c :
  levenshtein_distance a b = levenshtein_distance b a /\
  (levenshtein_distance a b = 0 <-> a = b) /\
  levenshtein_distance a c <= levenshtein_distance a b + levenshtein_distance b c.
Proof.
  pose proof (levenshtein_correct a b) as [H1 H2]. pose proof (levenshtein_correct b c) as [H3 H4].
  pose proof (levenshtein_correct a c) as [H5 H6]. split; [|split; [split|]].
  - eapply edit_distance_unique; [apply levenshtein_correct|apply edit_distance_sym, levenshtein_correct].
  - intros E. rewrite E in H1. inversion H1; reflexivity.
  - intros ->. pose proof (H2 0 (ed_0 b)). lia.
  - apply H6. eapply edits_app; eassumption.
Qed.

Lemma edits_length n a b : edits n a b -> length b <= length a + n /\ length a <= length b + n.
Proof.
  induction 1 as [|n a b c H1 H IH]; [lia|].
  destruct H1 as [l x r|l x r|l x y r]; rewrite !app_length in *; cbn [length] in *; lia.
Qed.

Lemma lev_absdiff a b : absdiff (length b) (length a) <= levenshtein_distance a b.
Proof. pose proof (levenshtein_correct a b) as [H _]. apply edits_length in H. unfold absdiff. lia. Qed.

Lemma lev_upper a b : levenshtein_distance a b <= length a + length b.
Proof.
  unfold levenshtein_distance. destruct (Nat.ltb _ _); rewrite lev_main_lev.
  - pose proof (lev_length_bounds (rev b) (rev a)) as H. rewrite !rev_length in H. lia.
  - pose proof (lev_length_bounds (rev a) (rev b)) as H. rewrite !rev_length in H. lia.
Qed.

Section Sort.
  Context {A : Type} (key : A -> Z).
  Lemma insert_by_perm x l : Permutation (x :: l) (insert_by key x l).
  Proof.
    induction l as [|y l IH]; cbn; [reflexivity|]. destruct (key x <=? key y)%Z; [reflexivity|].
    rewrite perm_swap, IH. reflexivity.
  Qed.
  Lemma sorted_by_perm l : Permutation l (sorted_by key l).
  Proof. induction l as [|x l IH]; cbn; [reflexivity|]. rewrite <- insert_by_perm, <- IH. reflexivity. Qed.
  Lemma insert_by_sorted x l : StronglySorted (fun a b => (key a <= key b)%Z) l ->
    StronglySorted (fun a b => (key a <= key b)%Z) (insert_by key x l).
  Proof.
    induction 1 as [|y l Hs IH Hf]; cbn; [repeat constructor|].
    destruct (Z.leb_spec (key x) (key y)).
    - constructor; [constructor; assumption|]. constructor; [assumption|].
      rewrite Forall_forall in *. intros z Hz. specialize (Hf z Hz). cbn in Hf. lia.
    - constructor; [exact IH|]. rewrite Forall_forall in *. intros z Hz.
      assert (Hz' : In z (x :: l)) by (eapply Permutation_in; [symmetry; apply insert_by_perm|exact Hz]).
      destruct Hz' as [<-|Hz']; [lia|]. apply Hf, Hz'.
  Qed.
  Lemma sorted_by_sorted l : StronglySorted (fun a b => (key a <= key b)%Z) (sorted_by key l).
  Proof. induction l as [|x l IH]; cbn; [constructor|]. apply insert_by_sorted, IH. Qed.
End Sort.

Lemma argmin_loop_spec stru l c0 d0 :
  StronglySorted (fun a b => (Z.of_nat (absdiff (length a) (length stru)) <= Z.of_nat (absdiff (length b) (length stru)))%Z) l ->
  d0 = levenshtein_distance stru c0 ->
  exists c d, argmin_loop stru l (Some (c0, d0)) = Some (c, d) /\ d = levenshtein_distance stru c /\ In c (c0 :: l) /\
    forall x, In x (c0 :: l) -> d <= levenshtein_distance stru x.
Proof.
  revert c0 d0. induction l as [|c l IH]; intros c0 d0 Hs Hd; cbn [argmin_loop].
  - exists c0, d0. split; [reflexivity|]. split; [exact Hd|]. split; [left; reflexivity|]. intros x [<-|[]]. lia.
  - inversion Hs as [|? ? Hs' Hf]; subst. set (d0 := levenshtein_distance stru c0).
    destruct (Nat.leb_spec d0 (absdiff (length c) (length stru))) as [Hle|Hlt].
    + exists c0, d0. split; [reflexivity|]. split; [reflexivity|]. split; [left; reflexivity|].
      intros x [<-|[<-|Hx]]; [reflexivity| |].
      * pose proof (lev_absdiff stru c). lia.
      * rewrite Forall_forall in Hf. specialize (Hf x Hx). pose proof (lev_absdiff stru x). lia.
    + destruct (Nat.ltb_spec (levenshtein_distance stru c) d0) as [Hl|Hl].
      * destruct (IH c _ Hs' eq_refl) as (c' & d' & E & Hd' & Hin & Hm). exists c', d'. split; [exact E|]. split; [exact Hd'|].
        split; [right; exact Hin|]. intros x [<-|Hx]; [|apply Hm, Hx].
        pose proof (Hm c (or_introl eq_refl)). unfold d0 in *. lia.
      * destruct (IH c0 d0 Hs' eq_refl) as (c' & d' & E & Hd' & Hin & Hm). exists c', d'. split; [exact E|]. split; [exact Hd'|].
        split; [destruct Hin as [<-|Hin]; [left; reflexivity|right; right; exact Hin]|].
        intros x [<-|[<-|Hx]]; [apply Hm; left; reflexivity| |apply Hm; right; exact Hx].
        pose proof (Hm c0 (or_introl eq_refl)). unfold d0 in *. lia.
Qed.

Lemma argmin_correct stru l :
  match argmin_levenshtein stru l with
  | None => l = []
  | Some c => In c l /\ forall x, In x l -> levenshtein_distance stru c <= levenshtein_distance stru x
  end.
Proof.
  unfold argmin_levenshtein. set (key := fun x : list nat => _).
  pose proof (sorted_by_perm key l) as Hp. pose proof (sorted_by_sorted key l) as Hs.
  destruct (sorted_by key l) as [|c0 s]; cbn [argmin_loop].
  - apply Permutation_sym, Permutation_nil in Hp. exact Hp.
  - inversion Hs as [|? ? Hs' Hf]; subst.
    destruct (argmin_loop_spec stru s c0 _ Hs' eq_refl) as (c & d & -> & Hd & Hin & Hm). subst d. split.
    + eapply Permutation_in; [symmetry; exact Hp|exact Hin].
    + intros x Hx. apply Hm. eapply Permutation_in; [exact Hp|exact Hx].
Qed.

Lemma argmax_loop_spec stru l : forall arg mx,
  StronglySorted (fun a b => (- Z.of_nat (length a) <= - Z.of_nat (length b))%Z) l ->
  (match arg with Some c => mx = levenshtein_distance stru c | None => mx = 0 end) ->
  match argmax_loop stru l arg mx with
  | Some c => (arg = Some c \/ In c l) /\ mx <= levenshtein_distance stru c /\
              forall x, In x l -> levenshtein_distance stru x <= levenshtein_distance stru c
  | None => arg = None /\ forall x, In x l -> levenshtein_distance stru x = 0
  end.
Proof.
  induction l as [|c l IH]; intros arg mx Hs Ha; cbn [argmax_loop].
  - destruct arg as [c|]; [|split; [reflexivity|intros x []]]. split; [left; reflexivity|]. split; [lia|]. intros x [].
  - inversion Hs as [|? ? Hs' Hf]; subst. rewrite Forall_forall in Hf.
    destruct (Nat.leb_spec (length c + length stru) mx) as [Hle|Hgt].
    + assert (Hall : forall x, In x (c :: l) -> levenshtein_distance stru x <= mx).
      { intros x Hx. pose proof (lev_upper stru x) as Hu. destruct Hx as [<-|Hx]; [lia|]. specialize (Hf x Hx). lia. }
      destruct arg as [c'|].
      * split; [left; reflexivity|]. split; [lia|]. intros x Hx. specialize (Hall x Hx). lia.
      * split; [reflexivity|]. intros x Hx. specialize (Hall x Hx). lia.
    + destruct (Nat.ltb_spec mx (levenshtein_distance stru c)) as [Hl|Hl].
      * specialize (IH (Some c) _ Hs' eq_refl). destruct (argmax_loop stru l (Some c) _) as [c'|].
        -- destruct IH as (Hin & Hm & Hall). split; [destruct Hin as [[= <-]|Hin]; right; cbn; auto|]. split; [lia|].
           intros x [<-|Hx]; [exact Hm|apply Hall, Hx].
        -- destruct IH as [H _]. discriminate.
      * specialize (IH arg mx Hs' Ha). destruct (argmax_loop stru l arg mx) as [c'|].
        -- destruct IH as (Hin & Hm & Hall). split; [destruct Hin as [Hin|Hin]; cbn; auto|]. split; [exact Hm|].
           intros x [<-|Hx]; [lia|apply Hall, Hx].
        -- destruct IH as [-> Hall]. split; [reflexivity|]. subst mx. intros x [<-|Hx]; [lia|apply Hall, Hx].
Qed.

Lemma argmax_correct stru l :
  match argmax_levenshtein stru l with
  | None => forall x, In x l -> x = stru
  | Some c => In c l /\ forall x, In x l -> levenshtein_distance stru x <= levenshtein_distance stru c
  end.
Proof.
  unfold argmax_levenshtein. set (key := fun x : list nat => (- Z.of_nat (length x))%Z).
  pose proof (sorted_by_perm key l) as Hp. pose proof (sorted_by_sorted key l) as Hs.
  pose proof (argmax_loop_spec stru (sorted_by key l) None 0 Hs eq_refl) as H.
  destruct (argmax_loop stru (sorted_by key l) None 0) as [c|].
  - destruct H as ([E|Hin] & _ & Hall); [discriminate|]. split; [eapply Permutation_in; [symmetry; exact Hp|exact Hin]|].
    intros x Hx. apply Hall. eapply Permutation_in; [exact Hp|exact Hx].
  - intros x Hx. destruct H as [_ Hall]. symmetry. apply (levenshtein_metric stru x stru). apply Hall.
    eapply Permutation_in; [exact Hp|exact Hx].
Qed.
