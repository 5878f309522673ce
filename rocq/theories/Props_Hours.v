(** C92: durations in business hours. *)
From Coq Require Import List ZArith Bool Lia Sorting.Sorted Sorting.Permutation.
Import ListNotations.
From Verif Require Import Model_Hours Spec_Hours.
Local Open Scope Z_scope.

Lemma m_ext P Q a b n : (forall x, a <= x < b -> (P x <-> Q x)) -> measures P a b n -> measures Q a b n.
Proof. intros E (l & N & H & ->). exists l. split; auto. split; auto. intros x. rewrite H. split; intros [A B]; split; auto; apply (E x A); auto. Qed.
Lemma m_none P a b : (forall x, a <= x < b -> ~ P x) -> measures P a b 0.
Proof. intros E. exists []. split; [constructor|]. split; [|reflexivity]. intros x. split; [intros []|intros [A B]; apply (E x A B)]. Qed.
Lemma m_or P Q a b n m : measures P a b n -> measures Q a b m -> (forall x, a <= x < b -> P x -> Q x -> False) -> measures (fun x => P x \/ Q x) a b (n + m).
Proof.
  intros (l & N & H & ->) (k & N' & H' & ->) D. exists (l ++ k). split; [|split; [|rewrite app_length; lia]].
  - assert (D' : forall x, In x l -> In x k -> False) by (intros x A B; apply H in A as [A1 A2]; apply H' in B as [B1 B2]; eauto). clear -N N' D'. induction l as [|x l IH]; [exact N'|]. inversion N; subst. cbn. constructor; [rewrite in_app_iff; intros [|]; [auto|eapply D'; [left; eauto|auto]]|]. apply IH; auto. intros y Hy. apply D'. right. auto.
  - intros x. rewrite in_app_iff, H, H'. tauto.
Qed.
Lemma m_split P a b c n m : a <= b <= c -> measures P a b n -> measures P b c m -> measures P a c (n + m).
Proof.
  intros L A B. assert (A' : measures (fun x => P x /\ x < b) a c n) by (destruct A as (l & N & H & ->); exists l; split; auto; split; auto; intros x; rewrite H; split; intros [X Y]; split; try tauto; lia).
  assert (B' : measures (fun x => P x /\ b <= x) a c m) by (destruct B as (l & N & H & ->); exists l; split; auto; split; auto; intros x; rewrite H; split; intros [X Y]; split; try tauto; lia).
  eapply m_ext; [|apply (m_or _ _ _ _ _ _ A' B'); intros x _ [_ X] [_ Y]; lia]. intros x _. cbv beta. split; [tauto|]. intros Px. destruct (Z_lt_ge_dec x b); [left|right]; split; auto; lia.
Qed.
Lemma m_interval a b l r : measures (fun x => l <= x < r) a b (Z.max 0 (Z.min b r - Z.max a l)).
Proof.
  set (s := Z.max a l). set (n := Z.to_nat (Z.min b r - s)). exists (map (fun i => s + Z.of_nat i) (seq 0 n)). split; [|split].
  - apply FinFun.Injective_map_NoDup; [|apply seq_NoDup]. intros i j E. lia.
  - intros x. rewrite in_map_iff. split; [intros (i & <- & Hi); apply in_seq in Hi; unfold n, s in *; lia|]. intros [A B]. exists (Z.to_nat (x - s)). rewrite in_seq. unfold n, s in *. lia.
  - rewrite map_length, seq_length. unfold n. lia.
Qed.
Lemma m_unique P a b n m : measures P a b n -> measures P a b m -> n = m.
Proof.
  intros (l & N & H & ->) (k & N' & H' & ->). apply Nat2Z.inj_iff, Permutation_length, NoDup_Permutation; auto. intros x. rewrite H, H'. tauto.
Qed.
(** one slot *)
Section Slot.
  Variables (u t1 t2 b e : Z).
  Hypothesis (Hu : 0 < u) (Hb : 0 <= b) (Hbe : b <= e) (He : e <= week).
  Let W := week * u.
  Let ws := week_start u t1.
  Lemma W_pos : 0 < W. Proof. unfold W, week, day. lia. Qed.
  Lemma ws_le : ws <= t1 < ws + W.
  Proof. unfold ws, week_start. fold W. pose proof W_pos. pose proof (Z.div_mod t1 W ltac:(lia)). pose proof (Z.mod_pos_bound t1 W ltac:(lia)). nia. Qed.
  Lemma at_week_eq s : at_week u ws s = ws + s * u.
  Proof. unfold at_week. generalize (s / day). intros d. cbv zeta. ring. Qed.
  Lemma week_mod k x : ws + k * W <= x < ws + (k + 1) * W -> x mod W = x - (ws + k * W).
  Proof. intros Hx. pose proof W_pos. symmetry. apply (Z.mod_unique x W (t1 / W + k)); [left; replace (ws + (k + 1) * W) with (ws + k * W + W) in Hx by ring; lia|]. unfold ws, week_start. fold W. ring. Qed.
  Lemma week_overlap k : measures (within u b e) (Z.max t1 (ws + k * W)) (Z.max (Z.max t1 (ws + k * W)) (Z.min t2 (ws + (k + 1) * W))) (if (0 <=? k) then overlap t1 t2 (ws + k * W + b * u) (ws + k * W + e * u) else 0).
  Proof.
    pose proof W_pos as WP. pose proof ws_le as WL. assert (K1 : ws + (k + 1) * W = ws + k * W + W) by ring. destruct (Z.leb_spec 0 k) as [L|L].
    - replace (overlap t1 t2 (ws + k * W + b * u) (ws + k * W + e * u)) with (Z.max 0 (Z.min (Z.max (Z.max t1 (ws + k * W)) (Z.min t2 (ws + (k + 1) * W))) (ws + k * W + e * u) - Z.max (Z.max t1 (ws + k * W)) (ws + k * W + b * u))).
      + eapply m_ext; [|apply m_interval]. intros x Hx. cbv beta. unfold within. replace (7 * 24 * 60 * 60 * u) with W by (unfold W, week, day; lia). rewrite (week_mod k) by lia. lia.
      + unfold overlap. assert (0 <= b * u) by nia. assert (e * u <= W) by (unfold W; nia). assert (b * u <= e * u) by nia. lia.
    - apply m_none. intros x Hx. exfalso. assert ((k + 1) * W <= 0) by nia. lia.
  Qed.
  (** from week k on *)
  Lemma more_ok : forall fuel k, 0 <= k -> (1 <= fuel)%nat -> t2 <= ws + (k + Z.of_nat fuel) * W ->
    exists n, more_weeks fuel u t1 t2 (ws + k * W + b * u) (ws + k * W + e * u) = Some n /\ measures (within u b e) (ws + (k + 1) * W) (Z.max (ws + (k + 1) * W) t2) n.
  Proof.
    pose proof W_pos as WP. pose proof ws_le as WL. assert (B0 : 0 <= b * u) by nia. assert (B1 : e * u <= W) by (unfold W; nia). assert (B2 : b * u <= e * u) by nia.
    induction fuel as [|f IH]; intros k Hk Hf Ht; [lia|]. cbn [more_weeks]. fold W. assert (0 <= k * W) by nia.
    replace (ws + k * W + b * u + W) with (ws + (k + 1) * W + b * u) by ring. replace (ws + k * W + e * u + W) with (ws + (k + 1) * W + e * u) by ring.
    set (o := overlap t1 t2 (ws + (k + 1) * W + b * u) (ws + (k + 1) * W + e * u)).
    assert (K1 : ws + (k + 1) * W = ws + k * W + W) by ring. assert (K2 : ws + (k + 1 + 1) * W = ws + (k + 1) * W + W) by ring.
    destruct (Z.leb_spec o 0) as [L|L].
    - exists 0. split; auto. apply m_none. intros x Hx [X1 X2]. replace (7 * 24 * 60 * 60 * u) with W in * by (unfold W, week, day; ring).
      unfold o, overlap in L. assert (e * u <= b * u \/ t2 <= ws + (k + 1) * W + b * u) as [C|C] by lia; [lia|]. rewrite (week_mod (k + 1)) in X1 by lia. lia.
    - assert (C : ws + (k + 1) * W < t2) by (unfold o, overlap in L; lia).
      assert (Hf1 : (1 <= f)%nat). { destruct f; [|lia]. change (Z.of_nat 1) with 1 in Ht. exfalso. lia. }
      destruct (IH (k + 1)) as (n & E & M); [lia|auto|replace (k + 1 + Z.of_nat f) with (k + Z.of_nat (S f)) by lia; auto|]. rewrite E. cbn [option_map]. exists (o + n). split; auto.
      pose proof (week_overlap (k + 1)) as V. destruct (Z.leb_spec 0 (k + 1)); [|lia]. fold o in V. rewrite (Z.max_r t1) in V by lia.
      destruct (Z_le_gt_dec t2 (ws + (k + 1 + 1) * W)) as [D|D].
      + rewrite (Z.max_l _ t2) in M by lia. assert (n = 0) as -> by (eapply m_unique; [exact M|apply m_none; intros; lia]). rewrite Z.add_0_r. replace (Z.max (ws + (k + 1) * W) t2) with (Z.max (ws + (k + 1) * W) (Z.min t2 (ws + (k + 1 + 1) * W))) by lia. exact V.
      + rewrite (Z.max_r _ t2) in M by lia. rewrite (Z.max_r _ t2) by lia. eapply m_split; [|replace (ws + (k + 1 + 1) * W) with (Z.max (ws + (k + 1) * W) (Z.min t2 (ws + (k + 1 + 1) * W))) in M by lia; exact V|replace (Z.max (ws + (k + 1) * W) (Z.min t2 (ws + (k + 1 + 1) * W))) with (ws + (k + 1 + 1) * W) by lia; exact M]. lia.
  Qed.
  Lemma slot_ok fuel : (1 <= fuel)%nat -> t2 <= ws + Z.of_nat fuel * W ->
    exists n, more_weeks fuel u t1 t2 (at_week u ws b) (at_week u ws e) = Some n /\ measures (within u b e) t1 t2 (overlap t1 t2 (at_week u ws b) (at_week u ws e) + n).
  Proof.
    intros Hf Ht. pose proof W_pos as WP. pose proof ws_le as WL. rewrite !at_week_eq. destruct (more_ok fuel 0) as (n & E & M); [lia|auto|rewrite Z.add_0_l; auto|]. rewrite Z.mul_0_l, Z.add_0_r in E. rewrite Z.add_0_l, Z.mul_1_l in M. exists n. split; [auto|].
    pose proof (week_overlap 0) as V. change (0 <=? 0) with true in V. cbv iota in V. rewrite Z.mul_0_l, Z.add_0_r, Z.add_0_l, Z.mul_1_l in V. rewrite (Z.max_l t1 ws) in V by lia.
    destruct (Z_le_gt_dec t2 (ws + W)) as [D|D].
    - rewrite (Z.max_l _ t2) in M by lia. assert (n = 0) as -> by (eapply m_unique; [exact M|apply m_none; intros; lia]). rewrite Z.add_0_r. rewrite (Z.min_l t2) in V by lia. destruct (Z_le_gt_dec t1 t2) as [G|G]; [rewrite Z.max_r in V by lia; exact V|].
      rewrite Z.max_l in V by lia. replace (overlap t1 t2 (ws + b * u) (ws + e * u)) with 0 by (unfold overlap; lia). apply m_none. intros; lia.
    - rewrite (Z.max_r _ t2) in M by lia. rewrite (Z.min_r t2), Z.max_r in V by lia. eapply m_split; [|exact V|exact M]. lia.
  Qed.
End Slot.
(** the union of the slots *)
Definition cov (u : Z) (l : list (Z * Z)) (y : Z) : Prop := exists s, In s l /\ fst s * u <= y < snd s * u.
Definition pause (u : Z) (l : list (Z * Z)) (y : Z) : Prop := exists s s', In s l /\ In s' l /\ fst s' = snd s + 1 /\ snd s * u <= y < fst s' * u.
Inductive chain : list (Z * Z) -> Prop :=
| ch_nil : chain []
| ch_cons s l : chain l -> (forall s', In s' l -> snd s' + 1 < fst s) -> fst s <= snd s -> chain (s :: l).
Definition inv (u : Z) (done acc : list (Z * Z)) : Prop :=
  chain acc /\ (forall s, In s done -> exists c, In c acc /\ fst c <= fst s /\ snd s <= snd c) /\
  (forall c, In c acc -> (exists s, In s done /\ fst s = fst c) /\ (exists s, In s done /\ snd s = snd c)) /\
  (forall y, cov u acc y <-> cov u done y \/ pause u done y).
Lemma unify_inv u done acc s : 0 < u -> inv u done acc -> fst s <= snd s -> (forall s', In s' done -> fst s' <= fst s /\ fst s' <= snd s') -> inv u (done ++ [s]) (unify_step acc s).
Proof.
  intros Hu (C & D & B & V) Hs Hd. destruct s as [b' e']. cbn [fst snd] in *. destruct acc as [|[b e] acc]; cbn [unify_step fst].
  - assert (done = []) as -> by (destruct done as [|s done]; auto; destruct (D s (or_introl eq_refl)) as (c & [] & _)). cbn [app]. split; [constructor; [constructor|intros ? []|auto]|]. split; [intros s [<-|[]]; exists (b', e'); cbn; split; [auto|lia]|]. split.
    + intros c [<-|[]]. split; exists (b', e'); cbn; auto.
    + intros y. split; [auto|]. intros [X|(s & s1 & [<-|[]] & [<-|[]] & E & _)]; auto. cbn in E. lia.
  - inversion C as [|? ? C' Cb Cbe]; subst. cbn [fst snd] in *. destruct (B _ (or_introl eq_refl)) as ((sb & Hsb & Esb) & (se & Hse & Ese)). cbn [fst snd] in *. destruct (Hd _ Hsb) as [Hb1 _].
    destruct (Z.leb_spec (b' - 1) e) as [L|L].
    + split; [constructor; auto; cbn; lia|]. split; [|split].
      * intros s Hin. apply in_app_iff in Hin as [Hin|[<-|[]]]; [|exists (b, Z.max e e'); split; [left; auto|cbn; lia]]. destruct (D s Hin) as (c & [<-|Hc] & E1 & E2); [exists (b, Z.max e e'); split; [left; auto|cbn in *; lia]|exists c; split; [right; auto|auto]].
      * intros c [<-|Hc]; cbn [fst snd].
        -- split; [exists sb; rewrite in_app_iff; auto|]. destruct (Z.max_spec e e') as [[_ ->]|[_ ->]]; [exists (b', e'); rewrite in_app_iff; cbn; auto|exists se; rewrite in_app_iff; auto].
        -- destruct (B c (or_intror Hc)) as ((s1 & X1 & Y1) & (s2 & X2 & Y2)). split; [exists s1|exists s2]; rewrite in_app_iff; auto.
      * intros y. split.
        -- intros (c & [<-|Hc] & E); cbn [fst snd] in *.
           ++ destruct (Z_lt_ge_dec y (e * u)) as [Y|Y]; [|destruct (Z_lt_ge_dec y (b' * u)) as [Y'|Y']].
              ** destruct (proj1 (V y)) as [(s & Hin & X)|(s & s1 & H1 & H2 & X)]; [exists (b, e); split; [left; auto|cbn; lia]|left; exists s; rewrite in_app_iff; auto|right; exists s, s1; rewrite !in_app_iff; auto].
              ** right. exists se, (b', e'). rewrite !in_app_iff. cbn. assert (b' = e + 1) by nia. split; auto. split; auto. split; [lia|]. rewrite Ese. lia.
              ** left. exists (b', e'). rewrite in_app_iff. cbn. split; auto. nia.
           ++ destruct (proj1 (V y)) as [(s & Hin & X)|(s & s1 & H1 & H2 & X)]; [exists c; split; [right; auto|auto]|left; exists s; rewrite in_app_iff; auto|right; exists s, s1; rewrite !in_app_iff; auto].
        -- assert (G : cov u ((b, e) :: acc) y -> cov u ((b, Z.max e e') :: acc) y). { intros (c & [<-|Hc] & X); [exists (b, Z.max e e'); split; [left; auto|cbn in *; nia]|exists c; split; [right; auto|auto]]. }
           intros [(s & Hin & X)|(s & s1 & H1 & H2 & X1 & X2)].
           ++ apply in_app_iff in Hin as [Hin|[<-|[]]]; [apply G, V; left; exists s; auto|]. exists (b, Z.max e e'). split; [left; auto|]. cbn in *. nia.
           ++ apply in_app_iff in H1 as [H1|[<-|[]]], H2 as [H2|[<-|[]]]; cbn [fst snd] in *; [apply G, V; right; exists s, s1; auto| | |lia].
              ** destruct (D s H1) as (c & [<-|Hc] & Z1 & Z2); cbn [fst snd] in *; [|specialize (Cb c Hc); lia]. destruct (Hd s H1). exists (b, Z.max e e'). split; [left; auto|]. cbn. nia.
              ** destruct (Hd s1 H2). lia.
    + split; [constructor; auto; cbn; intros s' [<-|Hs']; cbn; [lia|specialize (Cb s' Hs'); cbn in Cb; lia]|]. split; [|split].
      * intros s Hin. apply in_app_iff in Hin as [Hin|[<-|[]]]; [|exists (b', e'); split; [left; auto|cbn; lia]]. destruct (D s Hin) as (c & Hc & X). exists c. split; [right; auto|auto].
      * intros c [<-|Hc]; [split; exists (b', e'); rewrite in_app_iff; cbn; auto|]. destruct (B c Hc) as ((s1 & X1 & Y1) & (s2 & X2 & Y2)). split; [exists s1|exists s2]; rewrite in_app_iff; auto.
      * intros y. split.
        -- intros (c & [<-|Hc] & E); [left; exists (b', e'); rewrite in_app_iff; cbn; auto|]. destruct (proj1 (V y)) as [(s & Hin & X)|(s & s1 & H1 & H2 & X)]; [exists c; auto|left; exists s; rewrite in_app_iff; auto|right; exists s, s1; rewrite !in_app_iff; auto].
        -- assert (G : cov u ((b, e) :: acc) y -> cov u ((b', e') :: (b, e) :: acc) y) by (intros (c & Hc & X); exists c; split; [right; auto|auto]).
           intros [(s & Hin & X)|(s & s1 & H1 & H2 & X1 & X2)].
           ++ apply in_app_iff in Hin as [Hin|[<-|[]]]; [apply G, V; left; exists s; auto|]. exists (b', e'). split; [left; auto|auto].
           ++ apply in_app_iff in H1 as [H1|[<-|[]]], H2 as [H2|[<-|[]]]; cbn [fst snd] in *; [apply G, V; right; exists s, s1; auto| | |lia].
              ** destruct (D s H1) as (c & [<-|Hc] & Z1 & Z2); cbn [fst snd] in *; [lia|specialize (Cb c Hc); lia].
              ** destruct (Hd s1 H2). lia.
Qed.
Lemma insert_perm x l : Permutation (insert_slot x l) (x :: l).
Proof. induction l as [|y l IH]; cbn; [auto|]. destruct (slot_le x y); [auto|]. rewrite IH. constructor. Qed.
Lemma sort_perm l : Permutation (sort_slots l) l.
Proof. induction l as [|x l IH]; cbn; [auto|]. rewrite insert_perm. constructor. auto. Qed.
Lemma insert_sorted x l : StronglySorted (fun a b => fst a <= fst b) l -> StronglySorted (fun a b => fst a <= fst b) (insert_slot x l).
Proof.
  induction l as [|y l IH]; intros S; cbn; [repeat constructor|]. inversion S as [|? ? S' F]; subst. destruct (slot_le x y) eqn:E; unfold slot_le in E.
  - constructor; auto. assert (fst x <= fst y) by lia. constructor; auto. eapply Forall_impl; [|exact F]. cbn. intros; lia.
  - constructor; auto. apply Forall_forall. intros z Hz. apply (Permutation_in _ (insert_perm x l)) in Hz. destruct Hz as [<-|Hz]; [lia|]. rewrite Forall_forall in F. auto.
Qed.
Lemma sort_sorted l : StronglySorted (fun a b => fst a <= fst b) (sort_slots l).
Proof. induction l as [|x l IH]; cbn; [constructor|apply insert_sorted; auto]. Qed.
Lemma unify_all u : 0 < u -> forall l done acc, inv u done acc -> StronglySorted (fun a b => fst a <= fst b) l -> (forall s, In s l -> fst s <= snd s) -> (forall s' , In s' done -> fst s' <= snd s' /\ forall s, In s l -> fst s' <= fst s) ->
  inv u (done ++ l) (fold_left unify_step l acc).
Proof.
  intros Hu. induction l as [|s l IH]; intros done acc I S Hl Hd; [rewrite app_nil_r; auto|]. inversion S as [|? ? S' F]; subst. rewrite Forall_forall in F. cbn [fold_left]. replace (done ++ s :: l) with ((done ++ [s]) ++ l) by (rewrite <- app_assoc; auto).
  apply IH; auto; [apply unify_inv; auto; [apply Hl; left; auto|intros s' Hs'; destruct (Hd s' Hs') as [X Y]; split; [apply Y; left; auto|auto]]|intros; apply Hl; right; auto|].
  intros s' Hs'. apply in_app_iff in Hs' as [Hs'|[<-|[]]]; [destruct (Hd s' Hs') as [X Y]; split; auto; intros; apply Y; right; auto|]. split; [apply Hl; left; auto|auto].
Qed.
Lemma unified u slots : 0 < u -> (forall s, In s slots -> fst s <= snd s) ->
  NoDup (unify slots) /\ (forall s s', In s (unify slots) -> In s' (unify slots) -> s <> s' -> snd s <= fst s' \/ snd s' <= fst s) /\
  (forall c, In c (unify slots) -> fst c <= snd c /\ (exists s, In s slots /\ fst s = fst c) /\ (exists s, In s slots /\ snd s = snd c)) /\
  (forall y, cov u (unify slots) y <-> cov u slots y \/ pause u slots y).
Proof.
  intros Hu Hs. pose proof (sort_perm slots) as P. assert (PI : forall s, In s (sort_slots slots) <-> In s slots) by (intros s; split; apply Permutation_in; [|apply Permutation_sym]; auto).
  destruct (unify_all u Hu (sort_slots slots) [] []) as (C & D & B & V).
  - split; [constructor|]. split; [intros s []|]. split; [intros c []|]. intros y. split; [intros (c & [] & _)|intros [(c & [] & _)|(c & s & [] & _)]].
  - apply sort_sorted.
  - intros s Hin. apply Hs, PI. auto.
  - intros s' [].
  - cbn [app] in *. unfold unify. set (acc := fold_left unify_step (sort_slots slots) []) in *. clearbody acc.
    assert (X : NoDup acc /\ (forall s s', In s acc -> In s' acc -> s <> s' -> snd s <= fst s' \/ snd s' <= fst s) /\ forall c, In c acc -> fst c <= snd c).
    { clear -C. induction C as [|s l C' IHC Hl Hs]; [split; [constructor|split; [intros ? ? []|intros ? []]]|]. destruct IHC as (N & Dj & L). split; [|split].
      - constructor; auto. intros Hin. specialize (Hl s Hin). lia.
      - intros a a' [<-|Ha] [<-|Ha'] Hne; [congruence| | |auto]; [right; specialize (Hl a' Ha'); lia|left; specialize (Hl a Ha); lia].
      - intros c [<-|Hc]; auto. }
    destruct X as (N & Dj & L). split; [apply NoDup_rev; auto|]. split; [intros s s' A A'; rewrite <- in_rev in A, A'; auto|]. split.
    + intros c Hc. rewrite <- in_rev in Hc. split; auto. destruct (B c Hc) as ((s & X & Y) & (s1 & X1 & Y1)). split; [exists s|exists s1]; rewrite <- PI; auto.
    + intros y. assert (E : cov u (rev acc) y <-> cov u acc y) by (unfold cov; setoid_rewrite <- in_rev; tauto). rewrite E, V. unfold cov, pause. setoid_rewrite PI. tauto.
Qed.
Definition covered (u : Z) (l : list (Z * Z)) (x : Z) : Prop := exists s, In s l /\ within u (fst s) (snd s) x.
Lemma sum_ok u t1 t2 fuel : 0 < u -> (1 <= fuel)%nat -> t2 <= week_start u t1 + Z.of_nat fuel * (week * u) -> forall l n0,
  (forall s, In s l -> 0 <= fst s <= snd s /\ snd s <= week) -> NoDup l -> (forall s s', In s l -> In s' l -> s <> s' -> snd s <= fst s' \/ snd s' <= fst s) ->
  exists m, fold_left (fun acc s =>
    match acc, more_weeks fuel u t1 t2 (at_week u (week_start u t1) (fst s)) (at_week u (week_start u t1) (snd s)) with
    | Some sum, Some m => Some (sum + overlap t1 t2 (at_week u (week_start u t1) (fst s)) (at_week u (week_start u t1) (snd s)) + m)
    | _, _ => None
    end) l (Some n0) = Some (n0 + m) /\ measures (covered u l) t1 t2 m.
Proof.
  intros Hu Hf Ht. induction l as [|s l IH]; intros n0 Hl N D.
  - exists 0. cbn. rewrite Z.add_0_r. split; auto. apply m_none. intros x _ (s & [] & _).
  - cbn [fold_left]. destruct (Hl s (or_introl eq_refl)) as [[H1 H2] H3]. destruct (slot_ok u t1 t2 (fst s) (snd s) Hu H1 H2 H3 fuel Hf Ht) as (n & E & M). rewrite E. inversion N; subst.
    set (o := overlap t1 t2 _ _) in *. destruct (IH (n0 + o + n)) as (m & F & M2); [intros; apply Hl; right; auto|auto|intros; apply D; try (right; assumption); auto|]. exists (o + n + m). rewrite F. split; [f_equal; ring|].
    eapply m_ext; [|apply (m_or _ _ _ _ _ _ M M2)].
    + intros x _. unfold covered. cbn [In]. split; [intros [X|(s' & A & B)]; eauto|intros (s' & [<-|A] & B); eauto].
    + intros x _ X (s' & A & B). destruct (D s s') as [Z|Z]; [left; auto|right; auto|intros ->; contradiction| |]; unfold within in *; nia.
Qed.
(** The business duration between two times is the time between them that lies in one of the weekly slots, or in a pause of exactly one second between two slots. *)
Theorem C92_business_time : forall u t1 t2 slots, 0 < u -> weekly slots ->
  exists f n, (forall fuel, (f <= fuel)%nat -> get_ticks fuel u t1 t2 slots = Some n) /\
    measures (fun x => exists b e, In (b, e) slots /\ (within u b e x \/ exists e', In (e + 1, e') slots /\ within u e (e + 1) x)) t1 t2 n.
Proof.
  intros u t1 t2 slots Hu Hw. destruct (unified u slots Hu) as (N & D & B & V); [intros [b e] Hs; apply Hw in Hs; cbn; lia|].
  set (f := S (Z.to_nat (t2 - week_start u t1))). assert (W0 : forall s, In s (unify slots) -> 0 <= fst s <= snd s /\ snd s <= week).
  { intros c Hc. destruct (B c Hc) as (L & ([b1 e1] & H1 & E1) & ([b2 e2] & H2 & E2)). cbn in *. apply Hw in H1, H2. unfold week, day. lia. }
  assert (G : forall fuel, (f <= fuel)%nat -> exists m, get_ticks fuel u t1 t2 slots = Some m /\ measures (covered u (unify slots)) t1 t2 m).
  { intros fuel Hf. destruct (sum_ok u t1 t2 fuel Hu) with (l := unify slots) (n0 := 0) as (m & E & M); [lia| |auto|auto|auto|exists m; split; [exact E|auto]].
    assert (1 <= week * u) by (unfold week, day; lia). assert (Z.of_nat fuel * 1 <= Z.of_nat fuel * (week * u)) by nia. lia. }
  destruct (G f (le_n _)) as (n & E & M). exists f, n. split.
  - intros fuel Hf. destruct (G fuel Hf) as (m & E' & M'). rewrite E'. f_equal. eapply m_unique; eauto.
  - eapply m_ext; [|exact M]. intros x _. specialize (V (x mod (7 * 24 * 60 * 60 * u))). unfold cov, pause in V. unfold covered, within. rewrite V. split.
    + intros [([b e] & H1 & H2)|([b e] & [b' e'] & H1 & H2 & H3 & H4)]; cbn [fst snd] in *; [exists b, e; auto|]. subst b'. exists b, e. split; auto. right. exists e'. auto.
    + intros (b & e & Hin & [X|(e' & H1 & H2)]); [left; exists (b, e); auto|]. right. exists (b, e), (e + 1, e'). auto.
Qed.
Print Assumptions C92_business_time.
(** Without such pauses: exactly the time in the slots. *)
Theorem C92_business_time_exact : forall u t1 t2 slots, 0 < u -> weekly slots -> (forall b e b' e', In (b, e) slots -> In (b', e') slots -> b' <> e + 1) ->
  exists f n, (forall fuel, (f <= fuel)%nat -> get_ticks fuel u t1 t2 slots = Some n) /\ measures (fun x => exists b e, In (b, e) slots /\ within u b e x) t1 t2 n.
Proof.
  intros u t1 t2 slots Hu Hw Hp. destruct (C92_business_time u t1 t2 slots Hu Hw) as (f & n & E & M). exists f, n. split; auto. eapply m_ext; [|exact M]. intros x _. split.
  - intros (b & e & Hin & [X|(e' & H1 & _)]); [exists b, e; auto|]. exfalso. apply (Hp b e (e + 1) e'); auto.
  - intros (b & e & Hin & X). exists b, e. auto.
Qed.
Print Assumptions C92_business_time_exact.

(** Monday and Tuesday 7-12 and 11-17 (overlapping), Sunday until midnight; from Monday 8:00 to Tuesday of the next week 9:00. *)
Definition ex_slots : list (Z * Z) := [(11 * 3600, 17 * 3600); (7 * 3600, 12 * 3600); (31 * 3600, 41 * 3600); (160 * 3600, 168 * 3600)].
Example ex_weekly : weekly ex_slots /\ forall b e b' e', In (b, e) ex_slots -> In (b', e') ex_slots -> b' <> e + 1.
Proof.
  split.
  - intros b e H. cbn in H. repeat (destruct H as [[= <- <-]|H]; [lia|]). destruct H.
  - intros b e b' e' H H'. cbn in H, H'. repeat (destruct H as [[= <- <-]|H]; [repeat (destruct H' as [[= <- <-]|H']; [lia|]); destruct H'|]). destruct H.
Qed.
Example ex_hours : get_ticks 10 1000000 (8 * 3600 * 1000000) ((8 * 24 + 9) * 3600 * 1000000) ex_slots = Some ((9 + 10 + 8 + 10 + 2) * 3600 * 1000000).
Proof. vm_compute. reflexivity. Qed.
(** A pause of one second between two slots is counted. *)
Theorem C92_one_second_pause_refuted : get_ticks 10 1 0 100 [(10, 20); (21, 30)] = Some 20 /\ weekly [(10, 20); (21, 30)] /\ measures (fun x => exists b e, In (b, e) [(10, 20); (21, 30)] /\ within 1 b e x) 0 100 19.
Proof.
  split; [vm_compute; reflexivity|]. split; [intros b e [[= <- <-]|[[= <- <-]|[]]]; lia|].
  eapply m_ext; [|apply (m_or (fun x => 10 <= x < 20) (fun x => 21 <= x < 30) 0 100 10 9)].
  - intros x Hx. unfold within. rewrite Z.mod_small by lia. split; [intros [X|X]; [exists 10, 20|exists 21, 30]; cbn; split; auto; lia|]. intros (b & e & [[= <- <-]|[[= <- <-]|[]]] & X); lia.
  - apply (m_interval 0 100 10 20).
  - apply (m_interval 0 100 21 30).
  - intros; lia.
Qed.
Print Assumptions C92_one_second_pause_refuted.
(** A slot reaching over the end of the week is not seen on Monday morning. *)
Theorem C92_wrapping_slot_refuted : get_ticks 10 1 0 100 [(600000, 604900)] = Some 0.
Proof. vm_compute. reflexivity. Qed.
Print Assumptions C92_wrapping_slot_refuted.
