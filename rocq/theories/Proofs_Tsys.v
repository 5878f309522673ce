(** Proofs about transition systems discovered from views. *)
From Coq Require Import List Arith Bool Lia Permutation.
Import ListNotations.
From Verif Require Import Model_Dict Model_Dfg Model_Graph Model_Tsys Spec_Tsys Proofs_Dict.
From Verif Require Proofs_Graph Proofs_Dfg.
Local Arguments smem : simpl never.

Lemma occ_count_occ (a : nat) l : occ a l = count_occ Nat.eq_dec l a.
Proof. induction l as [|x l IH]; [reflexivity|]. rewrite occ_cons, IH. cbn [keqb key_nat count_occ]. destruct (Nat.eq_dec x a) as [->|Hn]; [rewrite Nat.eqb_refl; auto|]. apply Nat.eqb_neq in Hn as ->. auto. Qed.
Lemma same_name_iff k u v : same_name k u v = true <-> same_view k u v.
Proof.
  destruct k; cbn.
  - destruct (list_eqb_spec u v); split; auto; discriminate.
  - rewrite forallb_forall, (Permutation_count_occ Nat.eq_dec). split.
    + intros Hf a. rewrite <- !occ_count_occ. destruct (in_dec Nat.eq_dec a (u ++ v)) as [Hin|Hout].
      * specialize (Hf a Hin). apply Nat.eqb_eq in Hf. rewrite !c_get_of in Hf. auto.
      * rewrite in_app_iff in Hout. assert (A := occ_pos a u). assert (B := occ_pos a v). destruct (occ a u), (occ a v); auto; exfalso; apply Hout; [right; apply B|left; apply A|left; apply A]; lia.
    + intros Hc a _. apply Nat.eqb_eq. rewrite !c_get_of, !occ_count_occ. auto.
  - rewrite andb_true_iff, !forallb_forall. split.
    + intros [A B] a. split; intros Ha; [apply A in Ha|apply B in Ha]; apply Proofs_Graph.smem_in in Ha; auto.
    + intros Hi. split; intros a Ha; apply Proofs_Graph.smem_in, Hi; auto.
Qed.
Lemma same_refl k u : same_view k u u.
Proof. destruct k; cbn; auto; tauto. Qed.
Lemma same_sym k u v : same_view k u v -> same_view k v u.
Proof. destruct k; cbn; auto using Permutation_sym. intros Hi a. symmetry. auto. Qed.
Lemma same_trans k u v w : same_view k u v -> same_view k v w -> same_view k u w.
Proof. destruct k; cbn; try congruence; eauto using Permutation_trans. intros A B a. rewrite A. auto. Qed.
Lemma window_view d w t i : i <= length t -> view_at d w t i (window d w t i).
Proof.
  intros Hi. destruct d; cbn.
  - exists (firstn i t), (skipn w (skipn i t)). rewrite firstn_skipn, firstn_skipn. split; auto. rewrite !firstn_length, skipn_length. lia.
  - exists (firstn (i - w) (firstn i t)), (skipn i t). rewrite app_assoc, firstn_skipn, firstn_skipn. split; auto. rewrite skipn_length, firstn_length. lia.
Qed.
Lemma app_inj_len {A} (l1 : list A) : forall l2 k1 k2, length l1 = length k1 -> l1 ++ l2 = k1 ++ k2 -> l1 = k1 /\ l2 = k2.
Proof. induction l1; intros l2 [|b k1] k2 Hl E; cbn in *; try discriminate; auto. injection E as <- E. destruct (IHl1 l2 k1 k2) as [-> ->]; auto. Qed.
Lemma view_unique d w t i u v : view_at d w t i u -> view_at d w t i v -> u = v.
Proof.
  intros (p & q & E & A) (p' & q' & E' & A').
  assert (L : length p = length p' /\ length u = length v). { destruct d; destruct A, A'; rewrite ?app_length in *; lia. }
  destruct L as [L1 L2]. rewrite E in E'. apply app_inj_len in E' as [_ E']; auto. apply app_inj_len in E' as [E' _]; auto.
Qed.
Lemma in_steps d w t x a y : In (x, a, y) (steps d w t) <-> exists i, nth_error t i = Some a /\ x = window d w t i /\ y = window d w t (S i).
Proof.
  unfold steps. rewrite in_map_iff. split.
  - intros ([i b] & E & Hin). cbn in E. injection E as <- <- <-. exists i. split; auto. apply In_nth_error in Hin as [k Hk].
    assert (nth_error (combine (seq 0 (length t)) t) k = Some (i, b) -> nth_error t i = Some b); [|auto]. clear. intros Hk.
    assert (G : forall s k, nth_error (combine (seq s (length t)) t) k = Some (i, b) -> i = s + k /\ nth_error t k = Some b).
    { clear Hk. induction t as [|c t IH]; intros s [|j] Hj; cbn in Hj; try discriminate; [injection Hj as <- <-; split; [lia|auto]|]. apply IH in Hj as [-> Hj]. split; [lia|auto]. }
    apply (G 0) in Hk as [-> Hk]. auto.
  - intros (i & Hi & -> & ->). exists (i, a). split; auto. assert (Hl : i < length t) by (apply nth_error_Some; congruence).
    apply (nth_error_In _ i). clear -Hi. assert (G : forall s k, nth_error t k = Some a -> nth_error (combine (seq s (length t)) t) k = Some (s + k, a)).
    { clear Hi. induction t as [|c t IH]; intros s [|j] Hj; cbn in *; try discriminate; [rewrite Nat.add_0_r; congruence|]. rewrite (IH (S s) j Hj). do 2 f_equal. lia. }
    apply (G 0 i Hi).
Qed.
Section Inv.
  Variable ord : list (nat * trace) -> list (nat * trace).
  Hypothesis Hord : forall l, Permutation (ord l) l.
  Variable kind : view_kind.
  Lemma lookup_some ts v s : lookup ord kind ts v = Some s -> exists n, In (s, n) (ts_states ts) /\ same_view kind n v.
  Proof.
    unfold lookup. destruct (rev (filter _ _)) as [|[i n] r] eqn:E; [discriminate|]. intros [= <-].
    assert (Hin : In (i, n) (rev (filter (fun s => same_name kind (snd s) v) (ord (ts_states ts))))) by (rewrite E; cbn; auto).
    apply in_rev, filter_In in Hin as [A B]. exists n. split; [apply (Permutation_in _ (Hord _)), A|apply same_name_iff, B].
  Qed.
  Lemma lookup_none ts v : lookup ord kind ts v = None -> forall s n, In (s, n) (ts_states ts) -> ~ same_view kind n v.
  Proof.
    unfold lookup. destruct (rev (filter _ _)) as [|[i n] r] eqn:E; [|discriminate]. intros _ s n Hin Hs.
    apply same_name_iff in Hs. assert (X : In (s, n) []); [|contradiction]. rewrite <- E. apply -> in_rev. apply filter_In. split; auto. apply (Permutation_in _ (Permutation_sym (Hord _))), Hin.
  Qed.
  Definition ids_ok (ts : tsys) : Prop := map fst (ts_states ts) = seq 0 (length (ts_states ts)).
  (** Effect of a step: old states stay; the transition joins states with the two names. *)
  Lemma add_step_spec ts v1 a v2 : ids_ok ts -> exists new sf st,
    ts_states (add_step ord kind ts (v1, a, v2)) = ts_states ts ++ new /\ ids_ok (add_step ord kind ts (v1, a, v2)) /\
    (exists n1, In (sf, n1) (ts_states ts ++ new) /\ same_view kind n1 v1) /\ (exists n2, In (st, n2) (ts_states ts ++ new) /\ same_view kind n2 v2) /\
    (forall x, In x (ts_trans (add_step ord kind ts (v1, a, v2))) <-> In x (ts_trans ts) \/ x = (a, sf, st)) /\
    (NoDup (ts_trans ts) -> NoDup (ts_trans (add_step ord kind ts (v1, a, v2)))) /\
    (forall s n, In (s, n) new -> (s = sf /\ n = v1) \/ (s = st /\ n = v2)) /\
    (forall s n, In (s, n) new -> forall s' n', In (s', n') (ts_states ts) -> ~ same_view kind n' n) /\
    (~ same_view kind v1 v2 -> forall i j x y, i < j -> nth_error new i = Some x -> nth_error new j = Some y -> ~ same_view kind (snd x) (snd y)) /\
    length new <= 2.
  Proof.
    intros Hi.
    assert (T : forall sf st x, In x (if existsb (keqb (a, sf, st)) (ts_trans ts) then ts_trans ts else ts_trans ts ++ [(a, sf, st)]) <-> In x (ts_trans ts) \/ x = (a, sf, st)).
    { intros sf st x. destruct (existsb (keqb (a, sf, st)) (ts_trans ts)) eqn:E.
      - apply existsb_exists in E as (y & Hy & E). apply keqb_true in E as <-. split; [tauto|]. intros [A|A]; [auto|subst; auto].
      - rewrite in_app_iff. cbn. split; intros [A|A]; auto. destruct A as [A|[]]; auto. }
    assert (N : forall sf st, NoDup (ts_trans ts) -> NoDup (if existsb (keqb (a, sf, st)) (ts_trans ts) then ts_trans ts else ts_trans ts ++ [(a, sf, st)])).
    { intros sf st Hn. destruct (existsb (keqb (a, sf, st)) (ts_trans ts)) eqn:E; auto. apply Proofs_Dfg.NoDup_app_intro; auto; [repeat constructor; intros []|].
      intros x Hx [<-|[]]. assert (existsb (keqb (a, sf, st)) (ts_trans ts) = true); [|congruence]. apply existsb_exists. exists (a, sf, st). split; auto. apply keqb_refl. }
    unfold add_step. destruct (lookup ord kind ts v1) as [s1|] eqn:L1; destruct (lookup ord kind ts v2) as [s2|] eqn:L2; cbn [ts_states ts_trans length app].
    - exists [], s1, s2. rewrite !app_nil_r. split; auto. split; [unfold ids_ok; cbn; rewrite ?app_nil_r; auto|]. split; [apply lookup_some; auto|]. split; [apply lookup_some; auto|]. split; [apply T|]. split; [apply N|].
      split; [intros ? ? []|]. split; [intros ? ? []|]. split; [intros _ [|i] j x y Hij Hx; discriminate|cbn; lia].
    - rewrite Nat.add_0_r. exists [(length (ts_states ts), v2)], s1, (length (ts_states ts)). split; auto.
      split; [unfold ids_ok; cbn; rewrite map_app, app_length, Hi, seq_app; auto|]. split; [destruct (lookup_some _ _ _ L1) as (n & A & B); exists n; rewrite in_app_iff; auto|].
      split; [exists v2; rewrite in_app_iff; cbn; auto using same_refl|]. split; [apply T|]. split; [apply N|].
      split; [intros s n [[= <- <-]|[]]; auto|]. split; [intros s n [[= <- <-]|[]] s' n' Hin; apply (lookup_none _ _ L2 _ _ Hin)|].
      split; [|cbn; lia]. intros _ i j x y Hij Hx Hy. destruct i as [|i]; cbn in Hx; [|destruct i; discriminate]. destruct j as [|[|j]]; cbn in Hy; try discriminate. lia.
    - exists [(length (ts_states ts), v1)], (length (ts_states ts)), s2. split; auto.
      split; [unfold ids_ok; cbn; rewrite map_app, app_length, Hi, seq_app; auto|]. 
      split; [exists v1; rewrite in_app_iff; cbn; auto using same_refl|]. split; [destruct (lookup_some _ _ _ L2) as (n & A & B); exists n; rewrite in_app_iff; auto|]. split; [apply T|]. split; [apply N|].
      split; [intros s n [[= <- <-]|[]]; auto|]. split; [intros s n [[= <- <-]|[]] s' n' Hin; apply (lookup_none _ _ L1 _ _ Hin)|].
      split; [|cbn; lia]. intros _ i j x y Hij Hx Hy. destruct i as [|i]; cbn in Hx; [|destruct i; discriminate]. destruct j as [|[|j]]; cbn in Hy; try discriminate. lia.
    - exists [(length (ts_states ts), v1); (length (ts_states ts) + 1, v2)], (length (ts_states ts)), (length (ts_states ts) + 1). split; auto.
      split; [unfold ids_ok; cbn; rewrite map_app, app_length, Hi, seq_app; cbn; repeat f_equal; lia|]. 
      split; [exists v1; rewrite in_app_iff; cbn; auto using same_refl|]. split; [exists v2; rewrite in_app_iff; cbn; auto 6 using same_refl|]. split; [apply T|]. split; [apply N|].
      split; [intros s n [[= <- <-]|[[= <- <-]|[]]]; auto|].
      split; [intros s n [[= <- <-]|[[= <- <-]|[]]] s' n' Hin; [apply (lookup_none _ _ L1 _ _ Hin)|apply (lookup_none _ _ L2 _ _ Hin)]|].
      split; [|cbn; lia]. intros Hv i j x y Hij Hx Hy. destruct i as [|[|i]], j as [|[|j]]; cbn in Hx, Hy; try lia; try discriminate; try (destruct j; discriminate); try (destruct i; discriminate).
      injection Hx as <-. injection Hy as <-. auto.
  Qed.
  Definition built (ss : list (trace * nat * trace)) : tsys := fold_left (add_step ord kind) ss (Tsys [] []).
  Definition named (ts : tsys) (s : nat) (v : trace) : Prop := exists n, In (s, n) (ts_states ts) /\ same_view kind n v.
  Lemma built_snoc ss x : built (ss ++ [x]) = add_step ord kind (built ss) x.
  Proof. apply fold_left_app. Qed.
  Lemma built_inv ss : let ts := built ss in ids_ok ts /\ NoDup (ts_trans ts) /\
    (forall a s s', In (a, s, s') (ts_trans ts) -> exists v1 v2, In (v1, a, v2) ss /\ named ts s v1 /\ named ts s' v2) /\
    (forall v1 a v2, In (v1, a, v2) ss -> exists s s', In (a, s, s') (ts_trans ts) /\ named ts s v1 /\ named ts s' v2) /\
    (forall s n, In (s, n) (ts_states ts) -> exists a x, In (a, s, x) (ts_trans ts) \/ In (a, x, s) (ts_trans ts)) /\
    (forall s n, In (s, n) (ts_states ts) -> exists v1 a v2, In (v1, a, v2) ss /\ (n = v1 \/ n = v2)).
  Proof.
    induction ss as [|[[v1 a] v2] ss IH] using rev_ind.
    - cbn. split; [reflexivity|]. split; [constructor|]. repeat split; intros; contradiction.
    - cbv zeta in *. rewrite built_snoc. destruct IH as (I1 & I2 & I3 & I4 & I5 & I6).
      destruct (add_step_spec (built ss) v1 a v2 I1) as (new & sf & st & E & J1 & J2 & J3 & J4 & J5 & J6 & J7 & _ & _).
      set (ts' := add_step ord kind (built ss) (v1, a, v2)) in *.
      assert (M : forall s v, named (built ss) s v -> named ts' s v). { intros s v (n & A & B). exists n. rewrite E, in_app_iff. auto. }
      assert (K1 : named ts' sf v1) by (unfold named; rewrite E; auto). assert (K2 : named ts' st v2) by (unfold named; rewrite E; auto).
      split; auto. split; auto. split; [|split; [|split]].
      + intros b s s' Hin. apply J4 in Hin as [Hin|Hin].
        * destruct (I3 _ _ _ Hin) as (u1 & u2 & A & B & C). exists u1, u2. rewrite in_app_iff. auto.
        * injection Hin as -> -> ->. exists v1, v2. rewrite in_app_iff. cbn. auto.
      + intros u1 b u2 Hin. apply in_app_iff in Hin as [Hin|[[= <- <- <-]|[]]].
        * destruct (I4 _ _ _ Hin) as (s & s' & A & B & C). exists s, s'. rewrite J4. auto.
        * exists sf, st. rewrite J4. auto.
      + intros s n Hin. rewrite E, in_app_iff in Hin. destruct Hin as [Hin|Hin].
        * destruct (I5 _ _ Hin) as (b & x & A). exists b, x. rewrite !J4. tauto.
        * destruct (J6 _ _ Hin) as [[-> ->]|[-> ->]]; [exists a, st; left|exists a, sf; right]; rewrite J4; auto.
      + intros s n Hin. rewrite E, in_app_iff in Hin. destruct Hin as [Hin|Hin].
        * destruct (I6 _ _ Hin) as (x & b & y & A & B). exists x, b, y. rewrite in_app_iff. auto.
        * exists v1, a, v2. rewrite in_app_iff. cbn. split; auto. destruct (J6 _ _ Hin) as [[_ ->]|[_ ->]]; auto.
  Qed.
  (** Names are unique when no step stays in the same view. *)
  Definition distinct_names (ts : tsys) : Prop := forall s n s' n', In (s, n) (ts_states ts) -> In (s', n') (ts_states ts) -> same_view kind n n' -> s = s'.
  Lemma built_distinct ss : (forall v1 a v2, In (v1, a, v2) ss -> ~ same_view kind v1 v2) -> distinct_names (built ss).
  Proof.
    induction ss as [|[[v1 a] v2] ss IH] using rev_ind; intros Hs; [intros s n s' n' []|].
    assert (IH' : distinct_names (built ss)). { apply IH. intros x b y Hin. apply (Hs x b y). rewrite in_app_iff; auto. }
    assert (Hv : ~ same_view kind v1 v2). { apply (Hs v1 a v2). rewrite in_app_iff; cbn; auto. }
    destruct (built_inv ss) as (I1 & _). cbv zeta in I1. rewrite built_snoc.
    destruct (add_step_spec (built ss) v1 a v2 I1) as (new & sf & st & E & J1 & J2 & J3 & J4 & J5 & J6 & J7 & J8 & J9).
    intros s n s' n' A B C. rewrite E, in_app_iff in A, B. destruct A as [A|A], B as [B|B].
    - eapply IH'; eauto.
    - exfalso. apply (J7 _ _ B _ _ A C).
    - exfalso. apply (J7 _ _ A _ _ B). apply same_sym, C.
    - apply In_nth_error in A as [i A], B as [j B]. specialize (J8 Hv). destruct (Nat.lt_trichotomy i j) as [Hij|[->|Hij]].
      + exfalso. apply (J8 i j _ _ Hij A B C).
      + congruence.
      + exfalso. apply (J8 j i _ _ Hij B A). apply same_sym, C.
  Qed.
End Inv.
