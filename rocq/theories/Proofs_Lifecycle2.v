(** Proofs for C108: round trip. *)
From Coq Require Import List Arith ZArith Bool Permutation Sorting.Sorted Lia.
From Verif Require Import Model_Lifecycle Spec_Lifecycle Proofs_Lifecycle1.
Import ListNotations.
Open Scope Z_scope.

Section p.
Context {A : Type}.
Lemma unique_fifo (l : list (event A)) m m' : fifo l m -> fifo l m' -> forall p, m p = m' p.
Proof.
  intros [F1 F2] [G1 G2] p. induction p as [p IH] using (well_founded_induction lt_wf).
  assert (W : forall k q, waits l m k p q <-> waits l m' k p q).
  { intros k q. unfold waits. split; intros (H1 & H2 & H3); split; auto; split; auto; intros p' H; [rewrite <- IH|rewrite IH]; auto. }
  destruct (nth_error l p) as [e|] eqn:E.
  - destruct (trans e) eqn:T; [| |].
    1, 3: (destruct (m p) as [q|] eqn:X; [destruct (F2 p q X) as (e' & Y & Z); congruence|]; destruct (m' p) as [q|] eqn:X'; [destruct (G2 p q X') as (e' & Y & Z); congruence|]; auto).
    specialize (F1 p e E T). specialize (G1 p e E T). destruct (m p) as [q|], (m' p) as [q'|]; auto.
    + destruct F1 as [A1 A2], G1 as [B1 B2]. f_equal. apply Nat.le_antisymm; [apply A2, W|apply B2, W]; auto.
    + destruct F1 as [A1 _]. exfalso. apply (G1 q). apply W; auto.
    + destruct G1 as [A1 _]. exfalso. apply (F1 q'). apply W; auto.
  - destruct (m p) as [q|] eqn:X; [destruct (F2 p q X) as (e' & Y & _); congruence|]. destruct (m' p) as [q|] eqn:X'; [destruct (G2 p q X') as (e' & Y & _); congruence|]. auto.
Qed.

(** ** sorting of the entries *)
Implicit Types (t : list (interval A)) (a b : entry A).
Definition two (p : nat * interval A) : list (entry A) := [(fst p, start_event (snd p)); (fst p, complete_event (snd p))].
Lemma entries_two t : entries t = flat_map two (combine (seq 0 (length t)) t).
Proof. reflexivity. Qed.
Definition sc (e : event A) : Prop := trans e = Start \/ trans e = Complete.
Lemma entry_lt_iff a b : sc (snd a) -> sc (snd b) -> entry_lt a b = true <-> before a b.
Proof.
  intros Ha Hb. unfold entry_lt, before, sc in *. rewrite !orb_true_iff, !andb_true_iff, !orb_true_iff, !andb_true_iff, Z.ltb_lt, Z.eqb_eq, Nat.ltb_lt, Nat.eqb_eq, negb_true_iff.
  destruct Ha as [-> | ->], Hb as [-> | ->]; cbn; intuition (congruence || lia).
Qed.
Definition le_e a b : Prop := ~ before b a.
Lemma before_trans a b (c : entry A) : le_e a b -> le_e b c -> sc (snd a) -> sc (snd b) -> sc (snd c) -> le_e a c.
Proof.
  unfold le_e, before, sc. intros H1 H2 Ha Hb Hc. destruct Ha as [Ea|Ea], Hb as [Eb|Eb], Hc as [Ec|Ec]; rewrite ?Ea, ?Eb, ?Ec in *; intros H; lia || (decompose [or and] H; try congruence; try lia;
  (apply H1; solve [left; lia|right; split; [lia|]; left; lia|right; split; [lia|]; right; split; [lia|split; auto]]) ||
  (apply H2; solve [left; lia|right; split; [lia|]; left; lia|right; split; [lia|]; right; split; [lia|split; auto]]) || (destruct (lt_eq_lt_dec (fst a) (fst b)) as [[?|?]|?]; (apply H1 + apply H2); solve [left; lia|right; split; [lia|]; left; lia|right; split; [lia|]; right; split; [lia|split; auto]])).
Qed.

Lemma insert_entry_perm (x : entry A) (l : list (entry A)) : Permutation (insert_entry x l) (x :: l).
Proof. induction l as [|y l IH]; cbn; auto. destruct (entry_lt y x); auto. rewrite IH. apply perm_swap. Qed.
Lemma sort_entries_perm (l : list (entry A)) : Permutation (sort_entries l) l.
Proof. induction l as [|y l IH]; cbn; auto. rewrite insert_entry_perm. auto. Qed.
Lemma before_asym a b : before a b -> before b a -> False.
Proof. unfold before. intros H1 H2. decompose [or and] H1; decompose [or and] H2; congruence || lia. Qed.
Lemma sort_entries_SS (l : list (entry A)) : (forall e, In e l -> sc (snd e)) -> StronglySorted le_e (sort_entries l).
Proof.
  induction l as [|x l IH]; intros W; cbn; [constructor|]. fold (sort_entries l).
  assert (S : StronglySorted le_e (sort_entries l)) by (apply IH; intros; apply W; right; auto).
  assert (Wx : sc (snd x)) by (apply W; left; auto). assert (W' : forall e, In e (sort_entries l) -> sc (snd e)) by (intros e H; apply W; right; rewrite <- sort_entries_perm; auto).
  clear IH W. induction S as [|y s S IH F]; cbn; [constructor; constructor|]. assert (Wy : sc (snd y)) by (apply W'; left; auto). assert (Ws : forall e, In e s -> sc (snd e)) by (intros; apply W'; right; auto).
  destruct (entry_lt y x) eqn:E.
  - apply (proj1 (entry_lt_iff y x Wy Wx)) in E. constructor; [apply IH; auto|]. rewrite Forall_forall in F |- *. intros z Hz. rewrite insert_entry_perm in Hz. destruct Hz as [<-|Hz]; [|apply F; auto]. intros H. eapply before_asym; eauto.
  - assert (L : le_e x y) by (intros H; apply (proj2 (entry_lt_iff y x Wy Wx)) in H; congruence). constructor; [constructor; auto|]. constructor; auto. rewrite Forall_forall in F |- *. intros z Hz. apply (before_trans x y z); auto.
Qed.
Lemma in_entries t e : In e (entries t) <-> exists i x, nth_error t i = Some x /\ (e = (i, start_event x) \/ e = (i, complete_event x)).
Proof.
  rewrite entries_two, in_flat_map. assert (C : forall s i x, In (i, x) (combine (seq s (length t)) t) <-> (s <= i)%nat /\ nth_error t (i - s) = Some x).
  { induction t as [|y r IH]; intros s i x; cbn; [split; [intros []|intros [_ H]; destruct (i - s)%nat; discriminate]|]. rewrite IH. split.
    - intros [H|[H1 H2]]; [injection H as <- <-; rewrite Nat.sub_diag; split; [lia|reflexivity]|]. split; [lia|]. replace (i - s)%nat with (S (i - S s)) by lia. exact H2.
    - intros [H1 H2]. destruct (Nat.eq_dec i s) as [->|N]; [rewrite Nat.sub_diag in H2; cbn in H2; left; congruence|]. right. split; [lia|]. replace (i - s)%nat with (S (i - S s)) in H2 by lia. exact H2. }
  split.
  - intros ((i & x) & H & He). apply C in H as [_ H]. rewrite Nat.sub_0_r in H. exists i, x. split; auto. destruct He as [<-|[<-|[]]]; auto.
  - intros (i & x & H & He). exists (i, x). split; [apply C; rewrite Nat.sub_0_r; split; auto; lia|]. destruct He as [-> | ->]; [left|right; left]; auto.
Qed.
Lemma NoDup_entries t : NoDup (entries t).
Proof.
  rewrite entries_two. generalize 0%nat as s. induction t as [|y r IH]; intros s; cbn; [constructor|].
  assert (B : forall s' e, In e (flat_map two (combine (seq s' (length r)) r)) -> (s' <= fst e)%nat).
  { clear. intros s' e H. apply in_flat_map in H as ((i & x) & H & He). apply in_combine_l, in_seq in H. destruct He as [<-|[<-|[]]]; cbn; lia. }
  constructor; [|constructor]; auto.
  - intros [H|H]; [discriminate|]. apply B in H. cbn in H. lia.
  - intros H. apply B in H. cbn in H. lia.
Qed.
Lemma SS_before t : forall p p' a b, (p < p')%nat -> nth_error (sort_entries (entries t)) p = Some a -> nth_error (sort_entries (entries t)) p' = Some b -> before a b.
Proof.
  intros p p' a b L Hp Hq. assert (W : forall e, In e (entries t) -> sc (snd e)) by (intros e H; apply in_entries in H as (i & x & _ & [-> | ->]); [left|right]; auto).
  pose proof (proj1 (SS_nth _ _) (sort_entries_SS (entries t) W) p p' a b L Hp Hq) as H.
  assert (N : a <> b). { intros <-. assert (NoDup (sort_entries (entries t))) by (eapply Permutation_NoDup; [symmetry; apply sort_entries_perm|apply NoDup_entries]). rewrite NoDup_nth_error in H0. assert (p = p') by (apply H0; [apply nth_error_Some|]; congruence). lia. }
  apply nth_error_In in Hp, Hq. rewrite sort_entries_perm in Hp, Hq. apply in_entries in Hp as (i & x & Hi & Ha), Hq as (j & y & Hj & Hb).
  destruct (Nat.eq_dec i j) as [<-|Nij].
  - assert (x = y) by congruence. subst y. destruct Ha as [-> | ->], Hb as [-> | ->]; try congruence; unfold le_e, before in *; cbn in *.
    + destruct (Z.lt_trichotomy (st x) (et x)) as [?|[?|?]]; [left; auto|right; split; auto|]. exfalso. apply H. left. auto.
    + destruct (Z.lt_trichotomy (et x) (st x)) as [?|[?|?]]; [left; auto| |]; exfalso; apply H; [right; split; [lia|right; auto]|left; lia].
  - unfold le_e, before in *. destruct Ha as [-> | ->], Hb as [-> | ->]; cbn in *; match goal with |- ?u < ?v \/ _ => destruct (Z.lt_trichotomy u v) as [?|[?|?]] end; try (left; assumption); try (right; split; [assumption|left; destruct (lt_eq_lt_dec i j) as [[?|?]|?]; auto; exfalso; [congruence|apply H; right; split; [auto|left; auto]]]); exfalso; apply H; left; auto.
Qed.

(** ** the matching of a trace that was an interval trace *)
Section trace.
Context (t : list (interval A)) (SE : forall x, In x t -> st x <= et x) (SO : sorted_start t) (NO : no_overtaking t).
Notation R := (sort_entries (entries t)).
Notation l := (to_lifecycle t).
Lemma nth_l p : nth_error l p = option_map snd (nth_error R p).
Proof. apply nth_error_map. Qed.
Lemma R_in e : (exists p, nth_error R p = Some e) <-> exists i x, nth_error t i = Some x /\ (e = (i, start_event x) \/ e = (i, complete_event x)).
Proof.
  rewrite <- in_entries. split; [intros (p & H); apply nth_error_In in H; rewrite sort_entries_perm in H; auto|]. intros H. apply In_nth_error. rewrite sort_entries_perm. auto.
Qed.
Lemma R_inj p p' e : nth_error R p = Some e -> nth_error R p' = Some e -> p = p'.
Proof.
  intros H1 H2. assert (N : NoDup R) by (eapply Permutation_NoDup; [symmetry; apply sort_entries_perm|apply NoDup_entries]). rewrite NoDup_nth_error in N. apply N; [apply nth_error_Some|]; congruence.
Qed.
Lemma R_order p p' a b : nth_error R p = Some a -> nth_error R p' = Some b -> before a b -> (p < p')%nat.
Proof.
  intros H1 H2 B. destruct (lt_eq_lt_dec p p') as [[L|L]|L]; auto; exfalso.
  - subst p'. assert (a = b) by congruence. subst b. eapply before_asym; eauto.
  - pose proof (SS_before t p' p b a L H2 H1). eapply before_asym; eauto.
Qed.
Lemma matched m : fifo l m -> forall p i x, nth_error t i = Some x -> nth_error R p = Some (i, complete_event x) -> exists q, m p = Some q /\ nth_error R q = Some (i, start_event x).
Proof.
  intros [F1 F2] p. induction p as [p IH] using (well_founded_induction lt_wf). intros i x Hi Hp.
  assert (T : exists q, nth_error R q = Some (i, start_event x)) by (apply R_in; exists i, x; auto). destruct T as (qi & Hqi).
  assert (C : forall p' q, (p' < p)%nat -> m p' = Some q -> exists j y, nth_error t j = Some y /\ nth_error R p' = Some (j, complete_event y) /\ nth_error R q = Some (j, start_event y)).
  { intros p' q L E. destruct (F2 p' q E) as (e & He & Te). rewrite nth_l in He. destruct (nth_error R p') as [(j & e')|] eqn:Hp'; [|discriminate]. cbn in He. injection He as ->.
    assert (X : exists p', nth_error R p' = Some (j, e)) by eauto. apply R_in in X as (j' & y & Hy & [X|X]); injection X as <- ->; [discriminate|]. exists j, y. split; auto. split; auto. destruct (IH p' L j y Hy Hp') as (q' & E' & Hq'). congruence. }
  assert (W : waits l m (ikey x) p qi).
  { split; [|split].
    - apply (R_order qi p _ _ Hqi Hp). unfold before. cbn. specialize (SE x (nth_error_In _ _ Hi)). destruct (Z.eq_dec (st x) (et x)); [right; split; auto|left; lia].
    - exists (start_event x). rewrite nth_l, Hqi. auto.
    - intros p' L E. destruct (C p' qi L E) as (j & y & Hj & Hp' & Hq). assert (j = i) by congruence. subst j. assert (y = x) by congruence. subst y. assert (p' = p) by (eapply R_inj; eauto). lia. }
  assert (Hl : nth_error l p = Some (complete_event x)) by (rewrite nth_l, Hp; auto). specialize (F1 p (complete_event x) Hl eq_refl). cbn [key complete_event] in F1. destruct (m p) as [q|] eqn:E; [|exfalso; apply (F1 qi); auto].
  exists q. split; auto. destruct F1 as [(L & (s & Hs & Ts & Ks) & NT) M]. rewrite nth_l in Hs. destruct (nth_error R q) as [(j & e)|] eqn:Hq; [|discriminate]. cbn in Hs. injection Hs as ->.
  assert (X : exists q, nth_error R q = Some (j, s)) by eauto. apply R_in in X as (j' & y & Hy & [X|X]); injection X as <- ->; [|discriminate]. cbn in Ks.
  specialize (M qi W). destruct (lt_eq_lt_dec j i) as [[Lj|Lj]|Lj].
  - exfalso. assert (T : exists p, nth_error R p = Some (j, complete_event y)) by (apply R_in; exists j, y; auto). destruct T as (pj & Hpj).
    assert (L' : (pj < p)%nat). { apply (R_order pj p _ _ Hpj Hp). unfold before. cbn. pose proof (NO j i y x Lj Hy Hi Ks). destruct (Z.eq_dec (et y) (et x)); [right; split; auto|left; lia]. }
    destruct (IH pj L' j y Hy Hpj) as (q' & E' & Hq'). assert (q' = q) by (eapply R_inj; eauto). subst q'. apply (NT pj L' E').
  - subst j. assert (y = x) by congruence. subst y. auto.
  - exfalso. assert (L' : (qi < q)%nat). { apply (R_order qi q _ _ Hqi Hq). unfold before. cbn. pose proof (SO i j x y Lj Hi Hy). destruct (Z.eq_dec (st x) (st y)); [right; split; auto|left; lia]. } lia.
Qed.
Definition g (e : entry A) : interval A := match nth_error t (fst e) with Some x => mark x | None => Interval 0 0 0 (rest (snd e)) None end.
Lemma filter_map_snd (k : list (entry A)) : filter (fun e => is_complete (trans e)) (map snd k) = map snd (filter (fun e => is_complete (trans (snd e))) k).
Proof. induction k as [|x k IH]; cbn; auto. destruct (is_complete (trans (snd x))); cbn; congruence. Qed.
Lemma collect_eq : collect l = map g (filter (fun e => is_complete (trans (snd e))) R).
Proof.
  destruct (run_inv l) as (m & _ & F & _ & M). unfold collect. set (out := snd (fold_left step l (fun _ => [], []))) in *. clearbody out.
  assert (N : Forall2 (fun p e => nth_error R p = Some e) (completions l) (filter (fun e => is_complete (trans (snd e))) R)).
  { pose proof (completions_filter l) as N. unfold to_lifecycle at 3 in N. rewrite filter_map_snd in N.
    clear N M F m out.
    assert (GG : forall k s, (forall p e, nth_error k p = Some e -> nth_error R (s + p) = Some e) -> Forall2 (fun p e => nth_error R p = Some e) (map (fun p => (s + p)%nat) (completions (map snd k))) (filter (fun e => is_complete (trans (snd e))) k)).
    { induction k as [|e k IH] using rev_ind; intros s H; [constructor|]. rewrite map_app. cbn [map]. rewrite completions_snoc, map_app, filter_app. apply Forall2_app.
      - apply IH. intros p e' He. apply H. rewrite nth_error_app1; auto. apply nth_error_Some. congruence.
      - cbn [filter]. destruct (is_complete (trans (snd e))); constructor; auto. apply H. rewrite map_length. rewrite nth_error_app2 by lia. rewrite Nat.sub_diag. auto. }
    specialize (GG R 0%nat ltac:(auto)). cbn in GG. rewrite map_id in GG. exact GG. }
  assert (CC : forall p e, In p (completions l) -> nth_error R p = Some e -> exists i x, nth_error t i = Some x /\ e = (i, complete_event x)).
  { intros p e Hp He. apply filter_In in Hp as [_ Hp]. rewrite nth_l, He in Hp. cbn in Hp. assert (X : exists p, nth_error R p = Some e) by eauto. apply R_in in X as (i & x & Hi & [-> | ->]); [discriminate|eauto]. }
  revert M N CC. generalize (completions l) (filter (fun e => is_complete (trans (snd e))) R). intros ps es M N CC. revert es N. induction M as [|p i ps out' Mp M IH]; intros es N; inversion N as [|p' e ps' es' Ne N']; subst; cbn [map]; auto.
  f_equal; [|apply IH; auto; intros; eapply CC; eauto; right; auto]. destruct (CC p e (or_introl eq_refl) Ne) as (j & x & Hj & ->). destruct (matched m F p j x Hj Ne) as (q & Eq & Hq).
  unfold g. cbn [fst]. rewrite Hj. destruct Mp as (e & H1 & H2 & H3 & H4 & H5). rewrite nth_l, Ne in H1. injection H1 as <-. rewrite Eq in H5. destruct H5 as (s & S1 & S2 & S3). rewrite nth_l, Hq in S1. injection S1 as <-. destruct i; cbn in *; unfold mark; congruence.
Qed.
Lemma Permutation_filter {X} (f : X -> bool) (xs ys : list X) : Permutation xs ys -> Permutation (filter f xs) (filter f ys).
Proof. intros P. induction P; cbn; auto; repeat destruct (f _); auto; try apply perm_swap. eapply Permutation_trans; eauto. Qed.
Lemma complete_entries : map g (filter (fun e => is_complete (trans (snd e))) (entries t)) = map mark t.
Proof.
  rewrite entries_two. assert (G : forall r s, (forall p x, nth_error r p = Some x -> nth_error t (s + p) = Some x) -> map g (filter (fun e => is_complete (trans (snd e))) (flat_map two (combine (seq s (length r)) r))) = map mark r).
  { induction r as [|x r IH]; intros s H; cbn; auto. f_equal; [unfold g; cbn; specialize (H 0%nat x eq_refl); rewrite Nat.add_0_r in H; rewrite H; auto|]. apply IH. intros p y Hp. replace (S s + p)%nat with (s + S p)%nat by lia. apply H. auto. }
  apply G. auto.
Qed.
Lemma back : Permutation (to_interval l) (map mark t).
Proof. unfold to_interval. rewrite sort_perm, collect_eq, <- complete_entries. apply Permutation_map, Permutation_filter, sort_entries_perm. Qed.
End trace.
Lemma SS_unique (r s : list (interval A)) : StronglySorted (fun x y => st x <= st y) r -> StronglySorted (fun x y => st x < st y) s -> Permutation r s -> r = s.
Proof.
  intros Sr Ss. revert r Sr. induction Ss as [|x s Ss IH F]; intros r Sr P; [symmetry in P; apply Permutation_nil in P; auto|]. destruct r as [|y r]; [apply Permutation_nil in P; discriminate|].
  inversion Sr as [|? ? Sr' Fr]; subst. rewrite Forall_forall in F, Fr. assert (y = x).
  { assert (Hy : In y (x :: s)) by (rewrite <- P; left; auto). destruct Hy as [|Hy]; auto. assert (Hx : In x (y :: r)) by (rewrite P; left; auto). destruct Hx as [|Hx]; auto. specialize (F y Hy). specialize (Fr x Hx). lia. }
  subst y. f_equal. apply IH; auto. eapply Permutation_cons_inv; eauto.
Qed.
End p.
