(** The footprints of a tree are exact. *)
From Coq Require Import List Arith Bool Lia.
Import ListNotations.
From Verif Require Import Model_Tree Spec_Tree Proofs_Shuffle Model_TreeFP Spec_TreeFP.

Notation lg := (list nat -> Prop).

(** the part of exactness used in the induction; seq and par taken together *)
Record exact (L : lg) (f : footprint) : Prop := {
  ex_inh : exists w, L w;
  ex_skip : f_skip f = true <-> L [];
  ex_start : forall a, In a (f_start f) <-> begins L a;
  ex_end : forall a, In a (f_end f) <-> finishes L a;
  ex_acts : forall a, In a (f_acts f) <-> occurs L a;
  ex_df : forall a b, In (a, b) (f_seq f) \/ In (a, b) (f_par f) <-> follows L a b;
  ex_always : forall a, In a (f_always f) <-> always L a;
  ex_anti : forall a b, In (a, b) (f_seq f) -> ~ In (b, a) (f_seq f) /\ ~ In (a, b) (f_par f);
  ex_sym : forall a b, In (a, b) (f_par f) -> In (b, a) (f_par f) }.

Lemma mem_pair_ok x l : mem_pair x l = true <-> In x l.
Proof.
  unfold mem_pair. rewrite existsb_exists. split.
  - intros (y & Hy & E). unfold pair_eqb in E. apply andb_true_iff in E as [E1 E2].
    apply Nat.eqb_eq in E1. apply Nat.eqb_eq in E2. destruct x, y. cbn in *. subst. auto.
  - intros H. exists x. split; auto. unfold pair_eqb. rewrite !Nat.eqb_refl. auto.
Qed.
Lemma mem_nat_ok x l : mem_nat x l = true <-> In x l.
Proof.
  unfold mem_nat. rewrite existsb_exists. split.
  - intros (y & Hy & E). apply Nat.eqb_eq in E. subst. auto.
  - intros H. exists x. split; auto. apply Nat.eqb_refl.
Qed.

Lemma in_seq1 a b sq pr : In (a, b) (filter (fun x => negb (mem_pair x pr)) sq) <-> In (a, b) sq /\ ~ In (a, b) pr.
Proof.
  rewrite filter_In, negb_true_iff, <- (mem_pair_ok (a, b) pr). destruct (mem_pair (a, b) pr); intuition congruence.
Qed.
Lemma in_parels a b s1 : In (a, b) (filter (fun x => mem_pair (snd x, fst x) s1) s1) <-> In (a, b) s1 /\ In (b, a) s1.
Proof. rewrite filter_In. cbn. rewrite mem_pair_ok. reflexivity. Qed.

Lemma fix_fp_ok sq pr : (forall a b, In (a, b) pr -> In (b, a) pr) ->
  let sp := fix_fp sq pr in
  (forall a b, In (a, b) (fst sp) \/ In (a, b) (snd sp) <-> In (a, b) sq \/ In (a, b) pr) /\
  (forall a b, In (a, b) (fst sp) -> ~ In (b, a) (fst sp) /\ ~ In (a, b) (snd sp)) /\
  (forall a b, In (a, b) (snd sp) -> In (b, a) (snd sp)).
Proof.
  intros Hsym. cbn zeta. unfold fix_fp. cbn zeta. cbn [fst snd].
  set (s1 := filter (fun x => negb (mem_pair x pr)) sq).
  set (pe := filter (fun x => mem_pair (snd x, fst x) s1) s1).
  assert (H1 : forall a b, In (a, b) s1 <-> In (a, b) sq /\ ~ In (a, b) pr) by (intros; apply in_seq1).
  assert (H2 : forall a b, In (a, b) pe <-> In (a, b) s1 /\ In (b, a) s1) by (intros; apply in_parels).
  assert (D : forall a b, In (a, b) pr \/ ~ In (a, b) pr).
  { intros a b. rewrite <- mem_pair_ok. destruct (mem_pair (a, b) pr); auto. }
  assert (D2 : forall a b, In (a, b) pe \/ ~ In (a, b) pe).
  { intros a b. rewrite <- mem_pair_ok. destruct (mem_pair (a, b) pe); auto. }
  split; [|split].
  - intros a b. rewrite in_seq1, in_app_iff, H1. specialize (D a b). specialize (D2 a b).
    pose proof (H2 a b). rewrite H1 in H. tauto.
  - intros a b. rewrite !in_seq1, in_app_iff. intros [Ha Hb]. split.
    + intros [Hc Hd]. apply Hb, H2. auto.
    + intros [Hc|Hc]; [apply H1 in Ha; tauto|auto].
  - intros a b. rewrite !in_app_iff. intros [Ha|Ha]; [left; auto|right]. apply H2. apply H2 in Ha. tauto.
Qed.

Lemma exact_finish (L : lg) st en ac sk sq pr al :
  (exists w, L w) -> (sk = true <-> L []) -> (forall a, In a st <-> begins L a) -> (forall a, In a en <-> finishes L a) ->
  (forall a, In a ac <-> occurs L a) -> (forall a b, In (a, b) sq \/ In (a, b) pr <-> follows L a b) ->
  (forall a, In a al <-> always L a) -> (forall a b, In (a, b) pr -> In (b, a) pr) ->
  exact L (finish st en ac sk sq pr al).
Proof.
  intros H0 H1 H2 H3 H4 H5 H6 Hsym. destruct (fix_fp_ok sq pr Hsym) as (F1 & F2 & F3).
  constructor; cbn; auto. intros a b. rewrite F1. apply H5.
Qed.

Lemma exact_ext (L L' : lg) f : (forall w, L w <-> L' w) -> exact L f -> exact L' f.
Proof.
  intros E [H0 H1 H2 H3 H4 H5 H6 H7 H8]. constructor; auto.
  - destruct H0 as (w & H). exists w. apply E; auto.
  - rewrite H1. apply E.
  - intros a. rewrite H2. unfold begins. split; intros (w & H); exists w; apply E; auto.
  - intros a. rewrite H3. unfold finishes. split; intros (w & H); exists w; apply E; auto.
  - intros a. rewrite H4. unfold occurs. split; intros (w & H & H'); exists w; split; auto; apply E; auto.
  - intros a b. rewrite H5. unfold follows. split; intros (w & w' & H); exists w, w'; apply E; auto.
  - intros a. rewrite H6. unfold always. split; intros H w Hw; apply H, E; auto.
Qed.

(** ** languages built by concatenation *)
Definition conc (L M : lg) : lg := fun w => exists u v, L u /\ M v /\ w = u ++ v.

Lemma app_cons_split {X} (u v : list X) a w : u ++ v = a :: w ->
  (exists u', u = a :: u' /\ w = u' ++ v) \/ (u = [] /\ v = a :: w).
Proof. destruct u as [|x u]; cbn; intros E; inversion E; subst; eauto. Qed.
Lemma app_snoc_split {X} (u v : list X) a w : u ++ v = w ++ [a] ->
  (exists v', v = v' ++ [a] /\ w = u ++ v') \/ (v = [] /\ u = w ++ [a]).
Proof.
  destruct v as [|x v] using rev_ind; [rewrite app_nil_r; auto|]. intros E. rewrite app_assoc in E.
  apply app_inj_tail in E as [E ->]. left. exists v. auto.
Qed.
Lemma app_df_split {X} (u v : list X) a b w1 w2 : u ++ v = w1 ++ a :: b :: w2 ->
  (exists k, u = w1 ++ a :: b :: k) \/ (exists k, v = k ++ a :: b :: w2) \/
  (exists u' v', u = u' ++ [a] /\ v = b :: v').
Proof.
  intros E. symmetry in E. destruct (split_app _ _ _ _ _ E) as [(k & -> & E2)|(k & -> & ->)].
  - destruct k as [|y k]; cbn in E2.
    + right; right. exists w1, w2. auto.
    + inversion E2; subst. left. exists k. auto.
  - right; left. exists k. auto.
Qed.

Lemma conc_begins L M a : (exists w, L w) -> (exists w, M w) ->
  (begins (conc L M) a <-> begins L a \/ (L [] /\ begins M a)).
Proof.
  intros (x & Hx) (y & Hy). unfold begins, conc. split.
  - intros (w & u & v & Hu & Hv & E). symmetry in E. apply app_cons_split in E as [(u' & -> & ->)|[-> ->]]; eauto.
  - intros [(w & H)|[H (w & H')]].
    + exists (w ++ y), (a :: w), y. auto.
    + exists w, [], (a :: w). auto.
Qed.
Lemma conc_finishes L M a : (exists w, L w) -> (exists w, M w) ->
  (finishes (conc L M) a <-> finishes M a \/ (M [] /\ finishes L a)).
Proof.
  intros (x & Hx) (y & Hy). unfold finishes, conc. split.
  - intros (w & u & v & Hu & Hv & E). symmetry in E. apply app_snoc_split in E as [(u' & -> & ->)|[-> ->]]; eauto.
  - intros [(w & H)|[H (w & H')]].
    + exists (x ++ w), x, (w ++ [a]). rewrite app_assoc. auto.
    + exists w, (w ++ [a]), []. rewrite app_nil_r. auto.
Qed.
Lemma conc_occurs L M a : (exists w, L w) -> (exists w, M w) ->
  (occurs (conc L M) a <-> occurs L a \/ occurs M a).
Proof.
  intros (x & Hx) (y & Hy). unfold occurs, conc. split.
  - intros (w & (u & v & Hu & Hv & ->) & H). apply in_app_or in H as [H|H]; eauto.
  - intros [(w & H & H')|(w & H & H')].
    + exists (w ++ y). split; [eauto|apply in_or_app; auto].
    + exists (x ++ w). split; [eauto|apply in_or_app; auto].
Qed.
Lemma conc_follows L M a b : (exists w, L w) -> (exists w, M w) ->
  (follows (conc L M) a b <-> follows L a b \/ follows M a b \/ (finishes L a /\ begins M b)).
Proof.
  intros (x & Hx) (y & Hy). unfold follows, finishes, begins, conc. split.
  - intros (w1 & w2 & u & v & Hu & Hv & E). symmetry in E.
    apply app_df_split in E as [(k & ->)|[(k & ->)|(u' & v' & -> & ->)]]; eauto 6.
  - intros [(w1 & w2 & H)|[(w1 & w2 & H)|[(w1 & H) (w2 & H')]]].
    + exists w1, (w2 ++ y), (w1 ++ a :: b :: w2), y. rewrite <- app_assoc. auto.
    + exists (x ++ w1), w2, x, (w1 ++ a :: b :: w2). rewrite <- app_assoc. auto.
    + exists w1, w2, (w1 ++ [a]), (b :: w2). rewrite <- app_assoc. auto.
Qed.
Lemma dec_list (a : nat) w : In a w \/ ~ In a w.
Proof. destruct (in_dec Nat.eq_dec a w); auto. Qed.
Lemma conc_nil L M : conc L M [] <-> L [] /\ M [].
Proof.
  unfold conc. split; [intros (u & v & Hu & Hv & E); symmetry in E; apply app_eq_nil in E as [-> ->]; auto|].
  intros [? ?]. exists [], []. auto.
Qed.

(** languages as lists of child languages *)
Definition seqL (Ls : list lg) : lg := fun w => exists ws, Forall2 (fun L u => L u) Ls ws /\ w = concat ws.
Definition parL (Ls : list lg) : lg := fun w => exists ws, Forall2 (fun L u => L u) Ls ws /\ shuffle ws w.
Definition xorL (Ls : list lg) : lg := fun w => exists L, In L Ls /\ L w.

Lemma seqL_cons L Ls w : seqL (L :: Ls) w <-> conc L (seqL Ls) w.
Proof.
  unfold seqL, conc. split.
  - intros (ws & HF & ->). inversion HF; subst. cbn. eauto 8.
  - intros (u & v & Hu & (ws & HF & ->) & ->). exists (u :: ws). split; [constructor; auto|auto].
Qed.
Lemma seqL_inh Ls fs : Forall2 exact Ls fs -> exists w, seqL Ls w.
Proof.
  induction 1 as [|L f Ls fs [[x Hx] _ _ _ _ _ _ _ _] _ (w & Hw)]; [exists [], []; auto|].
  exists (x ++ w). apply seqL_cons. unfold conc. eauto 6.
Qed.

Lemma in_prod a b l k : In (a, b) (prod_pairs l k) <-> In a l /\ In b k.
Proof.
  unfold prod_pairs. rewrite in_flat_map. split.
  - intros (x & Hx & H). apply in_map_iff in H as (y & E & Hy). inversion E; subst. auto.
  - intros [Ha Hb]. exists a. split; auto. apply in_map. auto.
Qed.
Lemma link_starts n0 fs a b : In (a, b) (link n0 fs) <-> In a (f_end n0) /\ In b (starts fs).
Proof.
  induction fs as [|f fs IH]; cbn; [tauto|]. rewrite !in_app_iff, in_prod.
  destruct (f_skip f); cbn; [rewrite IH; tauto|tauto].
Qed.
Lemma ends_rev_snoc fs f a : In a (ends_rev (fs ++ [f])) <-> In a (ends_rev fs) \/ (forallb f_skip fs = true /\ In a (f_end f)).
Proof.
  induction fs as [|g fs IH]; cbn.
  - rewrite in_app_iff. destruct (negb (f_skip f)); cbn; tauto.
  - rewrite !in_app_iff. destruct (f_skip g); cbn; [rewrite IH; tauto|]. intuition discriminate.
Qed.
Lemma forallb_rev {X} (p : X -> bool) l : forallb p (rev l) = forallb p l.
Proof.
  destruct (forallb p l) eqn:E.
  - rewrite forallb_forall in *. intros x Hx. apply E. apply in_rev. auto.
  - destruct (forallb p (rev l)) eqn:E2; auto. rewrite <- E. symmetry. rewrite forallb_forall in *. intros x Hx. apply E2.
    apply -> in_rev. auto.
Qed.
Lemma ends_cons f fs a : In a (ends (f :: fs)) <-> In a (ends fs) \/ (forallb f_skip fs = true /\ In a (f_end f)).
Proof. unfold ends. cbn. rewrite ends_rev_snoc, forallb_rev. reflexivity. Qed.

Lemma Forall2_sym_par Ls fs : Forall2 exact Ls fs -> forall a b, In (a, b) (flat_map f_par fs) -> In (b, a) (flat_map f_par fs).
Proof.
  induction 1 as [|L f Ls fs HL _ IH]; cbn; auto. intros a b. rewrite !in_app_iff. intros [H|H]; [left|right; auto].
  eapply ex_sym; eauto.
Qed.

(** sequence *)
Record seq_facts (Ls : list lg) (fs : list footprint) : Prop := {
  sf_skip : forallb f_skip fs = true <-> seqL Ls [];
  sf_start : forall a, In a (starts fs) <-> begins (seqL Ls) a;
  sf_end : forall a, In a (ends fs) <-> finishes (seqL Ls) a;
  sf_acts : forall a, In a (flat_map f_acts fs) <-> occurs (seqL Ls) a;
  sf_df : forall a b, In (a, b) (flat_map f_seq fs ++ links fs) \/ In (a, b) (flat_map f_par fs) <-> follows (seqL Ls) a b;
  sf_always : forall a, In a (always_all fs) <-> always (seqL Ls) a }.

Lemma begins_ext (L M : lg) a : (forall w, L w <-> M w) -> begins L a <-> begins M a.
Proof. intros E. unfold begins. split; intros (w & H); exists w; apply E; auto. Qed.
Lemma finishes_ext (L M : lg) a : (forall w, L w <-> M w) -> finishes L a <-> finishes M a.
Proof. intros E. unfold finishes. split; intros (w & H); exists w; apply E; auto. Qed.
Lemma occurs_ext (L M : lg) a : (forall w, L w <-> M w) -> occurs L a <-> occurs M a.
Proof. intros E. unfold occurs. split; intros (w & H & H'); exists w; split; auto; apply E; auto. Qed.
Lemma follows_ext (L M : lg) a b : (forall w, L w <-> M w) -> follows L a b <-> follows M a b.
Proof. intros E. unfold follows. split; intros (w & w' & H); exists w, w'; apply E; auto. Qed.
Lemma always_ext (L M : lg) a : (forall w, L w <-> M w) -> always L a <-> always M a.
Proof. intros E. unfold always. split; intros H w Hw; apply H, E; auto. Qed.

Lemma always_skip f L a : exact L f -> ((if negb (f_skip f) then In a (f_always f) else False) <-> always L a).
Proof.
  intros H. destruct (f_skip f) eqn:E; cbn; [|apply ex_always; auto].
  split; [tauto|]. intros Ha. apply (ex_skip _ _ H) in E. apply (Ha _ E).
Qed.

(** for concatenation and shuffle: an activity always occurs in the composition iff it always
    occurs in one of the two parts *)
Lemma always_comp (L M N : lg) a (Hdec : In a [] \/ ~ In a []) :
  (always L a \/ ~ always L a) ->
  (forall w, N w -> exists u v, L u /\ M v /\ (In a w <-> In a u \/ In a v)) ->
  (forall u v, L u -> M v -> exists w, N w /\ (In a w <-> In a u \/ In a v)) ->
  always N a <-> always L a \/ always M a.
Proof.
  intros [D|D] H1 H2.
  - split; [auto|]. intros _ w Hw. destruct (H1 w Hw) as (u & v & Hu & Hv & E). apply E. left. apply D; auto.
  - split.
    + intros HN. right. intros v Hv. destruct (dec_list a v) as [|Hn]; auto. destruct D. intros u Hu.
      destruct (H2 u v Hu Hv) as (w & Hw & E). pose proof (HN w Hw) as HNw. apply E in HNw. tauto.
    + intros [?|HM]; [tauto|]. intros w Hw. destruct (H1 w Hw) as (u & v & Hu & Hv & E). apply E. right. apply HM; auto.
Qed.
Lemma always_dec f L a : exact L f -> always L a \/ ~ always L a.
Proof.
  intros H. destruct (dec_list a (f_always f)) as [Hi|Hn]; [left|right]; rewrite <- (ex_always _ _ H); auto.
Qed.

Lemma seq_ok Ls fs : Forall2 exact Ls fs -> seq_facts Ls fs.
Proof.
  induction 1 as [|L f Ls fs HL HF IH].
  - assert (E : forall w, seqL [] w <-> w = []).
    { intros w. unfold seqL. split; [intros (ws & H & ->); inversion H; auto|intros ->; exists []; auto]. }
    constructor; cbn.
    + rewrite E. tauto.
    + intros a. split; [tauto|]. intros (w & H). apply E in H. discriminate.
    + intros a. split; [tauto|]. intros (w & H). apply E in H. destruct w; discriminate.
    + intros a. split; [tauto|]. intros (w & H & H'). apply E in H. subst. auto.
    + intros a b. split; [tauto|]. intros (w & w' & H). apply E in H. destruct w; discriminate.
    + intros a. split; [tauto|]. intros H. apply (H []). apply E. auto.
  - pose proof (seqL_inh _ _ HF) as Hinh. pose proof (ex_inh _ _ HL) as Hinh1.
    pose proof (fun w => seqL_cons L Ls w) as EX. destruct IH as [I1 I2 I3 I4 I5 I6].
    constructor.
    + rewrite EX, conc_nil. cbn. rewrite andb_true_iff, (ex_skip _ _ HL), I1. tauto.
    + intros a. rewrite (begins_ext _ _ a EX), conc_begins by auto. cbn. rewrite in_app_iff, (ex_start _ _ HL), <- (ex_skip _ _ HL).
      destruct (f_skip f); cbn; [rewrite I2|]; intuition discriminate.
    + intros a. rewrite (finishes_ext _ _ a EX), conc_finishes by auto.
      rewrite ends_cons, I3, I1, (ex_end _ _ HL). tauto.
    + intros a. rewrite (occurs_ext _ _ a EX), conc_occurs by auto. cbn. rewrite in_app_iff, (ex_acts _ _ HL), I4. tauto.
    + intros a b. rewrite (follows_ext _ _ a b EX), conc_follows by auto. cbn. rewrite !in_app_iff, link_starts.
      rewrite <- (ex_df _ _ HL), <- I5, <- I2, <- (ex_end _ _ HL), in_app_iff. tauto.
    + intros a. rewrite (always_ext _ _ a EX). cbn. rewrite in_app_iff, I6.
      rewrite (always_comp L (seqL Ls) (conc L (seqL Ls)) a (dec_list a []) (always_dec _ _ a HL)).
      * rewrite <- (always_skip f L a HL). destruct (negb (f_skip f)); cbn; tauto.
      * intros w (u & v & Hu & Hv & ->). exists u, v. rewrite in_app_iff. tauto.
      * intros u v Hu Hv. exists (u ++ v). split; [unfold conc; eauto 6|]. rewrite in_app_iff. tauto.
Qed.
Lemma exact_seq Ls fs : Forall2 exact Ls fs -> exact (seqL Ls) (fp_sequence fs).
Proof.
  intros H. destruct (seq_ok _ _ H) as [I1 I2 I3 I4 I5 I6].
  apply exact_finish; auto.
  - eapply seqL_inh; eauto.
  - eapply Forall2_sym_par; eauto.
Qed.

(** xor *)
Lemma in_inter a l k : In a (inter l k) <-> In a l /\ In a k.
Proof. unfold inter. rewrite filter_In, mem_nat_ok. reflexivity. Qed.
Lemma xor_always_fold Ls fs : Forall2 exact Ls fs -> forall acc a,
  In a (fold_left (fun acc n => if negb (f_skip n) then inter acc (f_always n) else []) fs acc) <->
  In a acc /\ (forall L, In L Ls -> always L a) /\ (fs = [] \/ True).
Proof.
  induction 1 as [|L f Ls fs HL HF IH]; cbn; intros acc a.
  - split; [intros; split; auto; split; [intros ? []|auto]|tauto].
  - rewrite IH. destruct (f_skip f) eqn:E; cbn.
    + split; [tauto|]. intros (_ & Ha & _). apply (ex_skip _ _ HL) in E. specialize (Ha L (or_introl eq_refl) _ E). destruct Ha.
    + rewrite in_inter, (ex_always _ _ HL). split.
      * intros ((H1 & H2) & H3 & _). split; auto. split; auto. intros M [<-|HM]; auto.
      * intros (H1 & H2 & _). split; auto.
Qed.
Lemma exact_xor Ls fs : Ls <> [] -> Forall2 exact Ls fs -> exact (xorL Ls) (fp_xor fs).
Proof.
  intros Hne HF.
  assert (G : forall (X : Type) (P : lg -> X -> Prop) (g : footprint -> list X) x,
    (forall L f, exact L f -> In x (g f) <-> P L x) -> In x (flat_map g fs) <-> exists L, In L Ls /\ P L x).
  { intros X P g x Hg. rewrite in_flat_map. split.
    - intros (f & Hf & Hx). clear Hne. induction HF as [|L f' Ls fs HL _ IH]; [destruct Hf|].
      destruct Hf as [->|Hf]; [exists L; split; [left; auto|apply (Hg _ _ HL); auto]|].
      destruct (IH Hf) as (M & HM & HP). exists M. split; [right|]; auto.
    - intros (L & HLi & Hx). clear Hne. induction HF as [|L' f' Ls fs HL _ IH]; [destruct HLi|].
      destruct HLi as [->|Hf]; [exists f'; split; [left; auto|apply (Hg _ _ HL); auto]|].
      destruct (IH Hf) as (M & HM & HP). exists M. split; [right|]; auto. }
  assert (G2 : forall a b, In (a, b) (flat_map f_seq fs) \/ In (a, b) (flat_map f_par fs) <-> exists L, In L Ls /\ follows L a b).
  { intros a b. clear G Hne. induction HF as [|L f' Ls fs HL _ IH]; cbn; [split; [tauto|intros (? & [] & _)]|].
    rewrite !in_app_iff. split.
    - intros H. assert (H' : (In (a, b) (f_seq f') \/ In (a, b) (f_par f')) \/ (In (a, b) (flat_map f_seq fs) \/ In (a, b) (flat_map f_par fs))) by tauto.
      destruct H' as [H'|H']; [exists L; split; [left; auto|apply (ex_df _ _ HL); auto]|].
      apply IH in H' as (M & ? & ?). eauto.
    - intros (M & [<-|HM] & HP); [apply (ex_df _ _ HL) in HP; tauto|].
      assert (HI : In (a, b) (flat_map f_seq fs) \/ In (a, b) (flat_map f_par fs)) by (apply IH; eauto). tauto. }
  unfold fp_xor. apply exact_finish.
  - destruct HF as [|L f Ls fs HL _]; [congruence|]. destruct (ex_inh _ _ HL) as (w & Hw). exists w, L. split; [left|]; auto.
  - unfold xorL. clear G G2 Hne. rewrite existsb_exists. split.
    + intros (f & Hf & Hs). induction HF as [|L f' Ls fs HL _ IH]; [destruct Hf|].
      destruct Hf as [->|Hf]; [exists L; split; [left; auto|apply (ex_skip _ _ HL); auto]|].
      destruct (IH Hf) as (M & ? & ?). exists M. split; [right|]; auto.
    + intros (L & HLi & Hs). induction HF as [|L' f' Ls fs HL _ IH]; [destruct HLi|].
      destruct HLi as [->|Hf]; [exists f'; split; [left; auto|apply (ex_skip _ _ HL); auto]|].
      destruct (IH Hf) as (M & ? & ?). exists M. split; [right|]; auto.
  - intros a. rewrite (G _ begins f_start a) by (intros; apply ex_start; auto). unfold begins, xorL. firstorder.
  - intros a. rewrite (G _ finishes f_end a) by (intros; apply ex_end; auto). unfold finishes, xorL. firstorder.
  - intros a. rewrite (G _ occurs f_acts a) by (intros; apply ex_acts; auto). unfold occurs, xorL. firstorder.
  - intros a b. rewrite G2. unfold follows, xorL. firstorder.
  - intros a. rewrite (xor_always_fold Ls fs HF). destruct HF as [|L f Ls fs HL HF]; [congruence|]. cbn.
    rewrite (ex_always _ _ HL). unfold always, xorL. split.
    + intros (H1 & H2 & _) w (M & HM & Hw). apply (H2 M); auto.
    + intros H. split; [intros w0 Hw0; apply H; exists L; split; [left; reflexivity|assumption]|]. split; [|auto]. intros M HM w1 Hw1. apply H. exists M. split; [exact HM|assumption].
  - eapply Forall2_sym_par; eauto.
Qed.

(** parallel *)
Lemma parL_cons L Ls w : parL (L :: Ls) w <-> exists u v, L u /\ parL Ls v /\ shuffle [u; v] w.
Proof.
  unfold parL. split.
  - intros (ws & HF & Hs). inversion HF as [|? u ? ws' Hu HF']; subst.
    assert (Hs' : shuffle ([u] ++ ws' ++ []) w) by (rewrite app_nil_r; exact Hs).
    apply shuffle_flatten in Hs' as (v & Hv & Hs'). exists u, v. eauto.
  - intros (u & v & Hu & (ws & HF & Hv) & Hs). exists (u :: ws). split; [constructor; auto|].
    assert (Hs' : shuffle ([u] ++ ws ++ []) w) by (apply shuffle_flatten; exists v; auto).
    rewrite app_nil_r in Hs'. exact Hs'.
Qed.
Lemma parL_inh Ls fs : Forall2 exact Ls fs -> exists w, parL Ls w.
Proof.
  intros H. destruct (seqL_inh _ _ H) as (w & ws & HF & ->). exists (concat ws), ws. split; auto. apply shuffle_concat.
Qed.

Lemma shuffle2_cases (u v w : list nat) : shuffle [u; v] w ->
  (u = [] /\ w = v) \/ (v = [] /\ w = u) \/
  (exists a u' w', u = a :: u' /\ w = a :: w' /\ shuffle [u'; v] w') \/
  (exists a v' w', v = a :: v' /\ w = a :: w' /\ shuffle [u; v'] w').
Proof.
  intros H. inversion H as [ws Hn|l1 a x l2 w' H' E]; subst.
  - left. split; [apply Hn; left; auto|symmetry; apply Hn; right; left; auto].
  - destruct l1 as [|y [|z [|? ?]]]; cbn in *; inversion E; subst.
    + right; right; left. exists a, x, w'. auto.
    + right; right; right. exists a, x, w'. auto.
Qed.
Lemma shuffle2_sym (u v w : list nat) : shuffle [u; v] w -> shuffle [v; u] w.
Proof. apply shuffle_perm, Permutation.perm_swap. Qed.
Lemma shuffle2_l a (u v w : list nat) : shuffle [u; v] w -> shuffle [a :: u; v] (a :: w).
Proof. intros H. apply (sh_cons [] a u [v]). exact H. Qed.
Lemma shuffle2_r a (u v w : list nat) : shuffle [u; v] w -> shuffle [u; a :: v] (a :: w).
Proof. intros H. apply (sh_cons [u] a v []). exact H. Qed.
Lemma shuffle2_app (u1 v1 w1 u2 v2 w2 : list nat) : shuffle [u1; v1] w1 -> shuffle [u2; v2] w2 ->
  shuffle [u1 ++ u2; v1 ++ v2] (w1 ++ w2).
Proof.
  revert u1 v1. induction w1 as [|a w1 IH]; intros u1 v1 H1 H2.
  - pose proof (shuffle_nil_inv _ H1) as Hn. rewrite (Hn u1), (Hn v1) by (cbn; auto). exact H2.
  - apply shuffle2_cases in H1 as [[-> <-]|[[-> <-]|[(b & u' & w' & -> & E & H1)|(b & v' & w' & -> & E & H1)]]].
    + cbn. apply shuffle2_r. apply (IH [] w1); auto. apply (shuffle_nil_elt []). cbn. apply shuffle_one. auto.
    + cbn. apply shuffle2_l. apply (IH w1 []); auto. apply (shuffle_nil_elt [w1]). cbn. apply shuffle_one. auto.
    + inversion E; subst. cbn. apply shuffle2_l. apply IH; auto.
    + inversion E; subst. cbn. apply shuffle2_r. apply IH; auto.
Qed.
Lemma shuffle2_nil_l (v : list nat) : shuffle [[]; v] v.
Proof. apply (shuffle_nil_elt []). cbn. apply shuffle_one. auto. Qed.
Lemma shuffle2_nil_r (v : list nat) : shuffle [v; []] v.
Proof. apply (shuffle_nil_elt [v]). cbn. apply shuffle_one. auto. Qed.
Lemma shuffle2_conc (u v : list nat) : shuffle [u; v] (u ++ v).
Proof. pose proof (shuffle_concat [u; v]) as H. cbn in H. rewrite app_nil_r in H. exact H. Qed.

(** the first letter of a shuffle is a first letter of a part; consecutive letters *)
Lemma shuffle2_first (u v : list nat) a w : shuffle [u; v] (a :: w) ->
  (exists u', u = a :: u') \/ (exists v', v = a :: v').
Proof.
  intros H. apply shuffle2_cases in H as [[-> E]|[[-> E]|[(b & u' & w' & -> & E & _)|(b & v' & w' & -> & E & _)]]];
    try inversion E; subst; eauto.
Qed.
Lemma shuffle2_df (u v : list nat) a b w1 w2 : shuffle [u; v] (w1 ++ a :: b :: w2) ->
  (exists x y, u = x ++ a :: b :: y) \/ (exists x y, v = x ++ a :: b :: y) \/
  (In a u /\ In b v) \/ (In a v /\ In b u).
Proof.
  revert u v. induction w1 as [|c w1 IH]; intros u v H.
  - cbn in H. apply shuffle2_cases in H as [[-> <-]|[[-> <-]|[(x & u' & w' & -> & E & H)|(x & v' & w' & -> & E & H)]]].
    + right; left. exists [], w2. auto.
    + left. exists [], w2. auto.
    + inversion E; subst. apply shuffle2_first in H as [(u2 & ->)|(v2 & ->)].
      * left. exists [], u2. auto.
      * right; right; left. split; left; auto.
    + inversion E; subst. apply shuffle2_first in H as [(u2 & ->)|(v2 & ->)].
      * right; right; right. split; left; auto.
      * right; left. exists [], v2. auto.
  - cbn in H. apply shuffle2_cases in H as [[-> <-]|[[-> <-]|[(x & u' & w' & -> & E & H)|(x & v' & w' & -> & E & H)]]].
    + right; left. exists (c :: w1), w2. auto.
    + left. exists (c :: w1), w2. auto.
    + inversion E; subst. apply IH in H as [(y & z & ->)|[(y & z & ->)|[[? ?]|[? ?]]]].
      * left. exists (x :: y), z. auto.
      * right; left. eauto.
      * right; right; left. split; [right|]; auto.
      * right; right; right. split; [|right]; auto.
    + inversion E; subst. apply IH in H as [(y & z & ->)|[(y & z & ->)|[[? ?]|[? ?]]]].
      * left. eauto.
      * right; left. exists (x :: y), z. auto.
      * right; right; left. split; [|right]; auto.
      * right; right; right. split; [right|]; auto.
Qed.
Lemma shuffle2_last (u v : list nat) a w : shuffle [u; v] (w ++ [a]) ->
  (exists u', u = u' ++ [a]) \/ (exists v', v = v' ++ [a]).
Proof.
  revert u v. induction w as [|c w IH]; intros u v H; cbn in H.
  - apply shuffle2_cases in H as [[-> <-]|[[-> <-]|[(x & u' & w' & -> & E & H)|(x & v' & w' & -> & E & H)]]].
    + right. exists []. auto.
    + left. exists []. auto.
    + inversion E; subst. pose proof (shuffle_nil_inv _ H) as Hn. rewrite (Hn u') by (left; auto). left. exists []. auto.
    + inversion E; subst. pose proof (shuffle_nil_inv _ H) as Hn. rewrite (Hn v') by (right; left; auto). right. exists []. auto.
  - apply shuffle2_cases in H as [[-> <-]|[[-> <-]|[(x & u' & w' & -> & E & H)|(x & v' & w' & -> & E & H)]]].
    + right. exists (c :: w). auto.
    + left. exists (c :: w). auto.
    + inversion E; subst. apply IH in H as [(y & ->)|(y & ->)]; [left; exists (x :: y)|right; exists y]; auto.
    + inversion E; subst. apply IH in H as [(y & ->)|(y & ->)]; [left; exists y|right; exists (x :: y)]; auto.
Qed.

Lemma in_both a b l k : In (a, b) (both l k) <-> (In a l /\ In b k) \/ (In a k /\ In b l).
Proof.
  unfold both. rewrite in_flat_map. split.
  - intros (x & Hx & H). apply in_flat_map in H as (y & Hy & [E|[E|[]]]); inversion E; subst; auto.
  - intros [[? ?]|[? ?]]; [exists a|exists b]; split; auto; apply in_flat_map; [exists b|exists a]; split; auto; [left|right; left]; auto.
Qed.
Lemma in_cross_cons a b f fs : In (a, b) (flat_map (fun g => both (f_acts f) (f_acts g)) fs) <->
  (In a (f_acts f) /\ In b (flat_map f_acts fs)) \/ (In a (flat_map f_acts fs) /\ In b (f_acts f)).
Proof.
  rewrite !in_flat_map. split.
  - intros (g & Hg & H). apply in_both in H as [[? ?]|[? ?]]; [left|right]; eauto.
  - intros [[? (g & ? & ?)]|[(g & ? & ?) ?]]; exists g; split; auto; apply in_both; auto.
Qed.

Record par_facts (Ls : list lg) (fs : list footprint) : Prop := {
  pf_skip : forallb f_skip fs = true <-> parL Ls [];
  pf_start : forall a, In a (flat_map f_start fs) <-> begins (parL Ls) a;
  pf_end : forall a, In a (flat_map f_end fs) <-> finishes (parL Ls) a;
  pf_acts : forall a, In a (flat_map f_acts fs) <-> occurs (parL Ls) a;
  pf_df : forall a b, In (a, b) (flat_map f_seq fs) \/ In (a, b) (flat_map f_par fs ++ cross fs) <-> follows (parL Ls) a b;
  pf_always : forall a, In a (always_all fs) <-> always (parL Ls) a;
  pf_sym : forall a b, In (a, b) (cross fs) -> In (b, a) (cross fs) }.

Lemma par_ok Ls fs : Forall2 exact Ls fs -> par_facts Ls fs.
Proof.
  induction 1 as [|L f Ls fs HL HF IH].
  - assert (E : forall w, parL [] w <-> w = []).
    { intros w. unfold parL. split; [intros (ws & H & Hs); inversion H; subst; apply shuffle_empty in Hs; auto|].
      intros ->. exists []. split; auto. constructor. intros ? []. }
    constructor; cbn.
    + rewrite E. tauto.
    + intros a. split; [tauto|]. intros (w & H). apply E in H. discriminate.
    + intros a. split; [tauto|]. intros (w & H). apply E in H. destruct w; discriminate.
    + intros a. split; [tauto|]. intros (w & H & H'). apply E in H. subst. auto.
    + intros a b. split; [tauto|]. intros (w & w' & H). apply E in H. destruct w; discriminate.
    + intros a. split; [tauto|]. intros H. apply (H []). apply E. auto.
    + tauto.
  - destruct (parL_inh _ _ HF) as (y & Hy). destruct (ex_inh _ _ HL) as (x & Hx).
    pose proof (fun w => parL_cons L Ls w) as EX. destruct IH as [I1 I2 I3 I4 I5 I6 I7].
    constructor.
    + rewrite EX. cbn. rewrite andb_true_iff, (ex_skip _ _ HL), I1. split.
      * intros [? ?]. exists [], []. split; auto. split; auto. apply shuffle2_nil_l.
      * intros (u & v & Hu & Hv & Hs). pose proof (shuffle_nil_inv _ Hs) as Hn.
        rewrite (Hn u) in Hu by (left; auto). rewrite (Hn v) in Hv by (right; left; auto). auto.
    + intros a. cbn. rewrite in_app_iff, (ex_start _ _ HL), I2. unfold begins. split.
      * intros [(w & Hw)|(w & Hw)].
        -- exists (w ++ y). apply EX. exists (a :: w), y. split; auto. split; auto. apply shuffle2_conc.
        -- exists (w ++ x). apply EX. exists x, (a :: w). split; auto. split; auto. apply shuffle2_sym, (shuffle2_conc (a :: w)).
      * intros (w & Hw). apply EX in Hw as (u & v & Hu & Hv & Hs).
        apply shuffle2_first in Hs as [(u' & ->)|(v' & ->)]; eauto.
    + intros a. cbn. rewrite in_app_iff, (ex_end _ _ HL), I3. unfold finishes. split.
      * intros [(w & Hw)|(w & Hw)].
        -- exists (y ++ w). apply EX. exists (w ++ [a]), y. split; auto. split; auto. rewrite <- app_assoc. apply shuffle2_sym, shuffle2_conc.
        -- exists (x ++ w). apply EX. exists x, (w ++ [a]). split; auto. split; auto. rewrite <- app_assoc. apply shuffle2_conc.
      * intros (w & Hw). apply EX in Hw as (u & v & Hu & Hv & Hs).
        apply shuffle2_last in Hs as [(u' & ->)|(v' & ->)]; eauto.
    + intros a. cbn. rewrite in_app_iff, (ex_acts _ _ HL), I4. unfold occurs. split.
      * intros [(w & Hw & Ha)|(w & Hw & Ha)].
        -- exists (w ++ y). split; [apply EX; exists w, y; split; auto; split; auto; apply shuffle2_conc|]. apply in_or_app; auto.
        -- exists (x ++ w). split; [apply EX; exists x, w; split; auto; split; auto; apply shuffle2_conc|]. apply in_or_app; auto.
      * intros (w & Hw & Ha). apply EX in Hw as (u & v & Hu & Hv & Hs).
        apply (shuffle_In _ _ a Hs) in Ha as (z & [<-|[<-|[]]] & Hz); eauto.
    + intros a b. cbn. rewrite !in_app_iff, in_cross_cons, (ex_acts _ _ HL), (ex_acts _ _ HL), !I4.
      pose proof (ex_df _ _ HL a b) as D1. pose proof (I5 a b) as D2. rewrite in_app_iff in D2.
      transitivity (follows L a b \/ follows (parL Ls) a b \/ (occurs L a /\ occurs (parL Ls) b) \/ (occurs (parL Ls) a /\ occurs L b)).
      { rewrite <- D1, <- D2. tauto. }
      clear D1 D2. split.
      * intros [(w1 & w2 & H)|[(w1 & w2 & H)|[[(u & Hu & Ha) (v & Hv & Hb)]|[(v & Hv & Ha) (u & Hu & Hb)]]]].
        -- exists w1, (w2 ++ y). apply EX. exists (w1 ++ a :: b :: w2), y. split; auto. split; auto.
           pose proof (shuffle2_conc (w1 ++ a :: b :: w2) y) as Hc. rewrite <- app_assoc in Hc. exact Hc.
        -- exists (x ++ w1), w2. apply EX. exists x, (w1 ++ a :: b :: w2). split; auto. split; auto.
           pose proof (shuffle2_conc x (w1 ++ a :: b :: w2)) as Hc. rewrite app_assoc in Hc. exact Hc.
        -- apply in_split in Ha as (u1 & u2 & ->). apply in_split in Hb as (v1 & v2 & ->).
           exists (u1 ++ v1), (u2 ++ v2). apply EX. exists (u1 ++ a :: u2), (v1 ++ b :: v2). split; auto. split; auto.
           apply shuffle2_app; [apply shuffle2_conc|]. apply shuffle2_l, shuffle2_r, shuffle2_conc.
        -- apply in_split in Ha as (v1 & v2 & ->). apply in_split in Hb as (u1 & u2 & ->).
           exists (u1 ++ v1), (u2 ++ v2). apply EX. exists (u1 ++ b :: u2), (v1 ++ a :: v2). split; auto. split; auto.
           apply shuffle2_app; [apply shuffle2_conc|]. apply shuffle2_r, shuffle2_l, shuffle2_conc.
      * intros (w1 & w2 & H). apply EX in H as (u & v & Hu & Hv & Hs).
        apply shuffle2_df in Hs as [(p & q & ->)|[(p & q & ->)|[[Ha Hb]|[Ha Hb]]]]; unfold follows, occurs; eauto 10.
    + intros a. cbn. rewrite in_app_iff, I6.
      rewrite (always_comp L (parL Ls) (parL (L :: Ls)) a (dec_list a []) (always_dec _ _ a HL)).
      * rewrite <- (always_skip f L a HL). destruct (negb (f_skip f)); cbn; tauto.
      * intros w Hw. apply EX in Hw as (u & v & Hu & Hv & Hs). exists u, v. split; auto. split; auto.
        rewrite (shuffle_In _ _ a Hs). split.
        -- intros (z & [<-|[<-|[]]] & Hz); auto.
        -- intros [?|?]; [exists u|exists v]; cbn; auto.
      * intros u v Hu Hv. exists (u ++ v). split; [apply EX; exists u, v; split; auto; split; auto; apply shuffle2_conc|].
        rewrite in_app_iff. tauto.
    + intros a b. cbn. rewrite !in_app_iff, !in_cross_cons. intros [H|H]; [tauto|right; auto].
Qed.
Lemma exact_par Ls fs : Forall2 exact Ls fs -> exact (parL Ls) (fp_parallel fs).
Proof.
  intros H. destruct (par_ok _ _ H) as [I1 I2 I3 I4 I5 I6 I7].
  apply exact_finish; auto.
  - eapply parL_inh; eauto.
  - intros a b. rewrite !in_app_iff. intros [?|?]; [left|right]; auto. eapply Forall2_sym_par; eauto.
Qed.

(** loop *)
Lemma exact_loop D R d r : exact D d -> exact R r -> exists f, fp_loop [d; r] = Some f /\ exact (iterate D R) f.
Proof.
  intros HD HR. eexists. split; [reflexivity|].
  destruct (ex_inh _ _ HD) as (x & Hx). destruct (ex_inh _ _ HR) as (y & Hy).
  assert (Snil : iterate D R [] <-> D []).
  { split; [|intros H; apply it_exit; exact H]. intros H. inversion H as [w0 H0 E|u v w0 H0 H1 H2 E]; [exact H0|].
    destruct u; [rewrite E; exact H0|discriminate]. }
  assert (Sst : forall a, begins (iterate D R) a <-> begins D a \/ (D [] /\ begins R a)).
  { intros a. unfold begins. split.
    - intros (w & H). remember (a :: w) as z eqn:E. revert w E. induction H as [w H|u v w' Hd Hr Hi IH]; intros w0 E; subst; eauto.
      apply app_cons_split in E as [(u' & -> & _)|[-> E]]; eauto.
      apply app_cons_split in E as [(v' & -> & _)|[-> E]]; eauto.
    - intros [(w & H)|[H (w & H')]]; [exists w; constructor; auto|].
      exists (w ++ x). apply (it_redo D R [] (a :: w) x); auto. constructor. auto. }
  assert (Sen : forall a, finishes (iterate D R) a <-> finishes D a \/ (D [] /\ finishes R a)).
  { intros a. unfold finishes. split.
    - intros (w & H). remember (w ++ [a]) as z eqn:E. revert w E. induction H as [w H|u v w' Hd Hr Hi IH]; intros w0 E; subst; eauto.
      rewrite app_assoc in E. apply app_snoc_split in E as [(u' & -> & _)|[-> E]]; eauto.
      apply app_snoc_split in E as [(v' & -> & _)|[-> ->]]; [right|left; eauto].
      split; [|eauto]. apply Snil; auto.
    - intros [(w & H)|[H (w & H')]]; [exists w; constructor; auto|].
      exists (x ++ w). rewrite <- app_assoc. replace (w ++ [a]) with ((w ++ [a]) ++ []) by apply app_nil_r.
      apply (it_redo D R x (w ++ [a]) []); auto. constructor. auto. }
  apply exact_finish.
  - exists x. constructor. auto.
  - rewrite Snil. apply (ex_skip _ _ HD).
  - intros a. rewrite Sst, in_app_iff, (ex_start _ _ HD), <- (ex_skip _ _ HD).
    destruct (f_skip d); cbn; [rewrite (ex_start _ _ HR)|]; intuition discriminate.
  - intros a. rewrite Sen, in_app_iff, (ex_end _ _ HD), <- (ex_skip _ _ HD).
    destruct (f_skip d); cbn; [rewrite (ex_end _ _ HR)|]; intuition discriminate.
  - intros a. cbn. rewrite !in_app_iff, (ex_acts _ _ HD), (ex_acts _ _ HR). unfold occurs. split.
    + intros [(w & Hw & Ha)|[(w & Hw & Ha)|[]]].
      * exists w. split; auto. constructor. auto.
      * exists (x ++ w ++ x). split; [apply it_redo; auto; constructor; auto|]. rewrite !in_app_iff. auto.
    + intros (w & Hw & Ha). induction Hw as [w Hd|u v w' Hd Hr _ IH]; eauto.
      rewrite !in_app_iff in Ha. destruct Ha as [?|[?|?]]; eauto.
  - intros a b. cbn. rewrite !in_app_iff. cbn [In].
    pose proof (ex_df _ _ HD a b) as D1. pose proof (ex_df _ _ HR a b) as D2.
    assert (P1 : In (a, b) (if f_skip d then prod_pairs (f_end r) (f_start r) else []) <-> D [] /\ finishes R a /\ begins R b).
    { rewrite <- (ex_skip _ _ HD), <- (ex_end _ _ HR), <- (ex_start _ _ HR). destruct (f_skip d); [rewrite in_prod|cbn]; intuition discriminate. }
    assert (P2 : In (a, b) (if f_skip r then prod_pairs (f_end d) (f_start d) else []) <-> R [] /\ finishes D a /\ begins D b).
    { rewrite <- (ex_skip _ _ HR), <- (ex_end _ _ HD), <- (ex_start _ _ HD). destruct (f_skip r); [rewrite in_prod|cbn]; intuition discriminate. }
    rewrite !in_prod, P1, P2, (ex_end _ _ HD), (ex_end _ _ HR), (ex_start _ _ HD), (ex_start _ _ HR).
    transitivity (follows D a b \/ follows R a b \/ (finishes D a /\ begins R b) \/ (finishes R a /\ begins D b) \/
      (D [] /\ finishes R a /\ begins R b) \/ (R [] /\ finishes D a /\ begins D b)).
    { rewrite <- D1, <- D2. tauto. }
    clear D1 D2 P1 P2. split.
    + intros [(w1 & w2 & H)|[(w1 & w2 & H)|[[(u & Hu) (v & Hv)]|[[(u & Hu) (v & Hv)]|[[Hn [(u & Hu) (v & Hv)]]|[Hn [(u & Hu) (v & Hv)]]]]]]].
      * exists w1, w2. constructor. auto.
      * exists (x ++ w1), (w2 ++ x). pose proof (it_redo D R x _ x Hx H (it_exit D R x Hx)) as Hi.
        rewrite <- !app_assoc in *. exact Hi.
      * exists u, (v ++ x). pose proof (it_redo D R _ _ x Hu Hv (it_exit D R x Hx)) as Hi. rewrite <- !app_assoc in *. exact Hi.
      * exists (x ++ u), v. pose proof (it_redo D R x _ _ Hx Hu (it_exit D R _ Hv)) as Hi. rewrite <- !app_assoc in *. exact Hi.
      * exists (x ++ u), (v ++ x).
        pose proof (it_redo D R x _ _ Hx Hu (it_redo D R [] _ x Hn Hv (it_exit D R x Hx))) as Hi.
        rewrite <- !app_assoc in *. cbn in *. exact Hi.
      * exists u, v. pose proof (it_redo D R _ [] _ Hu Hn (it_exit D R _ Hv)) as Hi. cbn in Hi. rewrite <- app_assoc in Hi. exact Hi.
    + intros (w1 & w2 & H). remember (w1 ++ a :: b :: w2) as z eqn:E. revert w1 w2 E.
      induction H as [w H|u v w' Hd Hr Hi IH]; intros w1 w2 E; subst.
      * left. exists w1, w2. auto.
      * apply app_df_split in E as [(k & ->)|[(k & E)|(u' & v' & -> & E)]].
        -- left. exists w1, k. auto.
        -- apply app_df_split in E as [(k' & ->)|[(k' & ->)|(u'' & v'' & -> & ->)]].
           ++ right; left. exists k, k'. auto.
           ++ eapply IH. reflexivity.
           ++ assert (Hb : begins (iterate D R) b) by (exists v''; auto). apply Sst in Hb.
              assert (Ha : finishes R a) by (exists u''; auto). destruct Hb as [?|[? ?]]; tauto.
        -- assert (Ha : finishes D a) by (exists u'; auto).
           apply app_cons_split in E as [(v2 & -> & _)|[-> ->]].
           ++ assert (Hb : begins R b) by (exists v2; auto). tauto.
           ++ assert (Hb : begins (iterate D R) b) by (exists v'; auto). apply Sst in Hb. destruct Hb as [?|[? ?]]; tauto.
  - intros a.
    assert (E : always (iterate D R) a <-> always D a).
    { unfold always. split; [intros H w Hw; apply H; constructor; auto|].
      intros H w Hw. destruct Hw as [w Hd|u v w' Hd _ _]; [auto|]. rewrite in_app_iff. left. auto. }
    rewrite E. rewrite <- (always_skip d D a HD). destruct (negb (f_skip d)); cbn; tauto.
  - intros a b. cbn. rewrite !in_app_iff. intros [?|[?|[]]]; [left|right; left].
    + eapply (ex_sym _ _ HD); eauto.
    + eapply (ex_sym _ _ HR); eauto.
Qed.

Fixpoint all_some {X} (l : list (option X)) : option (list X) :=
  match l with
  | [] => Some []
  | Some x :: r => match all_some r with Some xs => Some (x :: xs) | None => None end
  | None :: _ => None
  end.
Lemma footprints_node o c cs : footprints (Node o (c :: cs)) =
  match all_some (map footprints (c :: cs)) with
  | None => None
  | Some fs => match o with
                 | Xor => Some (fp_xor fs)
                 | Parallel | Or => Some (fp_parallel fs)
                 | Sequence => Some (fp_sequence fs)
                 | Loop => fp_loop fs
                 | Interleaving => None
                 end
  end.
Proof.
  cbn [footprints]. enough (E : forall l, (fix go (cs : list (tree nat)) : option (list footprint) :=
               match cs with
               | [] => Some []
               | c :: r => match footprints c, go r with Some f, Some fs => Some (f :: fs) | _, _ => None end
               end) l = all_some (map footprints l)) by (rewrite E; reflexivity).
  induction l as [|x l IH]; [reflexivity|]. rewrite IH. cbn. destruct (footprints x); auto.
Qed.

Lemma exact_leaf l : exact (lang (Leaf l)) (fp_leaf l).
Proof.
  destruct l as [x|].
  - assert (E : forall w, lang (Leaf (Some x)) w <-> w = [x]) by apply lang_act.
    eapply exact_ext; [intros w; symmetry; apply E|]. constructor; cbn.
    + eauto.
    + split; discriminate.
    + intros a. unfold begins. split; [intros [->|[]]; exists []; auto|intros (w & H); inversion H; auto].
    + intros a. unfold finishes. split; [intros [->|[]]; exists []; auto|].
      intros ([|y w] & H); cbn in H; inversion H; auto. destruct w; discriminate.
    + intros a. unfold occurs. split; [intros [->|[]]; exists [a]; cbn; auto|]. intros (w & -> & H). cbn in H. auto.
    + intros a b. unfold follows. split; [tauto|]. intros ([|y [|z w]] & w2 & H); discriminate.
    + intros a. unfold always. split; [intros [->|[]] w ->; cbn; auto|]. intros H. specialize (H _ eq_refl). cbn in H. auto.
    + tauto.
    + tauto.
  - assert (E : forall w, lang (@Leaf nat None) w <-> w = []) by apply lang_tau.
    eapply exact_ext; [intros w; symmetry; apply E|]. constructor; cbn.
    + eauto.
    + split; auto.
    + intros a. unfold begins. split; [tauto|]. intros (w & H); discriminate.
    + intros a. unfold finishes. split; [tauto|]. intros (w & H). destruct w; discriminate.
    + intros a. unfold occurs. split; [tauto|]. intros (w & -> & H). auto.
    + intros a b. unfold follows. split; [tauto|]. intros (w & w2 & H). destruct w; discriminate.
    + intros a. unfold always. split; [tauto|]. intros H. apply (H _ eq_refl).
    + tauto.
    + tauto.
Qed.

Lemma F2_lang cs ws : Forall2 lang cs ws <-> Forall2 (fun (L : lg) u => L u) (map lang cs) ws.
Proof.
  split; intros H.
  - induction H; constructor; auto.
  - remember (map lang cs) as Ls eqn:E. revert cs E. induction H; intros [|c cs] E; inversion E; subst; constructor; auto.
Qed.

Theorem footprints_exact t : fp_tree t -> exists f, footprints t = Some f /\ exact (lang t) f.
Proof.
  induction t as [l|o cs IH] using tree_ind2; intros Hs.
  - exists (fp_leaf l). split; auto. apply exact_leaf.
  - inversion Hs as [|? ? Hsh Hc]; subst.
    assert (H : exists fs, all_some (map footprints cs) = Some fs /\ Forall2 exact (map lang cs) fs).
    { clear Hs Hsh. induction cs as [|c cs IHc]; [exists []; split; auto; constructor|].
      inversion IH as [|? ? IHa IHb]; inversion Hc as [|? ? Hca Hcb]; subst.
      destruct (IHc IHb Hcb) as (fs & E & HF). destruct (IHa Hca) as (f & Ef & Hf).
      exists (f :: fs). cbn. rewrite Ef, E. split; [reflexivity|constructor; assumption]. }
    destruct H as (fs & E & HF). destruct cs as [|c cs]; [destruct o; cbn in Hsh; first [discriminate|contradiction|congruence]|].
    rewrite footprints_node, E. destruct o; cbn in Hsh; try tauto.
    + exists (fp_sequence fs). split; auto. eapply exact_ext; [|apply exact_seq; exact HF].
      intros w. rewrite lang_seq. unfold seqL. split; intros (ws & H & ->); exists ws; split; auto; apply F2_lang; auto.
    + exists (fp_xor fs). split; auto. eapply exact_ext; [|apply exact_xor; [|exact HF]; discriminate].
      intros w. rewrite lang_xor. unfold xorL. split.
      * intros (L & HL & Hw). apply in_map_iff in HL as (d & <- & Hd). eauto.
      * intros (d & Hd & Hw). exists (lang d). split; auto. apply in_map. auto.
    + exists (fp_parallel fs). split; auto. eapply exact_ext; [|apply exact_par; exact HF].
      intros w. rewrite lang_par. unfold parL. split; intros (ws & H & Hw); exists ws; split; auto; apply F2_lang; auto.
    + destruct cs as [|r [|? ?]]; cbn in Hsh; try lia. inversion HF as [|? d ? fs' Hd HF']; subst.
      inversion HF' as [|? fr ? fs'' Hr HF'']; subst. inversion HF''; subst.
      destruct (exact_loop _ _ _ _ Hd Hr) as (f & Ef & Hf). exists f. split; auto.
      eapply exact_ext; [|exact Hf]. intros w. rewrite lang_loop. split; apply iterate_mono; auto.
      * intros v Hv. exists r. split; [left|]; auto.
      * intros v (? & [<-|[]] & Hv). auto.
Qed.
