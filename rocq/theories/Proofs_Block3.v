(** Blocks: the OR and the INTERLEAVING construction. *)
From Coq Require Import List Arith Lia Bool ZArith Permutation.
Import ListNotations.
From Verif Require Import Model_Petri Model_Tree Spec_Tree Proofs_Shuffle Proofs_TreeFP Proofs_Block Proofs_Block2.

Lemma parL_app Ls Ms w : parL (Ls ++ Ms) w <-> exists u v, parL Ls u /\ parL Ms v /\ shuffle [u; v] w.
Proof.
  unfold parL. split.
  - intros (ws & HF & Hs). apply Forall2_app_inv_l in HF as (ws1 & ws2 & H1 & H2 & ->).
    apply shuffle_split in Hs as (u & Hu & Hs). assert (Hs' : shuffle ([u] ++ ws2 ++ []) w) by (rewrite app_nil_r; exact Hs).
    apply shuffle_flatten in Hs' as (v & Hv & Hs'). exists u, v. eauto 8.
  - intros (u & v & (ws1 & H1 & Hu) & (ws2 & H2 & Hv) & Hs). exists (ws1 ++ ws2). split; [apply Forall2_app; auto|].
    apply shuffle_split. exists u. split; auto. assert (Hs' : shuffle ([u] ++ ws2 ++ []) w) by (apply shuffle_flatten; exists v; auto).
    rewrite app_nil_r in Hs'. exact Hs'.
Qed.
Lemma parL_nil w : parL [] w <-> w = [].
Proof.
  unfold parL. split; [intros (ws & H & Hs); inversion H; subst; apply shuffle_empty in Hs; auto|].
  intros ->. exists []. split; auto. constructor. intros ? [].
Qed.

Lemma r_silent B m w m1 t m2 : runs B m w m1 -> In t B -> vis t = [] -> fire t m1 m2 -> runs B m w m2.
Proof. intros H1 H2 H3 H4. pose proof (r_snoc B m w m1 t m2 H1 H2 H4) as G. rewrite H3, app_nil_r in G. exact G. Qed.
Definition sil (id : nat) (p q : nat) : tr := Trans id None [(p, 1%Z)] [(q, 1%Z)].

Section Or.
Variable Q : Prop.
Notation block := (block Q).
Record orp := Orp { o_ini : nat; o_sta : nat; o_en : nat; o_t1 : tr; o_t2 : tr; o_t3 : tr; o_B : list tr; o_S : nat -> Prop; o_L : list nat -> Prop }.
Definition own (c : orp) (p : nat) : Prop := p = o_ini c \/ p = o_sta c \/ p = o_en c \/ o_S c p.
Definition own' (c : orp) (p : nat) : Prop := p = o_sta c \/ p = o_en c \/ o_S c p.
Record orp_ok (first term : nat) (c : orp) : Prop := {
  k_b : block (o_B c) (o_S c) [o_sta c] [o_en c] (o_L c);
  k_1 : pre (o_t1 c) = [first; o_ini c] /\ post (o_t1 c) = [o_sta c; term] /\ vis (o_t1 c) = [];
  k_2 : pre (o_t2 c) = [term; o_ini c] /\ post (o_t2 c) = [o_sta c; term] /\ vis (o_t2 c) = [];
  k_3 : pre (o_t3 c) = [term; o_ini c] /\ post (o_t3 c) = [term; o_en c] /\ vis (o_t3 c) = [];
  k_n : o_ini c <> o_sta c /\ o_ini c <> o_en c /\ o_sta c <> o_en c;
  k_s : ~ o_S c (o_ini c) /\ ~ o_S c (o_sta c) /\ ~ o_S c (o_en c);
  k_f : ~ own c first; k_t : ~ own c term }.
Definition apart (ps : list orp) : Prop := ForallOrdPairs (fun c d => forall p, own c p -> own d p -> False) ps.

Definition optB (c : orp) : list tr := [sil 0 (o_ini c) (o_en c)] ++ ([sil 0 (o_ini c) (o_sta c)] ++ o_B c).
Definition optL (c : orp) : list nat -> Prop := fun w => w = [] \/ o_L c w.
Definition realB (c : orp) : list tr := o_t1 c :: o_t2 c :: o_t3 c :: o_B c.

Variables (first term : nat).
Hypothesis Hft : first <> term.

Lemma block_opt c : orp_ok first term c -> block (optB c) (own c) [o_ini c] [o_en c] (optL c).
Proof.
  intros [Hb _ _ _ (N1 & N2 & N3) (S1 & S2 & S3) _ _].
  assert (HS : block ([sil 0 (o_ini c) (o_sta c)] ++ o_B c) (fun p => p = o_sta c \/ False \/ o_S c p) [o_ini c] [o_en c]
     (fun w => exists u v, u = [] /\ o_L c v /\ w = u ++ v)).
  { apply (block_seq Q _ _ (fun _ => False) (o_S c) (o_sta c) (o_ini c) (o_en c) (fun w => w = [])); auto.
    apply (block_leaf Q (sil 0 (o_ini c) (o_sta c))); auto. }
  assert (HX : block (optB c) (fun p => False \/ (p = o_sta c \/ False \/ o_S c p)) [o_ini c] [o_en c]
     (fun w => w = [] \/ exists u v, u = [] /\ o_L c v /\ w = u ++ v)).
  { apply block_xor; auto; try (intuition congruence); try tauto. apply (block_leaf Q (sil 0 (o_ini c) (o_en c))); auto. }
  eapply block_ext; [|eapply block_widen; [|exact HX]].
  - intros w. unfold optL. split.
    + intros [->|(u & v & -> & Hv & ->)]; auto.
    + intros [->|Hw]; [auto|]. right. exists [], w. auto.
  - unfold own. cbn. tauto.
Qed.
Lemma own_local c : local (own c) [o_ini c] [o_en c].
Proof. split; intros p [<-|[]]; unfold own; auto. Qed.

Lemma block_opts l : Forall (orp_ok first term) l -> apart l ->
  block (flat_map optB l) (fun p => exists c, In c l /\ own c p) (map o_ini l) (map o_en l) (parL (map optL l)) /\
  local (fun p => exists c, In c l /\ own c p) (map o_ini l) (map o_en l).
Proof.
  intros H Ha. split; [|split; intros p Hp; apply in_map_iff in Hp as (c & <- & Hc); exists c; unfold own; auto].
  induction Ha as [|c l Hc Ha IH]; cbn.
  - eapply block_ext; [intros w; symmetry; apply parL_nil|]. eapply block_widen; [|apply block_empty]. intros p [].
  - inversion H as [|? ? Hk Hl]; subst. eapply block_ext; [intros w; symmetry; apply parL_cons|].
    eapply block_widen; [|apply (block_par Q (optB c) (flat_map optB l) (own c) (fun p => exists c, In c l /\ own c p) [o_ini c] (map o_ini l) [o_en c] (map o_en l))].
    + intros p [Hp|(d & Hd & Hp)]; [exists c; split; [left|]; auto|exists d; split; [right|]; auto].
    + apply block_opt; auto.
    + apply IH; auto.
    + apply own_local.
    + split; intros p Hp; apply in_map_iff in Hp as (d & <- & Hd); exists d; unfold own; auto.
    + intros p Hp (d & Hd & Hp'). rewrite Forall_forall in Hc. eapply Hc; eauto.
Qed.

Definition PB (l1 : list orp) (c : orp) (l2 : list orp) : list tr := flat_map optB l1 ++ (o_B c ++ flat_map optB l2).
Definition PI (l1 : list orp) (c : orp) (l2 : list orp) : list nat := map o_ini l1 ++ ([o_sta c] ++ map o_ini l2).
Definition PF (l1 : list orp) (c : orp) (l2 : list orp) : list nat := map o_en l1 ++ ([o_en c] ++ map o_en l2).
Definition PL (l1 : list orp) (c : orp) (l2 : list orp) : list nat -> Prop := parL (map optL l1 ++ o_L c :: map optL l2).
Definition PS (l1 : list orp) (c : orp) (l2 : list orp) (p : nat) : Prop := (exists d, In d (l1 ++ l2) /\ own d p) \/ own' c p.

Lemma apart_split l1 c l2 : apart (l1 ++ c :: l2) -> apart l1 /\ apart l2 /\
  (forall d p, In d l1 -> own d p -> own c p -> False) /\ (forall d p, In d l2 -> own c p -> own d p -> False) /\
  (forall d e p, In d l1 -> In e l2 -> own d p -> own e p -> False).
Proof.
  unfold apart. induction l1 as [|x l1 IH]; cbn; intros H; inversion H as [|? ? Hx Ha]; subst.
  - split; [constructor|]. split; auto. split; [intros ? ? []|]. rewrite Forall_forall in Hx. split; [eauto|intros ? ? ? []].
  - destruct (IH Ha) as (A1 & A2 & A3 & A4 & A5). rewrite Forall_forall in Hx. split.
    + constructor; auto. apply Forall_forall. intros d Hd. apply Hx. apply in_or_app; auto.
    + split; auto. split; [|split; auto].
      * intros d p [<-|Hd]; [|eauto]. apply Hx. apply in_or_app; right; left; auto.
      * intros d e p [<-|Hd] He; [|eauto]. apply Hx. apply in_or_app; right; right; auto.
Qed.
Lemma apart_notin l1 c l2 : apart (l1 ++ c :: l2) -> ~ In c (l1 ++ l2).
Proof.
  intros H Hc. apply apart_split in H as (_ & _ & A1 & A2 & _). apply in_app_or in Hc as [Hc|Hc].
  - apply (A1 c (o_ini c) Hc); unfold own; auto.
  - apply (A2 c (o_ini c) Hc); unfold own; auto.
Qed.

Lemma block_PB l1 c l2 : Forall (orp_ok first term) (l1 ++ c :: l2) -> apart (l1 ++ c :: l2) ->
  block (PB l1 c l2) (PS l1 c l2) (PI l1 c l2) (PF l1 c l2) (PL l1 c l2) /\ local (PS l1 c l2) (PI l1 c l2) (PF l1 c l2).
Proof.
  intros H Ha. apply Forall_app in H as [H1 H]. inversion H as [|? ? Hc H2]; subst. apply apart_split in Ha as (A1 & A2 & A3 & A4 & A5).
  destruct (block_opts l1 H1 A1) as [B1 Lo1]. destruct (block_opts l2 H2 A2) as [B2 Lo2].
  assert (Bc : block (o_B c) (own' c) [o_sta c] [o_en c] (o_L c)) by (eapply block_widen; [|apply Hc]; unfold own'; auto).
  assert (Loc : local (own' c) [o_sta c] [o_en c]) by (split; intros p [<-|[]]; unfold own'; auto).
  assert (Hc' : forall p, own' c p -> own c p) by (unfold own, own'; tauto).
  assert (B3 := block_par Q _ _ _ _ _ _ _ _ _ _ Bc B2 Loc Lo2 ltac:(intros p Hp (d & Hd & Hp'); eauto)).
  assert (Lo3 : local (fun p => own' c p \/ exists d, In d l2 /\ own d p) ([o_sta c] ++ map o_ini l2) ([o_en c] ++ map o_en l2)).
  { destruct Loc as [Lc1 Lc2], Lo2 as [L21 L22]. split; intros p Hp; apply in_app_or in Hp as [Hp|Hp]; auto. }
  assert (B4 := block_par Q _ _ _ _ _ _ _ _ _ _ B1 B3 Lo1 Lo3
     ltac:(intros p (d & Hd & Hp) [Hp'|(e & He & Hp')]; [eapply A3; eauto|eapply A5; eauto])).
  split.
  - eapply block_ext; [|eapply block_widen; [|exact B4]].
    + intros w. unfold PL. rewrite parL_app. split; intros (u & v & Hu & Hv & Hs); exists u, v; (split; [assumption|]); (split; [|assumption]); apply parL_cons; auto.
    + cbn. intros p [(d & Hd & Hp)|[Hp|(d & Hd & Hp)]]; [left|right|left]; auto; exists d; (split; [apply in_or_app; auto|auto]).
  - destruct Lo1 as [L11 L12], Lo3 as [L31 L32]. unfold PS, PI, PF. split; intros p Hp; apply in_app_or in Hp as [Hp|Hp].
    + apply L11 in Hp as (d & Hd & Hp). left. exists d. split; [apply in_or_app|]; auto.
    + apply L31 in Hp as [Hp|(d & Hd & Hp)]; [auto|]. left. exists d. split; [apply in_or_app|]; auto.
    + apply L12 in Hp as (d & Hd & Hp). left. exists d. split; [apply in_or_app|]; auto.
    + apply L32 in Hp as [Hp|(d & Hd & Hp)]; [auto|]. left. exists d. split; [apply in_or_app|]; auto.
Qed.

Variable ps : list orp.
Hypothesis Hok : Forall (orp_ok first term) ps.
Hypothesis Hap : apart ps.
Hypothesis Hne : ps <> [].
Hypothesis H2 : Q -> 2 <= length ps.
Let RB := flat_map realB ps.
Definition orL (w : list nat) : Prop := exists l1 c l2, ps = l1 ++ c :: l2 /\ PL l1 c l2 w.

Lemma or_ok c : In c ps -> orp_ok first term c.
Proof. rewrite Forall_forall in Hok. auto. Qed.
Lemma RB_in c t : In c ps -> In t (realB c) -> In t RB.
Proof. intros Hc Ht. apply in_flat_map. eauto. Qed.
Lemma piece_block l1 c l2 : ps = l1 ++ c :: l2 -> block (PB l1 c l2) (PS l1 c l2) (PI l1 c l2) (PF l1 c l2) (PL l1 c l2) /\ local (PS l1 c l2) (PI l1 c l2) (PF l1 c l2).
Proof. intros E. apply block_PB; rewrite <- E; auto. Qed.
Lemma PS_own l1 c l2 p : ps = l1 ++ c :: l2 -> PS l1 c l2 p -> exists d, In d ps /\ own d p.
Proof.
  intros E [(d & Hd & Hp)|Hp].
  - exists d. split; auto. rewrite E. apply in_app_or in Hd as [?|?]; apply in_or_app; cbn; auto.
  - exists c. split; [rewrite E; apply in_elt|]. unfold own, own' in *. tauto.
Qed.
Lemma PS_ctl l1 c l2 p : ps = l1 ++ c :: l2 -> PS l1 c l2 p -> p <> first /\ p <> term.
Proof. intros E Hp. destruct (PS_own _ _ _ _ E Hp) as (d & Hd & Ho). pose proof (or_ok d Hd) as K. split; intros ->; [apply (k_f _ _ _ K)|apply (k_t _ _ _ K)]; auto. Qed.
Lemma PS_ini l1 c l2 : ps = l1 ++ c :: l2 -> ~ PS l1 c l2 (o_ini c).
Proof.
  intros E [(d & Hd & Hp)|Hp].
  - rewrite E in Hap. apply apart_split in Hap as (_ & _ & A1 & A2 & _). apply in_app_or in Hd as [Hd|Hd].
    + apply (A1 d (o_ini c)); unfold own; auto.
    + apply (A2 d (o_ini c)); unfold own; auto.
  - pose proof (or_ok c) as K. rewrite E in K. destruct (K (in_elt _ _ _)) as [_ _ _ _ (?&?&?) (?&?&?) _ _]. unfold own' in Hp. intuition congruence.
Qed.
Lemma PF_perm l1 c l2 : PF l1 c l2 = map o_en (l1 ++ c :: l2).
Proof. unfold PF. rewrite map_app. reflexivity. Qed.

Lemma cnt_cons p q l : cnt (p :: l) q = cnt [p] q + cnt l q. Proof. cbn. lia. Qed.
Ltac cn := repeat match goal with |- context [cnt (?a :: ?b :: ?l) ?q] => rewrite (cnt_cons a q (b :: l)) | H : context [cnt (?a :: ?b :: ?l) ?q] |- _ => rewrite (cnt_cons a q (b :: l)) in H end.

Lemma lift_run l1 c l2 n w m : ps = l1 ++ c :: l2 -> runs (PB l1 c l2) n w m -> runs RB (fun p => cnt [term] p + n p) w (fun p => cnt [term] p + m p).
Proof.
  intros E. induction 1 as [n n' En|n w n1 t n2 H IH Ht [Hf1 Hf2]].
  - constructor. intros p. rewrite En. auto.
  - assert (HT : (In t (o_B c) /\ In c ps) \/ exists d, In d ps /\ In t (optB d)).
    { unfold PB in Ht. rewrite !in_app_iff, !in_flat_map in Ht. destruct Ht as [(d & Hd & Ht)|[Ht|(d & Hd & Ht)]].
      - right. exists d. split; auto. rewrite E. apply in_or_app; auto.
      - left. split; auto. rewrite E. apply in_elt.
      - right. exists d. split; auto. rewrite E. apply in_or_app; right; right; auto. }
    assert (HR : forall d, In d ps -> In t (o_B d) -> runs RB (fun p => cnt [term] p + n p) (w ++ vis t) (fun p => cnt [term] p + n2 p)).
    { intros d Hd Htd. eapply r_snoc; [exact IH|apply (RB_in d); auto; do 3 right; auto|].
      split; intros p; specialize (Hf1 p); specialize (Hf2 p); lia. }
    destruct HT as [[Ht' Hc]|(d & Hd & [<-|[<-|Ht']])]; [eauto| | |eauto].
    + pose proof (k_3 _ _ _ (or_ok d Hd)) as (K1 & K2 & K3). change (vis (sil 0 (o_ini d) (o_en d))) with (@nil nat). rewrite app_nil_r.
      eapply (r_silent _ _ _ _ (o_t3 d)); [exact IH|apply (RB_in d); auto; do 2 right; left; auto|exact K3|].
      split; intros p; specialize (Hf1 p); specialize (Hf2 p); rewrite ?K1, ?K2; cbn [pre post sil t_in t_out map fst] in *; cn; lia.
    + pose proof (k_2 _ _ _ (or_ok d Hd)) as (K1 & K2 & K3). change (vis (sil 0 (o_ini d) (o_sta d))) with (@nil nat). rewrite app_nil_r.
      eapply (r_silent _ _ _ _ (o_t2 d)); [exact IH|apply (RB_in d); auto; right; left; auto|exact K3|].
      split; intros p; specialize (Hf1 p); specialize (Hf2 p); rewrite ?K1, ?K2; cbn [pre post sil t_in t_out map fst] in *; cn; lia.
Qed.
Lemma cnt_split l1 (c : orp) l2 (f : orp -> nat) p : cnt (map f (l1 ++ c :: l2)) p = cnt [f c] p + cnt (map f l1 ++ map f l2) p.
Proof. rewrite map_app, !cnt_app. cbn. lia. Qed.
Lemma first_step l1 c l2 : ps = l1 ++ c :: l2 -> runs RB (cnt (first :: map o_ini ps)) [] (fun p => cnt [term] p + cnt (PI l1 c l2) p).
Proof.
  intros E. assert (Hc : In c ps) by (rewrite E; apply in_elt). pose proof (k_1 _ _ _ (or_ok c Hc)) as (K1 & K2 & K3).
  apply (silent_run RB (o_t1 c)); auto; [apply (RB_in c); auto; left; auto|].
  split; intros p; rewrite ?K1, ?K2; rewrite ?(cnt_cons first p (map o_ini ps)), ?E, ?cnt_split; unfold PI; rewrite ?cnt_app; cn; lia.
Qed.

Lemma block_or : block RB (fun p => p = first \/ p = term \/ exists c, In c ps /\ own c p)
  (first :: map o_ini ps) (term :: map o_en ps) orL.
Proof.
  assert (Nini : forall p, In p (map o_ini ps) -> p <> first /\ p <> term).
  { intros p Hp. apply in_map_iff in Hp as (c & <- & Hc). pose proof (or_ok c Hc) as K. split; intros E;
      [apply (k_f _ _ _ K)|apply (k_t _ _ _ K)]; rewrite <- E; unfold own; auto. }
  assert (Nen : forall p, In p (map o_en ps) -> p <> first /\ p <> term).
  { intros p Hp. apply in_map_iff in Hp as (c & <- & Hc). pose proof (or_ok c Hc) as K. split; intros E;
      [apply (k_f _ _ _ K)|apply (k_t _ _ _ K)]; rewrite <- E; unfold own; auto. }
  assert (Nown : forall c d p, In c ps -> In d ps -> own c p -> own d p -> c = d).
  { intros c d p Hc Hd Ho Ho'. apply in_split in Hc as (l1 & l2 & E). rewrite E in Hap, Hd.
    apply apart_split in Hap as (_ & _ & A1 & A2 & _). apply in_app_or in Hd as [Hd|[Hd|Hd]]; auto; exfalso; eauto. }
  assert (HI : forall m w, runs RB (cnt (first :: map o_ini ps)) w m ->
    (w = [] /\ forall p, m p = cnt (first :: map o_ini ps) p) \/
    (exists l1 c l2 m', ps = l1 ++ c :: l2 /\ runs (PB l1 c l2) (cnt (PI l1 c l2)) w m' /\ forall p, m p = cnt [term] p + m' p)).
  { apply runs_inv.
    - intros m m' w E [[-> H]|(l1 & c & l2 & n & Ep & Hr & Em)].
      + left. split; auto. intros p. rewrite <- E. auto.
      + right. exists l1, c, l2, n. do 2 (split; [assumption|]). intros p. rewrite <- E. auto.
    - left. auto.
    - intros m w t m' HS Ht Hfi. pose proof Hfi as [He Hf]. apply in_flat_map in Ht as (d & Hd & Ht). pose proof (or_ok d Hd) as K.
      destruct HS as [[-> H]|(l1 & c & l2 & n & Ep & Hr & Em)].
      + (* initial *)
        assert (Nt : m term = 0).
        { rewrite H. apply cnt_notin. intros [?|Hi]; [auto|]. apply Nini in Hi. tauto. }
        destruct Ht as [<-|[<-|[<-|Ht]]].
        * right. apply in_split in Hd as (l1 & l2 & Ep). exists l1, d, l2, (cnt (PI l1 d l2)). split; [assumption|].
          destruct (k_1 _ _ _ K) as (K1 & K2 & K3). rewrite K3. split; [apply runs_refl|].
          intros p. specialize (Hf p). rewrite H, K1, K2, (cnt_cons first p (map o_ini ps)), Ep, cnt_split in Hf. unfold PI. rewrite !cnt_app in *. cn. lia.
        * exfalso. destruct (k_2 _ _ _ K) as (K1 & _). assert (1 <= m term) by (apply (need _ _ _ He); rewrite K1; left; auto). lia.
        * exfalso. destruct (k_3 _ _ _ K) as (K1 & _). assert (1 <= m term) by (apply (need _ _ _ He); rewrite K1; left; auto). lia.
        * exfalso. destruct (enabled_place _ _ _ _ _ _ _ _ (k_b _ _ _ K) Ht He) as (p & _ & Hp & Hc).
          assert (Ho : own' d p) by (unfold own'; destruct Hc as [[<-|[]]|?]; auto). rewrite H in Hp. apply cnt_in in Hp as [Hp|Hp].
          -- subst p. apply (k_f _ _ _ K). unfold own, own' in *. tauto.
          -- apply in_map_iff in Hp as (e & <- & Hin).
             assert (e = d) by (apply (Nown e d (o_ini e)); auto; unfold own, own' in *; tauto). subst e.
             destruct (k_n _ _ _ K) as (?&?&?), (k_s _ _ _ K) as (?&?&?). unfold own' in Ho. intuition congruence.
      + (* running *)
        destruct (piece_block _ _ _ Ep) as [HB Lo].
        assert (Z : forall p, 1 <= n p -> PS l1 c l2 p).
        { intros p Hp. destruct Lo. destruct (support _ _ _ _ _ _ _ _ p HB Hr Hp) as [?|[?|?]]; auto. }
        assert (Nf : m first = 0).
        { rewrite Em. destruct (n first) eqn:En; [cbn; destruct (Nat.eqb_spec term first); [exfalso; auto|auto]|]. exfalso. destruct (PS_ctl _ _ _ first Ep); auto. apply Z. lia. }
        assert (Ho : forall x, (x = o_t2 d \/ x = o_t3 d) -> (forall p, cnt (pre x) p <= m p) -> In d (l1 ++ l2)).
        { intros x Hx Hex. assert (Hi : 1 <= n (o_ini d)).
          { assert (1 <= m (o_ini d)) by (apply (need _ _ _ Hex); destruct (k_2 _ _ _ K) as (K1 & _), (k_3 _ _ _ K) as (K1' & _); destruct Hx as [->| ->]; rewrite ?K1, ?K1'; right; left; auto).
            assert (o_ini d <> term) by (apply Nini; apply in_map; auto). rewrite Em in *. cbn in *. eqbs; try congruence; lia. }
          destruct (in_app_or l1 (c :: l2) d) as [?|[->|?]]; [rewrite <- Ep; auto|apply in_or_app; auto| |apply in_or_app; auto].
          exfalso. eapply PS_ini; [exact Ep|]. apply Z. auto. }
        assert (HinP : forall t', In d (l1 ++ l2) -> In t' (optB d) -> In t' (PB l1 c l2)).
        { intros t' Hin Ht'. unfold PB. rewrite !in_app_iff, !in_flat_map. apply in_app_or in Hin as [Hin|Hin]; eauto. }
        right. exists l1, c, l2. destruct Ht as [<-|[<-|[<-|Ht]]].
        * exfalso. destruct (k_1 _ _ _ K) as (K1 & _). assert (1 <= m first) by (apply (need _ _ _ He); rewrite K1; left; auto). lia.
        * destruct (k_2 _ _ _ K) as (K1 & K2 & K3). rewrite K3, app_nil_r. set (t' := sil 0 (o_ini d) (o_sta d)).
          assert (He' : forall p, cnt (pre t') p <= n p).
          { intros p. specialize (He p). rewrite K1, Em in He. cbn [pre sil t' t_in map fst]. cn. lia. }
          exists (after t' n). split; [assumption|]. split.
          -- eapply (r_silent _ _ _ _ t'); [exact Hr|apply HinP; [apply (Ho (o_t2 d)); auto|right; left; auto]|reflexivity|apply fire_after; auto].
          -- intros p. specialize (Hf p). specialize (He' p). unfold after. rewrite K1, K2, Em in Hf. cbn [pre post sil t' t_in t_out map fst] in *. cn. lia.
        * destruct (k_3 _ _ _ K) as (K1 & K2 & K3). rewrite K3, app_nil_r. set (t' := sil 0 (o_ini d) (o_en d)).
          assert (He' : forall p, cnt (pre t') p <= n p).
          { intros p. specialize (He p). rewrite K1, Em in He. cbn [pre sil t' t_in map fst]. cn. lia. }
          exists (after t' n). split; [assumption|]. split.
          -- eapply (r_silent _ _ _ _ t'); [exact Hr|apply HinP; [apply (Ho (o_t3 d)); auto|left; auto]|reflexivity|apply fire_after; auto].
          -- intros p. specialize (Hf p). specialize (He' p). unfold after. rewrite K1, K2, Em in Hf. cbn [pre post sil t' t_in t_out map fst] in *. cn. lia.
        * assert (Hpt : forall p, In p (pre t) -> p <> term).
          { intros p Hp ->. destruct (b_pre (k_b _ _ _ K) _ Ht) as [_ Hpp]. apply (k_t _ _ _ K). unfold own. destruct (Hpp _ Hp) as [[<-|[]]|?]; auto. }
          assert (He' : forall p, cnt (pre t) p <= n p).
          { intros p. destruct (Nat.eq_dec (cnt (pre t) p) 0) as [E0|E0]; [lia|]. specialize (He p). rewrite Em in He.
            assert (p <> term) by (apply Hpt, cnt_in; lia). cbn in He. eqbs; [congruence|lia]. }
          exists (after t n). split; [assumption|]. split.
          -- eapply r_snoc; eauto; [|apply fire_after; auto]. unfold PB. rewrite Ep in Hd. apply in_app_or in Hd as [Hd|[<-|Hd]]; rewrite !in_app_iff.
             ++ left. apply in_flat_map. exists d. split; auto. do 2 right; auto.
             ++ right; left; auto.
             ++ right; right. apply in_flat_map. exists d. split; auto. do 2 right; auto.
          -- intros p. specialize (Hf p). specialize (He' p). unfold after. rewrite Em in Hf. lia. }
  assert (Gc : forall l1 c l2, ps = l1 ++ c :: l2 -> forall w m, runs (PB l1 c l2) (cnt (PI l1 c l2)) w m ->
     runs RB (cnt (first :: map o_ini ps)) ([] ++ w) (fun p => cnt [term] p + m p)).
  { intros l1 c l2 Ep w m Hr. eapply runs_app; [apply (first_step l1 c l2); auto|]. eapply lift_run; eauto. }
  constructor.
  - intros t Ht. apply in_flat_map in Ht as (d & Hd & Ht). pose proof (or_ok d Hd) as K.
    assert (Od : forall p, own d p -> p = first \/ p = term \/ exists c, In c ps /\ own c p) by eauto.
    destruct (k_1 _ _ _ K) as (K1 & _), (k_2 _ _ _ K) as (K2 & _), (k_3 _ _ _ K) as (K3 & _). destruct Ht as [<-|[<-|[<-|Ht]]]; rewrite ?K1, ?K2, ?K3.
    + split; [discriminate|]. intros p [<-|[<-|[]]]; right; auto. apply Od. unfold own; auto.
    + split; [discriminate|]. intros p [<-|[<-|[]]]; right; auto. apply Od. unfold own; auto.
    + split; [discriminate|]. intros p [<-|[<-|[]]]; right; auto. apply Od. unfold own; auto.
    + destruct (b_pre (k_b _ _ _ K) _ Ht) as [? Hp]. split; auto. intros p Hpp. right. apply Od. unfold own. destruct (Hp p Hpp) as [[<-|[]]|?]; auto.
  - intros t Ht. apply in_flat_map in Ht as (d & Hd & Ht). pose proof (or_ok d Hd) as K.
    assert (Od : forall p, own d p -> p = first \/ p = term \/ exists c, In c ps /\ own c p) by eauto.
    destruct (k_1 _ _ _ K) as (_ & K1 & _), (k_2 _ _ _ K) as (_ & K2 & _), (k_3 _ _ _ K) as (_ & K3 & _). destruct Ht as [<-|[<-|[<-|Ht]]]; rewrite ?K1, ?K2, ?K3.
    + split; [discriminate|]. intros p [<-|[<-|[]]]; right; auto. apply Od. unfold own; auto.
    + split; [discriminate|]. intros p [<-|[<-|[]]]; right; auto. apply Od. unfold own; auto.
    + split; [discriminate|]. intros p [<-|[<-|[]]]; right; auto. apply Od. unfold own; auto.
    + destruct (b_post (k_b _ _ _ K) _ Ht) as [? Hp]. split; auto. intros p Hpp. right. apply Od. unfold own. destruct (Hp p Hpp) as [[<-|[]]|?]; auto.
  - intros m w H Hm. destruct (HI _ _ H) as [[-> H']|(l1 & c & l2 & n & Ep & Hr & Em)].
    + exfalso. specialize (Hm term). rewrite H' in Hm. rewrite (cnt_cons term term (map o_en ps)) in Hm. rewrite cnt1 in Hm. assert (Hx : In term (first :: map o_ini ps)) by (apply cnt_in; lia).
      destruct Hx as [?|Hx]; [auto|]. apply Nini in Hx. tauto.
    + destruct (piece_block _ _ _ Ep) as [HB Lo]. destruct (b_sound HB _ _ Hr) as [En HL].
      { intros p. specialize (Hm p). rewrite Em, (cnt_cons term p (map o_en ps)) in Hm. rewrite PF_perm, <- Ep. lia. }
      split; [|exists l1, c, l2; auto]. intros p. rewrite Em, En, PF_perm, <- Ep, (cnt_cons term p (map o_en ps)). auto.
  - intros w (l1 & c & l2 & Ep & Hw). destruct (piece_block _ _ _ Ep) as [HB Lo]. apply (b_complete HB) in Hw.
    eapply runs_ext_r; [exact (Gc _ _ _ Ep _ _ Hw)|]. intros p. cbn beta. rewrite PF_perm, <- Ep, (cnt_cons term p (map o_en ps)). auto.
  - intros m w p H. destruct (HI _ _ H) as [[-> H']|(l1 & c & l2 & n & Ep & Hr & Em)].
    + rewrite H', cnt_cons. destruct (block_opts ps Hok Hap) as [HB Lo]. pose proof (b_safe HB _ _ p (runs_refl _ _)) as Hs.
      destruct (Nat.eq_dec (cnt (map o_ini ps) p) 0) as [E|E]; [rewrite E; cbn; eqbs; lia|].
      assert (p <> first) by (apply Nini, cnt_in; lia). cbn. eqbs; [congruence|lia].
    + destruct (piece_block _ _ _ Ep) as [HB Lo]. pose proof (b_safe HB _ _ p Hr) as Hs. rewrite Em.
      destruct (Nat.eq_dec (n p) 0) as [E|E]; [rewrite E; cbn; eqbs; lia|].
      assert (p <> term). { apply (PS_ctl _ _ _ p Ep). destruct Lo. destruct (support _ _ _ _ _ _ _ _ p HB Hr ltac:(lia)) as [?|[?|?]]; auto. }
      cbn. eqbs; [congruence|lia].
  - intros qq t Ht. apply in_flat_map in Ht as (d & Hd & Ht). pose proof (or_ok d Hd) as K.
    destruct (in_split _ _ Hd) as (l1 & l2 & Ep).
    assert (G23 : exists w m, runs RB (cnt (first :: map o_ini ps)) w m /\ forall p, cnt [term; o_ini d] p <= m p).
    { assert (Hx : exists e k1 k2, ps = k1 ++ e :: k2 /\ In d (k1 ++ k2)).
      { specialize (H2 qq). destruct l1 as [|e l1].
        - destruct l2 as [|e l2]; [rewrite Ep in H2; cbn in H2; lia|]. exists e, [d], l2. split; [rewrite Ep; auto|left; auto].
        - exists e, [], (l1 ++ d :: l2). split; [rewrite Ep; auto|apply in_elt]. }
      destruct Hx as (e & k1 & k2 & Ek & Hin). exists [], (fun p => cnt [term] p + cnt (PI k1 e k2) p). split; [apply first_step; auto|].
      intros p. rewrite cnt_cons. unfold PI. rewrite !cnt_app. apply in_split in Hin as (j1 & j2 & Ej).
      assert (Eq : cnt (map o_ini k1) p + cnt (map o_ini k2) p = cnt (map o_ini j1) p + cnt [o_ini d] p + cnt (map o_ini j2) p).
      { rewrite <- cnt_app, <- map_app, Ej, map_app, cnt_app. cbn. lia. }
      lia. }
    destruct (k_1 _ _ _ K) as (K1 & _), (k_2 _ _ _ K) as (K2 & _), (k_3 _ _ _ K) as (K3 & _). destruct Ht as [<-|[<-|[<-|Ht]]].
    + exists [], (cnt (first :: map o_ini ps)). split; [apply runs_refl|]. intros p. rewrite K1, (cnt_cons first p (map o_ini ps)), (cnt_cons first p [o_ini d]), Ep, cnt_split. lia.
    + rewrite K2. exact G23.
    + rewrite K3. exact G23.
    + destruct (piece_block _ _ _ Ep) as [HB Lo]. destruct (b_live HB qq t) as (w & m & Hr & He).
      { unfold PB. rewrite !in_app_iff. auto. }
      exists ([] ++ w), (fun p => cnt [term] p + m p). split; [eapply Gc; eauto|]. intros p. specialize (He p). lia.
  - intros t q Ht Hq. apply in_flat_map in Ht as (d & Hd & Ht). pose proof (or_ok d Hd) as K.
    destruct (in_split _ _ Hd) as (l1 & l2 & Ep).
    assert (Gi : q = first \/ q = o_ini d -> exists w m, runs RB (cnt (first :: map o_ini ps)) w m /\ 1 <= m q).
    { intros Hc. exists [], (cnt (first :: map o_ini ps)). split; [apply runs_refl|]. apply cnt_in. destruct Hc as [->| ->]; [left; auto|right; apply in_map; auto]. }
    assert (Gt : q = term -> exists w m, runs RB (cnt (first :: map o_ini ps)) w m /\ 1 <= m q).
    { intros ->. exists [], (fun p => cnt [term] p + cnt (PI l1 d l2) p). split; [apply first_step; auto|]. rewrite cnt1. lia. }
    destruct (k_1 _ _ _ K) as (K1 & _), (k_2 _ _ _ K) as (K2 & _), (k_3 _ _ _ K) as (K3 & _). destruct Ht as [<-|[<-|[<-|Ht]]].
    + rewrite K1 in Hq. destruct Hq as [<-|[<-|[]]]; auto.
    + rewrite K2 in Hq. destruct Hq as [<-|[<-|[]]]; auto.
    + rewrite K3 in Hq. destruct Hq as [<-|[<-|[]]]; auto.
    + destruct (piece_block _ _ _ Ep) as [HB Lo]. destruct (b_mark HB t q) as (w & m & Hr & He); auto.
      { unfold PB. rewrite !in_app_iff. auto. }
      exists ([] ++ w), (fun p => cnt [term] p + m p). split; [eapply Gc; eauto|]. lia.
  - intros m w H. destruct (HI _ _ H) as [[-> H']|(l1 & c & l2 & n & Ep & Hr & Em)].
    + assert (E0 : exists c l2, ps = [] ++ c :: l2) by (destruct ps as [|c l2]; [exfalso; auto|exists c, l2; auto]). destruct E0 as (c & l2 & Ep).
      destruct (piece_block _ _ _ Ep) as [HB Lo]. destruct (b_inh _ _ _ _ _ _ HB) as (w & Hw).
      exists ([] ++ w). split; [|exists [], c, l2; auto]. apply (b_complete HB) in Hw.
      eapply runs_ext_r; [eapply runs_ext_l; [exact (Gc _ _ _ Ep _ _ Hw)|auto]|]. intros p. cbn beta. rewrite PF_perm, <- Ep, (cnt_cons term p (map o_en ps)). auto.
    + destruct (piece_block _ _ _ Ep) as [HB Lo]. destruct (b_opt HB _ _ Hr) as (w' & Hr' & Hl). exists w'. split; [|exists l1, c, l2; auto].
      eapply runs_ext_r; [eapply runs_ext_l; [eapply lift_run; eauto|]|]; cbn beta; [intros p; symmetry; apply Em|].
      intros p. rewrite PF_perm, <- Ep, (cnt_cons term p (map o_en ps)). auto.
Qed.
End Or.
