(** Blocks: the INTERLEAVING construction. *)
From Coq Require Import List Arith Lia Bool ZArith Permutation.
Import ListNotations.
From Verif Require Import Model_Petri Model_Tree Spec_Tree Proofs_Shuffle Proofs_Block Proofs_Block2 Proofs_Block3.

Lemma nodup_cnt l p : NoDup l -> cnt l p <= 1.
Proof.
  induction 1 as [|x l Hx Hl IH]; cbn; [lia|]. destruct (Nat.eqb_spec x p) as [->|]; [|lia]. rewrite (cnt_notin l p); auto.
Qed.

Section Int.
Variable Q : Prop.
Notation block := (block Q).
Record intp := Intp { i_pi : nat; i_pf : nat; i_sta : nat; i_en : nat; i_ti : tr; i_tf : tr; i_B : list tr; i_S : nat -> Prop; i_L : list nat -> Prop }.
Definition iown (c : intp) (p : nat) : Prop := p = i_pi c \/ p = i_pf c \/ p = i_sta c \/ p = i_en c \/ i_S c p.
Record intp_ok (ctl : nat) (c : intp) : Prop := {
  ik_b : block (i_B c) (i_S c) [i_sta c] [i_en c] (i_L c);
  ik_i : pre (i_ti c) = [i_pi c; ctl] /\ post (i_ti c) = [i_sta c] /\ vis (i_ti c) = [];
  ik_f : pre (i_tf c) = [i_en c] /\ post (i_tf c) = [i_pf c; ctl] /\ vis (i_tf c) = [];
  ik_n : i_pi c <> i_pf c /\ i_pi c <> i_sta c /\ i_pi c <> i_en c /\ i_pf c <> i_sta c /\ i_pf c <> i_en c /\ i_sta c <> i_en c;
  ik_s : ~ i_S c (i_pi c) /\ ~ i_S c (i_pf c) /\ ~ i_S c (i_sta c) /\ ~ i_S c (i_en c);
  ik_c : ~ iown c ctl }.
Variable ctl : nat.
Variable ps : list intp.
Hypothesis Hok : Forall (intp_ok ctl) ps.
Hypothesis Hap : ForallOrdPairs (fun c d => forall p, iown c p -> iown d p -> False) ps.
Definition irealB (c : intp) : list tr := i_ti c :: i_tf c :: i_B c.
Let RB := flat_map irealB ps.
Definition intL (w : list nat) : Prop := exists ds ws, Permutation ps ds /\ Forall2 (fun c w => i_L c w) ds ws /\ w = concat ws.

Lemma i_ok c : In c ps -> intp_ok ctl c.
Proof. rewrite Forall_forall in Hok. auto. Qed.
Lemma iRB_in c t : In c ps -> In t (irealB c) -> In t RB.
Proof. intros Hc Ht. apply in_flat_map. eauto. Qed.
Lemma i_own_inj c d p : In c ps -> In d ps -> iown c p -> iown d p -> c = d.
Proof.
  clear Hok RB. induction Hap as [|x l Hx Ha IH]; intros Hc Hd Ho Ho'; [destruct Hc|]. rewrite Forall_forall in Hx.
  destruct Hc as [<-|Hc], Hd as [<-|Hd]; auto; exfalso; eauto.
Qed.
Lemma i_nodup : NoDup ps.
Proof.
  clear Hok RB. induction Hap as [|x l Hx Ha IH]; constructor; auto. intros Hin. rewrite Forall_forall in Hx. apply (Hx x Hin (i_pi x)); unfold iown; auto.
Qed.

Definition rest (ds rs : list intp) : list nat := map i_pf ds ++ map i_pi rs.
Definition idle (ds rs : list intp) : list nat := ctl :: rest ds rs.
Section Config.
  Variables ds rs : list intp.
  Hypothesis Hds : forall c, In c ds -> In c ps.
  Hypothesis Hrs : forall c, In c rs -> In c ps.
  Lemma rest_in p : In p (rest ds rs) -> p <> ctl /\ exists e, In e ps /\ ((In e ds /\ p = i_pf e) \/ (In e rs /\ p = i_pi e)).
  Proof.
    unfold rest. rewrite in_app_iff, !in_map_iff. intros [(e & <- & He)|(e & <- & He)].
    - pose proof (i_ok e (Hds _ He)) as K. split; [|eauto 8]. intros E. apply (ik_c _ _ K). rewrite <- E. unfold iown; auto.
    - pose proof (i_ok e (Hrs _ He)) as K. split; [|eauto 8]. intros E. apply (ik_c _ _ K). rewrite <- E. unfold iown; auto.
  Qed.
  Lemma rest_own p d : In d ps -> iown d p -> In p (rest ds rs) -> (In d ds /\ p = i_pf d) \/ (In d rs /\ p = i_pi d).
  Proof.
    intros Hd Ho Hp. apply rest_in in Hp as (_ & e & He & Hc).
    assert (e = d) by (apply (i_own_inj e d p); auto; destruct Hc as [[_ ->]|[_ ->]]; unfold iown; auto). subst e. auto.
  Qed.
  Lemma rest_inner p d : In d ps -> p = i_sta d \/ p = i_en d \/ i_S d p -> ~ In p (rest ds rs).
  Proof.
    intros Hd Hp Hin. pose proof (i_ok d Hd) as K. destruct (ik_n _ _ K) as (?&?&?&?&?&?), (ik_s _ _ K) as (?&?&?&?).
    destruct (rest_own p d Hd) as [[_ E]|[_ E]]; [unfold iown; tauto|auto| |]; subst p; intuition congruence.
  Qed.
End Config.
Lemma rest_nodup ds rs : NoDup (ds ++ rs) -> (forall c, In c ds -> In c ps) -> (forall c, In c rs -> In c ps) -> NoDup (idle ds rs).
Proof.
  intros HN Hd Hr. unfold idle. constructor.
  { intros Hin. apply (rest_in ds rs Hd Hr) in Hin as [? _]. auto. }
  unfold rest. induction ds as [|d ds IH]; cbn.
  - cbn in HN. clear Hd. induction HN as [|r rs Hx HN IH]; cbn; constructor.
    + rewrite in_map_iff. intros (e & Ee & He). apply Hx.
      assert (e = r) by (apply (i_own_inj e r (i_pi e)); [apply Hr; right; auto|apply Hr; left; auto|unfold iown; auto|unfold iown; rewrite Ee; auto]). congruence.
    + apply IH. intros c Hc. apply Hr. right; auto.
  - inversion HN as [|? ? Hx HN']; subst. constructor; [|apply IH; auto; intros c Hc; apply Hd; right; auto].
    intros Hin. assert (Hdp : In d ps) by (apply Hd; left; auto).
    destruct (rest_own ds rs ltac:(intros c Hc; apply Hd; right; auto) Hr (i_pf d) d Hdp ltac:(unfold iown; auto) Hin) as [[Hc _]|[Hc _]];
      apply Hx, in_or_app; auto.
Qed.
Lemma cnt_consI p q l : cnt (p :: l) q = cnt [p] q + cnt l q. Proof. cbn. lia. Qed.

Lemma start_step ds r1 c r2 : In c ps -> forall m, (forall p, m p = cnt (idle ds (r1 ++ c :: r2)) p) ->
  fire (i_ti c) m (fun p => cnt [i_sta c] p + cnt (rest ds (r1 ++ r2)) p).
Proof.
  intros Hc m Hm. destruct (ik_i _ _ (i_ok c Hc)) as (K1 & K2 & _).
  assert (E : forall p, m p = cnt [i_pi c; ctl] p + cnt (rest ds (r1 ++ r2)) p).
  { intros p. rewrite Hm. unfold idle, rest. rewrite (cnt_consI ctl), (cnt_consI (i_pi c)), !map_app, !cnt_app. cbn [map]. rewrite (cnt_consI (i_pi c) p (map i_pi r2)). lia. }
  split; intros p; rewrite ?K1, ?K2, E; lia.
Qed.
Lemma end_step ds rs c : In c ps -> forall m, (forall p, m p = cnt [i_en c] p + cnt (rest ds rs) p) -> fire (i_tf c) m (cnt (idle (ds ++ [c]) rs)).
Proof.
  intros Hc m Hm. destruct (ik_f _ _ (i_ok c Hc)) as (K1 & K2 & _).
  split; intros p; rewrite ?K1, ?K2, Hm; [lia|]. unfold idle, rest. rewrite (cnt_consI ctl), (cnt_consI (i_pf c)), !map_app, !cnt_app. cbn [map]. lia.
Qed.
Lemma one_piece ds r1 c r2 v : In c ps -> i_L c v -> runs RB (cnt (idle ds (r1 ++ c :: r2))) v (cnt (idle (ds ++ [c]) (r1 ++ r2))).
Proof.
  intros Hc Hv. pose proof (i_ok c Hc) as K. destruct (ik_i _ _ K) as (_ & _ & Vi), (ik_f _ _ K) as (_ & _ & Vf).
  apply (b_complete (ik_b _ _ K)) in Hv.
  eapply (r_silent RB _ _ (fun p => cnt [i_en c] p + cnt (rest ds (r1 ++ r2)) p) (i_tf c)); auto.
  - apply (runs_app RB _ [] (fun p => cnt [i_sta c] p + cnt (rest ds (r1 ++ r2)) p) v).
    + apply (silent_run RB (i_ti c)); auto; [apply (iRB_in c); auto; left; auto|]. apply start_step; auto.
    + apply runs_frame. eapply runs_incl; eauto. intros t Ht. apply (iRB_in c); auto. do 2 right; auto.
  - apply (iRB_in c); auto. right; left; auto.
  - apply end_step; auto.
Qed.
Lemma pieces rs : forall ds ws, (forall c, In c rs -> In c ps) -> Forall2 (fun c w => i_L c w) rs ws ->
  runs RB (cnt (idle ds rs)) (concat ws) (cnt (idle (ds ++ rs) [])).
Proof.
  induction rs as [|c rs IH]; intros ds ws Hin HF; inversion HF as [|? v ? ws' Hv HF']; subst; cbn.
  - rewrite app_nil_r. apply runs_refl.
  - eapply runs_app; [apply (one_piece ds [] c rs); auto; apply Hin; left; auto|]. cbn.
    replace (ds ++ c :: rs) with ((ds ++ [c]) ++ rs) by (rewrite <- app_assoc; auto). apply IH; auto. intros d Hd. apply Hin. right; auto.
Qed.
Lemma i_words rs : (forall c, In c rs -> In c ps) -> exists ws, Forall2 (fun c w => i_L c w) rs ws.
Proof.
  induction rs as [|c rs IH]; intros Hin; [exists []; constructor|]. destruct IH as (ws & Hw); [intros d Hd; apply Hin; right; auto|].
  destruct (b_inh _ _ _ _ _ _ (ik_b _ _ (i_ok c (Hin c (or_introl eq_refl))))) as (w & Hw'). exists (w :: ws). constructor; auto.
Qed.
Lemma idle_perm ds rs ds' rs' p : Permutation ds ds' -> Permutation rs rs' -> cnt (idle ds rs) p = cnt (idle ds' rs') p.
Proof. intros H1 H2. apply cnt_perm. unfold idle, rest. constructor. apply Permutation_app; apply Permutation_map; auto. Qed.

Lemma block_int : block RB (fun p => p = ctl \/ exists c, In c ps /\ iown c p) (ctl :: map i_pi ps) (ctl :: map i_pf ps) intL.
Proof.
  assert (I0 : forall p, cnt (ctl :: map i_pi ps) p = cnt (idle [] ps) p) by reflexivity.
  assert (F0 : forall ds p, Permutation ds ps -> cnt (idle ds []) p = cnt (ctl :: map i_pf ps) p).
  { intros ds p HP. rewrite (idle_perm ds [] ps [] p); auto. unfold idle, rest. cbn. rewrite app_nil_r. auto. }
  assert (HI : forall m w, runs RB (cnt (ctl :: map i_pi ps)) w m ->
    (exists ds rs ws, Permutation (ds ++ rs) ps /\ Forall2 (fun c w => i_L c w) ds ws /\ w = concat ws /\ forall p, m p = cnt (idle ds rs) p) \/
    (exists ds c rs ws v n, Permutation (ds ++ c :: rs) ps /\ Forall2 (fun c w => i_L c w) ds ws /\ w = concat ws ++ v /\
        runs (i_B c) (cnt [i_sta c]) v n /\ forall p, m p = n p + cnt (rest ds rs) p)).
  { apply runs_inv.
    - intros m m' w E [(ds & rs & ws & HP & HF & -> & Hm)|(ds & c & rs & ws & v & n & HP & HF & -> & Hr & Hm)].
      + left. exists ds, rs, ws. do 3 (split; [solve [auto]|]). intros p. rewrite <- E. auto.
      + right. exists ds, c, rs, ws, v, n. do 4 (split; [solve [auto]|]). intros p. rewrite <- E. auto.
    - left. exists [], ps, []. do 3 (split; [solve [auto]|]). auto.
    - intros m w t m' HS Ht Hfi. pose proof Hfi as [He Hf]. apply in_flat_map in Ht as (d & Hd & Ht). pose proof (i_ok d Hd) as K.
      destruct (ik_n _ _ K) as (N1&N2&N3&N4&N5&N6), (ik_s _ _ K) as (M1&M2&M3&M4).
      destruct HS as [(ds & rs & ws & HP & HF & -> & Hm)|(ds & c & rs & ws & v & n & HP & HF & -> & Hr & Hm)].
      + (* between two children *)
        assert (Hds : forall c, In c ds -> In c ps) by (intros c Hc; eapply Permutation_in; [exact HP|apply in_or_app; auto]).
        assert (Hrs : forall c, In c rs -> In c ps) by (intros c Hc; eapply Permutation_in; [exact HP|apply in_or_app; auto]).
        assert (Hown : forall p, iown d p -> 1 <= m p -> (In d ds /\ p = i_pf d) \/ (In d rs /\ p = i_pi d)).
        { intros p Ho Hp. rewrite Hm in Hp. apply cnt_in in Hp as [<-|Hp]; [destruct (ik_c _ _ K); auto|]. apply rest_own; auto. }
        destruct Ht as [<-|[<-|Ht]].
        * destruct (ik_i _ _ K) as (K1 & K2 & K3). assert (Hp : 1 <= m (i_pi d)) by (apply (need _ _ _ He); rewrite K1; left; auto).
          apply Hown in Hp as [[_ E]|[Hin _]]; [congruence| |unfold iown; auto]. apply in_split in Hin as (r1 & r2 & ->).
          right. exists ds, d, (r1 ++ r2), ws, [], (cnt [i_sta d]). split; [|split; [assumption|split; [rewrite K3; auto|split; [apply runs_refl|]]]].
          -- rewrite <- HP. apply Permutation_app_head. apply Permutation_middle.
          -- intros p. destruct (start_step ds r1 d r2 Hd m Hm) as [_ Hs]. specialize (Hs p). specialize (Hf p). lia.
        * exfalso. destruct (ik_f _ _ K) as (K1 & K2 & K3). assert (Hp : 1 <= m (i_en d)) by (apply (need _ _ _ He); rewrite K1; left; auto).
          apply Hown in Hp as [[_ E]|[_ E]]; try congruence. unfold iown; auto.
        * exfalso. destruct (enabled_place _ _ _ _ _ _ _ _ (ik_b _ _ K) Ht He) as (p & _ & Hp & Hc).
          assert (Ho : iown d p) by (unfold iown; destruct Hc as [[<-|[]]|?]; auto).
          destruct (Hown p Ho Hp) as [[_ ->]|[_ ->]]; destruct Hc as [[E|[]]|Hc]; auto; congruence.
      + (* inside a child *)
        assert (Hc : In c ps) by (eapply Permutation_in; [exact HP|apply in_elt]). pose proof (i_ok c Hc) as Kc.
        assert (Hds : forall c, In c ds -> In c ps) by (intros e He'; eapply Permutation_in; [exact HP|apply in_or_app; auto]).
        assert (Hrs : forall c, In c rs -> In c ps) by (intros e He'; eapply Permutation_in; [exact HP|apply in_or_app; right; right; auto]).
        assert (Zn : forall p, 1 <= n p -> p = i_sta c \/ p = i_en c \/ i_S c p).
        { intros p Hp. destruct (support _ _ _ _ _ _ _ _ p (ik_b _ _ Kc) Hr Hp) as [[<-|[]]|[[<-|[]]|?]]; auto. }
        assert (Hinner : forall p, p = i_sta d \/ p = i_en d \/ i_S d p -> 1 <= m p -> d = c /\ 1 <= n p).
        { intros p Ho Hp. rewrite Hm in Hp. rewrite (cnt_notin _ _ (rest_inner ds rs Hds Hrs p d Hd Ho)) in Hp. split; [|lia].
          apply (i_own_inj d c p); auto; [unfold iown; tauto|]. unfold iown. specialize (Zn p ltac:(lia)). tauto. }
        destruct Ht as [<-|[<-|Ht]].
        * exfalso. destruct (ik_i _ _ K) as (K1 & K2 & K3). assert (Hp : 1 <= m ctl) by (apply (need _ _ _ He); rewrite K1; right; left; auto).
          rewrite Hm in Hp. assert (Hr0 : ~ In ctl (rest ds rs)) by (intros Hx; apply (rest_in ds rs Hds Hrs) in Hx as [? _]; auto).
          rewrite (cnt_notin _ _ Hr0) in Hp. specialize (Zn ctl ltac:(lia)). apply (ik_c _ _ Kc). unfold iown. tauto.
        * destruct (ik_f _ _ K) as (K1 & K2 & K3). assert (Hp : 1 <= m (i_en d)) by (apply (need _ _ _ He); rewrite K1; left; auto).
          apply Hinner in Hp as [-> Hp]; [|auto]. destruct (b_sound (ik_b _ _ Kc) _ _ Hr (cnt1_le _ _ Hp)) as [En HL].
          left. exists (ds ++ [c]), rs, (ws ++ [v]). split; [rewrite <- app_assoc; auto|]. split; [apply Forall2_app; auto|].
          split; [rewrite K3, app_nil_r, concat_app; cbn; rewrite app_nil_r; auto|].
          assert (Hm' : forall p, m p = cnt [i_en c] p + cnt (rest ds rs) p) by (intros p; rewrite Hm, En; auto).
          destruct (end_step ds rs c Hc m Hm') as [_ Hs]. intros p. specialize (Hs p). specialize (Hf p). lia.
        * destruct (enabled_place _ _ _ _ _ _ _ _ (ik_b _ _ K) Ht He) as (p0 & _ & Hp0 & Hc0).
          assert (Edc : d = c) by (apply (Hinner p0); auto; destruct Hc0 as [[<-|[]]|?]; auto). subst d.
          assert (He' : forall p, cnt (pre t) p <= n p).
          { intros p. destruct (Nat.eq_dec (cnt (pre t) p) 0) as [E|E]; [lia|]. specialize (He p). rewrite Hm in He.
            assert (Hpp : In p (pre t)) by (apply cnt_in; lia). destruct (b_pre (ik_b _ _ K) _ Ht) as [_ Hpre]. apply Hpre in Hpp.
            rewrite (cnt_notin (rest ds rs) p) in He; [lia|]. apply (rest_inner ds rs Hds Hrs p c Hc). destruct Hpp as [[<-|[]]|?]; auto. }
          right. exists ds, c, rs, ws, (v ++ vis t), (after t n). do 2 (split; [assumption|]). split; [rewrite app_assoc; auto|].
          split; [eapply r_snoc; eauto; apply fire_after; auto|]. intros p. specialize (Hf p). specialize (He' p). unfold after. rewrite Hm in Hf. lia. }
  assert (Gsta : forall d, In d ps -> exists r, runs RB (cnt (ctl :: map i_pi ps)) [] (fun p => cnt [i_sta d] p + r p)).
  { intros d Hd. destruct (in_split _ _ Hd) as (r1 & r2 & Ep). exists (cnt (rest [] (r1 ++ r2))).
    apply (silent_run RB (i_ti d)); [apply (iRB_in d); auto; left; auto|apply (ik_i _ _ (i_ok d Hd))|].
    apply start_step; auto. intros p. rewrite <- Ep. apply I0. }
  assert (Gin : forall d w m, In d ps -> runs (i_B d) (cnt [i_sta d]) w m -> exists m', runs RB (cnt (ctl :: map i_pi ps)) ([] ++ w) m' /\ forall p, m p <= m' p).
  { intros d w m Hd Hr. destruct (Gsta d Hd) as (r & Hr0). exists (fun p => m p + r p). split; [|intros p; lia].
    eapply runs_app; [exact Hr0|]. apply runs_frame. eapply runs_incl; eauto. intros t Ht. apply (iRB_in d); auto. do 2 right; auto. }
  constructor.
  - intros t Ht. apply in_flat_map in Ht as (d & Hd & Ht). pose proof (i_ok d Hd) as K.
    assert (Od : forall p, iown d p -> p = ctl \/ exists c, In c ps /\ iown c p) by eauto.
    destruct (ik_i _ _ K) as (K1 & _), (ik_f _ _ K) as (K2 & _). destruct Ht as [<-|[<-|Ht]]; rewrite ?K1, ?K2.
    + split; [discriminate|]. intros p [<-|[<-|[]]]; right; auto. apply Od. unfold iown; auto.
    + split; [discriminate|]. intros p [<-|[]]; right; auto. apply Od. unfold iown; auto.
    + destruct (b_pre (ik_b _ _ K) _ Ht) as [? Hp]. split; auto. intros p Hpp. right. apply Od. unfold iown. destruct (Hp p Hpp) as [[<-|[]]|?]; auto.
  - intros t Ht. apply in_flat_map in Ht as (d & Hd & Ht). pose proof (i_ok d Hd) as K.
    assert (Od : forall p, iown d p -> p = ctl \/ exists c, In c ps /\ iown c p) by eauto.
    destruct (ik_i _ _ K) as (_ & K1 & _), (ik_f _ _ K) as (_ & K2 & _). destruct Ht as [<-|[<-|Ht]]; rewrite ?K1, ?K2.
    + split; [discriminate|]. intros p [<-|[]]; right; auto. apply Od. unfold iown; auto.
    + split; [discriminate|]. intros p [<-|[<-|[]]]; right; auto. apply Od. unfold iown; auto.
    + destruct (b_post (ik_b _ _ K) _ Ht) as [? Hp]. split; auto. intros p Hpp. right. apply Od. unfold iown. destruct (Hp p Hpp) as [[<-|[]]|?]; auto 6.
  - intros m w H Hcov. destruct (HI _ _ H) as [(ds & rs & ws & HP & HF & -> & Hm)|(ds & c & rs & ws & v & n & HP & HF & -> & Hr & Hm)].
    + assert (Hds : forall c, In c ds -> In c ps) by (intros c Hc; eapply Permutation_in; [exact HP|apply in_or_app; auto]).
      assert (Hrs : forall c, In c rs -> In c ps) by (intros c Hc; eapply Permutation_in; [exact HP|apply in_or_app; auto]).
      assert (rs = []); [|subst rs; rewrite app_nil_r in HP; split; [intros p; rewrite Hm; apply F0; auto|exists ds, ws; split; [symmetry|]; auto]].
      destruct rs as [|r rs]; auto. exfalso. assert (Hr : In r ps) by (apply Hrs; left; auto).
      assert (Hp : 1 <= m (i_pf r)).
      { specialize (Hcov (i_pf r)). assert (1 <= cnt (ctl :: map i_pf ps) (i_pf r)) by (apply cnt_in; right; apply in_map; auto). lia. }
      rewrite Hm in Hp. apply cnt_in in Hp as [E|Hp]; [apply (ik_c _ _ (i_ok r Hr)); rewrite E; unfold iown; auto|].
      destruct (rest_own ds (r :: rs) Hds Hrs (i_pf r) r Hr ltac:(unfold iown; auto) Hp) as [[Hin _]|[_ E]].
      * assert (HN : NoDup (ds ++ r :: rs)) by (eapply Permutation_NoDup; [symmetry; exact HP|apply i_nodup]).
        apply NoDup_remove_2 in HN. apply HN, in_or_app; auto.
      * destruct (ik_n _ _ (i_ok r Hr)) as (?&?). congruence.
    + exfalso. assert (Hc : In c ps) by (eapply Permutation_in; [exact HP|apply in_elt]). pose proof (i_ok c Hc) as Kc.
      assert (Hds : forall c, In c ds -> In c ps) by (intros e He'; eapply Permutation_in; [exact HP|apply in_or_app; auto]).
      assert (Hrs : forall c, In c rs -> In c ps) by (intros e He'; eapply Permutation_in; [exact HP|apply in_or_app; right; right; auto]).
      specialize (Hcov ctl). rewrite (cnt_consI ctl ctl (map i_pf ps)), cnt1, Hm in Hcov.
      assert (Hr0 : ~ In ctl (rest ds rs)) by (intros Hx; apply (rest_in ds rs Hds Hrs) in Hx as [? _]; auto).
      rewrite (cnt_notin _ _ Hr0) in Hcov. apply (ik_c _ _ Kc). unfold iown.
      destruct (support _ _ _ _ _ _ _ _ ctl (ik_b _ _ Kc) Hr ltac:(lia)) as [[<-|[]]|[[<-|[]]|?]]; auto.
  - intros w (ds & ws & HP & HF & ->). eapply runs_ext_r; [eapply runs_ext_l; [apply (pieces ds [] ws); auto|]|].
    + intros c Hc. eapply Permutation_in; [symmetry; exact HP|auto].
    + intros p. rewrite I0. apply idle_perm; auto. symmetry; auto.
    + intros p. cbn [app]. apply F0. symmetry; auto.
  - intros m w p H. destruct (HI _ _ H) as [(ds & rs & ws & HP & HF & -> & Hm)|(ds & c & rs & ws & v & n & HP & HF & -> & Hr & Hm)].
    + rewrite Hm. apply nodup_cnt, rest_nodup.
      * eapply Permutation_NoDup; [symmetry; exact HP|apply i_nodup].
      * intros c Hc; eapply Permutation_in; [exact HP|apply in_or_app; auto].
      * intros c Hc; eapply Permutation_in; [exact HP|apply in_or_app; auto].
    + assert (Hc : In c ps) by (eapply Permutation_in; [exact HP|apply in_elt]). pose proof (i_ok c Hc) as Kc.
      assert (Hds : forall c, In c ds -> In c ps) by (intros e He'; eapply Permutation_in; [exact HP|apply in_or_app; auto]).
      assert (Hrs : forall c, In c rs -> In c ps) by (intros e He'; eapply Permutation_in; [exact HP|apply in_or_app; right; right; auto]).
      rewrite Hm. pose proof (b_safe (ik_b _ _ Kc) _ _ p Hr) as Hs.
      assert (HN : NoDup (idle ds rs)).
      { apply rest_nodup; auto. eapply NoDup_remove_1. eapply Permutation_NoDup; [symmetry; exact HP|apply i_nodup]. }
      pose proof (nodup_cnt _ p HN) as Hn1. unfold idle in Hn1. rewrite cnt_consI in Hn1.
      destruct (Nat.eq_dec (n p) 0) as [E|E]; [lia|].
      rewrite (cnt_notin (rest ds rs) p); [lia|]. apply (rest_inner ds rs Hds Hrs p c Hc).
      destruct (support _ _ _ _ _ _ _ _ p (ik_b _ _ Kc) Hr ltac:(lia)) as [[<-|[]]|[[<-|[]]|?]]; auto.
  - intros qq t Ht. apply in_flat_map in Ht as (d & Hd & Ht). pose proof (i_ok d Hd) as K.
    destruct (ik_i _ _ K) as (K1 & _), (ik_f _ _ K) as (K2 & _). destruct Ht as [<-|[<-|Ht]].
    + exists [], (cnt (ctl :: map i_pi ps)). split; [apply runs_refl|]. rewrite K1. intros p. destruct (in_split _ _ Hd) as (r1 & r2 & Ep).
      rewrite (cnt_consI ctl p (map i_pi ps)), (cnt_consI (i_pi d)), Ep, map_app, cnt_app. cbn [map]. rewrite (cnt_consI (i_pi d) p (map i_pi r2)). lia.
    + destruct (b_inh _ _ _ _ _ _ (ik_b _ _ K)) as (w & Hw). apply (b_complete (ik_b _ _ K)) in Hw. destruct (Gin d w _ Hd Hw) as (m' & Hr & Hm). rewrite K2. eauto.
    + destruct (b_live (ik_b _ _ K) qq _ Ht) as (w & m & Hr & He). destruct (Gin d w m Hd Hr) as (m' & Hr' & Hm).
      exists ([] ++ w), m'. split; auto. intros p. specialize (He p). specialize (Hm p). lia.
  - intros t q Ht Hq. apply in_flat_map in Ht as (d & Hd & Ht). pose proof (i_ok d Hd) as K.
    destruct (ik_i _ _ K) as (K1 & _), (ik_f _ _ K) as (K2 & _). destruct Ht as [<-|[<-|Ht]].
    + exists [], (cnt (ctl :: map i_pi ps)). split; [apply runs_refl|]. rewrite K1 in Hq. apply cnt_in. destruct Hq as [<-|[<-|[]]]; [right; apply in_map; auto|left; auto].
    + destruct (b_inh _ _ _ _ _ _ (ik_b _ _ K)) as (w & Hw). apply (b_complete (ik_b _ _ K)) in Hw. destruct (Gin d w _ Hd Hw) as (m' & Hr & Hm).
      exists ([] ++ w), m'. split; auto. rewrite K2 in Hq. destruct Hq as [<-|[]]. specialize (Hm (i_en d)). rewrite cnt1 in Hm. auto.
    + destruct (b_mark (ik_b _ _ K) _ _ Ht Hq) as (w & m & Hr & He). destruct (Gin d w m Hd Hr) as (m' & Hr' & Hm).
      exists ([] ++ w), m'. split; auto. specialize (Hm q). lia.
  - intros m w H.
    assert (Gidle : forall ds rs ws, Permutation (ds ++ rs) ps -> Forall2 (fun c w => i_L c w) ds ws ->
       exists w', runs RB (cnt (idle ds rs)) w' (cnt (ctl :: map i_pf ps)) /\ intL (concat ws ++ w')).
    { intros ds rs ws HP HF. assert (Hrs : forall c, In c rs -> In c ps) by (intros c Hc; eapply Permutation_in; [exact HP|apply in_or_app; auto]).
      destruct (i_words rs Hrs) as (us & Hus). exists (concat us). split.
      - eapply runs_ext_r; [apply (pieces rs ds us); auto|]. intros p. apply F0; auto.
      - exists (ds ++ rs), (ws ++ us). split; [symmetry; auto|]. split; [apply Forall2_app; auto|]. rewrite concat_app. auto. }
    destruct (HI _ _ H) as [(ds & rs & ws & HP & HF & -> & Hm)|(ds & c & rs & ws & v & n & HP & HF & -> & Hr & Hm)].
    + destruct (Gidle ds rs ws HP HF) as (w' & Hr & Hl). exists w'. split; auto. eapply runs_ext_l; [exact Hr|]. intros p. symmetry. auto.
    + assert (Hc : In c ps) by (eapply Permutation_in; [exact HP|apply in_elt]). pose proof (i_ok c Hc) as Kc.
      destruct (b_opt (ik_b _ _ Kc) _ _ Hr) as (v' & Hr' & Hl).
      destruct (Gidle (ds ++ [c]) rs (ws ++ [v ++ v'])) as (w' & Hr2 & Hl2); [rewrite <- app_assoc; auto|apply Forall2_app; auto|].
      exists (v' ++ w'). split.
      * eapply runs_app; [|exact Hr2]. eapply (r_silent RB _ _ (fun p => cnt [i_en c] p + cnt (rest ds rs) p) (i_tf c)).
        -- eapply runs_frame'; [eapply runs_incl; [exact Hr'|]|exact Hm|reflexivity]. intros t Ht. apply (iRB_in c); auto. do 2 right; auto.
        -- apply (iRB_in c); auto. right; left; auto.
        -- apply (ik_f _ _ Kc).
        -- apply end_step; auto.
      * rewrite concat_app in Hl2. cbn in Hl2. rewrite app_nil_r in Hl2. rewrite <- !app_assoc in *. exact Hl2.
Qed.
End Int.
