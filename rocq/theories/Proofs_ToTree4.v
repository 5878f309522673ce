(** From the net to the net after one grouping step: loop, concurrency. *)
From Coq Require Import List Arith Lia Permutation Bool.
Import ListNotations.
From Verif Require Import Model_Tree Model_ToTree Proofs_ToTree1 Proofs_ToTree2 Proofs_ToTree3.

(** ** Loop *)
Section Loop.
  Variables (lng : tr -> word -> Prop) (T' T : list tr) (i : nat) (t t1 t2 : tr) (R : tr -> Prop).
  Hypothesis HT : forall x, In x T -> R x \/ (x = t1 \/ x = t2).
  Hypothesis HR : forall x, R x -> In x T -> In x T'.
  Hypothesis tT : In t T'.
  Hypothesis Hsafe : safe T' i.
  Hypothesis Hpre : pre t = pre t1.
  Hypothesis Hpost : post t = post t1.
  Hypothesis HA : Permutation (post t2) (pre t1).
  Hypothesis HB : Permutation (pre t2) (post t1).
  Hypothesis Ane : pre t1 <> [].
  Hypothesis Bne : post t1 <> [].
  Hypothesis And : NoDup (pre t1).
  Hypothesis Bnd : NoDup (post t1).
  Hypothesis RA : forall x q, R x -> In x T -> In q (pre t1) -> ~ In q (pre x).
  Hypothesis RB : forall x q, R x -> In x T -> In q (post t1) -> ~ In q (post x).
  Hypothesis AB : forall q, In q (pre t1) -> ~ In q (post t1).
  Hypothesis Bi : ~ In i (post t1).
  Inductive LS : word -> Prop :=
  | ls_nil : LS []
  | ls_snoc u a b : LS u -> lng t1 a -> lng t2 b -> LS (u ++ a ++ b).
  Hypothesis Hl : forall u v, LS u -> lng t1 v -> lng t (u ++ v).
  Inductive Kl (m' : list nat) : list op -> list op -> list nat -> Prop :=
  | kl_idle b : In b (post t1) -> cnt m' b = 0 -> Kl m' [] [] []
  | kl_run1 u v : LS u -> Kl m' [(t1, v)] [(t, u ++ v)] []
  | kl_pendB u v : LS u -> lng t1 v -> Kl m' [] [(t, u ++ v)] (post t1)
  | kl_run2 u v v2 : LS u -> lng t1 v -> Kl m' [(t2, v2)] [(t, u ++ v ++ v2)] []
  | kl_pendA u : LS u -> Kl m' [] [(t, u)] (pre t1).
  Lemma hd_in : exists b, In b (post t1).
  Proof. destruct (post t1) as [|b l]; [congruence|]. exists b. left; auto. Qed.
  Lemma tpost : post t <> [].
  Proof. rewrite Hpost. auto. Qed.
  Lemma loop_sim c w : lreach lng T i c w -> lrel lng T' T i R Kl (fst c) (snd c) w.
  Proof.
    apply (lsim lng lng T' T i R (fun x => x = t1 \/ x = t2)); auto.
    - destruct hd_in as [b Hb]. econstructor; eauto. apply cnt_notin. intros [->|[]]. auto.
    - intros m' X X' D rest w0 x m2 Hr HK Rx Hx P.
      assert (HD : (forall p, In p (pre x) -> ~ In p D) \/ (exists u v b, LS u /\ lng t1 v /\ X = [] /\ X' = [(t, u ++ v)] /\ D = post t1 /\ In b (post t1) /\ In b (pre x))).
      { inversion HK; subst; auto.
        - destruct (existsb (fun b => if in_dec Nat.eq_dec b (pre x) then true else false) (post t1)) eqn:Ex.
          + apply existsb_exists in Ex as (b & Hb & Ib). destruct (in_dec Nat.eq_dec b (pre x)); [|discriminate]. right. exists u, v, b. repeat split; auto.
          + left. intros p Hp Hq. assert (existsb (fun b => if in_dec Nat.eq_dec b (pre x) then true else false) (post t1) = true); [|congruence].
            apply existsb_exists. exists p. split; auto. destruct (in_dec Nat.eq_dec p (pre x)); auto.
        - left. intros p Hp Hq. exact (RA x p Rx Hx Hq Hp). }
      destruct HD as [HD|(u & v & b & HL & Hv & -> & -> & -> & Hb & Hbx)].
      + destruct (take _ _ _ _ P HD) as (m2' & P1 & P2). exists m', X', D, m2'. split; auto. split; auto. split; auto.
        inversion HK; subst; econstructor; eauto. cnts b. lia.
      + exists (post t ++ m'), [], [], m2. rewrite !app_nil_r. split; [eapply finish_t; eauto|]. rewrite Hpost. split; [rewrite <- P; perm|]. split; auto.
        apply kl_idle with (b := b); auto. assert (Z : cnt m' b = 0). { eapply (open_post lng T' i t); eauto using app1_in. rewrite Hpost; auto. }
        pose proof (cnt_nodup _ _ Bnd Hb). pose proof (proj1 (cnt_in _ _) Hbx). cnts b. lia.
    - intros m' X X' D x HK Rx Hx. inversion HK; subst; try (econstructor; eauto; fail). apply kl_idle with (b := b); auto. rewrite cnt_app, H0, (cnt_notin (post x) b (RB x b Rx Hx H)). auto.
    - intros m' X X' D rest w0 x m2 Hr HK [-> | ->] _ P.
      + assert (HD : (forall p, In p (pre t1) -> ~ In p D) \/ (exists u, LS u /\ X = [] /\ X' = [(t, u)] /\ D = pre t1)).
        { inversion HK; subst; auto. right. eauto. }
        destruct HD as [HD|(u & HL & -> & -> & ->)].
        * destruct (take _ _ _ _ P HD) as (m2' & P1 & P2). rewrite <- Hpre in P1. pose proof tpost as tp.
          inversion HK; subst; try (exfalso; eapply (no_restart lng T' i t); eauto using app1_in; intros p; cnts p; lia).
          exists m2', [(t, [] ++ [])], []. split; [|split; auto].
          -- rewrite app_nil_r in Hr. eapply lreach_eq; [eapply start_t; eauto|]. split; cbn; auto. apply Permutation_cons_append.
          -- apply kl_run1. constructor.
        * exists m', [(t, u ++ [])], []. rewrite !app_nil_r. split; auto. split; [|perm].
          pose proof (kl_run1 m' u [] HL) as Y. rewrite app_nil_r in Y. exact Y.
      + rewrite HB in P. destruct hd_in as [b0 Hb0].
        assert (HD : exists u v, LS u /\ lng t1 v /\ X = [] /\ X' = [(t, u ++ v)] /\ D = post t1).
        { pose proof (proj1 (cnt_in _ _) Hb0) as Z1.
          assert (HO : forall v, In (t, v) (rest ++ X') -> cnt D b0 = 0 -> False).
          { intros v Hv ZD. assert (Z : cnt m' b0 = 0). { eapply (open_post lng T' i t); eauto. rewrite Hpost; auto. } cnts b0. lia. }
          inversion HK; subst.
          - exfalso. pose proof (proj1 (cnt_in _ _) H). rewrite app_nil_r in P. cnts b. lia.
          - exfalso. eapply HO; eauto using app1_in.
          - exists u, v. auto.
          - exfalso. eapply HO; eauto using app1_in.
          - exfalso. eapply HO; eauto using app1_in. apply cnt_notin. intros Hq. exact (AB _ Hq Hb0). }
        destruct HD as (u & v & HL & Hv & -> & -> & ->).
        exists m', [(t, u ++ v)], []. rewrite app_nil_r. split; auto. split; [|perm].
        pose proof (kl_run2 m' u v [] HL Hv) as Y. rewrite app_nil_r in Y. exact Y.
    - intros m' X X' D rest w0 x v X2 a Hr HK P.
      inversion HK; subst; try (apply Permutation_nil in P; discriminate); apply Permutation_length_1_inv in P; injection P as -> -> ->.
      + exists [(t, (u ++ v0) ++ [a])]. split; [apply emit_t; auto|]. rewrite <- app_assoc. constructor; auto.
      + exists [(t, (u ++ v0 ++ v2) ++ [a])]. split; [apply emit_t; auto|]. rewrite <- !app_assoc. constructor; auto.
    - intros m' X X' D rest w0 x v X2 Hr HK P L.
      inversion HK; subst; try (apply Permutation_nil in P; discriminate); apply Permutation_length_1_inv in P; injection P as -> -> ->.
      + exists m', [(t, u ++ v0)], (post t1). split; auto. split; [constructor; auto|]. perm.
      + exists m', [(t, u ++ v0 ++ v2)], (pre t1). split; auto. split; [|perm]. constructor. constructor; auto.
  Qed.
  Lemma loop_lacc o w : ~ In o (pre t1) -> ~ In o (pre t2) -> lacc lng T i o w -> lacc lng T' i o w.
  Proof.
    intros Ho Ho2 H. destruct (loop_sim _ _ H) as (m' & D & rest & X & X' & Hr & HK & Em & Eo & _). cbn in *.
    apply Permutation_nil in Eo. apply app_eq_nil in Eo as [-> ->].
    assert (HO : forall q, In q D -> q = o). { intros q Hq. assert (In q [o]) as [-> |[]] by (rewrite Em, in_app_iff; auto). auto. }
    inversion HK; subst.
    - rewrite app_nil_r in Em. cbn in Hr. eapply lreach_eq; [exact Hr|]. split; cbn; auto. symmetry; auto.
    - exfalso. destruct hd_in as [q Hq]. rewrite <- (HO q Hq), HB in Ho2. auto.
    - exfalso. destruct (pre t1) as [|q l] eqn:EQ; [congruence|]. rewrite <- (HO q (or_introl eq_refl)) in Ho. apply Ho. left; auto.
  Qed.
End Loop.
Lemma loop_safe (T' T : list tr) i t t1 t2 (R : tr -> Prop) :
  (forall x, In x T -> R x \/ (x = t1 \/ x = t2)) -> (forall x, R x -> In x T -> In x T') -> In t T' -> safe T' i ->
  pre t = pre t1 -> post t = post t1 -> Permutation (post t2) (pre t1) -> Permutation (pre t2) (post t1) -> pre t1 <> [] -> post t1 <> [] ->
  NoDup (pre t1) -> NoDup (post t1) ->
  (forall x q, R x -> In x T -> In q (pre t1) -> ~ In q (pre x)) -> (forall x q, R x -> In x T -> In q (post t1) -> ~ In q (post x)) ->
  (forall q, In q (pre t1) -> ~ In q (post t1)) -> ~ In i (post t1) -> safe T i.
Proof.
  intros HT HR tT Hs H1 H2 HA HB An Bn Ad Bd RA RB AB Bi m Hm p. apply areach_lreach in Hm.
  assert (S0 := loop_sim (fun _ _ => True) T' T i t t1 t2 R).
  edestruct S0 as (m' & D & rest & X & X' & Hr & HK & Em & _); eauto. clear S0. cbn in *.
  pose proof (proj1 (safe_marks _ _ _ _ _ Hs Hr p)) as S. cbn [fst snd] in S. pose proof (cnt_le1 _ p Bd). pose proof (cnt_le1 _ p Ad).
  destruct (in_dec Nat.eq_dec p D) as [Hp|Hp]; [|rewrite (proj1 (perm_cnt _ _) Em p), cnt_app, (cnt_notin D p Hp); lia].
  inversion HK; subst; try easy.
  - assert (Z : cnt m' p = 0) by (eapply (open_post _ T' i t); eauto using app1_in; rewrite H2; auto). cnts p. lia.
  - assert (Z : cnt m' p = 0) by (eapply (open_pre _ T' i t); eauto using app1_in; rewrite H1; auto). cnts p. lia.
Qed.

(** ** Concurrency *)
Inductive sh2 : word -> word -> word -> Prop :=
| sh2_nil : sh2 [] [] []
| sh2_l a v1 v2 v : sh2 v1 v2 v -> sh2 (v1 ++ [a]) v2 (v ++ [a])
| sh2_r a v1 v2 v : sh2 v1 v2 v -> sh2 v1 (v2 ++ [a]) (v ++ [a]).
Lemma sh2_sym v1 v2 v : sh2 v1 v2 v -> sh2 v2 v1 v.
Proof. induction 1; constructor; auto. Qed.
Section Side.
  Variable lng : tr -> word -> Prop.
  Inductive side (x : tr) : list op -> list nat -> word -> bool -> Prop :=
  | s_not : side x [] (pre x) [] false
  | s_open v : side x [(x, v)] [] v false
  | s_done v : lng x v -> side x [] (post x) v true.
  Variables (t t1 t2 : tr).
  Inductive Kp (m' : list nat) : list op -> list op -> list nat -> Prop :=
  | kp_idle : (forall p q, In p (pre t) -> In q (pre t) -> cnt m' p = cnt m' q) -> Kp m' [] [] []
  | kp_act X X1 X2 D D1 D2 v1 v2 v d1 d2 : (forall p q, In p (pre t) -> In q (pre t) -> cnt m' p = cnt m' q) ->
      side t1 X1 D1 v1 d1 -> side t2 X2 D2 v2 d2 -> d1 && d2 = false -> sh2 v1 v2 v ->
      Permutation X (X1 ++ X2) -> Permutation D (D1 ++ D2) -> Kp m' X [(t, v)] D.
End Side.
Lemma Kp_sym lng t t1 t2 m' X X' D : Kp lng t t1 t2 m' X X' D -> Kp lng t t2 t1 m' X X' D.
Proof.
  intros H. inversion H; subst; [constructor; auto|]. eapply kp_act with (X1 := X2) (X2 := X1) (D1 := D2) (D2 := D1); eauto.
  - rewrite andb_comm. auto.
  - apply sh2_sym; auto.
  - rewrite H5. apply Permutation_app_comm.
  - rewrite H6. apply Permutation_app_comm.
Qed.
Lemma ne_in (l : list nat) : l <> [] -> exists p, In p l.
Proof. destruct l as [|p r]; [congruence|]. exists p. left; auto. Qed.
Section Conc.
  Variables (lng : tr -> word -> Prop) (T' T : list tr) (i : nat) (t : tr) (R : tr -> Prop).
  Hypothesis HR : forall x, R x -> In x T -> In x T'.
  Hypothesis tT : In t T'.
  Hypothesis Hsafe : safe T' i.
  Hypothesis And : NoDup (pre t).
  Hypothesis Bnd : NoDup (post t).
  Hypothesis Rnd : forall x, R x -> In x T -> NoDup (post x).
  Hypothesis AB : forall p, In p (pre t) -> ~ In p (post t).
  Hypothesis RA : forall x p, R x -> In x T -> In p (pre t) -> ~ In p (pre x).
  Hypothesis RS : forall x p q, R x -> In x T -> In p (pre t) -> In q (pre t) -> In p (post x) -> In q (post x).
  Hypothesis RP : forall x p q, R x -> In x T -> In p (post t) -> In q (post t) -> In p (pre x) -> In q (pre x).
  Hypothesis Ai : ~ In i (pre t).
  Section One.
    Variables (t1 t2 : tr).
    Hypothesis Hpre : Permutation (pre t) (pre t1 ++ pre t2).
    Hypothesis Hpost : Permutation (post t) (post t1 ++ post t2).
    Hypothesis n1 : pre t1 <> [].
    Hypothesis n2 : post t1 <> [].
    Hypothesis n3 : post t2 <> [].
    Hypothesis Hl : forall v1 v2 v, lng t1 v1 -> lng t2 v2 -> sh2 v1 v2 v -> lng t v.
    Notation K := (Kp lng t t1 t2).
    Lemma pre1 p : In p (pre t1) -> In p (pre t). Proof. intros. rewrite Hpre, in_app_iff. auto. Qed.
    Lemma pre2 p : In p (pre t2) -> In p (pre t). Proof. intros. rewrite Hpre, in_app_iff. auto. Qed.
    Lemma post1 p : In p (post t1) -> In p (post t). Proof. intros. rewrite Hpost, in_app_iff. auto. Qed.
    Lemma post2 p : In p (post t2) -> In p (post t). Proof. intros. rewrite Hpost, in_app_iff. auto. Qed.
    Lemma pre12 p : In p (pre t1) -> ~ In p (pre t2).
    Proof. intros A B. apply cnt_in in A, B. pose proof (cnt_le1 _ p And). cnts p. lia. Qed.
    Lemma post12 p : In p (post t1) -> ~ In p (post t2).
    Proof. intros A B. apply cnt_in in A, B. pose proof (cnt_le1 _ p Bnd). cnts p. lia. Qed.
    Lemma c_tpost : post t <> [].
    Proof. intros E. destruct (ne_in _ n2) as [q Hq]. apply post1 in Hq. rewrite E in Hq. easy. Qed.
    Lemma all_pre m' (p0 : nat) : (forall p q, In p (pre t) -> In q (pre t) -> cnt m' p = cnt m' q) -> In p0 (pre t) -> 1 <= cnt m' p0 -> forall p, cnt (pre t) p <= cnt m' p.
    Proof.
      intros S H0 H1 p. destruct (in_dec Nat.eq_dec p (pre t)) as [Hp|Hp]; [|rewrite cnt_notin; auto; lia].
      rewrite (cnt_nodup _ _ And Hp), (S p p0); auto.
    Qed.
    Lemma sync_consume m' m2' l : (forall p q, In p (pre t) -> In q (pre t) -> cnt m' p = cnt m' q) -> Permutation m' (l ++ m2') ->
      (forall p q, In p (pre t) -> In q (pre t) -> cnt l p = cnt l q) -> forall p q, In p (pre t) -> In q (pre t) -> cnt m2' p = cnt m2' q.
    Proof. intros S P L p q Hp Hq. specialize (S p q Hp Hq). specialize (L p q Hp Hq). pose proof (proj1 (perm_cnt _ _) P p). pose proof (proj1 (perm_cnt _ _) P q). rewrite cnt_app in *. lia. Qed.
    (** a side that is not finished has no token of its transition's output places *)
    Lemma side_post2 X2 D2 v2 p : side lng t2 X2 D2 v2 false -> In p (post t) -> ~ In p D2.
    Proof. intros H Hp Hd. inversion H; subst; try easy. exact (AB p (pre2 _ Hd) Hp). Qed.
    Lemma start1 m' X X' D rest w m2 : lreach lng T' i (m', rest ++ X') w -> K m' X X' D -> Permutation (m' ++ D) (pre t1 ++ m2) ->
      exists m2' X2' D2, lreach lng T' i (m2', rest ++ X2') w /\ K m2' ((t1, []) :: X) X2' D2 /\ Permutation m2 (m2' ++ D2).
    Proof.
      intros Hr HK P. pose proof c_tpost as tp.
      destruct (ne_in _ n1) as [p0 Hp0]. pose proof (proj1 (cnt_in _ _) Hp0) as Z0.
      inversion HK; subst.
      - rewrite app_nil_r in P. assert (A : forall p, cnt (pre t) p <= cnt m' p). { apply (all_pre m' p0); auto; [apply pre1; auto|]. cnts p0. lia. }
        destruct (sub_split _ _ A) as (k & Hk). exists k, [(t, [])], (pre t2). split; [|split].
        + rewrite app_nil_r in Hr. eapply lreach_eq; [eapply start_t; eauto|]. split; cbn; auto. apply Permutation_cons_append.
        + eapply kp_act with (X1 := [(t1, [])]) (X2 := []) (D1 := []) (D2 := pre t2) (d1 := false) (d2 := false); auto; try (constructor; auto; fail).
          apply (sync_consume m' k (pre t)); auto. intros p q Hp Hq. rewrite !cnt_nodup; auto.
        + perm.
      - assert (Dn : ~ In p0 D2). { intros Hd. inversion H1; subst; try easy; [exact (pre12 _ Hp0 Hd)|exact (AB p0 (pre1 _ Hp0) (post2 _ Hd))]. }
        assert (RST : ~ In p0 D1 -> False).
        { intros Hd. apply cnt_notin in Dn, Hd. eapply (no_restart lng T' i t); eauto using app1_in. apply (all_pre m' p0); auto; [apply pre1; auto|]. cnts p0. lia. }
        inversion H0; subst; try (exfalso; apply RST; auto; fail).
        + exists m', [(t, v)], D2. split; auto. split; [|perm].
          eapply kp_act with (X1 := [(t1, [])]) (X2 := X2) (D1 := []) (D2 := D2) (d1 := false) (d2 := d2) (v1 := []) (v2 := v2); auto; [constructor|]. cbn [app] in *. rewrite H4. reflexivity.
        + exfalso. apply RST. intros Hd. exact (AB p0 (pre1 _ Hp0) (post1 _ Hd)).
    Qed.
    Lemma side1_op X1 D1 v1 d1 X2 D2 v2 d2 (v : word) Y : side lng t1 X1 D1 v1 d1 -> side lng t2 X2 D2 v2 d2 -> t1 <> t2 -> Permutation (X1 ++ X2) ((t1, v) :: Y) ->
      v1 = v /\ D1 = [] /\ d1 = false /\ Permutation X2 Y.
    Proof.
      intros A B n P. inversion A; subst.
      - exfalso. inversion B; subst; cbn in P; try (apply Permutation_nil in P; discriminate). apply Permutation_length_1_inv in P. congruence.
      - cbn [app] in P. assert (E : In (t1, v1) ((t1, v) :: Y)) by (rewrite <- P; left; auto).
        assert (E2 : In (t1, v) ((t1, v1) :: X2)) by (rewrite P; left; auto).
        assert (v1 = v). { destruct E2 as [E2|E2]; [congruence|]. exfalso. inversion B; subst; cbn in E2; try easy. destruct E2 as [E2|[]]. congruence. }
        subst. repeat split; auto. apply Permutation_cons_inv in P. auto.
      - exfalso. inversion B; subst; cbn in P; try (apply Permutation_nil in P; discriminate). apply Permutation_length_1_inv in P. congruence.
    Qed.
    Hypothesis t12 : t1 <> t2.
    Lemma emit1 m' X X' D rest w v X2 a : lreach lng T' i (m', rest ++ X') w -> K m' X X' D -> Permutation X ((t1, v) :: X2) ->
      exists X2', lreach lng T' i (m', rest ++ X2') (w ++ [a]) /\ K m' ((t1, v ++ [a]) :: X2) X2' D.
    Proof.
      intros Hr HK P. inversion HK; subst; [apply Permutation_nil in P; discriminate|]. rewrite H4 in P.
      destruct (side1_op _ _ _ _ _ _ _ _ _ _ H0 H1 t12 P) as (-> & -> & -> & E).
      exists [(t, v0 ++ [a])]. split; [apply emit_t; auto|].
      eapply kp_act with (X1 := [(t1, v ++ [a])]) (X2 := X2) (D1 := []) (D2 := D2) (d1 := false) (d2 := d2); [exact H|apply s_open| |auto|apply sh2_l; exact H3|reflexivity|exact H5].
      clear - H1 E. inversion H1; subst; try (apply Permutation_nil in E; subst; constructor; auto). apply Permutation_length_1_inv in E. subst. constructor.
    Qed.
    Lemma finish1 m' X X' D rest w v X2 : lreach lng T' i (m', rest ++ X') w -> K m' X X' D -> Permutation X ((t1, v) :: X2) -> lng t1 v ->
      exists m2' X2' D2, lreach lng T' i (m2', rest ++ X2') w /\ K m2' X2 X2' D2 /\ Permutation (post t1 ++ m' ++ D) (m2' ++ D2).
    Proof.
      intros Hr HK P L. inversion HK; subst; [apply Permutation_nil in P; discriminate|]. rewrite H4 in P.
      destruct (side1_op _ _ _ _ _ _ _ _ _ _ H0 H1 t12 P) as (-> & -> & -> & E). cbn [app] in H5.
      destruct d2.
      - inversion H1; subst. apply Permutation_nil in E. subst X2. exists (post t ++ m'), [], []. rewrite !app_nil_r. split; [eapply finish_t; eauto|]. split.
        + constructor. intros p q Hp Hq. rewrite !cnt_app, (H p q Hp Hq), (cnt_notin (post t) p (AB p Hp)), (cnt_notin (post t) q (AB q Hq)). auto.
        + perm.
      - exists m', [(t, v0)], (post t1 ++ D). split; auto. split; [|perm].
        eapply kp_act with (X1 := []) (X2 := X2) (D1 := post t1) (D2 := D2) (d1 := true) (d2 := false); [exact H|apply s_done; exact L| |auto|exact H3|reflexivity|rewrite H5; reflexivity].
        clear - H1 E. inversion H1; subst; try (apply Permutation_nil in E; subst; constructor; auto). apply Permutation_length_1_inv in E. subst. constructor.
    Qed.
  End One.
  Variables (t1 t2 : tr).
  Hypothesis HT : forall x, In x T -> R x \/ (x = t1 \/ x = t2).
  Hypothesis t12 : t1 <> t2.
  Hypothesis Hpre : Permutation (pre t) (pre t1 ++ pre t2).
  Hypothesis Hpost : Permutation (post t) (post t1 ++ post t2).
  Hypothesis n1 : pre t1 <> [].
  Hypothesis n2 : post t1 <> [].
  Hypothesis n3 : pre t2 <> [].
  Hypothesis n4 : post t2 <> [].
  Hypothesis Hl : forall v1 v2 v, lng t1 v1 -> lng t2 v2 -> sh2 v1 v2 v -> lng t v.
  Notation K := (Kp lng t t1 t2).
  Lemma Hpre' : Permutation (pre t) (pre t2 ++ pre t1). Proof. rewrite Hpre. apply Permutation_app_comm. Qed.
  Lemma Hpost' : Permutation (post t) (post t2 ++ post t1). Proof. rewrite Hpost. apply Permutation_app_comm. Qed.
  (** an outside transition cannot take tokens of the block before both sides are done *)
  Lemma outside m' X X' D rest w x m2 : lreach lng T' i (m', rest ++ X') w -> K m' X X' D -> R x -> In x T -> Permutation (m' ++ D) (pre x ++ m2) ->
    forall p, In p (pre x) -> ~ In p D.
  Proof.
    intros Hr HK Rx Hx P p Hp Hd. inversion HK; subst; [easy|].
    assert (U : forall q, In q (post t) -> ~ In q D -> In p (post t) -> False).
    { intros q Hq Hn Hpp. assert (Hqx : In q (pre x)) by (apply (RP x p q); auto). apply cnt_in in Hqx. apply cnt_notin in Hn.
      assert (Z : cnt m' q = 0) by (eapply (open_post lng T' i t); eauto using app1_in). cnts q. lia. }
    rewrite H5 in Hd. apply in_app_iff in Hd as [Hd|Hd].
    - inversion H0; subst; try easy; [exact (RA x p Rx Hx (pre1 _ _ Hpre _ Hd) Hp)|]. destruct d2; [discriminate|].
      destruct (ne_in _ n4) as [q Hq]. apply (U q); [eapply post2; eauto| |eapply post1; eauto]. rewrite H5, in_app_iff. intros [A|A].
      + eapply (post12 t1 t2); eauto.
      + eapply (side_post2 t1 t2); eauto. eapply post2; eauto.
    - inversion H1; subst; try easy; [exact (RA x p Rx Hx (pre2 _ _ Hpre _ Hd) Hp)|]. destruct d1; [discriminate|].
      destruct (ne_in _ n2) as [q Hq]. apply (U q); [eapply post1; eauto| |eapply post2; eauto]. rewrite H5, in_app_iff. intros [A|A].
      + eapply (side_post2 t2 t1); eauto using Hpre'. eapply post1; eauto.
      + eapply (post12 t1 t2); eauto.
  Qed.
  Lemma conc_sim c w : lreach lng T i c w -> lrel lng T' T i R K (fst c) (snd c) w.
  Proof.
    assert (Hl' : forall v1 v2 v, lng t2 v1 -> lng t1 v2 -> sh2 v1 v2 v -> lng t v) by (intros v1 v2 v A B C; apply (Hl v2 v1 v); auto; apply sh2_sym; auto).
    apply (lsim lng lng T' T i R (fun x => x = t1 \/ x = t2)); auto.
    - constructor. intros p q Hp Hq. rewrite !cnt_notin; auto; intros [->|[]]; auto.
    - intros m' X X' D rest w0 x m2 Hr HK Rx Hx P. destruct (take _ _ _ _ P (outside _ _ _ _ _ _ _ _ Hr HK Rx Hx P)) as (m2' & P1 & P2).
      exists m', X', D, m2'. split; auto. split; auto. split; auto.
      assert (C : forall p q, In p (pre t) -> In q (pre t) -> cnt (pre x) p = cnt (pre x) q) by (intros p q Hp Hq; rewrite !cnt_notin; auto; intros Z; eapply RA; eauto).
      inversion HK; subst; econstructor; eauto; eapply sync_consume; eauto.
    - intros m' X X' D x HK Rx Hx.
      assert (C : forall p q, In p (pre t) -> In q (pre t) -> cnt (post x) p = cnt (post x) q).
      { intros p q Hp Hq. destruct (in_dec Nat.eq_dec p (post x)) as [A|A].
        - rewrite !cnt_nodup; auto; try (apply Rnd; auto). apply (RS x p q); auto.
        - rewrite !cnt_notin; auto. intros B. apply A. apply (RS x q p); auto. }
      inversion HK; subst; econstructor; eauto; intros p q Hp Hq; rewrite !cnt_app, (C p q), (H p q); auto.
    - intros m' X X' D rest w0 x m2 Hr HK [-> | ->] _ P; [eapply start1; eauto|].
      apply Kp_sym in HK. destruct (start1 t2 t1 Hpre' Hpost' n3 n4 m' X X' D rest w0 m2 Hr HK P) as (m2' & X2' & D2 & A & B & C).
      exists m2', X2', D2. split; auto. split; auto. apply Kp_sym; auto.
    - intros m' X X' D rest w0 x v X2 a Hr HK P.
      assert (Hx : x = t1 \/ x = t2). { assert (Hin : In (x, v) X) by (rewrite P; left; auto). inversion HK; subst; [easy|]. rewrite H4 in Hin. apply in_app_iff in Hin as [Hin|Hin]; [inversion H0|inversion H1]; subst; cbn in Hin; intuition congruence. }
      destruct Hx as [-> | ->]; [eapply emit1; eauto|].
      apply Kp_sym in HK. destruct (emit1 t2 t1 (not_eq_sym t12) m' X X' D rest w0 v X2 a Hr HK P) as (X2' & A & B). exists X2'. split; auto. apply Kp_sym; auto.
    - intros m' X X' D rest w0 x v X2 Hr HK P L.
      assert (Hx : x = t1 \/ x = t2). { assert (Hin : In (x, v) X) by (rewrite P; left; auto). inversion HK; subst; [easy|]. rewrite H4 in Hin. apply in_app_iff in Hin as [Hin|Hin]; [inversion H0|inversion H1]; subst; cbn in Hin; intuition congruence. }
      destruct Hx as [-> | ->]; [eapply finish1; eauto|].
      apply Kp_sym in HK. destruct (finish1 t2 t1 Hpre' Hpost' Hl' (not_eq_sym t12) m' X X' D rest w0 v X2 Hr HK P L) as (m2' & X2' & D2 & A & B & C).
      exists m2', X2', D2. split; auto. split; auto. apply Kp_sym; auto.
  Qed.
  Lemma conc_lacc o w : ~ In o (pre t) -> lacc lng T i o w -> lacc lng T' i o w.
  Proof.
    intros Ho H. destruct (conc_sim _ _ H) as (m' & D & rest & X & X' & Hr & HK & Em & Eo & _). cbn in *.
    apply Permutation_nil in Eo. apply app_eq_nil in Eo as [-> ->]. inversion HK; subst.
    - rewrite app_nil_r in Em. cbn in Hr. eapply lreach_eq; [exact Hr|]. split; cbn; auto. symmetry; auto.
    - exfalso. apply Permutation_nil, app_eq_nil in H5 as [-> ->].
      assert (HO : forall q, In q D -> q = o). { intros q Hq. assert (In q [o]) as [-> |[]] by (rewrite Em, in_app_iff; auto). auto. }
      assert (N : forall q, In q D -> ~ In q (pre t)) by (intros q Hq; rewrite (HO q Hq); auto).
      inversion H1; subst.
      + destruct (ne_in _ n1) as [q Hq]. apply (N q); [rewrite H6, in_app_iff; auto|eapply pre1; eauto].
      + inversion H2; subst; [|discriminate]. destruct (ne_in _ n3) as [q Hq]. apply (N q); [rewrite H6, in_app_iff; auto|eapply pre2; eauto].
  Qed.
End Conc.
Lemma conc_safe (T' T : list tr) i t t1 t2 (R : tr -> Prop) :
  (forall x, R x -> In x T -> In x T') -> In t T' -> safe T' i -> NoDup (pre t) -> NoDup (post t) -> (forall x, R x -> In x T -> NoDup (post x)) ->
  (forall p, In p (pre t) -> ~ In p (post t)) -> (forall x p, R x -> In x T -> In p (pre t) -> ~ In p (pre x)) ->
  (forall x p q, R x -> In x T -> In p (pre t) -> In q (pre t) -> In p (post x) -> In q (post x)) ->
  (forall x p q, R x -> In x T -> In p (post t) -> In q (post t) -> In p (pre x) -> In q (pre x)) -> ~ In i (pre t) ->
  (forall x, In x T -> R x \/ (x = t1 \/ x = t2)) -> t1 <> t2 -> Permutation (pre t) (pre t1 ++ pre t2) -> Permutation (post t) (post t1 ++ post t2) ->
  pre t1 <> [] -> post t1 <> [] -> pre t2 <> [] -> post t2 <> [] -> safe T i.
Proof.
  intros HR tT Hs Ad Bd Rd AB RA RS RP Ai HT t12 H1 H2 n1 n2 n3 n4 m Hm p. apply areach_lreach in Hm.
  assert (S0 := conc_sim (fun _ _ => True) T' T i t R).
  edestruct S0 as (m' & D & rest & X & X' & Hr & HK & Em & _); eauto. clear S0. cbn in *.
  pose proof (safe_marks _ _ _ _ _ Hs Hr p) as [S S']. cbn [fst snd] in S, S'. pose proof (cnt_le1 _ p Bd). pose proof (cnt_le1 _ p Ad).
  destruct (in_dec Nat.eq_dec p D) as [Hp|Hp]; [|rewrite (proj1 (perm_cnt _ _) Em p), cnt_app, (cnt_notin D p Hp); lia].
  inversion HK; subst; [easy|].
  assert (Z1 : In p (pre t) -> cnt m' p = 0 /\ cnt (post t) p = 0) by (intros Q; split; [eapply (open_pre _ T' i t); eauto using app1_in|apply cnt_notin; auto]).
  assert (Z2 : In p (post t) -> cnt m' p = 0 /\ cnt (pre t) p = 0) by (intros Q; split; [eapply (open_post _ T' i t); eauto using app1_in|apply cnt_notin; intros Q2; eapply AB; eauto]).
  assert (Hin : In p (pre t) \/ In p (post t)).
  { rewrite H9 in Hp. rewrite H1, H2, !in_app_iff. apply in_app_iff in Hp as [Hp|Hp]; [inversion H4|inversion H5]; subst; try easy; auto. }
  destruct Hin as [Hin|Hin]; [destruct (Z1 Hin) as [Y1 Y2]|destruct (Z2 Hin) as [Y1 Y2]]; inversion H4; subst; inversion H5; subst; try discriminate; cnts p; cbn in *; lia.
Qed.
