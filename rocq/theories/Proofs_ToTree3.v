(** From the net to the net after one grouping step: choice, sequence. *)
From Coq Require Import List Arith Lia Permutation Bool.
Import ListNotations.
From Verif Require Import Model_Tree Model_ToTree Proofs_ToTree1 Proofs_ToTree2.

Ltac cnts p := repeat match goal with
  | H : Permutation ?a ?b |- _ => match type of a with list nat => let K := fresh "C" in pose proof (proj1 (perm_cnt a b) H p) as K; rewrite ?cnt_app in K; clear H end
  end.
Ltac perm := rewrite ?app_nil_r; apply perm_cnt; let p := fresh "p" in intros p; rewrite ?cnt_app; cnts p; try lia.

Lemma take (m' D l m2 : list nat) : Permutation (m' ++ D) (l ++ m2) -> (forall p, In p l -> ~ In p D) -> exists m2', Permutation m' (l ++ m2') /\ Permutation m2 (m2' ++ D).
Proof.
  intros P H. destruct (sub_split l m') as (r & Hr).
  - intros p. destruct (in_dec Nat.eq_dec p l) as [Hp|Hp]; [|rewrite (cnt_notin l); auto; lia].
    pose proof (cnt_notin D p (H p Hp)). cnts p. lia.
  - exists r. split; auto. perm.
Qed.

Section Open.
  Variables (lng : tr -> word -> Prop) (T' : list tr) (i : nat) (t : tr).
  Hypothesis tT : In t T'.
  Hypothesis Hsafe : safe T' i.
  Hypothesis tpost : post t <> [].
  Lemma pres_in o ops p : In o ops -> In p (pre (fst o)) -> 1 <= cnt (pres ops) p.
  Proof. intros A B. apply in_split in A as (a & b & ->). unfold pres. rewrite flat_map_app, cnt_app. cbn. rewrite cnt_app. apply cnt_in in B. lia. Qed.
  Lemma posts_in o ops p : In o ops -> In p (post (fst o)) -> 1 <= cnt (posts ops) p.
  Proof. intros A B. apply in_split in A as (a & b & ->). unfold posts. rewrite flat_map_app, cnt_app. cbn. rewrite cnt_app. apply cnt_in in B. lia. Qed.
  Lemma open_pre m ops w v p : lreach lng T' i (m, ops) w -> In (t, v) ops -> In p (pre t) -> cnt m p = 0.
  Proof. intros A B C. pose proof (proj1 (safe_marks _ _ _ _ _ Hsafe A p)). pose proof (pres_in _ _ p B C). cbn [fst snd] in *. lia. Qed.
  Lemma open_post m ops w v p : lreach lng T' i (m, ops) w -> In (t, v) ops -> In p (post t) -> cnt m p = 0.
  Proof. intros A B C. pose proof (proj2 (safe_marks _ _ _ _ _ Hsafe A p)). pose proof (posts_in _ _ p B C). cbn [fst snd] in *. lia. Qed.
  Lemma no_restart m ops w v : lreach lng T' i (m, ops) w -> In (t, v) ops -> (forall p, cnt (pre t) p <= cnt m p) -> False.
  Proof.
    intros A B C. destruct (sub_split _ _ C) as (r & Hr).
    assert (A2 : lreach lng T' i (r, (t, []) :: ops) (w ++ [])). { eapply lr_step; [exact A|]. eapply l_start; eauto. }
    destruct (post t) as [|p l] eqn:E; [congruence|].
    pose proof (proj2 (safe_marks _ _ _ _ _ Hsafe A2 p)) as S. cbn [fst snd] in S. change (posts ((t, []) :: ops)) with (post t ++ posts ops) in S. rewrite cnt_app in S.
    pose proof (posts_in _ _ p B) as Q. cbn [fst] in Q. rewrite E in Q. specialize (Q (or_introl eq_refl)).
    assert (1 <= cnt (post t) p) by (apply cnt_in; rewrite E; left; auto). lia.
  Qed.
  Lemma start_t m ops w m2 : lreach lng T' i (m, ops) w -> Permutation m (pre t ++ m2) -> lreach lng T' i (m2, (t, []) :: ops) w.
  Proof. intros A B. rewrite <- (app_nil_r w). eapply lr_step; [exact A|]. eapply l_start; eauto. Qed.
  Lemma emit_t m rest v w a : lreach lng T' i (m, rest ++ [(t, v)]) w -> lreach lng T' i (m, rest ++ [(t, v ++ [a])]) (w ++ [a]).
  Proof. intros A. eapply lr_step; [exact A|]. eapply l_emit with (x := t) (v := v) (r := rest); auto; symmetry; apply Permutation_cons_append. Qed.
  Lemma finish_t m rest v w : lreach lng T' i (m, rest ++ [(t, v)]) w -> lng t v -> lreach lng T' i (post t ++ m, rest) w.
  Proof. intros A L. rewrite <- (app_nil_r w). eapply lr_step; [exact A|]. eapply l_finish with (x := t) (v := v) (r := rest); auto; symmetry; apply Permutation_cons_append. Qed.
End Open.
Lemma app1_in {A} (rest : list A) o : In o (rest ++ [o]).
Proof. apply in_app_iff. right; left; auto. Qed.

(** ** Choice *)
Section Choice.
  Variables (lng : tr -> word -> Prop) (T' T : list tr) (i : nat) (t t1 t2 : tr) (R : tr -> Prop).
  Hypothesis HT : forall x, In x T -> R x \/ (x = t1 \/ x = t2).
  Hypothesis HR : forall x, R x -> In x T -> In x T'.
  Hypothesis tT : In t T'.
  Hypothesis Hsafe : safe T' i.
  Hypothesis tpost : post t <> [].
  Hypothesis Hpre : forall x, x = t1 \/ x = t2 -> Permutation (pre x) (pre t).
  Hypothesis Hpost : forall x, x = t1 \/ x = t2 -> Permutation (post x) (post t).
  Hypothesis Hl : forall x v, x = t1 \/ x = t2 -> lng x v -> lng t v.
  Inductive Kc : list nat -> list op -> list op -> list nat -> Prop :=
  | kc_idle m : Kc m [] [] []
  | kc_run m x v : x = t1 \/ x = t2 -> Kc m [(x, v)] [(t, v)] [].
  Lemma choice_sim c w : lreach lng T i c w -> lrel lng T' T i R Kc (fst c) (snd c) w.
  Proof.
    apply (lsim lng lng T' T i R (fun x => x = t1 \/ x = t2)); auto.
    - constructor.
    - intros m' X X' D rest w0 x m2 Hr HK Rx Hx P.
      assert (D = []) by (inversion HK; auto). subst D. rewrite app_nil_r in P.
      exists m', X', [], m2. rewrite app_nil_r. split; auto. split; auto. split; auto. inversion HK; subst; constructor; auto.
    - intros m' X X' D x HK _ _. inversion HK; subst; constructor; auto.
    - intros m' X X' D rest w0 x m2 Hr HK Hx _ P. inversion HK; subst; rewrite app_nil_r in P; rewrite (Hpre x Hx) in P.
      + exists m2, [(t, [])], []. rewrite app_nil_r. split; [|split; auto; constructor; auto]. rewrite app_nil_r in Hr.
        eapply lreach_eq; [eapply start_t; eauto|]. split; cbn; auto. apply Permutation_cons_append.
      + exfalso. eapply (no_restart lng T' i t); eauto using app1_in. intros p. cnts p. lia.
    - intros m' X X' D rest w0 x v X2 a Hr HK P. inversion HK; subst; [apply Permutation_nil in P; discriminate|].
      apply Permutation_length_1_inv in P. injection P as -> -> ->. exists [(t, v0 ++ [a])]. split; [apply emit_t; auto|constructor; auto].
    - intros m' X X' D rest w0 x v X2 Hr HK P L. inversion HK; subst; [apply Permutation_nil in P; discriminate|].
      apply Permutation_length_1_inv in P. injection P as -> -> ->. exists (post t ++ m'), [], []. rewrite !app_nil_r. split; [eapply finish_t; eauto|].
      split; [constructor|]. rewrite (Hpost x0); auto.
  Qed.
  Lemma choice_lacc o w : lacc lng T i o w -> lacc lng T' i o w.
  Proof.
    intros H. destruct (choice_sim _ _ H) as (m' & D & rest & X & X' & Hr & HK & Em & Eo & _). cbn in *.
    apply Permutation_nil in Eo. apply app_eq_nil in Eo as [-> ->]. inversion HK; subst. rewrite app_nil_r in Em. cbn in Hr.
    eapply lreach_eq; [exact Hr|]. split; cbn; auto. symmetry; auto.
  Qed.
End Choice.
Lemma choice_safe (T' T : list tr) i t t1 t2 (R : tr -> Prop) : (forall x, In x T -> R x \/ (x = t1 \/ x = t2)) -> (forall x, R x -> In x T -> In x T') ->
  In t T' -> safe T' i -> post t <> [] -> (forall x, x = t1 \/ x = t2 -> Permutation (pre x) (pre t)) -> (forall x, x = t1 \/ x = t2 -> Permutation (post x) (post t)) -> safe T i.
Proof.
  intros HT HR tT Hs tp H1 H2 m Hm p. apply areach_lreach in Hm.
  destruct (choice_sim _ T' T i t t1 t2 R HT HR tT Hs tp H1 H2 (fun _ _ _ _ => I) _ _ Hm) as (m' & D & rest & X & X' & Hr & HK & Em & _). cbn in *.
  pose proof (proj1 (safe_marks _ _ _ _ _ Hs Hr p)) as S. cbn [fst snd] in S. assert (D = []) by (inversion HK; auto). subst. rewrite app_nil_r in Em. cnts p. lia.
Qed.

(** ** Sequence *)
Section Sequence.
  Variables (lng : tr -> word -> Prop) (T' T : list tr) (i : nat) (t t1 t2 : tr) (R : tr -> Prop).
  Hypothesis HT : forall x, In x T -> R x \/ (x = t1 \/ x = t2).
  Hypothesis HR : forall x, R x -> In x T -> In x T'.
  Hypothesis t12 : t1 <> t2.
  Hypothesis tT : In t T'.
  Hypothesis Hsafe : safe T' i.
  Hypothesis tpost : post t <> [].
  Hypothesis Hpre : pre t = pre t1.
  Hypothesis Hpost : post t = post t2.
  Hypothesis HQ : Permutation (post t1) (pre t2).
  Hypothesis Qne : post t1 <> [].
  Hypothesis Qnd : NoDup (post t1).
  Hypothesis RQ : forall x q, R x -> In x T -> In q (post t1) -> ~ In q (pre x) /\ ~ In q (post x).
  Hypothesis Q1 : forall q, In q (post t1) -> ~ In q (pre t1) /\ ~ In q (post t2).
  Hypothesis Qi : ~ In i (post t1).
  Hypothesis Hl : forall v1 v2, lng t1 v1 -> lng t2 v2 -> lng t (v1 ++ v2).
  Inductive Ks : list op -> list op -> list nat -> Prop :=
  | ks_idle : Ks [] [] []
  | ks_run1 v : Ks [(t1, v)] [(t, v)] []
  | ks_wait v : lng t1 v -> Ks [] [(t, v)] (post t1)
  | ks_run2 v1 v2 : lng t1 v1 -> Ks [(t2, v2)] [(t, v1 ++ v2)] [].
  Definition K2 (m' : list nat) X X' D : Prop := (forall q, In q (post t1) -> cnt m' q = 0) /\ Ks X X' D.
  Lemma seq_sim c w : lreach lng T i c w -> lrel lng T' T i R K2 (fst c) (snd c) w.
  Proof.
    apply (lsim lng lng T' T i R (fun x => x = t1 \/ x = t2)); auto.
    - split; [|constructor]. intros q Hq. apply cnt_notin. intros [->|[]]. auto.
    - intros m' X X' D rest w0 x m2 Hr [Z HK] Rx Hx P.
      destruct (take _ _ _ _ P) as (m2' & P1 & P2). { intros p Hp Hd. inversion HK; subst; try easy. exact (proj1 (RQ x p Rx Hx Hd) Hp). }
      exists m', X', D, m2'. split; auto. split; auto. split; auto. split; auto. intros q Hq. specialize (Z q Hq). cnts q. lia.
    - intros m' X X' D x [Z HK] Rx Hx. split; auto. intros q Hq. rewrite cnt_app, (Z q Hq), cnt_notin; auto. apply (RQ x q); auto.
    - intros m' X X' D rest w0 x m2 Hr [Z HK] [-> | ->] _ P.
      + destruct (take _ _ _ _ P) as (m2' & P1 & P2). { intros p Hp Hd. inversion HK; subst; try easy. exact (proj1 (Q1 p Hd) Hp). }
        rewrite <- Hpre in P1.
        inversion HK; subst; try (exfalso; eapply (no_restart lng T' i t); eauto using app1_in; intros p; cnts p; lia).
        exists m2', [(t, [])], []. split; [|split; [split|]]; auto.
        * rewrite app_nil_r in Hr. eapply lreach_eq; [eapply start_t; eauto|]. split; cbn; auto. apply Permutation_cons_append.
        * intros q Hq. specialize (Z q Hq). cnts q. lia.
        * constructor.
      + rewrite <- HQ in P. destruct (post t1) as [|q0 l] eqn:EQ; [congruence|]. rewrite <- EQ in *.
        assert (Hq0 : In q0 (post t1)) by (rewrite EQ; left; auto). pose proof (Z q0 Hq0) as Z0. pose proof (proj1 (cnt_in _ _) Hq0) as Z1.
        assert (Hw : cnt D q0 > 0). { cnts q0. lia. }
        inversion HK; subst; try (cbn in Hw; lia).
        exists m', [(t, v)], []. rewrite app_nil_r. split; auto. split; [split; auto|].
        * replace v with (v ++ []) at 1 by apply app_nil_r. constructor; auto.
        * perm.
    - intros m' X X' D rest w0 x v X2 a Hr [Z HK] P.
      inversion HK; subst; try (apply Permutation_nil in P; discriminate); apply Permutation_length_1_inv in P; injection P as -> -> ->.
      + exists [(t, v0 ++ [a])]. split; [apply emit_t; auto|]. split; auto. constructor.
      + exists [(t, (v1 ++ v2) ++ [a])]. split; [apply emit_t; auto|]. split; auto. rewrite <- app_assoc. constructor; auto.
    - intros m' X X' D rest w0 x v X2 Hr [Z HK] P L.
      inversion HK; subst; try (apply Permutation_nil in P; discriminate); apply Permutation_length_1_inv in P; injection P as -> -> ->.
      + exists m', [(t, v0)], (post t1). split; auto. split; [split; auto; constructor; auto|]. perm.
      + exists (post t ++ m'), [], []. rewrite !app_nil_r. split; [eapply finish_t; eauto|]. split; [split; [|constructor]|rewrite Hpost; auto].
        intros q Hq. rewrite cnt_app, (Z q Hq), Hpost, cnt_notin; auto. apply Q1; auto.
  Qed.
  Lemma seq_lacc o w : ~ In o (pre t2) -> lacc lng T i o w -> lacc lng T' i o w.
  Proof.
    intros Ho H. destruct (seq_sim _ _ H) as (m' & D & rest & X & X' & Hr & [Z HK] & Em & Eo & _). cbn in *.
    apply Permutation_nil in Eo. apply app_eq_nil in Eo as [-> ->]. inversion HK; subst.
    - rewrite app_nil_r in Em. cbn in Hr. eapply lreach_eq; [exact Hr|]. split; cbn; auto. symmetry; auto.
    - exfalso. destruct (post t1) as [|q l] eqn:EQ; [congruence|]. rewrite <- EQ in *.
      assert (Hq : In q (post t1)) by (rewrite EQ; left; auto). assert (In q [o]) as [-> |[]] by (rewrite Em, in_app_iff; auto).
      apply Ho. rewrite <- HQ. auto.
  Qed.
End Sequence.
Lemma seq_safe (T' T : list tr) i t t1 t2 (R : tr -> Prop) :
  (forall x, In x T -> R x \/ (x = t1 \/ x = t2)) -> (forall x, R x -> In x T -> In x T') -> t1 <> t2 -> In t T' -> safe T' i -> post t <> [] ->
  pre t = pre t1 -> post t = post t2 -> Permutation (post t1) (pre t2) -> post t1 <> [] -> NoDup (post t1) ->
  (forall x q, R x -> In x T -> In q (post t1) -> ~ In q (pre x) /\ ~ In q (post x)) ->
  (forall q, In q (post t1) -> ~ In q (pre t1) /\ ~ In q (post t2)) -> ~ In i (post t1) -> safe T i.
Proof.
  intros HT HR t12 tT Hs tp H1 H2 HQ Qn Qd RQ Q1 Qi m Hm p. apply areach_lreach in Hm.
  assert (S0 := seq_sim (fun _ _ => True) T' T i t t1 t2 R). 
  edestruct S0 as (m' & D & rest & X & X' & Hr & [Z HK] & Em & _); eauto. clear S0. cbn in *.
  pose proof (proj1 (safe_marks _ _ _ _ _ Hs Hr p)) as S. cbn [fst snd] in S. pose proof (cnt_le1 _ p Qd).
  destruct (in_dec Nat.eq_dec p (post t1)) as [Hp|Hp].
  - specialize (Z p Hp). assert (cnt D p <= 1) by (inversion HK; subst; cbn; lia). cnts p. lia.
  - assert (cnt D p = 0) by (apply cnt_notin; inversion HK; subst; auto). cnts p. lia.
Qed.
