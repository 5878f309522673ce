(** From the net after a grouping step back to the net; splitting a place (both directions). *)
From Coq Require Import List Arith Lia Permutation Bool.
Import ListNotations.
From Verif Require Import Model_Tree Spec_Tree Model_ToTree Proofs_ToTree1 Proofs_ToTree2 Proofs_ToTree3 Proofs_ToTree4.

Section Local.
  Variables (lng : tr -> word -> Prop) (T : list tr).
  Lemma r_start x w : In x T -> lng x w -> erun lng T (pre x, []) [] ([], [(x, w)]).
  Proof. intros. apply erun_one. eapply e_start; eauto. rewrite app_nil_r. auto. Qed.
  Lemma r_emit x a w : erun lng T ([], [(x, a :: w)]) [a] ([], [(x, w)]).
  Proof. apply erun_one. eapply e_emit; eauto. Qed.
  Lemma r_fin x : erun lng T ([], [(x, [])]) [] (post x, []).
  Proof. apply erun_one. eapply e_finish; eauto. rewrite app_nil_r. auto. Qed.
  Lemma handover x y w : In y T -> lng y w -> Permutation (post x) (pre y) -> erun lng T ([], [(x, [])]) [] ([], [(y, w)]).
  Proof.
    intros Hy L P. change (@nil nat) with (@nil nat ++ @nil nat) at 3. eapply erun_trans; [apply r_fin|].
    eapply erun_eq_l; [apply r_start; eauto|]. split; cbn; auto. symmetry; auto.
  Qed.
  Lemma then_run c d u e : erun lng T c [] d -> erun lng T d u e -> erun lng T c u e.
  Proof. intros A B. exact (erun_trans _ _ _ _ _ _ _ A B). Qed.
End Local.

Section Back.
  Variables (lng : tr -> word -> Prop) (T' T : list tr) (i : nat) (t t1 t2 : tr).
  Hypothesis HT : forall x, In x T' -> x = t \/ In x T.
  Hypothesis T1 : In t1 T.
  Hypothesis T2 : In t2 T.

  Lemma choice_back o w : (forall x, x = t1 \/ x = t2 -> Permutation (pre x) (pre t)) -> (forall x, x = t1 \/ x = t2 -> Permutation (post x) (post t)) ->
    (forall v, lng t v -> lng t1 v \/ lng t2 v) -> lacc lng T' i o w -> lacc lng T i o w.
  Proof.
    intros H1 H2 Hl.
    apply (esim_acc lng lng T' T i (fun x => x) (fun a h e => h = [] /\ exists x, In x T /\ e = [(x, snd a)] /\ Permutation (pre x) (pre (fst a)) /\ Permutation (post x) (post (fst a)))); auto.
    - intros x v Hx L. rewrite map_id. destruct (HT _ Hx) as [-> |Hx2].
      + assert (U : exists y, (y = t1 \/ y = t2) /\ lng y v /\ In y T) by (destruct (Hl _ L); eauto 6). destruct U as (y & Hy & Ly & Iy).
        exists [], [(y, v)]. split; [split; auto; exists y; repeat split; auto|]. eapply erun_eq_l; [apply r_start; auto|]. split; cbn; auto.
      + exists [], [(x, v)]. split; [split; auto; exists x; repeat split; auto|]. apply r_start; auto.
    - intros x a v h e [-> (y & Hy & -> & A & B)]. exists [], [(y, v)]. split; [split; auto; exists y; auto|]. apply r_emit.
    - intros x h e [-> (y & Hy & -> & A & B)]. rewrite map_id. eapply erun_eq_r; [apply r_fin|]. split; auto.
  Qed.

  Inductive Eseq : op -> list nat -> list op -> Prop :=
  | es_r x w : In x T -> Eseq (x, w) [] [(x, w)]
  | es_1 w w1 w2 : w = w1 ++ w2 -> lng t2 w2 -> Eseq (t, w) [] [(t1, w1)]
  | es_2 w : Eseq (t, w) [] [(t2, w)].
  Lemma seq_back o w : pre t = pre t1 -> post t = post t2 -> Permutation (post t1) (pre t2) ->
    (forall v, lng t v -> exists v1 v2, v = v1 ++ v2 /\ lng t1 v1 /\ lng t2 v2) -> lacc lng T' i o w -> lacc lng T i o w.
  Proof.
    intros H1 H2 HQ Hl. apply (esim_acc lng lng T' T i (fun x => x) Eseq); auto.
    - intros x v Hx L. rewrite map_id. destruct (HT _ Hx) as [-> |Hx2].
      + destruct (Hl _ L) as (v1 & v2 & -> & L1 & L2). exists [], [(t1, v1)]. split; [eapply es_1; eauto|]. rewrite H1. apply r_start; auto.
      + exists [], [(x, v)]. split; [constructor; auto|apply r_start; auto].
    - intros x a v h e HE. inversion HE; subst.
      + exists [], [(x, v)]. split; [constructor; auto|apply r_emit].
      + match goal with E : _ :: _ = _ ++ _ |- _ => rename E into EE end. destruct w1 as [|b w1]; cbn in EE.
        * subst w2. exists [], [(t2, v)]. split; [constructor|]. eapply then_run; [apply handover; eauto|apply r_emit].
        * injection EE as <- ->. exists [], [(t1, w1)]. split; [eapply es_1; eauto|apply r_emit].
      + exists [], [(t2, v)]. split; [constructor|apply r_emit].
    - intros x h e HE. rewrite map_id. inversion HE; subst.
      + apply r_fin.
      + match goal with E : [] = _ ++ _ |- _ => symmetry in E; apply app_eq_nil in E as [-> ->] end. eapply then_run; [apply handover; eauto|]. rewrite H2. apply r_fin.
      + rewrite H2. apply r_fin.
  Qed.

  Inductive Epar : op -> list nat -> list op -> Prop :=
  | ep_r x w : In x T -> Epar (x, w) [] [(x, w)]
  | ep_2 w r1 r2 : shuffle [r1; r2] w -> Epar (t, w) [] [(t1, r1); (t2, r2)].
  Lemma shuffle2_inv (r1 r2 w : word) a : shuffle [r1; r2] (a :: w) ->
    (exists r, r1 = a :: r /\ shuffle [r; r2] w) \/ (exists r, r2 = a :: r /\ shuffle [r1; r] w).
  Proof.
    intros H. inversion H as [|l1 b r l2 u H1 E1 E2]; subst.
    destruct l1 as [|x [|y [|z l]]]; cbn in E1; inversion E1; subst; eauto; destruct l; discriminate.
  Qed.
  Lemma conc_back o w : pre t = pre t1 ++ pre t2 -> post t = post t1 ++ post t2 ->
    (forall v, lng t v -> exists v1 v2, shuffle [v1; v2] v /\ lng t1 v1 /\ lng t2 v2) -> lacc lng T' i o w -> lacc lng T i o w.
  Proof.
    intros H1 H2 Hl. apply (esim_acc lng lng T' T i (fun x => x) Epar); auto.
    - intros x v Hx L. rewrite map_id. destruct (HT _ Hx) as [-> |Hx2].
      + destruct (Hl _ L) as (v1 & v2 & S & L1 & L2). exists [], [(t1, v1); (t2, v2)]. split; [constructor; auto|]. rewrite H1.
        eapply then_run; [exact (erun_frame _ _ _ _ _ (r_start lng T t1 v1 T1 L1) (pre t2) [])|]. cbn.
        eapply erun_eq_l; [eapply erun_eq_r; [exact (erun_frame _ _ _ _ _ (r_start lng T t2 v2 T2 L2) [] [(t1, v1)])|]|]; split; cbn; auto; [constructor|rewrite app_nil_r; auto].
      + exists [], [(x, v)]. split; [constructor; auto|apply r_start; auto].
    - intros x a v h e HE. inversion HE; subst.
      + exists [], [(x, v)]. split; [constructor; auto|apply r_emit].
      + match goal with E : shuffle _ _ |- _ => rename E into EE end. destruct (shuffle2_inv _ _ _ _ EE) as [(r & -> & S)|(r & -> & S)].
        * exists [], [(t1, r); (t2, r2)]. split; [constructor; auto|]. exact (erun_frame _ _ _ _ _ (r_emit lng T t1 a r) [] [(t2, r2)]).
        * exists [], [(t1, r1); (t2, r)]. split; [constructor; auto|].
          eapply erun_eq_l; [eapply erun_eq_r; [exact (erun_frame _ _ _ _ _ (r_emit lng T t2 a r) [] [(t1, r1)])|]|]; split; cbn; auto; constructor.
    - intros x h e HE. rewrite map_id. inversion HE; subst; [apply r_fin|].
      assert (r1 = [] /\ r2 = []) as [-> ->]. { match goal with E : shuffle _ _ |- _ => inversion E as [ws HH|]; subst end. split; apply HH; cbn; auto. }
      rewrite H2. eapply then_run; [exact (erun_frame _ _ _ _ _ (r_fin lng T t1) [] [(t2, [])])|]. cbn. rewrite app_nil_r.
      eapply erun_eq_l; [eapply erun_eq_r; [exact (erun_frame _ _ _ _ _ (r_fin lng T t2) (post t1) [])|]|]; split; cbn; auto. apply Permutation_app_comm.
  Qed.

  (** the rest of a loop after an execution of the do part *)
  Inductive SL : word -> Prop :=
  | sl_nil : SL []
  | sl_cons b a s : lng t2 b -> lng t1 a -> SL s -> SL (b ++ a ++ s).
  Inductive Eloop : op -> list nat -> list op -> Prop :=
  | el_r x w : In x T -> Eloop (x, w) [] [(x, w)]
  | el_1 w r s : w = r ++ s -> SL s -> Eloop (t, w) [] [(t1, r)]
  | el_2 w r a s : w = r ++ a ++ s -> lng t1 a -> SL s -> Eloop (t, w) [] [(t2, r)].
  Lemma loop_back o w : pre t = pre t1 -> post t = post t1 -> Permutation (post t1) (pre t2) -> Permutation (post t2) (pre t1) ->
    (forall v, lng t v -> exists r s, v = r ++ s /\ lng t1 r /\ SL s) -> lacc lng T' i o w -> lacc lng T i o w.
  Proof.
    intros H1 H2 HB HA Hl.
    assert (S1 : forall s, SL s -> forall r a v, a :: v = r ++ s -> exists h2 e2, Eloop (t, v) h2 e2 /\ erun lng T ([], [(t1, r)]) [a] (h2, e2)).
    { induction 1 as [|b x s Lb Lx Hs IH]; intros r a v E.
      - rewrite app_nil_r in E. subst r. exists [], [(t1, v)]. split; [eapply el_1 with (s := []); [rewrite app_nil_r; auto|constructor]|apply r_emit].
      - destruct r as [|c r]; cbn in E.
        + destruct b as [|c b]; cbn in E.
          * destruct (IH _ _ _ E) as (h2 & e2 & HE & Hr). exists h2, e2. split; auto.
            eapply then_run; [apply (handover _ _ t1 t2 []); eauto|]. eapply then_run; [apply (handover _ _ t2 t1 x); eauto|auto].
          * injection E as -> ->. exists [], [(t2, b)]. split; [eapply el_2; eauto|].
            eapply then_run; [apply (handover _ _ t1 t2 (c :: b)); eauto|apply r_emit].
        + injection E as -> ->. exists [], [(t1, r)]. split; [eapply el_1; eauto; constructor; auto|apply r_emit]. }
    assert (F1 : forall s, SL s -> forall r, [] = r ++ s -> erun lng T ([], [(t1, r)]) [] (post t1, [])).
    { induction 1 as [|b x s Lb Lx Hs IH]; intros r E.
      - rewrite app_nil_r in E. subst r. apply r_fin.
      - symmetry in E. apply app_eq_nil in E as [-> E]. apply app_eq_nil in E as [-> E].
        eapply then_run; [apply (handover _ _ t1 t2 []); eauto|]. eapply then_run; [apply (handover _ _ t2 t1 x); eauto|apply IH; auto]. }
    apply (esim_acc lng lng T' T i (fun x => x) Eloop); auto.
    - intros x v Hx L. rewrite map_id. destruct (HT _ Hx) as [-> |Hx2].
      + destruct (Hl _ L) as (r & s & -> & L1 & L2). exists [], [(t1, r)]. split; [eapply el_1; eauto|]. rewrite H1. apply r_start; auto.
      + exists [], [(x, v)]. split; [constructor; auto|apply r_start; auto].
    - intros x a v h e HE. inversion HE; subst.
      + exists [], [(x, v)]. split; [constructor; auto|apply r_emit].
      + eapply S1; eauto.
      + match goal with E : _ :: _ = _ ++ _ |- _ => rename E into EE end. match goal with E : SL _ |- _ => rename E into ESL end. destruct r as [|c r]; cbn in EE.
        * destruct (S1 _ ESL _ _ _ EE) as (h2 & e2 & A & B). exists h2, e2. split; auto. eapply then_run; [apply (handover _ _ t2 t1 a0); eauto|auto].
        * injection EE as -> ->. exists [], [(t2, r)]. split; [eapply el_2; eauto|apply r_emit].
    - intros x h e HE. rewrite map_id. inversion HE; subst.
      + apply r_fin.
      + rewrite H2. eapply F1; eauto.
      + rewrite H2. match goal with E : [] = _ ++ _ |- _ => rename E into EE end. symmetry in EE. apply app_eq_nil in EE as [-> EE]. symmetry in EE. eapply then_run; [apply (handover _ _ t2 t1 a); eauto|]. eapply F1; eauto.
  Qed.
End Back.

(** ** Splitting a place *)
Section Split.
  Variables (lng : tr -> word -> Prop) (T : list tr) (i p s d : nat) (skip : tr).
  Definition fx (x : tr) : tr := Tr (tid x) (lab x) (redirect p d (pre x)) (redirect p s (post x)).
  Let T' := skip :: map fx T.
  Hypothesis Hskip : pre skip = [s] /\ post skip = [d].
  Hypothesis Hi : i <> p /\ i <> s /\ i <> d.
  Hypothesis Hsd : forall x, In x T -> ~ In s (pre x) /\ ~ In d (pre x) /\ ~ In s (post x) /\ ~ In d (post x).
  Hypothesis Hlng : forall x w, lng (fx x) w <-> lng x w.
  Lemma redirect_notin q r l : ~ In q l -> redirect q r l = l.
  Proof. induction l as [|a l IH]; cbn; intros H; auto. fold (redirect q r l). rewrite IH by tauto. destruct (Nat.eqb_spec a q); auto. subst. tauto. Qed.
  Lemma redirect_app q r l m : redirect q r (l ++ m) = redirect q r l ++ redirect q r m.
  Proof. apply map_app. Qed.
  Lemma redirect_perm q r l m : Permutation l m -> Permutation (redirect q r l) (redirect q r m).
  Proof. apply Permutation_map. Qed.
  Definition fo (o : op) : op := (fx (fst o), snd o).
  Section Fwd.
    Hypothesis Lskip : lng skip [].
    Lemma skip_all : forall l k ops w, lreach lng T' i (redirect p s l ++ k, ops) w -> lreach lng T' i (redirect p d l ++ k, ops) w.
    Proof.
      induction l as [|a l IH]; intros k ops w H; cbn in *; auto.
      assert (H2 : lreach lng T' i ((if a =? p then d else a) :: redirect p s l ++ k, ops) w).
      { destruct (a =? p); auto. assert (w = (w ++ []) ++ []) as -> by (rewrite !app_nil_r; auto).
        eapply lr_step with (c := (redirect p s l ++ k, (skip, []) :: ops)).
        - eapply lr_step; [exact H|]. eapply l_start; [left; reflexivity| |auto]. rewrite (proj1 Hskip). cbn. auto.
        - eapply l_finish; eauto. rewrite (proj2 Hskip). cbn. auto. }
      eapply lreach_eq; [apply (IH ((if a =? p then d else a) :: k))|split; cbn; auto; symmetry; apply Permutation_middle].
      eapply lreach_eq; [exact H2|]. split; cbn; auto. apply Permutation_middle.
    Qed.
    Lemma split_sim c w : lreach lng T i c w -> lreach lng T' i (redirect p d (fst c), map fo (snd c)) w.
    Proof.
      induction 1 as [m Hm|c w u e H IH S].
      - cbn. apply Permutation_sym, Permutation_length_1_inv in Hm. subst m. cbn. destruct (Nat.eqb_spec i p); [tauto|]. constructor. auto.
      - inversion S; subst; cbn [fst snd] in *.
        + eapply lr_step; [exact IH|]. eapply l_start with (x := fx x); [right; apply in_map; auto| |].
          * change (Permutation (redirect p d m) (redirect p d (pre x) ++ redirect p d m2)). rewrite <- redirect_app. apply redirect_perm; auto.
          * rewrite H2. reflexivity.
        + eapply lr_step; [exact IH|]. eapply l_emit with (x := fx x) (v := v) (r := map fo r); [rewrite H0; reflexivity|apply redirect_perm; auto|rewrite H2; reflexivity].
        + eapply lreach_eq; [apply (skip_all (post x) (redirect p d m) (map fo r) (w ++ []))|].
          * eapply lr_step; [exact IH|]. eapply l_finish with (x := fx x) (v := v) (r := map fo r); [rewrite H0; reflexivity|apply Hlng; auto|cbn; auto|auto].
          * split; cbn [fst snd]; [rewrite <- redirect_app; apply redirect_perm; symmetry; auto|rewrite H3; auto].
    Qed.
    Lemma split_lacc o w : o <> p -> lacc lng T i o w -> lacc lng T' i o w.
    Proof. intros Ho H. apply split_sim in H. cbn in H. destruct (Nat.eqb_spec o p); [tauto|]. exact H. Qed.
  End Fwd.
  Definition gx (x : nat) : nat := if (x =? s) || (x =? d) then p else x.
  Lemma gx_redirect q l : q = s \/ q = d -> ~ In s l -> ~ In d l -> map gx (redirect p q l) = l.
  Proof.
    intros Hq. induction l as [|a l IH]; cbn; intros A B; auto. fold (redirect p q l). rewrite IH by tauto. f_equal. unfold gx. destruct (Nat.eqb_spec a p) as [-> |Hap].
    - destruct Hq as [-> | ->]; rewrite Nat.eqb_refl; auto. rewrite orb_true_r. auto.
    - destruct (Nat.eqb_spec a s); [tauto|]. destruct (Nat.eqb_spec a d); [tauto|]. auto.
  Qed.
  Inductive Esp : op -> list nat -> list op -> Prop :=
  | ex_r x w : In x T -> Esp (fx x, w) [] [(x, w)]
  | ex_s : Esp (skip, []) [p] [].
  Lemma split_back o w : (forall v, lng skip v -> v = []) -> o <> s -> o <> d -> lacc lng T' i o w -> lacc lng T i o w.
  Proof.
    intros Hs Ho1 Ho2. apply (esim_acc lng lng T' T i gx Esp).
    - unfold gx. destruct (Nat.eqb_spec i s); [tauto|]. destruct (Nat.eqb_spec i d); [tauto|]. auto.
    - intros x v [<- |Hx] L.
      + apply Hs in L. subst v. exists [p], []. split; [constructor|]. rewrite (proj1 Hskip). cbn. unfold gx. rewrite Nat.eqb_refl. cbn. constructor. split; auto.
      + apply in_map_iff in Hx as (y & <- & Hy). exists [], [(y, v)]. split; [constructor; auto|]. cbn. destruct (Hsd y Hy) as (A & B & C & D).
        rewrite gx_redirect; auto. apply r_start; auto. apply Hlng; auto.
    - intros x a v h e HE. inversion HE; subst. exists [], [(x0, v)]. split; [constructor; auto|apply r_emit].
    - intros x h e HE. inversion HE; subst.
      + cbn. match goal with E : In x0 T |- _ => rename E into E0 end. destruct (Hsd x0 E0) as (A & B & C & D). rewrite gx_redirect; auto. apply r_fin.
      + rewrite (proj2 Hskip). cbn. unfold gx. rewrite Nat.eqb_refl, orb_true_r. constructor. split; auto.
    - unfold gx. destruct (Nat.eqb_spec o s); [tauto|]. destruct (Nat.eqb_spec o d); [tauto|]. auto.
  Qed.
End Split.
Lemma cnt_map_le (h : nat -> nat) l q : cnt l q <= cnt (map h l) (h q).
Proof. unfold cnt. induction l as [|a l IH]; cbn; auto. destruct (Nat.eq_dec a q) as [-> |]; [destruct (Nat.eq_dec (h q) (h q)); [lia|congruence]|]. destruct (Nat.eq_dec (h a) (h q)); lia. Qed.
Lemma split_safe (T : list tr) i p s d skip : pre skip = [s] /\ post skip = [d] -> i <> p /\ i <> s /\ i <> d -> safe (skip :: map (fx p s d) T) i -> safe T i.
Proof.
  intros Hk Hi Hs m Hm q. apply areach_lreach in Hm. apply (split_sim _ T i p s d skip Hk Hi) in Hm; [|tauto|auto]. cbn in Hm.
  pose proof (proj1 (safe_marks _ _ _ _ _ Hs Hm (if q =? p then d else q))) as S. cbn [fst snd] in S.
  pose proof (cnt_map_le (fun x => if x =? p then d else x) m q). unfold redirect in S. lia.
Qed.
