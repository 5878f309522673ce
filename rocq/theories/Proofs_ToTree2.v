(** Two simulation principles between nets. *)
From Coq Require Import List Arith Lia Permutation Bool.
Import ListNotations.
From Verif Require Import Model_Tree Model_ToTree Proofs_ToTree1.

Section ESim.
  Variables (lng' lng : tr -> word -> Prop) (T' T : list tr) (i : nat) (g : nat -> nat) (E : op -> list nat -> list op -> Prop).
  Hypothesis gi : g i = i.
  Hypothesis Estart : forall x w, In x T' -> lng' x w -> exists h e, E (x, w) h e /\ erun lng T (map g (pre x), []) [] (h, e).
  Hypothesis Eemit : forall x a w h e, E (x, a :: w) h e -> exists h2 e2, E (x, w) h2 e2 /\ erun lng T (h, e) [a] (h2, e2).
  Hypothesis Efin : forall x h e, E (x, []) h e -> erun lng T (h, e) [] (map g (post x), []).
  Definition E' (o : op) (he : list nat * list op) : Prop := E o (fst he) (snd he).
  Definition hs (l : list (list nat * list op)) := concat (map fst l).
  Definition es (l : list (list nat * list op)) := concat (map snd l).
  Definition erel (c' : cfg) (c : cfg) : Prop :=
    exists l, Forall2 E' (snd c') l /\ ceq (map g (fst c') ++ hs l, es l) c.
  Lemma hs_perm a b : Permutation a b -> Permutation (hs a) (hs b).
  Proof. intros. unfold hs. rewrite <- !flat_map_concat_map. apply Permutation_flat_map; auto. Qed.
  Lemma es_perm a b : Permutation a b -> Permutation (es a) (es b).
  Proof. intros. unfold es. rewrite <- !flat_map_concat_map. apply Permutation_flat_map; auto. Qed.
  Lemma esim : forall c' w, ereach lng' T' i c' w -> exists c, ereach lng T i c w /\ erel c' c.
  Proof.
    induction 1 as [m Hm|c w u d H IH S].
    - exists (m, []). split; [constructor; auto|]. exists []. split; [constructor|]. split; cbn; auto.
      apply Permutation_sym, Permutation_length_1_inv in Hm. subst. cbn. rewrite gi. auto.
    - destruct IH as (c0 & R & l & F & Q). inversion S; subst; cbn in *.
      + destruct (Estart _ _ H0 H1) as (h & e & HE & Hr).
        pose proof (erun_frame _ _ _ _ _ Hr (map g m2 ++ hs l) (es l)) as Fr. cbn in Fr.
        exists (h ++ map g m2 ++ hs l, e ++ es l). split.
        * eapply ereach_run; [eapply ereach_eq; [exact R|]|exact Fr]. apply ceq_sym. eapply ceq_trans; [|exact Q]. split; cbn; auto.
          rewrite (Permutation_map g H2), map_app, <- app_assoc. auto.
        * assert (F2 : Forall2 E' ((x, w0) :: ops) ((h, e) :: l)) by (constructor; auto).
          destruct (Forall2_perm _ _ _ _ H3 F2) as (l2 & P & F3). exists l2. split; auto. split; cbn.
          -- rewrite (hs_perm _ _ P). unfold hs; cbn. rewrite !app_assoc. apply Permutation_app_tail, Permutation_app_comm.
          -- rewrite (es_perm _ _ P). reflexivity.
      + destruct (Forall2_perm _ _ _ _ (Permutation_sym H0) F) as (l1 & P & F1). inversion F1; subst. destruct y as [h e].
        destruct (Eemit _ _ _ _ _ H5) as (h2 & e2 & HE & Hr).
        pose proof (erun_frame _ _ _ _ _ Hr (map g m ++ hs l') (es l')) as Fr. cbn in Fr.
        exists (h2 ++ map g m ++ hs l', e2 ++ es l'). split.
        * eapply ereach_run; [eapply ereach_eq; [exact R|]|exact Fr]. apply ceq_sym. eapply ceq_trans; [|exact Q]. split; cbn.
          -- rewrite <- (hs_perm _ _ P). unfold hs; cbn. rewrite !app_assoc. apply Permutation_app_tail, Permutation_app_comm.
          -- rewrite <- (es_perm _ _ P). reflexivity.
        * assert (F2 : Forall2 E' ((x, w0) :: r) ((h2, e2) :: l')) by (constructor; auto).
          destruct (Forall2_perm _ _ _ _ H2 F2) as (l2 & P2 & F3). exists l2. split; auto. split; cbn.
          -- rewrite (hs_perm _ _ P2), (Permutation_map g (Permutation_sym H1)). unfold hs; cbn. rewrite !app_assoc. apply Permutation_app_tail, Permutation_app_comm.
          -- rewrite (es_perm _ _ P2). reflexivity.
      + destruct (Forall2_perm _ _ _ _ (Permutation_sym H0) F) as (l1 & P & F1). inversion F1; subst. destruct y as [h e].
        pose proof (Efin _ _ _ H5) as Hr.
        pose proof (erun_frame _ _ _ _ _ Hr (map g m ++ hs l') (es l')) as Fr. cbn in Fr.
        exists (map g (post x) ++ map g m ++ hs l', es l'). split.
        * eapply ereach_run; [eapply ereach_eq; [exact R|]|exact Fr]. apply ceq_sym. eapply ceq_trans; [|exact Q]. split; cbn.
          -- rewrite <- (hs_perm _ _ P). unfold hs; cbn. rewrite !app_assoc. apply Permutation_app_tail, Permutation_app_comm.
          -- rewrite <- (es_perm _ _ P). reflexivity.
        * destruct (Forall2_perm _ _ _ _ H2 H7) as (l2 & P2 & F3). exists l2. split; auto. split; cbn.
          -- rewrite (hs_perm _ _ P2), (Permutation_map g H1), map_app, app_assoc. auto.
          -- rewrite (es_perm _ _ P2). reflexivity.
  Qed.
  Lemma esim_acc o w : g o = o -> lacc lng' T' i o w -> lacc lng T i o w.
  Proof.
    intros Ho H. apply acc_iff in H. apply acc_iff. destruct (esim _ _ H) as (c & R & l & F & Q). cbn in F. inversion F; subst.
    eapply ereach_eq; [exact R|]. apply ceq_sym. cbn in Q. rewrite Ho in Q. auto.
  Qed.
End ESim.

Section LSim.
  Variables (lng' lng : tr -> word -> Prop) (T' T : list tr) (i : nat) (R Sp : tr -> Prop).
  Variable K : list nat -> list op -> list op -> list nat -> Prop.
  Notation reach' := (lreach lng' T' i).
  Hypothesis HT : forall x, In x T -> R x \/ Sp x.
  Hypothesis HR : forall x, R x -> In x T -> In x T' /\ forall v, lng x v -> lng' x v.
  Hypothesis O0 : K [i] [] [] [].
  Hypothesis O1 : forall m' X X' D rest w x m2, reach' (m', rest ++ X') w -> K m' X X' D -> R x -> In x T -> Permutation (m' ++ D) (pre x ++ m2) ->
    exists m1' X1' D1 m2', reach' (m1', rest ++ X1') w /\ Permutation m1' (pre x ++ m2') /\ Permutation m2 (m2' ++ D1) /\ K m2' X X1' D1.
  Hypothesis O2 : forall m' X X' D x, K m' X X' D -> R x -> In x T -> K (post x ++ m') X X' D.
  Hypothesis O3 : forall m' X X' D rest w x m2, reach' (m', rest ++ X') w -> K m' X X' D -> Sp x -> In x T -> Permutation (m' ++ D) (pre x ++ m2) ->
    exists m2' X2' D2, reach' (m2', rest ++ X2') w /\ K m2' ((x, []) :: X) X2' D2 /\ Permutation m2 (m2' ++ D2).
  Hypothesis O4 : forall m' X X' D rest w x v X2 a, reach' (m', rest ++ X') w -> K m' X X' D -> Permutation X ((x, v) :: X2) ->
    exists X2', reach' (m', rest ++ X2') (w ++ [a]) /\ K m' ((x, v ++ [a]) :: X2) X2' D.
  Hypothesis O5 : forall m' X X' D rest w x v X2, reach' (m', rest ++ X') w -> K m' X X' D -> Permutation X ((x, v) :: X2) -> lng x v ->
    exists m2' X2' D2, reach' (m2', rest ++ X2') w /\ K m2' X2 X2' D2 /\ Permutation (post x ++ m' ++ D) (m2' ++ D2).

  Definition lrel (m : list nat) (ops : list op) (w : word) : Prop :=
    exists m' D rest X X', reach' (m', rest ++ X') w /\ K m' X X' D /\ Permutation m (m' ++ D) /\ Permutation ops (rest ++ X) /\
      forall x v, In (x, v) rest -> R x /\ In x T.
  Lemma perm_cons_app (o : op) r rest X : Permutation (o :: r) (rest ++ X) ->
    (exists rest2, Permutation rest (o :: rest2) /\ Permutation r (rest2 ++ X)) \/ (exists X2, Permutation X (o :: X2) /\ Permutation r (rest ++ X2)).
  Proof.
    intros P. assert (Hin : In o (rest ++ X)) by (eapply Permutation_in; [exact P|left; auto]).
    apply in_app_iff in Hin as [Hin|Hin]; apply in_split in Hin as (a & b & ->).
    - left. exists (a ++ b). split; [symmetry; apply Permutation_middle|].
      apply (Permutation_cons_inv (a := o)). rewrite P. rewrite <- !app_assoc. symmetry. apply Permutation_middle.
    - right. exists (a ++ b). split; [symmetry; apply Permutation_middle|].
      apply (Permutation_cons_inv (a := o)). rewrite P. rewrite !app_assoc. symmetry. apply Permutation_middle.
  Qed.
  Lemma lsim : forall c w, lreach lng T i c w -> lrel (fst c) (snd c) w.
  Proof.
    induction 1 as [m Hm|c w u d H IH S].
    - exists [i], [], [], [], []. cbn. repeat split; auto; try easy. constructor. auto.
    - destruct IH as (m' & D & rest & X & X' & Hr & HK & Em & Eo & Hrest). inversion S; subst; cbn in *.
      + destruct (HT _ H0) as [Rx|Sx].
        * destruct (O1 m' X X' D rest w x m2) as (m1' & X1' & D1 & m2' & Hr1 & P1 & P2 & HK1); auto. { rewrite <- Em. auto. }
          exists m2', D1, ((x, []) :: rest), X, X1'. split; [|split; [auto|split; [auto|split; [rewrite H2, Eo; reflexivity|]]]].
          -- eapply lr_step; [exact Hr1|]. eapply l_start; eauto. apply HR; auto.
          -- intros y v [Ey|Hy]; [injection Ey as <- <-; auto|eauto].
        * destruct (O3 m' X X' D rest w x m2) as (m2' & X2' & D2 & Hr1 & HK1 & P2); auto. { rewrite <- Em. auto. }
          exists m2', D2, rest, ((x, []) :: X), X2'. rewrite app_nil_r. split; auto. split; auto. split; auto. split; auto.
          rewrite H2, Eo. apply Permutation_middle.
      + rewrite H0 in Eo. destruct (perm_cons_app _ _ _ _ Eo) as [(rest2 & P1 & P2)|(X2 & P1 & P2)].
        * exists m', D, ((x, v ++ [a]) :: rest2), X, X'. assert (Hx : R x /\ In x T) by (apply (Hrest x v); eapply Permutation_in; [symmetry; exact P1|left; auto]).
          split; [|split; [auto|split; [rewrite <- H1; auto|split; [rewrite H2, P2; reflexivity|]]]].
          -- eapply lr_step; [exact Hr|]. eapply l_emit with (x := x) (v := v) (r := rest2 ++ X'); [rewrite P1; reflexivity|auto|reflexivity].
          -- intros y u [Ey|Hy]; [injection Ey as <- <-; auto|]. apply (Hrest y u). eapply Permutation_in; [symmetry; exact P1|right; auto].
        * destruct (O4 m' X X' D rest w x v X2 a) as (X2' & Hr1 & HK1); auto.
          exists m', D, rest, ((x, v ++ [a]) :: X2), X2'. split; auto. split; auto. split; [rewrite <- H1; auto|]. split; auto.
          rewrite H2, P2. apply Permutation_middle.
      + rewrite H0 in Eo. destruct (perm_cons_app _ _ _ _ Eo) as [(rest2 & P1 & P2)|(X2 & P1 & P2)].
        * assert (Hx : R x /\ In x T) by (apply (Hrest x v); eapply Permutation_in; [symmetry; exact P1|left; auto]).
          exists (post x ++ m'), D, rest2, X, X'. split; [|split; [apply O2; tauto|split; [rewrite H2, Em, app_assoc; auto|split; [rewrite H3, P2; reflexivity|]]]].
          -- eapply lr_step; [exact Hr|]. eapply l_finish with (x := x) (v := v) (r := rest2 ++ X'); [rewrite P1; reflexivity|apply HR; tauto|auto|auto].
          -- intros y u Hy. apply (Hrest y u). eapply Permutation_in; [symmetry; exact P1|right; auto].
        * destruct (O5 m' X X' D rest w x v X2) as (m2' & X2' & D2 & Hr1 & HK1 & P3); auto.
          exists m2', D2, rest, X2, X2'. rewrite app_nil_r. split; auto. split; auto. split; [rewrite H2, Em; auto|]. split; auto. rewrite H3, P2; auto.
  Qed.
End LSim.
