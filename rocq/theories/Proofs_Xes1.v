(** Reading in chunks is reading the pieces of the whole text. *)
From Coq Require Import String Ascii List Arith ZArith Bool Lia.
Import ListNotations.
From Verif Require Import Model_Tree Model_Parse Model_Dict Model_DfgFile Model_Pnml Model_Xes Spec_Xes.
Local Open Scope list_scope.

Definition angle (c : ascii) : bool := Ascii.eqb c c_lt || Ascii.eqb c c_gt.
Lemma angle_in c : angle c = true <-> In (nat_of_ascii c) [60; 62].
Proof.
  unfold angle, c_lt, c_gt. rewrite orb_true_iff, !Ascii.eqb_eq. split.
  - intros [-> | ->]; cbn; auto.
  - intros [H|[H|[]]]; [left|right]; rewrite H; now rewrite ascii_nat_embedding.
Qed.

Lemma pieces_some s : exists w ws, pieces s = w :: ws.
Proof. induction s as [|c r (w & ws & E)]; cbn; eauto. destruct (_ || _); eauto. rewrite E. eauto. Qed.

(** merging the last piece of a text with the first one of the next text *)
Fixpoint glue (a b : list text) : list text :=
  match a with
  | [] => b
  | [x] => match b with y :: r => (x ++ y) :: r | [] => [x] end
  | x :: r => x :: glue r b
  end.
Lemma glue_cons x a b : a <> [] -> glue (x :: a) b = x :: glue a b.
Proof. destruct a; [easy|]. reflexivity. Qed.
Lemma pieces_app s t : pieces (s ++ t) = glue (pieces s) (pieces t).
Proof.
  induction s as [|c r IH]; cbn [app].
  - cbn. destruct (pieces_some t) as (w & ws & ->). reflexivity.
  - cbn. destruct (_ || _).
    + rewrite IH. destruct (pieces_some r) as (w & ws & E). rewrite E. reflexivity.
    + rewrite IH. destruct (pieces_some r) as (w & ws & E). destruct (pieces_some t) as (y & ys & E').
      rewrite E, E'. destruct ws; reflexivity.
Qed.
Lemma pieces_none s : (forall c, In c s -> angle c = false) -> pieces s = [s].
Proof.
  induction s as [|c r IH]; intros H; [reflexivity|]. cbn [pieces].
  change (Ascii.eqb c c_lt || Ascii.eqb c c_gt) with (angle c). rewrite (H c) by now left. rewrite IH by (intros; apply H; now right). reflexivity.
Qed.
Lemma pieces_angle c r : angle c = true -> pieces (c :: r) = [] :: [c] :: pieces r.
Proof. intros H. cbn [pieces]. change (Ascii.eqb c c_lt || Ascii.eqb c c_gt) with (angle c). now rewrite H. Qed.

(** the first piece and the rest *)
Lemma pieces_head s w ws : pieces s = w :: ws ->
  (forall c, In c w -> angle c = false) /\
  ((ws = [] /\ s = w) \/ exists c r, angle c = true /\ s = w ++ c :: r /\ ws = [c] :: pieces r).
Proof.
  revert w ws. induction s as [|c r IH]; intros w ws E.
  - cbn in E. injection E as <- <-. split; [intros ? []|]. left. auto.
  - cbn [pieces] in E. change (Ascii.eqb c c_lt || Ascii.eqb c c_gt) with (angle c) in E. destruct (angle c) eqn:A.
    + injection E as <- <-. split; [intros ? []|]. right. exists c, r. auto.
    + destruct (pieces_some r) as (w' & ws' & E'). rewrite E' in E. injection E as <- <-.
      destruct (IH _ _ E') as [P Q]. split; [intros d [<-|H]; auto|].
      destruct Q as [[-> ->]|(d & r' & D & -> & ->)]; [left; auto|]. right. exists d, r'. auto.
Qed.

Definition neat (p : text) : Prop := blank p = true \/ exists c p', p = c :: p' /\ is_space c = false.
Lemma blank_white p : blank p = true <-> white p.
Proof. unfold blank, white. apply forallb_forall. Qed.
Lemma angle_neat c : angle c = true -> neat [c].
Proof.
  intros A. right. exists c, []. split; auto. unfold angle in A. apply orb_true_iff in A.
  rewrite !Ascii.eqb_eq in A. destruct A as [-> | ->]; reflexivity.
Qed.
Lemma tidy_neat s : tidy s <-> Forall neat (pieces s).
Proof.
  split.
  - intros T. assert (G : forall n u r, length r <= n -> s = u ++ r -> (u = [] \/ exists u' c, u = u' ++ [c] /\ angle c = true) -> Forall neat (pieces r)).
    { induction n as [|n IH]; intros u r L -> U.
      - destruct r; [|cbn in L; lia]. cbn. constructor; [left; reflexivity|constructor].
      - destruct (pieces_some r) as (w & ws & E). destruct (pieces_head _ _ _ E) as [W Q]. rewrite E.
        assert (NW : neat w).
        { assert (L' : lacks w [60; 62]) by (intros c I J; apply angle_in in J; rewrite W in J by auto; discriminate).
          assert (U' : u = [] \/ exists u' c, u = u' ++ [c] /\ In (nat_of_ascii c) [60; 62]).
          { destruct U as [->|(u' & c & -> & A)]; [auto|]. right. exists u', c. split; auto. now apply angle_in. }
          destruct Q as [[-> ->]|(c & r' & A & -> & ->)].
          - destruct (T u w []) as [H|H]; auto; [now rewrite app_nil_r|left; now apply blank_white|now right].
          - destruct (T u w (c :: r')) as [H|H]; auto; [|left; now apply blank_white|now right].
            right. exists c, r'. split; auto. now apply angle_in. }
        constructor; auto. destruct Q as [[-> _]|(c & r' & A & -> & ->)]; [constructor|].
        constructor; [now apply angle_neat|]. apply (IH (u ++ w ++ [c])).
        + rewrite app_length in L. cbn in L. lia.
        + rewrite <- !app_assoc. reflexivity.
        + right. exists (u ++ w), c. rewrite app_assoc. auto. }
    apply (G (length s) []); auto.
  - intros N u p v -> L U V. 
    assert (Forall neat (pieces (p ++ v))).
    { destruct U as [->|(u' & c & -> & A)]; [exact N|]. apply angle_in in A. rewrite <- app_assoc in N. cbn in N.
      rewrite pieces_app in N. rewrite (pieces_angle c) in N by auto. revert N. generalize (pieces u'). intros l. induction l as [|x l IH]; intros N.
      - cbn in N. now inversion N as [|? ? _ N']; inversion N'.
      - destruct l; [cbn in N; inversion N as [|? ? _ N']; now inversion N'|]. apply IH. rewrite glue_cons in N by easy. now inversion N. }
    assert (P : pieces p = [p]). { apply pieces_none. intros c I. destruct (angle c) eqn:A; auto. apply angle_in in A. now apply L in I. }
    rewrite pieces_app, P in H. 
    assert (NP : neat p).
    { destruct V as [->|(c & v' & -> & A)]; [cbn in H; rewrite app_nil_r in H; now inversion H|].
      apply angle_in in A. rewrite (pieces_angle c) in H by auto. cbn in H. rewrite app_nil_r in H. now inversion H. }
    destruct NP as [B|B]; [left; now apply blank_white|now right].
Qed.

Section Run.
Context {F D : Type} (C : codec F D).
Fixpoint run (st : @state F D) (l : list text) : @outcome F D :=
  match l with
  | [] => Go st
  | el :: r => match handle C st el with Go st' => run st' r | o => o end
  end.
Lemma run_app st a b : run st (a ++ b) = match run st a with Go st' => run st' b | o => o end.
Proof. revert st. induction a as [|x a IH]; intros st; [reflexivity|]. cbn. destruct (handle C st x); auto. Qed.
Definition kept (l : list text) : list text := filter (fun el => negb (skipped el)) l.
Lemma kept_app a b : kept (a ++ b) = kept a ++ kept b.
Proof. apply filter_app. Qed.

Lemma items_run st ps x : items C st (ps ++ [x]) =
  match run st (kept ps) with
  | Go st' => (Go st', if skipped x then None else Some x)
  | o => (o, None)
  end.
Proof.
  revert st. induction ps as [|p ps IH]; intros st.
  - cbn. now destruct (skipped x).
  - cbn [app items]. destruct (skipped p) eqn:S.
    + rewrite IH. unfold kept. cbn [filter]. rewrite S. reflexivity.
    + unfold kept. cbn [filter]. rewrite S. cbn [negb run]. destruct (ps ++ [x]) eqn:E; [now destruct ps|].
      destruct (handle C st p); auto.
Qed.

Definition pend_ok (p : option text) : Prop :=
  match p with None => True | Some el => blank el = false /\ (forall c, In c el -> angle c = false) end.
Definition pend (p : option text) : text := match p with None => [] | Some el => el end.

Lemma blank_app a b : blank (a ++ b) = blank a && blank b.
Proof. apply forallb_app. Qed.
Lemma not_skipped el : blank el = false -> (forall c, In c el -> angle c = false) -> skipped el = false.
Proof.
  intros B A. unfold skipped. rewrite B. cbn [orb]. apply orb_false_iff.
  split; (destruct (keqb_spec el [c_lt]) as [-> |]; [specialize (A c_lt (or_introl eq_refl)); discriminate|]);
    (destruct (keqb_spec el [c_gt]) as [-> |]; [specialize (A c_gt (or_introl eq_refl)); discriminate|]); auto.
Qed.
Lemma glue_snoc a x b : glue (a ++ [x]) b = a ++ match b with y :: r => (x ++ y) :: r | [] => [x] end.
Proof.
  induction a as [|z a IH]; [reflexivity|]. cbn [app]. rewrite glue_cons by (now destruct a). now rewrite IH.
Qed.
Lemma pieces_last_clean s ps x : pieces s = ps ++ [x] -> forall c, In c x -> angle c = false.
Proof.
  assert (G : forall n s ps, length s <= n -> pieces s = ps ++ [x] -> forall c, In c x -> angle c = false).
  { clear. induction n as [|n IH]; intros s ps L E.
    - destruct s; [|cbn in L; lia]. cbn in E. destruct ps as [|? [|]]; try discriminate. injection E as <-. intros ? [].
    - destruct (pieces_some s) as (w & ws & E'). destruct (pieces_head _ _ _ E') as [W Q]. rewrite E' in E.
      destruct Q as [[-> _]|(c & r & A & -> & ->)].
      + destruct ps as [|? [|]]; try discriminate. injection E as <-. exact W.
      + destruct ps as [|p ps]; [discriminate|]. injection E as <- E. destruct ps as [|p ps]; [destruct (pieces_some r) as (y & ys & Y); rewrite Y in E; discriminate|].
        injection E as <- E. apply (IH r ps); auto. rewrite app_length in L. cbn in L. lia. }
  intros E. now apply (G (length s) s ps).
Qed.

Lemma read_run chunks : forall st p, pend_ok p -> Forall neat (pieces (pend p ++ concat chunks)) ->
  read_chunks C st p chunks = run st (kept (pieces (pend p ++ concat chunks))).
Proof.
  assert (key : forall ps x cs st, (forall c, In c x -> angle c = false) -> Forall neat (glue (ps ++ [x]) (pieces (concat cs))) ->
            (forall st p, pend_ok p -> Forall neat (pieces (pend p ++ concat cs)) -> read_chunks C st p cs = run st (kept (pieces (pend p ++ concat cs)))) ->
            match items C st (ps ++ [x]) with (Go st', p) => read_chunks C st' p cs | (o, _) => o end
            = run st (kept (glue (ps ++ [x]) (pieces (concat cs))))).
  { intros ps x cs st X N IH. rewrite items_run. rewrite glue_snoc in *. rewrite kept_app, run_app.
    destruct (run st (kept ps)) as [| |st'] eqn:R; auto.
    destruct (pieces_some (concat cs)) as (y & ys & E). rewrite E in *.
    apply Forall_app in N as [_ N]. 
    destruct (skipped x) eqn:S.
    - assert (Bx : blank x = true).
      { destruct (blank x) eqn:B; auto. rewrite (not_skipped x) in S; auto; discriminate. }
      assert (Ey : Forall neat (pieces (concat cs)) /\ kept ((x ++ y) :: ys) = kept (pieces (concat cs))).
      { rewrite E. inversion N as [|? ? N1 N2]; subst. destruct x as [|c x']; [split; [constructor; auto|reflexivity]|].
        assert (B : blank ((c :: x') ++ y) = true).
        { destruct N1 as [B|(c' & p' & H & Sp)]; auto. cbn in H. injection H as <- <-. cbn in Bx. rewrite Sp in Bx. discriminate. }
        assert (By : blank y = true) by (rewrite blank_app in B; now apply andb_true_iff in B).
        split; [constructor; auto; now left|]. unfold kept. cbn [filter]. unfold skipped. rewrite B, By. reflexivity. }
      destruct Ey as [Ny Ky]. rewrite Ky. apply (IH st' None); [exact I|exact Ny].
    - assert (Bx : blank x = false) by (destruct (blank x) eqn:B; auto; unfold skipped in S; now rewrite B in S).
      assert (G : pieces (x ++ concat cs) = (x ++ y) :: ys) by (rewrite pieces_app, (pieces_none x), E; auto).
      rewrite <- G. apply (IH st' (Some x)); [split; auto|]. cbn. rewrite G. exact N. }
  induction chunks as [|c cs IH]; intros st p P N.
  - cbn [concat]. rewrite app_nil_r in *. destruct p as [el|]; cbn in *; auto. destruct P as [B A].
    rewrite (pieces_none el) by auto. unfold kept. cbn [filter]. rewrite (not_skipped el) by auto. cbn. now destruct (handle C st el).
  - cbn [concat] in *. destruct p as [el|]; cbn [pend] in *.
    + destruct P as [B A]. rewrite app_assoc in *.
      assert (Pe : pieces el = [el]) by now apply pieces_none.
      destruct (pieces_some c) as (w & ws & E). destruct (pieces_head _ _ _ E) as [W _].
      assert (E1 : pieces (el ++ c) = (el ++ w) :: ws) by (rewrite pieces_app, Pe, E; reflexivity).
      assert (A' : forall x, In x (el ++ w) -> angle x = false) by (intros x I; apply in_app_iff in I as [I|I]; auto).
      assert (B' : blank (el ++ w) = false) by (rewrite blank_app, B; reflexivity).
      cbn [read_chunks]. rewrite E. destruct ws as [|q ws].
      * assert (el ++ w = el ++ c).
        { destruct (pieces_head _ _ _ E) as [_ [[_ ->]|(? & ? & _ & _ & H)]]; [reflexivity|discriminate]. }
        rewrite H in *. apply (IH st (Some (el ++ c))); [split; auto|exact N].
      * rewrite (pieces_app (el ++ c)), E1 in N |- *. rewrite (glue_cons (el ++ w)) in N |- * by easy.
        unfold kept. cbn [filter]. rewrite (not_skipped (el ++ w)) by auto. cbn [negb run]. fold (kept (glue (q :: ws) (pieces (concat cs)))).
        destruct (handle C st (el ++ w)) as [| |st'] eqn:H; auto.
        destruct (exists_last (l := q :: ws)) as (ps & x & EX); [easy|]. rewrite EX in *.
        apply key; auto.
        -- apply (pieces_last_clean c (w :: ps)). cbn. rewrite E. reflexivity.
        -- now inversion N.
    + cbn [app] in *. cbn [read_chunks]. rewrite pieces_app in N |- *.
      destruct (exists_last (l := pieces c)) as (ps & x & EX); [destruct (pieces_some c) as (? & ? & ->); easy|].
      rewrite EX in *. apply key; auto. now apply (pieces_last_clean c ps).
Qed.
End Run.
