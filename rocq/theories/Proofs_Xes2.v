(** The tags of an exported log. *)
From Coq Require Import String Ascii List Arith ZArith Bool Lia.
Import ListNotations.
From Verif Require Import Model_Tree Model_Parse Model_Dict Proofs_Dict Model_DfgFile Proofs_DfgFile Model_Pnml Model_Xes Spec_Xes Proofs_Xes1.
Local Open Scope list_scope.

Definition clean (s : text) : Prop := forall c, In c s -> angle c = false.
Definition body_ok (b : text) : Prop := clean b /\ exists c r, b = c :: r /\ is_space c = false.
Inductive tagged : text -> list text -> Prop :=
| tagged_end ws : blank ws = true -> clean ws -> tagged ws []
| tagged_tag ws b s l : blank ws = true -> clean ws -> body_ok b -> tagged s l ->
    tagged (ws ++ [c_lt] ++ b ++ [c_gt] ++ s) (b :: l).

Lemma clean_app a b : clean (a ++ b) <-> clean a /\ clean b.
Proof. unfold clean. split; [intros H; split; intros c I; apply H, in_app_iff; auto|intros [A B] c I; apply in_app_iff in I as [I|I]; auto]. Qed.
Lemma tagged_ws ws s l : blank ws = true -> clean ws -> tagged s l -> tagged (ws ++ s) l.
Proof.
  intros B A T. inversion T as [w Bw Aw|w b s' l' Bw Aw Ob T']; subst.
  - constructor; [rewrite blank_app, B, Bw; reflexivity|now apply clean_app].
  - rewrite app_assoc. constructor; auto; [rewrite blank_app, B, Bw; reflexivity|now apply clean_app].
Qed.
Lemma tagged_app s l s' l' : tagged s l -> tagged s' l' -> tagged (s ++ s') (l ++ l').
Proof.
  intros T T'. induction T as [w Bw Aw|w b s l Bw Aw Ob T IH].
  - now apply tagged_ws.
  - rewrite <- !app_assoc. now apply (tagged_tag w b (s ++ s') (l ++ l')).
Qed.
Lemma tagged_line ws b : blank ws = true -> clean ws -> body_ok b -> tagged (ws ++ tx "<" ++ b ++ tx ">" ++ nl) [b].
Proof.
  intros B A O. apply (tagged_tag ws b nl []); auto. constructor; [reflexivity|]. intros c [<-|[]]. reflexivity.
Qed.
Lemma tagged_pieces s l : tagged s l -> kept (pieces s) = l /\ Forall neat (pieces s).
Proof.
  intros T. induction T as [w Bw Aw|w b s l Bw Aw [Ab (c & r & -> & Sc)] T [IH1 IH2]].
  - rewrite (pieces_none w) by auto. unfold kept. cbn [filter]. unfold skipped. rewrite Bw. split; [reflexivity|].
    constructor; [now left|constructor].
  - rewrite pieces_app, (pieces_none w) by auto. cbn [app]. rewrite (pieces_angle c_lt) by reflexivity.
    change (c :: r ++ c_gt :: s) with ((c :: r) ++ c_gt :: s). rewrite pieces_app, (pieces_none (c :: r)) by auto.
    rewrite (pieces_angle c_gt) by reflexivity. cbn [glue]. rewrite !app_nil_r.
    assert (Bb : blank (c :: r) = false) by (cbn; now rewrite Sc).
    split.
    + unfold kept in *. cbn [filter]. rewrite (not_skipped (c :: r)) by auto. unfold skipped at 1. rewrite Bw. cbn [orb negb].
      rewrite IH1. reflexivity.
    + constructor; [now left|]. constructor; [apply angle_neat; reflexivity|]. constructor; [right; eauto|].
      constructor; [apply angle_neat; reflexivity|exact IH2].
Qed.

Lemma indent_ok n : blank (indent n) = true /\ clean (indent n).
Proof.
  split; [apply blank_white; intros c I|intros c I]; apply repeat_spec in I; subst; reflexivity.
Qed.
Lemma tagged_in n b : body_ok b -> tagged (indent n ++ tx "<" ++ b ++ tx ">" ++ nl) [b].
Proof. intros O. destruct (indent_ok n). now apply tagged_line. Qed.
Lemma tagged_0 b : body_ok b -> tagged (tx "<" ++ b ++ tx ">" ++ nl) [b].
Proof. apply (tagged_in 0). Qed.

Ltac clean_lit := let c := fresh "c" in let I := fresh "I" in intros c I; cbn in I; repeat (destruct I as [<-|I]; [reflexivity|]); destruct I.

(** ** Escaping *)
Lemma has_in c s : has c s = true <-> In c s.
Proof. unfold has. rewrite existsb_exists. split; [intros (x & I & E); apply Ascii.eqb_eq in E; now subst|intros I; exists c; split; auto; apply Ascii.eqb_refl]. Qed.
Lemma has_not c s : ~ In c s -> has c s = false.
Proof. intros H. destruct (has c s) eqn:E; auto. apply has_in in E. tauto. Qed.
Lemma lacks_in s cs n : lacks s cs -> In n cs -> n < 256 -> ~ In (ascii_of_nat n) s.
Proof. intros L I B J. apply L in J. rewrite nat_ascii_embedding in J; auto. Qed.
Lemma nat_code c n : nat_of_ascii c = n -> c = ascii_of_nat n.
Proof. intros <-. now rewrite ascii_nat_embedding. Qed.
Lemma esc_char_spec c : (forall d, In d (esc_char c) -> angle d = false /\ (c <> c_dq -> d <> c_dq)).
Proof.
  intros d. unfold esc_char. destruct (Ascii.eqb_spec c c_amp); [cbn; intros H; repeat (destruct H as [<-|H]; [now split|]); destruct H|].
  destruct (Ascii.eqb_spec c c_gt); [cbn; intros H; repeat (destruct H as [<-|H]; [now split|]); destruct H|].
  destruct (Ascii.eqb_spec c c_lt); [cbn; intros H; repeat (destruct H as [<-|H]; [now split|]); destruct H|].
  destruct (Ascii.eqb_spec c c_nl); [cbn; intros H; repeat (destruct H as [<-|H]; [now split|]); destruct H|].
  destruct (Ascii.eqb_spec c c_cr); [cbn; intros H; repeat (destruct H as [<-|H]; [now split|]); destruct H|].
  destruct (Ascii.eqb_spec c c_tab); [cbn; intros H; repeat (destruct H as [<-|H]; [now split|]); destruct H|].
  intros [<-|[]]. split; auto. unfold angle. apply orb_false_iff. split; now apply Ascii.eqb_neq.
Qed.
Lemma esc_clean s : clean (esc s).
Proof. intros d I. apply in_concat in I as (w & W & I). apply in_map_iff in W as (c & <- & _). now apply esc_char_spec in I. Qed.
Lemma esc_dq s : lacks s [34] -> ~ In c_dq (esc s).
Proof.
  intros L I. apply in_concat in I as (w & W & I). apply in_map_iff in W as (c & <- & J). apply esc_char_spec in I as [_ N].
  apply N; auto. intros ->. apply (lacks_in s [34] 34) in J; auto; [now left|lia].
Qed.
Lemma quote_esc s : lacks s [34] -> quoteattr s = dq (esc s).
Proof. intros L. unfold quoteattr. rewrite has_not by now apply esc_dq. reflexivity. Qed.
Lemma esc_plain s : plain s -> esc s = s.
Proof.
  intros P. induction s as [|c r IH]; [reflexivity|]. unfold esc. cbn [map concat]. change (concat (map esc_char r)) with (esc r).
  rewrite IH by (intros d I; apply P; now right). assert (Q : ~ In (nat_of_ascii c) [38; 60; 62; 34; 10; 13; 9]) by (apply P; now left).
  unfold esc_char. rewrite !(proj2 (Ascii.eqb_neq c _)) by (intros ->; apply Q; cbn; tauto). reflexivity.
Qed.
Lemma plain_lacks s : plain s -> lacks s [34].
Proof. intros P c I [J|[]]. apply (P c I). rewrite <- J. cbn. tauto. Qed.
Lemma name_plain : plain (tx "concept:name").
Proof. intros c I J. cbn in I. repeat (destruct I as [<-|I]; [cbn in J; intuition discriminate|]). destruct I. Qed.
Lemma num_lacks z : plain (print_int z).
Proof.
  intros c I J. destruct (int_chars z) as [H _]. rewrite Forall_forall in H. specialize (H c I). destruct H as [->|H]; cbn in J; [intuition discriminate|lia].
Qed.

(** ** Splitting at the double quotes *)
Definition nodq (s : text) : Prop := forall c, In c s -> Ascii.eqb c c_dq = false.
Lemma nodq_in s : nodq s <-> ~ In c_dq s.
Proof.
  split; [intros H I; specialize (H _ I); discriminate|]. intros H c I. apply Ascii.eqb_neq. intros ->. tauto.
Qed.
Lemma split_dq a b r : nodq a -> nodq b -> split_on c_dq (a ++ dq b ++ r) = a :: b :: split_on c_dq r.
Proof.
  intros A B. unfold dq. cbn [app]. rewrite split_one by exact A. rewrite <- app_assoc. cbn [app].
  rewrite split_one by exact B. reflexivity.
Qed.
Lemma before_sp a r : ~ In c_sp a -> before_space (a ++ c_sp :: r) = Some a.
Proof.
  induction a as [|c a IH]; intros H; [reflexivity|]. cbn [app before_space].
  rewrite (proj2 (Ascii.eqb_neq c c_sp)) by (intros ->; apply H; now left). rewrite IH by (intros I; apply H; now right). reflexivity.
Qed.
Lemma contains_part p s : contains p s = true -> part_of p s.
Proof.
  assert (A : forall p s r, after_prefix p s = Some r -> s = p ++ r).
  { clear. induction p as [|c p IH]; intros s r H; cbn in H; [now injection H|]. destruct s as [|d s]; [discriminate|].
    destruct (Ascii.eqb_spec c d) as [->|]; [|discriminate]. apply IH in H as ->. reflexivity. }
  assert (S : forall p s, starts p s = true -> part_of p s).
  { intros q t H. unfold starts in H. destruct (after_prefix q t) as [r|] eqn:E; [|discriminate]. apply A in E as ->. exists [], r. reflexivity. }
  induction s as [|c s IH]; cbn [contains]; intros H.
  - rewrite orb_false_r in H. now apply S.
  - apply orb_true_iff in H as [H|H]; [now apply S|]. destruct (IH H) as (u & v & ->). exists (c :: u), v. reflexivity.
Qed.
Lemma contains_not p s : ~ part_of p s -> contains p s = false.
Proof. intros H. destruct (contains p s) eqn:E; auto. apply contains_part in E. tauto. Qed.
Lemma contains_pre u p v : contains p (u ++ p ++ v) = true.
Proof.
  assert (S : forall v, starts p (p ++ v) = true).
  { clear. intros v. unfold starts. induction p as [|c p IH]; cbn; auto. rewrite Ascii.eqb_refl. exact IH. }
  induction u as [|c u IH]; cbn [app].
  - specialize (S v). destruct (p ++ v); cbn [contains]; rewrite S; reflexivity.
  - cbn [contains]. rewrite IH. apply orb_true_r.
Qed.

(** words and classifiers *)
Lemma words_word w r : w <> [] -> (forall c, In c w -> is_space c = false) -> words (w ++ c_sp :: r) = w :: words r.
Proof.
  induction w as [|c w IH]; intros N H; [easy|]. cbn [app words]. rewrite (H c) by now left.
  destruct w as [|d w].
  - cbn [app]. reflexivity.
  - cbn [app] in *. rewrite (H d) by (right; now left). rewrite IH; [reflexivity|easy|]. intros x I. apply H. now right.
Qed.
Lemma words_last w : w <> [] -> (forall c, In c w -> is_space c = false) -> words w = [w].
Proof.
  induction w as [|c w IH]; intros N H; [easy|]. cbn [words]. rewrite (H c) by now left. destruct w as [|d w]; [reflexivity|].
  rewrite (H d) by (right; now left). rewrite IH; [reflexivity|easy|]. intros x I. apply H. now right.
Qed.
Lemma words_join l : Forall (fun w => w <> [] /\ forall ch, In ch w -> is_space ch = false) l -> words (join_sp l) = l.
Proof.
  intros H. induction H as [|w l [N S] H IH]; [reflexivity|]. cbn [join_sp]. destruct l as [|x l].
  - now apply words_last.
  - cbn [app]. rewrite words_word by auto. now rewrite IH.
Qed.
Lemma join_in c l : In c (join_sp l) -> c = c_sp \/ exists w, In w l /\ In c w.
Proof.
  induction l as [|w l IH]; [intros []|]. cbn [join_sp]. destruct l as [|x l].
  - intros I. right. exists w. split; auto. now left.
  - cbn [app]. rewrite in_app_iff. intros [I|[<-|I]]; [right; exists w; split; auto; now left|now left|].
    destruct (IH I) as [->|(y & Y & I')]; auto. right. exists y. split; auto. now right.
Qed.
