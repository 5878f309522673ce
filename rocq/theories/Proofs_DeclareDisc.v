(** Proofs about the discovery of DECLARE models. *)
From Coq Require Import List Arith Bool ZArith QArith Lia.
Import ListNotations.
From Verif Require Import Model_Dict Proofs_Dict Model_Dfg Spec_Dfg Proofs_Dfg Model_Declare Spec_Declare Proofs_Declare Props_Declare Model_DeclareDisc Spec_DeclareDisc.
Local Open Scope nat_scope.
Local Arguments keqb {K Key} : simpl never.
Local Arguments Nat.ltb : simpl never.
Local Arguments mem : simpl never.

(** ** Positions *)
Lemma pos_fold t : forall k d a, (forall x, In x t -> d_mem d x = true) ->
  idxs (fold_left (fun d ia => d_set d (snd ia) (idxs d (snd ia) ++ [fst ia])) (combine (seq k (length t)) t) d) a = idxs d a ++ posn k a t.
Proof.
  induction t as [|x t IH]; intros k d a H; cbn [length seq combine fold_left posn fst snd]; [rewrite app_nil_r; auto|]. rewrite IH.
  - unfold idxs at 1. rewrite d_get_set. change (keqb x a) with (Nat.eqb x a). destruct (Nat.eqb_spec x a) as [->|N]; [rewrite <- app_assoc; auto|reflexivity].
  - intros y Hy. unfold d_mem. rewrite d_get_set. destruct (keqb x y); auto. apply H. right. auto.
Qed.
Lemma init_idxs (l : list nat) a : idxs (map (fun x => (x, [])) l) a = [].
Proof. unfold idxs. induction l as [|x l IH]; cbn; auto. destruct (keqb x a); auto. Qed.
Lemma positions_posn t a : idxs (positions t) a = posn 0 a t.
Proof.
  unfold positions. rewrite pos_fold, init_idxs; auto. intros x H. apply d_mem_in. unfold d_keys. rewrite map_map, map_id. apply dedup_in. auto.
Qed.
Lemma posn_lt t : forall k a i, In i (posn k a t) -> k <= i.
Proof. intros k a i H. apply posn_in in H. lia. Qed.
Lemma posn_last t a : forall k, In a t -> exists u v, t = u ++ a :: v /\ ~ In a v /\ last (posn k a t) 0 = k + length u.
Proof.
  induction t as [|x t IH]; intros k H; [destruct H|]. destruct (in_dec Nat.eq_dec a t) as [I|N].
  - destruct (IH (S k) I) as (u & v & -> & H1 & H2). exists (x :: u), v. split; auto. split; auto. cbn [posn length].
    destruct (Nat.eqb x a); [|lia]. destruct (posn (S k) a (u ++ a :: v)) eqn:E; [|cbn [last] in *; lia].
    exfalso. assert (G : In (S k + length u) (posn (S k) a (u ++ a :: v))); [|rewrite E in G; destruct G]. apply posn_in. split; [lia|]. replace (S k + length u - S k) with (length u) by lia. rewrite nth_error_app2, Nat.sub_diag; auto.
  - destruct H as [->|H]; [|tauto]. exists [], t. split; auto. split; auto. cbn [posn]. rewrite Nat.eqb_refl, posn_nil by auto. cbn. lia.
Qed.
Lemma posn_first t a : forall k, In a t -> exists u v, t = u ++ a :: v /\ ~ In a u /\ nth 0 (posn k a t) 0 = k + length u.
Proof.
  induction t as [|x t IH]; intros k H; [destruct H|]. cbn [posn]. destruct (Nat.eqb_spec x a) as [->|N].
  - exists [], t. split; [reflexivity|]. split; [intros []|]. cbn [nth length]. lia.
  - destruct H as [H|H]; [tauto|]. destruct (IH (S k) H) as (u & v & -> & H1 & H2). exists (x :: u), v. split; auto. split; [intros [->|G]; tauto|]. rewrite H2. cbn. lia.
Qed.
Lemma response_last t a b : a <> b -> In a t -> In b t -> Nat.ltb (last (posn 0 a t) 0) (last (posn 0 b t) 0) = true <-> response t a b.
Proof.
  intros N Ha Hb. destruct (posn_last t a 0 Ha) as (u & v & E1 & N1 & ->). destruct (posn_last t b 0 Hb) as (u' & v' & E2 & N2 & ->). cbn [Nat.add]. rewrite Nat.ltb_lt. split.
  - intros L. apply response_pos. intros i Hi. exists (length u'). split; [|rewrite E2, nth_error_app2, Nat.sub_diag; auto].
    destruct (le_lt_dec i (length u)) as [|G]; [lia|]. exfalso. apply N1. rewrite E1, nth_error_app2 in Hi by lia. destruct (i - length u) as [|n] eqn:En; [lia|]. eapply nth_error_In. exact Hi.
  - intros R. apply R in E1 as G. rewrite response_pos in R. destruct (R (length u)) as (j & Lj & Hj); [rewrite E1, nth_error_app2, Nat.sub_diag; auto|].
    destruct (le_lt_dec j (length u')) as [|G']; [lia|]. exfalso. apply N2. rewrite E2, nth_error_app2 in Hj by lia. destruct (j - length u') as [|n] eqn:En; [lia|]. eapply nth_error_In. exact Hj.
Qed.
Lemma precedence_first t a b : a <> b -> In a t -> In b t -> Nat.ltb (nth 0 (posn 0 a t) 0) (nth 0 (posn 0 b t) 0) = true <-> precedence t a b.
Proof.
  intros N Ha Hb. destruct (posn_first t a 0 Ha) as (u & v & E1 & N1 & ->). destruct (posn_first t b 0 Hb) as (u' & v' & E2 & N2 & ->). cbn [Nat.add]. rewrite Nat.ltb_lt. split.
  - intros L. apply precedence_pos. intros j Hj. exists (length u). split; [|rewrite E1, nth_error_app2, Nat.sub_diag; auto].
    destruct (le_lt_dec (length u') j) as [|G]; [lia|]. exfalso. apply N2. rewrite E2, nth_error_app1 in Hj by lia. eapply nth_error_In. exact Hj.
  - intros R. rewrite precedence_pos in R. destruct (R (length u')) as (i & Li & Hi); [rewrite E2, nth_error_app2, Nat.sub_diag; auto|].
    destruct (le_lt_dec (length u) i) as [|G']; [lia|]. exfalso. apply N1. rewrite E1, nth_error_app1 in Hi by lia. eapply nth_error_In. exact Hi.
Qed.

(** ** The test on the lists of positions *)
Fixpoint lk (chain : bool) (p q : list nat) : bool :=
  match p, q with
  | [], [] => true
  | x :: p', y :: q' => negb (Nat.ltb y x) && match p' with [] => true | z :: _ => negb (Nat.ltb z y) end && (negb chain || Nat.eqb (x + 1) y) && lk chain p' q'
  | _, _ => false
  end.
Lemma forallb_map' {A B} (f : B -> bool) (g : A -> B) l : forallb f (map g l) = forallb (fun x => f (g x)) l.
Proof. induction l as [|x l IH]; cbn; auto. rewrite IH. auto. Qed.
Lemma forallb_eq {A} (f g : A -> bool) l : (forall x, In x l -> f x = g x) -> forallb f l = forallb g l.
Proof. induction l as [|x l IH]; intros H; cbn; auto. rewrite (H x (or_introl eq_refl)), IH; auto. intros y Hy. apply H. right. auto. Qed.
Lemma lists_ok_lk chain p : forall q, lists_ok chain p q = lk chain p q.
Proof.
  induction p as [|x p IH]; intros [|y q]; auto. cbn [lk]. rewrite <- IH. unfold lists_ok. cbn [length seq forallb]. rewrite <- seq_shift, forallb_map'. cbn [Nat.eqb nth Nat.add].
  destruct (Nat.eqb (length p) (length q)) eqn:El; cbn [andb]; [|rewrite andb_false_r; auto]. f_equal.
  - replace (S (length p) - 1) with (length p) by lia. destruct p as [|z p]; cbn [length nth].
    + change (Nat.ltb 0 0) with false. cbn [andb]. rewrite orb_false_r, andb_true_r. auto.
    + change (Nat.ltb 0 (S (length p))) with true. cbn [andb]. destruct (Nat.ltb y x), (Nat.ltb z y), chain, (Nat.eqb (x + 1) y); auto.
  - apply forallb_eq. intros i _. replace (Nat.ltb (S i) (S (length p) - 1)) with (Nat.ltb i (length p - 1)); [auto|].
    destruct (Nat.ltb_spec i (length p - 1)), (Nat.ltb_spec (S i) (S (length p) - 1)); auto; lia.
Qed.
(** the positions of a in a list of occurrences *)
Definition only (a : nat) (l : list (nat * nat)) : list nat := map snd (filter (fun xi => Nat.eqb (fst xi) a) l).
Lemma only_posn a b x t : x = a \/ x = b -> forall k, only x (occs k a b t) = posn k x t.
Proof.
  intros Hx. induction t as [|y t IH]; intros k; cbn [occs posn]; auto. destruct (Nat.eqb_spec y x) as [->|N].
  - replace (Nat.eqb x a || Nat.eqb x b) with true by (symmetry; apply orb_true_iff; destruct Hx as [->| ->]; [left|right]; apply Nat.eqb_refl).
    unfold only. cbn [filter fst]. rewrite Nat.eqb_refl. cbn [map snd]. f_equal. apply IH.
  - destruct (_ || _); [|apply IH]. unfold only. cbn [filter fst]. destruct (Nat.eqb_spec y x); [tauto|]. apply IH.
Qed.
Inductive inc : list (nat * nat) -> Prop :=
  | inc_nil : inc []
  | inc_cons x i l : (forall y j, In (y, j) l -> i < j) -> inc l -> inc ((x, i) :: l).
Lemma occs_inc t : forall k a b, inc (occs k a b t).
Proof.
  induction t as [|x t IH]; intros k a b; cbn [occs]; [constructor|]. destruct (_ || _); auto. constructor; auto. intros y j H. apply occs_ge in H. lia.
Qed.
Lemma only_gt a l i : (forall y j, In (y, j) l -> i < j) -> forall j, In j (only a l) -> i < j.
Proof. intros H j Hj. unfold only in Hj. apply in_map_iff in Hj. destruct Hj as ([y j'] & <- & G). apply filter_In in G. destruct G as [G _]. eapply H; eauto. Qed.
Lemma lk_pk chain a b l : a <> b -> inc l -> (forall x i, In (x, i) l -> x = a \/ x = b) -> lk chain (only a l) (only b l) = pk chain a b l.
Proof.
  intros N. assert (Nba : Nat.eqb b a = false) by (apply Nat.eqb_neq; auto). assert (Nab : Nat.eqb a b = false) by (apply Nat.eqb_neq; auto).
  induction l as [|[x i]|[x i] [y j] r IH] using two_step; intros S W.
  - auto.
  - destruct (W x i (or_introl eq_refl)) as [->| ->]; unfold only; cbn [filter fst]; rewrite ?Nat.eqb_refl, ?Nba, ?Nab; auto.
  - inversion S as [|? ? ? S1 S2]; subst. inversion S2 as [|? ? ? S3 S4]; subst. specialize (IH S4 (fun z n H => W z n (or_intror (or_intror H)))).
    assert (Lij : i < j) by (apply (S1 y); left; auto).
    destruct (W x i (or_introl eq_refl)) as [->| ->].
    + destruct (W y j (or_intror (or_introl eq_refl))) as [->| ->].
      * (* a a *) cbn [pk fst]. rewrite Nab, andb_false_r. cbn [andb]. unfold only. cbn [filter fst]. rewrite Nat.eqb_refl, Nab. cbn [map snd].
        fold (only a r). fold (only b r). destruct (only b r) as [|z q] eqn:E; [auto|]. cbn [lk]. assert (L : j < z) by (eapply (only_gt b r); [exact S3|rewrite E; left; auto]).
        replace (Nat.ltb j z) with true by (symmetry; apply Nat.ltb_lt; auto). cbn [negb]. rewrite andb_false_r. auto.
      * (* a b *) cbn [pk fst snd]. rewrite !Nat.eqb_refl. cbn [andb]. unfold only. cbn [filter fst]. rewrite !Nat.eqb_refl, Nba, Nab. cbn [map snd]. fold (only a r). fold (only b r). cbn [lk]. rewrite IH.
        replace (Nat.ltb j i) with false by (symmetry; apply Nat.ltb_ge; lia). cbn [negb andb]. rewrite (Nat.eqb_sym j (i + 1)).
        assert (M : match only a r with [] => true | z :: _ => negb (Nat.ltb z j) end = true); [|rewrite M; auto].
        destruct (only a r) as [|z q] eqn:E; auto. assert (L : j < z) by (eapply (only_gt a r); [exact S3|rewrite E; left; auto]). apply negb_true_iff, Nat.ltb_ge. lia.
    + (* b *) cbn [pk fst]. rewrite Nba. cbn [andb]. unfold only at 2. cbn [filter fst]. rewrite Nat.eqb_refl. cbn [map snd].
      assert (G : forall n, In n (only a ((b, i) :: (y, j) :: r)) -> i < n).
      { intros n Hn. unfold only in Hn. cbn [filter fst] in Hn. rewrite Nba in Hn. eapply (only_gt a ((y, j) :: r)); [exact S1|exact Hn]. }
      destruct (only a ((b, i) :: (y, j) :: r)) as [|z p]; auto. cbn [lk]. specialize (G z (or_introl eq_refl)). replace (Nat.ltb i z) with true by (symmetry; apply Nat.ltb_lt; auto). auto.
Qed.
Lemma lists_ok_succ chain t a b : a <> b -> lists_ok chain (posn 0 a t) (posn 0 b t) = true <-> succ chain t a b.
Proof.
  intros N. rewrite lists_ok_lk, <- (only_posn a b a t (or_introl eq_refl)), <- (only_posn a b b t (or_intror eq_refl)), lk_pk; auto.
  - apply pk_succ. auto.
  - apply occs_inc.
  - intros x i H. assert (G : In x (map fst (occs 0 a b t))) by (apply in_map_iff; exists (x, i); auto). rewrite occs_fst in G. apply word_in in G. auto.
Qed.

(** ** The value of a constraint in a trace *)
Definition b01 (c : bool) : Z := if c then 1%Z else (-1)%Z.
Definition vbase (T : template) (t : trace) (k : key) : Z :=
  let '(a, b) := k in
  match T with
  | EXISTENCE => b01 (mem a t)
  | EXACTLY_ONE => if mem a t then b01 (Nat.eqb (c_get (c_of t) a) 1) else 0%Z
  | INIT => match t with [] => (-1)%Z | x :: _ => b01 (Nat.eqb a x) end
  | RESPONDED_EXISTENCE => if mem a t then b01 (mem b t) else 0%Z
  | RESPONSE => if mem a t then b01 (mem b t && Nat.ltb (last (posn 0 a t) 0) (last (posn 0 b t) 0)) else 0%Z
  | PRECEDENCE => if mem a t && mem b t then b01 (Nat.ltb (nth 0 (posn 0 a t) 0) (nth 0 (posn 0 b t) 0)) else 0%Z
  | ALTRESPONSE => if mem a t then b01 (mem b t && lists_ok false (posn 0 a t) (posn 0 b t)) else 0%Z
  | CHAINRESPONSE => if mem a t then b01 (mem b t && lists_ok true (posn 0 a t) (posn 0 b t)) else 0%Z
  | ALTPRECEDENCE => if mem a t && mem b t then b01 (lists_ok false (posn 0 a t) (posn 0 b t)) else 0%Z
  | CHAINPRECEDENCE => if mem a t && mem b t then b01 (lists_ok true (posn 0 a t) (posn 0 b t)) else 0%Z
  | _ => 0%Z
  end.
Definition val (T : template) (t : trace) (k : key) : Z :=
  match T with
  | ABSENCE => (-1 * vbase EXISTENCE t k)%Z
  | SUCCESSION => Z.min (vbase RESPONSE t k) (vbase PRECEDENCE t k)
  | ALTSUCCESSION => Z.min (vbase ALTRESPONSE t k) (vbase ALTPRECEDENCE t k)
  | CHAINSUCCESSION => Z.min (vbase CHAINRESPONSE t k) (vbase CHAINPRECEDENCE t k)
  | COEXISTENCE => Z.min (vbase RESPONDED_EXISTENCE t k) (vbase RESPONDED_EXISTENCE t (snd k, fst k))
  | NONCOEXISTENCE => (-1 * Z.min (vbase RESPONDED_EXISTENCE t k) (vbase RESPONDED_EXISTENCE t (snd k, fst k)))%Z
  | NONSUCCESSION => (-1 * Z.min (vbase RESPONSE t k) (vbase PRECEDENCE t k))%Z
  | NONCHAINSUCCESSION => (-1 * Z.min (vbase CHAINRESPONSE t k) (vbase CHAINPRECEDENCE t k))%Z
  | _ => vbase T t k
  end.
Lemma b01_nz c : b01 c <> 0%Z. Proof. destruct c; discriminate. Qed.
Lemma b01_1 c : b01 c = 1%Z <-> c = true. Proof. destruct c; cbn; split; congruence. Qed.
Lemma val_activated T t k : val T t k <> 0%Z <-> activated T t k.
Proof.
  destruct k as [a b]. pose proof (mem_in a t) as Ma. pose proof (mem_in b t) as Mb.
  destruct T; cbn [val vbase activated fst snd]; try (destruct t; (split; [auto|intros _; try apply b01_nz; discriminate]));
    rewrite <- ?Ma, <- ?Mb; destruct (mem a t), (mem b t); cbn [andb]; unfold b01;
    repeat match goal with |- context [if ?c then _ else _] => destruct c end; cbn; split; intros; try congruence; try tauto; try (intuition congruence).
Qed.
Lemma response_absent t a b : In a t -> ~ In b t -> ~ response t a b.
Proof. intros Ha Hb R. apply in_split in Ha. destruct Ha as (u & v & ->). apply Hb, in_or_app. right. right. eapply R. eauto. Qed.
Lemma succ_response chain t a b : succ chain t a b -> response t a b.
Proof.
  intros H u v E. destruct chain; cbn in H; destruct H as [H _]; destruct (H _ _ E) as [v' G].
  - subst. left. auto.
  - destruct G as (v2 & -> & _). apply in_or_app. right. left. auto.
Qed.
Lemma val_tested T t a b : (binary T -> a <> b) -> activated T t (a, b) -> val T t (a, b) = 1%Z <-> tested T t (a, b).
Proof.
  intros Hb. pose proof (mem_in a t) as Ma. pose proof (mem_in b t) as Mb. pose proof (response_last t a b) as Rl. pose proof (precedence_first t a b) as Pf.
  pose proof (lists_ok_succ false t a b) as Lf. pose proof (lists_ok_succ true t a b) as Lt. pose proof (response_absent t a b) as Ra.
  pose proof (succ_response false t a b) as Sf. pose proof (succ_response true t a b) as St.
  cbn [succ] in *. unfold alt_succ, chain_succ in *.
  destruct T; cbn [binary] in Hb; try specialize (Hb I); cbn [val vbase activated tested holds fst snd]; intros A.
  - rewrite b01_1. auto.
  - apply Ma in A. rewrite A, b01_1, Nat.eqb_eq. apply exactly_one_iff.
  - destruct t as [|x t]; [split; [discriminate|intros (v & ?); discriminate]|]. rewrite b01_1, Nat.eqb_eq. split; [intros ->; eauto|intros (v & [= -> _]); auto].
  - apply Ma in A as A'. rewrite A', b01_1. tauto.
  - apply Ma in A as A'. rewrite A', b01_1, andb_true_iff. destruct (mem b t) eqn:Eb.
    + assert (In b t) by (apply Mb; auto). rewrite Rl; auto. tauto.
    + split; [intros []; discriminate|]. intros R. exfalso. apply Ra; auto. intros X. apply Mb in X. congruence.
  - destruct A as [A1 A2]. apply Ma in A1 as A1'. apply Mb in A2 as A2'. rewrite A1', A2'. cbn [andb]. rewrite b01_1. auto.
  - apply Ma in A as A'. rewrite A'. destruct (mem b t) eqn:Eb; cbn [andb].
    + assert (B : In b t) by (apply Mb; auto). specialize (Rl Hb A B). specialize (Pf Hb A B). destruct (Nat.ltb (last _ _) _), (Nat.ltb (nth _ _ _) _); cbn; split; intros; try congruence; try tauto; intuition congruence.
    + split; [discriminate|]. intros [R _]. exfalso. apply Ra; auto. intros X. apply Mb in X. congruence.
  - apply Ma in A as A'. rewrite A', b01_1, andb_true_iff. rewrite Lf by auto. split; [tauto|]. intros H. split; auto. destruct (mem b t) eqn:Eb; auto. exfalso. apply Ra; auto. intros X. apply Mb in X. congruence.
  - destruct A as [A1 A2]. apply Ma in A1 as A1'. apply Mb in A2 as A2'. rewrite A1', A2'. cbn [andb]. rewrite b01_1. auto.
  - apply Ma in A as A'. rewrite A'. destruct (mem b t) eqn:Eb; cbn [andb].
    + specialize (Lf Hb). destruct (lists_ok false _ _); cbn; split; intros; try congruence; try tauto; intuition congruence.
    + split; [discriminate|]. intros H. exfalso. apply Ra; auto. intros X. apply Mb in X. congruence.
  - apply Ma in A as A'. rewrite A', b01_1, andb_true_iff. rewrite Lt by auto. split; [tauto|]. intros H. split; auto. destruct (mem b t) eqn:Eb; auto. exfalso. apply Ra; auto. intros X. apply Mb in X. congruence.
  - destruct A as [A1 A2]. apply Ma in A1 as A1'. apply Mb in A2 as A2'. rewrite A1', A2'. cbn [andb]. rewrite b01_1. auto.
  - apply Ma in A as A'. rewrite A'. destruct (mem b t) eqn:Eb; cbn [andb].
    + specialize (Lt Hb). destruct (lists_ok true _ _); cbn; split; intros; try congruence; try tauto; intuition congruence.
    + split; [discriminate|]. intros H. exfalso. apply Ra; auto. intros X. apply Mb in X. congruence.
  - rewrite <- Ma. destruct (mem a t); cbn; split; congruence.
  - rewrite <- Ma, <- Mb in A. rewrite <- Ma, <- Mb. clear Ma Mb Ra Rl Pf. destruct (mem a t), (mem b t); cbn; split; intros; try congruence; try tauto; intuition congruence.
  - rewrite <- Ma, <- Mb in A. rewrite <- Ma, <- Mb. clear Ma Mb Ra Rl Pf. destruct (mem a t), (mem b t); cbn; split; intros; try congruence; try tauto; intuition congruence.
  - apply Ma in A as A'. rewrite A'. destruct (mem b t) eqn:Eb; cbn [andb].
    + assert (B : In b t) by (apply Mb; auto). specialize (Rl Hb A B). specialize (Pf Hb A B). destruct (Nat.ltb (last _ _) _), (Nat.ltb (nth _ _ _) _); cbn; split; intros; try congruence; try tauto; intuition congruence.
    + split; auto. intros _ [R _]. apply Ra; auto. intros X. apply Mb in X. congruence.
  - apply Ma in A as A'. rewrite A'. destruct (mem b t) eqn:Eb; cbn [andb].
    + specialize (Lt Hb). destruct (lists_ok true _ _); cbn [b01 Z.min Z.mul]; split; intros H; try discriminate; [exfalso; apply H, Lt; auto|intros G; apply Lt in G; discriminate|reflexivity].
    + split; auto. intros _ H. apply Ra; auto. intros X. apply Mb in X. congruence.
Qed.
