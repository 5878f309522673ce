(** Structural facts about the net of a tree: identifiers, weights, arcs of the places. *)
From Coq Require Import List Arith Lia Bool ZArith Permutation.
Import ListNotations.
From Verif Require Import Model_Petri Model_Tree Model_TreeNet Spec_Tree Proofs_Shuffle Proofs_Block Proofs_TreeNet.

Definition unit1 (t : tr) : Prop := t_in t = arcs (pre t) /\ t_out t = arcs (post t).
Lemma unit1_mk x l a b : unit1 (mk_trans x l a b).
Proof. split; rewrite ?pre_mk, ?post_mk; reflexivity. Qed.
Definition ids (n : nat) (B : list tr) (n' : nat) : Prop :=
  n <= n' /\ NoDup (map t_id B) /\ (forall t, In t B -> n <= t_id t < n') /\ (forall t, In t B -> unit1 t).
Lemma ids_nil n : ids n [] n.
Proof. split; [auto|]. split; [constructor|]. split; intros t []. Qed.
Lemma ids_cons n x l a b B n' : x = n -> ids (S n) B n' -> ids n (mk_trans x l a b :: B) n'.
Proof.
  intros -> (H1 & H2 & H3 & H4). split; [lia|]. split; [|split].
  - cbn. constructor; auto. intros H. apply in_map_iff in H as (t & E & Ht). apply H3 in Ht. lia.
  - intros t [<-|Ht]; [cbn; lia|apply H3 in Ht; lia].
  - intros t [<-|Ht]; [apply unit1_mk|auto].
Qed.
Lemma nodup_app {X} (l k : list X) : NoDup l -> NoDup k -> (forall x, In x l -> ~ In x k) -> NoDup (l ++ k).
Proof.
  induction 1 as [|x l Hx Hl IH]; intros Hk Hd; [auto|]. cbn. constructor.
  - intros H. apply in_app_iff in H as [H|H]; [auto|apply (Hd x); auto; left; auto].
  - apply IH; auto. intros y Hy. apply Hd. right; auto.
Qed.
Lemma ids_app n B n1 B' n2 : ids n B n1 -> ids n1 B' n2 -> ids n (B ++ B') n2.
Proof.
  intros (H1 & H2 & H3 & H4) (K1 & K2 & K3 & K4). split; [lia|]. split; [|split].
  - rewrite map_app. apply nodup_app; auto. intros x Hx Hx'. apply in_map_iff in Hx as (t & E & Ht), Hx' as (t' & E' & Ht').
    apply H3 in Ht. apply K3 in Ht'. lia.
  - intros t Ht. apply in_app_iff in Ht as [Ht|Ht]; [apply H3 in Ht|apply K3 in Ht]; lia.
  - intros t Ht. apply in_app_iff in Ht as [Ht|Ht]; auto.
Qed.
Lemma ids_perm n B B' n' : Permutation B B' -> ids n B n' -> ids n B' n'.
Proof.
  intros HP (H1 & H2 & H3 & H4). split; [lia|]. split; [|split].
  - eapply Permutation_NoDup; [apply Permutation_map; exact HP|auto].
  - intros t Ht. apply H3. eapply Permutation_in; [symmetry; exact HP|auto].
  - intros t Ht. apply H4. eapply Permutation_in; [symmetry; exact HP|auto].
Qed.
Lemma ids_one n l a b : ids n [mk_trans n l a b] (S n).
Proof. apply ids_cons; auto. apply ids_nil. Qed.

Definition outp (B : list tr) (p : nat) : Prop := exists t, In t B /\ In p (pre t).
Definition inp (B : list tr) (p : nat) : Prop := exists t, In t B /\ In p (post t).
Lemma outp_incl B B' p : (forall t, In t B -> In t B') -> outp B p -> outp B' p.
Proof. intros H (t & Ht & Hp). exists t. auto. Qed.
Lemma inp_incl B B' p : (forall t, In t B -> In t B') -> inp B p -> inp B' p.
Proof. intros H (t & Ht & Hp). exists t. auto. Qed.
Lemma outp_head x l a b B p : In p a -> outp (mk_trans x l a b :: B) p.
Proof. intros H. exists (mk_trans x l a b). split; [left; auto|rewrite pre_mk; auto]. Qed.
Lemma inp_head x l a b B p : In p b -> inp (mk_trans x l a b :: B) p.
Proof. intros H. exists (mk_trans x l a b). split; [left; auto|rewrite post_mk; auto]. Qed.
Lemma outp_cons t B p : outp B p -> outp (t :: B) p. Proof. apply outp_incl. intros; right; auto. Qed.
Lemma inp_cons t B p : inp B p -> inp (t :: B) p. Proof. apply inp_incl. intros; right; auto. Qed.
Lemma outp_l B B' p : outp B p -> outp (B ++ B') p. Proof. apply outp_incl. intros. apply in_app_iff; auto. Qed.
Lemma inp_l B B' p : inp B p -> inp (B ++ B') p. Proof. apply inp_incl. intros. apply in_app_iff; auto. Qed.
Lemma outp_r B B' p : outp B' p -> outp (B ++ B') p. Proof. apply outp_incl. intros. apply in_app_iff; auto. Qed.
Lemma inp_r B B' p : inp B' p -> inp (B ++ B') p. Proof. apply inp_incl. intros. apply in_app_iff; auto. Qed.

Definition shape (c : tree nat) : Prop := forall i f s B s', add_tree c i f s = (B, s') ->
  next_place s <= next_place s' /\ ids (next_trans s) B (next_trans s') /\ outp B i /\ inp B f /\
  (forall p, within s s' p -> outp B p /\ inp B p).
Ltac pp := cbn [next_place next_trans new_place new_trans] in *.
Ltac ww := unfold within in *; pp; lia.
Ltac oi := auto 9 using outp_l, inp_l, outp_r, inp_r, outp_cons, inp_cons.

Lemma choice_shape cs : Forall shape cs -> cs <> [] -> forall i f s B s', add_choice add_tree cs i f s = (B, s') ->
  next_place s <= next_place s' /\ ids (next_trans s) B (next_trans s') /\ outp B i /\ inp B f /\
  (forall p, within s s' p -> outp B p /\ inp B p).
Proof.
  induction 1 as [|c cs Hc Hcs IH]; intros Hne i f s B s' E; [congruence|]. cbn in E.
  destruct (add_tree c i f s) as [b s1] eqn:E1. destruct (Hc _ _ _ _ _ E1) as (A1 & A2 & A3 & A4 & A5).
  destruct (add_choice add_tree cs i f s1) as [b' s2] eqn:E2. inversion E; subst.
  destruct cs as [|c2 cs].
  - cbn in E2. inversion E2; subst. rewrite app_nil_r. auto.
  - destruct (IH ltac:(discriminate) _ _ _ _ _ E2) as (C1 & C2 & C3 & C4 & C5).
    split; [lia|]. split; [eapply ids_app; eauto|]. split; [oi|]. split; [oi|]. intros p Hp.
    destruct (le_lt_dec (next_place s1) p); [destruct (C5 p) as [? ?]|destruct (A5 p) as [? ?]]; try ww; split; oi.
Qed.
Lemma seq_shape cs : Forall shape cs -> cs <> [] -> forall i f s B s', add_seq add_tree cs i f s = (B, s') ->
  next_place s <= next_place s' /\ ids (next_trans s) B (next_trans s') /\ outp B i /\ inp B f /\
  (forall p, within s s' p -> outp B p /\ inp B p).
Proof.
  induction 1 as [|c cs Hc Hcs IH]; intros Hne i f s B s' E; [congruence|].
  destruct cs as [|c2 cs]; [exact (Hc _ _ _ _ _ E)|].
  remember (c2 :: cs) as cs2 eqn:Ecs. assert (Hne2 : cs2 <> []) by (subst; discriminate).
  assert (E' : (let '(b, s1) := add_tree c i (next_place s) (Counts (S (next_place s)) (next_trans s)) in
                let '(b', s2) := add_seq add_tree cs2 (next_place s) f s1 in (b ++ b', s2)) = (B, s')) by (rewrite <- E, Ecs; reflexivity).
  clear E Ecs. destruct (add_tree c i (next_place s) _) as [b s1] eqn:E1.
  destruct (Hc _ _ _ _ _ E1) as (A1 & A2 & A3 & A4 & A5). pp.
  destruct (add_seq add_tree cs2 (next_place s) f s1) as [b' s2] eqn:E2. inversion E'; subst.
  destruct (IH Hne2 _ _ _ _ _ E2) as (C1 & C2 & C3 & C4 & C5).
  split; [lia|]. split; [eapply ids_app; eauto|]. split; [oi|]. split; [oi|]. intros p Hp.
  destruct (Nat.eq_dec p (next_place s)) as [->|Hn]; [split; oi|].
  destruct (le_lt_dec (next_place s1) p); [destruct (C5 p) as [? ?]|destruct (A5 p) as [? ?]]; try ww; split; oi.
Qed.
Lemma par_shape cs : Forall shape cs -> forall s inits ends B s', add_par add_tree cs s = (inits, ends, B, s') ->
  next_place s <= next_place s' /\ ids (next_trans s) B (next_trans s') /\
  (forall p, In p inits -> outp B p) /\ (forall p, In p ends -> inp B p) /\
  (forall p, within s s' p -> (outp B p \/ In p ends) /\ (inp B p \/ In p inits)).
Proof.
  induction 1 as [|c cs Hc Hcs IH]; intros s inits ends B s' E; cbn in E.
  - inversion E; subst. split; [lia|]. split; [apply ids_nil|]. split; [intros ? []|]. split; [intros ? []|]. intros p Hp. ww.
  - destruct (add_tree c _ _ _) as [b s1] eqn:E1. destruct (Hc _ _ _ _ _ E1) as (A1 & A2 & A3 & A4 & A5). pp.
    destruct (add_par add_tree cs s1) as [[[is es] b'] s2] eqn:E2. destruct (IH _ _ _ _ _ E2) as (C1 & C2 & C3 & C4 & C5). inversion E; subst.
    split; [lia|]. split; [eapply ids_app; eauto|]. split; [intros p [<-|Hp]; oi|]. split; [intros p [<-|Hp]; oi|]. intros p Hp.
    destruct (Nat.eq_dec p (next_place s)) as [->|H1]; [split; [left; oi|right; left; auto]|].
    destruct (Nat.eq_dec p (S (next_place s))) as [->|H2]; [split; [right; left; auto|left; oi]|].
    destruct (le_lt_dec (next_place s1) p).
    + destruct (C5 p) as [[?|?] [?|?]]; try ww; split; ((left; solve [oi]) || (right; right; auto)).
    + destruct (A5 p) as [? ?]; try ww; split; left; oi.
Qed.
Lemma or_shape first term cs : Forall shape cs -> forall s inits ends B s', add_or add_tree first term cs s = (inits, ends, B, s') ->
  next_place s <= next_place s' /\ ids (next_trans s) B (next_trans s') /\
  (cs <> [] -> outp B first /\ outp B term /\ inp B term) /\
  (forall p, In p ends -> inp B p) /\
  (forall p, within s s' p -> (outp B p \/ In p ends) /\ (inp B p \/ In p inits)).
Proof.
  induction 1 as [|c cs Hc Hcs IH]; intros s inits ends B s' E; cbn in E.
  - inversion E; subst. split; [lia|]. split; [apply ids_nil|]. split; [congruence|]. split; [intros ? []|]. intros p Hp. ww.
  - destruct (add_tree c _ _ _) as [b s1] eqn:E1. destruct (Hc _ _ _ _ _ E1) as (A1 & A2 & A3 & A4 & A5). pp.
    destruct (add_or add_tree first term cs s1) as [[[is es] b'] s2] eqn:E2. destruct (IH _ _ _ _ _ E2) as (C1 & C2 & C3 & C4 & C5). inversion E; subst.
    split; [lia|]. split.
    { apply ids_cons; [auto|]. apply ids_cons; [auto|]. apply ids_cons; [auto|]. eapply ids_app; eauto. }
    split; [intros _; split; [apply outp_head; left; auto|split; [apply outp_cons, outp_head; left; auto|apply inp_head; right; left; auto]]|].
    split; [intros p [<-|Hp]; oi|]. intros p Hp.
    destruct (Nat.eq_dec p (next_place s)) as [->|H1]; [split; [left; apply outp_head; right; left; auto|right; left; auto]|].
    destruct (Nat.eq_dec p (S (next_place s))) as [->|H2]; [split; left; [oi|apply inp_head; left; auto]|].
    destruct (Nat.eq_dec p (S (S (next_place s)))) as [->|H3]; [split; [right; left; auto|left; oi]|].
    destruct (le_lt_dec (next_place s1) p).
    + destruct (C5 p) as [[?|?] [?|?]]; try ww; split; ((left; solve [oi]) || (right; right; auto)).
    + destruct (A5 p) as [? ?]; try ww; split; left; oi.
Qed.
Lemma int_shape ctl cs : Forall shape cs -> forall s inits ends B s', add_int add_tree ctl cs s = (inits, ends, B, s') ->
  next_place s <= next_place s' /\ ids (next_trans s) B (next_trans s') /\
  (forall p, within s s' p -> (outp B p \/ In p ends) /\ (inp B p \/ In p inits)).
Proof.
  induction 1 as [|c cs Hc Hcs IH]; intros s inits ends B s' E; cbn in E.
  - inversion E; subst. split; [lia|]. split; [apply ids_nil|]. intros p Hp. ww.
  - destruct (add_tree c _ _ _) as [b s1] eqn:E1. destruct (Hc _ _ _ _ _ E1) as (A1 & A2 & A3 & A4 & A5). pp.
    destruct (add_int add_tree ctl cs s1) as [[[is es] b'] s2] eqn:E2. destruct (IH _ _ _ _ _ E2) as (C1 & C2 & C5). inversion E; subst.
    split; [lia|]. split.
    { apply ids_cons; [auto|]. apply ids_cons; [auto|]. eapply ids_app; eauto. }
    intros p Hp.
    destruct (Nat.eq_dec p (next_place s)) as [->|H1]; [split; [left; apply outp_head; left; auto|right; left; auto]|].
    destruct (Nat.eq_dec p (S (next_place s))) as [->|H2]; [split; [right; left; auto|left; apply inp_cons, inp_head; left; auto]|].
    destruct (Nat.eq_dec p (S (S (next_place s)))) as [->|H3]; [split; left; [oi|apply inp_head; left; auto]|].
    destruct (Nat.eq_dec p (S (S (S (next_place s))))) as [->|H4]; [split; left; [apply outp_cons, outp_head; left; auto|oi]|].
    destruct (le_lt_dec (next_place s1) p).
    + destruct (C5 p) as [[?|?] [?|?]]; try ww; split; ((left; solve [oi]) || (right; right; auto)).
    + destruct (A5 p) as [? ?]; try ww; split; left; oi.
Qed.

Theorem add_tree_shape t : wf_tree t -> shape t.
Proof.
  induction t as [l|o cs IH] using tree_ind2; intros Hwf i f s B s' E.
  - cbn in E. inversion E; subst. cbn. split; [lia|]. split; [apply ids_one|]. split; [apply outp_head; left; auto|]. split; [apply inp_head; left; auto|]. intros p Hp; ww.
  - apply wf_node_inv in Hwf as (Hsh & Hwf). pose proof (shape_ok_nonempty _ _ Hsh) as Hne.
    assert (HS : Forall shape cs).
    { clear E Hsh Hne. induction IH as [|c cs Hc IH' IH2]; constructor; inversion Hwf; subst; auto. }
    clear IH Hwf. destruct o.
    + apply (seq_shape cs HS Hne i f s); auto.
    + apply (choice_shape cs HS Hne i f s); auto.
    + (* parallel *) cbn in E. destruct (add_par add_tree cs _) as [[[inits ends] b] s1] eqn:E1. inversion E; subst.
      destruct (par_shape cs HS _ _ _ _ _ E1) as (A1 & A2 & A3 & A4 & A5). pp. split; [lia|].
      split; [apply ids_cons; auto; apply ids_cons; auto|]. split; [apply outp_head; left; auto|]. split; [apply inp_cons, inp_head; left; auto|].
      intros p Hp. destruct (A5 p) as [[?|?] [?|?]]; try ww; split; try (solve [oi]); try (apply inp_head; auto); apply outp_cons, outp_head; auto.
    + (* loop *) destruct cs as [|d rs]; [congruence|]. destruct rs as [|r rs]; [cbn in Hsh; lia|].
      remember (r :: rs) as rs2 eqn:Ers. assert (Hne2 : rs2 <> []) by (subst; discriminate).
      set (s0 := Counts (S (S (next_place s))) (S (S (next_trans s)))) in *.
      assert (E' : (let '(bd, s1) := add_tree d (next_place s) (S (next_place s)) s0 in
                    let '(br, s2) := add_choice add_tree rs2 (S (next_place s)) (next_place s1) (Counts (S (next_place s1)) (next_trans s1)) in
                    (mk_trans (next_trans s) None [i] [next_place s] :: mk_trans (S (next_trans s)) None [next_place s1] [next_place s] ::
                     mk_trans (next_trans s2) None [S (next_place s)] [f] :: bd ++ br, Counts (next_place s2) (S (next_trans s2)))) = (B, s')).
      { rewrite <- E, Ers. unfold s0. cbn. destruct (add_tree d _ _ _) as [bd s1]. cbn. destruct (add_tree r _ _ _) as [b2 s2]. destruct (add_choice _ _ _ _ _) as [b3 s3]. reflexivity. }
      clear E Ers. inversion HS as [|? ? Hd Hrs]; subst. destruct (add_tree d _ _ s0) as [bd s1] eqn:E1. unfold s0 in E1.
      destruct (Hd _ _ _ _ _ E1) as (A1 & A2 & A3 & A4 & A5). pp.
      destruct (add_choice _ _ _ _ _) as [br s2] eqn:E2. destruct (choice_shape rs2 Hrs Hne2 _ _ _ _ _ E2) as (C1 & C2 & C3 & C4 & C5). pp.
      inversion E'; subst. pp. split; [lia|]. split.
      { apply ids_cons; auto. apply ids_cons; auto.
        eapply ids_perm; [apply (Permutation_sym (Permutation_cons_append (bd ++ br) _))|]. rewrite <- app_assoc.
        eapply ids_app; [exact A2|]. eapply ids_app; [exact C2|apply ids_one]. }
      split; [apply outp_head; left; auto|]. split; [apply inp_cons, inp_cons, inp_head; left; auto|]. intros p Hp.
      destruct (Nat.eq_dec p (next_place s)) as [->|H1]; [split; [oi|apply inp_head; left; auto]|].
      destruct (Nat.eq_dec p (S (next_place s))) as [->|H2]; [split; oi|].
      destruct (Nat.eq_dec p (next_place s1)) as [->|H3]; [split; [apply outp_cons, outp_head; left; auto|oi]|].
      destruct (le_lt_dec (next_place s1) p); [destruct (C5 p) as [? ?]|destruct (A5 p) as [? ?]]; try ww; split; oi.
    + (* or *) cbn in E. destruct (add_or add_tree _ _ cs _) as [[[inits ends] b] s1] eqn:E1. inversion E; subst.
      destruct (or_shape _ _ cs HS _ _ _ _ _ E1) as (A1 & A2 & A3 & A4 & A5). pp. destruct (A3 Hne) as (B1 & B2 & B3). split; [lia|].
      split; [apply ids_cons; auto; apply ids_cons; auto|]. split; [apply outp_head; left; auto|]. split; [apply inp_cons, inp_head; left; auto|].
      intros p Hp.
      destruct (Nat.eq_dec p (next_place s)) as [->|H1]; [split; oi|].
      destruct (Nat.eq_dec p (S (next_place s))) as [->|H2]; [split; [oi|apply inp_head; left; auto]|].
      destruct (A5 p) as [[?|?] [?|?]]; try ww; split; try (solve [oi]); try (apply inp_head; right; auto); apply outp_cons, outp_head; right; auto.
    + (* interleaving *) cbn in E. destruct (add_int add_tree _ cs _) as [[[inits ends] b] s1] eqn:E1. inversion E; subst.
      destruct (int_shape _ cs HS _ _ _ _ _ E1) as (A1 & A2 & A5). pp. split; [lia|].
      split; [apply ids_cons; auto; apply ids_cons; auto|]. split; [apply outp_head; left; auto|]. split; [apply inp_cons, inp_head; left; auto|].
      intros p Hp.
      destruct (Nat.eq_dec p (next_place s)) as [->|H1]; [split; [apply outp_cons, outp_head; left; auto|apply inp_head; left; auto]|].
      destruct (A5 p) as [[?|?] [?|?]]; try ww; split; try (solve [oi]); try (apply inp_head; right; auto); apply outp_cons, outp_head; right; auto.
Qed.
