(** Compositional theory of net blocks: markings are functions to nat, arcs have weight 1. *)
From Coq Require Import List Arith Lia Bool ZArith Permutation.
Import ListNotations.
From Verif Require Import Model_Petri Model_Tree Spec_Tree Proofs_Shuffle.

Notation tr := (transition (option nat)).
Notation mk := (nat -> nat).
Definition pre (t : tr) : list nat := map fst (t_in t).
Definition post (t : tr) : list nat := map fst (t_out t).
Definition vis (t : tr) : list nat := match t_label t with Some a => [a] | None => [] end.

Fixpoint cnt (l : list nat) (p : nat) : nat :=
  match l with [] => 0 | q :: r => (if Nat.eqb q p then 1 else 0) + cnt r p end.
Lemma cnt_app l k p : cnt (l ++ k) p = cnt l p + cnt k p.
Proof. induction l as [|x l IH]; cbn; [auto|]. rewrite IH. lia. Qed.
Lemma cnt_in l p : In p l <-> 1 <= cnt l p.
Proof.
  induction l as [|x l IH]; cbn; [split; [tauto|lia]|]. destruct (Nat.eqb_spec x p) as [->|H]; [split; [lia|auto]|].
  rewrite IH. cbn. split; [intros [?|?]; [congruence|auto]|auto].
Qed.
Lemma cnt_notin l p : ~ In p l -> cnt l p = 0.
Proof. rewrite cnt_in. lia. Qed.
Lemma cnt_perm l k p : Permutation l k -> cnt l p = cnt k p.
Proof. induction 1; cbn; lia. Qed.

Definition fire (t : tr) (m m' : mk) : Prop :=
  (forall p, cnt (pre t) p <= m p) /\ (forall p, m' p + cnt (pre t) p = m p + cnt (post t) p).
Definition after (t : tr) (m : mk) : mk := fun p => m p - cnt (pre t) p + cnt (post t) p.
Lemma fire_after t m : (forall p, cnt (pre t) p <= m p) -> fire t m (after t m).
Proof. intros H. split; auto. intros p. unfold after. specialize (H p). lia. Qed.

Inductive runs (B : list tr) : mk -> list nat -> mk -> Prop :=
| r_nil m m' : (forall p, m p = m' p) -> runs B m [] m'
| r_snoc m w m1 t m2 : runs B m w m1 -> In t B -> fire t m1 m2 -> runs B m (w ++ vis t) m2.

Lemma fire_ext t m1 m2 m1' m2' : (forall p, m1 p = m1' p) -> (forall p, m2 p = m2' p) -> fire t m1 m2 -> fire t m1' m2'.
Proof. intros H1 H2 [H3 H4]. split; intros p; rewrite <- ?H1, <- ?H2; auto. Qed.
Lemma runs_ext_r B m w m1 m2 : runs B m w m1 -> (forall p, m1 p = m2 p) -> runs B m w m2.
Proof.
  intros H E. destruct H as [m m' H|m w m1' t m2' H Ht Hf].
  - constructor. intros p. rewrite H. auto.
  - eapply r_snoc; eauto. eapply fire_ext; [| |exact Hf]; auto.
Qed.
Lemma runs_ext_l B m w m1 m2 : runs B m w m1 -> (forall p, m p = m2 p) -> runs B m2 w m1.
Proof.
  intros H. revert m2. induction H as [m m' H|m w m1' t m2' H IH Ht Hf]; intros n E.
  - constructor. intros p. rewrite <- E. auto.
  - eapply r_snoc; eauto.
Qed.
Lemma runs_refl B m : runs B m [] m. Proof. constructor. auto. Qed.
Lemma runs_one B t m m' : In t B -> fire t m m' -> runs B m (vis t) m'.
Proof. intros H1 H2. apply (r_snoc B m [] m t m'); auto. apply runs_refl. Qed.
Lemma runs_app B m w1 m1 w2 m2 : runs B m w1 m1 -> runs B m1 w2 m2 -> runs B m (w1 ++ w2) m2.
Proof.
  intros H1 H2. revert H1. induction H2 as [n n' E|n w n1 t n2 H IH Ht Hf]; intros H1.
  - rewrite app_nil_r. eapply runs_ext_r; eauto.
  - rewrite app_assoc. eapply r_snoc; eauto.
Qed.
Lemma runs_frame B m w m' (r : mk) : runs B m w m' -> runs B (fun p => m p + r p) w (fun p => m' p + r p).
Proof.
  induction 1 as [n n' E|n w n1 t n2 H IH Ht [Hf1 Hf2]].
  - constructor. intros p. rewrite E. auto.
  - eapply r_snoc; eauto. split; intros p; specialize (Hf1 p); specialize (Hf2 p); lia.
Qed.
Lemma runs_frame' B m w m' r n n' : runs B m w m' -> (forall p, n p = m p + r p) -> (forall p, n' p = m' p + r p) -> runs B n w n'.
Proof.
  intros H H1 H2. eapply runs_ext_r; [eapply runs_ext_l; [apply runs_frame with (r := r); exact H|]|]; intros p; cbn; auto.
Qed.
Lemma runs_incl B B' m w m' : runs B m w m' -> (forall t, In t B -> In t B') -> runs B' m w m'.
Proof. intros H HI. induction H as [n n' E|n w n1 t n2 H IH Ht Hf]; [constructor; auto|eapply r_snoc; eauto]. Qed.
Lemma runs_inv B m0 (P : mk -> list nat -> Prop) :
  (forall m m' w, (forall p, m p = m' p) -> P m w -> P m' w) -> P m0 [] ->
  (forall m w t m', P m w -> In t B -> fire t m m' -> P m' (w ++ vis t)) ->
  forall m w, runs B m0 w m -> P m w.
Proof.
  intros H1 H2 H3 m w H. remember m0 as n0 eqn:E. revert E H2. induction H as [n n' E|n w n1 t n2 H IH Ht Hf]; intros -> H2; eauto.
Qed.

(** the empty word of a silent transition *)
Lemma vis_silent t : t_label t = None -> vis t = [].
Proof. unfold vis. intros ->. reflexivity. Qed.

(** * Blocks *)
Ltac eqbs := repeat match goal with
  | |- context [Nat.eqb ?x ?y] => destruct (Nat.eqb_spec x y); subst
  | H : context [Nat.eqb ?x ?y] |- _ => destruct (Nat.eqb_spec x y); subst
  end.
Section Blocks.
(** [Q]: the conditions under which no transition is dead. *)
Variable Q : Prop.
(** [B] works between the places [I] and [F], with inner places [S], and spells [L]. *)
Record block (B : list tr) (S : nat -> Prop) (I F : list nat) (L : list nat -> Prop) : Prop := {
  b_pre : forall t, In t B -> pre t <> [] /\ forall p, In p (pre t) -> In p I \/ S p;
  b_post : forall t, In t B -> post t <> [] /\ forall p, In p (post t) -> In p F \/ S p;
  b_sound : forall m w, runs B (cnt I) w m -> (forall p, cnt F p <= m p) -> (forall p, m p = cnt F p) /\ L w;
  b_complete : forall w, L w -> runs B (cnt I) w (cnt F);
  b_safe : forall m w p, runs B (cnt I) w m -> m p <= 1;
  b_live : Q -> forall t, In t B -> exists w m, runs B (cnt I) w m /\ forall p, cnt (pre t) p <= m p;
  b_mark : forall t p, In t B -> In p (pre t) -> exists w m, runs B (cnt I) w m /\ 1 <= m p;
  b_opt : forall m w, runs B (cnt I) w m -> exists w', runs B m w' (cnt F) /\ L (w ++ w') }.
Arguments b_pre {B S I F L}. Arguments b_post {B S I F L}. Arguments b_sound {B S I F L}.
Arguments b_complete {B S I F L}. Arguments b_safe {B S I F L}. Arguments b_live {B S I F L}. Arguments b_opt {B S I F L}. Arguments b_mark {B S I F L}.

Lemma b_inh B S I F L : block B S I F L -> exists w, L w.
Proof. intros H. destruct (b_opt H _ _ (runs_refl _ _)) as (w & _ & Hw). eauto. Qed.
Lemma block_ext B S I F L L' : (forall w, L w <-> L' w) -> block B S I F L -> block B S I F L'.
Proof.
  intros E [H2 H3 H4 H5 H6 H7 H9 H8]. constructor; auto.
  - intros m w Hr Hm. destruct (H4 m w Hr Hm) as [? ?]. split; auto. apply E; auto.
  - intros w Hw. apply H5, E, Hw.
  - intros m w Hr. destruct (H8 m w Hr) as (w' & ? & ?). exists w'. split; auto. apply E; auto.
Qed.
Lemma block_widen B (S S' : nat -> Prop) I F L : (forall p, S p -> S' p) -> block B S I F L -> block B S' I F L.
Proof.
  intros Hl [H2 H3 H4 H5 H6 H7 H9 H8]. constructor; auto.
  - intros t Ht. destruct (H2 t Ht) as [? H]. split; auto. intros p Hp. destruct (H p Hp); auto.
  - intros t Ht. destruct (H3 t Ht) as [? H]. split; auto. intros p Hp. destruct (H p Hp); auto.
Qed.

Lemma support B S I F L m w p : block B S I F L -> runs B (cnt I) w m -> 1 <= m p -> In p I \/ In p F \/ S p.
Proof.
  intros HB H. revert p. revert m w H.
  apply (runs_inv B (cnt I) (fun m _ => forall p, 1 <= m p -> In p I \/ In p F \/ S p)).
  - intros m m' _ E H p Hp. rewrite <- E in Hp. auto.
  - intros p Hp. left. apply cnt_in. auto.
  - intros m _ t m' H Ht [Hf1 Hf2] p Hp. specialize (Hf1 p). specialize (Hf2 p).
    destruct (Nat.eq_dec (cnt (post t) p) 0) as [E|E]; [apply H; lia|].
    assert (Hin : In p (post t)) by (apply cnt_in; lia). apply (b_post HB _ Ht) in Hin. tauto.
Qed.
Lemma support0 B S I F L m w p : block B S I F L -> runs B (cnt I) w m -> ~ In p I -> ~ In p F -> ~ S p -> m p = 0.
Proof.
  intros HB H H1 H2 H3. destruct (m p) eqn:E; auto. destruct (support _ _ _ _ _ _ _ p HB H) as [?|[?|?]]; try lia; tauto.
Qed.
(** an enabled transition of a block puts a token somewhere in the block *)
Lemma enabled_place B S I F L t m : block B S I F L -> In t B -> (forall p, cnt (pre t) p <= m p) ->
  exists p, In p (pre t) /\ 1 <= m p /\ (In p I \/ S p).
Proof.
  intros HB Ht He. destruct (b_pre HB _ Ht) as [Hn H]. destruct (pre t) as [|p l] eqn:E; [congruence|].
  exists p. split; [left; auto|]. split; [|apply H; left; auto].
  specialize (He p). cbn in He. rewrite Nat.eqb_refl in He. lia.
Qed.
(** with a single initial place: either nothing has happened or its token is gone for good *)
Lemma started B S i F L m w : block B S [i] F L -> ~ In i F -> ~ S i -> runs B (cnt [i]) w m ->
  (w = [] /\ forall p, m p = cnt [i] p) \/ m i = 0.
Proof.
  intros HB HF Hi. revert m w. apply runs_inv.
  - intros m m' w E [[-> H]|H]; [left; split; auto; intros p; rewrite <- E; auto|right; rewrite <- E; auto].
  - left. auto.
  - intros m w t m' H Ht Hf. right. destruct Hf as [Hf1 Hf2].
    assert (Hp : cnt (post t) i = 0).
    { apply cnt_notin. intros Hin. apply (b_post HB _ Ht) in Hin. tauto. }
    pose proof (Hf2 i) as E. destruct H as [[-> H]|H]; [|lia].
    destruct (enabled_place _ _ _ _ _ _ _ HB Ht Hf1) as (p & Hin & Hm & _).
    rewrite H in Hm. cbn in Hm. destruct (Nat.eqb_spec i p) as [<-|]; [|lia].
    apply cnt_in in Hin. pose proof (H i) as Hi1. cbn in Hi1. rewrite Nat.eqb_refl in Hi1. lia.
Qed.

Lemma cnt1 p : cnt [p] p = 1. Proof. cbn. rewrite Nat.eqb_refl. auto. Qed.
Lemma cnt1_le (m : mk) p : 1 <= m p -> forall x, cnt [p] x <= m x.
Proof. intros H x. cbn. eqbs; lia. Qed.
Lemma cnt1_in (m : mk) p x : (forall x, m x = cnt [p] x) -> 1 <= m x -> x = p.
Proof. intros H Hx. rewrite H in Hx. apply cnt_in in Hx as [?|[]]. auto. Qed.
Lemma silent_run B t m m' : In t B -> vis t = [] -> fire t m m' -> runs B m [] m'.
Proof. intros H1 H2 H3. pose proof (runs_one B t m m' H1 H3) as G. rewrite H2 in G. exact G. Qed.
Lemma fire_exact t P P' : pre t = P -> post t = P' -> fire t (cnt P) (cnt P').
Proof. intros H1 H2. split; intros x; rewrite ?H1, ?H2; lia. Qed.
Lemma fire_from t m m' P P' : pre t = P -> post t = P' -> (forall x, m x = cnt P x) -> fire t m m' -> forall x, m' x = cnt P' x.
Proof. intros H1 H2 H3 [_ H] x. specialize (H x). rewrite H1, H2, H3 in H. lia. Qed.
Lemma need t m p : (forall x, cnt (pre t) x <= m x) -> In p (pre t) -> 1 <= m p.
Proof. intros H Hp. apply cnt_in in Hp. specialize (H p). lia. Qed.

(** ** nothing *)
Lemma block_empty : block [] (fun _ => False) [] [] (fun w => w = []).
Proof.
  assert (HI : forall m w, runs [] (cnt []) w m -> w = [] /\ forall p, m p = 0).
  { apply runs_inv; [|split; auto|intros m w t m' _ []].
    intros m m' w E [-> H]. split; auto. intros p. rewrite <- E. auto. }
  constructor; [intros t []|intros t []| | | |intros _ t []|intros t p []|].
  - intros m w H _. destruct (HI _ _ H) as [-> E]. split; auto.
  - intros w ->. apply runs_refl.
  - intros m w p H. destruct (HI _ _ H) as [-> E]. rewrite E. lia.
  - intros m w H. destruct (HI _ _ H) as [-> E]. exists []. split; auto. constructor. auto.
Qed.

(** ** leaf *)
Lemma block_leaf t i f : pre t = [i] -> post t = [f] -> i <> f ->
  block [t] (fun _ => False) [i] [f] (fun w => w = vis t).
Proof.
  intros Hpr Hpo Hif.
  assert (HI : forall m w, runs [t] (cnt [i]) w m -> (w = [] /\ forall p, m p = cnt [i] p) \/ (w = vis t /\ forall p, m p = cnt [f] p)).
  { apply runs_inv.
    - intros m m' w E [[-> H]|[-> H]]; [left|right]; split; auto; intros p; rewrite <- E; auto.
    - left. auto.
    - intros m w u m' H [<-|[]] Hf. destruct H as [[-> H]|[-> H]].
      + right. split; auto. eapply fire_from; eauto.
      + exfalso. pose proof (need _ _ i (proj1 Hf)) as Hn. rewrite Hpr in Hn. apply Hif. eapply cnt1_in; [exact H|]. apply Hn. left; auto. }
  assert (Hstep : runs [t] (cnt [i]) (vis t) (cnt [f])) by (apply runs_one; [left; auto|apply fire_exact; auto]).
  constructor.
  - intros u [<-|[]]. rewrite Hpr. split; [discriminate|]. auto.
  - intros u [<-|[]]. rewrite Hpo. split; [discriminate|]. auto.
  - intros m w H Hm. destruct (HI _ _ H) as [[-> E]|[-> E]]; [|auto]. exfalso. specialize (Hm f). rewrite E in Hm. cbn in Hm. eqbs; lia.
  - intros w ->. auto.
  - intros m w p H. destruct (HI _ _ H) as [[-> E]|[-> E]]; rewrite E; cbn; eqbs; lia.
  - intros _ u [<-|[]]. exists [], (cnt [i]). split; [apply runs_refl|]. rewrite Hpr. auto.
  - intros u p [<-|[]]. rewrite Hpr. intros [<-|[]]. exists [], (cnt [i]). split; [apply runs_refl|rewrite cnt1; auto].
  - intros m w H. destruct (HI _ _ H) as [[-> E]|[-> E]].
    + exists (vis t). split; auto. eapply runs_ext_l; eauto.
    + exists []. split; [constructor; auto|apply app_nil_r].
Qed.

(** ** choice *)
Lemma block_xor B1 B2 (S1 S2 : nat -> Prop) i f L1 L2 : block B1 S1 [i] [f] L1 -> block B2 S2 [i] [f] L2 ->
  i <> f -> ~ S1 i -> ~ S2 i -> ~ S1 f -> ~ S2 f -> (forall p, S1 p -> S2 p -> False) ->
  block (B1 ++ B2) (fun p => S1 p \/ S2 p) [i] [f] (fun w => L1 w \/ L2 w).
Proof.
  intros H1 H2 Hif N1i N2i N1f N2f Hd.
  assert (HI : forall m w, runs (B1 ++ B2) (cnt [i]) w m -> runs B1 (cnt [i]) w m \/ runs B2 (cnt [i]) w m).
  { apply runs_inv.
    - intros m m' w E [H|H]; [left|right]; eapply runs_ext_r; eauto.
    - left. apply runs_refl.
    - intros m w t m' H Ht Hfi. apply in_app_or in Ht.
      assert (G : forall Ba Bb (Sa Sb : nat -> Prop) La Lb, block Ba Sa [i] [f] La -> block Bb Sb [i] [f] Lb ->
        ~ Sa i -> ~ Sb f -> (forall p, Sa p -> Sb p -> False) ->
        runs Ba (cnt [i]) w m -> In t Bb -> runs Ba (cnt [i]) (w ++ vis t) m' \/ runs Bb (cnt [i]) (w ++ vis t) m').
      { intros Ba Bb Sa Sb La Lb Ha Hb Nai Nbf Hdd Hr Ht'. right.
        destruct (started _ _ _ _ _ _ _ Ha ltac:(cbn; intuition congruence) Nai Hr) as [[-> E]|E].
        - apply (r_snoc Bb (cnt [i]) [] m t m'); auto. constructor. auto.
        - exfalso. destruct (enabled_place _ _ _ _ _ _ _ Hb Ht' (proj1 Hfi)) as (p & _ & Hp & [[<-|[]]|Hp2]); [lia|].
          destruct (support _ _ _ _ _ _ _ p Ha Hr Hp) as [[<-|[]]|[[<-|[]]|Hp3]]; [lia|auto|eauto]. }
      destruct H as [H|H], Ht as [Ht|Ht].
      + left. eapply r_snoc; eauto.
      + eapply (G B1 B2); eauto.
      + apply or_comm. eapply (G B2 B1); eauto.
      + right. eapply r_snoc; eauto. }
  assert (I1 : forall t, In t B1 -> In t (B1 ++ B2)) by (intros; apply in_or_app; auto).
  assert (I2 : forall t, In t B2 -> In t (B1 ++ B2)) by (intros; apply in_or_app; auto).
  constructor.
  - intros t Ht. apply in_app_or in Ht as [Ht|Ht]; [destruct (b_pre H1 _ Ht) as [? H]|destruct (b_pre H2 _ Ht) as [? H]];
      split; auto; intros p Hp; destruct (H p Hp); auto.
  - intros t Ht. apply in_app_or in Ht as [Ht|Ht]; [destruct (b_post H1 _ Ht) as [? H]|destruct (b_post H2 _ Ht) as [? H]];
      split; auto; intros p Hp; destruct (H p Hp); auto.
  - intros m w H Hm. destruct (HI _ _ H) as [Hr|Hr]; [destruct (b_sound H1 _ _ Hr Hm)|destruct (b_sound H2 _ _ Hr Hm)]; auto.
  - intros w [Hw|Hw]; [apply (b_complete H1) in Hw|apply (b_complete H2) in Hw]; eapply runs_incl; eauto.
  - intros m w p H. destruct (HI _ _ H) as [Hr|Hr]; [eapply (b_safe H1)|eapply (b_safe H2)]; eauto.
  - intros q t Ht. apply in_app_or in Ht as [Ht|Ht]; [destruct (b_live H1 q _ Ht) as (w & m & Hr & He)|destruct (b_live H2 q _ Ht) as (w & m & Hr & He)];
      exists w, m; split; auto; eapply runs_incl; eauto.
  - intros t p Ht Hp. apply in_app_or in Ht as [Ht|Ht]; [destruct (b_mark H1 _ _ Ht Hp) as (w & m & Hr & He)|destruct (b_mark H2 _ _ Ht Hp) as (w & m & Hr & He)];
      exists w, m; split; auto; eapply runs_incl; eauto.
  - intros m w H. destruct (HI _ _ H) as [Hr|Hr]; [destruct (b_opt H1 _ _ Hr) as (w' & Hr' & Hl)|destruct (b_opt H2 _ _ Hr) as (w' & Hr' & Hl)];
      exists w'; split; auto; eapply runs_incl; eauto.
Qed.

(** ** sequence *)
Lemma block_seq B1 B2 (S1 S2 : nat -> Prop) q i f L1 L2 : block B1 S1 [i] [q] L1 -> block B2 S2 [q] [f] L2 ->
  i <> f -> i <> q -> f <> q -> ~ S1 i -> ~ S2 i -> ~ S1 f -> ~ S2 f -> ~ S1 q -> ~ S2 q -> (forall p, S1 p -> S2 p -> False) ->
  block (B1 ++ B2) (fun p => p = q \/ S1 p \/ S2 p) [i] [f] (fun w => exists u v, L1 u /\ L2 v /\ w = u ++ v).
Proof.
  intros H1 H2 Hif Hiq Hfq N1i N2i N1f N2f N1q N2q Hd.
  assert (HI : forall m w, runs (B1 ++ B2) (cnt [i]) w m -> runs B1 (cnt [i]) w m \/
     exists u v, L1 u /\ w = u ++ v /\ runs B2 (cnt [q]) v m).
  { apply runs_inv.
    - intros m m' w E [H|(u & v & Hu & -> & H)]; [left|right; exists u, v; do 2 (split; auto)]; eapply runs_ext_r; eauto.
    - left. apply runs_refl.
    - intros m w t m' H Ht Hfi. apply in_app_or in Ht. destruct H as [H|(u & v & Hu & -> & H)], Ht as [Ht|Ht].
      + left. eapply r_snoc; eauto.
      + destruct (enabled_place _ _ _ _ _ _ _ H2 Ht (proj1 Hfi)) as (p & _ & Hp & Hc).
        assert (Hq : p = q).
        { destruct Hc as [[<-|[]]|Hc]; auto. exfalso. destruct (support _ _ _ _ _ _ _ p H1 H Hp) as [[<-|[]]|[[<-|[]]|Hs]]; eauto. }
        subst p. destruct (b_sound H1 _ _ H) as [E HL]; [apply cnt1_le; auto|].
        right. exists w, (vis t). split; auto. split; auto. apply runs_one; auto. eapply fire_ext; [exact E| |exact Hfi]. auto.
      + exfalso. destruct (enabled_place _ _ _ _ _ _ _ H1 Ht (proj1 Hfi)) as (p & _ & Hp & Hc).
        destruct (support _ _ _ _ _ _ _ p H2 H Hp) as [[<-|[]]|[[<-|[]]|Hs]]; destruct Hc as [[<-|[]]|Hc]; eauto.
      + right. exists u, (v ++ vis t). split; auto. split; [rewrite app_assoc; auto|]. eapply r_snoc; eauto. }
  assert (I1 : forall t, In t B1 -> In t (B1 ++ B2)) by (intros; apply in_or_app; auto).
  assert (I2 : forall t, In t B2 -> In t (B1 ++ B2)) by (intros; apply in_or_app; auto).
  constructor.
  - intros t Ht. apply in_app_or in Ht as [Ht|Ht]; [destruct (b_pre H1 _ Ht) as [? H]|destruct (b_pre H2 _ Ht) as [? H]];
      split; auto; intros p Hp; destruct (H p Hp) as [Hx|?]; auto. destruct Hx as [<-|[]]. auto.
  - intros t Ht. apply in_app_or in Ht as [Ht|Ht]; [destruct (b_post H1 _ Ht) as [? H]|destruct (b_post H2 _ Ht) as [? H]];
      split; auto; intros p Hp; destruct (H p Hp) as [Hx|?]; auto. destruct Hx as [<-|[]]. auto.
  - intros m w H Hm. destruct (HI _ _ H) as [Hr|(u & v & Hu & -> & Hr)].
    + exfalso. specialize (Hm f). rewrite cnt1 in Hm.
      destruct (support _ _ _ _ _ _ _ f H1 Hr) as [[?|[]]|[[?|[]]|Hs]]; auto.
    + destruct (b_sound H2 _ _ Hr Hm) as [? ?]. split; eauto.
  - intros w (u & v & Hu & Hv & ->). apply (b_complete H1) in Hu. apply (b_complete H2) in Hv.
    eapply runs_app; eapply runs_incl; eauto.
  - intros m w p H. destruct (HI _ _ H) as [Hr|(u & v & Hu & -> & Hr)]; [eapply (b_safe H1)|eapply (b_safe H2)]; eauto.
  - intros qq t Ht. apply in_app_or in Ht as [Ht|Ht].
    + destruct (b_live H1 qq _ Ht) as (w & m & Hr & He). exists w, m. split; auto. eapply runs_incl; eauto.
    + destruct (b_live H2 qq _ Ht) as (w & m & Hr & He). destruct (b_inh _ _ _ _ _ H1) as (u & Hu).
      apply (b_complete H1) in Hu. exists (u ++ w), m. split; auto. eapply runs_app; eapply runs_incl; eauto.
  - intros t p Ht Hp. apply in_app_or in Ht as [Ht|Ht].
    + destruct (b_mark H1 _ _ Ht Hp) as (w & m & Hr & He). exists w, m. split; auto. eapply runs_incl; eauto.
    + destruct (b_mark H2 _ _ Ht Hp) as (w & m & Hr & He). destruct (b_inh _ _ _ _ _ H1) as (u & Hu).
      apply (b_complete H1) in Hu. exists (u ++ w), m. split; auto. eapply runs_app; eapply runs_incl; eauto.
  - intros m w H. destruct (HI _ _ H) as [Hr|(u & v & Hu & -> & Hr)].
    + destruct (b_opt H1 _ _ Hr) as (w' & Hr' & Hl). destruct (b_inh _ _ _ _ _ H2) as (v & Hv).
      exists (w' ++ v). split; [|exists (w ++ w'), v; rewrite app_assoc; auto].
      apply (b_complete H2) in Hv. eapply runs_app; eapply runs_incl; eauto.
    + destruct (b_opt H2 _ _ Hr) as (w' & Hr' & Hl). exists w'. split; [eapply runs_incl; eauto|].
      exists u, (v ++ w'). rewrite app_assoc. auto.
Qed.

(** ** loop *)
Inductive laps (D R : list nat -> Prop) : list nat -> Prop :=
| laps_nil : laps D R []
| laps_more u d r : laps D R u -> D d -> R r -> laps D R (u ++ d ++ r).
Lemma laps_iterate D R u d : laps D R u -> iterate D R d -> iterate D R (u ++ d).
Proof.
  intros H. revert d. induction H as [|u d r H IH Hd Hr]; intros e He; [exact He|]. rewrite <- !app_assoc. apply IH.
  apply it_redo; auto.
Qed.
Lemma iterate_laps D R w : iterate D R w -> exists u d, laps D R u /\ D d /\ w = u ++ d.
Proof.
  induction 1 as [w Hw|d r w Hd Hr H (u & e & Hu & He & ->)]; [exists [], w; split; [constructor|auto]|].
  exists (d ++ r ++ u), e. split; [|split; auto; rewrite <- !app_assoc; auto].
  clear - Hd Hr Hu. induction Hu as [|u d' r' Hu IH Hd' Hr'].
  - rewrite app_nil_r. apply (laps_more D R []); auto. constructor.
  - replace (d ++ r ++ u ++ d' ++ r') with ((d ++ r ++ u) ++ d' ++ r') by (rewrite <- !app_assoc; auto). constructor; auto.
Qed.
Lemma block_loop Db Rb (SD SR : nat -> Prop) ti tl te p q1 q2 i f D R :
  block Db SD [p] [q1] D -> block Rb SR [q1] [q2] R ->
  pre ti = [i] -> post ti = [p] -> vis ti = [] ->
  pre tl = [q2] -> post tl = [p] -> vis tl = [] ->
  pre te = [q1] -> post te = [f] -> vis te = [] ->
  (i <> f /\ i <> p /\ i <> q1 /\ i <> q2) /\ (f <> p /\ f <> q1 /\ f <> q2) /\ (p <> q1 /\ p <> q2 /\ q1 <> q2) ->
  (~ SD i /\ ~ SD f /\ ~ SD p /\ ~ SD q1 /\ ~ SD q2) -> (~ SR i /\ ~ SR f /\ ~ SR p /\ ~ SR q1 /\ ~ SR q2) ->
  (forall x, SD x -> SR x -> False) ->
  block (ti :: tl :: te :: Db ++ Rb) (fun x => x = p \/ x = q1 \/ x = q2 \/ SD x \/ SR x) [i] [f] (iterate D R).
Proof.
  intros HD HR Pi1 Pi2 Pi3 Pl1 Pl2 Pl3 Pe1 Pe2 Pe3 ((N1&N2&N3&N4)&(N5&N6&N7)&(N8&N9&N10)) (D1&D2&D3&D4&D5) (R1&R2&R3&R4&R5) Hd.
  set (B := ti :: tl :: te :: Db ++ Rb).
  assert (ID : forall t, In t Db -> In t B) by (intros; do 3 right; apply in_or_app; auto).
  assert (IR : forall t, In t Rb -> In t B) by (intros; do 3 right; apply in_or_app; auto).
  assert (Ii : In ti B) by (left; auto). assert (Il : In tl B) by (right; left; auto). assert (Ie : In te B) by (do 2 right; left; auto).
  assert (Ni : forall m, (forall x, cnt (pre ti) x <= m x) -> 1 <= m i) by (intros m H; apply (need _ _ _ H); rewrite Pi1; left; auto).
  assert (Nl : forall m, (forall x, cnt (pre tl) x <= m x) -> 1 <= m q2) by (intros m H; apply (need _ _ _ H); rewrite Pl1; left; auto).
  assert (Ne : forall m, (forall x, cnt (pre te) x <= m x) -> 1 <= m q1) by (intros m H; apply (need _ _ _ H); rewrite Pe1; left; auto).
  assert (HI : forall m w, runs B (cnt [i]) w m ->
    (w = [] /\ (forall x, m x = cnt [i] x)) \/
    (exists u v, laps D R u /\ w = u ++ v /\ runs Db (cnt [p]) v m) \/
    (exists u d v, laps D R u /\ D d /\ w = u ++ d ++ v /\ runs Rb (cnt [q1]) v m) \/
    (iterate D R w /\ forall x, m x = cnt [f] x)).
  { apply runs_inv.
    - intros m m' w E [[-> H]|[(u & v & Hu & -> & H)|[(u & d & v & Hu & Hdd & -> & H)|[Hw H]]]].
      + left. split; auto. intros x. rewrite <- E. auto.
      + right; left. exists u, v. do 2 (split; auto). eapply runs_ext_r; eauto.
      + right; right; left. exists u, d, v. do 3 (split; auto). eapply runs_ext_r; eauto.
      + right; right; right. split; auto. intros x. rewrite <- E. auto.
    - left. auto.
    - intros m w t m' HS Ht Hfi. pose proof (proj1 Hfi) as He.
      destruct HS as [[-> H]|[(u & v & Hu & -> & H)|[(u & d & v & Hu & Hdd & -> & H)|[Hw H]]]].
      + (* nothing happened *)
        destruct Ht as [<-|[<-|[<-|Ht]]].
        * right; left. exists [], []. split; [constructor|]. rewrite Pi3. split; auto. constructor.
          intros x. symmetry. apply (fire_from ti m m' [i] [p]); auto.
        * exfalso. apply Nl, (cnt1_in _ _ _ H) in He. congruence.
        * exfalso. apply Ne, (cnt1_in _ _ _ H) in He. congruence.
        * exfalso. apply in_app_or in Ht as [Ht|Ht].
          -- destruct (enabled_place _ _ _ _ _ _ _ HD Ht He) as (x & _ & Hx & Hc). apply (cnt1_in _ _ _ H) in Hx as ->.
             destruct Hc as [[?|[]]|Hc]; auto.
          -- destruct (enabled_place _ _ _ _ _ _ _ HR Ht He) as (x & _ & Hx & Hc). apply (cnt1_in _ _ _ H) in Hx as ->.
             destruct Hc as [[?|[]]|Hc]; auto.
      + (* in the do part *)
        assert (S0 : forall x, 1 <= m x -> x = p \/ x = q1 \/ SD x).
        { intros x Hx. destruct (support _ _ _ _ _ _ _ x HD H Hx) as [[?|[]]|[[?|[]]|?]]; auto. }
        assert (Dn : 1 <= m q1 -> (forall x, m x = cnt [q1] x) /\ D v).
        { intros Hq. apply (b_sound HD _ _ H). apply cnt1_le; auto. }
        destruct Ht as [<-|[<-|[<-|Ht]]].
        * exfalso. apply Ni, S0 in He. destruct He as [?|[?|?]]; auto.
        * exfalso. apply Nl, S0 in He. destruct He as [?|[?|?]]; auto.
        * destruct (Dn (Ne _ He)) as [E Hv].
          right; right; right. rewrite Pe3, app_nil_r. split; [apply laps_iterate; auto; constructor; auto|].
          apply (fire_from te m m' [q1] [f]); auto.
        * apply in_app_or in Ht as [Ht|Ht].
          -- right; left. exists u, (v ++ vis t). split; auto. split; [rewrite app_assoc; auto|]. eapply r_snoc; eauto.
          -- destruct (enabled_place _ _ _ _ _ _ _ HR Ht He) as (x & _ & Hx & Hc).
             assert (x = q1) by (destruct Hc as [[?|[]]|Hc]; auto; exfalso; destruct (S0 x Hx) as [->|[->|?]]; eauto). subst x.
             destruct (Dn Hx) as [E Hv]. right; right; left. exists u, v, (vis t). do 2 (split; auto). split; [rewrite <- app_assoc; auto|].
             apply runs_one; auto. eapply fire_ext; [exact E| |exact Hfi]; auto.
      + (* in the redo part *)
        assert (S0 : forall x, 1 <= m x -> x = q1 \/ x = q2 \/ SR x).
        { intros x Hx. destruct (support _ _ _ _ _ _ _ x HR H Hx) as [[?|[]]|[[?|[]]|?]]; auto. }
        assert (Dn : 1 <= m q2 -> (forall x, m x = cnt [q2] x) /\ R v).
        { intros Hq. apply (b_sound HR _ _ H). apply cnt1_le; auto. }
        assert (St : 1 <= m q1 -> v = [] /\ forall x, m x = cnt [q1] x).
        { intros Hq. destruct (started _ _ _ _ _ _ _ HR ltac:(cbn; intuition congruence) R4 H) as [?|?]; [auto|lia]. }
        destruct Ht as [<-|[<-|[<-|Ht]]].
        * exfalso. apply Ni, S0 in He. destruct He as [?|[?|?]]; auto.
        * destruct (Dn (Nl _ He)) as [E Hv].
          right; left. exists (u ++ d ++ v), []. rewrite Pl3. split; [constructor; auto|]. split; auto. constructor.
          intros x. symmetry. apply (fire_from tl m m' [q2] [p]); auto.
        * destruct (St (Ne _ He)) as [-> E].
          right; right; right. rewrite Pe3, !app_nil_r. split; [apply laps_iterate; auto; constructor; auto|].
          apply (fire_from te m m' [q1] [f]); auto.
        * apply in_app_or in Ht as [Ht|Ht].
          -- exfalso. destruct (enabled_place _ _ _ _ _ _ _ HD Ht He) as (x & _ & Hx & Hc).
             destruct (S0 x Hx) as [->|[->|?]]; destruct Hc as [[?|[]]|Hc]; subst; eauto.
          -- right; right; left. exists u, d, (v ++ vis t). do 2 (split; auto). split; [rewrite <- !app_assoc; auto|]. eapply r_snoc; eauto.
      + (* finished *)
        exfalso. destruct Ht as [<-|[<-|[<-|Ht]]].
        * apply Ni, (cnt1_in _ _ _ H) in He. congruence.
        * apply Nl, (cnt1_in _ _ _ H) in He. congruence.
        * apply Ne, (cnt1_in _ _ _ H) in He. congruence.
        * apply in_app_or in Ht as [Ht|Ht].
          -- destruct (enabled_place _ _ _ _ _ _ _ HD Ht He) as (x & _ & Hx & Hc). apply (cnt1_in _ _ _ H) in Hx as ->.
             destruct Hc as [[?|[]]|Hc]; auto.
          -- destruct (enabled_place _ _ _ _ _ _ _ HR Ht He) as (x & _ & Hx & Hc). apply (cnt1_in _ _ _ H) in Hx as ->.
             destruct Hc as [[?|[]]|Hc]; auto. }
  assert (Go : runs B (cnt [i]) [] (cnt [p])) by (apply (silent_run B ti); auto; apply fire_exact; auto).
  assert (Gd : forall d, D d -> runs B (cnt [p]) d (cnt [q1])).
  { intros d Hdd. apply (b_complete HD) in Hdd. eapply runs_incl; eauto. }
  assert (Gr : forall r, R r -> runs B (cnt [q1]) r (cnt [q2])).
  { intros d Hdd. apply (b_complete HR) in Hdd. eapply runs_incl; eauto. }
  assert (Gl : runs B (cnt [q2]) [] (cnt [p])) by (apply (silent_run B tl); auto; apply fire_exact; auto).
  assert (Ge : runs B (cnt [q1]) [] (cnt [f])) by (apply (silent_run B te); auto; apply fire_exact; auto).
  assert (Gx : forall d, D d -> runs B (cnt [p]) d (cnt [f])).
  { intros d Hdd. pose proof (runs_app _ _ _ _ _ _ (Gd d Hdd) Ge) as G. rewrite app_nil_r in G. exact G. }
  destruct (b_inh _ _ _ _ _ HD) as (d0 & Hd0). destruct (b_inh _ _ _ _ _ HR) as (r0 & Hr0).
  constructor.
  - intros t [<-|[<-|[<-|Ht]]]; rewrite ?Pi1, ?Pl1, ?Pe1.
    + split; [discriminate|]. auto.
    + split; [discriminate|]. intros x [<-|[]]. auto.
    + split; [discriminate|]. intros x [<-|[]]. auto.
    + apply in_app_or in Ht as [Ht|Ht]; [destruct (b_pre HD _ Ht) as [? H]|destruct (b_pre HR _ Ht) as [? H]];
        (split; [assumption|]); intros x Hx; right; destruct (H x Hx) as [[<-|[]]|?]; auto 6.
  - intros t [<-|[<-|[<-|Ht]]]; rewrite ?Pi2, ?Pl2, ?Pe2.
    + split; [discriminate|]. intros x [<-|[]]. auto.
    + split; [discriminate|]. intros x [<-|[]]. auto.
    + split; [discriminate|]. auto.
    + apply in_app_or in Ht as [Ht|Ht]; [destruct (b_post HD _ Ht) as [? H]|destruct (b_post HR _ Ht) as [? H]];
        (split; [assumption|]); intros x Hx; right; destruct (H x Hx) as [[<-|[]]|?]; auto 6.
  - intros m w H Hm. assert (Hmf : 1 <= m f) by (specialize (Hm f); rewrite cnt1 in Hm; lia).
    destruct (HI _ _ H) as [[-> H']|[(u & v & Hu & -> & H')|[(u & d & v & Hu & Hdd & -> & H')|[Hw H']]]]; [exfalso..|auto].
    + apply (cnt1_in _ _ _ H') in Hmf. auto.
    + destruct (support _ _ _ _ _ _ _ f HD H' Hmf) as [[?|[]]|[[?|[]]|?]]; auto.
    + destruct (support _ _ _ _ _ _ _ f HR H' Hmf) as [[?|[]]|[[?|[]]|?]]; auto.
  - intros w Hw. apply iterate_laps in Hw as (u & d & Hu & Hdd & ->).
    eapply runs_app; [|apply Gx; exact Hdd]. clear d Hdd. induction Hu as [|u d r Hu IH Hdd Hr]; [exact Go|].
    eapply runs_app; [exact IH|]. eapply runs_app; [apply Gd; exact Hdd|].
    pose proof (runs_app _ _ _ _ _ _ (Gr r Hr) Gl) as G. rewrite app_nil_r in G. exact G.
  - intros m w x H. destruct (HI _ _ H) as [[-> H']|[(u & v & Hu & -> & H')|[(u & d & v & Hu & Hdd & -> & H')|[Hw H']]]].
    + rewrite H'. cbn. eqbs; lia.
    + eapply (b_safe HD); eauto.
    + eapply (b_safe HR); eauto.
    + rewrite H'. cbn. eqbs; lia.
  - intros qq t [<-|[<-|[<-|Ht]]].
    + exists [], (cnt [i]). split; [apply runs_refl|]. rewrite Pi1. auto.
    + exists (([] ++ d0) ++ r0), (cnt [q2]). rewrite Pl1. split; auto. eapply runs_app; [eapply runs_app|]; eauto.
    + exists ([] ++ d0), (cnt [q1]). rewrite Pe1. split; auto. eapply runs_app; eauto.
    + apply in_app_or in Ht as [Ht|Ht].
      * destruct (b_live HD qq _ Ht) as (w & m & Hr & He). exists ([] ++ w), m. split; auto. eapply runs_app; [exact Go|]. eapply runs_incl; eauto.
      * destruct (b_live HR qq _ Ht) as (w & m & Hr & He). exists (([] ++ d0) ++ w), m. split; auto.
        eapply runs_app; [eapply runs_app; [exact Go|auto]|]. eapply runs_incl; eauto.
  - intros t y [<-|[<-|[<-|Ht]]] Hp.
    + exists [], (cnt [i]). split; [apply runs_refl|]. rewrite Pi1 in Hp. destruct Hp as [<-|[]]. rewrite cnt1. auto.
    + exists (([] ++ d0) ++ r0), (cnt [q2]). rewrite Pl1 in Hp. destruct Hp as [<-|[]]. rewrite cnt1. split; auto. eapply runs_app; [eapply runs_app|]; eauto.
    + exists ([] ++ d0), (cnt [q1]). rewrite Pe1 in Hp. destruct Hp as [<-|[]]. rewrite cnt1. split; auto. eapply runs_app; eauto.
    + apply in_app_or in Ht as [Ht|Ht].
      * destruct (b_mark HD _ _ Ht Hp) as (w & m & Hr & He). exists ([] ++ w), m. split; auto. eapply runs_app; [exact Go|]. eapply runs_incl; eauto.
      * destruct (b_mark HR _ _ Ht Hp) as (w & m & Hr & He). exists (([] ++ d0) ++ w), m. split; auto.
        eapply runs_app; [eapply runs_app; [exact Go|auto]|]. eapply runs_incl; eauto.
  - intros m w H. destruct (HI _ _ H) as [[-> H']|[(u & v & Hu & -> & H')|[(u & d & v & Hu & Hdd & -> & H')|[Hw H']]]].
    + exists ([] ++ d0). split; [|constructor; auto]. eapply runs_app; [eapply runs_ext_l; [exact Go|auto]|auto].
    + destruct (b_opt HD _ _ H') as (v' & Hr' & Hl). exists (v' ++ []). split.
      * eapply runs_app; [eapply runs_incl; eauto|exact Ge].
      * rewrite app_nil_r, <- app_assoc. apply laps_iterate; auto. constructor; auto.
    + destruct (b_opt HR _ _ H') as (v' & Hr' & Hl). exists ((v' ++ []) ++ d0). split.
      * eapply runs_app; [eapply runs_app; [eapply runs_incl; eauto|exact Gl]|auto].
      * rewrite app_nil_r. replace ((u ++ d ++ v) ++ v' ++ d0) with ((u ++ d ++ (v ++ v')) ++ d0) by (rewrite <- !app_assoc; auto).
        apply laps_iterate; [constructor; auto|constructor; auto].
    + exists []. rewrite app_nil_r. split; auto. constructor. auto.
Qed.
End Blocks.
Arguments b_pre {Q B S I F L}. Arguments b_post {Q B S I F L}. Arguments b_sound {Q B S I F L}.
Arguments b_complete {Q B S I F L}. Arguments b_safe {Q B S I F L}. Arguments b_live {Q B S I F L}.
Arguments b_opt {Q B S I F L}. Arguments b_mark {Q B S I F L}.
