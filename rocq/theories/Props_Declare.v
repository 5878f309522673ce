(** C34: DECLARE conformance checking. *)
From Coq Require Import List Arith Bool ZArith QArith Lia Psatz.
Import ListNotations.
From Verif Require Import Model_Dict Proofs_Dict Model_Dfg Spec_Dfg Proofs_Dfg Proofs_Skel Proofs_Skel2 Model_Declare Spec_Declare Proofs_Declare.
Local Open Scope nat_scope.
Local Arguments keqb {K Key} : simpl never.
Local Arguments Nat.ltb : simpl never.

(** ** Decidability of the templates *)
Lemma all_split_dec (P : trace -> trace -> Prop) a : (forall u v, P u v \/ ~ P u v) -> forall t, (forall u v, t = u ++ a :: v -> P u v) \/ ~ (forall u v, t = u ++ a :: v -> P u v).
Proof.
  intros D t. revert P D. induction t as [|x t IH]; intros P D.
  - left. intros [|] v E; discriminate.
  - destruct (IH (fun u v => P (x :: u) v)) as [H|H]; [intros; apply D| |].
    + destruct (Nat.eq_dec x a) as [->|N].
      * destruct (D [] t) as [G|G]; [left|right; intros F; apply G, F; auto]. intros [|y u] v E; inversion E; subst; auto.
      * left. intros [|y u] v E; inversion E; subst; auto. congruence.
    + right. intros F. apply H. intros u v ->. apply F. auto.
Qed.
Lemma ex_split_dec (P : trace -> trace -> Prop) a : (forall u v, P u v \/ ~ P u v) -> forall t, (exists u v, t = u ++ a :: v /\ P u v) \/ ~ (exists u v, t = u ++ a :: v /\ P u v).
Proof.
  intros D t. destruct (all_split_dec (fun u v => ~ P u v) a) with (t := t) as [H|H].
  - intros u v. destruct (D u v); tauto.
  - right. intros (u & v & E & G). apply (H u v E G).
  - left. revert P D H. induction t as [|x t IH]; intros P D H.
    + exfalso. apply H. intros [|] v E; discriminate.
    + destruct (D [] t) as [G|G]; [destruct (Nat.eq_dec x a) as [->|N]; [exists [], t; auto|]|].
      * destruct (IH (fun u v => P (x :: u) v)) as (u & v & -> & F); [intros; apply D| |exists (x :: u), v; auto].
        intros F. apply H. intros [|y u] v E; inversion E; subst; [congruence|]. apply F; auto.
      * destruct (IH (fun u v => P (x :: u) v)) as (u & v & -> & F); [intros; apply D| |exists (x :: u), v; auto].
        intros F. apply H. intros [|y u] v E; inversion E; subst; auto.
Qed.
Lemma in_dec_p (a : nat) l : In a l \/ ~ In a l.
Proof. destruct (in_dec Nat.eq_dec a l); auto. Qed.
Lemma and_dec_p P Q : (P \/ ~ P) -> (Q \/ ~ Q) -> (P /\ Q) \/ ~ (P /\ Q).
Proof. tauto. Qed.
Lemma head_dec (b : nat) v : (exists v', v = b :: v') \/ ~ exists v' : trace, v = b :: v'.
Proof. destruct v as [|x v]; [right; intros (? & ?); discriminate|]. destruct (Nat.eq_dec x b) as [->|N]; [left; eauto|right; intros (? & E); congruence]. Qed.
Lemma last_dec (a : nat) u : (exists u', u = u' ++ [a]) \/ ~ exists u' : trace, u = u' ++ [a].
Proof.
  destruct u as [|x u] using rev_ind; [right; intros ([|] & ?); discriminate|]. destruct (Nat.eq_dec x a) as [->|N]; [left; eauto|right; intros (? & E)]. apply app_inj_tail in E. destruct E; congruence.
Qed.
Lemma holds_dec T t k : holds T t k \/ ~ holds T t k.
Proof.
  destruct k as [a b]. pose proof (in_dec_p a t). pose proof (in_dec_p b t).
  assert (R : response t a b \/ ~ response t a b) by (apply all_split_dec; intros; apply in_dec_p).
  assert (P : precedence t a b \/ ~ precedence t a b) by (apply all_split_dec; intros; apply in_dec_p).
  assert (AR : alt_response t a b \/ ~ alt_response t a b).
  { apply all_split_dec; intros u v; apply (ex_split_dec (fun x y => ~ In a x)). intros x y. destruct (in_dec_p a x); tauto. }
  assert (AP : alt_precedence t a b \/ ~ alt_precedence t a b).
  { apply all_split_dec; intros u v; apply (ex_split_dec (fun x y => ~ In b y)). intros x y. destruct (in_dec_p b y); tauto. }
  assert (CR : chain_response t a b \/ ~ chain_response t a b) by (apply all_split_dec; intros; apply head_dec).
  assert (CP : chain_precedence t a b \/ ~ chain_precedence t a b) by (apply all_split_dec; intros; apply last_dec).
  destruct T; cbn [holds]; auto; try tauto.
  - apply (ex_split_dec (fun u v => ~ In a u /\ ~ In a v)). intros u v. destruct (in_dec_p a u), (in_dec_p a v); tauto.
  - apply head_dec.
  - apply all_split_dec. intros u v. destruct (in_dec_p b v); tauto.
  - assert (G : (forall u v, t = u ++ a :: v -> ~ exists v', v = b :: v') \/ ~ (forall u v, t = u ++ a :: v -> ~ exists v', v = b :: v')).
    { apply all_split_dec. intros u v. destruct (head_dec b v); tauto. }
    destruct G as [G|G]; [left; intros u v ->; apply (G u (b :: v)); eauto|]. right. intros F. apply G. intros u v -> (v' & ->). eapply F; eauto.
Qed.

(** ** The single checks *)
Lemma exactly_one_iff (t : trace) (a : nat) : c_get (c_of t) a = 1 <-> exists u v, t = u ++ a :: v /\ ~ In a u /\ ~ In a v.
Proof.
  rewrite c_get_of. split.
  - intros H. assert (I : In a t) by (apply occ_pos; lia). apply in_split in I. destruct I as (u & v & ->). rewrite occ_app, occ_cons in H. change (keqb a a) with (Nat.eqb a a) in H. rewrite Nat.eqb_refl in H.
    exists u, v. split; auto. split; intros G; apply occ_pos in G; lia.
  - intros (u & v & -> & H1 & H2). rewrite occ_app, occ_cons. change (keqb a a) with (Nat.eqb a a). rewrite Nat.eqb_refl.
    assert (occ a u = 0) by (destruct (occ a u) eqn:E; auto; exfalso; apply H1, occ_pos; lia). assert (occ a v = 0) by (destruct (occ a v) eqn:E; auto; exfalso; apply H2, occ_pos; lia). lia.
Qed.
(** the check made for a template *)
Definition bad (T : template) (t : trace) (k : key) : bool :=
  match T with
  | EXISTENCE => bad_existence t k | ABSENCE => bad_absence t k | EXACTLY_ONE => bad_exactly_one t k | INIT => bad_init t k
  | RESPONDED_EXISTENCE => bad_responded_existence t k | COEXISTENCE => bad_coexistence t k | NONCOEXISTENCE => bad_non_coexistence t k
  | RESPONSE => bad_response t k | PRECEDENCE => bad_precedence t k | SUCCESSION => bad_succession t k
  | ALTRESPONSE => bad_alt_response false t k | CHAINRESPONSE => bad_alt_response true t k
  | ALTPRECEDENCE => bad_alt_precedence false t k | CHAINPRECEDENCE => bad_alt_precedence true t k
  | ALTSUCCESSION => bad_alt_succession false t k | CHAINSUCCESSION => bad_alt_succession true t k
  | NONSUCCESSION | NONCHAINSUCCESSION => false
  end.
Lemma bad_exact T t a b : exact T -> (binary T -> a <> b) -> bad T t (a, b) = true <-> ~ holds T t (a, b).
Proof.
  intros HT Hb. pose proof (mem_in a t) as Ma. pose proof (mem_in b t) as Mb.
  destruct T; try destruct HT; cbn [bad holds]; cbn [binary] in Hb.
  - unfold bad_existence. cbn. rewrite <- Ma. destruct (mem a t); cbn; split; congruence.
  - unfold bad_exactly_one. cbn [fst]. rewrite <- exactly_one_iff, negb_true_iff, Nat.eqb_neq. tauto.
  - unfold bad_init. destruct t as [|x t]; cbn [fst]; [split; auto; intros _ (v & E); discriminate|]. rewrite negb_true_iff, Nat.eqb_neq. split; [intros H (v & E); congruence|]. intros H ->. apply H. eauto.
  - unfold bad_responded_existence. cbn [fst snd]. rewrite <- Ma, <- Mb. destruct (mem a t), (mem b t); cbn; split; try congruence; try tauto; intuition congruence.
  - apply bad_response_spec; auto.
  - apply bad_precedence_spec; auto.
  - apply (alt_succession_spec false); auto.
  - apply (alt_succession_spec true); auto.
  - unfold bad_absence. cbn [fst]. rewrite <- Ma. destruct (mem a t); split; intros; try congruence; try (exfalso; match goal with H : ~ _ |- _ => apply H; congruence end).
  - unfold bad_coexistence. cbn [fst snd]. rewrite <- Ma, <- Mb. destruct (mem a t), (mem b t); cbn; split; try congruence; try tauto; intuition congruence.
  - unfold bad_non_coexistence. cbn [fst snd]. rewrite <- Ma, <- Mb. destruct (mem a t), (mem b t); cbn; split; try congruence; try tauto; intuition congruence.
Qed.

(** ** What is reported *)
Lemma opt_concat_in {A} (l : list (option (list A))) : forall r, opt_concat l = Some r -> forall x, In x r <-> exists y, In (Some y) l /\ In x y.
Proof.
  induction l as [|[y|] l IH]; intros r E x; cbn in E; inversion E; subst; clear E.
  - split; [intros []|intros (? & [] & _)].
  - destruct (opt_concat l) as [z|] eqn:Ez; [|discriminate]. inversion H0; subst. rewrite in_app_iff, (IH z eq_refl). split.
    + intros [H|(w & H1 & H2)]; [exists y; split; [left|]; auto|exists w; split; [right|]; auto].
    + intros (w & [[= ->]|H1] & H2); [auto|right; eauto].
Qed.
Lemma opt_concat_def {A} (l : list (option (list A))) : (exists r, opt_concat l = Some r) <-> ~ In None l.
Proof.
  induction l as [|[y|] l IH]; cbn [opt_concat In].
  - split; [intros _ []|eauto].
  - split.
    + intros (r & E). destruct (opt_concat l) as [z|]; [|discriminate]. intros [?|H]; [discriminate|]. apply IH in H; eauto.
    + intros H. destruct (proj2 IH) as (r & Er); [tauto|]. rewrite Er. eauto.
  - split; [intros (? & ?); discriminate|]. intros H. exfalso. apply H. auto.
Qed.
Lemma in_check m T T' f y x : check m T T' f = Some y -> In x y <-> exists k, x = (T, k) /\ d_mem m T = true /\ In k (keys_of m T') /\ f k = true.
Proof.
  unfold check, keys_of. destruct (d_mem m T); [destruct (d_get m T') as [l|]; [|discriminate]|]; intros [= <-].
  - rewrite in_map_iff. split; [intros (k & <- & H); apply filter_In in H; destruct H; eauto 6|]. intros (k & -> & _ & H1 & H2). exists k. split; auto. apply filter_In. auto.
  - split; [intros []|]. intros (k & _ & H & _). discriminate.
Qed.
Definition target (T : template) : template := match T with ALTRESPONSE => RESPONSE | _ => T end.
Lemma mem_keys m (T : template) k : In k (keys_of m T) -> d_mem m T = true.
Proof. unfold keys_of, d_mem. destruct (d_get m T); auto. Qed.
Lemma check_total m T t : T <> ALTRESPONSE -> exists y, check m T T (bad T t) = Some y.
Proof. intros _. unfold check, d_mem. destruct (d_get m T); eauto. Qed.
Lemma check_altresponse m T T' f : (d_mem m T = true -> d_mem m T' = true) -> exists y, check m T T' f = Some y.
Proof. intros H. unfold check, d_mem in *. destruct (d_get m T); eauto. destruct (d_get m T'); [eauto|]. discriminate H; auto. Qed.

Lemma reported m t r T k : check_trace m t = Some r -> In (T, k) (d_devs r) <-> d_mem m T = true /\ In k (keys_of m (target T)) /\ bad T t k = true.
Proof.
  unfold check_trace. destruct (opt_concat (checks m t)) as [devs|] eqn:E; [|discriminate]. destruct (Nat.eqb _ 0); [discriminate|]. intros [= <-]. cbn [d_devs].
  rewrite (opt_concat_in _ _ E). split.
  - intros (y & H & Hx). unfold checks in H. cbn [In] in H.
    repeat (destruct H as [H|H]; [apply (in_check _ _ _ _ _ _ H) in Hx; destruct Hx as (k' & [= -> ->] & H1 & H2 & H3); auto|]). destruct H.
  - intros (H1 & H2 & H3). assert (D : ~ In None (checks m t)) by (apply opt_concat_def; eauto).
    assert (G : forall T' f, In (check m T T' f) (checks m t) -> In k (keys_of m T') -> f k = true -> exists y, In (Some y) (checks m t) /\ In (T, k) y).
    { intros T' f I I2 I3. destruct (check m T T' f) as [y|] eqn:Ey; [|tauto]. exists y. split; auto. rewrite (in_check _ _ _ _ _ _ Ey). eauto 6. }
    unfold checks in G. destruct T; try discriminate H3; (eapply G; [|exact H2|exact H3]); cbn [In target]; tauto.
Qed.

(** ** Theorems *)
Theorem C34_exact m t r T a b : check_trace m t = Some r -> exact T -> (binary T -> a <> b) ->
  (In (T, (a, b)) (d_devs r) <-> In (a, b) (keys_of m T) /\ ~ holds T t (a, b)) /\
  (In (a, b) (keys_of m T) -> ~ In (T, (a, b)) (d_devs r) -> holds T t (a, b)).
Proof.
  intros E HT Hb. assert (G : In (T, (a, b)) (d_devs r) <-> In (a, b) (keys_of m T) /\ ~ holds T t (a, b)).
  { rewrite (reported _ _ _ _ _ E), bad_exact by auto. assert (X : target T = T) by (destruct T; auto; destruct HT). rewrite X. split; [tauto|]. intros [H1 H2]. split; auto. eapply mem_keys; eauto. }
  split; auto. intros Hk N. destruct (holds_dec T t (a, b)) as [H|H]; auto. exfalso. apply N, G. auto.
Qed.
Print Assumptions C34_exact.

(** SUCCESSION: exact on the traces with one of the activities; a trace without them is always reported *)
Theorem C34_succession m t r a b : check_trace m t = Some r -> a <> b ->
  In (SUCCESSION, (a, b)) (d_devs r) <-> In (a, b) (keys_of m SUCCESSION) /\ (~ holds SUCCESSION t (a, b) \/ (~ In a t /\ ~ In b t)).
Proof.
  intros E Hab. rewrite (reported _ _ _ _ _ E). cbn [target bad]. rewrite bad_succession_spec by auto. cbn [holds].
  assert (X : ~ (In a t /\ In b t /\ response t a b /\ precedence t a b) <-> ~ (response t a b /\ precedence t a b) \/ ~ In a t /\ ~ In b t).
  { pose proof (holds_dec SUCCESSION t (a, b)) as D. cbn [holds] in D. destruct D as [D|D]; [|tauto]. split; [|tauto]. intros H. right.
    assert (Ia : In a t -> In b t) by (intros I; apply in_split in I; destruct I as (u & v & ->); apply in_or_app; right; right; eapply (proj1 D); eauto).
    assert (Ib : In b t -> In a t) by (intros I; apply in_split in I; destruct I as (u & v & ->); apply in_or_app; left; eapply (proj2 D); eauto).
    split; intros I; apply H; auto. }
  rewrite X. split; [tauto|]. intros [H1 H2]. split; auto. eapply mem_keys; eauto.
Qed.
Print Assumptions C34_succession.

Theorem C34_succession_refuted : exists m t r, check_trace m t = Some r /\ holds SUCCESSION t (1, 2) /\ In (SUCCESSION, (1, 2)) (d_devs r).
Proof.
  exists [(SUCCESSION, [(1, 2)])], [3]. eexists. split; [reflexivity|]. split; [|left; auto].
  split; intros [|x [|y u]] v E; inversion E.
Qed.
Print Assumptions C34_succession_refuted.

(** CHAINRESPONSE (and ALTRESPONSE, for the keys of RESPONSE): never accepted when violated *)
Lemma succ_response chain u v a b : ~ In a u -> succ chain v a b -> holds (if chain then CHAINRESPONSE else ALTRESPONSE) (u ++ v) (a, b).
Proof.
  intros Hu H. assert (S : forall u' v', u ++ v = u' ++ a :: v' -> exists w, v = w ++ a :: v').
  { clear H. revert v Hu. induction u as [|x u IH]; intros v Hu u' v' E; [exists u'; auto|]. destruct u' as [|y u']; cbn in E; inversion E; subst; [exfalso; apply Hu; left; auto|].
    eapply IH; eauto. intros G. apply Hu. right; auto. }
  destruct chain; cbn [holds]; intros u' v' E; destruct (S _ _ E) as (w & ->); apply (proj1 H w v'); auto.
Qed.
Theorem C34_chain_response_sound m t r a b : check_trace m t = Some r -> a <> b -> In (a, b) (keys_of m CHAINRESPONSE) -> ~ In (CHAINRESPONSE, (a, b)) (d_devs r) -> holds CHAINRESPONSE t (a, b).
Proof.
  intros E Hab Hk N. rewrite (reported _ _ _ _ _ E) in N. cbn [target bad] in N. assert (F : bad_alt_response true t (a, b) = false).
  { destruct (bad_alt_response true t (a, b)) eqn:G; auto. exfalso. apply N. split; [eapply mem_keys; eauto|auto]. }
  apply alt_response_spec in F; auto. destruct F as (u & v & -> & H1 & H2). apply (succ_response true); auto.
Qed.
Print Assumptions C34_chain_response_sound.

Theorem C34_chain_response_refuted : exists m t r, check_trace m t = Some r /\ holds CHAINRESPONSE t (1, 2) /\ In (CHAINRESPONSE, (1, 2)) (d_devs r).
Proof.
  exists [(CHAINRESPONSE, [(1, 2)])], [1; 2; 2]. eexists. split; [reflexivity|]. split; [|left; auto].
  intros [|x [|y [|z u]]] v E; inversion E; subst; eauto. destruct u; discriminate.
Qed.
Print Assumptions C34_chain_response_refuted.

(** ALTRESPONSE: the constraints of RESPONSE are checked instead; without them, KeyError *)
Theorem C34_alt_response_refuted :
  (exists m t, keys_of m ALTRESPONSE = [(1, 2)] /\ check_trace m t = None) /\
  (exists m t r, check_trace m t = Some r /\ In (1, 2) (keys_of m ALTRESPONSE) /\ ~ holds ALTRESPONSE t (1, 2) /\ d_devs r = []).
Proof.
  split; [exists [(ALTRESPONSE, [(1, 2)])], [1; 2]; split; reflexivity|].
  exists [(ALTRESPONSE, [(1, 2)]); (RESPONSE, [(3, 4)])], [1]. eexists. split; [reflexivity|]. split; [left; auto|]. split; [|auto].
  intros H. destruct (H [] [] eq_refl) as ([|] & v2 & E & _); discriminate.
Qed.
Print Assumptions C34_alt_response_refuted.

(** ALTPRECEDENCE, CHAINPRECEDENCE: wrong in both directions *)
Theorem C34_alt_precedence_refuted : forall T, T = ALTPRECEDENCE \/ T = CHAINPRECEDENCE ->
  (exists m t r, check_trace m t = Some r /\ holds T t (1, 2) /\ In (T, (1, 2)) (d_devs r)) /\
  (exists m t r, check_trace m t = Some r /\ In (1, 2) (keys_of m T) /\ ~ holds T t (1, 2) /\ d_devs r = []).
Proof.
  intros T HT. split.
  - exists [(T, [(1, 2)])], [1]. destruct HT as [->| ->]; (eexists; split; [reflexivity|]; split; [|left; auto]); intros [|x [|y u]] v E; inversion E.
  - exists [(T, [(1, 2)])], [2; 1; 2]. destruct HT as [->| ->]; (eexists; split; [reflexivity|]; split; [left; auto|]; split; [|auto]); intros H.
    + destruct (H [] [1; 2] eq_refl) as ([|] & ? & E & _); discriminate.
    + destruct (H [] [1; 2] eq_refl) as ([|] & E); discriminate.
Qed.
Print Assumptions C34_alt_precedence_refuted.

(** NONSUCCESSION, NONCHAINSUCCESSION: never checked *)
Theorem C34_unchecked_refuted : forall T, T = NONSUCCESSION \/ T = NONCHAINSUCCESSION ->
  exists m t r, check_trace m t = Some r /\ In (1, 2) (keys_of m T) /\ ~ holds T t (1, 2) /\ d_devs r = [].
Proof.
  intros T HT. exists [(T, [(1, 2)])], [1; 2]. destruct HT as [->| ->]; (eexists; split; [reflexivity|]; split; [left; auto|]; split; [|auto]); intros H.
  - apply (H [] [2] eq_refl). left; auto.
  - apply (H [] [] eq_refl).
Qed.
Print Assumptions C34_unchecked_refuted.

(** ** Fitness *)
Lemma opt_concat_length {A} (l : list (option (list A))) : forall r, opt_concat l = Some r -> length r = list_sum (map (fun o => match o with Some y => length y | None => 0 end) l).
Proof.
  induction l as [|[y|] l IH]; intros r E; cbn [opt_concat] in E; try discriminate; [inversion E; auto|]. destruct (opt_concat l); [|discriminate]. inversion E; subst. rewrite app_length, (IH l0); auto.
Qed.
Definition size (m : decl) (T : template) : nat := length (keys_of m T).
Lemma check_length m T f : d_mem m T = true \/ True -> match check m T T f with Some y => length y | None => 0 end <= size m T.
Proof.
  intros _. unfold check, size, keys_of, d_mem. destruct (d_get m T); cbn; auto. rewrite map_length. apply filter_length_le.
Qed.
Definition templates := [EXISTENCE; EXACTLY_ONE; INIT; RESPONDED_EXISTENCE; COEXISTENCE; RESPONSE; PRECEDENCE; SUCCESSION; CHAINRESPONSE; ALTPRECEDENCE; CHAINPRECEDENCE; ALTSUCCESSION; CHAINSUCCESSION; ABSENCE].
Lemma sizes_le (l : list template) : forall m : decl, NoDup l -> NoDup (map fst m) -> list_sum (map (size m) l) <= list_sum (map (fun kv => length (snd kv)) m).
Proof.
  intros m. revert l. induction m as [|[T ks] m IH]; intros l Hl Hm.
  - assert (E : list_sum (map (size []) l) = 0) by (clear; induction l as [|x l IH]; auto). rewrite E. cbn. lia.
  - cbn [map fst snd] in *. inversion Hm; subst. specialize (IH (filter (fun x => negb (template_eqb x T)) l) (NoDup_filter _ Hl) H2).
    assert (E : list_sum (map (size ((T, ks) :: m)) l) <= length ks + list_sum (map (size m) (filter (fun x => negb (template_eqb x T)) l))).
    { clear IH. assert (Sz : forall x, size ((T, ks) :: m) x = if template_eqb x T then length ks else size m x).
      { intros x. unfold size, keys_of. cbn [d_get]. change (keqb T x) with (template_eqb T x). destruct (template_eqb_spec T x), (template_eqb_spec x T); try congruence; auto. }
      assert (G : forall l, NoDup l -> ~ In T l -> list_sum (map (size ((T, ks) :: m)) l) = list_sum (map (size m) (filter (fun x => negb (template_eqb x T)) l))).
      { clear l Hl. induction l as [|x l IH]; intros Hl HT; auto. inversion Hl; subst. cbn [map filter]. rewrite Sz. destruct (template_eqb_spec x T) as [->|N]; [exfalso; apply HT; left; auto|]. cbn [negb map]. unfold list_sum in *. cbn [fold_right]. rewrite IH; auto. intros I. apply HT. right; auto. }
      induction l as [|x l IH]; [cbn; lia|]. inversion Hl as [|? ? Hx0 Hl0]; subst. cbn [map filter]. rewrite Sz. destruct (template_eqb_spec x T) as [->|N]; cbn [negb map]; unfold list_sum in *; cbn [fold_right].
      - rewrite (G l) by auto. lia.
      - specialize (IH Hl0). lia. }
    unfold list_sum in *. cbn [fold_right]. lia.
Qed.
Theorem C34_fitness m t r : NoDup (map fst m) -> keys_of m NONCOEXISTENCE = [] -> d_mem m ALTRESPONSE = false -> check_trace m t = Some r ->
  (0 <= d_fitness r)%Q /\ (d_fitness r <= 1)%Q /\ (d_fit r = true <-> d_devs r = []) /\ (d_fit r = true <-> (d_fitness r == 1)%Q).
Proof.
  intros Hm HN HA. unfold check_trace. destruct (opt_concat (checks m t)) as [devs|] eqn:E; [|discriminate]. set (tot := list_sum _). destruct (Nat.eqb_spec tot 0) as [|Ht]; [discriminate|]. intros [= <-]. cbn [d_fitness d_fit d_devs].
  assert (L : length devs <= tot).
  { rewrite (opt_concat_length _ _ E). assert (S : list_sum (map (size m) templates) <= tot). { apply sizes_le; auto. repeat (constructor; [cbn; intuition discriminate|]). constructor. }
    etransitivity; [|exact S]. unfold checks, templates. cbn [map]. unfold list_sum. cbn [fold_right].
    assert (C : forall T f, match check m T T f with Some y => length y | None => 0 end <= size m T) by (intros; apply check_length; auto).
    assert (N0 : forall f, match check m NONCOEXISTENCE NONCOEXISTENCE f with Some y => length y | None => 0 end = 0).
    { intros f. pose proof (C NONCOEXISTENCE f) as X. unfold size in X. rewrite HN in X. cbn [length] in X. lia. }
    rewrite !N0. assert (A0 : match check m ALTRESPONSE RESPONSE (bad_alt_response false t) with Some y => length y | None => 0 end = 0) by (unfold check; rewrite HA; auto). rewrite A0.
    pose proof (C EXISTENCE (bad_existence t)). pose proof (C EXACTLY_ONE (bad_exactly_one t)). pose proof (C INIT (bad_init t)). pose proof (C RESPONDED_EXISTENCE (bad_responded_existence t)).
    pose proof (C COEXISTENCE (bad_coexistence t)). pose proof (C RESPONSE (bad_response t)). pose proof (C PRECEDENCE (bad_precedence t)). pose proof (C SUCCESSION (bad_succession t)).
    pose proof (C CHAINRESPONSE (bad_alt_response true t)). pose proof (C ALTPRECEDENCE (bad_alt_precedence false t)). pose proof (C CHAINPRECEDENCE (bad_alt_precedence true t)).
    pose proof (C ALTSUCCESSION (bad_alt_succession false t)). pose proof (C CHAINSUCCESSION (bad_alt_succession true t)). pose proof (C ABSENCE (bad_absence t)). lia. }
  set (n := Z.of_nat (length devs)). set (d := Z.of_nat tot). assert (Hd : (0 < inject_Z d)%Q) by (unfold Qlt; cbn; lia). assert (Hn : (0 <= inject_Z n)%Q) by (unfold Qle; cbn; lia).
  assert (Hnd : (inject_Z n <= inject_Z d)%Q) by (rewrite <- Zle_Qle; unfold n, d; lia).
  assert (Q1 : (inject_Z n / inject_Z d <= 1)%Q) by (apply Qle_shift_div_r; auto; rewrite Qmult_1_l; auto).
  assert (Q0 : (0 <= inject_Z n / inject_Z d)%Q) by (apply Qle_shift_div_l; auto; rewrite Qmult_0_l; auto).
  split; [lra|]. split; [lra|]. split; [rewrite Nat.eqb_eq; destruct devs; cbn; split; congruence|]. rewrite Nat.eqb_eq. split.
  - intros Z0. unfold n. rewrite Z0. unfold Qdiv. change (inject_Z (Z.of_nat 0)) with 0%Q. rewrite Qmult_0_l. reflexivity.
  - intros Q. assert (X : (inject_Z n / inject_Z d == 0)%Q) by lra. destruct (length devs) eqn:Ed; auto. exfalso.
    assert (P : (0 < inject_Z n / inject_Z d)%Q); [|lra]. apply Qlt_shift_div_l; auto. rewrite Qmult_0_l. unfold n. unfold Qlt; cbn; lia.
Qed.
Print Assumptions C34_fitness.

Theorem C34_fitness_refuted : exists m t r, NoDup (map fst m) /\ check_trace m t = Some r /\ (d_fitness r < 0)%Q.
Proof. exists [(NONCOEXISTENCE, [(1, 2)])], [1; 2]. eexists. split; [repeat constructor; intros []|]. split; [reflexivity|]. unfold Qlt; cbn. lia. Qed.
Print Assumptions C34_fitness_refuted.

(** an answer is given for the non-empty models, unless ALTRESPONSE is there without RESPONSE *)
Theorem C34_defined m t : (exists k ks, In (k, ks) m /\ ks <> []) -> (d_mem m ALTRESPONSE = true -> d_mem m RESPONSE = true) -> exists r, check_trace m t = Some r.
Proof.
  intros (k & ks & Hk & Hne) HA. unfold check_trace. destruct (proj2 (opt_concat_def (checks m t))) as (devs & E).
  - unfold checks. cbn [In]. intros H. repeat (destruct H as [H|H]; [try (destruct (check_total m EXISTENCE t) as (y & Ey); [discriminate|]; cbn [bad] in Ey; congruence); unfold check, d_mem in *; repeat match type of H with context [match d_get ?m ?T with _ => _ end] => destruct (d_get m T) end; try discriminate; try (specialize (HA eq_refl); discriminate)|]). destruct H.
  - rewrite E. destruct (Nat.eqb_spec (list_sum (map (fun kv => length (snd kv)) m)) 0) as [Z0|]; eauto. exfalso.
    apply in_split in Hk. destruct Hk as (m1 & m2 & ->). rewrite map_app, list_sum_app in Z0. unfold list_sum in Z0. cbn [map snd fold_right] in Z0. destruct ks; [congruence|]. cbn [length] in Z0. lia.
Qed.
Print Assumptions C34_defined.

(** ** Non-vacuity: a model with a binary, a unary and an alternation constraint, and a trace that violates two of them *)
Definition m1 : decl := [(EXISTENCE, [(1, 1); (4, 4)]); (RESPONSE, [(1, 2)]); (ALTSUCCESSION, [(1, 2)])].
Example C34_ex : exists r, check_trace m1 [1; 1; 2] = Some r /\ d_devs r = [(EXISTENCE, (4, 4)); (ALTSUCCESSION, (1, 2))] /\ d_fitness r = (2 # 4)%Q /\ d_fit r = false.
Proof. eexists. split; [reflexivity|]. repeat split. Qed.
Example C34_ex_fit : exists r, check_trace m1 [1; 2; 4; 1; 3; 2] = Some r /\ d_devs r = [] /\ (d_fitness r == 1)%Q.
Proof. eexists. split; [reflexivity|]. repeat split. Qed.
