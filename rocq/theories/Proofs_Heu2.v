(** The three phases of the Heuristics Miner. *)
From Coq Require Import List Arith Bool ZArith QArith Lia Permutation Sorted.
Import ListNotations.
From Verif Require Import Model_Dict Proofs_Dict Model_Dfg Spec_Dfg Proofs_Dfg Model_Lev Proofs_Lev Model_Heu Spec_Heu Proofs_Heu1.
Local Open Scope nat_scope.
Local Open Scope list_scope.

Local Arguments d_set : simpl never.

(** ** Observations of a net *)
Definition obs {T} (f : node -> T) (dflt : T) (ns : nodes) (x : nat) : T := match d_get ns x with Some n => f n | None => dflt end.
Definition outs (n : node) (b : nat) : list edge := match d_get (outputs n) b with Some es => es | None => [] end.
Definition ins (n : node) (b : nat) : list edge := match d_get (inputs n) b with Some es => es | None => [] end.
Lemma edges_out_obs ns a b : edges_out ns a b = obs (fun n => outs n b) [] ns a.
Proof. reflexivity. Qed.
Lemma edges_in_obs ns a b : edges_in ns a b = obs (fun n => ins n b) [] ns a.
Proof. reflexivity. Qed.
Lemma get_ensure occ ns a x : d_get (ensure occ ns a) x = match d_get ns x with Some n => Some n | None => if Nat.eqb a x then Some (new_node (c_get occ a)) else None end.
Proof.
  unfold ensure. destruct (d_mem ns a) eqn:M.
  - apply d_mem_in in M. destruct (d_get ns x) eqn:E; auto. destruct (Nat.eqb_spec a x) as [->|]; auto. apply d_get_none in E. easy.
  - rewrite d_get_set. cbn [keqb key_nat]. destruct (Nat.eqb_spec a x) as [->|]; [|now destruct (d_get ns x)].
    destruct (d_get ns x) eqn:E; auto. assert (In x (d_keys ns)) by (apply d_get_keys; congruence). apply d_mem_in in H. congruence.
Qed.
Lemma get_modify ns a f x : d_get (modify ns a f) x = if Nat.eqb a x then option_map f (d_get ns x) else d_get ns x.
Proof.
  unfold modify. destruct (Nat.eqb_spec a x) as [->|N].
  - destruct (d_get ns x) eqn:E; [|now rewrite E]. rewrite d_get_set_same. reflexivity.
  - destruct (d_get ns a); auto. rewrite d_get_set. cbn [keqb key_nat]. now rewrite (proj2 (Nat.eqb_neq a x)).
Qed.
Definition join (occ : dict nat nat) (ns : nodes) (a b : nat) (e e' : edge) : nodes :=
  add_input (add_output (ensure occ (ensure occ ns a) b) a b e) b a e'.

Lemma obs_join {T} (f : node -> T) (dflt : T) occ ns a b e e' x :
  (forall n, f (new_node n) = dflt) ->
  (forall n o i, f (Node (node_occ n) o i (and_out n) (and_in n) (loop_two n)) = f n) ->
  obs f dflt (join occ ns a b e e') x = obs f dflt ns x.
Proof.
  intros D F. unfold obs, join, add_input, add_output. rewrite !get_modify, !get_ensure.
  destruct (d_get ns x) as [n|].
  - destruct (Nat.eqb b x), (Nat.eqb a x); cbn [option_map]; rewrite ?F; auto.
  - destruct (Nat.eqb_spec a x) as [->|]; destruct (Nat.eqb_spec b x) as [->|]; cbn [option_map]; rewrite ?F; auto;
      try (rewrite <- (D (c_get occ x)); exact (F _ _ _)).
Qed.
Lemma get_append (d : dict nat (list edge)) b e y : (match d_get (append_edge d b e) y with Some es => es | None => [] end) = (match d_get d y with Some es => es | None => [] end) ++ (if Nat.eqb b y then [e] else []).
Proof.
  unfold append_edge. rewrite d_get_set. cbn [keqb key_nat]. destruct (Nat.eqb_spec b y) as [->|]; [reflexivity|]. now rewrite app_nil_r.
Qed.
Lemma out_join occ ns a b e e' x y : edges_out (join occ ns a b e e') x y = edges_out ns x y ++ (if Nat.eqb a x && Nat.eqb b y then [e] else []).
Proof.
  unfold edges_out, join, add_input, add_output. rewrite !get_modify, !get_ensure.
  destruct (d_get ns x) as [n|].
  - destruct (Nat.eqb b x), (Nat.eqb a x); cbn [option_map outputs andb]; rewrite ?get_append, ?app_nil_r; auto.
  - destruct (Nat.eqb_spec a x) as [->|]; destruct (Nat.eqb_spec b x) as [->|]; cbn [option_map outputs andb]; rewrite ?get_append, ?app_nil_r; auto.
Qed.
Lemma in_join occ ns a b e e' x y : edges_in (join occ ns a b e e') x y = edges_in ns x y ++ (if Nat.eqb b x && Nat.eqb a y then [e'] else []).
Proof.
  unfold edges_in, join, add_input, add_output. rewrite !get_modify, !get_ensure.
  destruct (d_get ns x) as [n|].
  - destruct (Nat.eqb b x), (Nat.eqb a x); cbn [option_map inputs andb]; rewrite ?get_append, ?app_nil_r; auto.
  - destruct (Nat.eqb_spec a x) as [->|]; destruct (Nat.eqb_spec b x) as [->|]; cbn [option_map inputs andb]; rewrite ?get_append, ?app_nil_r; auto.
Qed.
Definition exists_in (ns : nodes) (x : nat) : bool := match d_get ns x with Some _ => true | None => false end.
Lemma exists_join occ ns a b e e' x : exists_in (join occ ns a b e e') x = exists_in ns x || Nat.eqb a x || Nat.eqb b x.
Proof.
  unfold exists_in, join, add_input, add_output. rewrite !get_modify, !get_ensure.
  destruct (d_get ns x), (Nat.eqb_spec a x) as [->|], (Nat.eqb_spec b x) as [->|]; reflexivity.
Qed.
(** structure: nodes are distinct, edge lists are not empty, keys are distinct, nodes carry their number of occurrences *)
Definition node_ok (occ : dict nat nat) (x : nat) (n : node) : Prop :=
  node_occ n = c_get occ x /\ NoDup (d_keys (outputs n)) /\ NoDup (d_keys (inputs n)) /\
  (forall b es, d_get (outputs n) b = Some es -> es <> []) /\ (forall b es, d_get (inputs n) b = Some es -> es <> []).
Definition net_ok (occ : dict nat nat) (ns : nodes) : Prop := NoDup (d_keys ns) /\ forall x n, d_get ns x = Some n -> node_ok occ x n.
Lemma ensure_ok occ ns a : net_ok occ ns -> net_ok occ (ensure occ ns a).
Proof.
  intros [N H]. split; [unfold ensure; destruct (d_mem ns a); auto; now apply d_nodup_set|].
  intros x n. rewrite get_ensure. destruct (d_get ns x) eqn:E; [intros [= <-]; eauto|]. destruct (Nat.eqb_spec a x) as [->|]; [|discriminate]. intros [= <-].
  split; [reflexivity|]. cbn. split; [constructor|]. split; [constructor|]. split; discriminate.
Qed.
Lemma modify_ok occ ns a f : net_ok occ ns -> (forall n, node_ok occ a n -> node_ok occ a (f n)) -> net_ok occ (modify ns a f).
Proof.
  intros [N H] F. split; [unfold modify; destruct (d_get ns a); auto; now apply d_nodup_set|].
  intros x n. rewrite get_modify. destruct (Nat.eqb_spec a x) as [->|]; [|eauto]. destruct (d_get ns x) eqn:E; [|discriminate]. intros [= <-]. eauto.
Qed.
Lemma append_nodup d b e : NoDup (d_keys d) -> NoDup (d_keys (append_edge d b e)).
Proof. unfold append_edge. apply d_nodup_set. Qed.
Lemma append_ne d b e : (forall y es, d_get d y = Some es -> es <> []) -> forall y es, d_get (append_edge d b e) y = Some es -> es <> [].
Proof.
  intros H y es. unfold append_edge. rewrite d_get_set. cbn [keqb key_nat]. destruct (Nat.eqb_spec b y); [|eauto]. intros [= <-]. now destruct (match d_get d b with Some l => l | None => [] end).
Qed.
Lemma add_output_ok occ ns a b e : net_ok occ ns -> net_ok occ (add_output ns a b e).
Proof.
  intros H. apply modify_ok; auto. intros n (A & B & C & D & E). split; [exact A|]. cbn [outputs inputs]. split; [now apply append_nodup|]. split; auto. split; [now apply append_ne|auto].
Qed.
Lemma add_input_ok occ ns a b e : net_ok occ ns -> net_ok occ (add_input ns a b e).
Proof.
  intros H. apply modify_ok; auto. intros n (A & B & C & D & E). split; [exact A|]. cbn [outputs inputs]. split; auto. split; [now apply append_nodup|]. split; auto. now apply append_ne.
Qed.
Lemma join_ok occ ns a b e e' : net_ok occ ns -> net_ok occ (join occ ns a b e e').
Proof. intros H. unfold join. now apply add_input_ok, add_output_ok, ensure_ok, ensure_ok. Qed.
Lemma net_ok_nil occ : net_ok occ [].
Proof. split; [constructor|discriminate]. Qed.
Lemma ensure_exists occ ns a : exists_in ns a = true -> ensure occ ns a = ns.
Proof. unfold ensure, exists_in. intros H. destruct (d_mem ns a) eqn:M; auto. destruct (d_get ns a) eqn:E; [|discriminate]. assert (In a (d_keys ns)) by (apply d_get_keys; congruence). apply d_mem_in in H0. congruence. Qed.

(** ** Phase 1 *)
Section Phase1.
Variables (P : params) (occ : dict nat nat) (dm : matrix Q) (fm : matrix nat).
Definition take (p : nat * nat) : option edge :=
  match m_get dm (fst p) (snd p), m_get fm (fst p) (snd p) with
  | Some d, Some c => if frequent P occ (fst p) && frequent P occ (snd p) && (min_dfg P <=? c) && Qle_bool (dep_t P) d then Some (d, c) else None
  | _, _ => None
  end.
Lemma connect_take ns p : connect P occ dm fm ns p = match take p with Some e => join occ ns (fst p) (snd p) e e | None => ns end.
Proof.
  destruct p as [a b]. unfold connect, take. cbn [fst snd]. destruct (m_get dm a b); auto. destruct (m_get fm a b); auto. now destruct (_ && _).
Qed.
Lemma phase1 L : NoDup L -> forall ns,
  let r := fold_left (connect P occ dm fm) L ns in
  (net_ok occ ns -> net_ok occ r) /\
  (forall x y, edges_out r x y = edges_out ns x y ++ (if existsb (keqb (x, y)) L then match take (x, y) with Some e => [e] | None => [] end else [])) /\
  (forall x y, edges_in r x y = edges_in ns x y ++ (if existsb (keqb (y, x)) L then match take (y, x) with Some e => [e] | None => [] end else [])) /\
  (forall x, exists_in r x = true <-> exists_in ns x = true \/ exists p e, In p L /\ take p = Some e /\ (fst p = x \/ snd p = x)).
Proof.
  induction L as [|[a b] L IH]; intros Nd ns; cbn zeta.
  - cbn. split; auto. split; [intros; now rewrite app_nil_r|]. split; [intros; now rewrite app_nil_r|]. intros x. split; auto. intros [H|(p & e & [] & _)]. auto.
  - inversion Nd as [|? ? Na Nd']; subst. specialize (IH Nd' (connect P occ dm fm ns (a, b))). cbn zeta in IH. destruct IH as (I1 & I2 & I3 & I4). cbn [fold_left].
    rewrite connect_take in *. cbn [fst snd] in *.
    assert (Nx : existsb (keqb (a, b)) L = false). { destruct (existsb (keqb (a, b)) L) eqn:E; auto. apply existsb_exists in E as (q & Iq & Eq). apply keqb_true in Eq. now subst. }
    destruct (take (a, b)) as [e|] eqn:T.
    + split; [intros; apply I1; now apply join_ok|]. split; [|split].
      * intros x y. rewrite I2, out_join. cbn [existsb]. change (keqb (x, y) (a, b)) with (Nat.eqb x a && Nat.eqb y b). rewrite (Nat.eqb_sym x a), (Nat.eqb_sym y b).
        destruct (Nat.eqb_spec a x) as [->|]; cbn [andb orb]; [|now rewrite app_nil_r]. destruct (Nat.eqb_spec b y) as [->|]; cbn [orb]; [|now rewrite app_nil_r].
        rewrite Nx, T, app_nil_r. reflexivity.
      * intros x y. rewrite I3, in_join. cbn [existsb]. change (keqb (y, x) (a, b)) with (Nat.eqb y a && Nat.eqb x b). rewrite (Nat.eqb_sym x b), (Nat.eqb_sym y a).
        destruct (Nat.eqb_spec b x) as [->|]; destruct (Nat.eqb_spec a y) as [->|]; cbn [andb orb]; try now rewrite app_nil_r.
        rewrite Nx, T, app_nil_r. reflexivity.
      * intros x. rewrite I4, exists_join, !orb_true_iff, !Nat.eqb_eq. split.
        -- intros [[[H|H]|H]|(p & e' & A & B & C)]; auto; right; [exists (a, b), e; cbn; auto|exists (a, b), e; cbn; auto|exists p, e'; cbn; auto].
        -- intros [H|(p & e' & [<-|A] & B & C)]; auto; [cbn in C; destruct C; auto|]. right. eauto.
    + split; [exact I1|]. split; [|split].
      * intros x y. rewrite I2. cbn [existsb]. change (keqb (x, y) (a, b)) with (Nat.eqb x a && Nat.eqb y b).
        destruct (Nat.eqb_spec x a) as [->|]; cbn [andb orb]; auto. destruct (Nat.eqb_spec y b) as [->|]; cbn [orb]; auto. rewrite T. now destruct (existsb _ L).
      * intros x y. rewrite I3. cbn [existsb]. change (keqb (y, x) (a, b)) with (Nat.eqb y a && Nat.eqb x b).
        destruct (Nat.eqb_spec y a) as [->|]; cbn [andb orb]; auto. destruct (Nat.eqb_spec x b) as [->|]; cbn [orb]; auto. rewrite T. now destruct (existsb _ L).
      * intros x. rewrite I4. split; (intros [H|(p & e' & A & B & C)]; [auto|]); right; [exists p, e'; cbn; auto|]. destruct A as [<-|A]; [congruence|]. eauto.
Qed.
End Phase1.

(** ** Phase 2 *)
Lemma get_measure P fm tm ns x : d_get (map (measure P fm tm) ns) x = option_map (fun n => snd (measure P fm tm (x, n))) (d_get ns x).
Proof.
  induction ns as [|[a n] ns IH]; [reflexivity|]. cbn [map measure d_get fst snd]. destruct (keqb_spec a x) as [->|]; auto.
Qed.
Lemma keys_measure P fm tm ns : d_keys (map (measure P fm tm) ns) = d_keys ns.
Proof. unfold d_keys. rewrite map_map. apply map_ext. now intros [a n]. Qed.
Lemma measure_ok occ P fm tm ns : net_ok occ ns -> net_ok occ (map (measure P fm tm) ns).
Proof.
  intros [N H]. split; [now rewrite keys_measure|]. intros x n. rewrite get_measure. destruct (d_get ns x) eqn:E; [|discriminate]. intros [= <-].
  destruct (H _ _ E) as (A & B & C & D & F). split; [exact A|]. cbn. auto.
Qed.
Lemma measure_out P fm tm ns x y : edges_out (map (measure P fm tm) ns) x y = edges_out ns x y.
Proof. unfold edges_out. rewrite get_measure. now destruct (d_get ns x). Qed.
Lemma measure_in P fm tm ns x y : edges_in (map (measure P fm tm) ns) x y = edges_in ns x y.
Proof. unfold edges_in. rewrite get_measure. now destruct (d_get ns x). Qed.

Definition and_value (fm : matrix nat) (c3 : nat -> nat) (a b : nat) : Q := ((qn (m_nat fm a b) + qn (m_nat fm b a)) / (qn (c3 a) + qn (c3 b) + 1))%Q.
Lemma and_spec t fm c3 names : StronglySorted lt names -> forall a b,
  m_get (and_measures t fm c3 names) a b = if (a <? b) && existsb (Nat.eqb a) names && existsb (Nat.eqb b) names && Qle_bool t (and_value fm c3 a b) then Some (and_value fm c3 a b) else None.
Proof.
  intros S a b. unfold and_measures.
  set (go := fix go (l : list nat) (m : matrix Q) : matrix Q := match l with [] => m | a :: r => go r (fold_left (fun m b =>
        let v := ((qn (m_nat fm a b) + qn (m_nat fm b a)) / (qn (c3 a) + qn (c3 b) + 1))%Q in
        if Qle_bool t v then m_set m a b v else m) r m) end).
  assert (In1 : forall x r m, m_get (fold_left (fun m b => let v := ((qn (m_nat fm x b) + qn (m_nat fm b x)) / (qn (c3 x) + qn (c3 b) + 1))%Q in
        if Qle_bool t v then m_set m x b v else m) r m) a b = if Nat.eqb x a && existsb (Nat.eqb b) r && Qle_bool t (and_value fm c3 a b) then Some (and_value fm c3 a b) else m_get m a b).
  { intros x r. induction r as [|y r IH]; intros m; cbn [fold_left existsb]; [now rewrite andb_false_r|]. rewrite IH. cbn zeta.
    destruct (Nat.eqb_spec x a) as [->|]; cbn [andb].
    - destruct (Nat.eqb_spec b y) as [<-|].
      + cbn [orb andb]. fold (and_value fm c3 a b). destruct (Qle_bool t (and_value fm c3 a b)); [rewrite andb_true_r|now rewrite andb_false_r].
        destruct (existsb _ r); auto. rewrite m_get_set, !Nat.eqb_refl. reflexivity.
      + cbn [orb]. destruct (existsb _ r && _); auto. match goal with |- context [if ?q then m_set _ _ _ _ else _] => destruct q end; auto. rewrite m_get_set. rewrite (proj2 (Nat.eqb_neq y b)) by auto. now rewrite andb_false_r.
    - match goal with |- context [if ?q then m_set _ _ _ _ else _] => destruct q end; auto. rewrite m_get_set. now rewrite (proj2 (Nat.eqb_neq x a)). }
  assert (Go : forall names, StronglySorted lt names -> forall m, m_get (go names m) a b =
     if (a <? b) && existsb (Nat.eqb a) names && existsb (Nat.eqb b) names && Qle_bool t (and_value fm c3 a b) then Some (and_value fm c3 a b) else m_get m a b).
  { clear S names. induction names as [|x r IH]; intros S m; [cbn; now rewrite !andb_false_r|]. inversion S as [|? ? S' F]; subst. cbn [go]. rewrite IH by auto. rewrite In1. clear IH In1.
    rewrite Forall_forall in F. cbn [existsb].
    assert (Fx : existsb (Nat.eqb x) r = false) by (destruct (existsb (Nat.eqb x) r) eqn:E; auto; apply existsb_exists in E as (z & Iz & Ez); apply Nat.eqb_eq in Ez; subst; specialize (F _ Iz); lia).
    destruct (Nat.eqb_spec x a) as [->|Na].
    - rewrite Nat.eqb_refl. cbn [orb andb]. rewrite Fx, andb_false_r. cbn [andb]. destruct (Nat.eqb_spec b a) as [->|Nb]; cbn [orb].
      + rewrite Fx, Nat.ltb_irrefl. reflexivity.
      + rewrite andb_true_r. destruct (existsb (Nat.eqb b) r) eqn:E; [|now rewrite andb_false_r].
        apply existsb_exists in E as (z & Iz & Ez). apply Nat.eqb_eq in Ez. subst z. specialize (F _ Iz). rewrite (proj2 (Nat.ltb_lt a b)) by auto. reflexivity.
    - rewrite (proj2 (Nat.eqb_neq a x)) by auto. cbn [orb andb]. destruct (Nat.eqb_spec b x) as [->|]; cbn [orb]; [|reflexivity].
      rewrite Fx, andb_false_r. cbn [andb]. destruct (existsb (Nat.eqb a) r) eqn:E; [|now rewrite andb_false_r].
      apply existsb_exists in E as (z & Iz & Ez). apply Nat.eqb_eq in Ez. subst z. specialize (F _ Iz). destruct (Nat.ltb_spec a x); [lia|reflexivity]. }
  rewrite Go by auto. cbn [m_get m_row d_get]. reflexivity.
Qed.
Lemma sort_names_spec l : NoDup l -> StronglySorted lt (sort_names l) /\ Permutation (sort_names l) l.
Proof.
  intros N. unfold sort_names. pose proof (sorted_by_perm Z.of_nat l) as Pm. split; [|now symmetry].
  assert (S := sorted_by_sorted Z.of_nat l). assert (N' : NoDup (sorted_by Z.of_nat l)) by (eapply Permutation_NoDup; eauto).
  revert S N'. generalize (sorted_by Z.of_nat l). intros s S. induction S as [|x s S IH F]; intros N'; [constructor|]. inversion N' as [|? ? Nx N'']; subst.
  constructor; auto. rewrite Forall_forall in *. intros y Iy. specialize (F _ Iy). assert (x <> y) by (intros ->; easy). cbn in F. lia.
Qed.
Lemma loops_keys P fm tm a b : m_ok tm -> In b (d_keys (loops_two P fm tm a)) <->
  m_get tm a b <> None /\ Qle_bool (loop_t P) ((qn (m_nat tm a b) + qn (m_nat tm b a)) / (qn (m_nat tm a b) + qn (m_nat tm b a) + 1))%Q = true.
Proof.
  intros M. unfold loops_two, m_get. 
  assert (G : forall (row d : dict nat nat), In b (d_keys (fold_left (fun d bv => if Qle_bool (loop_t P) ((qn (m_nat tm a (fst bv)) + qn (m_nat tm (fst bv) a)) / (qn (m_nat tm a (fst bv)) + qn (m_nat tm (fst bv) a) + 1))%Q then d_set d (fst bv) (m_nat fm a (fst bv)) else d) row d)) <->
     In b (d_keys d) \/ In b (d_keys row) /\ Qle_bool (loop_t P) ((qn (m_nat tm a b) + qn (m_nat tm b a)) / (qn (m_nat tm a b) + qn (m_nat tm b a) + 1))%Q = true).
  { induction row as [|[y v] row IH]; intros d; [cbn; tauto|]. cbn [fold_left fst]. rewrite IH. cbn [d_keys map fst In].
    destruct (Qle_bool _ _) eqn:E at 1.
    - rewrite d_in_keys_set. split; [|]; [intros [[H|H]|H]; auto; [right; subst; auto|right; tauto]|]. intros [H|[[H|H] Q]]; auto.
    - split; [intros [H|H]; auto; right; tauto|]. intros [H|[[H|H] Q]]; auto. subst. congruence. }
  cbn zeta. rewrite G. cbn [d_keys map In]. rewrite (d_get_keys (m_row tm a) b). tauto.
Qed.
