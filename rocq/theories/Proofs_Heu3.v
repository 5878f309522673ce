(** Loops of length two, and the result of the Heuristics Miner. *)
From Coq Require Import List Arith Bool ZArith QArith Lia Permutation Sorted.
Import ListNotations.
From Verif Require Import Model_Dict Proofs_Dict Model_Dfg Spec_Dfg Proofs_Dfg Model_Lev Proofs_Lev Model_Heu Spec_Heu Proofs_Heu1 Proofs_Heu2.
Local Open Scope nat_scope.
Local Open Scope list_scope.

Section Phase3.
Variables (P : params) (occ : dict nat nat) (dm : matrix Q) (fm : matrix nat).
Definition loopb (p : nat * nat) : bool :=
  match m_get fm (fst p) (snd p) with
  | Some c => (min_dfg P <=? c) && frequent P occ (fst p) && frequent P occ (snd p) && negb (dep_ok P dm (fst p) (snd p) || dep_ok P dm (snd p) (fst p))
  | None => false
  end.
Definition loops_at (ns : nodes) (a : nat) : list nat := obs (fun n => d_keys (loop_two n)) [] ns a.
Definition step (st : nodes * list (nat * nat)) (p : nat * nat) : nodes * list (nat * nat) := add_loop P occ dm fm st (fst p) (snd p).
(** the second half of [add_loop] *)
Definition half (st : nodes * list (nat * nat)) (a b : nat) : nodes * list (nat * nat) :=
  if existsb (keqb (a, b)) (snd st) then st
  else (add_input (add_output (fst st) a b (0%Q, m_nat fm a b)) b a (0%Q, m_nat fm b a), snd st ++ [(a, b)]).
Lemma add_loop_half st a b : add_loop P occ dm fm st a b =
  if loopb (a, b) then half (half (ensure occ (fst st) b, snd st) a b) b a else st.
Proof.
  unfold add_loop, loopb. cbn [fst snd]. destruct (m_get fm a b); auto. destruct (_ && _ && _ && _); auto. unfold half. cbn [fst snd].
  destruct (existsb (keqb (a, b)) (snd st)); reflexivity.
Qed.
Definition A_of (A : list (nat * nat)) (x y : nat) : list edge := if existsb (keqb (x, y)) A then [(0%Q, m_nat fm x y)] else [].
Definition A_in (A : list (nat * nat)) (x y : nat) : list edge := if existsb (keqb (y, x)) A then [(0%Q, m_nat fm x y)] else [].
Record inv (ns0 : nodes) (st : nodes * list (nat * nat)) : Prop := {
  i_ok : net_ok occ (fst st);
  i_out : forall x y, edges_out (fst st) x y = edges_out ns0 x y ++ A_of (snd st) x y;
  i_in : forall x y, edges_in (fst st) x y = edges_in ns0 x y ++ A_in (snd st) x y;
  i_obs : forall T (f : node -> T) dflt x, (forall n, f (new_node n) = dflt) -> (forall n o i, f (Node (node_occ n) o i (and_out n) (and_in n) (loop_two n)) = f n) ->
          obs f dflt (fst st) x = obs f dflt ns0 x;
  i_old : forall x, exists_in ns0 x = true -> exists_in (fst st) x = true;
  i_new : forall x y, In (x, y) (snd st) -> exists_in (fst st) x = true /\ exists_in (fst st) y = true }.
Lemma existsb_app_pair A a b x y : existsb (keqb (x, y)) (A ++ [(a, b)]) = existsb (keqb (x, y)) A || (Nat.eqb a x && Nat.eqb b y).
Proof. rewrite existsb_app. cbn [existsb]. change (keqb (x, y) (a, b)) with (Nat.eqb x a && Nat.eqb y b). now rewrite (Nat.eqb_sym x a), (Nat.eqb_sym y b), orb_false_r. Qed.
Lemma half_inv ns0 st a b : inv ns0 st -> exists_in (fst st) a = true -> exists_in (fst st) b = true ->
  inv ns0 (half st a b) /\ (forall x, exists_in (fst (half st a b)) x = exists_in (fst st) x) /\ (forall q, In q (snd (half st a b)) <-> In q (snd st) \/ q = (a, b)).
Proof.
  intros I Ea Eb. unfold half. destruct (existsb (keqb (a, b)) (snd st)) eqn:X.
  - split; auto. split; auto. intros q. split; auto. intros [H| ->]; auto. apply existsb_exists in X as (z & Iz & E). apply keqb_true in E. now subst.
  - cbn [fst snd]. assert (J : forall e e', add_input (add_output (fst st) a b e) b a e' = join occ (fst st) a b e e').
    { intros e e'. unfold join. rewrite (ensure_exists occ (fst st) a Ea). rewrite (ensure_exists occ (fst st) b Eb). reflexivity. }
    rewrite J. assert (Ex : forall x, exists_in (join occ (fst st) a b (0%Q, m_nat fm a b) (0%Q, m_nat fm b a)) x = exists_in (fst st) x).
    { intros x. rewrite exists_join. destruct (Nat.eqb_spec a x) as [<-|]; [now rewrite Ea|]. destruct (Nat.eqb_spec b x) as [<-|]; [now rewrite Eb|]. now rewrite !orb_false_r. }
    split; [|split; [exact Ex|intros q; rewrite in_app_iff; cbn; intuition]].
    split; cbn [fst snd].
    + now apply join_ok, I.
    + intros x y. rewrite out_join, (i_out _ _ I), <- app_assoc. f_equal. unfold A_of. rewrite existsb_app_pair. destruct (Nat.eqb_spec a x) as [<-|]; cbn [andb]; [|now rewrite app_nil_r, orb_false_r].
      destruct (Nat.eqb_spec b y) as [<-|]; [|now rewrite app_nil_r, orb_false_r]. rewrite X. reflexivity.
    + intros x y. rewrite in_join, (i_in _ _ I), <- app_assoc. f_equal. unfold A_in. rewrite existsb_app_pair. destruct (Nat.eqb_spec b x) as [<-|]; destruct (Nat.eqb_spec a y) as [<-|]; cbn [andb]; try now rewrite app_nil_r, orb_false_r.
      rewrite X. reflexivity.
    + intros T f dflt x D F. rewrite obs_join by auto. now apply (i_obs _ _ I).
    + intros x E. rewrite Ex. now apply (i_old _ _ I).
    + intros x y H. rewrite !Ex. apply in_app_iff in H as [H|[[= <- <-]|[]]]; [now apply (i_new _ _ I)|auto].
Qed.
Lemma ensure_inv ns0 ns A b : inv ns0 (ns, A) -> inv ns0 (ensure occ ns b, A).
Proof.
  intros I. assert (G : forall x, d_get (ensure occ ns b) x = match d_get ns x with Some n => Some n | None => if Nat.eqb b x then Some (new_node (c_get occ b)) else None end) by (intros; apply get_ensure).
  assert (Ex : forall x, exists_in ns x = true -> exists_in (ensure occ ns b) x = true) by (intros x H; unfold exists_in in *; rewrite G; now destruct (d_get ns x)).
  split; cbn [fst snd].
  - now apply ensure_ok, I.
  - intros x y. etransitivity; [|apply (i_out _ _ I)]. cbn [fst snd]. unfold edges_out. rewrite G. destruct (d_get ns x); auto. now destruct (Nat.eqb b x).
  - intros x y. etransitivity; [|apply (i_in _ _ I)]. cbn [fst snd]. unfold edges_in. rewrite G. destruct (d_get ns x); auto. now destruct (Nat.eqb b x).
  - intros T f dflt x D F. rewrite <- (i_obs _ _ I T f dflt x D F). cbn [fst snd]. unfold obs. rewrite G. destruct (d_get ns x); auto. destruct (Nat.eqb b x); auto.
  - intros x H. apply Ex. now apply (i_old _ _ I).
  - intros x y H. destruct (i_new _ _ I x y H). auto.
Qed.
Lemma exists_ensure ns b x : exists_in (ensure occ ns b) x = exists_in ns x || Nat.eqb b x.
Proof. unfold exists_in. rewrite get_ensure. destruct (d_get ns x); auto. now destruct (Nat.eqb b x). Qed.
Lemma step_inv ns0 st a b : inv ns0 st -> exists_in ns0 a = true ->
  inv ns0 (step st (a, b)) /\ (forall x, exists_in (fst (step st (a, b))) x = true <-> exists_in (fst st) x = true \/ loopb (a, b) = true /\ x = b) /\
  (forall q, In q (snd (step st (a, b))) <-> In q (snd st) \/ loopb (a, b) = true /\ (q = (a, b) \/ q = (b, a))).
Proof.
  intros I Ea. unfold step. cbn [fst snd]. rewrite add_loop_half. destruct (loopb (a, b)) eqn:L; [|split; auto; split; intros; [split; [auto|intros [H|[H _]]; [auto|discriminate]]|split; [auto|intros [H|[H _]]; [auto|discriminate]]]].
  destruct st as [ns A]. cbn [fst snd] in *. assert (I1 := ensure_inv ns0 ns A b I).
  assert (Xa : exists_in (fst (ensure occ ns b, A)) a = true) by (cbn [fst]; rewrite exists_ensure; pose proof (i_old _ _ I a Ea) as Z; cbn [fst] in Z; rewrite Z; reflexivity).
  assert (Xb : exists_in (fst (ensure occ ns b, A)) b = true) by (cbn [fst]; rewrite exists_ensure, Nat.eqb_refl; apply orb_true_r).
  destruct (half_inv ns0 _ a b I1 Xa Xb) as (I2 & E2 & M2).
  assert (Ya : exists_in (fst (half (ensure occ ns b, A) a b)) a = true) by now rewrite E2.
  assert (Yb : exists_in (fst (half (ensure occ ns b, A) a b)) b = true) by now rewrite E2.
  destruct (half_inv ns0 _ b a I2 Yb Ya) as (I3 & E3 & M3). split; auto. split.
  - intros x. rewrite E3, E2; cbn [fst]; rewrite exists_ensure, orb_true_iff, Nat.eqb_eq. intuition.
  - intros q. rewrite M3, M2. cbn [snd]. tauto.
Qed.
Lemma steps_inv ns0 L : (forall p, In p L -> exists_in ns0 (fst p) = true) -> forall st, inv ns0 st ->
  let r := fold_left step L st in
  inv ns0 r /\ (forall x, exists_in (fst r) x = true <-> exists_in (fst st) x = true \/ exists p, In p L /\ loopb p = true /\ x = snd p) /\
  (forall q, In q (snd r) <-> In q (snd st) \/ exists p, In p L /\ loopb p = true /\ (q = p \/ q = (snd p, fst p))).
Proof.
  induction L as [|[a b] L IH]; intros H st I; cbn zeta; cbn [fold_left].
  - split; auto. split; intros; (split; [auto|intros [X|(p & [] & _)]; auto]).
  - destruct (step_inv ns0 st a b I (H (a, b) (or_introl eq_refl))) as (I1 & E1 & M1).
    destruct (IH (fun p X => H p (or_intror X)) _ I1) as (I2 & E2 & M2). cbn zeta in *. split; auto. split.
    + intros x. rewrite E2, E1. split.
      * intros [[X|[X ->]]|(p & X & Y)]; [auto|right; exists (a, b); cbn; auto|right; exists p; cbn; auto].
      * intros [X|(p & [<-|X] & Y & Z)]; auto. right. eauto.
    + intros q. rewrite M2, M1. split.
      * intros [[X|[X Y]]|(p & X & Y)]; [auto|right; exists (a, b); cbn; auto|right; exists p; cbn; auto].
      * intros [X|(p & [<-|X] & Y & Z)]; auto. right. eauto.
Qed.
Definition flat (ns : nodes) : list (nat * nat) := concat (map (fun a => map (pair a) (loops_at ns a)) (d_keys ns)).
Lemma inv_start ns : net_ok occ ns -> inv ns (ns, []).
Proof.
  intros H. split; cbn [fst snd]; auto; try (intros; now rewrite app_nil_r); try (intros x y []).
Qed.
Lemma add_loops_flat ns : net_ok occ ns -> add_loops P occ dm fm ns = fst (fold_left step (flat ns) (ns, [])).
Proof.
  intros Ok. unfold add_loops, flat. f_equal.
  assert (G : forall keys, (forall a, In a keys -> exists_in ns a = true) -> forall st, inv ns st ->
    fold_left (fun st a => fold_left (fun st b => add_loop P occ dm fm st a b) (match d_get (fst st) a with Some n => d_keys (loop_two n) | None => [] end) st) keys st =
    fold_left step (concat (map (fun a => map (pair a) (loops_at ns a)) keys)) st).
  { induction keys as [|a keys IH]; intros Hk st I; [reflexivity|]. cbn [fold_left map concat]. rewrite fold_left_app.
    change (match d_get (fst st) a with Some n => d_keys (loop_two n) | None => [] end) with (obs (fun n => d_keys (loop_two n)) [] (fst st) a).
    rewrite (i_obs _ _ I) by reflexivity. fold (loops_at ns a).
    assert (E : forall l st, fold_left (fun st b => add_loop P occ dm fm st a b) l st = fold_left step (map (pair a) l) st) by (induction l; intros; cbn; auto).
    rewrite E. apply IH; [intros; apply Hk; now right|].
    apply (steps_inv ns (map (pair a) (loops_at ns a))); auto. intros p Ip. apply in_map_iff in Ip as (b & <- & _). apply Hk. now left. }
  apply G; [|now apply inv_start]. intros a Ia. unfold exists_in. apply d_get_keys in Ia. now destruct (d_get ns a).
Qed.
End Phase3.

(** ** The result *)
Section Result.
Variables (P : params) (l : log).
Definition r_occ := c_of (concat l).
Definition r_dm := dependency_matrix (final_dfg P l).
Definition r_fm := dfg_matrix (final_dfg P l).
Definition r_tm := triples_matrix (freq_triples l).
Definition ns1 := fold_left (connect P r_occ r_dm r_fm) (m_pairs r_dm) [].
Definition ns2 := map (measure P r_fm r_tm) ns1.
Definition ns3 := add_loops P r_occ r_dm r_fm ns2.
Lemma discover_unfold : discover_heu P l = match ns3 with [] => fold_left (fun ns a => d_set ns a (new_node (c_get r_occ a))) (d_keys r_occ) [] | _ => ns3 end.
Proof. reflexivity. Qed.

Lemma fm_get a b : m_get r_fm a b = if Nat.eqb (fin P l a b) 0 then None else Some (fin P l a b).
Proof. unfold r_fm, dfg_matrix. rewrite out_get by apply final_nodup. apply final_get. Qed.
Lemma fm_nat a b : m_nat r_fm a b = fin P l a b.
Proof. unfold m_nat. rewrite fm_get. now destruct (Nat.eqb_spec (fin P l a b) 0). Qed.
Lemma dm_get a b : m_get r_dm a b = if Nat.eqb (fin P l a b) 0 then None else Some (dependency (final_dfg P l) (a, b, fin P l a b)).
Proof. unfold r_dm, dependency_matrix. rewrite m_fold_get by apply final_nodup. rewrite final_get. now destruct (Nat.eqb (fin P l a b) 0). Qed.
Lemma dm_ok : m_ok r_dm.
Proof. unfold r_dm, dependency_matrix. apply (m_fold_ok (fun e => fst e)), m_ok_nil. Qed.
Lemma frequent_spec a : frequent P r_occ a = true <-> 0 < occurrences l a /\ min_act P <= occurrences l a.
Proof.
  unfold frequent, r_occ. rewrite d_get_c_of, occ_count. fold (occurrences l a). cbn zeta. destruct (Nat.eqb_spec (occurrences l a) 0) as [->|]; [split; [discriminate|lia]|].
  rewrite Nat.leb_le. lia.
Qed.
Lemma dep_spec a b : dep_ok P r_dm a b = true <-> dependent P l a b.
Proof.
  unfold dep_ok, dependent. rewrite dm_get. destruct (Nat.eqb_spec (fin P l a b) 0) as [E|E].
  - split; [discriminate|]. intros (c & c' & H & _ & H' & _). apply fin_spec in H. lia.
  - rewrite Qle_bool_iff, dependency_spec by lia. split.
    + intros H. exists (fin P l a b), (fin P l b a). rewrite !fin_spec. split; auto. split; auto. split; [lia|auto].
    + intros (c & c' & H & H' & _ & Q). apply fin_spec in H, H'. now subst.
Qed.
Lemma dep_spec' a b : dep_ok P r_dm a b = false <-> ~ dependent P l a b.
Proof. rewrite <- dep_spec. now destruct (dep_ok P r_dm a b). Qed.
Lemma fpair_spec a b : frequent_pair P l a b <-> frequent P r_occ a = true /\ frequent P r_occ b = true /\ 0 < fin P l a b /\ min_dfg P <= fin P l a b.
Proof.
  unfold frequent_pair. rewrite !frequent_spec. split.
  - intros (A & B & c & C & D). apply fin_spec in C. subst. tauto.
  - intros (A & B & C). split; auto. split; auto. exists (fin P l a b). rewrite fin_spec. tauto.
Qed.
Definition the_edge a b : edge := (dependency (final_dfg P l) (a, b, fin P l a b), fin P l a b).
Lemma take_spec a b : (strong P l a b -> take P r_occ r_dm r_fm (a, b) = Some (the_edge a b)) /\ (~ strong P l a b -> take P r_occ r_dm r_fm (a, b) = None).
Proof.
  assert (D := dep_spec a b). unfold dep_ok in D. unfold strong. rewrite fpair_spec. unfold take. cbn [fst snd]. rewrite fm_get, dm_get in *.
  destruct (Nat.eqb_spec (fin P l a b) 0) as [E|E]; [split; [lia|reflexivity]|]. split.
  - intros ((A & B & C & C') & Q). rewrite A, B. rewrite (proj2 (Nat.leb_le _ _)) by auto. apply D in Q. rewrite Q. reflexivity.
  - intros N. destruct (_ && _ && _ && _) eqn:X; auto. exfalso. apply N. rewrite !andb_true_iff, Nat.leb_le in X. destruct X as (((A & B) & C) & Q). apply D in Q.
    repeat split; auto; lia.
Qed.
Lemma pair_in a b : strong P l a b -> In (a, b) (m_pairs r_dm).
Proof.
  intros [H _]. apply fpair_spec in H as (_ & _ & H & _). apply m_pairs_in; [apply dm_ok|]. rewrite dm_get. destruct (Nat.eqb_spec (fin P l a b) 0); [lia|discriminate].
Qed.
Lemma strong_dec a b : {strong P l a b} + {~ strong P l a b}.
Proof.
  destruct (take P r_occ r_dm r_fm (a, b)) eqn:T; [left|right].
  - assert (D := dep_spec a b). unfold dep_ok in D. unfold take in T. cbn [fst snd] in T. rewrite fm_get, dm_get in *. destruct (Nat.eqb_spec (fin P l a b) 0) as [E|E]; [discriminate|].
    destruct (_ && _ && _ && _) eqn:X in T; [|discriminate]. rewrite !andb_true_iff, Nat.leb_le in X. destruct X as (((A & B) & C) & Q). apply D in Q.
    split; auto. apply fpair_spec. repeat split; auto; lia.
  - intros S. apply take_spec in S. congruence.
Qed.
Lemma taken_if a b : (if existsb (keqb (a, b)) (m_pairs r_dm) then match take P r_occ r_dm r_fm (a, b) with Some e => [e] | None => [] end else []) = if strong_dec a b then [the_edge a b] else [].
Proof.
  destruct (strong_dec a b) as [S|S].
  - rewrite (proj1 (take_spec a b) S). destruct (existsb _ _) eqn:X; auto. exfalso. apply pair_in in S. assert (existsb (keqb (a, b)) (m_pairs r_dm) = true); [|congruence].
    apply existsb_exists. exists (a, b). split; auto. apply keqb_refl.
  - rewrite (proj2 (take_spec a b) S). now destruct (existsb _ _).
Qed.
Lemma ns1_spec : net_ok r_occ ns1 /\ (forall x y, edges_out ns1 x y = if strong_dec x y then [the_edge x y] else []) /\
  (forall x y, edges_in ns1 x y = if strong_dec y x then [the_edge y x] else []) /\ (forall x, exists_in ns1 x = true <-> has_strong P l x).
Proof.
  destruct (phase1 P r_occ r_dm r_fm (m_pairs r_dm) (m_pairs_nodup _ dm_ok) []) as (A & B & C & D). fold ns1 in *.
  split; [apply A, net_ok_nil|]. split; [|split].
  - intros x y. rewrite B. apply taken_if.
  - intros x y. rewrite C. apply taken_if.
  - intros x. rewrite D. split.
    + intros [H|([a b] & e & I & T & H)]; [discriminate|]. cbn [fst snd] in H. assert (S : strong P l a b) by (destruct (strong_dec a b) as [S|S]; auto; apply take_spec in S; congruence).
      destruct H as [<-|<-]; [exists b|exists a]; auto.
    + intros (y & [S|S]); right; [exists (x, y), (the_edge x y)|exists (y, x), (the_edge y x)]; (split; [now apply pair_in|]; split; [now apply take_spec|cbn; auto]).
Qed.
Lemma ns2_exists x : exists_in ns2 x = exists_in ns1 x.
Proof. unfold exists_in, ns2. rewrite get_measure. now destruct (d_get ns1 x). Qed.
Lemma keys_exists (ns : nodes) x : In x (d_keys ns) <-> exists_in ns x = true.
Proof. rewrite <- d_get_keys. unfold exists_in. destruct (d_get ns x); split; easy. Qed.
Lemma loops_at_spec a b : In b (loops_at ns2 a) <-> has_strong P l a /\ a <> b /\ 0 < back_and_forth l a b /\
  (loop_t P <= (qn (back_and_forth l a b) + qn (back_and_forth l b a)) / (qn (back_and_forth l a b) + qn (back_and_forth l b a) + 1))%Q.
Proof.
  destruct ns1_spec as (_ & _ & _ & X). specialize (X a). unfold loops_at, obs, ns2, exists_in in *. rewrite get_measure.
  destruct (d_get ns1 a) as [n|]; cbn [option_map].
  - cbn [measure snd loop_two]. rewrite loops_keys by apply triples_ok. unfold r_tm. rewrite (triples_some l a b), !triples_get, Qle_bool_iff.
    destruct (Nat.eqb_spec a b) as [->|N]; [tauto|]. rewrite (proj2 (Nat.eqb_neq b a)) by auto. tauto.
  - split; [intros []|]. intros (H & _). apply X in H. discriminate.
Qed.
Lemma loop_pair a b : (In (a, b) (flat ns2) /\ loopb P r_occ r_dm r_fm (a, b) = true) <-> short_loop P l a b.
Proof.
  assert (F : In (a, b) (flat ns2) <-> In b (loops_at ns2 a)).
  { unfold flat. rewrite in_concat. split.
    - intros (w & W & I). apply in_map_iff in W as (x & <- & J). apply in_map_iff in I as (y & [= -> ->] & I). exact I.
    - intros I. exists (map (pair a) (loops_at ns2 a)). split; [|now apply in_map]. apply in_map_iff. exists a. split; auto. apply keys_exists.
      unfold loops_at, obs in I. unfold exists_in. destruct (d_get ns2 a); [auto|destruct I]. }
  rewrite F, loops_at_spec. unfold short_loop. rewrite fpair_spec. unfold loopb. cbn [fst snd]. rewrite fm_get.
  rewrite <- !dep_spec'. destruct (Nat.eqb_spec (fin P l a b) 0); [split; [intros [_ H]; discriminate|intros H; lia]|].
  rewrite !andb_true_iff, negb_true_iff, orb_false_iff, Nat.leb_le. split; [intros (A & (B & C) & D)|]; intuition lia.
Qed.
Lemma ns3_spec : exists A, inv r_occ r_fm ns2 (ns3, A) /\ (forall x y, In (x, y) A <-> short_loop P l x y \/ short_loop P l y x) /\
  (forall x, exists_in ns3 x = true <-> has_strong P l x \/ exists y, short_loop P l y x).
Proof.
  destruct ns1_spec as (Ok & _ & _ & Ex1). assert (Ok2 : net_ok r_occ ns2) by now apply measure_ok.
  assert (Fl : forall p, In p (flat ns2) -> exists_in ns2 (fst p) = true).
  { intros p I. unfold flat in I. apply in_concat in I as (w & W & I). apply in_map_iff in W as (x & <- & J). apply in_map_iff in I as (y & <- & _). now apply keys_exists. }
  destruct (steps_inv P r_occ r_dm r_fm ns2 (flat ns2) Fl (ns2, []) (inv_start r_occ r_fm ns2 Ok2)) as (I & E & M). cbn zeta in *. cbn [fst snd] in *.
  assert (R : ns3 = fst (fold_left (step P r_occ r_dm r_fm) (flat ns2) (ns2, []))) by (unfold ns3; now apply add_loops_flat).
  destruct (fold_left (step P r_occ r_dm r_fm) (flat ns2) (ns2, [])) as [r A]. cbn [fst snd] in *. subst r. exists A. split; auto. split.
  - intros x y. rewrite M. split.
    + intros [[]|([a b] & Ip & L & [H|H])]; cbn [fst snd] in H; injection H as -> ->; [left|right]; now apply loop_pair.
    + intros [H|H]; right; [exists (x, y)|exists (y, x)]; apply loop_pair in H as [H1 H2]; auto.
  - intros x. rewrite E, ns2_exists, Ex1. split.
    + intros [H|([a b] & Ip & L & H)]; auto. right. cbn [snd] in H. subst. exists a. now apply loop_pair.
    + intros [H|[y H]]; auto. right. apply loop_pair in H as [H1 H2]. exists (y, x). auto.
Qed.
Lemma ns2_out x y : edges_out ns2 x y = if strong_dec x y then [the_edge x y] else [].
Proof. unfold ns2. rewrite measure_out. apply ns1_spec. Qed.
Lemma ns2_in x y : edges_in ns2 x y = if strong_dec y x then [the_edge y x] else [].
Proof. unfold ns2. rewrite measure_in. apply ns1_spec. Qed.

(** when nothing was found *)
Lemma isolated_get keys x : d_get (fold_left (fun ns a => d_set ns a (new_node (c_get r_occ a))) keys []) x = if existsb (Nat.eqb x) keys then Some (new_node (c_get r_occ x)) else None.
Proof.
  assert (G : forall keys ns, d_get (fold_left (fun ns a => d_set ns a (new_node (c_get r_occ a))) keys ns) x = if existsb (Nat.eqb x) keys then Some (new_node (c_get r_occ x)) else d_get ns x); [|apply G].
  induction keys0 as [|a keys0 IH]; intros ns; [reflexivity|]. cbn [fold_left existsb]. rewrite IH. destruct (existsb _ keys0); [now rewrite orb_true_r|]. rewrite orb_false_r, d_get_set. cbn [keqb key_nat].
  destruct (Nat.eqb_spec a x) as [->|]; [now rewrite Nat.eqb_refl|]. now rewrite (proj2 (Nat.eqb_neq x a)) by auto.
Qed.
Lemma empty_none : ns3 = [] -> forall x, ~ has_strong P l x.
Proof. intros E x H. destruct ns3_spec as (A & _ & _ & Ex). assert (X : exists_in ns3 x = true) by (apply Ex; auto). now rewrite E in X. Qed.
End Result.
