(** C99: the heuristics net has exactly the edges, nodes and AND measures that the counts of the log prescribe. *)
From Coq Require Import List Arith Bool ZArith QArith Lia Permutation Sorted.
Import ListNotations.
From Verif Require Import Model_Dict Proofs_Dict Model_Dfg Spec_Dfg Proofs_Dfg Model_Lev Proofs_Lev Model_Heu Spec_Heu Proofs_Heu1 Proofs_Heu2 Proofs_Heu3.
Local Open Scope nat_scope.
Local Open Scope list_scope.

Lemma final_edges P l a b : let ns := discover_heu P l in exists A, (forall x y, In (x, y) A <-> short_loop P l x y \/ short_loop P l y x) /\
  edges_out ns a b = (if strong_dec P l a b then [the_edge P l a b] else []) ++ A_of (r_fm P l) A a b /\
  edges_in ns b a = (if strong_dec P l a b then [the_edge P l a b] else []) ++ A_in (r_fm P l) A b a.
Proof.
  cbn zeta. destruct (ns3_spec P l) as (A & I & M & Ex). exists A. split; auto. rewrite discover_unfold. destruct (ns3 P l) as [|x r] eqn:E.
  - assert (S : ~ strong P l a b) by (intros S; apply (empty_none P l E a); exists b; auto).
    assert (Ax : existsb (keqb (a, b)) A = false).
    { destruct (existsb (keqb (a, b)) A) eqn:X; auto. apply existsb_exists in X as (q & Iq & Eq). apply keqb_true in Eq. subst q. apply M in Iq as [L|L]; destruct L as (_ & H & _); exfalso; now apply (empty_none P l E) in H. }
    unfold A_of, A_in. rewrite Ax. destruct (strong_dec P l a b); [easy|]. unfold edges_out, edges_in. rewrite !isolated_get. split; destruct (existsb _ (d_keys (r_occ l))); reflexivity.
  - rewrite <- E in *. clear E x r. split.
    + pose proof (i_out _ _ _ _ I a b) as O. cbn [fst snd] in O. rewrite O. now rewrite ns2_out.
    + pose proof (i_in _ _ _ _ I b a) as O. cbn [fst snd] in O. rewrite O. now rewrite ns2_in.
Qed.
Lemma strong_no_loop P l a b : strong P l a b -> ~ (short_loop P l a b \/ short_loop P l b a).
Proof. intros [_ D] [H|H]; destruct H as (_ & _ & _ & _ & _ & N1 & N2); auto. Qed.
Lemma A_exists A a b (M : Prop) : (In (a, b) A <-> M) -> (M -> existsb (keqb (a, b)) A = true) /\ (~ M -> existsb (keqb (a, b)) A = false).
Proof.
  intros H. split.
  - intros m. apply existsb_exists. exists (a, b). split; [now apply H|apply keqb_refl].
  - intros m. destruct (existsb _ A) eqn:X; auto. apply existsb_exists in X as (q & Iq & Eq). apply keqb_true in Eq. subst. exfalso. tauto.
Qed.

(** Between two activities there is exactly one edge when the relation is strong, with its dependency and its count; exactly
    one edge with dependency 0 in both directions when they form a short loop that is not strong; no edge otherwise. *)
Theorem C99_edges P l a b : let ns := discover_heu P l in
  (strong P l a b -> exists d c c', edges_out ns a b = [(d, c)] /\ edges_in ns b a = [(d, c)] /\
     counted_follows P l a b c /\ counted_follows P l b a c' /\ (d == dependency_of a b c c')%Q) /\
  (short_loop P l a b \/ short_loop P l b a -> exists c c', counted_follows P l a b c /\ counted_follows P l b a c' /\
     edges_out ns a b = [(0%Q, c)] /\ edges_in ns b a = [(0%Q, c')]) /\
  (~ strong P l a b -> ~ short_loop P l a b -> ~ short_loop P l b a -> edges_out ns a b = [] /\ edges_in ns b a = []).
Proof.
  cbn zeta. destruct (final_edges P l a b) as (A & M & Eo & Ei). cbn zeta in *. specialize (M a b). destruct (A_exists A a b _ M) as [T F]. unfold A_of, A_in in *. split; [|split].
  - intros S. rewrite F in Eo, Ei by now apply strong_no_loop. destruct (strong_dec P l a b); [|easy]. exists (fst (the_edge P l a b)), (fin P l a b), (fin P l b a).
    split; [exact Eo|]. split; [exact Ei|]. rewrite !fin_spec. split; auto. split; auto. apply dependency_spec. destruct S as [S _]. now apply fpair_spec in S.
  - intros L. rewrite T in Eo, Ei by auto. exists (fin P l a b), (fin P l b a). rewrite !fin_spec. split; auto. split; auto.
    destruct (strong_dec P l a b) as [S|S]; [exfalso; now apply (strong_no_loop P l a b S)|]. rewrite !fm_nat in *. auto.
  - intros S L1 L2. rewrite F in Eo, Ei by tauto. destruct (strong_dec P l a b); [easy|]. auto.
Qed.
Print Assumptions C99_edges.

(** The nodes are the activities that have an edge; all activities, without edges, when no relation is strong.  Every node
    carries the number of occurrences of its activity. *)
Theorem C99_nodes P l x : let ns := discover_heu P l in
  (In x (d_keys ns) <-> (has_strong P l x \/ exists y, short_loop P l y x) \/ ((forall a b, ~ strong P l a b) /\ 0 < occurrences l x)) /\
  (forall n, d_get ns x = Some n -> node_occ n = occurrences l x) /\ NoDup (d_keys ns).
Proof.
  cbn zeta. destruct (ns3_spec P l) as (A & I & M & Ex). rewrite discover_unfold.
  assert (Oc : c_get (r_occ l) x = occurrences l x) by (unfold r_occ; now rewrite c_get_of, occ_count).
  destruct (ns3 P l) as [|h r] eqn:E.
  - assert (No : forall a, ~ has_strong P l a) by now apply empty_none.
    assert (Kx : In x (d_keys (r_occ l)) <-> 0 < occurrences l x).
    { unfold r_occ. rewrite <- d_get_keys, d_get_c_of, occ_count. fold (occurrences l x). cbn zeta. destruct (Nat.eqb_spec (occurrences l x) 0); split; try easy; lia. }
    split; [|split].
    + rewrite <- d_get_keys, isolated_get. destruct (existsb (Nat.eqb x) (d_keys (r_occ l))) eqn:X.
      * split; [|easy]. intros _. right. split; [intros a b S; apply (No a); exists b; auto|]. apply Kx. apply existsb_exists in X as (y & Iy & Ey). apply Nat.eqb_eq in Ey. now subst.
      * split; [easy|]. intros [[H|[y H]]|[_ H]].
        -- now apply No in H.
        -- destruct H as (_ & H & _). now apply No in H.
        -- apply Kx in H. assert (existsb (Nat.eqb x) (d_keys (r_occ l)) = true); [|congruence]. apply existsb_exists. exists x. split; auto. apply Nat.eqb_refl.
    + intros n. rewrite isolated_get. destruct (existsb _ _); [|discriminate]. intros [= <-]. exact Oc.
    + assert (G : forall keys ns, NoDup (d_keys ns) -> NoDup (d_keys (fold_left (fun ns a => d_set ns a (new_node (c_get (r_occ l) a))) keys ns))) by (induction keys; intros; cbn; auto; apply IHkeys; now apply d_nodup_set).
      apply G. constructor.
  - rewrite <- E in *. assert (Ok := i_ok _ _ _ _ I). cbn [fst] in Ok. destruct Ok as [N H]. split; [|split; auto].
    + rewrite keys_exists, Ex. split; [auto|]. intros [X|[X _]]; auto. exfalso.
      assert (Hh : exists_in (ns3 P l) (fst h) = true) by (rewrite E; destruct h as [k v]; unfold exists_in; cbn [d_get fst]; now rewrite keqb_refl).
      apply Ex in Hh as [(y & [S|S])|(y & S)]; try now apply X in S. destruct S as (_ & (z & [S|S]) & _); now apply X in S.
    + intros n G. destruct (H _ _ G) as (O & _). now rewrite O.
Qed.
Print Assumptions C99_nodes.

(** The AND measures: between two distinct strong successors a < b of x (and likewise predecessors), whenever the value
    (ab + ba) / (xa + xb + 1) reaches the threshold. *)
Theorem C99_and_measures P l x n a b v : d_get (discover_heu P l) x = Some n ->
  ((exists w, m_get (and_out n) a b = Some w /\ (w == v)%Q) <->
     a < b /\ strong P l x a /\ strong P l x b /\ (and_t P <= v)%Q /\
     exists ab ba xa xb, counted_follows P l a b ab /\ counted_follows P l b a ba /\ counted_follows P l x a xa /\ counted_follows P l x b xb /\
       (v == (qn ab + qn ba) / (qn xa + qn xb + 1))%Q) /\
  ((exists w, m_get (and_in n) a b = Some w /\ (w == v)%Q) <->
     a < b /\ strong P l a x /\ strong P l b x /\ (and_t P <= v)%Q /\
     exists ab ba ax bx, counted_follows P l a b ab /\ counted_follows P l b a ba /\ counted_follows P l a x ax /\ counted_follows P l b x bx /\
       (v == (qn ab + qn ba) / (qn ax + qn bx + 1))%Q).
Proof.
  intros G. destruct (ns3_spec P l) as (A & I & M & Ex). rewrite discover_unfold in G.
  destruct (ns1_spec P l) as (Ok1 & Eo1 & Ei1 & Ex1).
  assert (Core : forall (S : nat -> Prop) (Sd : forall y, {S y} + {~ S y}) (c3 : nat -> nat) names (W : option Q),
     NoDup names -> (forall y, In y names <-> S y) ->
     W = m_get (and_measures (and_t P) (r_fm P l) c3 (sort_names names)) a b ->
     (exists w, W = Some w /\ (w == v)%Q) <-> a < b /\ S a /\ S b /\ (and_t P <= v)%Q /\ (v == (qn (fin P l a b) + qn (fin P l b a)) / (qn (c3 a) + qn (c3 b) + 1))%Q).
  { intros S Sd c3 names W Nn Hn ->. destruct (sort_names_spec names Nn) as [So Pm]. rewrite and_spec by auto. unfold and_value. rewrite !fm_nat.
    set (q := ((qn (fin P l a b) + qn (fin P l b a)) / (qn (c3 a) + qn (c3 b) + 1))%Q).
    assert (Ib : forall y, existsb (Nat.eqb y) (sort_names names) = true <-> S y).
    { intros y. rewrite <- Hn, existsb_exists. split.
      - intros (z & Iz & Ez). apply Nat.eqb_eq in Ez. subst. eapply Permutation_in; eauto.
      - intros Iy. exists y. split; [|apply Nat.eqb_refl]. eapply Permutation_in; [symmetry; exact Pm|auto]. }
    destruct (_ && _ && _ && _) eqn:X.
    - rewrite !andb_true_iff, Nat.ltb_lt, !Ib, Qle_bool_iff in X. split.
      + intros (w & [= <-] & Q). rewrite <- Q. split; [tauto|]. split; [tauto|]. split; [tauto|]. split; [tauto|reflexivity].
      + intros (_ & _ & _ & _ & Q). exists q. split; auto. now symmetry.
    - split; [intros (w & ? & _); discriminate|]. intros (H1 & H2 & H3 & H4 & H5). exfalso. assert (true = false); [|discriminate]. rewrite <- X. symmetry.
      rewrite !andb_true_iff, Nat.ltb_lt, !Ib, Qle_bool_iff. rewrite <- H5. tauto. }
  assert (Fin : forall (V : Q) y z u w, (V == (qn (fin P l a b) + qn (fin P l b a)) / (qn (fin P l y z) + qn (fin P l u w) + 1))%Q <->
     exists ab ba xa xb, counted_follows P l a b ab /\ counted_follows P l b a ba /\ counted_follows P l y z xa /\ counted_follows P l u w xb /\ (V == (qn ab + qn ba) / (qn xa + qn xb + 1))%Q).
  { intros V y z u w. split.
    - intros H. exists (fin P l a b), (fin P l b a), (fin P l y z), (fin P l u w). rewrite !fin_spec. auto.
    - intros (? & ? & ? & ? & H1 & H2 & H3 & H4 & H). apply fin_spec in H1, H2, H3, H4. now subst. }
  destruct (ns3 P l) as [|h r] eqn:E.
  - rewrite isolated_get in G. destruct (existsb _ _); [|discriminate]. injection G as <-. cbn [and_out and_in new_node].
    assert (No := empty_none P l E). split; (split; [intros (w & ? & _); discriminate|]); intros (_ & S & _); exfalso; apply (No x); exists a; auto.
  - rewrite <- E in *. clear E h r.
    assert (Oo := i_obs _ _ _ _ I _ (fun n => m_get (and_out n) a b) None x (fun _ => eq_refl) (fun _ _ _ => eq_refl)).
    assert (Oi := i_obs _ _ _ _ I _ (fun n => m_get (and_in n) a b) None x (fun _ => eq_refl) (fun _ _ _ => eq_refl)).
    cbn [fst] in Oo, Oi. unfold obs at 1 in Oo. unfold obs at 1 in Oi. rewrite G in Oo, Oi. rewrite Oo, Oi. clear Oo Oi.
    unfold obs, ns2. rewrite !get_measure. destruct (d_get (ns1 P l) x) as [m|] eqn:E1; cbn [option_map].
    + cbn [measure snd and_out and_in]. destruct Ok1 as [_ Ok1]. destruct (Ok1 _ _ E1) as (_ & No & Ni & Ne & Ne').
      split.
      * rewrite (Core (strong P l x) (strong_dec P l x) (fun b => m_nat (r_fm P l) x b) (d_keys (outputs m)) _ No); [|clear -E1 Eo1 Ne|reflexivity].
        -- rewrite !fm_nat, Fin. reflexivity.
        -- intros y. specialize (Eo1 x y). unfold edges_out in Eo1. rewrite E1 in Eo1. rewrite <- d_get_keys. destruct (d_get (outputs m) y) eqn:D.
           ++ split; [|easy]. intros _. destruct (strong_dec P l x y); auto. now apply Ne in D.
           ++ split; [easy|]. intros S. destruct (strong_dec P l x y); [discriminate|easy].
      * rewrite (Core (fun y => strong P l y x) (fun y => strong_dec P l y x) (fun b => m_nat (r_fm P l) b x) (d_keys (inputs m)) _ Ni); [|clear -E1 Ei1 Ne'|reflexivity].
        -- rewrite !fm_nat, Fin. reflexivity.
        -- intros y. specialize (Ei1 x y). unfold edges_in in Ei1. rewrite E1 in Ei1. rewrite <- d_get_keys. destruct (d_get (inputs m) y) eqn:D.
           ++ split; [|easy]. intros _. destruct (strong_dec P l y x); auto. now apply Ne' in D.
           ++ split; [easy|]. intros S. destruct (strong_dec P l y x); [discriminate|easy].
    + assert (Nx : ~ has_strong P l x) by (intros H; apply Ex1 in H; unfold exists_in in H; now rewrite E1 in H).
      split; (split; [intros (w & ? & _); discriminate|]); intros (_ & S & _); exfalso; apply Nx; exists a; auto.
Qed.
Print Assumptions C99_and_measures.

Lemma pair_dec (p q : nat * nat) : {p = q} + {p <> q}.
Proof. destruct (keqb p q) eqn:E; [left; now apply keqb_true|right; intros ->; now rewrite keqb_refl in E]. Qed.
(** With a positive dependency threshold, strong relations are one-directional *)
Theorem C99_asymmetric P l a b : (0 < dep_t P)%Q -> a <> b ->
  forall d c, In (d, c) (edges_out (discover_heu P l) a b) -> (0 < d)%Q -> edges_out (discover_heu P l) b a = [].
Proof.
  intros T N d c I D. destruct (C99_edges P l a b) as (H1 & H2 & H3). cbn zeta in *.
  destruct (strong_dec P l a b) as [S|S].
  - destruct (C99_edges P l b a) as (_ & _ & K3). cbn zeta in *.
    assert (Sb : ~ strong P l b a).
    { intros [_ (c1 & c2 & A1 & A2 & _ & A3)]. destruct S as [_ (c3 & c4 & B1 & B2 & _ & B3)]. apply fin_spec in A1, A2, B1, B2. subst.
      unfold dependency_of in *. rewrite (proj2 (Nat.eqb_neq a b)) in B3 by auto. rewrite (proj2 (Nat.eqb_neq b a)) in A3 by auto.
      assert (Pos : forall m n, (0 < qn m + qn n + 1)%Q) by (intros m n; unfold qn, inject_Z, Qlt, Qplus; cbn; lia).
      assert (Q1 := Pos (fin P l a b) (fin P l b a)). assert (Q2 := Pos (fin P l b a) (fin P l a b)).
      assert (L1 : (0 < (qn (fin P l a b) - qn (fin P l b a)) / (qn (fin P l a b) + qn (fin P l b a) + 1))%Q) by exact (Qlt_le_trans _ _ _ T B3).
      assert (L2 : (0 < (qn (fin P l b a) - qn (fin P l a b)) / (qn (fin P l b a) + qn (fin P l a b) + 1))%Q) by exact (Qlt_le_trans _ _ _ T A3).
      assert (Di : forall x y, (0 < y)%Q -> (0 < x / y)%Q -> (0 < x)%Q).
      { intros x y Hy Hx. setoid_replace x with (x / y * y)%Q by (field; intros E; rewrite E in Hy; discriminate). now apply Qmult_lt_0_compat. }
      apply Di in L1; auto. apply Di in L2; auto. clear - L1 L2. unfold qn, inject_Z, Qlt, Qminus, Qplus, Qopp in *. cbn in *. lia. }
    apply K3; auto; intros X; apply (strong_no_loop P l a b S); auto.
  - assert (C : (short_loop P l a b \/ short_loop P l b a) \/ ~ (short_loop P l a b \/ short_loop P l b a)).
    { destruct (ns3_spec P l) as (A & _ & M & _). rewrite <- M. destruct (in_dec pair_dec (a, b) A); auto. }
    destruct C as [C|C].
    + destruct (H2 C) as (c1 & c2 & _ & _ & Eo & _). rewrite Eo in I. destruct I as [[= <- <-]|[]]. now apply Qlt_irrefl in D.
    + destruct H3 as [Eo _]; try tauto. rewrite Eo in I. destruct I.
Qed.
Print Assumptions C99_asymmetric.

Definition with_dep (P : params) (t : Q) : params := Params t (and_t P) (noise_t P) (loop_t P) (min_act P) (min_dfg P).
Lemma noisy_with P t l a b : noisy (with_dep P t) l a b <-> noisy P l a b.
Proof. reflexivity. Qed.
Lemma cf_with P t l a b c : counted_follows (with_dep P t) l a b c <-> counted_follows P l a b c.
Proof. unfold counted_follows. rewrite noisy_with. reflexivity. Qed.
(** Raising the dependency threshold never adds an edge with a positive dependency, and does not change those that stay *)
Theorem C99_threshold_monotone P l t a b d c : (0 < dep_t P)%Q -> (dep_t P <= t)%Q ->
  In (d, c) (edges_out (discover_heu (with_dep P t) l) a b) -> (0 < d)%Q ->
  exists d', edges_out (discover_heu P l) a b = [(d', c)] /\ (d' == d)%Q.
Proof.
  intros T0 T I D. assert (S : strong (with_dep P t) l a b).
  { destruct (strong_dec (with_dep P t) l a b) as [S|S]; auto. exfalso. destruct (C99_edges (with_dep P t) l a b) as (H1 & H2 & H3). cbn zeta in *.
    assert (C : (short_loop (with_dep P t) l a b \/ short_loop (with_dep P t) l b a) \/ ~ (short_loop (with_dep P t) l a b \/ short_loop (with_dep P t) l b a)).
    { destruct (ns3_spec (with_dep P t) l) as (A & _ & M & _). rewrite <- M. destruct (in_dec pair_dec (a, b) A); auto. }
    destruct C as [C|C].
    + destruct (H2 C) as (c1 & c2 & _ & _ & Eo & _). rewrite Eo in I. destruct I as [[= <- <-]|[]]. now apply Qlt_irrefl in D.
    + destruct H3 as [Eo _]; try tauto. rewrite Eo in I. destruct I. }
  assert (S' : strong P l a b).
  { destruct S as [F (c1 & c2 & A & B & C & Q)]. split.
    - destruct F as (F1 & F2 & x & F3 & F4). split; auto. split; auto. exists x. rewrite cf_with in F3. auto.
    - exists c1, c2. rewrite cf_with in A, B. split; auto. split; auto. split; auto. eapply Qle_trans; eauto. }
  destruct (C99_edges (with_dep P t) l a b) as (H1 & _). destruct (C99_edges P l a b) as (K1 & _). cbn zeta in *.
  destruct (H1 S) as (d1 & c1 & c1' & Eo & _ & X1 & X2 & X3). destruct (K1 S') as (d2 & c2 & c2' & Eo2 & _ & Y1 & Y2 & Y3).
  rewrite cf_with in X1, X2. apply fin_spec in X1, X2, Y1, Y2. subst. rewrite Eo in I. destruct I as [[= <- <-]|[]]. exists d2. split; auto. now rewrite Y3, X3.
Qed.
Print Assumptions C99_threshold_monotone.

(** Examples.  With the default thresholds, without noise: 1 -> 2 -> 4, 1 -> 3 -> 4, and 2 3, 3 2 in parallel. *)
Definition p_default : params := Params (1#2) (65#100) 0 (1#2) 1 1.
Definition log_and : log := repeat [1; 2; 3; 4] 5 ++ repeat [1; 3; 2; 4] 5.
Example C99_example :
  edges_out (discover_heu p_default log_and) 1 2 = [(5 # 6, 5)] /\ edges_out (discover_heu p_default log_and) 2 3 = [] /\
  option_map (fun n => m_get (and_out n) 2 3) (d_get (discover_heu p_default log_and) 1) = Some (Some (10 # 11)%Q) /\
  map fst (discover_heu p_default log_and) = [1; 2; 3; 4].
Proof.
  split; [vm_compute; reflexivity|]. split; [vm_compute; reflexivity|]. split; vm_compute; reflexivity.
Qed.
(** Finding: the edge of a short loop may be less frequent than the threshold min_dfg_occurrences, even absent: only one direction is tested *)
Definition log_loop : log := [[1; 2; 3; 2; 3; 2; 4]; [1; 2; 3; 2; 4]; [1; 2; 4]].
Theorem C99_min_dfg_refuted : ~ (forall P l a b d c, In (d, c) (edges_out (discover_heu P l) a b) -> min_dfg P <= c).
Proof.
  intros H. specialize (H (Params (9#10) (65#100) 0 (1#2) 1 3) [[1; 1; 1; 1; 2; 1; 2; 1; 2]; [1;1;1;1;1;1;1;1;1;1;1]] 2 1 0%Q 2).
  assert (Hin : In (0%Q, 2) (edges_out (discover_heu (Params (9#10) (65#100) 0 (1#2) 1 3) [[1; 1; 1; 1; 2; 1; 2; 1; 2]; [1;1;1;1;1;1;1;1;1;1;1]]) 2 1)) by (vm_compute; auto).
  specialize (H Hin). cbn in H. lia.
Qed.
(** Finding: the count of a loop edge seen from its target is the count of the opposite relation *)
Theorem C99_loop_count_refuted : ~ (forall P l a b, edges_out (discover_heu P l) a b = edges_in (discover_heu P l) b a).
Proof.
  intros H. specialize (H (Params (9#10) (65#100) 0 (1#2) 1 3) [[1; 1; 1; 1; 2; 1; 2; 1; 2]; [1;1;1;1;1;1;1;1;1;1;1]] 2 1). vm_compute in H. discriminate H.
Qed.
(** Finding: a log that only alternates between two activities gives two isolated nodes *)
Example C99_isolated : map (fun an => (fst an, d_keys (outputs (snd an)))) (discover_heu p_default [[1; 2; 1; 2; 1]]) = [(1, []); (2, [])].
Proof. vm_compute. reflexivity. Qed.
(** a short loop with strong neighbours *)
Example C99_short_loop : map (fun an => (fst an, outputs (snd an))) (discover_heu p_default log_loop) =
  [(1, [(2, [(3 # 4, 3)])]); (2, [(4, [(3 # 4, 3)]); (3, [(0%Q, 3)])]); (4, []); (3, [(2, [(0%Q, 3)])])].
Proof. vm_compute. reflexivity. Qed.
