(** C84: prefix trees.  C86: rework statistics. *)
From Coq Require Import List Arith Bool Lia.
Import ListNotations.
From Verif Require Import Model_Dict Model_Dfg Model_Trie Spec_Trie Spec_Dfg Proofs_Dict Proofs_Trie.
From Verif Require Proofs_Dfg Proofs_Eval Proofs_Interval1 Proofs_Interval2 Proofs_Ocel2 Proofs_Ocel3.
Local Open Scope nat_scope.

(** * C84 *)
(** The paths of the tree are exactly the prefixes of the variants. *)
Theorem C84_paths : forall vs p, (exists n, reaches (prefix_tree vs) p n) <-> p = [] \/ exists v, In v vs /\ prefix_of p v.
Proof. intros. apply tree_reach_aux. Qed.
Print Assumptions C84_paths.
(** One node per prefix: children have different labels, so a prefix leads to one node, which carries its length and last activity. *)
Theorem C84_nodes : forall vs, deterministic (prefix_tree vs) /\
  (forall p n n', reaches (prefix_tree vs) p n -> reaches (prefix_tree vs) p n' -> n = n') /\
  (forall p n, reaches (prefix_tree vs) p n -> t_depth n = length p /\ (p = [] -> t_label n = None) /\ forall q a, p = q ++ [a] -> t_label n = Some a).
Proof.
  intros vs. split; [|split].
  - intros p n Hr. apply (wf_tree vs p n Hr).
  - intros p n n'. apply reaches_fun, wf_tree.
  - intros p n Hr. apply tree_depth_label in Hr as [A B]. split; auto. split; [intros ->; auto|]. intros q a ->. rewrite rev_app_distr in B. auto.
Qed.
Print Assumptions C84_nodes.
(** A final node is the end of a variant; it is marked exactly when no variant inserted before the variant passed through the node. *)
Theorem C84_final : forall vs p n, reaches (prefix_tree vs) p n ->
  (t_final n = true <-> p <> [] /\ exists l1 l2, vs = l1 ++ p :: l2 /\ forall v, In v l1 -> ~ prefix_of p v).
Proof. intros vs p n Hr. apply (tree_final vs p n Hr). Qed.
Print Assumptions C84_final.
(** In particular the leaves are ends of variants, and a variant that is no prefix of another variant ends in a final node. *)
Theorem C84_leaves : forall vs, (forall p n, reaches (prefix_tree vs) p n -> p <> [] -> t_children n = [] -> t_final n = true) /\
  (forall p n, p <> [] -> In p vs -> (forall v, In v vs -> prefix_of p v -> v = p) -> reaches (prefix_tree vs) p n -> t_final n = true).
Proof.
  intros vs.
  assert (S : forall p n, p <> [] -> In p vs -> (forall v, In v vs -> prefix_of p v -> v = p) -> reaches (prefix_tree vs) p n -> t_final n = true).
  { intros p n Hp Hin Hu Hr. apply (tree_final vs p n Hr). split; auto.
    assert (F : exists l1 l2, vs = l1 ++ p :: l2 /\ ~ In p l1).
    { clear -Hin. induction vs as [|x vs IH]; [contradiction|]. destruct (list_eq_dec Nat.eq_dec x p) as [->|Hx]; [exists [], vs; auto|].
      destruct Hin as [Hin|Hin]; [contradiction|]. destruct (IH Hin) as (l1 & l2 & -> & H1). exists (x :: l1), l2. split; auto. intros [E|E]; auto. }
    destruct F as (l1 & l2 & -> & H1). exists l1, l2. split; auto. intros v Hv Hpv. apply H1. rewrite <- (Hu v); auto. apply in_app_iff; auto. }
  split; auto. intros p n Hr Hp Hc.
  assert (X : exists n, reaches (prefix_tree vs) p n) by eauto. apply tree_reach_aux in X as [X|(v & Hv & s & ->)]; [contradiction|].
  assert (L : forall s', (exists v, In v vs /\ v = p ++ s') -> s' = []).
  { intros [|b s'] (w & Hw & ->); auto. exfalso. assert (Y : exists m, reaches (prefix_tree vs) (p ++ [b]) m).
    { apply tree_reach_aux. right. exists (p ++ b :: s'). split; auto. exists s'. rewrite <- app_assoc. auto. }
    destruct Y as [m Hm]. clear -Hr Hm Hc. assert (W := wf_tree vs). revert Hr Hm W. generalize (prefix_tree vs). induction p as [|c p IH]; intros t Hr Hm W.
    - inversion Hr; subst. inversion Hm; subst. rewrite Hc in *. contradiction.
    - inversion Hr; subst. inversion Hm; subst. assert (c1 = c0) as -> by (eapply (child_unique t); eauto). apply (IH c0); auto. apply (wf_child _ _ W); auto. }
  rewrite (L s) in Hv by eauto. rewrite app_nil_r in Hv. apply (S p n); auto. intros w Hw [s' Hs']. rewrite (L s') in Hs' by eauto. rewrite app_nil_r in Hs'. auto.
Qed.
Print Assumptions C84_leaves.
(** FINDING: a variant that is a prefix of a variant seen before ends in a node that is not final; the result depends on the order of the variants. *)
Theorem C84_prefix_variant_refuted : exists vs p n, In p vs /\ p <> [] /\ reaches (prefix_tree vs) p n /\ t_final n = false /\
  exists vs' n', Permutation.Permutation vs vs' /\ reaches (prefix_tree vs') p n' /\ t_final n' = true.
Proof.
  exists [[1; 2]; [1]], [1], (Trie (Some 1) 1 false [Trie (Some 2) 2 true []]). split; [cbn; auto|]. split; [discriminate|].
  split; [econstructor; [left; reflexivity|reflexivity|constructor]|]. split; auto.
  exists [[1]; [1; 2]], (Trie (Some 1) 1 true [Trie (Some 2) 2 true []]). split; [apply Permutation.perm_swap|].
  split; [econstructor; [left; reflexivity|reflexivity|constructor]|auto].
Qed.
Print Assumptions C84_prefix_variant_refuted.
Example ex_trie : prefix_tree_log [[1; 2; 3]; [1; 2]; [1; 2; 3]; [1; 4]; [5]] =
  Trie None 0 false [Trie (Some 1) 1 false [Trie (Some 2) 2 false [Trie (Some 3) 3 true []]; Trie (Some 4) 2 true []]; Trie (Some 5) 1 true []].
Proof. vm_compute. reflexivity. Qed.
(** The variants of a log are its distinct traces: the paths for a log are the prefixes of its traces. *)
Theorem C84_log : forall l p, (exists n, reaches (prefix_tree_log l) p n) <-> p = [] \/ exists t, In t l /\ prefix_of p t.
Proof.
  intros l p. unfold prefix_tree_log. rewrite tree_reach_aux. split; (intros [A|(v & A & B)]; [auto|right; exists v; split; auto]); [apply (proj1 (dedup_in _ _)) in A|apply dedup_in]; auto.
Qed.
Print Assumptions C84_log.

(** * C86 *)
Lemma repeats_occ t a : repeats t a <-> 2 <= occ a t.
Proof.
  destruct (Proofs_Dfg.exactly_occ a t) as (L & Hn & Hl & HL). split.
  - intros (i & j & Hij & A & B). apply HL in A, B. rewrite <- Hl. change 2 with (length [i; j]). apply NoDup_incl_length.
    + constructor; [intros [E|[]]; lia|constructor; [intros []|constructor]].
    + intros x [<-|[<-|[]]]; auto.
  - intros H2. rewrite <- Hl in H2. destruct L as [|i [|j L]]; cbn in H2; try lia. assert (Hij : i <> j). { inversion Hn; subst. intros ->. apply H1. cbn; auto. }
    assert (A := proj1 (HL i) (or_introl eq_refl)). assert (B := proj1 (HL j) (or_intror (or_introl eq_refl))).
    destruct (Nat.lt_ge_cases i j); [exists i, j|exists j, i]; repeat split; auto; lia.
Qed.
Definition rep_acts (t : trace) : list nat := map fst (filter (fun an => 1 <? snd an) (c_of t)).
Lemma rep_acts_in t a : In a (rep_acts t) <-> 2 <= occ a t.
Proof.
  unfold rep_acts. rewrite in_map_iff. split.
  - intros ([b n] & E & Hf). cbn in E. subst b. apply filter_In in Hf as [Hin Hn]. cbn [snd] in Hn. apply Nat.ltb_lt in Hn.
    apply (d_in_get _ _ _ (c_of_nodup t)) in Hin. rewrite d_get_c_of in Hin. destruct (occ a t =? 0); [discriminate|]. injection Hin as <-. auto.
  - intros H2. exists (a, occ a t). split; auto. apply filter_In. split; [|cbn [snd]; apply Nat.ltb_lt; auto]. apply d_get_in. rewrite d_get_c_of. destruct (Nat.eqb_spec (occ a t) 0); [lia|auto].
Qed.
Lemma rep_acts_nodup t : NoDup (rep_acts t).
Proof. unfold rep_acts. apply Proofs_Ocel3.nodup_filter_map. apply (c_of_nodup t). Qed.
Lemma occ_nodup (k : nat) l : NoDup l -> occ k l = if existsb (Nat.eqb k) l then 1 else 0.
Proof.
  induction l as [|x l IH]; [reflexivity|]. intros Hn. inversion Hn; subst. rewrite occ_cons, IH by auto. cbn [existsb keqb key_nat].
  rewrite (Nat.eqb_sym x k). destruct (Nat.eqb_spec k x) as [->|]; cbn; auto. destruct (existsb (Nat.eqb x) l) eqn:E; auto.
  exfalso. apply H1. apply existsb_exists in E as (y & Hy & E). apply Nat.eqb_eq in E as ->. auto.
Qed.
Lemma occ_rep t a : occ a (rep_acts t) = if 2 <=? occ a t then 1 else 0.
Proof.
  rewrite occ_nodup by apply rep_acts_nodup. destruct (Nat.leb_spec 2 (occ a t)) as [A|A].
  - apply rep_acts_in in A. assert (E : existsb (Nat.eqb a) (rep_acts t) = true) by (apply existsb_exists; exists a; rewrite Nat.eqb_refl; auto). rewrite E. auto.
  - destruct (existsb (Nat.eqb a) (rep_acts t)) eqn:E; auto. apply existsb_exists in E as (y & Hy & E). apply Nat.eqb_eq in E as <-. apply rep_acts_in in Hy. lia.
Qed.
Lemma rework_of l : rework_log l = c_of (flat_map rep_acts l).
Proof. unfold rework_log. change (c_of (flat_map rep_acts l)) with (fold_left (fun d k => c_add d k 1) (flat_map rep_acts l) ([] : @counter nat)). apply Proofs_Interval2.fold_flat. intros. reflexivity. Qed.
Lemma rework_get l a : occ a (flat_map rep_acts l) = length (filter (fun t => 2 <=? occ a t) l).
Proof.
  rewrite Proofs_Interval2.occ_flat. induction l as [|t l IH]; [reflexivity|]. cbn [map filter]. rewrite Proofs_Eval.ls_cons, IH, occ_rep. destruct (2 <=? occ a t); cbn; auto.
Qed.
(** The number reported for an activity is the number of cases in which it occurs more than once; activities without such a case do not appear. *)
Theorem C86_rework : forall l a, exactly (c_get (rework_log l) a) (fun k => exists t, nth_error l k = Some t /\ repeats t a) /\
  (In a (d_keys (rework_log l)) <-> exists t, In t l /\ repeats t a) /\ NoDup (d_keys (rework_log l)).
Proof.
  intros l a. rewrite rework_of. split; [|split].
  - rewrite c_get_of, rework_get. eapply Proofs_Dfg.exactly_ext; [|apply (Proofs_Ocel2.exactly_positions (fun t => 2 <=? occ a t) l)].
    intros k. cbv beta. split; intros (t & A & B); exists t; split; auto; [apply repeats_occ, Nat.leb_le|apply Nat.leb_le, repeats_occ]; auto.
  - rewrite c_of_keys, in_flat_map. split; intros (t & A & B); exists t; split; auto; [apply repeats_occ, rep_acts_in|apply rep_acts_in, repeats_occ]; auto.
  - apply c_of_nodup.
Qed.
Print Assumptions C86_rework.
Lemma cumcount_in rows : forall seen ca, In ca (map fst (filter (fun rn => 0 <? snd rn) (cumcount seen rows))) <-> In ca rows /\ 2 <= occ ca (seen ++ rows) /\ (1 <= occ ca seen \/ 2 <= occ ca rows).
Proof.
  assert (L : forall (x : nat * nat) s, length (filter (keqb x) s) = occ x s).
  { intros x s. unfold occ. f_equal. apply filter_ext. intros y. apply keqb_sym. }
  induction rows as [|r rows IH]; intros seen ca; [cbn; tauto|]. cbn [cumcount filter snd]. rewrite L.
  assert (P : 1 <= occ ca (r :: rows) <-> In ca (r :: rows)) by apply occ_pos. assert (P' : 1 <= occ ca rows <-> In ca rows) by apply occ_pos.
  assert (E : forall seen', occ ca (seen' ++ r :: rows) = occ ca seen' + ((if keqb r ca then 1 else 0) + occ ca rows)) by (intros; rewrite occ_app, occ_cons; auto).
  assert (Q : In ca (map fst (filter (fun rn => 0 <? snd rn) (cumcount (seen ++ [r]) rows))) <-> In ca rows /\ (1 <= occ ca seen + (if keqb r ca then 1 else 0) \/ 2 <= occ ca rows)).
  { rewrite IH. rewrite !occ_app, (occ_cons ca r []). change (occ ca []) with 0. destruct (keqb r ca); split; intros (A & B); (split; [exact A|]); apply P' in A; lia. }
  rewrite E. cbn [In]. rewrite occ_cons in *. destruct (keqb_spec r ca) as [->|Hr].
  - destruct (Nat.ltb_spec 0 (occ ca seen)); cbn [map In fst]; rewrite Q; [split; [intros _; split; [auto|lia]|auto]|].
    split; [intros (A & B); apply P' in A; split; [auto|lia]|]. intros (_ & B & C). split; [apply P'; lia|lia].
  - cbn [Nat.add] in *. destruct (Nat.ltb_spec 0 (occ r seen)); cbn [map In fst]; rewrite Q; (split; [intros [A|(A & B)]; [contradiction|] || intros (A & B)|]).
    + apply P' in A as A'. split; auto. lia.
    + intros ([A|A] & B & C); [contradiction|]. right. split; auto. lia.
    + apply P' in A as A'. split; auto. lia.
    + intros ([A|A] & B & C); [contradiction|]. split; auto. lia.
Qed.
Lemma occ_trace rows c a : occ a (trace_of rows c) = occ (c, a) rows.
Proof.
  unfold trace_of. induction rows as [|[c' a'] rows IH]; [reflexivity|]. rewrite occ_cons. cbn [filter fst keqb key_pair snd key_nat]. destruct (Nat.eqb c' c); cbn [map snd andb]; [rewrite occ_cons, IH; reflexivity|rewrite IH; reflexivity].
Qed.
Lemma rework_df_get rows a : occ a (map snd (dedup (map fst (filter (fun rn => 0 <? snd rn) (cumcount [] rows))))) = length (filter (fun t => 2 <=? occ a t) (log_of_rows rows)).
Proof.
  set (D := dedup (map fst (filter (fun rn => 0 <? snd rn) (cumcount [] rows)))).
  assert (HD : forall ca, In ca D <-> 2 <= occ ca rows).
  { intros ca. unfold D. rewrite dedup_in, cumcount_in. cbn [app]. change (occ ca []) with 0. assert (P := occ_pos ca rows). split; [tauto|]. intros H2. split; [apply P; lia|lia]. }
  assert (ND : NoDup D) by apply dedup_nodup.
  apply (Proofs_Dfg.exactly_unique _ _ (fun c : nat => In (c, a) D)).
  - unfold occ. assert (G : forall D : list (nat * nat), NoDup D -> exactly (length (filter (fun x => keqb x a) (map snd D))) (fun c => In (c, a) D)).
    { clear. induction D as [|[c b] D IH]; intros Hn; [exists []; repeat split; auto; constructor|]. inversion Hn; subst. destruct (IH H2) as (L & A & B & C). cbn [map snd filter keqb key_nat].
      destruct (Nat.eqb_spec b a) as [->|Hb].
      - exists (c :: L). split; [constructor; auto; rewrite C; auto|]. split; [cbn; auto|]. intros x. cbn. rewrite C. split; intros [E|E]; auto; left; congruence.
      - exists L. split; auto. split; auto. intros x. cbn. rewrite C. split; auto. intros [E|E]; auto. congruence. }
    apply G, ND.
  - unfold log_of_rows. exists (filter (fun c => 2 <=? occ a (trace_of rows c)) (nodup Nat.eq_dec (map fst rows))). split; [apply NoDup_filter, NoDup_nodup|]. split.
    + generalize (nodup Nat.eq_dec (map fst rows)). induction l as [|c l IH]; cbn [map filter]; auto. destruct (2 <=? occ a (trace_of rows c)); cbn [length]; auto.
    + intros c. rewrite filter_In, nodup_In, HD, Nat.leb_le, occ_trace. split; [tauto|]. intros H2. split; auto. apply (in_map_iff fst). exists (c, a). split; auto. apply occ_pos. lia.
Qed.
(** The dataframe version computes the same dictionary as the event-log version on the log of the table. *)
Theorem C86_dataframe : forall rows, same_dict (rework_df rows) (rework_log (log_of_rows rows)).
Proof.
  intros rows a. unfold rework_df. rewrite rework_of, !d_get_c_of, rework_get, rework_df_get. reflexivity.
Qed.
Print Assumptions C86_dataframe.
Example ex_rework : rework_log [[1; 2; 1]; [2; 2; 1]; [1; 1; 1; 2; 2]; [3]] = [(1, 2); (2, 2)].
Proof. reflexivity. Qed.
Example ex_rework_df : rework_df [(7, 1); (8, 2); (7, 2); (8, 2); (7, 1); (8, 2)] = [(2, 1); (1, 1)] /\ log_of_rows [(7, 1); (8, 2); (7, 2); (8, 2); (7, 1); (8, 2)] = [[1; 2; 1]; [2; 2; 2]].
Proof. split; reflexivity. Qed.
