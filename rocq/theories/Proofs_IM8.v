(** Inductive Miner: every decomposition step is well-founded, fitting and keeps the activities apart. *)
From Coq Require Import List Arith Bool ZArith Lia Permutation Sorting.Sorted.
Import ListNotations.
From Verif Require Import Model_Dict Model_Dfg Model_Graph Model_Lev Model_Tree Model_IM Spec_Tree.
From Verif Require Import Proofs_Dict Proofs_Dfg Proofs_Graph Proofs_Lev Proofs_Shuffle Proofs_IM1 Proofs_IM4 Proofs_IM5 Proofs_IM6 Proofs_IM7.
Local Open Scope nat_scope.
Local Arguments keqb {K Key} : simpl never.
Local Arguments Nat.ltb : simpl never.
Local Arguments Nat.leb : simpl never.
Local Arguments Nat.eqb : simpl never.

Lemma start_nodup v : NoDup (d_keys (start_acts (discover_dfg_uvcl v))).
Proof.
  unfold discover_dfg_uvcl. cbn [start_acts].
  assert (G : forall (al : list nat) (se : @counter nat * @counter nat), NoDup (d_keys (fst se)) -> NoDup (d_keys (fst (fold_left (fun se a =>
     fold_left (fun '(s, e) '(t, n) =>
        match t with
        | [] => (s, e)
        | b :: _ =>
          (if Nat.eqb b a then c_add s a n else s,
           if Nat.eqb (nth (length t - 1) t 0) a then c_add e a n else e)
        end) v se) al se)))).
  { induction al as [|a al IH]; intros se H; [exact H|]. cbn [fold_left]. apply IH. clear IH. revert se H. induction v as [|[t n] w IH]; intros [s e] H; [exact H|]. cbn [fold_left]. apply IH. destruct t as [|b t]; [exact H|]. cbn [fst]. destruct (Nat.eqb b a); [apply d_nodup_set|]; exact H. }
  apply G. constructor.
Qed.

(** the measure *)
Definition W (v : uvcl) : nat := wsum (fun t => pred (length t)) v.
Definition smaller (u v : uvcl) : Prop := length (alphabet u) < length (alphabet v) \/
  (length (alphabet u) = length (alphabet v) /\ (W u < W v \/ (W u = W v /\ has_empty u = false /\ has_empty v = true))).
Lemma smaller_ind (P : uvcl -> Prop) : (forall v, (forall u, smaller u v -> P u) -> P v) -> forall v, P v.
Proof.
  intros H. assert (G : forall n m v, length (alphabet v) < n -> W v < m -> P v).
  { induction n as [|n IHn]; intros m v Hn Hm; [lia|]. revert v Hn Hm. induction m as [|m IHm]; intros v Hn Hm; [lia|].
    assert (K : forall u, length (alphabet u) < length (alphabet v) \/ (length (alphabet u) = length (alphabet v) /\ W u < W v) -> P u).
    { intros u [L|[E L]]; [apply (IHn (S (W u)) u); lia|apply IHm; lia]. }
    assert (K2 : has_empty v = false -> P v). { intros E. apply H. intros u [L|[E' [L|(E2 & E3 & E4)]]]; [apply K; auto|apply K; auto|congruence]. }
    destruct (has_empty v) eqn:Ev; auto. apply H. intros u [L|[E' [L|(E2 & E3 & E4)]]]; [apply K; auto|apply K; auto|].
    apply H. intros z [L|[E5 [L|(E6 & E7 & E8)]]]; [apply K; lia|apply K; lia|congruence]. }
  intros v. apply (G (S (length (alphabet v))) (S (W v))); lia.
Qed.
Lemma smaller_trans u v w : smaller u v -> smaller v w -> smaller u w.
Proof. unfold smaller. intros [A|(A & B)] [C|(C & D)]; try (left; lia). right. split; [lia|]. destruct B as [B|(B & B1 & B2)], D as [D|(D & D1 & D2)]; try (left; lia). congruence. Qed.

(** one decomposition: the operator and the sublogs *)
Definition shape (r : option operator * list uvcl) : Prop :=
  match fst r with None => snd r = [] | Some Loop => 2 <= length (snd r) | Some Xor | Some Sequence | Some Parallel => snd r <> [] | Some _ => False end.
Definition step (v : uvcl) (r : option operator * list uvcl) : Prop :=
  (forall s, In s (snd r) -> uvcl_ok s /\ incl (alphabet s) (alphabet v) /\ smaller s v) /\ shape r.
Definition good (v : uvcl) (r : option operator * list uvcl) : Prop :=
  (forall ts, Forall2 fits (snd r) ts -> fits v (mk_node (fst r) ts)) /\ Permutation (concat (map alphabet (snd r))) (alphabet v).
Lemma shrinks_step v o subs : shrinks v subs -> shape (o, subs) -> step v (o, subs).
Proof. intros H S. split; auto. intros s Hs. destruct (H s Hs) as (A & B & C). split; auto. split; auto. left; auto. Qed.

(** ** Empty traces *)
Lemma has_empty_in v : has_empty v = true <-> In [] (d_keys v).
Proof. unfold has_empty. rewrite existsb_exists. split; [intros ([|a t] & H & E); [auto|discriminate]|intros H; exists []; auto]. Qed.
Lemma del_keys (v : uvcl) k : In k (d_keys (d_del v [])) <-> In k (d_keys v) /\ k <> [].
Proof.
  unfold d_del, d_keys. rewrite !in_map_iff. split.
  - intros ([t n] & <- & H). apply filter_In in H. destruct H as [H E]. cbn [fst] in *. split; [exists (t, n); auto|]. intros ->. rewrite keqb_refl in E. discriminate.
  - intros (([t n] & <- & H) & N). exists (t, n). split; auto. apply filter_In. split; auto. cbn [fst] in *. rewrite keqb_neq; auto.
Qed.
Lemma del_alphabet (v : uvcl) x : In x (alphabet (d_del v [])) <-> In x (alphabet v).
Proof.
  rewrite !alphabet_iff. split; intros (t & H1 & H2); exists t; split; auto; [apply del_keys in H1; tauto|]. apply del_keys. split; auto. intros ->; auto.
Qed.
Lemma del_ok (v : uvcl) : uvcl_ok v -> uvcl_ok (d_del v []).
Proof.
  intros [H1 H2]. split; [|apply positive_filter; auto]. unfold d_del, d_keys in *. clear H2. induction v as [|[t n] v IH]; cbn [filter map]; [constructor|]. inversion H1 as [|? ? N1 N2]; subst.
  destruct (negb _); auto. cbn [map fst]. constructor; auto. intros H. apply N1. apply in_map_iff in H. destruct H as (y & E & H). apply filter_In in H. apply in_map_iff. exists y. tauto.
Qed.
Lemma del_W (v : uvcl) : W (d_del v []) = W v.
Proof.
  unfold W, d_del. induction v as [|[t n] v IH]; auto. cbn [filter fst]. destruct (keqb_spec t []) as [->|N]; cbn [negb]; rewrite !wsum_cons; [|lia]. cbn [length pred]. lia.
Qed.
Lemma same_length_alphabet (u v : uvcl) : (forall x, In x (alphabet u) <-> In x (alphabet v)) -> Permutation (alphabet u) (alphabet v).
Proof. intros H. apply NoDup_Permutation; auto; apply alphabet_nodup. Qed.
Lemma nil_or_in (v : uvcl) : v = [] \/ exists t, In t (d_keys v).
Proof. destruct v as [|[t n] v]; [auto|]. right. exists t. left; auto. Qed.
Lemma del_smaller (v : uvcl) : has_empty v = true -> smaller (d_del v []) v.
Proof.
  intros E. right. split; [apply Permutation_length, same_length_alphabet, del_alphabet|]. right. split; [apply del_W|]. split; auto.
  destruct (has_empty (d_del v [])) eqn:Q; auto. apply has_empty_in, del_keys in Q. tauto.
Qed.
Lemma empty_step v r : uvcl_ok v -> empty_traces v = Some r -> step v r /\ good v r.
Proof.
  intros Hv. unfold empty_traces. destruct (has_empty v) eqn:E; [|discriminate]. pose proof (proj1 (has_empty_in v) E) as E'. destruct (is_nil (d_del v [])) eqn:N.
  - intros [= <-]. assert (Hd : d_del v [] = []) by (destruct (d_del v []); [auto|discriminate]).
    assert (all : forall t, In t (d_keys v) -> t = []). { intros t Ht. destruct t as [|a t]; auto. exfalso. assert (Q : In (a :: t) (d_keys (d_del v []))) by (apply del_keys; split; auto; discriminate). rewrite Hd in Q. destruct Q. }
    split; [split; [intros s []|reflexivity]|]. split.
    + intros ts Hts. cbn [fst mk_node]. split; intros; [rewrite (all w) by auto|]; constructor.
    + cbn [snd map concat]. apply NoDup_Permutation; [constructor|apply alphabet_nodup|]. intros x. split; [intros []|]. intros Hx. apply alphabet_iff in Hx. destruct Hx as (t & Ht & Hx). rewrite (all t Ht) in Hx. destruct Hx.
  - intros [= <-]. assert (Hd : d_del v [] <> []) by (destruct (d_del v []); discriminate).
    split; [split; [|discriminate]|split].
    + intros s [<-|[<-|[]]].
      * split; [apply ok_nil|]. split; [intros ? []|]. left. change (length (alphabet [])) with 0. destruct (nil_or_in (d_del v [])) as [?|(t & Ht)]; [congruence|]. apply del_keys in Ht. destruct Ht as [Ht Nt]. destruct t as [|a t]; [congruence|].
        apply (in_pos _ a). apply alphabet_iff. exists (a :: t). split; auto. left; auto.
      * split; [apply del_ok; auto|]. split; [intros x Hx; apply del_alphabet; auto|]. apply del_smaller; auto.
    + intros ts Hts. cbn [snd] in Hts. inversion Hts as [|? t1 ? ts1 F1 Hts1]; subst. inversion Hts1 as [|? t2 ? ts2 F2 Hts2]; subst. cbn [fst mk_node]. split.
      * intros w Hw. destruct w as [|a w]; [apply (L_xor _ t1); [left; auto|apply F1; auto]|]. apply (L_xor _ t2); [right; left; auto|]. apply F2, del_keys. split; auto. discriminate.
      * intros ->. discriminate.
    + cbn [snd map concat]. change (alphabet []) with (@nil nat). cbn [app]. rewrite app_nil_r. apply same_length_alphabet, del_alphabet.
Qed.
Lemma empty_none v : empty_traces v = None <-> ~ In [] (d_keys v).
Proof. unfold empty_traces. rewrite <- has_empty_in. destruct (has_empty v); [|split; congruence]. destruct (is_nil _); split; congruence. Qed.

(** ** Base cases *)
Lemma base_some v t : base_case v = Some t -> fits v t /\ Permutation (alphabet v) (match t with Leaf (Some a) => [a] | _ => [] end) /\ exists l, t = Leaf l.
Proof.
  destruct v as [|[t1 n1] v]; [|destruct v as [|p v]; [|destruct t1 as [|a [|b t1]]; discriminate]].
  - intros [= <-]. split; [split; [intros ? []|intros; constructor]|]. split; [constructor|eauto].
  - destruct t1 as [|a [|b t1]]; [| |discriminate]; intros [= <-]; (split; [split; [intros w [<-|[]]; constructor|discriminate]|split; [|eauto]]); reflexivity.
Qed.
Lemma base_nil : base_case [] = Some (Leaf None).
Proof. reflexivity. Qed.

(** ** Cuts *)
Section Cuts.
  Variable ord : list nat -> list nat.
  Hypothesis ord_perm : forall l, Permutation (ord l) l.
  Variable strict : bool.
  (** a DFG with the start and end activities of the log and some of its edges *)
  Definition compatible (g : dfg) (v : uvcl) : Prop :=
    start_acts g = start_acts (discover_dfg_uvcl v) /\ end_acts g = end_acts (discover_dfg_uvcl v) /\ incl (edges g) (edges (discover_dfg_uvcl v)).
  Lemma compatible_self v : compatible (discover_dfg_uvcl v) v.
  Proof. repeat split; auto. apply incl_refl. Qed.
  Lemma compatible_vertices g v : compatible g v -> incl (get_vertices g) (alphabet v).
  Proof.
    intros (H1 & H2 & H3) x Hx. apply dfg_vertices. apply vertices_in in Hx. apply vertices_in. rewrite H1, H2 in Hx. destruct Hx as [(y & [Hy|Hy])|Hx]; auto; left; exists y; auto.
  Qed.
  Lemma find_cut_two g o gs : NoDup (d_keys (start_acts g)) -> find_cut ord strict g = Some (o, gs) -> is_cut g gs.
  Proof.
    intros Hn. unfold find_cut. destruct (xor_holds ord g) as [c|] eqn:E1; [intros [= <- <-]; apply (xor_cut ord ord_perm g c E1)|].
    destruct (if strict then strict_holds ord g else seq_holds ord g) as [c|] eqn:E2; [intros [= <- <-]; destruct strict; [apply (strict_cut ord ord_perm g c E2)|apply (seq_cut_forward ord ord_perm g c E2)]|].
    destruct (par_holds g) as [c|] eqn:E3; [intros [= <- <-]; apply (par_cut g c E3)|].
    destruct (loop_holds ord g) as [c|] eqn:E4; [intros [= <- <-]; apply (loop_cut ord ord_perm g c Hn E4)|discriminate].
  Qed.
  Lemma cut_step g v o gs : uvcl_ok v -> v <> [] -> ~ In [] (d_keys v) -> compatible g v -> find_cut ord strict g = Some (o, gs) ->
    exists subs, project o v gs = Some subs /\ step v (Some o, subs) /\ (g = discover_dfg_uvcl v -> good v (Some o, subs)).
  Proof.
    intros Hv Nv Ne Hc F.
    assert (Hn : NoDup (d_keys (start_acts g))) by (destruct Hc as (-> & _); apply start_nodup).
    pose proof (find_cut_two g o gs Hn F) as (C1 & C2 & C3).
    assert (disj : NoDup (concat gs)) by (apply (Permutation_NoDup (Permutation_sym C1)), vertices_nodup).
    assert (Hi : incl (concat gs) (alphabet v)) by (intros x Hx; apply (compatible_vertices g v Hc), (Permutation_in x C1); auto).
    assert (cover : g = discover_dfg_uvcl v -> forall x, In x (alphabet v) <-> In x (concat gs)).
    { intros -> x. split; auto. intros Hx. apply (Permutation_in x (Permutation_sym C1)), dfg_vertices; auto. }
    assert (ne : forall F : nat -> uvcl, map F (seq 0 (length gs)) <> []). { intros F' E. apply (f_equal (@length _)) in E. rewrite map_length, seq_length in E. cbn in E. lia. }
    revert F. unfold find_cut. destruct (xor_holds ord g) as [c|] eqn:E1.
    - intros [= <- <-]. destruct (xor_cut ord ord_perm g c E1) as [_ closed]. cbn [project]. exists (xor_project v c). split; auto. split.
      + apply shrinks_step; [apply xor_shrinks; auto|]. cbn. apply ne.
      + intros ->. split; [intros ts Hts; apply (xor_fits v c); auto|apply (xor_alphabet v c); auto].
    - destruct (if strict then strict_holds ord g else seq_holds ord g) as [c|] eqn:E2.
      + intros [= <- <-]. assert (sorted : StronglySorted (forward (edges g)) c) by (destruct strict; [apply (strict_cut ord ord_perm g c E2)|apply (seq_cut_forward ord ord_perm g c E2)]).
        cbn [project]. exists (seq_project v c). split; auto. split.
        * apply shrinks_step; [apply seq_shrinks; auto|]. cbn. apply ne.
        * intros ->. split; [intros ts Hts; apply (seq_fits v c); auto|apply (seq_alphabet v c); auto].
      + destruct (par_holds g) as [c|] eqn:E3.
        * intros [= <- <-]. cbn [project]. exists (par_project v c). split; auto. split.
          -- apply shrinks_step; [apply par_shrinks; auto|]. cbn. unfold par_project. destruct c; [cbn in C3; lia|discriminate].
          -- intros ->. split; [intros ts Hts; apply (par_fits v c); auto|apply (par_alphabet v c); auto].
        * destruct (loop_holds ord g) as [c|] eqn:E4; [|discriminate]. intros [= <- <-].
          destruct (loop_cut ord ord_perm g c Hn E4) as [_ L]. destruct L as (do & redo & -> & Hs & He & closed).
          { destruct Hc as (-> & _). destruct (nil_or_in v) as [?|(t & Ht)]; [congruence|]. destruct t as [|a t]; [tauto|]. intros Q. assert (R : In a (d_keys (start_acts (discover_dfg_uvcl v)))) by (apply dfg_start; exists (a :: t); auto). rewrite Q in R. destruct R. }
          assert (Hse : forall t, In t (d_keys v) -> In (hd 0 t) do /\ In (last t 0) do).
          { intros t Ht. assert (Nt : t <> []) by (intros ->; auto). destruct Hc as (Q1 & Q2 & _). rewrite Q1 in Hs. rewrite Q2 in He. split.
            - apply Hs, dfg_start. exists t. split; auto. destruct t; [congruence|auto].
            - apply He, dfg_end. exists t. auto. }
          cbn [project]. destruct (loop_shrinks v do redo Hv Ne Hse Hi disj C2 C3) as (subs & E5 & Sh & Ls). exists subs. split; auto. split.
          -- apply shrinks_step; auto. cbn [shape fst snd]. rewrite Ls. auto.
          -- intros ->. split; [intros ts Hts; apply (loop_fits v do redo Ne Hse closed (cover eq_refl) disj subs); auto|apply (loop_alphabet v do redo Ne Hse closed (cover eq_refl) disj subs); auto].
  Qed.

  (** ** Fall-throughs *)
  Lemma split_alphabet (v : uvcl) a : In a (alphabet v) ->
    (forall x, In x (alphabet (nth 0 (split_off v a) [])) <-> x = a) /\ (forall x, In x (alphabet (nth 1 (split_off v a) [])) <-> In x (alphabet v) /\ x <> a).
  Proof.
    intros Ha. unfold split_off. cbn [nth]. rewrite !(fold_adds' (only a)), !(fold_adds' (without a)). split; intros x; rewrite !alphabet_iff.
    - split.
      + intros (k & Hk & Hx). apply adds_keys in Hk. destruct Hk as [[]|Hk]. apply (keys_map (only a) v k) in Hk. destruct Hk as (t & Ht & <-). apply filter_In in Hx. destruct Hx as [_ Hx]. apply Nat.eqb_eq in Hx. auto.
      + intros ->. apply alphabet_iff in Ha. destruct Ha as (t & Ht & Ha). exists (only a t). split; [apply adds_keys; right; apply (keys_map (only a) v); eauto|]. apply filter_In. split; auto. apply Nat.eqb_eq; auto.
    - split.
      + intros (k & Hk & Hx). apply adds_keys in Hk. destruct Hk as [[]|Hk]. apply (keys_map (without a) v k) in Hk. destruct Hk as (t & Ht & <-). apply filter_In in Hx. destruct Hx as [Hx N]. rewrite negb_true_iff, Nat.eqb_neq in N. split; eauto.
      + intros ((t & Ht & Hx) & N). exists (without a t). split; [apply adds_keys; right; apply (keys_map (without a) v); eauto|]. apply filter_In. split; auto. rewrite negb_true_iff, Nat.eqb_neq. auto.
  Qed.
  Lemma split_step v a b : uvcl_ok v -> v <> [] -> In a (alphabet v) -> In b (alphabet v) -> a <> b -> step v (Some Parallel, split_off v a) /\ good v (Some Parallel, split_off v a).
  Proof.
    intros Hv Nv Ha Hb Nab. destruct (split_alphabet v a Ha) as [A1 A2]. split; [apply shrinks_step|split].
    - intros s Hs. unfold split_off in Hs. assert (Ok : uvcl_ok s). { destruct Hs as [<-|[<-|[]]]; [rewrite (fold_adds' (only a))|rewrite (fold_adds' (without a))]; (apply adds_ok; [apply ok_nil|apply positive_map, Hv]). }
      split; auto. destruct Hs as [<-|[<-|[]]].
      + assert (I : incl (alphabet (nth 0 (split_off v a) [])) (alphabet v)) by (intros x Hx; apply A1 in Hx; subst; auto). split; [exact I|]. apply (alphabet_strict _ v b); auto. intros Q. apply (A1 b) in Q. congruence.
      + assert (I : incl (alphabet (nth 1 (split_off v a) [])) (alphabet v)) by (intros x Hx; apply A2 in Hx; tauto). split; [exact I|]. apply (alphabet_strict _ v a); auto. intros Q. apply (A2 a) in Q. tauto.
    - discriminate.
    - intros ts Hts. cbn [snd] in Hts. inversion Hts as [|? t1 ? ts1 F1 Hts1]; subst. inversion Hts1 as [|? t2 ? ts2 F2 Hts2]; subst. inversion Hts2; subst. cbn [fst mk_node]. split; [|congruence].
      intros w Hw. apply (L_par _ [only a w; without a w]).
      + constructor; [apply F1|constructor; [apply F2|constructor]]; [rewrite (fold_adds' (only a))|rewrite (fold_adds' (without a))]; apply adds_keys; right; [apply (keys_map (only a) v)|apply (keys_map (without a) v)]; eauto.
      + apply (shuffle_filters [fun e => Nat.eqb e a; fun e => negb (Nat.eqb e a)]). intros x Hx. destruct (Nat.eqb x a) eqn:E.
        * exists [], (fun e => Nat.eqb e a), [fun e => negb (Nat.eqb e a)]. split; auto. split; auto. intros f' [[]|[<-|[]]]. rewrite E. auto.
        * exists [fun e => Nat.eqb e a], (fun e => negb (Nat.eqb e a)), []. split; auto. split; [rewrite E; auto|]. intros f' [[<-|[]]|[]]. auto.
    - change (snd (Some Parallel, split_off v a)) with [nth 0 (split_off v a) []; nth 1 (split_off v a) []]. cbn [map concat]. rewrite app_nil_r. apply NoDup_Permutation.
      + apply NoDup_app_intro; try apply alphabet_nodup. intros x Hx Hy. apply A1 in Hx. apply A2 in Hy. tauto.
      + apply alphabet_nodup.
      + intros x. rewrite in_app_iff, A1, A2. split; [intros [->|[? ?]]; auto|]. intros Hx. destruct (Nat.eq_dec x a); auto.
  Qed.
  Lemma candidates_in v a : In a (candidates v) <-> In a (alphabet v).
  Proof. unfold candidates. split; intros H; [apply (Permutation_in a (Permutation_sym (sorted_by_perm Z.of_nat (alphabet v))))|apply (Permutation_in a (sorted_by_perm Z.of_nat (alphabet v)))]; exact H. Qed.
  Lemma once_step v a : uvcl_ok v -> v <> [] -> base_case v = None -> once_candidate v = Some a -> In a (alphabet v) /\ exists b, In b (alphabet v) /\ a <> b.
  Proof.
    intros Hv Nv B H. unfold once_candidate in H. assert (Hin : In a (filter (fun a => forallb (fun t => Nat.eqb (length (only a t)) 1) (d_keys v)) (candidates v))) by (destruct (filter _ _); [discriminate|injection H as ->; left; auto]).
    apply filter_In in Hin. destruct Hin as [Hc Hf]. apply candidates_in in Hc. split; auto. rewrite forallb_forall in Hf.
    destruct (find (fun b => negb (Nat.eqb a b)) (alphabet v)) as [b|] eqn:Fb; [apply find_some in Fb; exists b; rewrite negb_true_iff, Nat.eqb_neq in Fb; auto|]. exfalso.
    assert (All : forall t, In t (d_keys v) -> t = [a]).
    { intros t Ht. assert (O : only a t = t). { unfold only. assert (Q : forall x, In x t -> Nat.eqb x a = true). { intros x Hx. assert (Hx' : In x (alphabet v)) by (apply alphabet_iff; eauto). pose proof (find_none _ _ Fb x Hx') as Q. cbn in Q. apply negb_false_iff in Q. apply Nat.eqb_eq in Q. subst. apply Nat.eqb_refl. }
        clear - Q. induction t as [|x t IH]; auto. cbn [filter]. rewrite Q by (left; auto). rewrite IH; auto. intros; apply Q; right; auto. }
      pose proof (Hf t Ht) as L. apply Nat.eqb_eq in L. rewrite O in L. destruct t as [|x [|y t]]; cbn in L; try lia. f_equal. unfold only in O. cbn [filter] in O. destruct (Nat.eqb_spec x a); [auto|discriminate]. }
    destruct v as [|[t n] v]; [congruence|]. destruct v as [|[t' n'] v].
    - rewrite (All t) in B by (left; auto). discriminate.
    - destruct Hv as [N _]. change (NoDup (t :: t' :: map fst v)) in N. inversion N as [|? ? N1 _]; subst. apply N1. left. rewrite (All t), (All t'); auto; [right; left; auto|left; auto].
  Qed.
  Variable par_order : list nat -> list nat.
  Hypothesis par_incl : forall l, incl (par_order l) l.
  Lemma cut_two_activities u o gs : find_cut ord strict (discover_dfg_uvcl u) = Some (o, gs) -> exists b, In b (alphabet u).
  Proof.
    intros H. apply find_cut_two in H; [|apply start_nodup]. destruct H as (C1 & C2 & C3). destruct gs as [|g gs]; [cbn in C3; lia|]. pose proof (Forall_inv C2) as Ng. destruct g as [|b g]; [cbn in Ng; congruence|].
    exists b. apply dfg_vertices. apply (Permutation_in b C1). left; auto.
  Qed.
  Lemma concurrent_step v a : concurrent_candidate ord strict par_order v = Some a -> In a (alphabet v) /\ exists b, In b (alphabet v) /\ a <> b.
  Proof.
    unfold concurrent_candidate. intros H. apply find_some in H. destruct H as [Hin Hc]. apply par_incl, candidates_in in Hin. split; auto.
    destruct (find_cut ord strict (discover_dfg_uvcl (l_alt v a))) as [[o gs]|] eqn:E; [|discriminate]. apply cut_two_activities in E. destruct E as (b & Hb). exists b.
    unfold l_alt in Hb. rewrite (fold_sets (without a)) in Hb. apply alphabet_iff in Hb. destruct Hb as (k & Hk & Hb). apply sets_keys in Hk. destruct Hk as [[]|Hk]. apply (keys_map (without a) v k) in Hk. destruct Hk as (t & Ht & <-).
    apply filter_In in Hb. destruct Hb as [Hb N]. rewrite negb_true_iff, Nat.eqb_neq in N. split; [apply alphabet_iff; eauto|auto].
  Qed.

  (** *** Tau loops *)
  Lemma cut_at_spec cutp t : forall seg prev, seg <> [] -> concat (cut_at cutp seg prev t) = seg ++ t /\ Forall (fun s => s <> []) (cut_at cutp seg prev t).
  Proof.
    induction t as [|e t IH]; intros seg prev N; cbn [cut_at].
    - cbn. split; auto.
    - destruct (cutp prev e).
      + destruct (IH [e] e ltac:(discriminate)) as [I1 I2]. cbn [concat]. rewrite I1. split; auto.
      + destruct (IH (seg ++ [e]) e) as [I1 I2]; [destruct seg; discriminate|]. rewrite I1, <- app_assoc. split; auto.
  Qed.
  Lemma parts_spec cutp t : t <> [] -> concat (parts cutp t) = t /\ Forall (fun s => s <> []) (parts cutp t).
  Proof. destruct t as [|e t]; [congruence|]. intros _. destruct (cut_at_spec cutp t [e] e ltac:(discriminate)) as [A B]. cbn [parts]. split; auto. Qed.
  Definition pieces cutp (v : uvcl) : list (trace * nat) := concat (map (fun tn => map (fun t => (t, snd tn)) (parts cutp (fst tn))) v).
  Lemma projected_eq cutp v : projected cutp v = adds (pieces cutp v) [].
  Proof.
    unfold projected, pieces. generalize (@nil (trace * nat)) as d. intros d. change (list (trace * nat)) with uvcl in d. revert d. induction v as [|[t n] v IH]; intros d; [reflexivity|]. cbn [fold_left map concat fst snd]. rewrite IH. unfold adds. rewrite fold_left_app. f_equal.
    generalize (parts cutp t). intros l. clear. revert d. induction l as [|p l IH]; intros d; cbn [fold_left map]; auto.
  Qed.
  Lemma pieces_keys cutp v k : In k (map fst (pieces cutp v)) <-> exists t, In t (d_keys v) /\ In k (parts cutp t).
  Proof.
    unfold pieces. rewrite in_map_iff. split.
    - intros ([t n] & <- & H). apply in_concat in H. destruct H as (l & Hl & H). apply in_map_iff in Hl. destruct Hl as ([u m] & <- & Hu). apply in_map_iff in H. destruct H as (z & [= <- <-] & Hz). exists u. split; auto. apply in_map_iff. exists (u, m); auto.
    - intros (t & Ht & Hk). apply in_map_iff in Ht. destruct Ht as ([t' n] & <- & Ht). exists (k, n). split; auto. apply in_concat. exists (map (fun t => (t, n)) (parts cutp t')). split; [apply in_map_iff; exists (t', n); auto|]. apply in_map_iff. eauto.
  Qed.
  Lemma projected_keys cutp v k : In k (d_keys (projected cutp v)) <-> exists t, In t (d_keys v) /\ In k (parts cutp t).
  Proof. rewrite projected_eq, adds_keys, pieces_keys. cbn [d_keys map In]. tauto. Qed.
  Lemma projected_ok cutp v : uvcl_ok v -> uvcl_ok (projected cutp v).
  Proof.
    intros [_ P]. rewrite projected_eq. apply adds_ok; [apply ok_nil|]. intros k n H. apply in_concat in H. destruct H as (l & Hl & H). apply in_map_iff in Hl. destruct Hl as ([u m] & <- & Hu). apply in_map_iff in H. destruct H as (z & [= <- <-] & Hz). eapply P; eauto.
  Qed.
  Lemma wsum_const w n (l : list trace) : wsum w (map (fun t => (t, n)) l) = n * list_sum (map w l).
  Proof. induction l as [|t l IH]; [cbn; lia|]. cbn [map]. rewrite wsum_cons, IH. unfold list_sum. cbn [fold_right]. lia. Qed.
  Lemma parts_sum cutp t : t <> [] -> list_sum (map (fun p => pred (length p)) (parts cutp t)) + length (parts cutp t) = length t /\ 1 <= length (parts cutp t).
  Proof.
    intros N. destruct (parts_spec cutp t N) as [E F]. split.
    - transitivity (length (concat (parts cutp t))); [|rewrite E; auto]. clear - F. induction F as [|p l Hp F IH]; auto. cbn [map concat]. rewrite app_length, <- IH. unfold list_sum. cbn [fold_right]. change (length (p :: l)) with (S (length l)).
      assert (E1 : length p = S (pred (length p))) by (destruct p; [congruence|auto]). unfold trace in *. lia.
    - destruct (parts cutp t) as [|p l]; [cbn in E; congruence|]. change (1 <= S (length l)). lia.
  Qed.
  (** the number of traces added is the weight lost *)
  Lemma projected_balance cutp v : ~ In [] (d_keys v) -> W (projected cutp v) + total_count (projected cutp v) = W v + total_count v.
  Proof.
    intros Ne. rewrite !total_wsum. unfold W. rewrite projected_eq, !wsum_adds by constructor. change (wsum ?w []) with 0. cbn [plus]. unfold pieces.
    induction v as [|[t n] v IH]; auto. cbn [map concat fst snd]. rewrite !wsum_app, !wsum_cons, !wsum_const.
    assert (Nt : t <> []) by (intros ->; apply Ne; left; auto). destruct (parts_sum cutp t Nt) as [P1 P2].
    assert (E1 : list_sum (map (fun _ : trace => 1) (parts cutp t)) = length (parts cutp t)) by (clear; induction (parts cutp t) as [|p l IH]; auto; unfold list_sum in *; cbn [map fold_right length]; lia). rewrite E1.
    assert (IH' : ~ In [] (d_keys v)) by (intros Q; apply Ne; right; auto). specialize (IH IH').
    assert (E2 : pred (length t) + 1 = length t) by (destruct t; [congruence|cbn; lia]). set (A := wsum (fun t => pred (length t)) v) in *. set (C := wsum (fun _ => 1) v) in *.
    set (X := wsum _ (concat _)) in *. set (Y := wsum _ (concat _)) in *. unfold trace in *.
    assert (E3 : n * list_sum (map (fun p : list nat => pred (length p)) (parts cutp t)) + n * length (parts cutp t) = n * pred (length t) + n) by (unfold trace; rewrite <- Nat.mul_add_distr_l, P1, <- E2; lia). unfold trace in *. lia.
  Qed.
  Lemma loop_tau_lang (d r : tree nat) (ps : list trace) : lang r [] -> ps <> [] -> (forall p, In p ps -> lang d p) -> lang (Node Loop [d; r]) (concat ps).
  Proof.
    intros Hr. induction ps as [|p ps IH]; intros N H; [congruence|]. destruct ps as [|q ps].
    - cbn. rewrite app_nil_r. apply L_loop_exit, H. left; auto.
    - change (concat (p :: q :: ps)) with (p ++ [] ++ concat (q :: ps)). apply (L_loop_redo d [r] r); auto; [apply H; left; auto|left; auto|]. apply IH; [discriminate|]. intros; apply H; right; auto.
  Qed.
  Lemma loop_nil_step v u : uvcl_ok v -> v <> [] -> uvcl_ok u -> (forall x, In x (alphabet u) <-> In x (alphabet v)) -> W u < W v ->
    (forall t, In t (d_keys v) -> exists ps, ps <> [] /\ concat ps = t /\ forall p, In p ps -> In p (d_keys u)) ->
    step v (Some Loop, [u; []]) /\ good v (Some Loop, [u; []]).
  Proof.
    intros Hv Nv Hu Ha HW Hp. pose proof (same_length_alphabet u v Ha) as P. assert (Pos : W v > 0) by lia. split; [split; [|cbn; lia]|split].
    - intros s [<-|[<-|[]]].
      + split; auto. split; [intros x Hx; apply Ha; auto|]. right. split; [apply Permutation_length; auto|auto].
      + split; [apply ok_nil|]. split; [intros ? []|]. left. change (length (alphabet [])) with 0. destruct (alphabet v) as [|x l] eqn:E; [|cbn; lia]. exfalso.
        assert (Z : W v = 0); [|lia]. unfold W, wsum. apply list_sum_zero. intros [t n] Hin. cbn [fst snd]. destruct t as [|a t]; [cbn; lia|]. exfalso. assert (Q : In a (alphabet v)) by (apply alphabet_iff; exists (a :: t); split; [apply in_map_iff; exists (a :: t, n); auto|left; auto]). rewrite E in Q. destruct Q.
    - intros ts Hts. cbn [snd] in Hts. inversion Hts as [|? t1 ? ts1 F1 Hts1]; subst. inversion Hts1 as [|? t2 ? ts2 F2 Hts2]; subst. inversion Hts2; subst. cbn [fst mk_node]. split; [|congruence].
      intros w Hw. destruct (Hp w Hw) as (ps & N & <- & Hps). apply loop_tau_lang; auto; [apply F2; auto|]. intros p Hin. apply F1; auto.
    - cbn [snd map concat]. change (alphabet []) with (@nil nat). cbn [app]. rewrite app_nil_r. auto.
  Qed.
  Lemma tau_step cutp v r : uvcl_ok v -> v <> [] -> ~ In [] (d_keys v) -> tau_loop cutp v = Some r -> step v r /\ good v r.
  Proof.
    intros Hv Nv Ne. unfold tau_loop. destruct (Nat.ltb_spec (total_count v) (total_count (projected cutp v))) as [L|L]; [|discriminate]. intros [= <-].
    assert (parts_of : forall t, In t (d_keys v) -> concat (parts cutp t) = t) by (intros t Ht; apply parts_spec; intros ->; auto).
    apply loop_nil_step; auto.
    - apply projected_ok; auto.
    - intros x. rewrite !alphabet_iff. split.
      + intros (k & Hk & Hx). apply projected_keys in Hk. destruct Hk as (t & Ht & Hk). exists t. split; auto. rewrite <- (parts_of t Ht). apply in_concat. eauto.
      + intros (t & Ht & Hx). rewrite <- (parts_of t Ht) in Hx. apply in_concat in Hx. destruct Hx as (k & Hk & Hx). exists k. split; auto. apply projected_keys. eauto.
    - pose proof (projected_balance cutp v Ne). lia.
    - intros t Ht. exists (parts cutp t). split; [|split; [apply parts_of; auto|]].
      + intros E. pose proof (parts_of t Ht) as Q. rewrite E in Q. cbn in Q. subst t. auto.
      + intros p Hp. apply projected_keys. eauto.
  Qed.
  Lemma flower_step v : uvcl_ok v -> v <> [] -> ~ In [] (d_keys v) -> base_case v = None -> find_cut ord strict (discover_dfg_uvcl v) = None -> step v (flower v) /\ good v (flower v).
  Proof.
    intros Hv Nv Ne B F. unfold flower.
    set (u := fold_left (fun (d : uvcl) a => d_set d [a] 1) (candidates v) []).
    assert (Eu : u = sets (map (fun a => ([a], 1)) (candidates v)) []). { unfold u. generalize (@nil (trace * nat)) as d. change (list (trace * nat)) with uvcl. induction (candidates v) as [|a l IH]; intros d; auto. cbn [fold_left map]. rewrite IH. reflexivity. }
    assert (Ku : forall k, In k (d_keys u) <-> exists a, In a (alphabet v) /\ k = [a]).
    { intros k. rewrite Eu, sets_keys, map_map. cbn [d_keys map In]. rewrite in_map_iff. split; [intros [[]|(a & <- & H)]; exists a; split; auto; apply candidates_in; auto|intros (a & H & ->); right; exists a; split; auto; apply candidates_in; auto]. }
    apply loop_nil_step; auto.
    - rewrite Eu. apply sets_ok; [apply ok_nil|]. intros k n H. apply in_map_iff in H. destruct H as (a & [= <- <-] & _). lia.
    - intros x. rewrite (alphabet_iff u). split.
      + intros (k & Hk & Hx). apply Ku in Hk. destruct Hk as (a & Ha & ->). destruct Hx as [<-|[]]. auto.
      + intros Hx. exists [x]. split; [apply Ku; eauto|left; auto].
    - assert (Z : W u = 0). { unfold W, wsum. apply list_sum_zero. intros [t n] Hin. assert (Hk : In t (d_keys u)) by (apply in_map_iff; exists (t, n); auto). apply Ku in Hk. destruct Hk as (a & _ & ->). cbn. lia. }
      rewrite Z. destruct (W v) as [|w] eqn:Wv; [|lia]. exfalso.
      (* all the traces have one activity *)
      assert (One : forall t, In t (d_keys v) -> exists a, t = [a]).
      { intros t Ht. apply in_map_iff in Ht. destruct Ht as ([t' n] & <- & Hin). cbn [fst]. pose proof (proj2 Hv _ _ Hin) as Pn. assert (Q : n * pred (length t') = 0).
        { unfold W, wsum in Wv. clear - Wv Hin. induction v as [|[u m] v IH]; [destruct Hin|]. cbn [map] in Wv. unfold list_sum in *. cbn [fold_right fst snd] in Wv. destruct Hin as [[= -> ->]|Hin]; [exact (proj1 (proj1 (Nat.eq_add_0 _ _) Wv))|apply IH; auto; exact (proj2 (proj1 (Nat.eq_add_0 _ _) Wv))]. }
        destruct t' as [|a [|b t']]; [exfalso; apply Ne; apply in_map_iff; exists ([], n); auto|eauto|cbn in Q; nia]. }
      assert (E0 : edges (discover_dfg_uvcl v) = []).
      { destruct (edges (discover_dfg_uvcl v)) as [|[a b] es] eqn:E; auto. assert (Q : In (a, b) (edges (discover_dfg_uvcl v))) by (rewrite E; left; auto). apply dfg_edges in Q. destruct Q as (t & Ht & Q). destruct (One t Ht) as (c & ->). destruct Q. }
      assert (X : xor_holds ord (discover_dfg_uvcl v) = None) by (unfold find_cut in F; destruct (xor_holds ord (discover_dfg_uvcl v)); [discriminate|auto]).
      unfold xor_holds in X. rewrite E0 in X.
      assert (Len : forall l seen, NoDup l -> (forall x, In x l -> ~ In x seen) -> length (components_from [] l seen) = length l).
      { clear. induction l as [|x l IH]; intros seen N H; cbn [components_from length]; auto. rewrite (proj2 (smem_false x seen)) by (apply H; left; auto). cbn [length]. inversion N; subst. rewrite IH; auto.
        intros y Hy Hin. apply in_app_or in Hin. destruct Hin as [Hin|Hin]; [apply (H y); [right; auto|auto]|].
        apply component_in in Hin. inversion Hin as [|? z ? P1 P2]; subst; [auto|]. apply und_in in P1. destruct P1 as [[]|[]]. }
      unfold connected_components in X. rewrite Len in X; [|apply (ord_nodup ord ord_perm), vertices_nodup|intros ? ? []].
      rewrite (Permutation_length (ord_perm _)) in X.
      assert (L2 : length (get_vertices (discover_dfg_uvcl v)) = length (alphabet v)) by (apply Permutation_length, NoDup_Permutation; [apply vertices_nodup|apply alphabet_nodup|apply dfg_vertices]).
      rewrite L2 in X. destruct (Nat.leb_spec 2 (length (alphabet v))) as [L|L]; [discriminate|].
      destruct v as [|[t n] v]; [congruence|]. destruct (One t ltac:(left; auto)) as (a & ->). destruct v as [|[t' n'] v]; [discriminate|]. destruct (One t' ltac:(right; left; auto)) as (a' & ->).
      destruct Hv as [N _]. change (NoDup ([a] :: [a'] :: map fst v)) in N. inversion N as [|? ? N1 _]; subst. assert (Na : a <> a') by (intros ->; apply N1; left; auto).
      assert (I2 : incl [a; a'] (alphabet (([a], n) :: ([a'], n') :: v))). { intros x Hx. apply alphabet_iff. destruct Hx as [<-|[<-|[]]]; [exists [a]; split; [left; auto|left; auto]|exists [a']; split; [right; left; auto|left; auto]]. }
      apply NoDup_incl_length in I2; [exact (Nat.lt_irrefl _ (Nat.le_lt_trans _ _ _ I2 L))|]. constructor; [intros [?|[]]; congruence|constructor; [intros []|constructor]].
    - intros t Ht. exists (map (fun a => [a]) t). split; [|split].
      + destruct t; [exfalso; auto|discriminate].
      + clear. induction t as [|a t IH]; auto. cbn. rewrite IH; auto.
      + intros p Hp. apply in_map_iff in Hp. destruct Hp as (a & <- & Ha). apply Ku. exists a. split; auto. apply alphabet_iff. eauto.
  Qed.
  Variable ft : bool.
  Lemma ft_step v : uvcl_ok v -> v <> [] -> ~ In [] (d_keys v) -> base_case v = None -> find_cut ord strict (discover_dfg_uvcl v) = None ->
    step v (fall_through ord strict par_order ft v) /\ good v (fall_through ord strict par_order ft v).
  Proof.
    intros Hv Nv Ne B F. unfold fall_through. rewrite (proj2 (empty_none v) Ne). destruct ft; [|apply flower_step; auto].
    destruct (once_candidate v) as [a|] eqn:E1; [destruct (once_step v a Hv Nv B E1) as (Ha & b & Hb & N); apply (split_step v a b); auto|].
    destruct (concurrent_candidate ord strict par_order v) as [a|] eqn:E2; [destruct (concurrent_step v a E2) as (Ha & b & Hb & N); apply (split_step v a b); auto|].
    destruct (strict_tau_loop v) as [r|] eqn:E3; [apply (tau_step _ v r Hv Nv Ne E3)|].
    destruct (plain_tau_loop v) as [r|] eqn:E4; [apply (tau_step _ v r Hv Nv Ne E4)|]. apply flower_step; auto.
  Qed.
End Cuts.
