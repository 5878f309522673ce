(** Inductive Miner: the recursion. *)
From Coq Require Import List Arith Bool ZArith QArith Lia Permutation Sorting.Sorted.
Import ListNotations.
From Verif Require Import Model_Dict Model_Dfg Model_Graph Model_Lev Model_Tree Model_IM Spec_Tree Spec_IM.
From Verif Require Import Proofs_Dict Proofs_Dfg Proofs_Graph Proofs_Lev Proofs_Shuffle Proofs_IM1 Proofs_IM4 Proofs_IM5 Proofs_IM6 Proofs_IM7 Proofs_IM8.
Local Open Scope nat_scope.
Local Arguments keqb {K Key} : simpl never.
Local Arguments Nat.ltb : simpl never.
Local Arguments Nat.leb : simpl never.
Local Arguments Nat.eqb : simpl never.

(** calls that succeed on all the sublogs from some fuel on *)
Lemma map_opt_fuel {X} (f : nat -> uvcl -> option X) (Q : uvcl -> X -> Prop) (subs : list uvcl) :
  (forall s, In s subs -> exists n t, (forall fuel, n <= fuel -> f fuel s = Some t) /\ Q s t) ->
  exists n ts, (forall fuel, n <= fuel -> map_opt (f fuel) subs = Some ts) /\ Forall2 Q subs ts.
Proof.
  induction subs as [|s subs IH]; intros H; [exists 0, []; auto|].
  destruct (H s ltac:(left; auto)) as (n1 & t & H1 & Q1). destruct IH as (n2 & ts & H2 & Q2); [intros; apply H; right; auto|].
  exists (Nat.max n1 n2), (t :: ts). split; auto. intros fuel L. cbn [map_opt]. rewrite H1, H2 by lia. auto.
Qed.
Lemma Forall2_length {X Y} (P : X -> Y -> Prop) l k : Forall2 P l k -> length l = length k.
Proof. intros F. induction F; cbn; auto. Qed.
Lemma forall2_impl {X Y} (P Q : X -> Y -> Prop) l k : (forall x y, P x y -> Q x y) -> Forall2 P l k -> Forall2 Q l k.
Proof. intros H F. induction F; auto. Qed.
Lemma forall2_right {X Y} (P : X -> Y -> Prop) (Q : Y -> Prop) l k : (forall x y, P x y -> Q y) -> Forall2 P l k -> Forall Q k.
Proof. intros H F. induction F; eauto. Qed.
Lemma forall2_concat {X Y Z} (f : X -> list Z) (g : Y -> list Z) l k : Forall2 (fun x y => Permutation (g y) (f x)) l k -> Permutation (concat (map g k)) (concat (map f l)).
Proof. intros F. induction F as [|x y l k H F IH]; cbn; auto. apply Permutation_app; auto. Qed.
Lemma node_wf r ts : shape r -> length ts = length (snd r) -> Forall wf_tree ts -> wf_tree (mk_node (fst r) ts).
Proof.
  intros S L F. unfold shape in S. destruct (fst r) as [o|]; [|constructor; exact I]. cbn [mk_node]. constructor; auto.
  destruct o; cbn; try tauto; try (intros E; rewrite E in L; destruct (snd r); [congruence|discriminate]). rewrite L. auto.
Qed.
Lemma node_leaves o ts : leaves (mk_node (Some o) ts) = concat (map leaves ts).
Proof. reflexivity. Qed.

Section IM.
  Variable ord : list nat -> list nat.
  Hypothesis ord_perm : forall l, Permutation (ord l) l.
  Variable strict : bool.
  Variable par_order : list nat -> list nat.
  Hypothesis par_incl : forall l, incl (par_order l) l.
  Variable ft : bool.
  Notation im := (im ord strict par_order ft).
  Notation imf := (imf ord strict par_order ft).
  Definition result (v : uvcl) (t : tree nat) : Prop := fits v t /\ Permutation (leaves t) (alphabet v) /\ wf_tree t.
  Lemma recurse_ok v r (f : nat -> uvcl -> option (tree nat)) : step v r -> good v r ->
    (forall s, In s (snd r) -> exists n t, (forall fuel, n <= fuel -> f fuel s = Some t) /\ result s t) ->
    exists n t, (forall fuel, n <= fuel -> recurse (f fuel) r = Some t) /\ result v t.
  Proof.
    intros [S1 S2] [G1 G2] H. destruct (map_opt_fuel f result (snd r) H) as (n & ts & E & F).
    exists n, (mk_node (fst r) ts). split; [intros fuel L; unfold recurse; rewrite (E fuel L); auto|].
    split; [apply G1; eapply forall2_impl; [|exact F]; intros x y Q; apply Q|]. split.
    - rewrite <- G2. unfold shape in S2. destruct (fst r) as [o|] eqn:Eo.
      + rewrite node_leaves. apply forall2_concat. eapply forall2_impl; [|exact F]. intros x y Q. apply Q.
      + rewrite S2. cbn. constructor.
    - apply node_wf; auto; [symmetry; eapply Forall2_length; eauto|]. eapply forall2_right; [|exact F]. intros x y Q. apply Q.
  Qed.
  Theorem im_total : forall v, uvcl_ok v -> exists n t, (forall fuel, n <= fuel -> im fuel v = Some t) /\ result v t.
  Proof.
    apply (smaller_ind (fun v => uvcl_ok v -> exists n t, (forall fuel, n <= fuel -> im fuel v = Some t) /\ result v t)). intros v IH Hv.
    assert (rec : forall r, step v r -> good v r -> (forall n, im (S n) v = recurse (im n) r) -> exists n t, (forall fuel, n <= fuel -> im fuel v = Some t) /\ result v t).
    { intros r Hs Hg E. destruct (recurse_ok v r (fun n => im n) Hs Hg) as (n & t & E1 & R).
      - intros s Hin. destruct (proj1 Hs s Hin) as (Ok & _ & Sm). apply IH; auto.
      - exists (S n), t. split; auto. intros [|fuel] L; [lia|]. rewrite E. apply E1. lia. }
    destruct (empty_traces v) as [r|] eqn:Ee.
    { destruct (empty_step v r Hv Ee) as [Hs Hg]. apply (rec r Hs Hg). intros n. cbn [Model_IM.im]. rewrite Ee. auto. }
    pose proof (proj1 (empty_none v) Ee) as Ne. destruct (base_case v) as [t|] eqn:Eb.
    { exists 1, t. split; [intros [|fuel] L; [lia|]; cbn [Model_IM.im]; rewrite Ee, Eb; auto|]. destruct (base_some v t Eb) as (F & P & l & ->). split; auto. split; [|constructor; exact I].
      rewrite P. destruct l; reflexivity. }
    assert (Nv : v <> []) by (intros ->; discriminate).
    destruct (find_cut ord strict (discover_dfg_uvcl v)) as [[o gs]|] eqn:Ec.
    - destruct (cut_step ord ord_perm strict _ v o gs Hv Nv Ne (compatible_self v) Ec) as (subs & Ep & Hs & Hg). apply (rec (Some o, subs) Hs (Hg eq_refl)). intros n. cbn [Model_IM.im]. rewrite Ee, Eb, Ec, Ep. auto.
    - destruct (ft_step ord ord_perm strict par_order par_incl ft v Hv Nv Ne Eb Ec) as [Hs Hg]. apply (rec _ Hs Hg). intros n. cbn [Model_IM.im]. rewrite Ee, Eb, Ec. auto.
  Qed.

  (** ** IMf *)
  Definition weak_result (v : uvcl) (t : tree nat) : Prop := incl (leaves t) (alphabet v) /\ wf_tree t.
  Lemma recurse_weak v r (f : nat -> uvcl -> option (tree nat)) : step v r ->
    (forall s, In s (snd r) -> exists n t, (forall fuel, n <= fuel -> f fuel s = Some t) /\ weak_result s t) ->
    exists n t, (forall fuel, n <= fuel -> recurse (f fuel) r = Some t) /\ weak_result v t.
  Proof.
    intros [S1 S2] H. destruct (map_opt_fuel f weak_result (snd r) H) as (n & ts & E & F).
    exists n, (mk_node (fst r) ts). split; [intros fuel L; unfold recurse; rewrite (E fuel L); auto|]. split.
    - unfold shape in S2. destruct (fst r) as [o|] eqn:Eo; [|intros ? []]. rewrite node_leaves. intros x Hx. apply in_concat in Hx. destruct Hx as (l & Hl & Hx). apply in_map_iff in Hl. destruct Hl as (t & <- & Ht).
      assert (Q : exists s, In s (snd r) /\ weak_result s t). { clear - F Ht. induction F as [|a b l k Hab F IH]; [destruct Ht|]. destruct Ht as [<-|Ht]; [exists a; split; auto; left; auto|]. destruct (IH Ht) as (s & Hs & Q). exists s. split; auto. right; auto. }
      destruct Q as (s & Hs & Q1 & _). apply (proj1 (proj2 (S1 s Hs))). apply Q1; auto.
    - apply node_wf; auto; [symmetry; eapply Forall2_length; eauto|]. eapply forall2_right; [|exact F]. intros x y Q. apply Q.
  Qed.
  Lemma step_trans u v r : smaller u v \/ u = v -> incl (alphabet u) (alphabet v) -> step u r -> forall s, In s (snd r) -> uvcl_ok s /\ incl (alphabet s) (alphabet v) /\ smaller s v.
  Proof. intros Su I [S1 S2] s Hs. destruct (S1 s Hs) as (A & B & C). split; auto. split; [intros x Hx; auto|]. destruct Su as [Su| ->]; auto. apply (smaller_trans s u v); auto. Qed.
  Lemma noise_compatible noise v : compatible (filter_noise noise (discover_dfg_uvcl v)) v.
  Proof. split; [reflexivity|]. split; [reflexivity|]. unfold filter_noise, edges. cbn [graph]. intros x Hx. unfold d_keys in *. apply in_map_iff in Hx. destruct Hx as (y & <- & Hy). apply filter_In in Hy. apply in_map. tauto. Qed.
  (** the part of the algorithm after the removal of empty traces *)
  Definition imf_rest noise n (second : bool) (v : uvcl) (g : dfg) : option (option (tree nat)) :=
    let call v := unwrap_call (imf noise n false v (discover_dfg_uvcl v)) in
    match base_case v with
    | Some t => Some (Some t)
    | None =>
      match find_cut ord strict g with
      | Some (o, groups) => match project o v groups with Some l => lift (recurse call (Some o, l)) | None => None end
      | None =>
        if second then Some None
        else match imf noise n true v (filter_noise noise g) with
             | Some (Some t) => Some (Some t)
             | Some None => lift (recurse call (fall_through ord strict par_order ft v))
             | None => None
             end
      end
    end.
  Lemma imf_unfold noise n second v g : imf noise (S n) second v g =
    let call v := unwrap_call (imf noise n false v (discover_dfg_uvcl v)) in
    match empty_traces v with
    | Some (o, e :: r :: _) =>
      if Qle_bool (qn (total_count v) - qn (total_count r)) (noise * qn (total_count v)) then imf_rest noise n second r (discover_dfg_uvcl r)
      else lift (recurse call (o, [e; r]))
    | _ => imf_rest noise n second v g
    end.
  Proof. reflexivity. Qed.
  Definition calls noise (v : uvcl) : Prop := forall s, uvcl_ok s -> smaller s v -> exists n t, (forall fuel, n <= fuel -> unwrap_call (imf noise fuel false s (discover_dfg_uvcl s)) = Some t) /\ weak_result s t.
  Lemma imf_step noise v r : step v r -> calls noise v ->
    exists n t, (forall fuel, n <= fuel -> lift (recurse (fun v => unwrap_call (imf noise fuel false v (discover_dfg_uvcl v))) r) = Some (Some t)) /\ weak_result v t.
  Proof.
    intros Hs IH. destruct (recurse_weak v r (fun fuel v => unwrap_call (imf noise fuel false v (discover_dfg_uvcl v))) Hs) as (n & t & E & R).
    - intros s Hin. destruct (proj1 Hs s Hin) as (Ok & _ & Sm). apply IH; auto.
    - exists n, t. split; auto. intros fuel L. rewrite (E fuel L). auto.
  Qed.
  Lemma rest_cut noise v g : uvcl_ok v -> ~ In [] (d_keys v) -> compatible g v -> calls noise v -> (base_case v <> None \/ find_cut ord strict g <> None) -> forall second,
    exists n t, (forall fuel, n <= fuel -> imf_rest noise fuel second v g = Some (Some t)) /\ weak_result v t.
  Proof.
    intros Hv Ne Hc IH Hor second. unfold imf_rest. destruct (base_case v) as [t|] eqn:Eb.
    - exists 0, t. split; auto. destruct (base_some v t Eb) as (_ & P & l & ->). split; [|constructor; exact I]. intros x Hx. apply (Permutation_in x (Permutation_sym P)). destruct l; exact Hx.
    - destruct Hor as [?|Hor]; [congruence|]. destruct (find_cut ord strict g) as [[o gs]|] eqn:Ec; [|congruence]. assert (Nv : v <> []) by (intros ->; discriminate).
      destruct (cut_step ord ord_perm strict g v o gs Hv Nv Ne Hc Ec) as (subs & Ep & Hs & _). rewrite Ep. destruct (imf_step noise v (Some o, subs) Hs IH) as (n & t & E & R). exists n, t. auto.
  Qed.
  Lemma second_ok noise v g : uvcl_ok v -> ~ In [] (d_keys v) -> compatible g v -> calls noise v ->
    exists n r, (forall fuel, n <= fuel -> imf noise fuel true v g = Some r) /\ forall t, r = Some t -> weak_result v t.
  Proof.
    intros Hv Ne Hc IH. assert (E0 : forall fuel, imf noise (S fuel) true v g = imf_rest noise fuel true v g) by (intros fuel; rewrite imf_unfold; rewrite (proj2 (empty_none v) Ne); auto).
    destruct (base_case v) as [t0|] eqn:Eb; [|destruct (find_cut ord strict g) as [c|] eqn:Ec].
    - destruct (rest_cut noise v g Hv Ne Hc IH ltac:(left; congruence) true) as (n & t & E & R). exists (S n), (Some t). split; [intros [|fuel] L; [lia|]; rewrite E0; apply E; lia|]. intros t' [= <-]; auto.
    - destruct (rest_cut noise v g Hv Ne Hc IH ltac:(right; congruence) true) as (n & t & E & R). exists (S n), (Some t). split; [intros [|fuel] L; [lia|]; rewrite E0; apply E; lia|]. intros t' [= <-]; auto.
    - exists 1, None. split; [|discriminate]. intros [|fuel] L; [lia|]. rewrite E0. unfold imf_rest. rewrite Eb, Ec. auto.
  Qed.
  Lemma rest_ok noise v : uvcl_ok v -> ~ In [] (d_keys v) -> calls noise v ->
    exists n t, (forall fuel, n <= fuel -> imf_rest noise fuel false v (discover_dfg_uvcl v) = Some (Some t)) /\ weak_result v t.
  Proof.
    intros Hv Ne IH. destruct (base_case v) as [t0|] eqn:Eb; [apply rest_cut; auto; [apply compatible_self|left; congruence]|].
    destruct (find_cut ord strict (discover_dfg_uvcl v)) as [c|] eqn:Ec; [apply rest_cut; auto; [apply compatible_self|right; congruence]|].
    assert (Nv : v <> []) by (intros ->; discriminate).
    destruct (second_ok noise v _ Hv Ne (noise_compatible noise v) IH) as (n1 & [t|] & E1 & R1).
    - exists n1, t. split; auto. intros fuel L. unfold imf_rest. rewrite Eb, Ec, (E1 fuel L). auto.
    - destruct (ft_step ord ord_perm strict par_order par_incl ft v Hv Nv Ne Eb Ec) as [Hs _]. destruct (imf_step noise v _ Hs IH) as (n2 & t & E2 & R2).
      exists (Nat.max n1 n2), t. split; auto. intros fuel L. unfold imf_rest. rewrite Eb, Ec, E1 by lia. apply E2. lia.
  Qed.
  Theorem imf_total noise : forall v, uvcl_ok v -> exists n t, (forall fuel, n <= fuel -> unwrap_call (imf noise fuel false v (discover_dfg_uvcl v)) = Some t) /\ weak_result v t.
  Proof.
    apply (smaller_ind (fun v => uvcl_ok v -> exists n t, (forall fuel, n <= fuel -> unwrap_call (imf noise fuel false v (discover_dfg_uvcl v)) = Some t) /\ weak_result v t)). intros v IH0 Hv.
    assert (IH : calls noise v) by (intros s Hs Sm; apply IH0; auto). clear IH0.
    assert (fin : forall (f : nat -> option (option (tree nat))), (exists n t, (forall fuel, n <= fuel -> f fuel = Some (Some t)) /\ weak_result v t) -> (forall fuel, imf noise (S fuel) false v (discover_dfg_uvcl v) = f fuel) ->
      exists n t, (forall fuel, n <= fuel -> unwrap_call (imf noise fuel false v (discover_dfg_uvcl v)) = Some t) /\ weak_result v t).
    { intros f (n & t & E & R) Q. exists (S n), t. split; auto. intros [|fuel] L; [lia|]. rewrite Q, E by lia. auto. }
    destruct (empty_traces v) as [r|] eqn:Ee.
    - destruct (empty_step v r Hv Ee) as [Hs _]. unfold empty_traces in Ee. destruct (has_empty v) eqn:He; [|discriminate]. destruct (is_nil (d_del v [])) eqn:En.
      + apply (fin (fun fuel => imf_rest noise fuel false v (discover_dfg_uvcl v))).
        2:{ intros fuel. rewrite imf_unfold. unfold empty_traces. rewrite He, En. auto. }
        assert (B : exists n, v = [([], n)]).
        { destruct v as [|[t m] w]; [discriminate|]. assert (all : forall k, In k (d_keys ((t, m) :: w)) -> k = []). { intros k Hk. destruct k as [|a k]; auto. exfalso. assert (Q : In (a :: k) (d_keys (d_del ((t, m) :: w) []))) by (apply del_keys; split; auto; discriminate). destruct (d_del ((t, m) :: w) []); [destruct Q|discriminate]. }
          rewrite (all t ltac:(left; auto)) in *. destruct w as [|[t' m'] w]; [exists m; auto|]. exfalso. destruct Hv as [N _]. change (NoDup ([] :: t' :: map fst w)) in N. inversion N as [|? ? N1 _]; subst. apply N1. left. apply all. right; left; auto. }
        destruct B as (n & ->). exists 0, (Leaf None). split; [intros fuel _; reflexivity|]. split; [intros ? []|constructor; exact I].
      + injection Ee as <-. destruct (Qle_bool (qn (total_count v) - qn (total_count (d_del v []))) (noise * qn (total_count v))) eqn:Eq.
        * apply (fin (fun fuel => imf_rest noise fuel false (d_del v []) (discover_dfg_uvcl (d_del v [])))).
          2:{ intros fuel. rewrite imf_unfold. unfold empty_traces. rewrite He, En, Eq. auto. }
          pose proof (del_smaller v He) as Sd. destruct (rest_ok noise (d_del v [])) as (n & t & E & R1 & R2).
          -- apply del_ok; auto.
          -- intros Q. apply del_keys in Q. tauto.
          -- intros s Ok Sm. apply IH; auto. apply (smaller_trans s (d_del v []) v); auto.
          -- exists n, t. split; auto. split; auto. intros x Hx. apply del_alphabet, R1; auto.
        * apply (fin (fun fuel => lift (recurse (fun v => unwrap_call (imf noise fuel false v (discover_dfg_uvcl v))) (Some Xor, [[]; d_del v []])))).
          -- apply imf_step; auto.
          -- intros fuel. rewrite imf_unfold. unfold empty_traces. rewrite He, En, Eq. auto.
    - apply (fin (fun fuel => imf_rest noise fuel false v (discover_dfg_uvcl v))).
      + apply rest_ok; auto. apply empty_none; auto.
      + intros fuel. rewrite imf_unfold, Ee. auto.
  Qed.

  (** ** No noise threshold: IM *)
  Lemma graph_positive v : uvcl_ok v -> forall k n, In (k, n) (graph (discover_dfg_uvcl v)) -> 0 < n.
  Proof.
    intros [_ Hp]. unfold discover_dfg_uvcl. cbn [graph].
    assert (set_in : forall (d : @counter (nat * nat)) k n k' n', In (k', n') (d_set d k n) -> In (k', n') d \/ n' = n).
    { clear. intros d k n k' n'. induction d as [|[a b] d IH]; cbn [d_set]; [intros [[= <- <-]|[]]; auto|]. destruct (keqb a k).
      - intros [[= <- <-]|H]; [auto|left; right; auto].
      - intros [[= <- <-]|H]; [left; left; auto|]. destruct (IH H); auto. left; right; auto. }
    assert (G : forall (w : uvcl) (d : @counter (nat * nat)), positive w -> (forall k n, In (k, n) d -> 0 < n) -> forall k n, In (k, n) (fold_left (fun d tn => fold_left (fun d k => c_add d k (snd tn)) (consecutive (fst tn)) d) w d) -> 0 < n).
    { clear - set_in. induction w as [|[t m] w IH]; intros d Hw Hd; [exact Hd|]. cbn [fold_left]. apply IH; [intros k n H; apply (Hw k n); right; auto|]. cbn [fst snd].
      assert (Pm : 0 < m) by (apply (Hw t); left; auto). clear IH. revert d Hd. induction (consecutive t) as [|e es IHe]; intros d Hd; [exact Hd|]. cbn [fold_left]. apply IHe. intros k n H. unfold c_add in H. apply set_in in H. destruct H as [H| ->]; [eauto|]. lia. }
    apply (G v []); auto. intros ? ? [].
  Qed.
  Lemma filter_noise_none noise v : (noise <= 0)%Q -> uvcl_ok v -> filter_noise noise (discover_dfg_uvcl v) = discover_dfg_uvcl v.
  Proof.
    intros Hq Hv. pose proof (graph_positive v Hv) as P. unfold filter_noise. destruct (discover_dfg_uvcl v) as [gr st en] eqn:Eg. cbn [graph start_acts end_acts] in *. f_equal.
    set (o := max_out _). clearbody o. clear Eg. revert P. induction gr as [|[k n] gr IH]; intros P; auto. cbn [filter]. rewrite IH by (intros k' n' H; apply (P k' n'); right; auto). clear IH.
    - cbn [fst snd]. assert (Pn : 0 < n) by (apply (P k); left; auto).
      assert (Qn : Qle_bool (qn n) (noise * qn (c_get o (fst k))) = false).
      { apply not_true_is_false. intros Q. apply Qle_bool_iff in Q. assert (A : (0 < qn n)%Q) by (unfold qn, Qlt, inject_Z; cbn; lia).
        assert (B : (noise * qn (c_get o (fst k)) <= 0)%Q). { rewrite <- (Qmult_0_l (qn (c_get o (fst k)))). apply Qmult_le_compat_r; auto. unfold qn, Qle, inject_Z; cbn; lia. }
        apply (Qlt_irrefl 0). eapply Qlt_le_trans; [exact A|]. eapply Qle_trans; eauto. }
      rewrite Qn. auto.
  Qed.
  Lemma map_opt_ext {X Y} (f g : X -> option Y) l : (forall x, In x l -> f x = g x) -> map_opt f l = map_opt g l.
  Proof. induction l as [|x l IH]; intros H; auto. cbn [map_opt]. rewrite H by (left; auto). rewrite IH; auto. intros; apply H; right; auto. Qed.
  Theorem imf_im noise : (noise <= 0)%Q -> forall v, uvcl_ok v -> exists n, forall fuel, n <= fuel -> imf noise fuel false v (discover_dfg_uvcl v) = lift (im fuel v).
  Proof.
    intros Hq. apply (smaller_ind (fun v => uvcl_ok v -> exists n, forall fuel, n <= fuel -> imf noise fuel false v (discover_dfg_uvcl v) = lift (im fuel v))). intros v IH Hv.
    assert (rec : forall r, step v r -> exists n, forall fuel, n <= fuel -> lift (recurse (fun v => unwrap_call (imf noise fuel false v (discover_dfg_uvcl v))) r) = lift (recurse (im fuel) r)).
    { intros r [S1 _]. assert (H : forall s, In s (snd r) -> exists n, forall fuel, n <= fuel -> unwrap_call (imf noise fuel false s (discover_dfg_uvcl s)) = im fuel s).
      { intros s Hin. destruct (S1 s Hin) as (Ok & _ & Sm). destruct (IH s Sm Ok) as (n & E). exists n. intros fuel L. rewrite (E fuel L). destruct (im fuel s); auto. }
      assert (M : exists n, forall fuel, n <= fuel -> forall s, In s (snd r) -> unwrap_call (imf noise fuel false s (discover_dfg_uvcl s)) = im fuel s).
      { clear - H. induction (snd r) as [|s l IHl]; [exists 0; intros fuel _ s []|]. destruct (H s ltac:(left; auto)) as (n1 & E1). destruct IHl as (n2 & E2); [intros; apply H; right; auto|].
        exists (Nat.max n1 n2). intros fuel L s' [<-|Hs]; [apply E1; lia|apply E2; auto; lia]. }
      destruct M as (n & E). exists n. intros fuel L. unfold recurse. rewrite (map_opt_ext _ (im fuel) (snd r)); auto. }
    assert (fin : forall f h : nat -> option (option (tree nat)), (exists n, forall fuel, n <= fuel -> f fuel = h fuel) ->
      (forall fuel, imf noise (S fuel) false v (discover_dfg_uvcl v) = f fuel) -> (forall fuel, lift (im (S fuel) v) = h fuel) -> exists n, forall fuel, n <= fuel -> imf noise fuel false v (discover_dfg_uvcl v) = lift (im fuel v)).
    { intros f h (n & E) E1 E2. exists (S n). intros [|fuel] L; [lia|]. rewrite E1, E2. apply E. lia. }
    destruct (empty_traces v) as [r|] eqn:Ee.
    - destruct (empty_step v r Hv Ee) as [Hs _]. pose proof Ee as Ee0. unfold empty_traces in Ee. destruct (has_empty v) eqn:He; [|discriminate]. destruct (is_nil (d_del v [])) eqn:En.
      + injection Ee as <-.
        apply (fin (fun fuel => imf_rest noise fuel false v (discover_dfg_uvcl v)) (fun fuel => Some (Some (Leaf None)))).
        * exists 0. intros fuel _. unfold imf_rest. destruct v as [|[t m] w]; [discriminate|].
          assert (all : forall k, In k (d_keys ((t, m) :: w)) -> k = []). { intros k Hk. destruct k as [|a k]; auto. exfalso. assert (Q : In (a :: k) (d_keys (d_del ((t, m) :: w) []))) by (apply del_keys; split; auto; discriminate). destruct (d_del ((t, m) :: w) []); [destruct Q|discriminate]. }
          rewrite (all t ltac:(left; auto)) in *. destruct w as [|[t' m'] w]; [reflexivity|]. exfalso. destruct Hv as [N _]. change (NoDup ([] :: t' :: map fst w)) in N. inversion N as [|? ? N1 _]; subst. apply N1. left. apply all. right; left; auto.
        * intros fuel. rewrite imf_unfold. rewrite Ee0. auto.
        * intros fuel. cbn [Model_IM.im]. rewrite Ee0. auto.
      + injection Ee as <-. assert (Eq : Qle_bool (qn (total_count v) - qn (total_count (d_del v []))) (noise * qn (total_count v)) = false).
        { assert (L : total_count (d_del v []) < total_count v).
          { apply has_empty_in in He. destruct Hv as [_ P]. rewrite !total_wsum. clear - He P. unfold d_del. induction v as [|[t n] w IHw]; [destruct He|]. cbn [filter fst]. rewrite wsum_cons.
            assert (Pn : 0 < n) by (apply (P t); left; auto). assert (LE : forall w' : uvcl, wsum (fun _ => 1) (filter (fun kv => negb (keqb (fst kv) [])) w') <= wsum (fun _ => 1) w').
            { clear. induction w' as [|[t n] w IHw]; auto. cbn [filter fst]. destruct (negb _); rewrite ?wsum_cons; lia. }
            destruct (keqb_spec t []) as [->|N]; cbn [negb].
            - eapply Nat.le_lt_trans; [exact (LE w)|]. lia.
            - rewrite wsum_cons. apply Nat.add_lt_mono_l. apply IHw; [intros k m H; apply (P k m); right; auto|]. destruct He as [E|He]; [cbn in E; congruence|auto]. }
          apply not_true_is_false. intros Q. apply Qle_bool_iff in Q.
          assert (B : (noise * qn (total_count v) <= 0)%Q). { rewrite <- (Qmult_0_l (qn (total_count v))). apply Qmult_le_compat_r; auto. unfold qn, Qle, inject_Z; cbn; lia. }
          assert (A : (qn (total_count (d_del v [])) < qn (total_count v))%Q) by (unfold qn, Qlt, inject_Z; cbn; lia).
          apply (Qlt_irrefl 0). eapply Qlt_le_trans; [|eapply Qle_trans; [exact Q|exact B]]. rewrite <- (Qplus_opp_r (qn (total_count (d_del v [])))). apply Qplus_lt_le_compat; [exact A|apply Qle_refl]. }
        apply (fin (fun fuel => lift (recurse (fun v => unwrap_call (imf noise fuel false v (discover_dfg_uvcl v))) (Some Xor, [[]; d_del v []]))) (fun fuel => lift (recurse (im fuel) (Some Xor, [[]; d_del v []])))).
        * apply rec; auto.
        * intros fuel. rewrite imf_unfold, Ee0, Eq. auto.
        * intros fuel. cbn [Model_IM.im]. rewrite Ee0. auto.
    - pose proof (proj1 (empty_none v) Ee) as Ne.
      assert (E1 : forall fuel, imf noise (S fuel) false v (discover_dfg_uvcl v) = imf_rest noise fuel false v (discover_dfg_uvcl v)) by (intros; rewrite imf_unfold, Ee; auto).
      destruct (base_case v) as [t|] eqn:Eb.
      + exists 1. intros [|fuel] L; [lia|]. rewrite E1. unfold imf_rest. cbn [Model_IM.im]. rewrite Ee, Eb. auto.
      + assert (Nv : v <> []) by (intros ->; discriminate). destruct (find_cut ord strict (discover_dfg_uvcl v)) as [[o gs]|] eqn:Ec.
        * destruct (cut_step ord ord_perm strict _ v o gs Hv Nv Ne (compatible_self v) Ec) as (subs & Ep & Hs & _).
          apply (fin _ (fun fuel => lift (recurse (im fuel) (Some o, subs))) (rec (Some o, subs) Hs)).
          -- intros fuel. rewrite E1. unfold imf_rest. rewrite Eb, Ec, Ep. auto.
          -- intros fuel. cbn [Model_IM.im]. rewrite Ee, Eb, Ec, Ep. auto.
        * destruct (ft_step ord ord_perm strict par_order par_incl ft v Hv Nv Ne Eb Ec) as [Hs _]. destruct (rec _ Hs) as (n & E).
          exists (S (S n)). intros [|[|fuel]] L; [lia|lia|]. rewrite E1. unfold imf_rest. rewrite Eb, Ec, filter_noise_none by auto.
          rewrite imf_unfold, Ee. unfold imf_rest. rewrite Eb, Ec. cbn [Model_IM.im]. rewrite Ee, Eb, Ec. apply (E (S fuel)). lia.
  Qed.
End IM.
Lemma variants_ok l : uvcl_ok (get_variants l).
Proof.
  split; [apply c_of_nodup|]. intros t n H. apply d_in_get in H; [|apply c_of_nodup]. unfold get_variants in H. rewrite d_get_c_of in H. destruct (Nat.eqb_spec (occ t l) 0); [discriminate|]. injection H as <-. lia.
Qed.
Lemma variants_keys l t : In t (d_keys (get_variants l)) <-> In t l.
Proof. apply c_of_keys. Qed.
