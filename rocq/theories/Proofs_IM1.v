(** Inductive Miner: the groups found by the cuts partition the activities. *)
From Coq Require Import List Arith Bool ZArith Lia Permutation Sorting.Sorted.
Import ListNotations.
From Verif Require Import Model_Dict Model_Dfg Model_Graph Model_Lev Model_Tree Model_IM Spec_Graph.
From Verif Require Import Proofs_Dict Proofs_Dfg Proofs_Graph Proofs_Lev.
Local Open Scope nat_scope.
Local Arguments keqb {K Key} : simpl never.
Local Arguments Nat.ltb : simpl never.
Local Arguments Nat.leb : simpl never.

(** ** What the DFG of a log contains *)
Lemma fold_add_keys {K} {EK : Key K} (l : list K) n : forall (d : @counter K) k,
  In k (d_keys (fold_left (fun d k => c_add d k n) l d)) <-> In k (d_keys d) \/ In k l.
Proof.
  induction l as [|x l IH]; intros d k; cbn [fold_left]; [cbn; tauto|]. rewrite IH. unfold c_add. rewrite d_in_keys_set. cbn [In]. intuition.
Qed.
Lemma dfg_edges (v : uvcl) a b : In (a, b) (edges (discover_dfg_uvcl v)) <-> exists t, In t (d_keys v) /\ In (a, b) (adj t).
Proof.
  unfold edges, discover_dfg_uvcl. cbn [graph].
  assert (G : forall (v : uvcl) (d : @counter (nat * nat)),
    In (a, b) (d_keys (fold_left (fun d tn => fold_left (fun d k => c_add d k (snd tn)) (consecutive (fst tn)) d) v d)) <->
    In (a, b) (d_keys d) \/ exists t, In t (d_keys v) /\ In (a, b) (adj t)).
  { clear. induction v as [|[t n] v IH]; intros d; cbn [fold_left fst snd].
    - split; [auto|intros [H|(t & [] & _)]; auto].
    - rewrite IH, fold_add_keys, consecutive_adj. unfold d_keys. cbn [map fst In]. split.
      + intros [[H|H]|(u & H & H')]; eauto.
      + intros [H|(u & [<-|H] & H')]; eauto. }
  rewrite G. cbn. tauto.
Qed.
Definition se_step (a : nat) (se : @counter nat * @counter nat) (tn : trace * nat) : @counter nat * @counter nat :=
  match fst tn with
  | [] => se
  | b :: _ => (if Nat.eqb b a then c_add (fst se) a (snd tn) else fst se,
               if Nat.eqb (nth (length (fst tn) - 1) (fst tn) 0) a then c_add (snd se) a (snd tn) else snd se)
  end.
Lemma se_keys (v : uvcl) :
  (forall a, In a (d_keys (start_acts (discover_dfg_uvcl v))) <-> exists t, In t (d_keys v) /\ hd_error t = Some a) /\
  (forall a, In a (d_keys (end_acts (discover_dfg_uvcl v))) <-> exists t, In t (d_keys v) /\ t <> [] /\ last t 0 = a).
Proof.
  set (F := fold_left (fun se a => fold_left (se_step a) v se) (get_alphabet (d_keys v)) ([], [])).
  assert (E : start_acts (discover_dfg_uvcl v) = fst F /\ end_acts (discover_dfg_uvcl v) = snd F).
  { unfold F, discover_dfg_uvcl. cbn [start_acts end_acts].
    match goal with |- fst ?X = fst ?Y /\ _ => assert (E : X = Y) end; [|rewrite E; auto].
    generalize (@nil (nat * nat), @nil (nat * nat)). generalize (get_alphabet (d_keys v)). induction l as [|a l IH]; intros se; auto. cbn [fold_left]. rewrite IH. f_equal.
    clear. revert se. induction v as [|[t n] v IH]; intros [s e]; auto. cbn [fold_left]. rewrite IH. reflexivity. }
  destruct E as [-> ->]. unfold F.
  assert (G : forall al se x,
    (In x (d_keys (fst (fold_left (fun se a => fold_left (se_step a) v se) al se))) <-> In x (d_keys (fst se)) \/ (In x al /\ exists t, In t (d_keys v) /\ hd_error t = Some x)) /\
    (In x (d_keys (snd (fold_left (fun se a => fold_left (se_step a) v se) al se))) <-> In x (d_keys (snd se)) \/ (In x al /\ exists t, In t (d_keys v) /\ t <> [] /\ last t 0 = x))).
  { assert (G1 : forall a (w : uvcl) se x,
      (In x (d_keys (fst (fold_left (se_step a) w se))) <-> In x (d_keys (fst se)) \/ (x = a /\ exists t, In t (d_keys w) /\ hd_error t = Some x)) /\
      (In x (d_keys (snd (fold_left (se_step a) w se))) <-> In x (d_keys (snd se)) \/ (x = a /\ exists t, In t (d_keys w) /\ t <> [] /\ last t 0 = x))).
    { clear. intros a. induction w as [|[t n] w IH]; intros se x; cbn [fold_left].
      - split; (split; [auto|intros [H|(_ & t & [] & _)]; auto]).
      - destruct (IH (se_step a se (t, n)) x) as [IH1 IH2]. rewrite IH1, IH2. clear IH IH1 IH2. change (@d_keys trace nat ((t, n) :: w)) with (t :: @d_keys trace nat w). cbn [In].
        unfold se_step. cbn [fst snd]. destruct t as [|b t].
        + split; (split; [intros [H|(H1 & u & H2 & H3)]; [auto|right; split; auto; exists u; auto]|]).
          * intros [H|(H1 & u & [<-|H2] & H3)]; [auto|discriminate|right; split; auto; exists u; auto].
          * intros [H|(H1 & u & [<-|H2] & H3 & H4)]; [auto|congruence|right; split; auto; exists u; auto].
        + assert (EL : nth (length (b :: t) - 1) (b :: t) 0 = last (b :: t) 0).
          { rewrite last_nth. reflexivity. }
          rewrite EL. cbn [fst snd]. split.
          * destruct (Nat.eqb_spec b a) as [->|N]; [unfold c_add; rewrite d_in_keys_set|]; split.
            -- intros [[H|H]|(H1 & u & H2 & H3)]; [right; split; auto; exists (a :: t); subst; auto|auto|right; split; auto; exists u; auto].
            -- intros [H|(-> & _)]; auto.
            -- intros [H|(H1 & u & H2 & H3)]; [auto|right; split; auto; exists u; auto].
            -- intros [H|(H1 & u & [<-|H2] & H3)]; [auto|cbn in H3; congruence|right; split; auto; exists u; auto].
          * destruct (Nat.eqb_spec (last (b :: t) 0) a) as [E|N]; [unfold c_add; rewrite d_in_keys_set|]; split.
            -- intros [[H|H]|(H1 & u & H2 & H3)]; [right; split; auto; exists (b :: t); subst; repeat split; auto; discriminate|auto|right; split; auto; exists u; auto].
            -- intros [H|(-> & _)]; auto.
            -- intros [H|(H1 & u & H2 & H3)]; [auto|right; split; auto; exists u; auto].
            -- intros [H|(H1 & u & [<-|H2] & H3 & H4)]; [auto|congruence|right; split; auto; exists u; auto]. }
    induction al as [|a al IH]; intros se x; cbn [fold_left].
    - cbn. tauto.
    - destruct (IH (fold_left (se_step a) v se) x) as [IH1 IH2]. rewrite IH1, IH2. destruct (G1 a v se x) as [G1a G1b]. rewrite G1a, G1b. cbn [In]. intuition. }
  assert (A : forall x t, In t (d_keys v) -> In x t -> In x (get_alphabet (d_keys v))).
  { intros x t H1 H2. unfold get_alphabet. apply dedup_in, in_concat. eauto. }
  split; intros a; [rewrite (proj1 (G _ _ _))|rewrite (proj2 (G _ _ _))]; cbn.
  - split; [intros [[]|[_ H]]; auto|]. intros (t & H1 & H2). right. split; [|eauto]. apply (A a t); auto. destruct t; [discriminate|]. injection H2 as ->. left; auto.
  - split; [intros [[]|[_ H]]; auto|]. intros (t & H1 & H2 & H3). right. split; [|eauto]. apply (A a t); auto. subst a. destruct (exists_last H2) as (k & y & ->). rewrite last_last. apply in_or_app. right. left. auto.
Qed.
Lemma dfg_start v a : In a (d_keys (start_acts (discover_dfg_uvcl v))) <-> exists t, In t (d_keys v) /\ hd_error t = Some a.
Proof. apply se_keys. Qed.
Lemma dfg_end v a : In a (d_keys (end_acts (discover_dfg_uvcl v))) <-> exists t, In t (d_keys v) /\ t <> [] /\ last t 0 = a.
Proof. apply se_keys. Qed.

(** The vertices of any DFG *)
Lemma vertices_in g x : In x (get_vertices g) <->
  (exists y, In (x, y) (edges g) \/ In (y, x) (edges g)) \/ In x (d_keys (start_acts g)) \/ In x (d_keys (end_acts g)).
Proof.
  unfold get_vertices. rewrite dedup_in, !in_app_iff, in_concat. unfold edges. split.
  - intros [(l & H1 & H2)|H]; auto. left. apply in_map_iff in H1. destruct H1 as ([a b] & <- & H1). cbn in H2. destruct H2 as [<-|[<-|[]]]; eauto.
  - intros [(y & [H|H])|H]; auto; left; eexists; (split; [apply in_map_iff; eexists; split; [reflexivity|exact H]|cbn; auto]).
Qed.
Lemma vertices_nodup g : NoDup (get_vertices g).
Proof. apply dedup_nodup. Qed.
Lemma adj_in_l t a b : In (a, b) (adj t) -> In a t /\ In b t.
Proof.
  intros H. split.
  - rewrite <- (adj_fst t). apply in_or_app. left. apply in_map_iff. exists (a, b); auto.
  - rewrite <- (adj_snd t). apply in_or_app. right. apply in_map_iff. exists (a, b); auto.
Qed.
Definition alphabet (v : uvcl) : list nat := get_alphabet (d_keys v).
Lemma alphabet_iff v x : In x (alphabet v) <-> exists t, In t (d_keys v) /\ In x t.
Proof. unfold alphabet, get_alphabet. rewrite dedup_in. apply in_concat. Qed.
Lemma alphabet_nodup v : NoDup (alphabet v).
Proof. apply dedup_nodup. Qed.
Lemma last_in (t : list nat) d : t <> [] -> In (last t d) t.
Proof. intros H. destruct (exists_last H) as (k & y & ->). rewrite last_last. apply in_or_app. right. left. auto. Qed.
Lemma dfg_vertices v x : In x (get_vertices (discover_dfg_uvcl v)) <-> In x (alphabet v).
Proof.
  rewrite vertices_in, alphabet_iff, dfg_start, dfg_end. split.
  - intros [(y & [H|H])|[(t & H1 & H2)|(t & H1 & H2 & H3)]].
    + apply dfg_edges in H. destruct H as (t & H1 & H2). exists t. split; auto. apply (adj_in_l t x y H2).
    + apply dfg_edges in H. destruct H as (t & H1 & H2). exists t. split; auto. apply (adj_in_l t y x H2).
    + exists t. split; auto. destruct t; [discriminate|]. injection H2 as ->. left; auto.
    + exists t. split; auto. subst. apply last_in; auto.
  - intros (t & H1 & H2). rewrite <- (adj_snd t) in H2. apply in_app_or in H2. destruct H2 as [H2|H2].
    + right. left. exists t. split; auto. destruct t as [|b t]; [destruct H2|]. destruct H2 as [->|[]]. auto.
    + left. apply in_map_iff in H2. destruct H2 as ([y z] & <- & H2). exists y. right. cbn. apply dfg_edges. eauto.
Qed.

(** ** Lists of disjoint groups *)
Lemma sunion_app t : forall s, NoDup (s ++ t) -> sunion s t = s ++ t.
Proof.
  induction t as [|y t IH]; intros s H; [cbn; rewrite app_nil_r; auto|].
  change (sunion (sadd s y) t = s ++ y :: t). unfold sadd.
  assert (N : smem y s = false). { apply smem_false. intros Hy. apply NoDup_remove_2 in H. apply H. apply in_or_app. auto. }
  rewrite N. rewrite IH; rewrite <- app_assoc; auto.
Qed.
Lemma NoDup_app_l {X} (l k : list X) : NoDup (l ++ k) -> NoDup l.
Proof. induction l as [|x l IH]; cbn; intros H; [constructor|]. inversion H as [|? ? H1 H2]; subst. constructor; auto. intros Hx. apply H1. apply in_or_app; auto. Qed.
Lemma NoDup_app_r {X} (l k : list X) : NoDup (l ++ k) -> NoDup k.
Proof. induction l as [|x l IH]; cbn; intros H; auto. inversion H; auto. Qed.
Lemma NoDup_app_disj {X} (l k : list X) x : NoDup (l ++ k) -> In x l -> In x k -> False.
Proof. induction l as [|y l IH]; cbn; intros H H1 H2; [auto|]. inversion H as [|? ? G1 G2]; subst. destruct H1 as [->|H1]; [apply G1, in_or_app; auto|eauto]. Qed.
Lemma nodup_perm {X} (l k : list X) : Permutation l k -> NoDup l -> NoDup k.
Proof. apply Permutation_NoDup. Qed.
Lemma concat_perm {X} (l k : list (list X)) : Permutation l k -> Permutation (concat l) (concat k).
Proof.
  induction 1; cbn; auto; [apply Permutation_app_head; auto| |etransitivity; eauto].
  rewrite !app_assoc. apply Permutation_app_tail, Permutation_app_comm.
Qed.
Definition nonempties (gs : list group) : Prop := Forall (fun g => g <> []) gs.
Lemma sunion_nonempty g h : g <> [] -> sunion g h <> [].
Proof. intros H E. destruct g as [|x g]; [congruence|]. assert (In x (sunion (x :: g) h)) by (apply sunion_in; left; left; auto). rewrite E in *. auto. Qed.

(** ** Connected components *)
Lemma descendants_nodup E v : NoDup (descendants E v).
Proof. unfold descendants. apply NoDup_filter. apply (iter_props E v (length E)). Qed.
Lemma und_in E x y : In (x, y) (undirected E) <-> In (x, y) E \/ In (y, x) E.
Proof. unfold undirected. rewrite in_app_iff, flip_in. tauto. Qed.
Lemma und_sym E x y : path (undirected E) x y -> path (undirected E) y x.
Proof.
  induction 1 as [|x y z H1 H2 IH]; [constructor|]. apply (path_trans _ _ y); auto. apply path_edge. apply und_in. apply (proj1 (und_in _ _ _)) in H1. tauto.
Qed.
Lemma component_in E v x : In x (component E v) <-> path (undirected E) v x.
Proof.
  unfold component. cbn [In]. rewrite descendants_spec. destruct (Nat.eq_dec v x) as [->|N]; [split; auto; constructor|]. split; [intros [?|[? H]]; [congruence|auto]|].
  intros H. right. split; auto.
Qed.
Lemma component_nodup E v : NoDup (component E v).
Proof. unfold component. constructor; [|apply descendants_nodup]. rewrite descendants_spec. tauto. Qed.
Section Comp.
  Variable E : list edge.
  Definition closed_und (s : list nat) := forall x y, In x s -> path (undirected E) x y -> In y s.
  Lemma components_spec nodes : forall seen, closed_und seen ->
    let cs := components_from E nodes seen in
    NoDup (concat cs) /\ (forall x, In x (concat cs) -> ~ In x seen) /\
    (forall x, In x nodes -> In x seen \/ In x (concat cs)) /\
    (forall c, In c cs -> exists v, In v nodes /\ c = component E v).
  Proof.
    induction nodes as [|v r IH]; intros seen Hs; cbn [components_from].
    - repeat split; [constructor|intros x []|intros x []|intros c []].
    - destruct (smem v seen) eqn:M.
      + apply smem_in in M. destruct (IH seen Hs) as (H1 & H2 & H3 & H4). repeat split; auto.
        * intros x [<-|Hx]; auto.
        * intros c Hc. destruct (H4 c Hc) as (w & Hw & ->). exists w. split; auto. right; auto.
      + apply smem_false in M.
        assert (Hs' : closed_und (seen ++ component E v)).
        { intros x y Hx Hp. apply in_app_or in Hx. apply in_or_app. destruct Hx as [Hx|Hx]; [left; eapply Hs; eauto|right].
          apply component_in in Hx. apply component_in. apply (path_trans _ _ x); auto. }
        destruct (IH _ Hs') as (H1 & H2 & H3 & H4). cbn [concat]. repeat split.
        * apply NoDup_app_intro; auto; [apply component_nodup|]. intros x Hx Hy. apply (H2 x Hy). apply in_or_app; auto.
        * intros x Hx Hy. apply in_app_or in Hx. destruct Hx as [Hx|Hx]; [|apply (H2 x Hx), in_or_app; auto].
          apply component_in in Hx. apply M. eapply Hs; [exact Hy|]. apply und_sym; auto.
        * intros x [<-|Hx]; [right; apply in_or_app; left; apply component_in; constructor|].
          destruct (H3 x Hx) as [Hy|Hy]; [apply in_app_or in Hy; destruct Hy as [Hy|Hy]; auto; right; apply in_or_app; auto|right; apply in_or_app; auto].
        * intros c [<-|Hc]; [exists v; split; auto; left; auto|]. destruct (H4 c Hc) as (w & Hw & ->). exists w. split; auto. right; auto.
  Qed.
End Comp.
(** the components partition a set of nodes that contains the ends of all edges *)
Lemma components_partition E nodes : (forall a b, In (a, b) E -> In a nodes /\ In b nodes) ->
  let cs := connected_components E nodes in
  NoDup (concat cs) /\ (forall x, In x (concat cs) <-> In x nodes) /\ nonempties cs /\
  (forall c x y, In c cs -> In x c -> In (x, y) E \/ In (y, x) E -> In y c).
Proof.
  intros HE cs. unfold cs, connected_components. destruct (components_spec E nodes [] ltac:(intros x y [])) as (H1 & H2 & H3 & H4).
  assert (P : forall x y, In x nodes -> path (undirected E) x y -> In y nodes).
  { intros x y Hx Hp. induction Hp as [|x y z G1 G2 IH]; auto. apply IH. apply (proj1 (und_in _ _ _)) in G1. destruct G1 as [G1|G1]; apply HE in G1; tauto. }
  repeat split; auto.
  - intros Hx. apply in_concat in Hx. destruct Hx as (c & Hc & Hx). destruct (H4 c Hc) as (v & Hv & ->). apply component_in in Hx. eapply P; eauto.
  - intros Hx. destruct (H3 x Hx) as [[]|]; auto.
  - apply Forall_forall. intros c Hc E0. destruct (H4 c Hc) as (v & Hv & ->). discriminate.
  - intros c x y Hc Hx Hxy. destruct (H4 c Hc) as (v & Hv & ->). apply component_in in Hx. apply component_in. apply (path_trans _ _ x); auto. apply path_edge, und_in. auto.
Qed.

Section Ord.
  Variable ord : list nat -> list nat.
  Hypothesis ord_perm : forall l, Permutation (ord l) l.
  Lemma ord_in l x : In x (ord l) <-> In x l.
  Proof. split; intros H; [eapply Permutation_in; [apply ord_perm|exact H]|eapply Permutation_in; [apply Permutation_sym, ord_perm|exact H]]. Qed.
  Lemma ord_nodup l : NoDup l -> NoDup (ord l).
  Proof. intros H. eapply Permutation_NoDup; [apply Permutation_sym, ord_perm|auto]. Qed.

  (** a cut: at least two nonempty disjoint groups that cover the vertices *)
  Definition is_cut (g : dfg) (gs : list group) : Prop :=
    Permutation (concat gs) (get_vertices g) /\ nonempties gs /\ 2 <= length gs.
  Lemma edge_vertices g a b : In (a, b) (edges g) -> In a (get_vertices g) /\ In b (get_vertices g).
  Proof. intros H. split; apply vertices_in; left; eauto. Qed.
  Lemma xor_cut g gs : xor_holds ord g = Some gs -> is_cut g gs /\
    (forall c x y, In c gs -> In x c -> In (x, y) (edges g) \/ In (y, x) (edges g) -> In y c).
  Proof.
    unfold xor_holds. destruct (Nat.leb_spec 2 (length (connected_components (edges g) (ord (get_vertices g))))) as [L|L]; [|discriminate]. intros [= <-].
    destruct (components_partition (edges g) (ord (get_vertices g))) as (H1 & H2 & H3 & H4).
    - intros a b H. rewrite !ord_in. apply edge_vertices; auto.
    - split; auto. split; auto. apply NoDup_Permutation; auto; [apply vertices_nodup|]. intros x. rewrite H2. apply ord_in.
  Qed.
End Ord.
