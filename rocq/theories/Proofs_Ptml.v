(** The nodes written in a PTML file and the objects read from it. *)
From Coq Require Import String Ascii List Arith ZArith Bool Lia Permutation.
Import ListNotations.
From Verif Require Import Model_Lev Model_Tree Model_Parse Model_Dict Model_DfgFile Model_Pnml Model_Ptml Proofs_Dict Proofs_DfgFile Proofs_Dfg Proofs_Shuffle.
Local Open Scope list_scope.

Lemma size_node {A} o (cs : list (tree A)) : size (Node o cs) = S (list_sum (map size cs)).
Proof. cbn [size]. apply f_equal. induction cs as [|c cs IH]; [reflexivity|]. cbn [map]. unfold list_sum in *. cbn [fold_right]. rewrite <- IH. reflexivity. Qed.
Definition sizes (l : list item) : nat := list_sum (map (fun x => size (snd x)) l).
Lemma sizes_app a b : sizes (a ++ b) = sizes a + sizes b.
Proof. unfold sizes. rewrite map_app. induction a; cbn; [auto|]. unfold list_sum in *. cbn. lia. Qed.
Lemma number_snd {A} p (cs : list A) : forall i, map snd (number p i cs) = cs.
Proof. induction cs as [|c cs IH]; intros i; [reflexivity|]. cbn. rewrite IH. reflexivity. Qed.
Lemma number_in {A} p (cs : list A) : forall i q c, In (q, c) (number p i cs) <-> exists j, q = p ++ [i + j] /\ nth_error cs j = Some c.
Proof.
  induction cs as [|d cs IH]; intros i q c; [cbn; split; [contradiction|intros ([|j] & _ & X); discriminate]|]. cbn [number In]. rewrite IH. split.
  - intros [[= <- <-]|(j & -> & E)]; [exists 0; rewrite Nat.add_0_r; auto|exists (S j); split; [f_equal; f_equal; lia|auto]].
  - intros ([|j] & -> & E); [left; injection E as <-; rewrite Nat.add_0_r; auto|right; exists j; split; [f_equal; f_equal; lia|auto]].
Qed.
Lemma size_pos {A} (t : tree A) : 1 <= size t.
Proof. destruct t; [cbn; lia|rewrite size_node; lia]. Qed.
Lemma sub_sizes x : size (snd x) = S (sizes (sub_items x)).
Proof.
  destruct x as [p [l|o cs]]; unfold sizes, sub_items; [reflexivity|]. cbn [snd fst children]. rewrite size_node, <- (map_map snd size), number_snd. reflexivity.
Qed.
(** The list of nodes is the initial queue followed by the children of the listed nodes. *)
Lemma bfs_eq : forall fuel q, sizes q <= fuel -> bfs fuel q = q ++ flat_map sub_items (bfs fuel q).
Proof.
  induction fuel as [|n IH]; intros q Hq.
  - destruct q as [|x q]; [reflexivity|]. exfalso. change (x :: q) with ([x] ++ q) in Hq. rewrite sizes_app in Hq. unfold sizes in Hq at 1. cbn in Hq. pose proof (size_pos (snd x)). lia.
  - destruct q as [|x q]; [reflexivity|]. cbn [bfs flat_map app]. f_equal. rewrite IH at 1; [rewrite <- app_assoc; reflexivity|].
    change (x :: q) with ([x] ++ q) in Hq. rewrite sizes_app in Hq. unfold sizes in Hq at 1. cbn in Hq. pose proof (sub_sizes x). rewrite sizes_app. lia.
Qed.
(** It contains every node once. *)
Fixpoint dfs (p : list nat) (t : tree text) : list item :=
  (p, t) :: match t with Leaf _ => [] | Node _ cs => (fix go i cs := match cs with [] => [] | c :: r => dfs (p ++ [i]) c ++ go (S i) r end) 0 cs end.
Lemma dfs_eq x : dfs (fst x) (snd x) = x :: flat_map (fun y => dfs (fst y) (snd y)) (sub_items x).
Proof.
  destruct x as [p [l|o cs]]; [reflexivity|]. unfold sub_items. cbn [fst snd children dfs]. f_equal. generalize 0. induction cs as [|c cs IH]; intros i; [reflexivity|]. cbn [number flat_map fst snd]. rewrite <- IH. reflexivity.
Qed.
Lemma bfs_perm : forall fuel q, sizes q <= fuel -> Permutation (bfs fuel q) (flat_map (fun y => dfs (fst y) (snd y)) q).
Proof.
  induction fuel as [|n IH]; intros q Hq.
  - destruct q as [|x q]; [reflexivity|]. exfalso. change (x :: q) with ([x] ++ q) in Hq. rewrite sizes_app in Hq. unfold sizes in Hq at 1. cbn in Hq. pose proof (size_pos (snd x)). lia.
  - destruct q as [|x q]; [reflexivity|]. cbn [bfs flat_map]. rewrite dfs_eq. cbn [app]. constructor. rewrite IH.
    + rewrite flat_map_app. apply Permutation_app_comm.
    + change (x :: q) with ([x] ++ q) in Hq. rewrite sizes_app in Hq. unfold sizes in Hq at 1. cbn in Hq. pose proof (sub_sizes x). rewrite sizes_app. lia.
Qed.
Lemma dfs_prefix t : forall p x, In x (dfs p t) -> exists r, fst x = p ++ r.
Proof.
  induction t as [l|o cs IH] using tree_ind2; intros p x Hx.
  - destruct Hx as [<-|[]]. exists []. rewrite app_nil_r. auto.
  - rewrite (dfs_eq (p, Node o cs) : dfs p (Node o cs) = _) in Hx. destruct Hx as [<-|Hx]; [exists []; rewrite app_nil_r; auto|]. apply in_flat_map in Hx as ([q c] & Hq & Hx). unfold sub_items in Hq. cbn [fst snd children] in *.
    apply number_in in Hq as (j & -> & E). rewrite Forall_forall in IH. apply nth_error_In in E. destruct (IH c E _ _ Hx) as (r & ->). rewrite <- app_assoc. eauto.
Qed.
Lemma dfs_nodup t : forall p, NoDup (map fst (dfs p t)).
Proof.
  induction t as [l|o cs IH] using tree_ind2; intros p; [repeat constructor; auto|]. rewrite (dfs_eq (p, Node o cs) : dfs p (Node o cs) = _). unfold sub_items. cbn [fst snd children map].
  constructor.
  - intros Hin. apply in_map_iff in Hin as (x & Ex & Hx). apply in_flat_map in Hx as ([q c] & Hq & Hx). apply number_in in Hq as (j & -> & E). apply dfs_prefix in Hx as (r & Er). cbn in Er. rewrite Er in Ex.
    apply (f_equal (@length _)) in Ex. rewrite !app_length in Ex. cbn in Ex. lia.
  - generalize 0. induction cs as [|c cs IHc]; intros i; [constructor|]. inversion IH as [|? ? Hc Hcs]; subst. cbn [number flat_map fst snd]. rewrite map_app. 
    assert (D : forall x, In x (map fst (dfs (p ++ [i]) c)) -> ~ In x (map fst (flat_map (fun y => dfs (fst y) (snd y)) (number p (S i) cs)))).
    { intros x Hx Hy. apply in_map_iff in Hx as (y & <- & Hy'). apply dfs_prefix in Hy' as (r & Er). apply in_map_iff in Hy as (z & Ez & Hz). apply in_flat_map in Hz as ([q d] & Hq & Hz). apply number_in in Hq as (j & -> & E). apply dfs_prefix in Hz as (r' & Er'). cbn in Er'. rewrite Er, Er' in Ez.
      rewrite <- !app_assoc in Ez. apply app_inv_head in Ez. cbn in Ez. injection Ez as Ez _. lia. }
    apply NoDup_app_intro; [apply Hc|apply (IHc Hcs (S i))|intros x Hx Hy; apply (D x Hx Hy)].
Qed.
Definition all_nodes (t : tree text) : list item := bfs (size t) [([], t)].
Lemma all_fuel t : sizes [([], t)] <= size t.
Proof. unfold sizes. cbn. lia. Qed.
Lemma all_eq t : all_nodes t = ([], t) :: flat_map sub_items (all_nodes t).
Proof. unfold all_nodes. rewrite bfs_eq at 1 by apply all_fuel. reflexivity. Qed.
Lemma all_nodup t : NoDup (map fst (all_nodes t)).
Proof. unfold all_nodes. eapply Permutation_NoDup; [apply Permutation_map, Permutation_sym, bfs_perm, all_fuel|]. cbn [flat_map fst snd]. rewrite app_nil_r. apply dfs_nodup. Qed.
Lemma all_sub t x y : In x (all_nodes t) -> In y (sub_items x) -> In y (all_nodes t).
Proof. intros Hx Hy. rewrite all_eq. right. apply in_flat_map. eauto. Qed.
Lemma sub_parent x y : In y (sub_items x) -> removelast (fst y) = fst x.
Proof. destruct y as [q c]. unfold sub_items. intros H. apply number_in in H as (j & -> & _). cbn [fst]. apply removelast_last. Qed.
(** only the root equals the whole tree *)
Lemma eqb_size : forall t u : tree text, tree_eqb keqb t u = true -> size t = size u.
Proof.
  induction t as [[a|]|o cs IH] using tree_ind2; intros [[b|]|o' ds]; cbn [tree_eqb]; try discriminate; auto.
  - destruct ds; [auto|discriminate].
  - destruct cs; discriminate.
  - destruct cs; [auto|discriminate].
  - destruct cs as [|c cs]; [destruct ds; [auto|discriminate]|]. destruct ds as [|d ds]; [cbn; rewrite andb_false_r; discriminate|]. intros E. apply andb_true_iff in E as [_ E]. rewrite !size_node. f_equal.
    inversion IH as [|? ? Hc Hcs]; subst. apply andb_true_iff in E as [E1 E2]. cbn [map]. unfold list_sum. cbn [fold_right]. rewrite (Hc d E1). f_equal. clear -E2 Hcs.
    revert ds E2. induction cs as [|x cs IHc]; intros [|y ds] E; try discriminate; auto. apply Forall_cons_iff in Hcs as [Hx Hcs]. apply andb_true_iff in E as [E1 E2]. cbn [map fold_right]. rewrite (Hx y E1), (IHc Hcs ds E2). reflexivity.
Qed.
Lemma all_small t x : In x (all_nodes t) -> x = ([], t) \/ size (snd x) < size t.
Proof.
  intros Hx. rewrite all_eq in Hx. destruct Hx as [<-|Hx]; [auto|right].
  assert (G : forall n x, length (fst x) <= n -> In x (all_nodes t) -> size (snd x) <= size t).
  { induction n as [|n IH]; intros y Hl Hy; rewrite all_eq in Hy; destruct Hy as [<-|Hy]; auto; apply in_flat_map in Hy as (z & Hz & Hy).
    - destruct y as [q c]. unfold sub_items in Hy. apply number_in in Hy as (j & -> & _). cbn in Hl. rewrite app_length in Hl. cbn in Hl. lia.
    - assert (size (snd y) < size (snd z)).
      { rewrite (sub_sizes z). assert (size (snd y) <= sizes (sub_items z)); [|lia]. clear -Hy. induction (sub_items z) as [|w l IHl]; [destruct Hy|]. change (w :: l) with ([w] ++ l). rewrite sizes_app. unfold sizes at 1. cbn. destruct Hy as [<-|Hy]; [lia|]. specialize (IHl Hy). lia. }
      assert (size (snd z) <= size t); [|lia]. apply IH; auto. destruct y as [q c]. unfold sub_items in Hy. apply number_in in Hy as (j & -> & _). cbn in Hl. rewrite app_length in Hl. cbn in Hl. lia. }
  apply in_flat_map in Hx as (z & Hz & Hy). pose proof (G _ z (le_n _) Hz).
  rewrite (sub_sizes z) in H. assert (size (snd x) <= sizes (sub_items z)); [|lia]. clear -Hy. induction (sub_items z) as [|w l IHl]; [destruct Hy|]. change (w :: l) with ([w] ++ l). rewrite sizes_app. unfold sizes at 1. cbn. destruct Hy as [<-|Hy]; [lia|]. specialize (IHl Hy). lia.
Qed.
Lemma eqb_refl_tree (t : tree text) : tree_eqb keqb t t = true.
Proof.
  induction t as [[a|]|o cs IH] using tree_ind2; cbn [tree_eqb]; auto; [destruct (keqb_spec a a); congruence|]. destruct cs as [|c cs]; auto. apply andb_true_iff. split; [destruct o; auto|]. inversion IH as [|? ? Hc Hcs]; subst. rewrite Hc. cbn [andb]. clear -Hcs. induction Hcs as [|x l Hx Hl IHl]; auto. rewrite Hx. exact IHl.
Qed.
Lemma edges_are t : filter (fun x => negb (tree_eqb keqb (snd x) t)) (all_nodes t) = flat_map sub_items (all_nodes t).
Proof.
  pose proof (all_nodup t) as N. assert (S : forall x, In x (flat_map sub_items (all_nodes t)) -> size (snd x) < size t).
  { intros x Hx. destruct (all_small t x) as [->|]; auto; [rewrite all_eq; right; auto|]. exfalso. rewrite all_eq in N. cbn [map fst] in N. inversion N; subst. apply H1. apply in_map_iff. exists ([], t). auto. }
  rewrite all_eq at 1. cbn [filter snd]. rewrite eqb_refl_tree. cbn [negb]. induction (flat_map sub_items (all_nodes t)) as [|x l IH]; [reflexivity|]. cbn [filter].
  destruct (tree_eqb keqb (snd x) t) eqn:E; [exfalso; apply eqb_size in E; specialize (S x (or_introl eq_refl)); lia|]. cbn [negb]. f_equal. apply IH. intros y Hy. apply S. right. auto.
Qed.
