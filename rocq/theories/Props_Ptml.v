(** C91: saving and loading process trees. *)
From Coq Require Import String Ascii List Arith ZArith Bool Lia Permutation.
Import ListNotations.
From Verif Require Import Model_Lev Model_Tree Spec_Tree Model_Parse Model_Dict Model_DfgFile Model_Pnml Model_Ptml Spec_Ptml Proofs_Dict Proofs_DfgFile Proofs_Dfg Proofs_Shuffle Proofs_Tree2 Proofs_Ptml.
Local Open Scope list_scope.

Lemma nodes_ind t (Q : item -> Prop) : Q ([], t) -> (forall x y, In x (all_nodes t) -> Q x -> In y (sub_items x) -> Q y) -> forall x, In x (all_nodes t) -> Q x.
Proof.
  intros H0 HS. assert (G : forall n x, length (fst x) <= n -> In x (all_nodes t) -> Q x); [|intros x; apply (G _ x (le_n _))].
  induction n as [|n IH]; intros y Hl Hy; rewrite all_eq in Hy; destruct Hy as [<-|Hy]; auto; apply in_flat_map in Hy as (z & Hz & Hy).
  - destruct y as [q c]. unfold sub_items in Hy. apply number_in in Hy as (j & -> & _). cbn in Hl. rewrite app_length in Hl. cbn in Hl. lia.
  - apply (HS z y); auto. apply IH; auto. destruct y as [q c]. unfold sub_items in Hy. apply number_in in Hy as (j & -> & _). cbn in Hl. rewrite app_length in Hl. cbn in Hl. lia.
Qed.
Lemma everywhere_nodes t P : everywhere P t -> forall x, In x (all_nodes t) -> P (snd x).
Proof.
  intros E x Hx. assert (H : everywhere P (snd x)); [|destruct H; auto]. revert x Hx. apply nodes_ind; [exact E|]. intros x [q c] _ Hx Hy. apply number_in in Hy as (j & _ & Hj). apply nth_error_In in Hj. cbn [snd].
  destruct Hx as [l|o cs]; [destruct Hj|]. cbn in Hj. rewrite Forall_forall in H0. auto.
Qed.
Lemma dfs_length t : forall p, length (dfs p t) = size t.
Proof.
  induction t as [l|o cs IH] using tree_ind2; intros p; [reflexivity|]. rewrite (dfs_eq (p, Node o cs) : dfs p (Node o cs) = _), size_node. cbn [length]. f_equal. unfold sub_items. cbn [fst snd children]. generalize 0.
  induction cs as [|c cs IHc]; intros i; [reflexivity|]. apply Forall_cons_iff in IH as [Hc Hcs]. cbn [number flat_map fst snd map]. rewrite app_length, Hc, IHc by auto. reflexivity.
Qed.
Lemma all_length t : length (all_nodes t) = size t.
Proof. unfold all_nodes. rewrite (Permutation_length (bfs_perm (size t) _ (all_fuel t))). cbn [flat_map fst snd]. rewrite app_nil_r. apply dfs_length. Qed.

(** removing the third child of loops *)
Fixpoint cut {A} (t : tree A) : tree A :=
  match t with Leaf l => Leaf l | Node o cs => Node o (match o with Loop => firstn 2 (map cut cs) | _ => map cut cs end) end.
Lemma cut_pad {A} (t : tree A) : writable t -> cut (pad t) = t.
Proof.
  induction t as [l|o cs IH] using tree_ind2; intros W; [reflexivity|]. inversion W as [|? ? W1 W2]; subst. cbn [pad cut].
  assert (E : map cut (map pad cs) = cs). { rewrite map_map. clear W W1. induction cs as [|c cs IHc]; [reflexivity|]. apply Forall_cons_iff in IH as [Hc Hcs]. apply Forall_cons_iff in W2 as [Wc Wcs]. cbn. rewrite Hc, IHc; auto. }
  destruct o; try (rewrite E; reflexivity). rewrite W1. change (2 <? 3) with true. cbv iota. rewrite map_app, E. destruct cs as [|a [|b [|]]]; try discriminate. reflexivity.
Qed.
Definition padded_ok (t : tree text) : Prop := match t with Node Interleaving _ => False | Node Loop cs => exists a b, cs = [a; b; Leaf None] | _ => True end.
Lemma pad_ok t : writable t -> everywhere padded_ok (pad t).
Proof.
  induction t as [l|o cs IH] using tree_ind2; intros W; [repeat constructor|]. inversion W as [|? ? W1 W2]; subst. cbn [pad].
  assert (F : Forall (everywhere padded_ok) (map pad cs)). { apply Forall_forall. intros x Hx. apply in_map_iff in Hx as (c & <- & Hc). rewrite Forall_forall in IH, W2. apply (IH c Hc). apply (W2 c Hc). }
  constructor; [|destruct o; auto].
  - destruct o; try exact I; [|destruct W1]. rewrite W1. destruct cs as [|a [|b [|]]]; try discriminate. exists (pad a), (pad b). reflexivity.
  - destruct (length cs <? 3); auto. apply Forall_app. split; auto. constructor; [constructor; exact I|constructor].
Qed.

Section Read.
  Variables (uid eid : list nat -> text) (t : tree text).
  Hypothesis uid_inj : forall p q, uid p = uid q -> p = q.
  Hypothesis ok : everywhere padded_ok t.
  Let nodes := all_nodes t.
  Definition rf (x : item) : ref := (0, uid (fst x)).
  Definition op_of (u : tree text) : option operator := match u with Leaf _ => None | Node o _ => Some o end.
  Definition lab_of (u : tree text) : option text := match u with Leaf l => l | Node _ _ => None end.
  Lemma rf_inj x y : In x nodes -> In y nodes -> rf x = rf y -> x = y.
  Proof.
    intros Hx Hy [= E]. apply uid_inj in E. pose proof (all_nodup t) as N. fold nodes in N. clear -Hx Hy E N. induction nodes as [|z l IH]; [destruct Hx|]. inversion N as [|? ? Hn N']; subst.
    destruct Hx as [->|Hx], Hy as [->|Hy]; auto; exfalso; apply Hn; [rewrite E|rewrite <- E]; apply in_map; auto.
  Qed.
  Lemma node_read x : padded_ok (snd x) -> exists e, node_xml uid x = Some e /\ forall h, read_elem h e = Some (d_set h (rf x) (Cell (op_of (snd x)) (lab_of (snd x)) [] None)).
  Proof. destruct x as [p [[l|]|[]]]; cbn [snd padded_ok]; intros H; try contradiction; (eexists; split; [reflexivity|]); intros h; reflexivity. Qed.
  Lemma nodes_read : forall l h, (forall x, In x l -> padded_ok (snd x)) -> NoDup (map rf l) -> (forall x, In x l -> ~ In (rf x) (map fst h)) ->
    exists els, map_opt (node_xml uid) l = Some els /\ read_elems h els = Some (h ++ map (fun x => (rf x, Cell (op_of (snd x)) (lab_of (snd x)) [] None)) l).
  Proof.
    induction l as [|x l IH]; intros h Hok Hn Hf; [exists []; cbn; rewrite app_nil_r; auto|]. inversion Hn as [|? ? Hni Hn']; subst. destruct (node_read x) as (e & E & R); [apply Hok; left; auto|].
    destruct (IH (d_set h (rf x) (Cell (op_of (snd x)) (lab_of (snd x)) [] None))) as (els & E2 & R2); [intros; apply Hok; right; auto|auto| |].
    - rewrite d_set_new by (apply Hf; left; auto). intros y Hy. rewrite map_app, in_app_iff. intros [X|[X|[]]]; [apply (Hf y); [right; auto|auto]|]. cbn in X. apply Hni. rewrite X. apply in_map; auto.
    - exists (e :: els). cbn. rewrite E, E2. split; [auto|]. rewrite R, R2. rewrite d_set_new by (apply Hf; left; auto). rewrite <- app_assoc. reflexivity.
  Qed.
  (** the objects while edges are read *)
  Definition state (K : item -> list ref) (h : heap) : Prop :=
    map fst h = map rf nodes /\ forall x, In x nodes -> exists par, d_get h (rf x) = Some (Cell (op_of (snd x)) (lab_of (snd x)) (K x) par).
  Definition edges_of (E : list item) (x : item) : list ref := map rf (filter (fun y : item => keqb (removelast (fst y)) (fst x)) E).
  Lemma set_state K h x c : state K h -> In x nodes -> c_op c = op_of (snd x) -> c_label c = lab_of (snd x) ->
    state (fun y => if keqb (fst x) (fst y) then c_kids c else K y) (d_set h (rf x) c).
  Proof.
    intros [S1 S2] Hx A B. split.
    - pose proof (d_keys_set h (rf x) c) as D. unfold d_keys in D. rewrite D. destruct (existsb _ _) eqn:X; auto. exfalso. assert (Y : existsb (fun y => keqb y (rf x)) (map fst h) = true); [|congruence]. apply existsb_keqb. rewrite S1. apply in_map. auto.
    - intros y Hy. rewrite d_get_set. destruct (keqb_spec (rf x) (rf y)) as [E|E].
      + apply rf_inj in E as <-; auto. rewrite keqb_refl. destruct c as [o l k p]. cbn in *. subst. eauto.
      + destruct (keqb_spec (fst x) (fst y)) as [E'|E']; [exfalso; apply E; unfold rf; rewrite E'; auto|]. apply S2. auto.
  Qed.
  Lemma state_ext K K' h : (forall x, In x nodes -> K x = K' x) -> state K h -> state K' h.
  Proof. intros E [A B]. split; auto. intros x Hx. rewrite <- E by auto. auto. Qed.
  Lemma edges_read : forall E done h, (forall y, In y E -> In y nodes /\ exists z, In z nodes /\ removelast (fst y) = fst z) -> state (edges_of done) h ->
    exists h', read_elems h (map (edge_xml uid eid) E) = Some h' /\ state (edges_of (done ++ E)) h'.
  Proof.
    induction E as [|y E IH]; intros done h HE S; [exists h; rewrite app_nil_r; auto|]. cbn [map read_elems]. destruct (HE y (or_introl eq_refl)) as (Hy & z & Hz & Ez).
    assert (R : exists h1, read_elem h (edge_xml uid eid y) = Some h1 /\ state (edges_of (done ++ [y])) h1).
    { unfold read_elem, edge_xml. change (attr _ (tx "name")) with (@None text). change (attr _ (tx "sourceId")) with (Some (uid (removelast (fst y)))). change (attr _ (tx "targetId")) with (Some (uid (fst y))). cbv iota. rewrite Ez. fold (rf z). fold (rf y).
      destruct (proj2 S z Hz) as (pz & Dz). destruct (proj2 S y Hy) as (py & Dy). rewrite Dz, Dy. cbv iota zeta. cbn [c_kids].
      pose proof (set_state _ _ z (with_kids (Cell (op_of (snd z)) (lab_of (snd z)) (edges_of done z) pz) (edges_of done z ++ [rf y])) S Hz eq_refl eq_refl) as S1. cbn [c_kids with_kids] in *.
      destruct (proj2 S1 y Hy) as (py' & Dy'). cbn [c_op c_label c_parent] in *. unfold with_kids in Dy' |- *. cbn [c_op c_label c_kids c_parent] in *. match type of Dy' with _ = ?v => match goal with |- context [match ?d with Some _ => _ | None => _ end] => replace d with v by (symmetry; exact Dy') end end. eexists. split; [reflexivity|].
      pose proof (set_state _ _ y (with_parent (Cell (op_of (snd y)) (lab_of (snd y)) (if keqb (fst z) (fst y) then edges_of done z ++ [rf y] else edges_of done y) py') (Some (rf z))) S1 Hy eq_refl eq_refl) as S2.
      eapply state_ext; [|exact S2]. intros x Hx. cbn [c_kids with_parent]. unfold edges_of. rewrite filter_app, map_app. cbn [filter]. rewrite Ez.
      destruct (keqb_spec (fst y) (fst x)) as [E1|E1].
      - rewrite <- E1. destruct (keqb_spec (fst z) (fst y)) as [E2|E2]; [rewrite E2; cbn; reflexivity|cbn; rewrite app_nil_r; reflexivity].
      - destruct (keqb_spec (fst z) (fst x)) as [E2|E2]; [rewrite E2; reflexivity|cbn; rewrite app_nil_r; reflexivity]. }
    destruct R as (h1 & -> & S1). destruct (IH (done ++ [y]) h1) as (h' & R & S'); [intros; apply HE; right; auto|auto|]. exists h'. split; auto. rewrite <- app_assoc in S'. exact S'.
  Qed.
  Lemma edges_all x : In x nodes -> edges_of (flat_map sub_items nodes) x = map rf (sub_items x).
  Proof.
    intros Hx. unfold edges_of. f_equal. pose proof (all_nodup t) as N. fold nodes in N. clear -Hx N.
    assert (G : forall l : list item, (forall y, In y l -> fst y <> fst x) -> filter (fun y : item => keqb (removelast (fst y)) (fst x)) (flat_map sub_items l) = []).
    { induction l as [|y l IH]; intros Hl; [reflexivity|]. cbn [flat_map]. rewrite filter_app, IH by (intros; apply Hl; right; auto). rewrite app_nil_r.
      assert (forall z, In z (sub_items y) -> keqb (removelast (fst z)) (fst x) = false) by (intros z Hz; apply sub_parent in Hz; rewrite Hz; apply keqb_neq; apply Hl; left; auto).
      induction (sub_items y) as [|z k IHk]; [reflexivity|]. cbn [filter]. rewrite H by (left; auto). apply IHk. intros; apply H; right; auto. }
    induction nodes as [|y l IH]; [destruct Hx|]. cbn [map] in N. inversion N as [|? ? Hn N']; subst. cbn [flat_map]. rewrite filter_app. destruct Hx as [->|Hx].
    - rewrite G by (intros y Hy E; apply Hn; rewrite <- E; apply in_map; auto). rewrite app_nil_r.
      assert (forall z, In z (sub_items x) -> keqb (removelast (fst z)) (fst x) = true) by (intros z Hz; apply sub_parent in Hz; rewrite Hz; apply keqb_refl).
      clear IH. induction (sub_items x) as [|z k IHk]; [reflexivity|]. cbn [filter]. rewrite H by (left; auto). f_equal. apply IHk. intros; apply H; right; auto.
    - rewrite IH by auto. specialize (G [y]). cbn [flat_map In] in G. rewrite app_nil_r in G. rewrite G; [reflexivity|]. intros w [<-|[]] E. apply Hn. rewrite E. apply in_map. auto.
  Qed.
  Definition kept (u : tree text) {X} (l : list X) : list X := match u with Node Loop _ => firstn 2 l | _ => l end.
  Lemma fix_state K h x : state K h -> In x nodes -> (forall y, In y nodes -> K y = map rf (sub_items y) \/ K y = kept (snd y) (map rf (sub_items y))) ->
    state (fun y => if keqb (fst x) (fst y) then kept (snd x) (map rf (sub_items x)) else K y) (fix_loop h (rf x)).
  Proof.
    intros S Hx HK. destruct (proj2 S x Hx) as (par & D). unfold fix_loop. rewrite D. cbn [c_op c_kids].
    assert (same : K x = kept (snd x) (map rf (sub_items x)) -> state (fun y => if keqb (fst x) (fst y) then kept (snd x) (map rf (sub_items x)) else K y) h).
    { intros E. eapply state_ext; [|exact S]. intros y Hy. cbv beta. destruct (keqb_spec (fst x) (fst y)) as [E'|]; auto. assert (x = y) as <- by (apply rf_inj; auto; unfold rf; rewrite E'; auto). auto. }
    pose proof (everywhere_nodes t _ ok x Hx) as OK.
    destruct (snd x) as [l|o cs] eqn:Ex; [apply same; destruct (HK x Hx) as [E|E]; try rewrite Ex in E; exact E|]. cbn [op_of].
    destruct o; try (apply same; destruct (HK x Hx) as [E|E]; try rewrite Ex in E; exact E).
    destruct OK as (a & b & ->). destruct x as [p u]. cbn [snd fst] in *. subst u. unfold sub_items in same, HK |- *. cbn [fst snd children number map] in same |- *.
    destruct (HK _ Hx) as [E|E]; cbn [fst snd children number map kept firstn] in E; rewrite E; [|apply same; exact E].
    assert (H3 : In (p ++ [2], Leaf None) nodes) by (apply (all_sub t (p, Node Loop [a; b; Leaf None])); [auto|cbn; auto]).
    destruct (proj2 S _ H3) as (p3 & D3). cbn [snd op_of lab_of] in D3. rewrite D3. rewrite D.
    apply (set_state K h (p, Node Loop [a; b; Leaf None]) (with_kids (Cell (op_of (Node Loop [a; b; Leaf None])) (lab_of (Node Loop [a; b; Leaf None])) (K (p, Node Loop [a; b; Leaf None])) par) [rf (p ++ [0], a); rf (p ++ [1], b)])); auto.
  Qed.
  Lemma fix_all : forall l K h, (forall x, In x l -> In x nodes) -> (forall y, In y nodes -> K y = map rf (sub_items y) \/ K y = kept (snd y) (map rf (sub_items y))) -> state K h ->
    (forall x, In x nodes -> ~ In x l -> K x = kept (snd x) (map rf (sub_items x))) ->
    state (fun y => kept (snd y) (map rf (sub_items y))) (fold_left fix_loop (map rf l) h).
  Proof.
    induction l as [|x l IH]; intros K h Hl HK S HD; [eapply state_ext; [|exact S]; intros y Hy; apply HD; auto|]. cbn [map fold_left].
    assert (Hx : In x nodes) by (apply Hl; left; auto). apply (IH (fun y => if keqb (fst x) (fst y) then kept (snd x) (map rf (sub_items x)) else K y)); [intros; apply Hl; right; auto| |apply fix_state; auto|].
    - intros y Hy. cbv beta. destruct (keqb_spec (fst x) (fst y)) as [E|]; auto. right. assert (x = y) as <- by (apply rf_inj; auto; unfold rf; rewrite E; auto). auto.
    - intros y Hy Hn. destruct (keqb_spec (fst x) (fst y)) as [E|E]; [assert (x = y) as <- by (apply rf_inj; auto; unfold rf; rewrite E; auto); auto|]. apply HD; auto. intros [->|X]; auto.
  Qed.
  Lemma unfold_ok h : state (fun y => kept (snd y) (map rf (sub_items y))) h -> forall u p fuel, In (p, u) nodes -> size u <= fuel -> unfold_ref fuel h (rf (p, u)) = Some (cut u).
  Proof.
    intros S. induction u as [l|o cs IH] using tree_ind2; intros p fuel Hin Hf; (destruct fuel as [|n]; [exfalso; match type of Hf with size ?v <= 0 => pose proof (size_pos v) end; lia|]); destruct (proj2 S _ Hin) as (par & D); cbn [unfold_ref]; rewrite D; cbn [snd op_of lab_of c_op c_label c_kids].
    - reflexivity.
    - rewrite size_node in Hf.
      assert (G : map_opt (unfold_ref n h) (map rf (sub_items (p, Node o cs))) = Some (map cut cs)).
      { unfold sub_items. cbn [fst snd children]. assert (Hs : forall y, In y (number p 0 cs) -> In y nodes) by (intros y Hy; apply (all_sub t (p, Node o cs)); auto). clear D Hin. revert Hs. generalize 0. induction cs as [|c cs IHc]; intros i Hs; [reflexivity|].
        apply Forall_cons_iff in IH as [Hc Hcs]. cbn [map] in Hf. unfold list_sum in Hf. cbn [fold_right] in Hf. cbn [number map map_opt]. rewrite (Hc (p ++ [i]) n) by (try lia; apply Hs; left; auto). rewrite (IHc Hcs); [reflexivity|unfold list_sum; lia|intros y Hy; apply Hs; right; auto]. }
      unfold kept. destruct o; try (rewrite G; reflexivity).
      cbn [cut]. set (L := map rf (sub_items (p, Node Loop cs))) in *. clearbody L. clear -G. revert G. generalize (map cut cs). intros M G.
      assert (X : forall (f : ref -> option (tree text)) k L M, map_opt f L = Some M -> map_opt f (firstn k L) = Some (firstn k M)).
      { intros f k. induction k as [|k IHk]; intros L0 M0 E; [reflexivity|]. destruct L0 as [|r L0]; [cbn in E; injection E as <-; reflexivity|]. cbn in E. destruct (f r) eqn:Er; [|discriminate]. destruct (map_opt f L0) eqn:EL; [|discriminate]. injection E as <-. cbn. rewrite Er, (IHk _ _ EL). reflexivity. }
      rewrite (X _ 2 _ _ G). reflexivity.
  Qed.
End Read.

(** Reading back a written tree returns it, with the children of parallel and choice nodes sorted. *)
Theorem C91_ptml_roundtrip : forall hash uid eid name id t, (forall p q, uid p = uid q -> p = q) -> writable t ->
  exists file, export_tree uid eid name id t = Some file /\ import_tree hash file = Some (tree_sort hash t).
Proof.
  intros hash uid eid name id t Hu W. pose proof (pad_ok t W) as OK. unfold export_tree. fold (all_nodes (pad t)). rewrite edges_are.
  assert (N : NoDup (map (rf uid) (all_nodes (pad t)))).
  { pose proof (all_nodup (pad t)) as N. replace (map (rf uid) (all_nodes (pad t))) with (map (fun p => (0, uid p)) (map fst (all_nodes (pad t)))) by (rewrite map_map; reflexivity). apply FinFun.Injective_map_NoDup; auto. intros p q [= E]. auto. }
  destruct (nodes_read uid (all_nodes (pad t)) []) as (els & E & R); [apply everywhere_nodes; auto|auto|auto|]. rewrite E. cbn [option_map]. eexists. split; [reflexivity|].
  unfold import_tree. cbn [kids last_such fold_left]. change (attr _ (tx "root")) with (Some (uid [])). cbv iota.
  assert (RA : forall a b h, read_elems h (a ++ b) = match read_elems h a with Some h' => read_elems h' b | None => None end).
  { induction a as [|e a IHa]; intros b h; [reflexivity|]. cbn. destruct (read_elem h e); auto. }
  rewrite RA, R. cbn [app]. set (h0 := map (fun x => (rf uid x, Cell (op_of (snd x)) (lab_of (snd x)) [] None)) (all_nodes (pad t))).
  assert (S0 : state uid (pad t) (edges_of uid []) h0).
  { split; [unfold h0; rewrite map_map; reflexivity|]. intros x Hx. exists None. apply d_in_get; [unfold d_keys, h0; rewrite map_map; exact N|]. unfold h0. apply in_map_iff. exists x. auto. }
  destruct (edges_read uid eid (pad t) Hu (flat_map sub_items (all_nodes (pad t))) [] h0) as (h1 & R1 & S1); [|exact S0|].
  { intros y Hy. split; [rewrite all_eq; right; auto|]. apply in_flat_map in Hy as (z & Hz & Hy). exists z. split; auto. apply sub_parent; auto. }
  rewrite R1. cbn [app] in S1. apply (state_ext uid (pad t) _ (fun x => map (rf uid) (sub_items x))) in S1; [|intros x Hx; apply edges_all; auto].
  rewrite (proj1 S1).
  assert (S2 : state uid (pad t) (fun y => kept (snd y) (map (rf uid) (sub_items y))) (fold_left fix_loop (map (rf uid) (all_nodes (pad t))) h1)).
  { apply (fix_all uid (pad t) Hu OK _ (fun x => map (rf uid) (sub_items x))); auto. intros x Hx Hn. contradiction. }
  rewrite (unfold_ok uid (pad t) _ S2 (pad t) [] _).
  - cbn [option_map]. rewrite cut_pad; auto.
  - rewrite all_eq. left. reflexivity.
  - rewrite <- (map_length fst), (proj1 S2), map_length, all_length. lia.
Qed.
Print Assumptions C91_ptml_roundtrip.
(** Hence the loaded tree has the same traces. *)
Theorem C91_ptml_language : forall hash uid eid name id t, (forall p q, uid p = uid q -> p = q) -> writable t ->
  exists file t', export_tree uid eid name id t = Some file /\ import_tree hash file = Some t' /\ same_lang t t'.
Proof. intros hash uid eid name id t Hu W. destruct (C91_ptml_roundtrip hash uid eid name id t Hu W) as (f & A & B). exists f, (tree_sort hash t). split; auto. split; auto. apply tree_sort_lang. Qed.
Print Assumptions C91_ptml_language.

(** Distinct identifiers exist. *)
Definition ex_uid (p : list nat) : text := flat_map (fun i => repeat (ascii_of_nat 97) i ++ [ascii_of_nat 98]) p.
Example ex_uid_inj : forall p q, ex_uid p = ex_uid q -> p = q.
Proof.
  assert (R : forall i j u v, repeat (ascii_of_nat 97) i ++ ascii_of_nat 98 :: u = repeat (ascii_of_nat 97) j ++ ascii_of_nat 98 :: v -> i = j /\ u = v).
  { induction i as [|i IH]; intros [|j] u v E; cbn [repeat app] in E; [injection E as <-; auto|discriminate|discriminate|]. injection E as E. apply IH in E as [-> ->]. auto. }
  induction p as [|i p IH]; intros [|j q] E; [auto| | |]; unfold ex_uid in E; cbn [flat_map] in E.
  - destruct j; discriminate.
  - destruct i; discriminate.
  - rewrite <- !app_assoc in E. cbn [app] in E. apply R in E as [-> E]. rewrite (IH q); auto.
Qed.
Definition lf (s : string) : tree text := Leaf (Some (tx s)).
Definition ex_pt : tree text := Node Sequence [Node Loop [lf "a"; Leaf None]; Node Xor [Node Parallel [lf "b"; lf "a"]; Node Loop [lf "c"; Node Or [lf "d"; lf "e"]]]].
Example ex_pt_writable : writable ex_pt.
Proof. repeat (constructor; cbn; auto). Qed.
Example ex_pt_read : exists f, export_tree ex_uid ex_uid [] [] ex_pt = Some f /\ import_tree (fun l => Z.of_nat (length l)) f = Some ex_pt.
Proof. eexists. split; [reflexivity|]. vm_compute. reflexivity. Qed.
(** A tree with the interleaving operator cannot be written. *)
Theorem C91_interleaving_unwritable : forall uid eid name id t, ~ no_interleaving t -> export_tree uid eid name id t = None.
Proof.
  intros uid eid name id t Hn. unfold export_tree. fold (all_nodes (pad t)). destruct (map_opt (node_xml uid) (all_nodes (pad t))) as [els|] eqn:E; [|reflexivity]. exfalso. apply Hn.
  assert (H : forall x, In x (all_nodes (pad t)) -> match snd x with Node Interleaving _ => False | _ => True end).
  { intros x Hx. revert els E. induction (all_nodes (pad t)) as [|y l IH]; [destruct Hx|]. intros els E. cbn in E. destruct (node_xml uid y) eqn:Ey; [|discriminate]. destruct (map_opt (node_xml uid) l) eqn:El; [|discriminate]. destruct Hx as [->|Hx]; [|eapply IH; eauto]. destruct x as [p [|[]]]; cbn in *; auto; discriminate. }
  assert (G : forall u p, In (p, pad u) (all_nodes (pad t)) -> no_interleaving u).
  { induction u as [l|o cs IH] using tree_ind2; intros p Hp; [repeat constructor|]. constructor; [specialize (H _ Hp); cbn [snd pad] in H; destruct o; auto|]. apply Forall_forall. intros c Hc. rewrite Forall_forall in IH.
    apply In_nth_error in Hc as Hj. destruct Hj as (j & Hj). apply (IH c Hc (p ++ [j])). apply (all_sub _ (p, pad (Node o cs))); auto. unfold sub_items. apply number_in. exists j. split; [reflexivity|]. cbn [snd pad children].
    assert (J : nth_error (map pad cs) j = Some (pad c)) by (apply map_nth_error; auto). destruct o; auto. destruct (length cs <? 3); auto. rewrite nth_error_app1; auto. rewrite map_length. apply nth_error_Some. congruence. }
  apply (G t []). rewrite all_eq. left. reflexivity.
Qed.
Print Assumptions C91_interleaving_unwritable.
(** Loops with a third (exit) child that is not silent: at the root the exit is lost, inside a sequence the loop and its exit move to the end. *)
Theorem C91_loop_exit_lost_refuted : exists f, export_tree ex_uid ex_uid [] [] (Node Loop [lf "a"; lf "b"; lf "c"]) = Some f /\
  import_tree (fun _ => 0%Z) f = Some (Node Loop [lf "a"; lf "b"]).
Proof. eexists. split; [reflexivity|]. vm_compute. reflexivity. Qed.
Print Assumptions C91_loop_exit_lost_refuted.
Theorem C91_loop_exit_moved_refuted : exists f, export_tree ex_uid ex_uid [] [] (Node Sequence [Node Loop [lf "a"; lf "b"; lf "c"]; lf "d"]) = Some f /\
  import_tree (fun _ => 0%Z) f = Some (Node Sequence [lf "d"; Node Sequence [Node Loop [lf "a"; lf "b"]; lf "c"]]).
Proof. eexists. split; [reflexivity|]. vm_compute. reflexivity. Qed.
Print Assumptions C91_loop_exit_moved_refuted.
