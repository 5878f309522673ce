(** The net fragment of a POWL model is a block for its language. *)
From Coq Require Import List Arith Lia Bool ZArith Permutation Relation_Operators.
Import ListNotations.
From Verif Require Import Model_Petri Model_Tree Model_TreeNet Model_Rel Spec_Rel Proofs_Rel Model_Powl Spec_Powl
  Proofs_Shuffle Proofs_Block Proofs_Block2 Proofs_TreeNet Proofs_TreeNet2 Proofs_Po Proofs_Powl1.

Section PowlInd.
  Variable P : powl -> Prop.
  Hypothesis Hl : forall l, P (PLeaf l).
  Hypothesis Hx : forall cs, Forall P cs -> P (PXor cs).
  Hypothesis Hp : forall d r, P d -> P r -> P (PLoop d r).
  Hypothesis Ho : forall cs e, Forall P cs -> P (PPo cs e).
  Fixpoint powl_ind2 (t : powl) : P t :=
    match t with
    | PLeaf l => Hl l
    | PXor cs => Hx cs ((fix go cs := match cs return Forall P cs with [] => @Forall_nil _ P | c :: r => @Forall_cons _ P c r (powl_ind2 c) (go r) end) cs)
    | PLoop d r => Hp d r (powl_ind2 d) (powl_ind2 r)
    | PPo cs e => Ho cs e ((fix go cs := match cs return Forall P cs with [] => @Forall_nil _ P | c :: r => @Forall_cons _ P c r (powl_ind2 c) (go r) end) cs)
    end.
End PowlInd.

Ltac pp := cbn [next_place next_trans new_place new_trans] in *.
Ltac ww := unfold within in *; pp; lia.
Ltac oi := auto 9 using outp_l, inp_l, outp_r, inp_r, outp_cons, inp_cons.

(** * What the loop over the children makes *)
Record piece := Piece { pc_x : pnode; pc_lo : nat; pc_mid : nat; pc_hi : nat }.
Definition optional (b : bool) (l : list nat) : Prop := if b then exists p, l = [p] else l = [].
Record piece_ok (starts ends : list nat) (a : piece) : Prop := {
  po_in : optional (mem (pn_k (pc_x a)) starts) (pn_in (pc_x a));
  po_out : optional (mem (pn_k (pc_x a)) ends) (pn_out (pc_x a));
  po_nodup : NoDup (pn_in (pc_x a) ++ pn_out (pc_x a));
  po_inb : forall p, In p (pn_in (pc_x a)) \/ In p (pn_out (pc_x a)) -> pc_lo a <= p < pc_mid a /\ p < pn_sta (pc_x a);
  po_sta : pc_lo a <= pn_sta (pc_x a) < pc_mid a;
  po_en : pn_en (pc_x a) = S (pn_sta (pc_x a)) /\ pn_en (pc_x a) < pc_mid a;
  po_mid : pc_mid a <= pc_hi a }.
Definition span (lo hi p : nat) : Prop := lo <= p < hi.

Section Q.
Variable Q : Prop.
Definition spec (c : powl) : Prop := forall i f s B s', add_powl c i f s = (B, s') ->
  i < next_place s -> f < next_place s -> i <> f ->
  next_place s <= next_place s' /\ block Q B (within s s') [i] [f] (plang c).

Lemma place_if_ok b s l s' : place_if b s = (l, s') -> optional b l /\ next_trans s' = next_trans s /\
  next_place s <= next_place s' /\ NoDup l /\ forall p, In p l -> next_place s <= p < next_place s'.
Proof.
  unfold place_if. destruct b; cbn; intros E; inversion E; subst; cbn.
  - split; [eauto|]. split; auto. split; [lia|]. split; [repeat constructor; auto|]. intros p [<-|[]]. lia.
  - repeat split; auto; try constructor; destruct H.
Qed.

Lemma nodes_ok cs : Forall spec cs -> forall starts ends k s nds s', powl_nodes add_powl starts ends k cs s = (nds, s') ->
  next_place s <= next_place s' /\ exists ps, map pc_x ps = nds /\ map pn_k nds = seq k (length cs) /\
    Forall (piece_ok starts ends) ps /\ ForallOrdPairs (fun a b => pc_hi a <= pc_lo b) ps /\
    Forall (fun a => next_place s <= pc_lo a /\ pc_hi a <= next_place s') ps /\
    Forall2 (fun a c => block Q (pn_B (pc_x a)) (span (pc_mid a) (pc_hi a)) [pn_sta (pc_x a)] [pn_en (pc_x a)] (plang c)) ps cs.
Proof.
  induction 1 as [|c cs Hc Hcs IH]; intros starts ends k s nds s' E; cbn in E.
  - inversion E; subst. split; [lia|]. exists []. repeat (split; [constructor|]). constructor.
  - destruct (place_if (mem k starts) _) as [ip s1] eqn:E1. apply place_if_ok in E1 as (O1 & T1 & L1 & N1 & B1). pp.
    destruct (place_if (mem k ends) _) as [fp s2] eqn:E2. apply place_if_ok in E2 as (O2 & T2 & L2 & N2 & B2). pp.
    destruct (add_powl c _ _ _) as [b s3] eqn:E3. destruct (Hc _ _ _ _ _ E3) as [L3 HB]; try (pp; lia). pp.
    destruct (powl_nodes add_powl starts ends (S k) cs s3) as [nds' s4] eqn:E4. destruct (IH _ _ _ _ _ _ E4) as (L4 & ps & P1 & P2 & P3 & P4 & P5 & P6).
    inversion E; subst. split; [lia|].
    exists (Piece (Pnode k (next_trans s) ip (next_trans s1) fp (next_place s2) (S (next_place s2)) b) (next_place s) (S (S (next_place s2))) (next_place s3) :: ps).
    cbn [map length seq]. split; [reflexivity|]. split; [cbn; rewrite P2; reflexivity|]. split; [|split; [|split]].
    + constructor; auto. constructor; cbn; auto; try lia.
      * apply nodup_app; auto. intros p Hp Hp'. apply B1 in Hp. apply B2 in Hp'. lia.
      * intros p [Hp|Hp]; [apply B1 in Hp|apply B2 in Hp]; lia.
    + constructor; auto. cbn. rewrite Forall_forall in *. intros a Ha. apply P5 in Ha. lia.
    + constructor; cbn; [lia|]. rewrite Forall_forall in *. intros a Ha. apply P5 in Ha. lia.
    + constructor; auto.
Qed.

Lemma edges_ok r l s es s' : powl_edges r l s = (es, s') -> next_trans s' = next_trans s /\ next_place s <= next_place s' /\ NoDup (map snd es) /\
  (forall i j p, In (i, j, p) es -> next_place s <= p < next_place s' /\ In (i, j) l /\ r i j = true) /\
  (forall i j, In (i, j) l -> r i j = true -> exists p, In (i, j, p) es) /\
  (forall p, next_place s <= p < next_place s' -> exists i j, In (i, j, p) es).
Proof.
  revert s es s'. induction l as [|[i j] l IH]; intros s es s' E; cbn in E.
  - inversion E; subst. split; auto. split; auto. split; [constructor|]. split; [intros ? ? ? []|]. split; [intros ? ? []|]. intros p Hp. lia.
  - destruct (r i j) eqn:Er.
    + cbn in E. destruct (powl_edges r l _) as [es1 s1] eqn:E1. inversion E; subst. destruct (IH _ _ _ E1) as (T & A & B & C & D & F). pp.
      split; auto. split; [lia|]. split; [|split; [|split]].
      * cbn. constructor; auto. intros H. apply in_map_iff in H as ([[a b] p] & Ep & Hp). cbn in Ep. subst p. apply C in Hp. lia.
      * intros a b p [H|H]; [inversion H; subst; split; [lia|split; [left; auto|auto]]|]. apply C in H as (H1 & H2 & H3). split; [lia|]. split; [right; auto|auto].
      * intros a b [H|H] Hr; [inversion H; subst; eexists; left; reflexivity|]. destruct (D a b H Hr) as (p & Hp). exists p. right; auto.
      * intros p Hp. destruct (Nat.eq_dec p (next_place s)) as [->|Hn]; [exists i, j; left; auto|]. destruct (F p) as (a & b & H); [lia|]. exists a, b. right; auto.
    + destruct (IH _ _ _ E) as (T & A & B & C & D & F). split; auto. split; auto. split; auto. split; [|split; auto].
      * intros a b p H. apply C in H as (H1 & H2 & H3). split; auto. split; [right; auto|auto].
      * intros a b [H|H] Hr; [inversion H; subst; congruence|auto].
Qed.

(** * The connectors *)
Definition node_conns (x : pnode) : list (nat * option nat * option nat) :=
  map (fun p => (p, None, Some (pn_k x))) (pn_in x) ++ map (fun p => (p, Some (pn_k x), None)) (pn_out x).
Definition edge_conn (x : nat * nat * nat) : nat * option nat * option nat := (snd x, Some (fst (fst x)), Some (snd (fst x))).
Definition conns (nds : list pnode) (es : list (nat * nat * nat)) := flat_map node_conns nds ++ map edge_conn es.

Lemma filter_none {X} (f : X -> bool) l : (forall x, In x l -> f x = false) -> filter f l = [].
Proof. induction l as [|x l IH]; intros H; [auto|]. cbn. rewrite (H x) by (left; auto). apply IH. intros; apply H; right; auto. Qed.
Lemma filter_every {X} (f : X -> bool) l : (forall x, In x l -> f x = true) -> filter f l = l.
Proof. induction l as [|x l IH]; intros H; [auto|]. cbn. rewrite (H x) by (left; auto). f_equal. apply IH. intros; apply H; right; auto. Qed.
Lemma from_app C D s : from (C ++ D) s = from C s ++ from D s.
Proof. unfold from. rewrite filter_app, map_app. auto. Qed.
Lemma into_app C D s : into (C ++ D) s = into C s ++ into D s.
Proof. unfold into. rewrite filter_app, map_app. auto. Qed.
Lemma pl_map {X} (g : X -> nat * option nat * option nat) (h : X -> nat) l : (forall x, pl (g x) = h x) -> map pl (map g l) = map h l.
Proof. intros H. rewrite map_map. apply map_ext. auto. Qed.
Lemma from_node_none x : from (node_conns x) None = pn_in x.
Proof.
  unfold node_conns. rewrite from_app. unfold from. rewrite filter_every, filter_none.
  - cbn. rewrite app_nil_r, (pl_map _ (fun p => p)) by reflexivity. apply map_id.
  - intros c H. apply in_map_iff in H as (p & <- & _). reflexivity.
  - intros c H. apply in_map_iff in H as (p & <- & _). reflexivity.
Qed.
Lemma into_node_none x : into (node_conns x) None = pn_out x.
Proof.
  unfold node_conns. rewrite into_app. unfold into. rewrite filter_none, filter_every.
  - cbn. rewrite (pl_map _ (fun p => p)) by reflexivity. apply map_id.
  - intros c H. apply in_map_iff in H as (p & <- & _). reflexivity.
  - intros c H. apply in_map_iff in H as (p & <- & _). reflexivity.
Qed.
Lemma into_node_some x k : into (node_conns x) (Some k) = if Nat.eqb (pn_k x) k then pn_in x else [].
Proof.
  unfold node_conns. rewrite into_app. unfold into. rewrite (filter_none _ (map _ (pn_out x))), app_nil_r.
  - destruct (Nat.eqb_spec (pn_k x) k) as [E|E].
    + rewrite filter_every; [rewrite (pl_map _ (fun p => p)) by reflexivity; apply map_id|]. intros c H. apply in_map_iff in H as (p & <- & _). cbn. apply Nat.eqb_eq; auto.
    + rewrite filter_none; auto. intros c H. apply in_map_iff in H as (p & <- & _). cbn. apply Nat.eqb_neq; auto.
  - intros c H. apply in_map_iff in H as (p & <- & _). reflexivity.
Qed.
Lemma from_node_some x k : from (node_conns x) (Some k) = if Nat.eqb (pn_k x) k then pn_out x else [].
Proof.
  unfold node_conns. rewrite from_app. unfold from. rewrite (filter_none _ (map _ (pn_in x))). cbn [map app].
  - destruct (Nat.eqb_spec (pn_k x) k) as [E|E].
    + rewrite filter_every; [rewrite (pl_map _ (fun p => p)) by reflexivity; apply map_id|]. intros c H. apply in_map_iff in H as (p & <- & _). cbn. apply Nat.eqb_eq; auto.
    + rewrite filter_none; auto. intros c H. apply in_map_iff in H as (p & <- & _). cbn. apply Nat.eqb_neq; auto.
  - intros c H. apply in_map_iff in H as (p & <- & _). reflexivity.
Qed.
Lemma from_edges_none es : from (map edge_conn es) None = [].
Proof. unfold from. rewrite filter_none; auto. intros c H. apply in_map_iff in H as (p & <- & _). reflexivity. Qed.
Lemma into_edges_none es : into (map edge_conn es) None = [].
Proof. unfold into. rewrite filter_none; auto. intros c H. apply in_map_iff in H as (p & <- & _). reflexivity. Qed.
Lemma from_edges es k : from (map edge_conn es) (Some k) = edges_from k es.
Proof. unfold from, edges_from. induction es as [|x es IH]; cbn; [auto|]. destruct (Nat.eqb _ _); cbn; rewrite IH; auto. Qed.
Lemma into_edges es k : into (map edge_conn es) (Some k) = edges_into k es.
Proof. unfold into, edges_into. induction es as [|x es IH]; cbn; [auto|]. destruct (Nat.eqb _ _); cbn; rewrite IH; auto. Qed.

Lemma from_conns_none nds es : from (conns nds es) None = flat_map pn_in nds.
Proof.
  unfold conns. rewrite from_app, from_edges_none, app_nil_r. induction nds as [|x l IH]; [reflexivity|].
  cbn [flat_map]. rewrite from_app, from_node_none, IH. auto.
Qed.
Lemma into_conns_none nds es : into (conns nds es) None = flat_map pn_out nds.
Proof.
  unfold conns. rewrite into_app, into_edges_none, app_nil_r. induction nds as [|x l IH]; [reflexivity|].
  cbn [flat_map]. rewrite into_app, into_node_none, IH. auto.
Qed.
Lemma pick_one (g : pnode -> list nat) nds x : NoDup (map pn_k nds) -> In x nds ->
  flat_map (fun y => if Nat.eqb (pn_k y) (pn_k x) then g y else []) nds = g x.
Proof.
  induction nds as [|y l IH]; intros Hn Hx; [destruct Hx|]. cbn in Hn. inversion Hn as [|? ? H1 H2]; subst. cbn. destruct Hx as [->|Hx].
  - rewrite Nat.eqb_refl. assert (E : flat_map (fun y => if Nat.eqb (pn_k y) (pn_k x) then g y else []) l = []).
    { clear IH Hn H2. induction l as [|z l IH]; cbn; [auto|]. destruct (Nat.eqb_spec (pn_k z) (pn_k x)) as [Ez|Ez].
      - exfalso. apply H1. left; auto.
      - cbn. apply IH. intros H. apply H1. right; auto. }
    rewrite E, app_nil_r. auto.
  - destruct (Nat.eqb_spec (pn_k y) (pn_k x)) as [Ez|Ez]; [exfalso; apply H1; rewrite Ez; apply in_map; auto|]. cbn. auto.
Qed.
Lemma into_conns nds es x : NoDup (map pn_k nds) -> In x nds -> into (conns nds es) (Some (pn_k x)) = pn_in x ++ edges_into (pn_k x) es.
Proof.
  intros Hn Hx. unfold conns. rewrite into_app, into_edges. f_equal. rewrite <- (pick_one pn_in nds x Hn Hx). clear Hn Hx.
  induction nds as [|y l IH]; [reflexivity|]. cbn [flat_map]. rewrite into_app, into_node_some, IH. auto.
Qed.
Lemma from_conns nds es x : NoDup (map pn_k nds) -> In x nds -> from (conns nds es) (Some (pn_k x)) = pn_out x ++ edges_from (pn_k x) es.
Proof.
  intros Hn Hx. unfold conns. rewrite from_app, from_edges. f_equal. rewrite <- (pick_one pn_out nds x Hn Hx). clear Hn Hx.
  induction nds as [|y l IH]; [reflexivity|]. cbn [flat_map]. rewrite from_app, from_node_some, IH. auto.
Qed.
Lemma pl_conns nds es : map pl (conns nds es) = flat_map (fun x => pn_in x ++ pn_out x) nds ++ map snd es.
Proof.
  unfold conns. rewrite map_app, (pl_map edge_conn snd) by reflexivity. f_equal. induction nds as [|x l IH]; [reflexivity|].
  cbn [flat_map]. rewrite map_app, IH. f_equal. unfold node_conns. rewrite map_app, !(pl_map _ (fun p => p)) by reflexivity. rewrite !map_id. auto.
Qed.
Lemma in_conns nds es c : In c (conns nds es) <->
  (exists x p, In x nds /\ ((In p (pn_in x) /\ c = (p, None, Some (pn_k x))) \/ (In p (pn_out x) /\ c = (p, Some (pn_k x), None)))) \/
  (exists i j p, In (i, j, p) es /\ c = (p, Some i, Some j)).
Proof.
  unfold conns. rewrite in_app_iff, in_flat_map, in_map_iff. unfold node_conns. split.
  - intros [(x & Hx & H)|(y & <- & H)].
    + left. apply in_app_iff in H as [H|H]; apply in_map_iff in H as (p & <- & H); exists x, p; auto.
    + right. destruct y as [[i j] p]. exists i, j, p. auto.
  - intros [(x & p & Hx & [[H ->]|[H ->]])|(i & j & p & H & ->)].
    + left. exists x. split; auto. apply in_app_iff. left. apply in_map_iff. eauto.
    + left. exists x. split; auto. apply in_app_iff. right. apply in_map_iff. eauto.
    + right. exists (i, j, p). auto.
Qed.

(** * The partial order *)
Lemma fop_nth {X} (R : X -> X -> Prop) l d : ForallOrdPairs R l -> forall i j, i < j -> j < length l -> R (nth i l d) (nth j l d).
Proof.
  induction 1 as [|x l Hx Hl IH]; intros i j Hij Hj; cbn in *; [lia|]. destruct j as [|j]; [lia|]. destruct i as [|i].
  - rewrite Forall_forall in Hx. apply Hx, nth_In. lia.
  - apply IH; lia.
Qed.
Lemma forall2_nth {X Y} (R : X -> Y -> Prop) l k dx dy : Forall2 R l k -> forall i, i < length l -> R (nth i l dx) (nth i k dy).
Proof. induction 1 as [|x y l k Hxy H IH]; intros i Hi; cbn in *; [lia|]. destruct i; auto. apply IH. lia. Qed.
Lemma flen {X Y} (R : X -> Y -> Prop) l k : Forall2 R l k -> length l = length k.
Proof. induction 1; cbn; auto. Qed.
Lemma mem_in k l : mem k l = true <-> In k l.
Proof. unfold mem. rewrite existsb_exists. split; [intros (x & Hx & E); apply Nat.eqb_eq in E; subst; auto|intros H; exists k; rewrite Nat.eqb_refl; auto]. Qed.

Lemma nodup_flat {X} (g : X -> list nat) (lo hi : X -> nat) l : ForallOrdPairs (fun a b => hi a <= lo b) l ->
  Forall (fun a => NoDup (g a) /\ forall p, In p (g a) -> lo a <= p < hi a) l -> NoDup (flat_map g l).
Proof.
  induction 1 as [|a l Ha Hl IH]; intros HF; cbn; [constructor|]. inversion HF as [|? ? [H1 H2] H3]; subst. apply nodup_app; auto.
  intros p Hp Hp'. apply in_flat_map in Hp' as (b & Hb & Hp'). rewrite Forall_forall in Ha, H3. specialize (Ha b Hb). apply H2 in Hp. apply (H3 b Hb) in Hp'. lia.
Qed.

Lemma pol_plang cs e w : poL (length cs) (fun k => plang (nth k cs (PLeaf None))) (lt (length cs) e) w <-> plang (PPo cs e) w.
Proof.
  unfold poL. split.
  - intros (tw & <- & Ht & HL & HO). set (ws := map (fun k => proj k tw) (seq 0 (length cs))).
    assert (Hlen : length ws = length cs) by (unfold ws; rewrite map_length, seq_length; auto).
    apply (PL_po cs e ws tw).
    + clear HO Ht. unfold ws. clear ws Hlen.
      assert (G : forall cs k0, (forall k, k < length cs -> plang (nth k cs (PLeaf None)) (proj (k0 + k) tw)) -> Forall2 plang cs (map (fun k => proj k tw) (seq k0 (length cs)))).
      { clear. induction cs as [|c cs IH]; intros k0 H; cbn; constructor.
        - specialize (H 0 ltac:(cbn; lia)). rewrite Nat.add_0_r in H. exact H.
        - apply IH. intros k Hk. specialize (H (S k) ltac:(cbn; lia)). rewrite Nat.add_succ_r in H. exact H. }
      apply (G cs 0). exact HL.
    + split; [|split].
      * intros x Hx. rewrite Hlen. auto.
      * intros k Hk. unfold ws. rewrite (nth_indep _ [] (proj 0 tw)) by (unfold ws in Hk; auto). rewrite Hlen in Hk. rewrite (map_nth (fun k => proj k tw)), seq_nth by auto. reflexivity.
      * rewrite Hlen. clear - HO. induction HO as [|x l Hx Hl IH]; constructor; auto. rewrite Forall_forall in *. intros y Hy. apply lt_false. auto.
  - intros H. inversion H as [| | | | |? ? ws tw HF (H1 & H2 & H3)]; subst. assert (Hlen : length ws = length cs) by (symmetry; eapply flen; eauto).
    rewrite Hlen in *. exists tw. split; auto. split; auto. split.
    + intros k Hk. change (proj k tw) with (events_of k tw). rewrite H2 by auto. apply (forall2_nth _ _ _ _ _ HF). auto.
    + clear - H3. induction H3 as [|x l Hx Hl IH]; constructor; auto. rewrite Forall_forall in *. intros y Hy. apply lt_false. auto.
Qed.

Lemma po_ok cs e : Forall spec cs -> cs <> [] -> acyclic (length cs) e -> spec (PPo cs e).
Proof.
  intros Hcs Hne Hac i f s B s' E Hi Hf Hif. set (n := length cs) in *. cbn in E. fold n in E. set (r := reduced n e) in *.
  set (st := get_start_nodes n r) in *. set (en := get_end_nodes n r) in *.
  destruct (powl_nodes add_powl st en 0 cs _) as [nds s1] eqn:E1.
  destruct (nodes_ok cs Hcs _ _ _ _ _ _ E1) as (L1 & ps & P1 & P2 & P3 & P4 & P5 & P6). fold n in P2.
  destruct (powl_edges r (pairs n) s1) as [es s2] eqn:E2. destruct (edges_ok _ _ _ _ _ E2) as (_ & L2 & D1 & D2 & D3 & D4).
  inversion E; subst B s2. clear E. pp. split; [lia|].
  assert (Hlp : length ps = n) by (unfold n; eapply flen; eauto).
  assert (Hln : length nds = n) by (rewrite <- P1, map_length; auto).
  assert (Hnk : NoDup (map pn_k nds)) by (rewrite P2; apply seq_NoDup).
  set (d := Piece (Pnode 0 0 [] 0 [] 0 0 []) 0 0 0).
  set (a := fun k => nth k ps d). set (x := fun k => pc_x (a k)).
  assert (Hx : forall k, x k = nth k nds (pc_x d)) by (intros k; unfold x, a; rewrite <- P1, map_nth; auto).
  assert (Hk : forall k, k < n -> pn_k (x k) = k).
  { intros k Hk. rewrite Hx, <- (map_nth pn_k nds), P2. apply seq_nth; auto. }
  assert (Hxin : forall k, k < n -> In (x k) nds) by (intros k Hk'; rewrite Hx; apply nth_In; lia).
  assert (Hnx : forall y, In y nds -> pn_k y < n /\ y = x (pn_k y)).
  { intros y Hy. apply (In_nth nds y (pc_x d)) in Hy as (k & Hk1 & <-). rewrite <- Hx, Hk by lia. split; [lia|auto]. }
  assert (Hok : forall k, k < n -> piece_ok st en (a k)).
  { intros k Hk'. rewrite Forall_forall in P3. apply P3. unfold a. apply nth_In. lia. }
  assert (Hbd : forall k, k < n -> next_place s <= pc_lo (a k) /\ pc_hi (a k) <= next_place s1).
  { intros k Hk'. rewrite Forall_forall in P5. apply P5. unfold a. apply nth_In. lia. }
  assert (Hord : forall j k, j < k -> k < n -> pc_hi (a j) <= pc_lo (a k)).
  { intros j k Hjk Hk'. unfold a. apply (fop_nth (fun a b => pc_hi a <= pc_lo b)); auto. lia. }
  assert (Hblk : forall k, k < n -> block Q (pn_B (x k)) (span (pc_mid (a k)) (pc_hi (a k))) [pn_sta (x k)] [pn_en (x k)] (plang (nth k cs (PLeaf None)))).
  { intros k Hk'. apply (forall2_nth _ _ _ d (PLeaf None) P6). lia. }
  set (C := conns nds es).
  set (ti := fun k => mk_trans (pn_ti (x k)) None (pn_in (x k) ++ edges_into k es) [pn_sta (x k)]).
  set (tf := fun k => mk_trans (pn_tf (x k)) None [pn_en (x k)] (pn_out (x k) ++ edges_from k es)).
  set (SS := fun k => span (pc_mid (a k)) (pc_hi (a k))). set (sta := fun k => pn_sta (x k)). set (enn := fun k => pn_en (x k)).
  assert (Hpw : forall k p, k < n -> powns SS sta enn k p -> pc_lo (a k) <= p < pc_hi (a k) /\ pn_sta (x k) <= p).
  { intros k p Hk' Hp. destruct (Hok k Hk') as [_ _ _ _ K1 [K2 K3] K4]. fold (x k) in *. unfold powns, SS, sta, enn, span in Hp. destruct Hp as [->|[->|Hp]]; lia. }
  assert (Hconn : forall y p, In y nds -> In p (pn_in y) \/ In p (pn_out y) -> pc_lo (a (pn_k y)) <= p < pc_hi (a (pn_k y)) /\ p < pn_sta y).
  { intros y p Hy Hp. destruct (Hnx y Hy) as [Hyk Ey]. destruct (Hok _ Hyk) as [_ _ _ K0 K1 K2 K3]. fold (x (pn_k y)) in *. rewrite <- Ey in *. apply K0 in Hp. lia. }
  assert (HB := block_po Q n (fun k => pn_B (x k)) SS (fun k => plang (nth k cs (PLeaf None))) sta enn ti tf C (lt n e) (rank n e)).
  assert (Hedge : forall i j, edge C i j <-> on n r i j).
  { intros i0 j0. split.
    - intros (c & Hc & Hs & Hd). apply in_conns in Hc as [(y & p & _ & [[_ ->]|[_ ->]])|(i1 & j1 & p & Hp & ->)]; cbn in Hs, Hd; try discriminate.
      inversion Hs; inversion Hd; subst. apply D2 in Hp as (_ & Hp & Hr). apply in_pairs in Hp. unfold on. tauto.
    - intros (H1 & H2 & H3). destruct (D3 i0 j0) as (p & Hp); [apply in_pairs; auto|auto|]. exists (p, Some i0, Some j0). split; [|split; auto].
      apply in_conns. right. eauto. }
  assert (Hclos : forall i j, clos_trans nat (edge C) i j <-> closure n r i j).
  { intros i0 j0. split; apply clos_mono; intros; apply Hedge; auto. }
  destruct HB as [HB HL].
  - exact Hblk.
  - intros k Hk'. unfold ti. rewrite pre_mk, post_mk. split; [reflexivity|]. split; [reflexivity|]. intros p. unfold C.
    rewrite <- (Hk k Hk') at 3. rewrite into_conns by auto. rewrite Hk by auto. reflexivity.
  - intros k Hk'. unfold tf. rewrite pre_mk, post_mk. split; [reflexivity|]. split; [reflexivity|]. intros p. unfold C.
    rewrite <- (Hk k Hk') at 3. rewrite from_conns by auto. rewrite Hk by auto. reflexivity.
  - intros j k p Hj Hk' H1 H2. apply Hpw in H1, H2; auto. destruct (lt_eq_lt_dec j k) as [[H|H]|H]; auto.
    + specialize (Hord j k H Hk'). lia.
    + specialize (Hord k j H Hj). lia.
  - unfold C. rewrite pl_conns. apply nodup_app; auto.
    + rewrite <- P1. rewrite flat_map_concat_map, map_map, <- flat_map_concat_map. apply (nodup_flat _ pc_lo pc_hi); auto.
      rewrite Forall_forall in *. intros b Hb. destruct (P3 b Hb) as [_ _ K1 K2 _ _ K3]. split; auto. intros p Hp. apply in_app_iff in Hp. apply K2 in Hp. lia.
    + intros p Hp Hp'. apply in_flat_map in Hp as (y & Hy & Hp). apply in_app_iff in Hp. apply Hconn in Hp as [Hp _]; auto.
      apply in_map_iff in Hp' as ([[i0 j0] p'] & Ep & Hp'). cbn in Ep. subst p'. apply D2 in Hp' as (Hp' & _). destruct (Hnx y Hy) as [Hyk _]. specialize (Hbd _ Hyk). lia.
  - intros c k Hc Hk' Hp. apply Hpw in Hp as [Hp1 Hp2]; auto. specialize (Hbd k Hk').
    apply in_conns in Hc as [(y & p & Hy & Hpy)|(i0 & j0 & p & Hp & ->)].
    + assert (Hpc : pl c = p) by (destruct Hpy as [[_ ->]|[_ ->]]; auto). assert (Hpy' : In p (pn_in y) \/ In p (pn_out y)) by tauto. rewrite Hpc in *.
      apply Hconn in Hpy' as [Hpy1 Hpy2]; auto. destruct (Hnx y Hy) as [Hyk Ey].
      destruct (lt_eq_lt_dec (pn_k y) k) as [[H|H]|H].
      * specialize (Hord _ _ H Hk'). lia.
      * subst k. rewrite <- Ey in Hp2. lia.
      * specialize (Hord _ _ H Hyk). lia.
    + cbn in *. apply D2 in Hp as (Hp & _). lia.
  - intros c k Hc Hs. apply in_conns in Hc as [(y & p & Hy & [[_ ->]|[_ ->]])|(i0 & j0 & p & Hp & ->)]; cbn in Hs; inversion Hs; subst.
    + apply Hnx; auto.
    + apply D2 in Hp as (_ & Hp & _). apply in_pairs in Hp. tauto.
  - intros c k Hc Hs. apply in_conns in Hc as [(y & p & Hy & [[_ ->]|[_ ->]])|(i0 & j0 & p & Hp & ->)]; cbn in Hs; inversion Hs; subst.
    + apply Hnx; auto.
    + apply D2 in Hp as (_ & Hp & _). apply in_pairs in Hp. tauto.
  - intros k Hk'. destruct (mem k st) eqn:Em.
    + destruct (Hok k Hk') as [K _ _ _ _ _ _]. fold (x k) in K. rewrite Hk, Em in K by auto. destruct K as (p & Ep). exists (p, None, Some k). split; auto.
      apply in_conns. left. exists (x k), p. split; auto. left. rewrite Ep, Hk by auto. split; [left; auto|auto].
    + assert (Hn : ~ In k st) by (intros H; apply mem_in in H; congruence). unfold st in Hn. rewrite start_nodes_correct in Hn.
      destruct (existsb (fun i => r i k) (seq 0 n)) eqn:Ex.
      * apply existsb_exists in Ex as (i0 & Hi0 & Er). apply in_seq in Hi0. destruct (D3 i0 k) as (p & Hp); [apply in_pairs; lia|auto|].
        exists (p, Some i0, Some k). split; auto. apply in_conns. right. eauto.
      * exfalso. apply Hn. split; auto. intros (i0 & H1 & H2 & H3). assert (X : existsb (fun i => r i k) (seq 0 n) = true) by (apply existsb_exists; exists i0; split; [apply in_seq; lia|auto]). congruence.
  - intros k Hk'. destruct (mem k en) eqn:Em.
    + destruct (Hok k Hk') as [_ K _ _ _ _ _]. fold (x k) in K. rewrite Hk, Em in K by auto. destruct K as (p & Ep). exists (p, Some k, None). split; auto.
      apply in_conns. left. exists (x k), p. split; auto. right. rewrite Ep, Hk by auto. split; [left; auto|auto].
    + assert (Hn : ~ In k en) by (intros H; apply mem_in in H; congruence). unfold en in Hn. rewrite end_nodes_correct in Hn.
      destruct (existsb (fun i => r k i) (seq 0 n)) eqn:Ex.
      * apply existsb_exists in Ex as (i0 & Hi0 & Er). apply in_seq in Hi0. destruct (D3 k i0) as (p & Hp); [apply in_pairs; lia|auto|].
        exists (p, Some k, Some i0). split; auto. apply in_conns. right. eauto.
      * exfalso. apply Hn. split; auto. intros (i0 & H1 & H2 & H3). assert (X : existsb (fun i => r k i) (seq 0 n) = true) by (apply existsb_exists; exists i0; split; [apply in_seq; lia|auto]). congruence.
  - intros i0 j0 H. apply Hedge in H. apply lt_iff, t_step. eapply reduced_on; eauto.
  - intros i0 j0 k H1 H2. apply lt_iff. apply lt_iff in H1, H2. eapply closure_trans; eauto.
  - intros i0 j0 H. apply Hclos. apply lt_iff in H. apply reduced_closure; auto.
  - intros i0 j0 H. apply rank_lt; auto.
  - assert (HW : forall p, Splaces n SS sta enn C p -> within s s' p).
    { intros p [(k & Hk' & Hp)|Hc]; [|apply in_map_iff in Hc as (c & <- & Hc)].
      - apply Hpw in Hp as [Hp _]; auto. specialize (Hbd k Hk'). unfold within. lia.
      - apply in_conns in Hc as [(y & p & Hy & Hpy)|(i0 & j0 & p & Hp & ->)].
        + assert (Hpc : pl c = p) by (destruct Hpy as [[_ ->]|[_ ->]]; auto). assert (Hpy' : In p (pn_in y) \/ In p (pn_out y)) by tauto. rewrite Hpc.
          apply Hconn in Hpy' as [Hpy1 _]; auto. destruct (Hnx y Hy) as [Hyk _]. specialize (Hbd _ Hyk). unfold within. lia.
        + cbn. apply D2 in Hp as (Hp & _). unfold within. lia. }
    assert (HBw : block Q (flat_map (node_trans es) nds) (within s s') (from C None) (into C None) (plang (PPo cs e))).
    { eapply block_ext; [intros w; apply pol_plang|]. eapply block_same; [|eapply block_widen; [exact HW|exact HB]].
      intros t. rewrite RB_iff, in_flat_map. split.
      - intros (k & Hk' & Ht). exists (x k). split; auto. unfold node_trans. rewrite Hk by auto. destruct Ht as [->|[->|Ht]]; [left; reflexivity|right; left; reflexivity|right; right; auto].
      - intros (y & Hy & Ht). destruct (Hnx y Hy) as [Hyk Ey]. exists (pn_k y). split; auto. unfold ti, tf. rewrite <- Ey. unfold node_trans in Ht.
        destruct Ht as [<-|[<-|Ht]]; auto. }
    assert (Hst : exists k, k < n /\ forall j, j < n -> rank n e k <= rank n e j).
    { destruct (exists_min (rank n e) (seq 0 n)) as (k & Hk1 & Hk2); [unfold n; destruct cs; [congruence|discriminate]|].
      exists k. apply in_seq in Hk1. split; [lia|]. intros j Hj. apply Hk2, in_seq. lia. }
    assert (Hen : exists k, k < n /\ forall j, j < n -> rank n e j <= rank n e k).
    { destruct (exists_min (fun k => n * n + n - rank n e k) (seq 0 n)) as (k & Hk1 & Hk2); [unfold n; destruct cs; [congruence|discriminate]|].
      exists k. apply in_seq in Hk1. split; [lia|]. intros j Hj. specialize (Hk2 j ltac:(apply in_seq; lia)). cbv beta in Hk2.
      pose proof (rank_le n e) as Hb.
      pose proof (Hb k). pose proof (Hb j). lia. }
    eapply (block_frame Q); [exact HBw|..]; rewrite ?pre_mk, ?post_mk; auto.
    + destruct HL as [G1 G2]. split; intros p Hp; apply HW; [apply G1|apply G2]; exact Hp.
    + unfold C. rewrite from_conns_none. destruct Hst as (k & Hk1 & Hk2). intros Hnil.
      assert (Hs0 : mem k st = true).
      { apply mem_in. apply start_nodes_correct. split; auto. intros (j & Hj). assert (Hl : lt n e j k = true) by (apply lt_iff, t_step; eapply reduced_on; eauto).
        apply (rank_lt n e j k Hac) in Hl. destruct Hj as (Hj & _). specialize (Hk2 j Hj). lia. }
      destruct (Hok k Hk1) as [K _ _ _ _ _ _]. fold (x k) in K. rewrite Hk, Hs0 in K by auto. destruct K as (p & Ep).
      assert (X : In p (flat_map pn_in nds)) by (apply in_flat_map; exists (x k); split; [auto|rewrite Ep; left; auto]). rewrite Hnil in X. destruct X.
    + unfold C. rewrite into_conns_none. destruct Hen as (k & Hk1 & Hk2). intros Hnil.
      assert (Hs0 : mem k en = true).
      { apply mem_in. apply end_nodes_correct. split; auto. intros (j & Hj). assert (Hl : lt n e k j = true) by (apply lt_iff, t_step; eapply reduced_on; eauto).
        apply (rank_lt n e k j Hac) in Hl. destruct Hj as (_ & Hj & _). specialize (Hk2 j Hj). lia. }
      destruct (Hok k Hk1) as [_ K _ _ _ _ _]. fold (x k) in K. rewrite Hk, Hs0 in K by auto. destruct K as (p & Ep).
      assert (X : In p (flat_map pn_out nds)) by (apply in_flat_map; exists (x k); split; [auto|rewrite Ep; left; auto]). rewrite Hnil in X. destruct X.
    + unfold C. rewrite from_conns_none. reflexivity.
    + unfold C. rewrite into_conns_none. reflexivity.
    + ww.
    + ww.
Qed.
End Q.
