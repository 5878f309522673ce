(** The net fragment of a process tree is a block for its language. *)
From Coq Require Import List Arith Lia Bool ZArith Permutation.
Import ListNotations.
From Verif Require Import Model_Petri Model_Tree Model_TreeNet Spec_Tree Proofs_Shuffle Proofs_TreeFP Proofs_Block Proofs_Block2 Proofs_Block3 Proofs_Block4.

Lemma pre_mk x l a b : pre (mk_trans x l a b) = a.
Proof. unfold pre, mk_trans, arcs. cbn. rewrite map_map. cbn. apply map_id. Qed.
Lemma post_mk x l a b : post (mk_trans x l a b) = b.
Proof. unfold post, mk_trans, arcs. cbn. rewrite map_map. cbn. apply map_id. Qed.
Lemma vis_mk x a b : vis (mk_trans x None a b) = [].
Proof. reflexivity. Qed.
Definition within (s s' : counts) (p : nat) : Prop := next_place s <= p < next_place s'.

Lemma perm_impl2 {X Y} (R : X -> Y -> Prop) l k l' : Forall2 R l k -> Permutation l l' ->
  exists k', Permutation k k' /\ Forall2 R l' k'.
Proof.
  intros HF H. revert k HF. induction H; intros k HF.
  - inversion HF; subst. exists []. split; constructor.
  - inversion HF as [|? y ? k0 HR HF0]; subst. destruct (IHPermutation _ HF0) as (k' & ? & ?). exists (y :: k'). split; constructor; auto.
  - inversion HF as [|? y1 ? k0 HR HF0]; subst. inversion HF0 as [|? y2 ? k1 HR' HF1]; subst. exists (y2 :: y1 :: k1). split; [apply perm_swap|repeat constructor; auto].
  - destruct (IHPermutation1 _ HF) as (k1 & ? & HF1). destruct (IHPermutation2 _ HF1) as (k2 & ? & ?).
    exists k2. split; auto. etransitivity; eauto.
Qed.

Section Q.
Variable Q : Prop.
Definition spec (c : tree nat) : Prop := forall i f s B s', add_tree c i f s = (B, s') ->
  i < next_place s -> f < next_place s -> i <> f ->
  next_place s <= next_place s' /\ block Q B (within s s') [i] [f] (lang c).
Ltac pp := cbn [next_place next_trans new_place new_trans] in *.
Ltac ww := unfold within in *; pp; lia.

Lemma choice_ok cs : Forall spec cs -> cs <> [] -> forall i f s B s', add_choice add_tree cs i f s = (B, s') ->
  i < next_place s -> f < next_place s -> i <> f ->
  next_place s <= next_place s' /\ block Q B (within s s') [i] [f] (fun w => exists c, In c cs /\ lang c w).
Proof.
  induction 1 as [|c cs Hc Hcs IH]; intros Hne i f s B s' E Hi Hf Hif; [congruence|]. cbn in E.
  destruct (add_tree c i f s) as [b s1] eqn:E1. destruct (Hc _ _ _ _ _ E1 Hi Hf Hif) as [Hle1 HB1].
  destruct (add_choice add_tree cs i f s1) as [b' s2] eqn:E2. inversion E; subst.
  destruct cs as [|c2 cs].
  - cbn in E2. inversion E2; subst. rewrite app_nil_r. split; auto. eapply block_ext; [|exact HB1].
    intros w. split; [intros Hw; exists c; split; [left; auto|auto]|intros (c0 & [<-|[]] & Hw); auto].
  - destruct (IH ltac:(discriminate) i f s1 b' s') as [Hle2 HB2]; auto; try lia. split; [lia|].
    eapply block_ext; [|eapply block_widen; [|apply (block_xor Q b b' (within s s1) (within s1 s') i f (lang c) (fun w => exists c, In c (c2 :: cs) /\ lang c w)); auto; ww]].
    + intros w. split.
      * intros [Hw|(d & Hd & Hw)]; [exists c; split; [left; auto|auto]|exists d; split; [right; auto|auto]].
      * intros (d & [<-|Hd] & Hw); [auto|right; eauto].
    + intros p [?|?]; ww.
Qed.

Lemma seq_node cs : Forall spec cs -> cs <> [] -> forall i f s B s', add_seq add_tree cs i f s = (B, s') ->
  i < next_place s -> f < next_place s -> i <> f ->
  next_place s <= next_place s' /\ block Q B (within s s') [i] [f] (lang (Node Sequence cs)).
Proof.
  induction 1 as [|c cs Hc Hcs IH]; intros Hne i f s B s' E Hi Hf Hif; [congruence|].
  destruct cs as [|c2 cs].
  - cbn in E. destruct (Hc _ _ _ _ _ E Hi Hf Hif) as [Hle1 HB1]. split; auto. eapply block_ext; [|exact HB1].
    intros w. rewrite lang_seq. split.
    + intros Hw. exists [w]. split; [constructor; auto|cbn; rewrite app_nil_r; auto].
    + intros (ws & HF & ->). inversion HF as [|? u ? ws' Hu HF']; subst. inversion HF'; subst. cbn. rewrite app_nil_r. auto.
  - remember (c2 :: cs) as cs2 eqn:Ecs. assert (Hne2 : cs2 <> []) by (subst; discriminate).
    assert (E' : (let '(b, s1) := add_tree c i (next_place s) (Counts (S (next_place s)) (next_trans s)) in
                  let '(b', s2) := add_seq add_tree cs2 (next_place s) f s1 in (b ++ b', s2)) = (B, s')) by (rewrite <- E, Ecs; reflexivity).
    clear E Ecs. destruct (add_tree c i (next_place s) _) as [b s1] eqn:E1.
    destruct (Hc _ _ _ _ _ E1) as [Hle1 HB1]; try (pp; lia).
    destruct (add_seq add_tree cs2 (next_place s) f s1) as [b' s2] eqn:E2. inversion E'; subst.
    destruct (IH Hne2 _ _ _ _ _ E2) as [Hle2 HB2]; try (pp; lia). split; [pp; lia|].
    eapply block_ext; [|eapply block_widen; [|apply (block_seq Q b b' _ _ (next_place s) i f _ _ HB1 HB2); ww]].
    + intros w. rewrite lang_seq. split.
      * intros (u & v & Hu & Hv & ->). apply lang_seq in Hv as (ws & HF & ->). exists (u :: ws). split; [constructor; auto|auto].
      * intros (ws & HF & ->). inversion HF as [|? u ? ws' Hu HF']; subst. exists u, (concat ws'). split; auto. split; auto. apply lang_seq. eauto.
    + intros p [->|[?|?]]; ww.
Qed.

Lemma par_node cs : Forall spec cs -> forall s inits ends B s', add_par add_tree cs s = (inits, ends, B, s') ->
  next_place s <= next_place s' /\ block Q B (within s s') inits ends (parL (map lang cs)) /\ local (within s s') inits ends /\
  length inits = length cs /\ length ends = length cs.
Proof.
  induction 1 as [|c cs Hc Hcs IH]; intros s inits ends B s' E; cbn in E.
  - inversion E; subst. split; [lia|]. split; [|split; [split; intros ? []|auto]].
    eapply block_ext; [intros w; symmetry; apply parL_nil|]. eapply block_widen; [|apply block_empty]. intros p [].
  - destruct (add_tree c _ _ _) as [b s1] eqn:E1. destruct (Hc _ _ _ _ _ E1) as [Hle1 HB1]; try (pp; lia). pp.
    destruct (add_par add_tree cs s1) as [[[inits' ends'] b'] s2] eqn:E2. inversion E; subst.
    destruct (IH _ _ _ _ _ E2) as (Hle2 & HB2 & [Lo1 Lo2] & Hl1 & Hl2). split; [pp; lia|].
    assert (HB1' : block Q b (within s s1) [next_place s] [S (next_place s)] (lang c)) by (eapply block_widen; [|exact HB1]; intros p ?; ww).
    assert (HB := block_par Q b b' (within s s1) (within s1 s') [next_place s] inits' [S (next_place s)] ends' (lang c) (parL (map lang cs)) HB1' HB2
      ltac:(split; intros p [<-|[]]; ww) ltac:(split; auto) ltac:(intros p; ww)).
    split; [|split; [|cbn; auto]].
    + eapply block_ext; [intros w; symmetry; apply parL_cons|]. eapply block_widen; [|exact HB]. intros p [?|?]; ww.
    + split; intros p [<-|Hp]; try ww; [apply Lo1 in Hp|apply Lo2 in Hp]; ww.
Qed.

Lemma or_node first term cs : Forall spec cs -> forall s inits ends B s', add_or add_tree first term cs s = (inits, ends, B, s') ->
  first < next_place s -> term < next_place s -> first <> term ->
  next_place s <= next_place s' /\ exists ps, Forall (orp_ok Q first term) ps /\ apart ps /\
    (forall c p, In c ps -> own c p -> within s s' p) /\
    inits = map o_ini ps /\ ends = map o_en ps /\ (forall t, In t B <-> In t (flat_map realB ps)) /\ map o_L ps = map lang cs.
Proof.
  induction 1 as [|c cs Hc Hcs IH]; intros s inits ends B s' E Hf1 Hf2 Hne; cbn in E.
  - inversion E; subst. split; [lia|]. exists []. split; [constructor|]. split; [constructor|]. split; [intros ? ? []|]. cbn. repeat split; auto.
  - destruct (add_tree c _ _ _) as [b s1] eqn:E1. destruct (Hc _ _ _ _ _ E1) as [Hle1 HB1]; try (pp; lia). pp.
    destruct (add_or add_tree first term cs s1) as [[[inits' ends'] b'] s2] eqn:E2. inversion E; subst.
    destruct (IH _ _ _ _ _ E2) as (Hle2 & ps & Hok & Hap & Hin & -> & -> & HB & HL); try lia. split; [lia|].
    pose (o := Orp (next_place s) (S (next_place s)) (S (S (next_place s)))
       (mk_trans (next_trans s) None [first; next_place s] [S (next_place s); term])
       (mk_trans (S (next_trans s)) None [term; next_place s] [S (next_place s); term])
       (mk_trans (S (S (next_trans s))) None [term; next_place s] [term; S (S (next_place s))]) b
       (within (Counts (S (S (S (next_place s)))) (S (S (S (next_trans s))))) s1) (lang c)).
    assert (Ho : forall p, own o p -> within s s1 p) by (unfold own; cbn; intros p [->|[->|[->|?]]]; ww).
    exists (o :: ps). split; [|split; [|split; [|split; [|split; [|split]]]]].
    + constructor; auto. constructor; cbn; rewrite ?pre_mk, ?post_mk; auto; try ww.
      * intros Hp. apply Ho in Hp. ww.
      * intros Hp. apply Ho in Hp. ww.
    + constructor; auto. apply Forall_forall. intros d Hd p Hp Hp'. apply Ho in Hp. apply (Hin _ _ Hd) in Hp'. ww.
    + intros d p [<-|Hd] Hp; [apply Ho in Hp; ww|apply (Hin _ _ Hd) in Hp; ww].
    + reflexivity.
    + reflexivity.
    + intros t. cbn. rewrite !in_app_iff, HB. tauto.
    + cbn. rewrite HL. reflexivity.
Qed.

Lemma int_node ctl cs : Forall spec cs -> forall s inits ends B s', add_int add_tree ctl cs s = (inits, ends, B, s') ->
  ctl < next_place s ->
  next_place s <= next_place s' /\ exists ps, Forall (intp_ok Q ctl) ps /\ ForallOrdPairs (fun c d => forall p, iown c p -> iown d p -> False) ps /\
    (forall c p, In c ps -> iown c p -> within s s' p) /\
    inits = map i_pi ps /\ ends = map i_pf ps /\ (forall t, In t B <-> In t (flat_map irealB ps)) /\ map i_L ps = map lang cs.
Proof.
  induction 1 as [|c cs Hc Hcs IH]; intros s inits ends B s' E Hf1; cbn in E.
  - inversion E; subst. split; [lia|]. exists []. split; [constructor|]. split; [constructor|]. split; [intros ? ? []|]. cbn. repeat split; auto.
  - destruct (add_tree c _ _ _) as [b s1] eqn:E1. destruct (Hc _ _ _ _ _ E1) as [Hle1 HB1]; try (pp; lia). pp.
    destruct (add_int add_tree ctl cs s1) as [[[inits' ends'] b'] s2] eqn:E2. inversion E; subst.
    destruct (IH _ _ _ _ _ E2) as (Hle2 & ps & Hok & Hap & Hin & -> & -> & HB & HL); try lia. split; [lia|].
    pose (o := Intp (next_place s) (S (next_place s)) (S (S (next_place s))) (S (S (S (next_place s))))
       (mk_trans (next_trans s) None [next_place s; ctl] [S (S (next_place s))])
       (mk_trans (S (next_trans s)) None [S (S (S (next_place s)))] [S (next_place s); ctl]) b
       (within (Counts (S (S (S (S (next_place s))))) (S (S (next_trans s)))) s1) (lang c)).
    assert (Ho : forall p, iown o p -> within s s1 p) by (unfold iown; cbn; intros p [->|[->|[->|[->|?]]]]; ww).
    exists (o :: ps). split; [|split; [|split; [|split; [|split; [|split]]]]].
    + constructor; auto. constructor; cbn; rewrite ?pre_mk, ?post_mk; auto; try ww.
      intros Hp. apply Ho in Hp. ww.
    + constructor; auto. apply Forall_forall. intros d Hd p Hp Hp'. apply Ho in Hp. apply (Hin _ _ Hd) in Hp'. ww.
    + intros d p [<-|Hd] Hp; [apply Ho in Hp; ww|apply (Hin _ _ Hd) in Hp; ww].
    + reflexivity.
    + reflexivity.
    + intros t. cbn. rewrite !in_app_iff, HB. tauto.
    + cbn. rewrite HL. reflexivity.
Qed.

Lemma block_same B B' S I F L : (forall t, In t B <-> In t B') -> block Q B S I F L -> block Q B' S I F L.
Proof.
  intros E H. assert (G : forall m w m', runs B m w m' <-> runs B' m w m').
  { intros. split; intros Hr; eapply runs_incl; eauto; intros t Ht; apply E; auto. }
  destruct H as [H1 H2 H3 H4 H5 H6 H7 H8]. constructor.
  - intros t Ht. apply H1, E, Ht.
  - intros t Ht. apply H2, E, Ht.
  - intros m w Hr. apply H3, G, Hr.
  - intros w Hw. apply G; auto.
  - intros m w p Hr. eapply H5, G, Hr.
  - intros q t Ht. apply E in Ht. destruct (H6 q t Ht) as (w & m & Hr & He). exists w, m. split; auto. apply G; auto.
  - intros t p Ht Hp. apply E in Ht. destruct (H7 t p Ht Hp) as (w & m & Hr & He). exists w, m. split; auto. apply G; auto.
  - intros m w Hr. apply G in Hr. destruct (H8 m w Hr) as (w' & Hr' & Hl). exists w'. split; auto. apply G; auto.
Qed.

(** the language of the OR construction *)
Definition opt (L : list nat -> Prop) : list nat -> Prop := fun w => w = [] \/ L w.
Lemma opt_words Ls : forall ws, Forall2 (fun L u => L u) (map opt Ls) ws ->
  exists Ls' ws', select Ls Ls' /\ Forall2 (fun (L : list nat -> Prop) u => L u) Ls' ws' /\ forall k l u, shuffle (k ++ ws ++ l) u -> shuffle (k ++ ws' ++ l) u.
Proof.
  induction Ls as [|L Ls IH]; intros ws HF; cbn in HF; inversion HF as [|? w ? ws0 Hw HF']; subst.
  - exists [], []. split; [constructor|]. split; [constructor|auto].
  - destruct (IH _ HF') as (Ls' & ws' & Hs & HF2 & Hsh). destruct Hw as [->|Hw].
    + exists Ls', ws'. split; [constructor; auto|]. split; auto. intros k l u Hu. apply Hsh. cbn in Hu. apply (proj1 (shuffle_nil_elt k (ws0 ++ l) u)). exact Hu.
    + exists (L :: Ls'), (w :: ws'). split; [apply sel_take; auto|]. split; [constructor; auto|]. intros k l u Hu.
      specialize (Hsh (k ++ [w]) l u). rewrite <- !app_assoc in Hsh. cbn in Hsh. apply Hsh. exact Hu.
Qed.
Lemma opt_select Ls Ls' : select Ls Ls' -> forall ws', Forall2 (fun (L : list nat -> Prop) u => L u) Ls' ws' ->
  exists ws, Forall2 (fun L u => L u) (map opt Ls) ws /\ forall k l u, shuffle (k ++ ws' ++ l) u -> shuffle (k ++ ws ++ l) u.
Proof.
  induction 1 as [|L Ls Ls' Hs IH|L Ls Ls' Hs IH]; intros ws' HF.
  - exists []. inversion HF; subst. split; [constructor|auto].
  - destruct (IH _ HF) as (ws & HF2 & Hsh). exists ([] :: ws). split; [constructor; [left; auto|auto]|].
    intros k l u Hu. cbn. apply (proj2 (shuffle_nil_elt k (ws ++ l) u)). auto.
  - inversion HF as [|? w ? ws0 Hw HF']; subst. destruct (IH _ HF') as (ws & HF2 & Hsh). exists (w :: ws). split; [constructor; [right; auto|auto]|].
    intros k l u Hu. specialize (Hsh (k ++ [w]) l u). rewrite <- !app_assoc in Hsh. cbn in Hsh. apply Hsh. exact Hu.
Qed.
Lemma or_lang Ls w : (exists l1 (L : list nat -> Prop) l2, Ls = l1 ++ L :: l2 /\ parL (map opt l1 ++ L :: map opt l2) w) <->
  exists Ls' ws, select Ls Ls' /\ Ls' <> [] /\ Forall2 (fun (L : list nat -> Prop) u => L u) Ls' ws /\ shuffle ws w.
Proof.
  split.
  - intros (l1 & L & l2 & -> & ws & HF & Hs). apply Forall2_app_inv_l in HF as (ws1 & ws2 & HF1 & HF2 & ->).
    inversion HF2 as [|? v ? ws3 Hv HF3]; subst.
    destruct (opt_words _ _ HF1) as (k1 & u1 & S1 & G1 & X1). destruct (opt_words _ _ HF3) as (k2 & u2 & S2 & G2 & X2).
    exists (k1 ++ L :: k2), (u1 ++ v :: u2). split; [|split; [destruct k1; discriminate|split]].
    + clear - S1 S2. induction S1 as [|x l k S1 IH|x l k S1 IH]; cbn; [apply sel_take; assumption|apply sel_skip; exact IH|apply sel_take; exact IH].
    + apply Forall2_app; auto.
    + specialize (X1 [] (v :: ws3) w Hs). specialize (X2 (u1 ++ [v]) [] w). rewrite !app_nil_r, <- !app_assoc in X2. apply X2. exact X1.
  - intros (Ls' & ws & Hsel & Hne & HF & Hs).
    assert (Hsp : exists l1 L l2 k2, Ls = l1 ++ L :: l2 /\ Ls' = L :: k2 /\ select l2 k2).
    { clear HF Hs. induction Hsel as [|L Ls Ls' H IH|L Ls Ls' H IH]; [congruence| |].
      - destruct (IH Hne) as (l1 & M & l2 & k2 & -> & -> & H'). exists (L :: l1), M, l2, k2. auto.
      - exists [], L, Ls, Ls'. auto. }
    destruct Hsp as (l1 & L & l2 & k2 & -> & -> & Hsel2). inversion HF as [|? v ? ws2 Hv HF2]; subst.
    destruct (opt_select _ _ Hsel2 _ HF2) as (u2 & G2 & X2). destruct (opt_select _ _ (select_nil l1) [] ltac:(constructor)) as (u1 & G1 & X1).
    exists l1, L, l2. split; auto. exists (u1 ++ v :: u2). split; [apply Forall2_app; auto|].
    specialize (X2 [v] [] w). rewrite !app_nil_r in X2. specialize (X1 [] (v :: u2) w). apply X1. cbn. apply X2. exact Hs.
Qed.

Definition or_wide (t : tree nat) : Prop := match t with Node Or cs => 2 <= length cs | _ => True end.
Lemma node_inv P o cs : everywhere P (@Node nat o cs) -> P (Node o cs) /\ Forall (everywhere P) cs.
Proof. inversion 1; auto. Qed.

Theorem add_tree_ok t : wf_tree t -> (Q -> everywhere or_wide t) -> spec t.
Proof.
  induction t as [l|o cs IH] using tree_ind2; intros Hwf HQ i f s B s' E Hi Hf Hif.
  - cbn in E. inversion E; subst. cbn. split; [lia|]. eapply block_ext; [|eapply block_widen; [|apply block_leaf]]; cbn beta.
    + intros w. unfold vis. cbn. destruct l; [rewrite lang_act|rewrite lang_tau]; tauto.
    + intros p [].
    + rewrite pre_mk. auto.
    + rewrite post_mk. auto.
    + auto.
  - apply wf_node_inv in Hwf as (Hsh & Hwf). pose proof (shape_ok_nonempty _ _ Hsh) as Hne.
    assert (HS : Forall spec cs).
    { assert (HQ' : Q -> Forall (everywhere or_wide) cs) by (intros q; apply (node_inv _ _ _ (HQ q))). clear E HQ Hsh Hne.
      induction IH as [|c cs Hc IH' IH2]; constructor; inversion Hwf; subst.
      - apply Hc; auto. intros q. specialize (HQ' q). inversion HQ'; auto.
      - apply IH2; auto. intros q. specialize (HQ' q). inversion HQ'; auto. }
    clear IH Hwf. destruct o.
    + apply (seq_node cs HS Hne i f s); auto.
    + destruct (choice_ok cs HS Hne i f s B s' E Hi Hf Hif) as [H1 H2]. split; auto. eapply block_ext; [|exact H2]. intros w. symmetry. apply lang_xor.
    + (* parallel *) cbn in E. destruct (add_par add_tree cs _) as [[[inits ends] b] s1] eqn:E1. inversion E; subst.
      destruct (par_node cs HS _ _ _ _ _ E1) as (Hle & HB & Lo & Hl1 & Hl2). pp. split; [lia|].
      eapply block_ext; [|apply (block_frame Q b (within s s') inits ends (parL (map lang cs)) _ _ i f HB Lo)]; rewrite ?pre_mk, ?post_mk; auto.
      * intros w. rewrite lang_par. unfold parL. split; intros (ws & HF & Hs); exists ws; (split; [|assumption]); clear - HF; revert ws HF; induction cs; intros ws HF; inversion HF; subst; constructor; auto.
      * intros ->. destruct cs; [congruence|discriminate].
      * intros ->. destruct cs; [congruence|discriminate].
      * ww.
      * ww.
    + (* loop *) destruct cs as [|d rs]; [congruence|]. destruct rs as [|r rs]; [cbn in Hsh; lia|].
      remember (r :: rs) as rs2 eqn:Ers. assert (Hne2 : rs2 <> []) by (subst; discriminate).
      set (s0 := Counts (S (S (next_place s))) (S (S (next_trans s)))) in *.
      assert (E' : (let '(bd, s1) := add_tree d (next_place s) (S (next_place s)) s0 in
                    let '(br, s2) := add_choice add_tree rs2 (S (next_place s)) (next_place s1) (Counts (S (next_place s1)) (next_trans s1)) in
                    (mk_trans (next_trans s) None [i] [next_place s] :: mk_trans (S (next_trans s)) None [next_place s1] [next_place s] ::
                     mk_trans (next_trans s2) None [S (next_place s)] [f] :: bd ++ br, Counts (next_place s2) (S (next_trans s2)))) = (B, s')).
      { rewrite <- E, Ers. unfold s0. cbn. destruct (add_tree d _ _ _) as [bd s1]. cbn. destruct (add_tree r _ _ _) as [b2 s2]. destruct (add_choice _ _ _ _ _) as [b3 s3]. reflexivity. }
      clear E Ers. inversion HS as [|? ? Hd Hrs]; subst. destruct (add_tree d _ _ s0) as [bd s1] eqn:E1. unfold s0 in E1.
      destruct (Hd _ _ _ _ _ E1) as [Hle1 HB1]; try (pp; lia). pp.
      destruct (add_choice _ _ _ _ _) as [br s2] eqn:E2. destruct (choice_ok rs2 Hrs Hne2 _ _ _ _ _ E2) as [Hle2 HB2]; try (pp; lia). pp.
      inversion E'; subst. pp. split; [lia|].
      eapply block_ext; [intros w; symmetry; apply lang_loop|].
      eapply block_widen; [|apply (block_loop Q bd br _ _ _ _ _ (next_place s) (S (next_place s)) (next_place s1) i f _ _ HB1 HB2)]; rewrite ?pre_mk, ?post_mk; auto; try ww.
    + (* or *) cbn in E. destruct (add_or add_tree _ _ cs _) as [[[inits ends] b] s1] eqn:E1. inversion E; subst.
      destruct (or_node _ _ cs HS _ _ _ _ _ E1) as (Hle & ps & Hok & Hap & Hin & -> & -> & HB & HL); try (pp; lia). pp. split; [lia|].
      assert (Hlen : length ps = length cs) by (rewrite <- (map_length o_L ps), HL, map_length; auto).
      assert (Hpn : ps <> []) by (intros ->; destruct cs; [congruence|discriminate]).
      assert (Hp2 : Q -> 2 <= length ps) by (intros q; rewrite Hlen; apply (node_inv _ _ _ (HQ q))).
      assert (HBB := block_or Q (S (next_place s)) (next_place s) ltac:(lia) ps Hok Hap Hpn Hp2).
      assert (HBw : block Q b (within s s') (S (next_place s) :: map o_ini ps) (next_place s :: map o_en ps) (orL ps)).
      { eapply block_same; [intros t; symmetry; apply HB|]. eapply block_widen; [|exact HBB].
        intros p [->|[->|(c & Hc & Hp)]]; try ww. apply (Hin _ _ Hc) in Hp. ww. }
      eapply block_ext; [|eapply block_frame; [exact HBw|..]]; rewrite ?pre_mk, ?post_mk; auto; try discriminate.
      * intros w. rewrite lang_or.
        assert (X : orL ps w <-> exists Ls' ws, select (map lang cs) Ls' /\ Ls' <> [] /\ Forall2 (fun (L : list nat -> Prop) u => L u) Ls' ws /\ shuffle ws w).
        { rewrite <- or_lang, <- HL. unfold orL, PL. split.
          - intros (l1 & c & l2 & -> & Hw). exists (map o_L l1), (o_L c), (map o_L l2). rewrite map_app. split; auto. rewrite !map_map. exact Hw.
          - intros (l1 & L & l2 & Em & Hw). apply map_eq_app in Em as (p1 & p2 & -> & <- & Em). destruct p2 as [|c p2]; [discriminate|]. inversion Em; subst.
            exists p1, c, p2. split; auto. rewrite !map_map in Hw. exact Hw. }
        rewrite X. clear. split.
        -- intros (Ls' & ws & Hs & Hn & HF & Hsh).
           assert (exists cs', select cs cs' /\ Ls' = map lang cs') as (cs' & Hs' & ->).
           { clear - Hs. remember (map lang cs) as Ls eqn:El. revert cs El. induction Hs as [|L Ls Ls' Hs IH|L Ls Ls' Hs IH]; intros cs El; destruct cs as [|c cs]; try discriminate; inversion El; subst.
             - exists []. split; [constructor|auto].
             - destruct (IH cs eq_refl) as (cs' & ? & ->). exists cs'. split; [constructor; auto|auto].
             - destruct (IH cs eq_refl) as (cs' & ? & ->). exists (c :: cs'). split; [apply sel_take; auto|auto]. }
           exists cs', ws. split; auto. split; [intros ->; auto|]. split; auto. clear - HF. revert ws HF. induction cs'; intros ws HF; inversion HF; subst; constructor; auto.
        -- intros (cs' & ws & Hs & Hn & HF & Hsh). exists (map lang cs'), ws. split; [|split; [destruct cs'; [congruence|discriminate]|split; auto]].
           ++ clear - Hs. induction Hs; cbn; [constructor|constructor; auto|apply sel_take; auto].
           ++ clear - HF. induction HF; constructor; auto.
      * split; intros p [<-|Hp]; try ww; apply in_map_iff in Hp as (c & <- & Hc).
        -- specialize (Hin c (o_ini c) Hc ltac:(unfold own; auto)). ww.
        -- specialize (Hin c (o_en c) Hc ltac:(unfold own; auto)). ww.
      * ww.
      * ww.
    + (* interleaving *) cbn in E. destruct (add_int add_tree _ cs _) as [[[inits ends] b] s1] eqn:E1. inversion E; subst.
      destruct (int_node _ cs HS _ _ _ _ _ E1) as (Hle & ps & Hok & Hap & Hin & -> & -> & HB & HL); try (pp; lia). pp. split; [lia|].
      assert (HBB := block_int Q (next_place s) ps Hok Hap).
      assert (HBw : block Q b (within s s') (next_place s :: map i_pi ps) (next_place s :: map i_pf ps) (intL ps)).
      { eapply block_same; [intros t; symmetry; apply HB|]. eapply block_widen; [|exact HBB].
        intros p [->|(c & Hc & Hp)]; try ww. apply (Hin _ _ Hc) in Hp. ww. }
      eapply block_ext; [|eapply block_frame; [exact HBw|..]]; rewrite ?pre_mk, ?post_mk; auto; try discriminate.
      * intros w. rewrite lang_int. unfold intL.
        assert (HF0 : Forall2 (fun c d => forall w, i_L c w <-> lang d w) ps cs).
        { clear - HL. revert cs HL. induction ps as [|p ps IH]; intros [|c cs] HL; try discriminate; constructor; inversion HL; [intros w; rewrite H0; tauto|auto]. }
        split.
        -- intros (ds & ws & HP & HF & ->). destruct (perm_impl2 _ _ _ _ HF0 HP) as (cs' & HP' & HF').
           exists cs', ws. split; auto. split; auto. clear - HF HF'. revert ws HF. induction HF'; intros ws HF; inversion HF; subst; constructor; auto. apply H; auto.
        -- intros (cs' & ws & HP & HF & ->).
           assert (HF1 : Forall2 (fun d c => forall w, i_L c w <-> lang d w) cs ps) by (clear - HF0; induction HF0; constructor; auto).
           destruct (perm_impl2 _ _ _ _ HF1 HP) as (ds & HP' & HF'). exists ds, ws. split; auto. split; auto.
           clear - HF HF'. revert ws HF. induction HF'; intros ws HF; inversion HF; subst; constructor; auto. apply H; auto.
      * split; intros p [<-|Hp]; try ww; apply in_map_iff in Hp as (c & <- & Hc).
        -- specialize (Hin c (i_pi c) Hc ltac:(unfold iown; auto)). ww.
        -- specialize (Hin c (i_pf c) Hc ltac:(unfold iown; auto)). ww.
      * ww.
      * ww.
Qed.
End Q.
