(** The converted net plays the token game of the diagram. *)
From Coq Require Import List Arith Bool Lia ZArith Permutation.
Import ListNotations.
From Verif Require Import Model_Petri Model_Tree Model_TreeNet Proofs_Block Model_Bpmn Spec_Bpmn.

(** ** lists *)
Lemma enum_from {X} (l : list X) : forall k i x, In (i, x) (combine (seq k (length l)) l) <-> k <= i /\ nth_error l (i - k) = Some x.
Proof.
  induction l as [|y l IH]; intros k i x; cbn [length seq combine].
  - split; [intros []|]. intros [_ H]. destruct (i - k); discriminate.
  - cbn [In]. rewrite IH. split.
    + intros [E|[H1 H2]]; [injection E as -> ->; split; [lia|]; rewrite Nat.sub_diag; auto|]. split; [lia|]. replace (i - k) with (S (i - S k)) by lia. auto.
    + intros [H1 H2]. destruct (Nat.eq_dec i k) as [->|N]; [left; rewrite Nat.sub_diag in H2; cbn in H2; congruence|]. right. split; [lia|]. replace (i - k) with (S (i - S k)) in H2 by lia. auto.
Qed.
Lemma enum_in {X} (l : list X) i x : In (i, x) (enum l) <-> nth_error l i = Some x.
Proof. unfold enum. rewrite enum_from, Nat.sub_0_r. split; [tauto|]. intros H. split; [lia|auto]. Qed.
Lemma cnt_count l p : cnt l p = count_occ Nat.eq_dec l p.
Proof. induction l as [|x l IH]; [reflexivity|]. cbn. destruct (Nat.eqb_spec x p), (Nat.eq_dec x p); try congruence; rewrite IH; reflexivity. Qed.
Lemma perm_of_cnt l k : (forall p, cnt l p = cnt k p) -> Permutation l k.
Proof. intros H. apply (Permutation_count_occ Nat.eq_dec). intros p. rewrite <- !cnt_count. auto. Qed.
Lemma perm_map_inv {X} (f : X -> nat) (l : list X) a k : Permutation (map f l) (a :: k) -> exists x l', f x = a /\ Permutation l (x :: l') /\ Permutation (map f l') k.
Proof.
  intros H. assert (Ha : In a (map f l)) by (rewrite H; left; auto). apply in_map_iff in Ha as (x & <- & Hx). apply in_split in Hx as (l1 & l2 & ->).
  exists x, (l1 ++ l2). split; auto. split; [symmetry; apply Permutation_middle|]. rewrite map_app in *. cbn in H. apply (Permutation_cons_inv (a := f x)). rewrite <- H. apply Permutation_middle.
Qed.

(** ** places *)
Definition place_of (t : token) : nat := match t with Begin => source_place | On f => flow_place f | Done => sink_place end.
Lemma place_inj x y : place_of x = place_of y -> x = y.
Proof. destruct x, y; unfold place_of, source_place, sink_place, flow_place; intros H; try lia; auto. f_equal. lia. Qed.
Lemma place_entry x n : place_of x <> entry_place n.
Proof. destruct x; unfold place_of, source_place, sink_place, flow_place, entry_place; lia. Qed.
Lemma place_exit x n : place_of x <> exiting_place n.
Proof. destruct x; unfold place_of, source_place, sink_place, flow_place, exiting_place; lia. Qed.
Lemma entry_exit n m : entry_place n <> exiting_place m.
Proof. unfold entry_place, exiting_place. lia. Qed.
Lemma entry_inj n m : entry_place n = entry_place m -> n = m. Proof. unfold entry_place. lia. Qed.
Lemma exit_inj n m : exiting_place n = exiting_place m -> n = m. Proof. unfold exiting_place. lia. Qed.

Section Conv.
  Variable d : diagram.
  Hypothesis WF : well_formed d.
  Lemma kind_unique n k k' : In (n, k) (b_nodes d) -> In (n, k') (b_nodes d) -> k = k'.
  Proof.
    destruct WF as (W & _). intros A C. induction (b_nodes d) as [|[m x] l IH]; [easy|]. cbn in W. inversion W as [|? ? W1 W2]; subst.
    destruct A as [E|A], C as [E'|C]; [congruence| | |auto]; exfalso; apply W1; [injection E as -> _; apply (in_map fst _ _ C)|injection E' as -> _; apply (in_map fst _ _ A)].
  Qed.
  Lemma kind_nth n k : In (n, k) (b_nodes d) -> kind_of d n = k.
  Proof.
    intros H. unfold kind_of. destruct (find (fun x => Nat.eqb (fst x) n) (b_nodes d)) as [[m x]|] eqn:E.
    - apply find_some in E as [E1 E2]. cbn in E2. apply Nat.eqb_eq in E2. subst m. cbn. eapply kind_unique; eauto.
    - apply (find_none _ _ E) in H. cbn in H. rewrite Nat.eqb_refl in H. discriminate.
  Qed.
  Lemma nth_handled n k : In (n, k) (b_nodes d) -> handled k = true.
  Proof. intros H. destruct k; auto. exfalso. destruct WF as (_ & _ & W & _). eapply W; eauto. Qed.
  Lemma flow_nodes i s t : In (i, (s, t)) (b_flows d) -> (exists k, In (s, k) (b_nodes d)) /\ exists k, In (t, k) (b_nodes d).
  Proof.
    intros H. destruct WF as (_ & _ & _ & W). apply W in H as [A C]. apply in_map_iff in A as ([? k] & <- & A). apply in_map_iff in C as ([? k'] & <- & C). cbn. eauto.
  Qed.
  Lemma flow_connected i f : In (i, f) (b_flows d) -> connected d f = true.
  Proof.
    destruct f as [s t]. intros H. apply flow_nodes in H as [[k A] [k' C]]. unfold connected. cbn [fst snd]. rewrite (kind_nth _ _ A), (kind_nth _ _ C), (nth_handled _ _ A), (nth_handled _ _ C). reflexivity.
  Qed.
  Lemma out_places_eq n : out_places d n = map flow_place (outgoing d n).
  Proof.
    unfold out_places, outgoing. rewrite map_map. f_equal. apply filter_ext_in. intros [i f] H. cbn [snd]. rewrite (flow_connected _ _ H). apply andb_true_r.
  Qed.
  Lemma in_places_eq n : in_places d n = map flow_place (incoming d n).
  Proof.
    unfold in_places, incoming. rewrite map_map. f_equal. apply filter_ext_in. intros [i f] H. cbn [snd]. rewrite (flow_connected _ _ H). apply andb_true_r.
  Qed.
  Lemma count_outgoing n : source_count d n = length (outgoing d n).
  Proof. unfold source_count, outgoing. now rewrite map_length. Qed.
  Lemma count_incoming n : target_count d n = length (incoming d n).
  Proof. unfold target_count, incoming. now rewrite map_length. Qed.
  Lemma outgoing_in n f : In f (outgoing d n) <-> exists t, In (f, (n, t)) (b_flows d).
  Proof.
    unfold outgoing. rewrite in_map_iff. split.
    - intros ([i [s t]] & <- & H). apply filter_In in H as [H E]. cbn in E. apply Nat.eqb_eq in E. subst. cbn. eauto.
    - intros (t & H). exists (f, (n, t)). split; auto. apply filter_In. split; auto. apply Nat.eqb_refl.
  Qed.
  Lemma incoming_in n f : In f (incoming d n) <-> exists s, In (f, (s, n)) (b_flows d).
  Proof.
    unfold incoming. rewrite in_map_iff. split.
    - intros ([i [s t]] & <- & H). apply filter_In in H as [H E]. cbn in E. apply Nat.eqb_eq in E. subst. cbn. eauto.
    - intros (t & H). exists (f, (t, n)). split; auto. apply filter_In. split; auto. apply Nat.eqb_refl.
  Qed.

  (** ** the transitions of the net *)
  Inductive role : step_of -> Prop :=
  | r_enter n k ins : In (n, k) (b_nodes d) -> enters d n k ins -> role (None, map place_of ins, [entry_place n])
  | r_act n k : In (n, k) (b_nodes d) -> role (label_of k, [entry_place n], [exiting_place n])
  | r_leave n k outs : In (n, k) (b_nodes d) -> leaves d n k outs -> role (None, [exiting_place n], map place_of outs).

  Lemma on_places l : map place_of (map On l) = map flow_place l.
  Proof. rewrite map_map. reflexivity. Qed.
  Lemma roles x : In x (all_transitions d) -> role x.
  Proof.
    unfold all_transitions. rewrite in_app_iff, !in_flat_map. intros [([n k] & Hn & H)|([i f] & Hf & H)]; cbn [fst snd] in H.
    - unfold node_transitions in H. rewrite (nth_handled _ _ Hn) in H. destruct H as [<- |H]; [eapply r_act; eauto|]. rewrite !in_app_iff in H. destruct H as [H|[H|H]].
      + destruct (splits d n) eqn:E; [|easy]. destruct H as [<- |[]]. unfold splits in E. rewrite (kind_nth _ _ Hn) in E. destruct k; try discriminate.
        apply Nat.ltb_lt in E. rewrite count_outgoing in E. rewrite out_places_eq, <- on_places. eapply r_leave; eauto. split; auto. destruct (outgoing d n); [cbn in E; lia|discriminate].
      + destruct (joins d n) eqn:E; [|easy]. destruct H as [<- |[]]. unfold joins in E. rewrite (kind_nth _ _ Hn) in E. destruct k; try discriminate.
        apply Nat.ltb_lt in E. rewrite count_incoming in E. rewrite in_places_eq, <- on_places. eapply r_enter; eauto. split; auto. destruct (incoming d n); [cbn in E; lia|discriminate].
      + destruct k; try easy; destruct H as [<- |[]].
        * change [source_place] with (map place_of [Begin]). eapply r_enter; eauto. right. auto.
        * change [sink_place] with (map place_of [Done]). eapply r_leave; eauto. right. auto.
    - unfold flow_transitions in H. rewrite (flow_connected _ _ Hf) in H. destruct f as [s t]. cbn [fst snd] in H. destruct (flow_nodes _ _ _ Hf) as [[k A] [k' B]].
      assert (Ho : In i (outgoing d s)) by (apply outgoing_in; eauto). assert (Hi : In i (incoming d t)) by (apply incoming_in; eauto).
      apply in_app_iff in H as [H|H].
      + destruct (splits d s) eqn:E; [easy|]. destruct H as [<- |[]]. change [flow_place i] with (map place_of [On i]). eapply r_leave; eauto.
        unfold splits in E. rewrite (kind_nth _ _ A), count_outgoing in E. destruct k; try (left; eauto; fail). apply Nat.ltb_ge in E.
        destruct (outgoing d s) as [|j [|? ?]] eqn:Eo; [easy| |cbn in E; lia]. destruct Ho as [->|[]]. split; [now rewrite Eo|discriminate].
      + destruct (joins d t) eqn:E; [easy|]. destruct H as [<- |[]]. change [flow_place i] with (map place_of [On i]). eapply r_enter; eauto.
        unfold joins in E. rewrite (kind_nth _ _ B), count_incoming in E. destruct k'; try (left; eauto; fail). apply Nat.ltb_ge in E.
        destruct (incoming d t) as [|j [|? ?]] eqn:Eo; [easy| |cbn in E; lia]. destruct Hi as [->|[]]. split; [now rewrite Eo|discriminate].
  Qed.
  Lemma node_trans_in n k x : In (n, k) (b_nodes d) -> In x (node_transitions d n k) -> In x (all_transitions d).
  Proof. intros A B. unfold all_transitions. apply in_app_iff. left. apply in_flat_map. exists (n, k). auto. Qed.
  Lemma flow_trans_in i f x : In (i, f) (b_flows d) -> In x (flow_transitions d i f) -> In x (all_transitions d).
  Proof. intros A B. unfold all_transitions. apply in_app_iff. right. apply in_flat_map. exists (i, f). auto. Qed.
  Lemma flow_out i s t : In (i, (s, t)) (b_flows d) -> splits d s = false -> In (None, [exiting_place s], [flow_place i]) (all_transitions d).
  Proof. intros A E. eapply flow_trans_in; [exact A|]. unfold flow_transitions. rewrite (flow_connected _ _ A). cbn [fst snd]. rewrite E. left. reflexivity. Qed.
  Lemma flow_in i s t : In (i, (s, t)) (b_flows d) -> joins d t = false -> In (None, [flow_place i], [entry_place t]) (all_transitions d).
  Proof. intros A E. eapply flow_trans_in; [exact A|]. unfold flow_transitions. rewrite (flow_connected _ _ A). cbn [fst snd]. rewrite E. apply in_app_iff. right. left. reflexivity. Qed.
  Lemma node_out n k : In (n, k) (b_nodes d) -> splits d n = true -> In (None, [exiting_place n], out_places d n) (all_transitions d).
  Proof. intros A E. eapply node_trans_in; [exact A|]. unfold node_transitions. rewrite (nth_handled _ _ A), E. right. left. reflexivity. Qed.
  Lemma node_in n k : In (n, k) (b_nodes d) -> joins d n = true -> In (None, in_places d n, [entry_place n]) (all_transitions d).
  Proof. intros A E. eapply node_trans_in; [exact A|]. unfold node_transitions. rewrite (nth_handled _ _ A), E. right. rewrite !in_app_iff. right. left. left. reflexivity. Qed.
  Lemma all_roles x : role x -> In x (all_transitions d).
  Proof.
    intros H. destruct H as [n k ins Hn He|n k Hn|n k outs Hn He].
    - assert (S1 : forall f, In f (incoming d n) -> joins d n = false -> In (None, map place_of [On f], [entry_place n]) (all_transitions d)).
      { intros f Hf Hj. apply incoming_in in Hf as (s & Hf). exact (flow_in _ _ _ Hf Hj). }
      assert (J : joins d n = match k with ParallelGateway => 1 <? target_count d n | _ => false end) by (unfold joins; rewrite (kind_nth _ _ Hn); reflexivity).
      destruct k; cbn [enters] in He; try (destruct He as [(f & Hf & ->)|[E ->]]; [apply S1; auto|]; try discriminate).
      + eapply node_trans_in; [exact Hn|]. unfold node_transitions. rewrite (nth_handled _ _ Hn). right. rewrite !in_app_iff. right. right. left. reflexivity.
      + destruct He as [-> N]. destruct (joins d n) eqn:Ej.
        * rewrite on_places, <- in_places_eq. eapply node_in; eauto.
        * symmetry in J. apply Nat.ltb_ge in J. rewrite count_incoming in J. destruct (incoming d n) as [|f [|? ?]] eqn:Ei; [exfalso; auto| |cbn in J; lia]. apply S1; [left|]; auto.
    - eapply node_trans_in; [exact Hn|]. unfold node_transitions. rewrite (nth_handled _ _ Hn). left. reflexivity.
    - assert (S1 : forall f, In f (outgoing d n) -> splits d n = false -> In (None, [exiting_place n], map place_of [On f]) (all_transitions d)).
      { intros f Hf Hj. apply outgoing_in in Hf as (s & Hf). exact (flow_out _ _ _ Hf Hj). }
      assert (J : splits d n = match k with ParallelGateway => 1 <? source_count d n | _ => false end) by (unfold splits; rewrite (kind_nth _ _ Hn); reflexivity).
      destruct k; cbn [leaves] in He; try (destruct He as [(f & Hf & ->)|[E ->]]; [apply S1; auto|]; try discriminate).
      + eapply node_trans_in; [exact Hn|]. unfold node_transitions. rewrite (nth_handled _ _ Hn). right. rewrite !in_app_iff. right. right. left. reflexivity.
      + destruct He as [-> N]. destruct (splits d n) eqn:Ej.
        * rewrite on_places, <- out_places_eq. eapply node_out; eauto.
        * symmetry in J. apply Nat.ltb_ge in J. rewrite count_outgoing in J. destruct (outgoing d n) as [|f [|? ?]] eqn:Ei; [exfalso; auto| |cbn in J; lia]. apply S1; [left|]; auto.
  Qed.
  Lemma numbered l t : In t (number l) <-> exists i lab a b, nth_error l i = Some (lab, a, b) /\ t = mk_trans i lab a b.
  Proof.
    unfold number. rewrite in_map_iff. split.
    - intros ([i [[lab a] b]] & E & H). apply enum_in in H. exists i, lab, a, b. auto.
    - intros (i & lab & a & b & H & ->). exists (i, (lab, a, b)). split; auto. apply enum_in. auto.
  Qed.
  Lemma mk_pre i lab a b : pre (mk_trans i lab a b) = a.
  Proof. unfold pre, mk_trans, arcs. cbn [t_in]. rewrite map_map. cbn. apply map_id. Qed.
  Lemma mk_post i lab a b : post (mk_trans i lab a b) = b.
  Proof. unfold post, mk_trans, arcs. cbn [t_out]. rewrite map_map. cbn. apply map_id. Qed.
  Lemma net_role t : In t (n_trans (raw_net d)) -> role (t_label t, pre t, post t).
  Proof. cbn [raw_net n_trans]. intros H. apply numbered in H as (i & lab & a & b & H & ->). rewrite mk_pre, mk_post. apply roles. eapply nth_error_In; eauto. Qed.
  Lemma role_net lab a b : role (lab, a, b) -> exists t, In t (n_trans (raw_net d)) /\ t_label t = lab /\ pre t = a /\ post t = b.
  Proof.
    intros H. apply all_roles in H. apply In_nth_error in H as (i & H). exists (mk_trans i lab a b). rewrite mk_pre, mk_post. split; [|auto]. cbn [raw_net n_trans]. apply numbered. eauto 8.
  Qed.

  (** ** from the net to the token game *)
  Notation B := (n_trans (raw_net d)).
  Definition valid_in (e : nat * state) : Prop := exists k, In (fst e, k) (b_nodes d) /\ enters d (fst e) k (snd e).
  Definition valid_out (e : nat * state) : Prop := exists k, In (fst e, k) (b_nodes d) /\ leaves d (fst e) k (snd e).
  Definition conf (F : state) (es : list nat) (X : list (nat * state)) : list nat := map place_of F ++ map entry_place es ++ map (fun x => exiting_place (fst x)) X.
  Definition is_at (m : mk) (F : state) (es : list nat) (X : list (nat * state)) : Prop := forall p, m p = cnt (conf F es X) p.
  Lemma cnt_place_0 F p : (forall x, place_of x <> p) -> cnt (map place_of F) p = 0.
  Proof. intros H. apply cnt_notin. intros Hi. apply in_map_iff in Hi as (x & E & _). exact (H x E). Qed.
  Lemma entry_there m F es X n : is_at m F es X -> 1 <= m (entry_place n) -> exists es', Permutation es (n :: es').
  Proof.
    intros H L. rewrite (H _) in L. unfold conf in L. rewrite !cnt_app, cnt_place_0 in L by (intros; apply place_entry). 
    rewrite (cnt_notin (map (fun x => exiting_place (fst x)) X)) in L by (intros Hi; apply in_map_iff in Hi as (x & E & _); symmetry in E; exact (entry_exit _ _ E)).
    assert (Hi : In (entry_place n) (map entry_place es)) by (apply cnt_in; lia). apply in_map_iff in Hi as (n' & E & Hi). apply entry_inj in E as ->.
    apply in_split in Hi as (a & b & ->). exists (a ++ b). symmetry. apply Permutation_middle.
  Qed.
  Lemma exit_there m F es X n : is_at m F es X -> 1 <= m (exiting_place n) -> exists o X', Permutation X ((n, o) :: X').
  Proof.
    intros H L. rewrite (H _) in L. unfold conf in L. rewrite !cnt_app, cnt_place_0 in L by (intros; apply place_exit). 
    rewrite (cnt_notin (map entry_place es)) in L by (intros Hi; apply in_map_iff in Hi as (x & E & _); exact (entry_exit _ _ E)).
    assert (Hi : In (exiting_place n) (map (fun x => exiting_place (fst x)) X)) by (apply cnt_in; lia). apply in_map_iff in Hi as ([n' o] & E & Hi). apply exit_inj in E. cbn in E. subst n'.
    apply in_split in Hi as (a & b & ->). exists o, (a ++ b). symmetry. apply Permutation_middle.
  Qed.
  Lemma tokens_there outs : forall m F es X, is_at m F es X -> (forall p, cnt (map place_of outs) p <= m p) -> exists F', Permutation F (outs ++ F').
  Proof.
    induction outs as [|x outs IH]; intros m F es X H L; [exists F; auto|].
    assert (Hx : 1 <= m (place_of x)). { specialize (L (place_of x)). cbn [map cnt] in L. rewrite Nat.eqb_refl in L. lia. }
    rewrite (H _) in Hx. unfold conf in Hx. rewrite !cnt_app in Hx.
    rewrite (cnt_notin (map entry_place es)) in Hx by (intros Hi; apply in_map_iff in Hi as (z & E & _); symmetry in E; exact (place_entry _ _ E)).
    rewrite (cnt_notin (map (fun x => exiting_place (fst x)) X)) in Hx by (intros Hi; apply in_map_iff in Hi as (z & E & _); symmetry in E; exact (place_exit _ _ E)).
    assert (Hi : In (place_of x) (map place_of F)) by (apply cnt_in; lia). apply in_map_iff in Hi as (y & E & Hi). apply place_inj in E as ->.
    apply in_split in Hi as (a & b & ->).
    destruct (IH (fun p => m p - cnt [place_of x] p) (a ++ b) es X) as (F' & P).
    - intros p. rewrite (H p). unfold conf. rewrite !map_app, !cnt_app. cbn [map cnt]. lia.
    - intros p. specialize (L p). cbn [map cnt] in *. lia.
    - exists F'. rewrite <- Permutation_middle. cbn. now apply perm_skip.
  Qed.
  Lemma is_at_perm m F es X F' es' X' : is_at m F es X -> Permutation F F' -> Permutation es es' -> Permutation X X' -> is_at m F' es' X'.
  Proof. intros H A C D p. rewrite (H p). apply cnt_perm. unfold conf. rewrite A, C, D. reflexivity. Qed.
  Definition held (E : list (nat * state)) : state := concat (map snd E).
  Lemma held_perm E E' : Permutation E E' -> Permutation (held E) (held E').
  Proof. intros P. unfold held. induction P; cbn; auto; [now apply Permutation_app_head|rewrite !app_assoc; now apply Permutation_app_tail, Permutation_app_comm|etransitivity; eauto]. Qed.
  Lemma steps_perm s w s1 s2 : steps d s w s1 -> Permutation s1 s2 -> steps d s w s2.
  Proof. intros H P. destruct H as [s s' P'|]; [constructor; now rewrite P'|]. eapply s_node; eauto. now rewrite <- P. Qed.
  Lemma shows_label k : match label_of k with Some a => [a] | None => [] end = shows k.
  Proof. destruct k as [[a|]| | | | |]; reflexivity. Qed.

  Lemma back m0 w m : runs B m0 w m -> (forall p, m0 p = cnt [source_place] p) ->
    forall F es X, is_at m F es X -> Forall valid_out X -> exists E, Permutation (map fst E) es /\ Forall valid_in E /\ steps d [Begin] w (F ++ held E ++ held X).
  Proof.
    induction 1 as [m0 m' Eq|m0 w m1 t m2 Hr IH Ht Hf]; intros H0 F es X H V.
    - assert (P : Permutation (conf F es X) [source_place]) by (apply perm_of_cnt; intros p; rewrite <- (H p), <- Eq; auto).
      pose proof (Permutation_length P) as Lp. unfold conf in *. rewrite !app_length, !map_length in Lp. cbn in Lp.
      assert (Hs : In source_place (map place_of F ++ map entry_place es ++ map (fun x => exiting_place (fst x)) X)) by (rewrite P; left; auto).
      rewrite !in_app_iff, !in_map_iff in Hs. destruct Hs as [(x & E & Hx)|[(x & E & _)|(x & E & _)]]; [|unfold entry_place, source_place in E; lia|unfold exiting_place, source_place in E; lia].
      destruct F as [|y [|? ?]]; [easy| |cbn in Lp; lia]. destruct Hx as [->|[]]. destruct es; [|cbn in Lp; lia]. destruct X; [|cbn in Lp; lia].
      exists []. split; auto. split; auto. cbn. constructor. destruct x; auto; unfold place_of, flow_place, sink_place, source_place in E; lia.
    - destruct Hf as [Hf1 Hf2]. pose proof (net_role t Ht) as R. remember (t_label t, pre t, post t) as x eqn:Ex.
      destruct R as [n k ins Hn He|n k Hn|n k outs Hn He]; injection Ex as El Ep Eq.
      + assert (L : 1 <= m2 (entry_place n)). { specialize (Hf2 (entry_place n)). rewrite <- Ep, <- Eq in Hf2. rewrite cnt_place_0 in Hf2 by (intros; apply place_entry). cbn [cnt] in Hf2. rewrite Nat.eqb_refl in Hf2. lia. }
        destruct (entry_there _ _ _ _ _ H L) as (es0 & P). pose proof (is_at_perm _ _ _ _ _ _ _ H (Permutation_refl F) P (Permutation_refl X)) as H1.
        destruct (IH H0 (ins ++ F) es0 X) as (E & PE & VE & S); auto.
        * intros p. specialize (Hf2 p). rewrite <- Ep, <- Eq, (H1 p) in Hf2. unfold conf in *. rewrite map_app, !cnt_app in *. cbn [map cnt] in *. lia.
        * exists ((n, ins) :: E). split; [cbn; rewrite PE; symmetry; exact P|]. split; [constructor; auto; exists k; auto|].
          replace (vis t) with (@nil nat) by (unfold vis; rewrite <- El; reflexivity). rewrite app_nil_r. eapply steps_perm; [exact S|]. cbn [held map concat snd]. unfold held.
          rewrite <- !app_assoc. rewrite Permutation_app_swap_app. reflexivity.
      + assert (L : 1 <= m2 (exiting_place n)). { specialize (Hf2 (exiting_place n)). rewrite <- Ep, <- Eq in Hf2. cbn [cnt] in Hf2. rewrite Nat.eqb_refl in Hf2. rewrite (proj2 (Nat.eqb_neq (entry_place n) (exiting_place n))) in Hf2 by apply entry_exit. lia. }
        destruct (exit_there _ _ _ _ _ H L) as (o & X0 & P). pose proof (is_at_perm _ _ _ _ _ _ _ H (Permutation_refl F) (Permutation_refl es) P) as H1.
        rewrite P in V. inversion V as [|? ? Vo V0]; subst.
        destruct (IH H0 F (n :: es) X0) as (E & PE & VE & S); auto.
        * intros p. specialize (Hf2 p). rewrite <- Ep, <- Eq, (H1 p) in Hf2. unfold conf in *. rewrite !cnt_app in *. cbn [map cnt fst] in *. lia.
        * symmetry in PE. assert (Hi : In n (map fst E)) by (rewrite <- PE; left; auto). apply in_map_iff in Hi as ([n' i] & En & Hi). cbn in En. subst n'. apply in_split in Hi as (a & b & ->).
          assert (PP : Permutation (a ++ (n, i) :: b) ((n, i) :: a ++ b)) by (symmetry; apply Permutation_middle).
          rewrite PP in VE. inversion VE as [|? ? (k' & Hk' & Hi) VE']; subst. cbn [fst snd] in *. assert (k' = k) by (eapply kind_unique; eauto). subst k'.
          exists (a ++ b). split; [rewrite PP in PE; cbn in PE; apply Permutation_cons_inv in PE; symmetry; exact PE|]. split; auto.
          replace (vis t) with (shows k) by (unfold vis; rewrite <- El; symmetry; apply shows_label).
          destruct Vo as (k2 & Hk2 & Ho). cbn [fst snd] in *. assert (k2 = k) by (eapply kind_unique; eauto). subst k2.
          eapply (s_node d _ w _ n k i o (F ++ held (a ++ b) ++ held X0)); eauto.
          -- rewrite (held_perm _ _ PP). cbn [held map concat snd]. rewrite <- !app_assoc, Permutation_app_swap_app. reflexivity.
          -- rewrite (held_perm _ _ P). cbn [held map concat snd]. fold (held X0). rewrite (Permutation_app_swap_app (held (a ++ b))). rewrite (Permutation_app_swap_app F). reflexivity.
      + assert (L : forall p, cnt (map place_of outs) p <= m2 p).
        { intros p. specialize (Hf2 p). specialize (Hf1 p). rewrite <- Ep, <- Eq in *. lia. }
        destruct (tokens_there outs _ _ _ _ H L) as (F0 & P). pose proof (is_at_perm _ _ _ _ _ _ _ H P (Permutation_refl es) (Permutation_refl X)) as H1.
        destruct (IH H0 F0 es ((n, outs) :: X)) as (E & PE & VE & S); auto.
        * intros p. specialize (Hf2 p). rewrite <- Ep, <- Eq, (H1 p) in Hf2. unfold conf in *. rewrite map_app, !cnt_app in *. cbn [map cnt fst] in *. lia.
        * constructor; auto. exists k. auto.
        * exists E. split; auto. split; auto. replace (vis t) with (@nil nat) by (unfold vis; rewrite <- El; reflexivity). rewrite app_nil_r. eapply steps_perm; [exact S|].
          cbn [held map concat snd]. fold (held X). rewrite (Permutation_app_swap_app (held E)). rewrite (Permutation_app_swap_app F0). rewrite P, <- app_assoc. reflexivity.
  Qed.

  (** ** from the token game to the net *)
  Definition as_marking (s : state) : mk := fun p => cnt (map place_of s) p.
  Lemma forth s w s' : steps d s w s' -> runs B (as_marking s) w (as_marking s').
  Proof.
    induction 1 as [s s' P|s w s1 n k ins outs rest s2 H IH Hn He Ho P1 P2].
    - constructor. intros p. unfold as_marking. apply cnt_perm. now rewrite P.
    - destruct (role_net _ _ _ (r_enter n k ins Hn He)) as (t1 & T1 & L1 & A1 & B1). destruct (role_net _ _ _ (r_act n k Hn)) as (t2 & T2 & L2 & A2 & B2).
      destruct (role_net _ _ _ (r_leave n k outs Hn Ho)) as (t3 & T3 & L3 & A3 & B3).
      replace (w ++ shows k) with (((w ++ vis t1) ++ vis t2) ++ vis t3) by (unfold vis; rewrite L1, L2, L3, shows_label, !app_nil_r; reflexivity).
      eapply r_snoc with (m1 := fun p => cnt (exiting_place n :: map place_of rest) p); [eapply r_snoc with (m1 := fun p => cnt (entry_place n :: map place_of rest) p); [eapply r_snoc with (m1 := as_marking s1); [exact IH|exact T1|]|exact T2|]|exact T3|].
      + split; intros p; unfold as_marking; rewrite ?A1, ?B1, (cnt_perm _ _ p (Permutation_map place_of P1)), map_app, cnt_app; cbn [cnt]; lia.
      + split; intros p; rewrite ?A2, ?B2; cbn [cnt]; lia.
      + split; intros p; unfold as_marking; rewrite ?A3, ?B3, ?(cnt_perm _ _ p (Permutation_map place_of P2)), ?map_app, ?cnt_app; cbn [cnt]; lia.
  Qed.
  Theorem net_plays w : runs B (fun p => cnt [source_place] p) w (fun p => cnt [sink_place] p) <-> plays d w.
  Proof.
    split.
    - intros H. destruct (back _ _ _ H (fun p => eq_refl) [Done] [] []) as (E & PE & _ & S); [intros p; reflexivity|constructor|].
      symmetry in PE. apply Permutation_nil in PE. destruct E; [|discriminate]. exact S.
    - intros H. exact (forth _ _ _ H).
  Qed.
End Conv.
