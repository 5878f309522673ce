(** Proofs about the playout. *)
From stdpp Require Import gmap.
From Coq Require Import ZArith Lia Permutation.
From Verif Require Import Model_Petri Spec_Petri Proofs_Petri Model_Dict Proofs_Dict Model_Playout.

Lemma labels_app a b : labels (a ++ b) = labels a ++ labels b.
Proof. unfold labels. rewrite map_app, concat_app. reflexivity. Qed.
Lemma labels_visible els : labels els = visible (map snd els).
Proof. induction els as [|[m t] els IH]; [reflexivity|]. unfold labels in *. cbn. destruct (t_label t); cbn; rewrite IH; reflexivity. Qed.
Lemma visible_app a b : visible (a ++ b) = visible a ++ visible b.
Proof. induction a as [|t a IH]; [reflexivity|]. cbn. destruct (t_label t); cbn; rewrite IH; reflexivity. Qed.

(** a list of steps is a firing sequence *)
Inductive steps (pn : petri_net (option nat)) : marking -> list step -> marking -> Prop :=
| st_nil m : steps pn m [] m
| st_snoc m els m1 t m2 : steps pn m els m1 -> fires pn t m1 m2 -> steps pn m (els ++ [(m1, t)]) m2.
Lemma steps_run pn m els m' : steps pn m els m' -> run pn m (map snd els) m'.
Proof.
  induction 1 as [|m els m1 t m2 H IH Hf]; [constructor|]. rewrite map_app. eapply run_app; [exact IH|]. cbn. econstructor; [exact Hf|constructor].
Qed.

Section P.
  Context (pn : petri_net (option nat)) (HS : simple_net pn) (HD : distinct_ids pn).

  Lemma ident t : In t (n_trans pn) -> identified pn t.
  Proof.
    intros Ht u Hu E. unfold distinct_ids in HD. revert Ht Hu. induction (n_trans pn) as [|x l IH]; intros Ht Hu; [contradiction|].
    cbn in HD. inversion HD as [|? ? Hni Hnd]; subst. destruct Ht as [->|Ht], Hu as [->|Hu]; [reflexivity| | |].
    - exfalso. apply Hni. rewrite <- E. apply in_map, Hu.
    - exfalso. apply Hni. rewrite E. apply in_map, Ht.
    - apply IH; assumption.
  Qed.
  Lemma enabled_iff m t : proper m -> In t (enabled_transitions pn m) <-> In t (n_trans pn) /\ enabled_at t m.
  Proof.
    intros Hm. unfold enabled_transitions. rewrite filter_In. split.
    - intros [Hi He]. apply (is_enabled_iff pn t m (ident t Hi) (HS t Hi) Hm) in He. exact He.
    - intros [Hi He]. split; [exact Hi|]. apply (is_enabled_iff pn t m (ident t Hi) (HS t Hi) Hm). auto.
  Qed.
  Lemma fires_weak m t m' : proper m -> fires pn t m m' <-> In t (enabled_transitions pn m) /\ m' = weak_execute t m.
  Proof.
    intros Hm. rewrite (enabled_iff m t Hm). split.
    - intros Hf. pose proof Hf as (Hi & He & _). split; [auto|].
      eapply fires_det; [exact Hf|]. apply weak_execute_fires; auto.
    - intros [[Hi He] ->]. apply weak_execute_fires; auto.
  Qed.

  Section E.
    Context (fm : option marking) (max_len : nat) (max_occ : option nat).
    Context (tord : list (transition (option nat)) -> list (transition (option nat))).
    Context (Htord : forall l, Permutation (tord l) l).
    Context (im : marking) (Him : proper im).
    Notation next := (next_states pn max_len max_occ tord).
    Notation accepted := (accepted pn fm max_len).
    Notation loop := (ext_loop pn fm max_len max_occ tord).

    Lemma seen_iff v m w : seen v m w = true <-> In (m, w) v.
    Proof.
      unfold seen. rewrite existsb_exists. split.
      - intros ([m' w'] & Hi & E). apply andb_true_iff in E as [E1 E2]. unfold m_eqb in E1. apply bool_decide_eq_true in E1.
        cbn [fst snd] in *. destruct (keqb_spec w' w) as [E3|]; [|discriminate]. subst. exact Hi.
      - intros Hi. exists (m, w). split; [exact Hi|]. cbn [fst snd]. apply andb_true_iff. split; [apply bool_decide_eq_true; reflexivity|].
        destruct (keqb_spec w w); congruence.
    Qed.
    Definition ext (w : list nat) (t : transition (option nat)) : list nat := match t_label t with Some a => w ++ [a] | None => w end.
    Lemma ext_labels els m t : labels (els ++ [(m, t)]) = ext (labels els) t.
    Proof. rewrite labels_app. unfold ext, labels at 2. cbn. destruct (t_label t); [reflexivity|apply app_nil_r]. Qed.
    Lemma next_iff m w els x : In x (next m w els) <->
      exists t, In t (enabled_transitions pn m) /\ too_often max_occ els m = false /\ length (ext w t) <= max_len /\ x = (weak_execute t m, ext w t, els ++ [(m, t)]).
    Proof.
      unfold next_states. rewrite in_concat. split.
      - intros (l & Hl & Hx). apply in_map_iff in Hl as (t & <- & Ht). apply (Permutation_in _ (Htord _)) in Ht.
        destruct (too_often max_occ els m) eqn:Eo; [contradiction|]. cbv zeta in Hx. fold (ext w t) in Hx.
        destruct (Nat.ltb_spec max_len (length (ext w t))); [contradiction|]. destruct Hx as [<-|[]]. exists t. auto.
      - intros (t & Ht & Eo & Hl & ->). exists [(weak_execute t m, ext w t, els ++ [(m, t)])]. split; [|left; reflexivity].
        apply in_map_iff. exists t. split; [|apply (Permutation_in _ (Permutation_sym (Htord _))), Ht].
        rewrite Eo. cbv zeta. fold (ext w t). destruct (Nat.ltb_spec max_len (length (ext w t))); [lia|reflexivity].
    Qed.

    (** reachable pairs *)
    Definition okstate (x : marking * list nat * list step) : Prop :=
      let '(m, w, els) := x in steps pn im els m /\ labels els = w /\ length w <= max_len.
    Lemma next_ok m w els x : okstate (m, w, els) -> In x (next m w els) -> okstate x.
    Proof.
      intros (H & E & Hl) Hx. apply next_iff in Hx as (t & Ht & _ & Hl' & ->). split; [|split; [|exact Hl']].
      - apply st_snoc with (weak_execute t m) || (eapply st_snoc; [exact H|]). apply fires_weak; [|auto].
        apply (run_proper pn im (map snd els)); [exact Him|]. apply steps_run, H.
      - rewrite ext_labels, E. reflexivity.
    Qed.
    Lemma accepted_iff m w : length w <= max_len -> accepted m w = true <->
      match fm with Some f => m = f | None => enabled_transitions pn m = [] end.
    Proof.
      intros Hl. unfold Model_Playout.accepted. rewrite (proj2 (Nat.leb_le _ _) Hl), andb_true_r.
      destruct fm as [f|]; [apply bool_decide_eq_true|]. destruct (enabled_transitions pn m); split; congruence.
    Qed.

    (** Soundness of the loop. *)
    Definition good_result (els : list step) : Prop :=
      length (labels els) <= max_len /\ exists m, steps pn im els m /\ match fm with Some f => m = f | None => enabled_transitions pn m = [] end.
    Lemma loop_sound fuel : forall tv vis fea res, (forall x, In x tv -> okstate x) -> (forall e, In e fea -> good_result e) ->
      loop fuel tv vis fea = Some res -> forall e, In e res -> good_result e.
    Proof.
      induction fuel as [|fuel IH]; intros tv vis fea res Htv Hfea E; [discriminate|]. cbn in E.
      destruct tv as [|[[m w] els] tv]; [injection E as <-; exact Hfea|].
      pose proof (Htv _ (or_introl eq_refl)) as Hok.
      destruct (seen vis m w); [eapply IH; [| |exact E]; auto; intros x Hx; apply Htv; right; exact Hx|].
      eapply IH; [| |exact E].
      - intros x Hx. apply in_app_iff in Hx as [Hx|Hx]; [apply Htv; right; exact Hx|]. eapply next_ok; eauto.
      - intros e He. destruct (accepted m w) eqn:Ea; [|apply Hfea, He]. apply in_app_iff in He as [He|[<-|[]]]; [apply Hfea, He|].
        destruct Hok as (H & El & Hl). apply (accepted_iff m w Hl) in Ea. split; [rewrite El; exact Hl|]. eauto.
    Qed.

    (** The results correspond to the accepting visited pairs. *)
    Definition acc_traces (vis : list (marking * list nat)) : list (list nat) :=
      map snd (List.filter (fun v => accepted (fst v) (snd v)) (rev vis)).
    Lemma loop_vis fuel : forall tv vis fea res, (forall x, In x tv -> okstate x) -> map labels fea = acc_traces vis -> List.NoDup vis ->
      loop fuel tv vis fea = Some res -> exists vis', map labels res = acc_traces vis' /\ List.NoDup vis' /\
        (forall v, In v vis -> In v vis') /\ (forall x, In x tv -> In (fst x) vis') /\
        (max_occ = None -> (forall m w t, In (m, w) vis -> In t (enabled_transitions pn m) -> length (ext w t) <= max_len ->
               In (weak_execute t m, ext w t) vis \/ exists els, In (weak_execute t m, ext w t, els) tv) ->
         forall m w t, In (m, w) vis' -> In t (enabled_transitions pn m) -> length (ext w t) <= max_len -> In (weak_execute t m, ext w t) vis').
    Proof.
      induction fuel as [|fuel IH]; intros tv vis fea res Htv Hfea Hnd E; [discriminate|]. cbn in E.
      destruct tv as [|[[m w] els] tv].
      { injection E as <-. exists vis. split; [exact Hfea|]. split; [exact Hnd|]. split; [auto|]. split; [intros x []|].
        intros _ HC m w t H1 H2 H3. destruct (HC m w t H1 H2 H3) as [H|[els []]]. exact H. }
      pose proof (Htv _ (or_introl eq_refl)) as Hok.
      destruct (seen vis m w) eqn:Es.
      - apply seen_iff in Es. destruct (IH tv vis fea res) as (vis' & A & B & C & D & F); auto; [intros x Hx; apply Htv; right; exact Hx|].
        exists vis'. split; [exact A|]. split; [exact B|]. split; [exact C|]. split; [intros x [<-|Hx]; [apply C, Es|apply D, Hx]|].
        intros HO HC. apply F; [exact HO|]. intros m0 w0 t H1 H2 H3. destruct (HC m0 w0 t H1 H2 H3) as [H|[els0 [[= E1 E2 E3]|H]]]; [auto| |right; eauto].
        left. rewrite <- E1, <- E2. exact Es.
      - assert (Hn : ~ In (m, w) vis) by (intros H; apply seen_iff in H; congruence).
        destruct (IH (tv ++ next m w els) ((m, w) :: vis) (if accepted m w then fea ++ [els] else fea) res) as (vis' & A & B & C & D & F); auto.
        + intros x Hx. apply in_app_iff in Hx as [Hx|Hx]; [apply Htv; right; exact Hx|]. eapply next_ok; eauto.
        + unfold acc_traces. cbn [rev]. rewrite List.filter_app, map_app. cbn [List.filter fst snd].
          destruct (accepted m w); cbn [map]; [|rewrite app_nil_r; exact Hfea]. rewrite map_app. cbn [map]. f_equal; [exact Hfea|].
          destruct Hok as (_ & -> & _). reflexivity.
        + constructor; auto.
        + exists vis'. split; [exact A|]. split; [exact B|]. split; [intros v Hv; apply C; right; exact Hv|].
          split; [intros x [<-|Hx]; [apply C; left; reflexivity|apply D, in_app_iff; auto]|].
          intros HO HC. apply F; [exact HO|]. intros m0 w0 t H1 H2 H3. destruct H1 as [[= <- <-]|H1].
          * right. exists (els ++ [(m, t)]). apply in_app_iff. right. apply next_iff. exists t. split; [exact H2|]. split; [rewrite HO; reflexivity|]. auto.
          * destruct (HC m0 w0 t H1 H2 H3) as [H|[els0 [[= E1 E2 E3]|H]]].
            -- left. right. exact H.
            -- left. left. congruence.
            -- right. exists els0. apply in_app_iff. auto.
    Qed.
    Lemma closed_all (vis : list (marking * list nat)) : In (im, []) vis ->
      (forall m w t, In (m, w) vis -> In t (enabled_transitions pn m) -> length (ext w t) <= max_len -> In (weak_execute t m, ext w t) vis) ->
      forall ts m, run pn im ts m -> length (visible ts) <= max_len -> In (m, visible ts) vis.
    Proof.
      intros H0 HC ts. induction ts as [|t ts IH] using rev_ind; intros m Hr Hl.
      - inversion Hr; subst. exact H0.
      - apply run_app_inv in Hr as (m1 & Hr & Ht). inversion Ht as [|? ? m2 ? ? Hf Hn]; subst. inversion Hn; subst.
        rewrite visible_app in Hl |- *. rewrite app_length in Hl.
        apply fires_weak in Hf as [He ->]; [|apply (run_proper pn im ts); assumption].
        assert (EX : visible ts ++ visible [t] = ext (visible ts) t). { unfold ext. cbn. destruct (t_label t); [reflexivity|apply app_nil_r]. }
        rewrite EX. apply HC; [apply IH; [exact Hr|lia]|exact He|]. rewrite <- EX, app_length. exact Hl.
    Qed.
    Lemma extensive_sound fuel els : extensive_elements pn fm max_len max_occ tord fuel im = Some els -> forall e, In e els -> good_result e.
    Proof.
      unfold extensive_elements. intros E. eapply loop_sound; [| |exact E].
      - intros x [<-|[]]. split; [constructor|]. split; [reflexivity|cbn; lia].
      - intros e [].
    Qed.
    Lemma extensive_complete fuel els : extensive_elements pn fm max_len max_occ tord fuel im = Some els -> max_occ = None ->
      forall ts m, run pn im ts m -> length (visible ts) <= max_len ->
      match fm with Some f => m = f | None => enabled_transitions pn m = [] end -> In (visible ts) (map labels els).
    Proof.
      unfold extensive_elements. intros E HO ts m Hr Hl Hm.
      destruct (loop_vis fuel [(im, [], [])] [] [] els) as (vis & A & B & _ & D & F); auto; [|constructor|].
      - intros x [<-|[]]. split; [constructor|]. split; [reflexivity|cbn; lia].
      - rewrite A. unfold acc_traces. apply in_map_iff. exists (m, visible ts). split; [reflexivity|]. apply filter_In. split.
        + rewrite <- in_rev. apply closed_all; [apply (D (im, [], [])); left; reflexivity|apply F; [exact HO|intros m0 w0 t []]|exact Hr|exact Hl].
        + apply accepted_iff; auto.
    Qed.
    Lemma extensive_nodup fuel els f : fm = Some f -> extensive_elements pn fm max_len max_occ tord fuel im = Some els -> List.NoDup (map labels els).
    Proof.
      unfold extensive_elements. intros Ef E.
      destruct (loop_vis fuel [(im, [], [])] [] [] els) as (vis & A & B & _); auto; [|constructor|].
      - intros x [<-|[]]. split; [constructor|]. split; [reflexivity|cbn; lia].
      - rewrite A. unfold acc_traces. apply NoDup_rev in B. induction B as [|[m w] l Hn B IH]; [constructor|]. cbn [List.filter fst snd].
        destruct (accepted m w) eqn:Ea; [|exact IH]. cbn [map snd]. constructor; [|exact IH].
        intros Hi. apply in_map_iff in Hi as ([m' w'] & E1 & Hi). cbn in E1. subst w'. apply filter_In in Hi as [Hi Ea']. cbn [fst snd] in Ea'.
        apply Hn. enough (m = m') by (subst m'; exact Hi). unfold Model_Playout.accepted in Ea, Ea'. rewrite Ef in Ea, Ea'.
        apply andb_true_iff in Ea as [Ea _]. apply andb_true_iff in Ea' as [Ea' _]. unfold m_eqb in *. apply bool_decide_eq_true in Ea, Ea'. congruence.
    Qed.

    (** Termination when finitely many pairs are reachable. *)
    Lemma loop_terminates (univ : list (marking * list nat)) :
      (forall ts m, run pn im ts m -> length (visible ts) <= max_len -> In (m, visible ts) univ) ->
      forall k len tv vis, length univ <= k + length vis -> List.NoDup vis -> (forall v, In v vis -> In v univ) -> length tv <= len ->
      (forall x, In x tv -> okstate x) -> forall fea, exists f0, forall fuel, f0 <= fuel -> loop fuel tv vis fea <> None.
    Proof.
      intros HU. assert (OKU : forall m w els, okstate (m, w, els) -> In (m, w) univ).
      { intros m w els (H & E & Hl). apply steps_run in H. rewrite <- E, labels_visible. apply HU; [exact H|]. rewrite <- labels_visible, E. exact Hl. }
      induction k as [k IHk] using lt_wf_ind. induction len as [|len IHl]; intros tv vis Hk Hnd Hv Hlen Hok fea.
      { destruct tv; [exists 1; intros [|fuel] Hf; [lia|]; discriminate|cbn in Hlen; lia]. }
      destruct tv as [|[[m w] els] tv]; [exists 1; intros [|fuel] Hf; [lia|]; discriminate|].
      cbn [length] in Hlen. pose proof (Hok _ (or_introl eq_refl)) as Hok0.
      destruct (seen vis m w) eqn:Es.
      { destruct (IHl tv vis Hk Hnd Hv ltac:(lia) ltac:(intros x Hx; apply Hok; right; exact Hx) fea) as (f0 & H).
        exists (S f0). intros [|fuel] Hf; [lia|]. cbn. rewrite Es. apply H. lia. }
      destruct k as [|k].
      - exfalso. assert (Hn : ~ In (m, w) vis) by (intros H; apply seen_iff in H; congruence).
        assert (length ((m, w) :: vis) <= length univ); [|cbn in *; lia].
        apply NoDup_incl_length; [constructor; assumption|]. intros v [<-|Hv']; [exact (OKU m w els Hok0)|apply Hv, Hv'].
      - assert (Hn : ~ In (m, w) vis) by (intros H; apply seen_iff in H; congruence).
        destruct (IHk k ltac:(lia) (length (tv ++ next m w els)) (tv ++ next m w els) ((m, w) :: vis)) with (fea := if accepted m w then fea ++ [els] else fea) as (f0 & H).
        + cbn [length]. lia.
        + constructor; assumption.
        + intros v [<-|Hv']; [exact (OKU m w els Hok0)|apply Hv, Hv'].
        + lia.
        + intros x Hx. apply in_app_iff in Hx as [Hx|Hx]; [apply Hok; right; exact Hx|]. eapply next_ok; eauto.
        + exists (S f0). intros [|fuel] Hf; [lia|]. cbn. rewrite Es. apply H. lia.
    Qed.
  End E.
End P.
