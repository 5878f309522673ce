(** The bound on the occurrences of a marking in the extensive playout. *)
From stdpp Require Import gmap.
From Coq Require Import ZArith Lia Permutation.
From Verif Require Import Model_Petri Spec_Petri Proofs_Petri Model_Dict Proofs_Dict Model_Playout Proofs_Playout.
From Verif Require Proofs_Dfg.

Definition occurs (m : marking) (els : list step) : nat := length (List.filter (fun e => m_eqb (fst e) m) els).

(** the markings passed, each with the word up to it *)
Fixpoint srcs_from (pre els : list step) : list (marking * list nat) :=
  match els with [] => [] | e :: r => (fst e, labels pre) :: srcs_from (pre ++ [e]) r end.
Definition srcs := srcs_from [].
Lemma srcs_from_snoc els : forall pre e, srcs_from pre (els ++ [e]) = srcs_from pre els ++ [(fst e, labels (pre ++ els))].
Proof.
  induction els as [|x els IH]; intros pre e; cbn; [rewrite app_nil_r; reflexivity|]. rewrite IH, <- app_assoc. reflexivity.
Qed.
Lemma srcs_snoc els e : srcs (els ++ [e]) = srcs els ++ [(fst e, labels els)].
Proof. apply srcs_from_snoc. Qed.
Lemma srcs_prefix els m w : In (m, w) (srcs els) -> exists r, labels els = w ++ r.
Proof.
  induction els as [|e els IH] using rev_ind; [intros []|]. rewrite srcs_snoc, labels_app. intros H. apply in_app_or in H as [H|[E|[]]].
  - destruct (IH H) as (r & ->). rewrite <- app_assoc. eauto.
  - injection E as _ <-. eauto.
Qed.
Lemma srcs_count m els : occurs m els = length (List.filter (fun v => m_eqb (fst v) m) (srcs els)).
Proof.
  unfold occurs. induction els as [|e els IH] using rev_ind; [reflexivity|]. rewrite srcs_snoc, !List.filter_app, !app_length. unfold step in *. rewrite IH. cbn.
  destruct (m_eqb (fst e) m); reflexivity.
Qed.
Lemma prefix_length (w1 w2 r1 r2 : list nat) : w1 ++ r1 = w2 ++ r2 -> length w1 = length w2 -> w1 = w2.
Proof. intros E Hl. now apply app_inj_1 in E. Qed.
Lemma occurs_bound m els : List.NoDup (srcs els) -> ~ In (m, labels els) (srcs els) -> occurs m els <= length (labels els).
Proof.
  intros Hn Hf. rewrite srcs_count.
  set (l := List.filter (fun v => m_eqb (fst v) m) (srcs els)).
  assert (Hl : forall v, In v l -> fst v = m /\ In v (srcs els)).
  { intros v Hv. apply filter_In in Hv as [Hv E]. unfold m_eqb in E. apply bool_decide_eq_true in E. auto. }
  assert (Hnl : List.NoDup l) by (apply List.NoDup_filter; exact Hn).
  assert (Hk : List.NoDup (map (fun v => length (snd v)) l)).
  { clear Hn. induction l as [|v l IH]; cbn; [constructor|]. inversion Hnl; subst. constructor.
    - intros Hi. apply in_map_iff in Hi as (u & Eu & Hu). destruct (Hl v (or_introl eq_refl)) as [E1 I1]. destruct (Hl u (or_intror Hu)) as [E2 I2].
      destruct v as [mv wv], u as [mu wu]. cbn in *. subst. destruct (srcs_prefix _ _ _ I1) as (r1 & R1). destruct (srcs_prefix _ _ _ I2) as (r2 & R2).
      rewrite R1 in R2. apply prefix_length in R2; [|auto]. subst. contradiction.
    - apply IH; [|assumption]. intros u Hu. apply Hl. right. exact Hu. }
  replace (length (labels els)) with (length (seq 0 (length (labels els)))) by apply seq_length.
  rewrite <- (map_length (fun v => length (snd v)) l). apply NoDup_incl_length; [exact Hk|].
  intros n Hi. apply in_map_iff in Hi as ([mv wv] & <- & Hv). destruct (Hl _ Hv) as [E1 I1]. cbn in *. subst.
  destruct (srcs_prefix _ _ _ I1) as (r & R). apply in_seq. split; [lia|]. cbn. rewrite R, app_length. destruct r as [|x r]; [|cbn; lia].
  exfalso. apply Hf. rewrite R, app_nil_r. exact I1.
Qed.

Section P.
  Context (pn : petri_net (option nat)) (fm : option marking) (max_len : nat).
  Context (tord : list (transition (option nat)) -> list (transition (option nat))).

  Lemma next_shape mo m w els x : In x (next_states pn max_len mo tord m w els) ->
    exists t, too_often mo els m = false /\ length (ext w t) <= max_len /\ x = (weak_execute t m, ext w t, els ++ [(m, t)]).
  Proof.
    unfold next_states. rewrite in_concat. intros (l & Hl & Hx). apply in_map_iff in Hl as (t & <- & Ht). exists t.
    destruct (too_often mo els m); [contradiction|]. cbv zeta in Hx. fold (ext w t) in Hx.
    destruct (Nat.ltb_spec max_len (length (ext w t))); [contradiction|]. destruct Hx as [<-|[]]. auto.
  Qed.
  Lemma next_unbounded k m w els : max_len < k -> labels els = w -> length w <= max_len -> List.NoDup (srcs els) -> ~ In (m, w) (srcs els) ->
    next_states pn max_len (Some k) tord m w els = next_states pn max_len None tord m w els.
  Proof.
    intros Hk El Hl Hn Hf. subst w. pose proof (occurs_bound m els Hn Hf) as Hb. unfold occurs in Hb. unfold next_states. f_equal. apply map_ext. intros t.
    unfold too_often. destruct (Nat.ltb_spec k (length (List.filter (fun e => m_eqb (fst e) m) els) + 1)); [lia|reflexivity].
  Qed.
  (** With more occurrences than the maximal length the bound plays no role. *)
  Lemma loop_unbounded k : max_len < k -> forall fuel tv vis fea,
    (forall m w els, In (m, w, els) tv -> labels els = w /\ length w <= max_len /\ List.NoDup (srcs els) /\ (forall v, In v (srcs els) -> In v vis)) ->
    ext_loop pn fm max_len (Some k) tord fuel tv vis fea = ext_loop pn fm max_len None tord fuel tv vis fea.
  Proof.
    intros Hk. induction fuel as [|fuel IH]; intros tv vis fea H; [reflexivity|]. cbn. destruct tv as [|[[m w] els] tv]; [reflexivity|].
    destruct (H m w els (or_introl eq_refl)) as (El & Hl & Hn & Hv).
    destruct (seen vis m w) eqn:Es; [apply IH; intros m1 w1 els1 Hi; apply (H m1 w1 els1); right; assumption|].
    assert (Hf : ~ In (m, w) vis). { intros Hi. apply seen_iff in Hi. congruence. }
    rewrite next_unbounded; [|exact Hk|exact El|exact Hl|exact Hn|intros Hi; apply Hf, Hv, Hi]. apply IH. intros m1 w1 els1 Hi. apply in_app_or in Hi as [Hi|Hi].
    - destruct (H m1 w1 els1 (or_intror Hi)) as (A & B & C & D). split; [exact A|]. split; [exact B|]. split; [exact C|]. intros v Hiv. right. auto.
    - apply next_shape in Hi as (t & _ & Hlt & E). injection E as -> -> ->. split; [rewrite (ext_labels); now rewrite El|]. split; [exact Hlt|].
      rewrite srcs_snoc. cbn [fst]. rewrite El. split.
      + apply Verif.Proofs_Dfg.NoDup_app_intro; [exact Hn|repeat constructor; intros []|]. intros v Hvs [<-|[]]. apply Hf, Hv, Hvs.
      + intros v Hiv. apply in_app_or in Hiv as [Hiv|[<-|[]]]; [right; auto|left; reflexivity].
  Qed.
  Lemma extensive_unbounded k fuel im : max_len < k ->
    extensive_playout pn fm max_len (Some k) tord fuel im = extensive_playout pn fm max_len None tord fuel im.
  Proof.
    intros Hk. unfold extensive_playout, extensive_elements. f_equal. apply loop_unbounded; [exact Hk|].
    intros m w els [E|[]]. injection E as <- <- <-. split; [reflexivity|]. split; [cbn; lia|]. split; [constructor|intros v []].
  Qed.

  Lemma loop_occurs k : forall fuel tv vis fea res,
    (forall m w els, In (m, w, els) tv -> forall m', occurs m' els <= k) -> (forall els, In els fea -> forall m', occurs m' els <= k) ->
    ext_loop pn fm max_len (Some k) tord fuel tv vis fea = Some res -> forall els, In els res -> forall m', occurs m' els <= k.
  Proof.
    induction fuel as [|fuel IH]; intros tv vis fea res Ht Hf E; [discriminate|]. cbn in E. destruct tv as [|[[m w] els] tv]; [injection E as <-; exact Hf|].
    destruct (seen vis m w); [eapply IH; [|exact Hf|exact E]; intros m1 w1 e1 Hi; eapply Ht; right; exact Hi|].
    eapply IH; [| |exact E].
    - intros m1 w1 e1 Hi. apply in_app_or in Hi as [Hi|Hi]; [eapply Ht; right; exact Hi|]. apply next_shape in Hi as (t & Ho & _ & Ex). injection Ex as -> -> ->.
      intros m'. unfold occurs. rewrite List.filter_app, app_length. cbn. unfold too_often in Ho. apply Nat.ltb_ge in Ho.
      destruct (m_eqb m m') eqn:Em; cbn; [|rewrite Nat.add_0_r; eapply Ht; left; reflexivity].
      unfold m_eqb in Em. apply bool_decide_eq_true in Em. subst. exact Ho.
    - destruct (accepted _ _ _ _ _); [|exact Hf]. intros e He. apply in_app_or in He as [He|[<-|[]]]; [apply Hf, He|]. eapply Ht. left. reflexivity.
  Qed.
  Lemma extensive_occurs k fuel im els : extensive_elements pn fm max_len (Some k) tord fuel im = Some els -> forall e, In e els -> forall m, occurs m e <= k.
  Proof.
    intros E. eapply loop_occurs; [| |exact E]; [|intros e []]. intros m w e [Ee|[]]. injection Ee as <- <- <-. intros m'. cbn. lia.
  Qed.
End P.
