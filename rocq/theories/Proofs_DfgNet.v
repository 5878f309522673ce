(** Nets whose transitions have one input and one output arc, with a single token. *)
From stdpp Require Import gmap.
From Coq Require Import ZArith Lia.
From Verif Require Import Model_Petri Spec_Petri Proofs_Petri Model_Dict Proofs_Dict Model_DfgNet Spec_DfgNet.
Local Open Scope Z_scope.

Definition one (p : nat) : marking := {[ p := 1 ]}.
Lemma one_tokens p q : tokens (one p) q = if Nat.eqb p q then 1 else 0.
Proof. apply tokens_singleton. Qed.
Lemma one_proper p : proper (one p). Proof. apply proper_singleton. lia. Qed.
Lemma one_inj p q : one p = one q -> p = q.
Proof.
  intros E. pose proof (one_tokens p p) as H. rewrite E, one_tokens, Nat.eqb_refl in H.
  destruct (Nat.eqb_spec q p); [congruence|lia].
Qed.

Lemma links_in l t : In t (links l) <-> exists i s, nth_error l i = Some s /\ t = link (S i) s.
Proof.
  unfold links. rewrite in_map_iff.
  assert (H : forall {A} (l : list A) b i x, In (i, x) (combine (seq b (length l)) l) <-> (b <= i)%nat /\ nth_error l (i - b) = Some x).
  { clear. intros A l. induction l as [|y l IH]; intros b i x; cbn [length seq combine In].
    - split; [intros []|]. intros [_ H]. destruct (i - b)%nat; discriminate.
    - rewrite IH. split.
      + intros [[= <- <-]|[Hle Hn]]; [rewrite Nat.sub_diag; split; [lia|reflexivity]|].
        split; [lia|]. replace (i - b)%nat with (S (i - S b)) by lia. exact Hn.
      + intros [Hle Hn]. destruct (Nat.eq_dec b i) as [<-|Hne].
        * rewrite Nat.sub_diag in Hn. injection Hn as <-. left. reflexivity.
        * right. split; [lia|]. replace (i - b)%nat with (S (i - S b)) in Hn by lia. exact Hn. }
  split.
  - intros [[i s] [<- Hin]]. apply H in Hin as [Hle Hn]. exists (i - 1)%nat, s. split; [exact Hn|].
    cbn [fst snd]. f_equal. lia.
  - intros (i & s & Hn & ->). exists (S i, s). split; [reflexivity|]. apply H. split; [lia|].
    replace (S i - 1)%nat with i by lia. exact Hn.
Qed.
Lemma links_spec l s : In s l -> exists i, In (link i s) (links l).
Proof. intros H. apply In_nth_error in H as [i H]. exists (S i). apply links_in. eauto. Qed.
Lemma links_spec' l t : In t (links l) -> exists i s, In s l /\ t = link i s.
Proof. intros H. apply links_in in H as (i & s & H & ->). exists (S i), s. split; [eapply nth_error_In, H|reflexivity]. Qed.

(** The moves of the token. *)
Inductive token (l : list (option nat * nat * nat)) : nat -> list nat -> nat -> Prop :=
| tk_nil p : token l p [] p
| tk_vis p q r a w : In (Some a, p, q) l -> token l q w r -> token l p (a :: w) r
| tk_inv p q r w : In (None, p, q) l -> token l q w r -> token l p w r.

Lemma weight_one p q : weight [(p, 1)] q = if Nat.eqb p q then 1 else 0.
Proof. cbn. destruct (Nat.eqb p q); lia. Qed.

Lemma fires_link pl l i s p m : fires (Net pl (links l)) (link i s) (one p) m -> p = s.1.2 /\ m = one s.2.
Proof.
  intros (_ & Hen & Hp & Ht). unfold enabled_at in Hen. cbn [link t_in t_out] in *.
  assert (E : p = s.1.2).
  { specialize (Hen s.1.2). rewrite weight_one, one_tokens, Nat.eqb_refl in Hen.
    destruct (Nat.eqb_spec p s.1.2); [assumption|lia]. }
  split; [exact E|]. apply proper_ext; [exact Hp|apply one_proper|]. intros q. rewrite Ht, !weight_one, !one_tokens, E.
  destruct (Nat.eqb s.1.2 q); lia.
Qed.
Lemma fires_link' pl l i s : In (link i s) (links l) -> fires (Net pl (links l)) (link i s) (one s.1.2) (one s.2).
Proof.
  intros H. split; [exact H|]. unfold enabled_at. cbn [link t_in t_out]. split; [|split; [apply one_proper|]]; intros q; rewrite ?weight_one, ?one_tokens; destruct (Nat.eqb s.1.2 q), (Nat.eqb s.2 q); lia.
Qed.

Lemma run_token pl l ts : forall p m, run (Net pl (links l)) (one p) ts m -> exists q, m = one q /\ token l p (visible ts) q.
Proof.
  induction ts as [|t ts IH]; intros p m H; inversion H as [|? ? m1 ? ? F R]; subst.
  - exists p. split; [reflexivity|constructor].
  - pose proof (proj1 F) as Hin. cbn in Hin. apply links_spec' in Hin as (i & s & Hs & ->).
    apply fires_link in F as [-> ->]. destruct (IH _ _ R) as (q & -> & Hq). exists q. split; [reflexivity|].
    destruct s as [[lb p'] q']. cbn in *. destruct lb as [a|]; [eapply tk_vis|eapply tk_inv]; eassumption.
Qed.
Lemma token_run pl l p w q : token l p w q -> exists ts, run (Net pl (links l)) (one p) ts (one q) /\ visible ts = w.
Proof.
  induction 1 as [p|p q r a w Hin _ IH|p q r w Hin _ IH].
  - exists []. split; [constructor|reflexivity].
  - destruct IH as (ts & R & V). destruct (links_spec _ _ Hin) as [i Hi]. exists (link i (Some a, p, q) :: ts). split.
    + econstructor; [|exact R]. exact (fires_link' pl l i (Some a, p, q) Hi).
    + cbn. f_equal. exact V.
  - destruct IH as (ts & R & V). destruct (links_spec _ _ Hin) as [i Hi]. exists (link i (None, p, q) :: ts). split.
    + econstructor; [|exact R]. exact (fires_link' pl l i (None, p, q) Hi).
    + cbn. exact V.
Qed.
Lemma accepts_token pl l p q w : accepts (Net pl (links l)) (one p) (one q) w <-> token l p w q.
Proof.
  split.
  - intros (ts & R & V). destruct (run_token pl l ts _ _ R) as (q' & E & H). apply one_inj in E. subst. exact H.
  - apply token_run.
Qed.

Lemma inside_iff l a : existsb (Nat.eqb a) l = true <-> In a l.
Proof.
  rewrite existsb_exists. split; [intros (b & H & E); apply Nat.eqb_eq in E; subst; exact H|].
  intros H. exists a. split; [exact H|apply Nat.eqb_refl].
Qed.
Lemma dfg_activities_in edges a : In a (dfg_activities edges) <-> in_edge edges a.
Proof.
  unfold dfg_activities. rewrite dedup_in, in_concat. split.
  - intros (l & Hl & Ha). apply in_map_iff in Hl as ([x y] & <- & H). cbn in Ha. destruct Ha as [<-|[<-|[]]]; [exists y|exists x]; auto.
  - intros (b & [H|H]); [exists [a; b]|exists [b; a]]; (split; [apply in_map_iff; eexists; split; [|exact H]; reflexivity|cbn; auto]).
Qed.

(** ** to_petri_net_activity_defines_place *)
Section DP.
  Context (edges : list (nat * nat)) (sa ea : list nat).
  Let inside a := existsb (Nat.eqb a) (dfg_activities edges).
  Let l := map (fun a => (Some a, 0%nat, act_place a)) (List.filter inside sa)
             ++ map (fun a => (None, act_place a, 1%nat)) (List.filter inside ea)
             ++ map (fun e => (Some (snd e), act_place (fst e), act_place (snd e))) edges.
  Lemma dp_in lb p q : In (lb, p, q) l <->
    (exists a, lb = Some a /\ p = 0%nat /\ q = act_place a /\ In a sa /\ in_edge edges a) \/
    (exists a, lb = None /\ p = act_place a /\ q = 1%nat /\ In a ea /\ in_edge edges a) \/
    (exists a b, lb = Some b /\ p = act_place a /\ q = act_place b /\ In (a, b) edges).
  Proof.
    unfold l. rewrite !in_app_iff, !in_map_iff. split.
    - intros [(a & [= <- <- <-] & H)|[(a & [= <- <- <-] & H)|([a b] & [= <- <- <-] & H)]].
      + apply filter_In in H as [H I]. unfold inside in I. apply inside_iff, dfg_activities_in in I. left. eauto 8.
      + apply filter_In in H as [H I]. unfold inside in I. apply inside_iff, dfg_activities_in in I. right. left. eauto 8.
      + right. right. eauto 8.
    - intros [(a & -> & -> & -> & H & I)|[(a & -> & -> & -> & H & I)|(a & b & -> & -> & -> & H)]].
      + left. exists a. split; [reflexivity|]. apply filter_In. split; [exact H|]. apply inside_iff, dfg_activities_in, I.
      + right. left. exists a. split; [reflexivity|]. apply filter_In. split; [exact H|]. apply inside_iff, dfg_activities_in, I.
      + right. right. exists (a, b). split; [reflexivity|exact H].
  Qed.
  Lemma dp_after p w r : token l p w r -> r = 1%nat -> forall a, p = act_place a -> ends_from edges ea a w.
  Proof.
    induction 1 as [p|p q r b w Hin Ht IH|p q r w Hin Ht IH]; intros Er a Ea; unfold act_place in *.
    - lia.
    - apply dp_in in Hin as [(x & _ & E & _)|[(x & E & _)|(x & y & [= ->] & E & Eq & H)]]; [lia|discriminate|].
      unfold act_place in *. assert (x = a) by lia. subst x. constructor; [exact H|]. apply IH; assumption.
    - apply dp_in in Hin as [(x & E & _)|[(x & _ & E & Eq & H & _)|(x & y & E & _)]]; [discriminate| |discriminate].
      unfold act_place in *. assert (x = a) by lia. subst x q r. inversion Ht as [|? ? ? ? ? Hi|? ? ? ? Hi]; subst.
      + constructor. exact H.
      + apply dp_in in Hi as [(x & _ & E' & _)|[(x & _ & E' & _)|(x & y & _ & E' & _)]]; unfold act_place in *; lia.
      + apply dp_in in Hi as [(x & _ & E' & _)|[(x & _ & E' & _)|(x & y & _ & E' & _)]]; unfold act_place in *; lia.
  Qed.
  Lemma dp_token w : token l 0%nat w 1%nat <-> dfg_trace edges sa ea w /\ (forall a, w = [a] -> in_edge edges a).
  Proof.
    split.
    - intros H. inversion H as [|? q ? a w' Hin Ht|? q ? w' Hin Ht]; subst.
      + apply dp_in in Hin as [(x & [= ->] & _ & -> & H1 & H2)|[(x & E & _)|(x & y & _ & E & _)]]; [|discriminate|unfold act_place in E; lia].
        split; [constructor; [exact H1|eapply dp_after; eauto]|]. intros b [= <- ->]. exact H2.
      + apply dp_in in Hin as [(x & E & _)|[(x & _ & E & _)|(x & y & E & _)]]; [discriminate|unfold act_place in E; lia|discriminate].
    - intros [H1 H2]. inversion H1 as [a w' Hs He]; subst.
      assert (Ha : in_edge edges a).
      { destruct w' as [|b w']; [apply H2; reflexivity|]. inversion He; subst. exists b. auto. }
      eapply tk_vis; [apply dp_in; left; eauto 8|].
      clear H1 H2 Hs. revert Ha. induction He as [a He|a b w Hab _ IH]; intros Ha.
      + eapply tk_inv; [apply dp_in; right; left; eauto 8|]. constructor.
      + eapply tk_vis; [apply dp_in; right; right; eauto 8|]. apply IH. exists a. auto.
  Qed.
End DP.

(** ** to_petri_net_invisibles_no_duplicates *)
Section ND.
  Context (st en : nat) (edges : list (nat * nat)) (sa ea : list nat).
  Hypothesis Hne : st <> en.
  Hypothesis Hst : ~ in_edge edges st /\ ~ In st sa /\ ~ In st ea.
  Hypothesis Hen : ~ in_edge edges en /\ ~ In en sa /\ ~ In en ea.
  Let enriched := dedup (edges ++ map (fun a => (st, a)) sa ++ map (fun a => (a, en)) ea).
  Let acts := dedup (map snd enriched ++ map fst enriched).
  Let l := map (fun a => (if Nat.eqb a st || Nat.eqb a en then None else Some a, left_place a, right_place a)) acts
               ++ map (fun e => (None, right_place (fst e), left_place (snd e))) enriched.
  Lemma enriched_in a b : In (a, b) enriched <-> In (a, b) edges \/ (a = st /\ In b sa) \/ (In a ea /\ b = en).
  Proof.
    unfold enriched. rewrite dedup_in, !in_app_iff, !in_map_iff. split.
    - intros [H|[(x & [= <- <-] & H)|(x & [= <- <-] & H)]]; auto.
    - intros [H|[[-> H]|[H ->]]]; [auto|right; left; eauto|right; right; eauto].
  Qed.
  Lemma acts_in a : In a acts <-> exists b, In (a, b) enriched \/ In (b, a) enriched.
  Proof.
    unfold acts. rewrite dedup_in, in_app_iff, !in_map_iff. split.
    - intros [([x y] & <- & H)|([x y] & <- & H)]; cbn; eauto.
    - intros (b & [H|H]); [right|left]; eexists; (split; [|exact H]; reflexivity).
  Qed.
  Lemma nd_in lb p q : In (lb, p, q) l <->
    (exists a, lb = (if Nat.eqb a st || Nat.eqb a en then None else Some a) /\ p = left_place a /\ q = right_place a /\ In a acts) \/
    (exists a b, lb = None /\ p = right_place a /\ q = left_place b /\ In (a, b) enriched).
  Proof.
    unfold l. rewrite in_app_iff, !in_map_iff. split.
    - intros [(a & [= <- <- <-] & H)|([a b] & [= <- <- <-] & H)]; [left|right]; eauto 8.
    - intros [(a & -> & -> & -> & H)|(a & b & -> & -> & -> & H)]; [left|right]; eexists; (split; [|exact H]; reflexivity).
  Qed.
  Lemma lr_disj a b : left_place a <> right_place b. Proof. unfold left_place, right_place. lia. Qed.
  Lemma l_inj a b : left_place a = left_place b -> a = b. Proof. unfold left_place. lia. Qed.
  Lemma r_inj a b : right_place a = right_place b -> a = b. Proof. unfold right_place. lia. Qed.

  (** what is still to be spelled from a place *)
  Definition nd_rest (p : nat) (w : list nat) : Prop :=
    (forall a, p = right_place a -> a <> st -> a <> en -> ends_from edges ea a w) /\
    (forall a, p = left_place a -> a <> st -> a <> en -> exists w', w = a :: w' /\ ends_from edges ea a w') /\
    (p = right_place en -> w = []) /\ (p = left_place en -> w = []) /\
    (p = right_place st -> dfg_trace edges sa ea w) /\ (p = left_place st -> dfg_trace edges sa ea w).
  Lemma nd_sound p w r : token l p w r -> r = right_place en -> nd_rest p w.
  Proof.
    assert (Lno : forall a b, left_place a = right_place b -> False) by (intros a b E; exact (lr_disj a b E)).
    induction 1 as [p|p q r b w Hin Ht IH|p q r w Hin Ht IH]; intros Er.
    - subst p. split; [intros a E; apply r_inj in E; congruence|].
      split; [intros a E; exfalso; eapply Lno; symmetry; exact E|].
      split; [reflexivity|]. split; [intros E; exfalso; eapply Lno; symmetry; exact E|].
      split; [intros E; apply r_inj in E; congruence|intros E; exfalso; eapply Lno; symmetry; exact E].
    - specialize (IH Er). apply nd_in in Hin as [(a & E & -> & -> & _)|(a & c & E & _)]; [|discriminate].
      destruct (Nat.eqb_spec a st); [discriminate|]. destruct (Nat.eqb_spec a en); [discriminate|]. cbn in E. injection E as ->.
      destruct IH as (IR & _).
      split; [intros x E; exfalso; eapply Lno; exact E|].
      split; [intros x E Hx1 Hx2; apply l_inj in E; subst x; exists w; split; [reflexivity|]; apply IR; auto|].
      split; [intros E; exfalso; eapply Lno; exact E|]. split; [intros E; apply l_inj in E; congruence|].
      split; [intros E; exfalso; eapply Lno; exact E|intros E; apply l_inj in E; congruence].
    - specialize (IH Er). apply nd_in in Hin as [(a & E & -> & -> & _)|(a & c & _ & -> & -> & H)].
      + assert (Hse : a = st \/ a = en).
        { destruct (Nat.eqb_spec a st); [auto|]. destruct (Nat.eqb_spec a en); [auto|discriminate]. }
        destruct IH as (_ & _ & IE & _ & IS & _).
        split; [intros x E'; exfalso; eapply Lno; exact E'|].
        split; [intros x E' Hx1 Hx2; apply l_inj in E'; subst x; destruct Hse; contradiction|].
        split; [intros E'; exfalso; eapply Lno; exact E'|]. split; [intros E'; apply l_inj in E'; subst a; apply IE; reflexivity|].
        split; [intros E'; exfalso; eapply Lno; exact E'|intros E'; apply l_inj in E'; subst a; apply IS; reflexivity].
      + destruct IH as (_ & IL & _ & IE & _ & _). apply enriched_in in H.
        assert (Hc : c <> st).
        { intros ->. destruct H as [H|[[_ H]|[_ H]]]; [apply (proj1 Hst); exists a; auto|tauto|congruence]. }
        assert (Ha : a <> en).
        { intros ->. destruct H as [H|[[H _]|[H _]]]; [apply (proj1 Hen); exists c; auto|congruence|tauto]. }
        split.
        { intros x E Hx1 Hx2. apply r_inj in E. subst x. destruct H as [H|[[H _]|[H ->]]]; [|congruence|].
          - assert (Hce : c <> en) by (intros ->; apply (proj1 Hen); exists a; auto).
            destruct (IL c eq_refl Hc Hce) as (w' & -> & He). constructor; assumption.
          - rewrite (IE eq_refl). constructor. exact H. }
        split; [intros x E; exfalso; eapply Lno; symmetry; exact E|].
        split; [intros E; apply r_inj in E; congruence|]. split; [intros E; exfalso; eapply Lno; symmetry; exact E|].
        split; [|intros E; exfalso; eapply Lno; symmetry; exact E].
        intros E. apply r_inj in E. subst a. destruct H as [H|[[_ H]|[H _]]]; [exfalso; apply (proj1 Hst); exists c; auto| |exfalso; tauto].
        assert (Hce : c <> en) by (intros ->; tauto).
        destruct (IL c eq_refl Hc Hce) as (w' & -> & He). constructor; assumption.
  Qed.
  Lemma nd_vis a q w r : a <> st -> a <> en -> In a acts -> q = left_place a -> token l (right_place a) w r -> token l q (a :: w) r.
  Proof.
    intros H1 H2 Ha -> H. eapply tk_vis; [|exact H]. apply nd_in. left. exists a.
    destruct (Nat.eqb_spec a st); [contradiction|]. destruct (Nat.eqb_spec a en); [contradiction|]. auto.
  Qed.
  Lemma nd_token w : In st acts -> In en acts -> token l (left_place st) w (right_place en) <-> dfg_trace edges sa ea w.
  Proof.
    intros Is Ie. split; [intros H; apply (nd_sound _ _ _ H); reflexivity|].
    intros H. inversion H as [a w' Hs He]; subst.
    eapply tk_inv; [apply nd_in; left; exists st; rewrite Nat.eqb_refl; auto|].
    eapply tk_inv; [apply nd_in; right; exists st, a; split; [reflexivity|]; split; [reflexivity|]; split; [reflexivity|]; apply enriched_in; auto|].
    assert (Hin : In (st, a) enriched) by (apply enriched_in; auto).
    assert (Hae : In a acts) by (apply acts_in; eauto).
    assert (Has : a <> st) by (intros ->; tauto).
    assert (Han : a <> en) by (intros ->; tauto).
    clear H Hs Hin. revert Hae Has Han. induction He as [a Hea|a b w Hab _ IH]; intros Hae Has Han; (eapply nd_vis; [exact Has|exact Han|exact Hae|reflexivity|]).
    - eapply tk_inv; [apply nd_in; right; exists a, en; split; [reflexivity|]; split; [reflexivity|]; split; [reflexivity|]; apply enriched_in; auto|].
      eapply tk_inv; [apply nd_in; left; exists en; rewrite Nat.eqb_refl, orb_true_r; auto|]. constructor.
    - assert (Hin : In (a, b) enriched) by (apply enriched_in; auto).
      eapply tk_inv; [apply nd_in; right; exists a, b; auto|]. apply IH.
      + apply acts_in. eauto.
      + intros ->. apply (proj1 Hst). exists a. auto.
      + intros ->. apply (proj1 Hen). exists a. auto.
  Qed.
End ND.
