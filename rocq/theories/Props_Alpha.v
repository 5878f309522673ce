(** Property theorems C64 (Alpha Miner). *)
From Coq Require Import List Arith Lia Bool Permutation ZArith.
Import ListNotations.
From Verif Require Import Model_Petri Model_Dict Proofs_Dict Model_Dfg Proofs_Dfg Spec_TreeFP Model_Footprints Proofs_Footprints Model_Alpha Spec_Alpha Proofs_Alpha.
From Verif Require Spec_Petri.
Local Open Scope nat_scope.

Section Net.
  Context (g : @counter (nat * nat)) (sa ea : list nat).
  Context (Hn : NoDup (d_keys g)) (Hpos : forall k, In k (d_keys g) -> 0 < c_get g k).
  Let df a b := In (a, b) (d_keys g).
  Let par := parallel_pairs g.
  Let cau := causal_alpha g.
  Let places := internal_places par cau.
  Let idx := combine (seq 2 (length places)) places.
  Let net := fst (alpha_net g sa ea).

  Lemma rel_par a b : In (a, b) par <-> df a b /\ df b a.
  Proof. unfold par, parallel_pairs. rewrite filter_In. cbn [fst snd]. rewrite d_mem_in. reflexivity. Qed.
  Lemma rel_cau a b : In (a, b) cau <-> df a b /\ ~ df b a.
  Proof.
    unfold cau, causal_alpha. rewrite filter_In. cbn [fst snd]. rewrite andb_true_iff, orb_true_iff, negb_true_iff, Nat.ltb_lt, Nat.eqb_eq.
    unfold df. rewrite <- (d_mem_in g (b, a)). specialize (Hpos (a, b)) as H1. specialize (Hpos (b, a)) as H2. rewrite <- (d_mem_in g (b, a)) in H2.
    destruct (d_mem g (b, a)); split.
    - intros (Hab & _ & [?|E]); [discriminate|]. specialize (H2 eq_refl). lia.
    - intros (_ & Hx). congruence.
    - intros (Hab & _ & _). split; [exact Hab|discriminate].
    - intros (Hab & _). auto.
  Qed.
  Lemma rel_dec a b : df a b \/ ~ df a b.
  Proof. unfold df. rewrite <- d_mem_in. destruct (d_mem g (a, b)); auto. Qed.
  Lemma rel_nd : NoDup cau. Proof. apply NoDup_filter, Hn. Qed.

  Lemma idx_in i p : In (i, p) idx <-> 2 <= i /\ nth_error places (i - 2) = Some p.
  Proof.
    unfold idx. enough (G : forall (l : list (list nat * list nat)) s, In (i, p) (combine (seq s (length l)) l) <-> s <= i /\ nth_error l (i - s) = Some p) by apply G.
    induction l as [|x l IH]; intros s.
    - cbn. split; [intros []|]. intros [_ H]. destruct (i - s); discriminate.
    - cbn [length seq combine In]. rewrite IH. split.
      + intros [E|[Hs E]]; [injection E as <- <-; split; [lia|]; rewrite Nat.sub_diag; reflexivity|]. split; [lia|]. replace (i - s) with (S (i - S s)) by lia. exact E.
      + intros [Hs E]. destruct (Nat.eq_dec s i) as [->|Hne]; [left; rewrite Nat.sub_diag in E; injection E as <-; reflexivity|]. right. split; [lia|]. replace (i - s) with (S (i - S s)) in E by lia. exact E.
  Qed.
  Lemma labels_in a : In a (alpha_labels g sa ea) <-> (exists b, df a b \/ df b a) \/ In a sa \/ In a ea.
  Proof.
    unfold alpha_labels. rewrite dedup_in, !in_app_iff, in_concat. split.
    - intros [(x & Hx & Ha)|H]; [|auto]. left. apply in_map_iff in Hx as ([u v] & <- & Huv). destruct Ha as [<-|[<-|[]]]; cbn [fst snd]; [exists v; left|exists u; right]; exact Huv.
    - intros [(b & [H|H])|H]; [| |auto]; left; [exists [a; b]|exists [b; a]]; (split; [|cbn; auto]); apply in_map_iff; [exists (a, b)|exists (b, a)]; auto.
  Qed.
  Lemma trans_in t : In t (n_trans net) <-> exists a, In a (alpha_labels g sa ea) /\ t_label t = Some a /\ t_id t = a /\
    t_in t = (if isin a sa then [(0, 1%Z)] else []) ++ map (fun ip => (fst ip, 1%Z)) (filter (fun ip => isin a (snd (snd ip))) idx) /\
    t_out t = (if isin a ea then [(1, 1%Z)] else []) ++ map (fun ip => (fst ip, 1%Z)) (filter (fun ip => isin a (fst (snd ip))) idx).
  Proof.
    unfold net, alpha_net. cbv zeta. cbn [fst n_trans]. rewrite in_map_iff. fold par cau places idx. split.
    - intros (a & <- & Ha). exists a. auto.
    - intros (a & Ha & E1 & E2 & E3 & E4). exists a. split; [|exact Ha]. destruct t as [i l ti to]. cbn in *. now subst.
  Qed.
  Lemma in_side (f : list nat * list nat -> list nat) q (c : bool) k a : k < 2 ->
    In q (map fst ((if c then [(k, 1%Z)] else []) ++ map (fun ip => (fst ip, 1%Z)) (filter (fun ip => isin a (f (snd ip))) idx))) <->
    (q = k /\ c = true) \/ exists p, In (q, p) idx /\ In a (f p).
  Proof.
    intros Hk. rewrite map_app, in_app_iff, map_map. cbn [fst].
    assert (G : In q (map (fun ip => fst ip) (filter (fun ip : nat * (list nat * list nat) => isin a (f (snd ip))) idx)) <-> exists p, In (q, p) idx /\ In a (f p)).
    { rewrite in_map_iff. split.
      - intros ([i p] & <- & H). apply filter_In in H as [H H']. rewrite isin_in in H'. exists p. auto.
      - intros (p & H & H'). exists (q, p). split; [reflexivity|]. apply filter_In. rewrite isin_in. auto. }
    rewrite G. destruct c; cbn; intuition congruence.
  Qed.
  Lemma valid_in p a : In p places -> In a (fst p) \/ In a (snd p) -> In a (alpha_labels g sa ea).
  Proof.
    intros Hp Ha. destruct (places_sound df par cau rel_par rel_cau rel_dec p Hp) as [(NA & NB & Hc & _) _]. apply labels_in. left.
    destruct Ha as [Ha|Ha].
    - destruct (snd p) as [|b B]; [congruence|]. exists b. left. apply (Hc a b); [exact Ha|now left].
    - destruct (fst p) as [|b B]; [congruence|]. exists b. right. apply (Hc b a); [now left|exact Ha].
  Qed.
  Lemma pre_internal i p : In (i, p) idx -> preset net i (fst p) /\ postset net i (snd p).
  Proof.
    intros H. apply idx_in in H as [Hi Ep]. pose proof (nth_error_In _ _ Ep) as Hin. split.
    - intros a. split.
      + intros Ha. eexists (Trans a (Some a) _ _). split; [apply trans_in; exists a; split; [eapply valid_in; eauto|]; cbn; repeat split; reflexivity|]. split; [reflexivity|].
        cbn [t_out]. apply (in_side fst); [lia|]. right. exists p. split; [apply idx_in; auto|exact Ha].
      + intros (t & Ht & El & Hp). apply trans_in in Ht as (a' & _ & El' & _ & _ & Eo). rewrite El in El'. injection El' as <-. rewrite Eo in Hp.
        apply (in_side fst) in Hp as [[-> _]|(p' & Hp' & Ha)]; [lia| |lia]. apply idx_in in Hp' as [_ Ep']. congruence.
    - intros a. split.
      + intros Ha. eexists (Trans a (Some a) _ _). split; [apply trans_in; exists a; split; [eapply valid_in; eauto|]; cbn; repeat split; reflexivity|]. split; [reflexivity|].
        cbn [t_in]. apply (in_side snd); [lia|]. right. exists p. split; [apply idx_in; auto|exact Ha].
      + intros (t & Ht & El & Hp). apply trans_in in Ht as (a' & _ & El' & _ & Eo & _). rewrite El in El'. injection El' as <-. rewrite Eo in Hp.
        apply (in_side snd) in Hp as [[-> _]|(p' & Hp' & Ha)]; [lia| |lia]. apply idx_in in Hp' as [_ Ep']. congruence.
  Qed.
  Lemma pre_source : preset net 0 [] /\ postset net 0 sa.
  Proof.
    split; intros a; split.
    - intros [].
    - intros (t & Ht & El & Hp). apply trans_in in Ht as (a' & _ & El' & _ & _ & Eo). rewrite Eo in Hp. apply (in_side fst) in Hp as [[E _]|(p & Hp & _)]; [discriminate| |lia]. apply idx_in in Hp as [? _]. lia.
    - intros Ha. eexists (Trans a (Some a) _ _). split; [apply trans_in; exists a; split; [apply labels_in; auto|]; cbn; repeat split; reflexivity|]. split; [reflexivity|].
      cbn [t_in]. apply (in_side snd); [lia|]. left. rewrite isin_in. auto.
    - intros (t & Ht & El & Hp). apply trans_in in Ht as (a' & _ & El' & _ & Eo & _). rewrite El in El'. injection El' as <-. rewrite Eo in Hp. apply (in_side snd) in Hp as [[_ E]|(p & Hp & _)]; [now apply isin_in in E| |lia]. apply idx_in in Hp as [? _]. lia.
  Qed.
  Lemma pre_sink : preset net 1 ea /\ postset net 1 [].
  Proof.
    split; intros a; split.
    - intros Ha. eexists (Trans a (Some a) _ _). split; [apply trans_in; exists a; split; [apply labels_in; auto|]; cbn; repeat split; reflexivity|]. split; [reflexivity|].
      cbn [t_out]. apply (in_side fst); [lia|]. left. rewrite isin_in. auto.
    - intros (t & Ht & El & Hp). apply trans_in in Ht as (a' & _ & El' & _ & _ & Eo). rewrite El in El'. injection El' as <-. rewrite Eo in Hp. apply (in_side fst) in Hp as [[_ E]|(p & Hp & _)]; [now apply isin_in in E| |lia]. apply idx_in in Hp as [? _]. lia.
    - intros [].
    - intros (t & Ht & El & Hp). apply trans_in in Ht as (a' & _ & El' & _ & Eo & _). rewrite Eo in Hp. apply (in_side snd) in Hp as [[E _]|(p & Hp & _)]; [discriminate| |lia]. apply idx_in in Hp as [? _]. lia.
  Qed.
  Lemma idx_keys : map fst idx = seq 2 (length places).
  Proof. unfold idx. generalize 2 as s. generalize places as l. induction l as [|x l IH]; intros s; [reflexivity|]. cbn. now rewrite IH. Qed.
  Lemma NoDup_fst_filter {X} (f : nat * X -> bool) l : NoDup (map fst l) -> NoDup (map fst (filter f l)).
  Proof.
    induction l as [|x l IH]; intros H; [exact H|]. cbn in *. inversion H as [|? ? Hx Hl]; subst. destruct (f x); [|auto]. cbn. constructor; [|auto].
    intros Hin. apply Hx. apply in_map_iff in Hin as (y & E & Hy). apply filter_In in Hy as [Hy _]. apply in_map_iff. eauto.
  Qed.
  Lemma side_simple (f : list nat * list nat -> list nat) (c : bool) k a : k < 2 ->
    Spec_Petri.simple_arcs ((if c then [(k, 1%Z)] else []) ++ map (fun ip => (fst ip, 1%Z)) (filter (fun ip => isin a (f (snd ip))) idx)).
  Proof.
    intros Hk. split.
    - rewrite map_app, map_map. cbn [fst].
      assert (N : NoDup (map fst (filter (fun ip => isin a (f (snd ip))) idx))) by (apply NoDup_fst_filter; rewrite idx_keys; apply seq_NoDup).
      destruct c; cbn [map app]; [|exact N]. constructor; [|exact N]. intros Hin. apply in_map_iff in Hin as ([i p] & E & Hy). apply filter_In in Hy as [Hy _]. apply idx_in in Hy as [? _]. cbn in *. lia.
    - intros p w Hin. apply in_app_or in Hin as [Hin|Hin].
      + destruct c; [destruct Hin as [E|[]]; injection E as <- <-; lia|contradiction].
      + apply in_map_iff in Hin as (ip & E & _). injection E as <- <-. lia.
  Qed.
End Net.

(** C64: from any directly-follows graph (with positive counts) and start and end activities, the net has one transition
    per activity, a source before the start activities, a sink after the end activities, and besides exactly one place per
    maximal pair of the Alpha algorithm. *)
Theorem C64_alpha_dfg : forall (g : @counter (nat * nat)) sa ea, NoDup (d_keys g) -> (forall k, In k (d_keys g) -> 0 < c_get g k) ->
  let df a b := In (a, b) (d_keys g) in
  let net := fst (alpha_net g sa ea) in
  exists src snk internal, snd (alpha_net g sa ea) = (src, snk) /\ n_places net = src :: snk :: internal /\ NoDup (n_places net) /\
    NoDup (map t_label (n_trans net)) /\
    (forall a, (exists t, In t (n_trans net) /\ t_label t = Some a) <-> (exists b, df a b \/ df b a) \/ In a sa \/ In a ea) /\
    (forall t, In t (n_trans net) -> exists a, t_label t = Some a) /\
    preset net src [] /\ postset net src sa /\ preset net snk ea /\ postset net snk [] /\
    (forall p, In p internal -> exists A B, preset net p A /\ postset net p B /\ maximal_pair df A B) /\
    (forall A B, maximal_pair df A B -> exists p, In p internal /\ preset net p A /\ postset net p B) /\
    (forall p q A B, In p internal -> In q internal -> preset net p A -> preset net q A -> postset net p B -> postset net q B -> p = q) /\
    Spec_Petri.simple_net net /\ Spec_Petri.unit_weights net.
Proof.
  intros g sa ea Hn Hpos df net.
  set (places := internal_places (parallel_pairs g) (causal_alpha g)). set (idx := combine (seq 2 (length places)) places).
  exists 0, 1, (map fst idx). split; [reflexivity|]. split; [reflexivity|].
  split. { change (NoDup (0 :: 1 :: map fst idx)). unfold idx, places. rewrite idx_keys. change (NoDup (seq 0 (2 + length (internal_places (parallel_pairs g) (causal_alpha g))))). apply seq_NoDup. }
  split. { unfold net, alpha_net. cbv zeta. cbn [fst n_trans]. rewrite map_map. cbn [t_label]. apply FinFun.Injective_map_NoDup; [intros x y E; congruence|]. apply dedup_nodup. }
  split. { intros a. unfold df. rewrite <- labels_in. split.
    - intros (t & Ht & El). apply trans_in in Ht as (a' & Ha & El' & _). congruence.
    - intros Ha. eexists (Trans a (Some a) _ _). split; [apply trans_in; exists a; split; [exact Ha|]; cbn; repeat split; reflexivity|reflexivity]. }
  split. { intros t Ht. apply trans_in in Ht as (a' & Ha & El' & _). eauto. }
  destruct (pre_source g sa ea) as [P1 P2]. destruct (pre_sink g sa ea) as [P3 P4]. do 4 (split; [assumption|]).
  assert (Hidx : forall p, In p (map fst idx) <-> exists q, In (p, q) idx).
  { intros p. rewrite in_map_iff. split; [intros ([i q] & <- & H); eauto|]. intros (q & H). exists (p, q). auto. }
  assert (Hpl : forall i q, In (i, q) idx -> In q places) by (intros i q H; apply idx_in in H as [_ H]; eapply nth_error_In, H).
  split. { intros p Hp. apply Hidx in Hp as (q & Hq). destruct (pre_internal g sa ea Hpos p q Hq) as [Q1 Q2]. exists (fst q), (snd q). split; [exact Q1|]. split; [exact Q2|].
    apply (places_sound df (parallel_pairs g) (causal_alpha g) (rel_par g) (rel_cau g Hpos) (rel_dec g)). eapply Hpl, Hq. }
  split. { intros A B HM. destruct (places_complete df (parallel_pairs g) (causal_alpha g) (rel_par g) (rel_cau g Hpos) (rel_dec g) A B HM) as (q & Hq & S1 & S2). cbn [fst snd] in S1, S2.
    apply In_nth_error in Hq as (i & Hi). assert (Hin : In (i + 2, q) idx) by (apply idx_in; split; [lia|]; replace (i + 2 - 2) with i by lia; exact Hi).
    exists (i + 2). split; [apply Hidx; eauto|]. destruct (pre_internal g sa ea Hpos _ _ Hin) as [Q1 Q2]. split; intros a; [rewrite <- S1|rewrite <- S2]; [apply Q1|apply Q2]. }
  split. { intros p q A B Hp Hq PA QA PB QB. apply Hidx in Hp as (u & Hu). apply Hidx in Hq as (v & Hv).
    destruct (pre_internal g sa ea Hpos _ _ Hu) as [U1 U2]. destruct (pre_internal g sa ea Hpos _ _ Hv) as [V1 V2].
    assert (Hs : same u v).
    { split; intros x; [specialize (U1 x); specialize (V1 x); specialize (PA x); specialize (QA x)|specialize (U2 x); specialize (V2 x); specialize (PB x); specialize (QB x)]; unfold net in *; tauto. }
    apply idx_in in Hu as [Hp2 Eu]. apply idx_in in Hv as [Hq2 Ev]. fold places in Eu, Ev.
    pose proof (places_distinct df (parallel_pairs g) (causal_alpha g) (rel_par g) (rel_cau g Hpos) (rel_dec g) (rel_nd g Hn)) as Hd. fold places in Hd.
    enough (E : p - 2 = q - 2) by lia. revert Eu Ev. generalize (p - 2) (q - 2). clear -Hd Hs. induction Hd as [|x l Hf Hd IH]; intros i j Eu Ev; [destruct i; discriminate|].
    rewrite Forall_forall in Hf. destruct i as [|i], j as [|j]; cbn in Eu, Ev; [reflexivity| | |f_equal; now apply IH].
    - injection Eu as ->. destruct (Hf v (nth_error_In _ _ Ev) Hs).
    - injection Ev as ->. destruct (Hf u (nth_error_In _ _ Eu) (same_sym _ _ Hs)). }
  split.
  - intros t Ht. apply trans_in in Ht as (a & _ & _ & _ & Ei & Eo). unfold Spec_Petri.simple_trans. rewrite Ei, Eo. split; [apply (side_simple g snd)|apply (side_simple g fst)]; lia.
  - intros t Ht p w Hin. apply trans_in in Ht as (a & _ & _ & _ & Ei & Eo). rewrite Ei, Eo in Hin.
    assert (G : forall (c : bool) k (l : list (nat * (list nat * list nat))), In (p, w) ((if c then [(k, 1%Z)] else []) ++ map (fun ip => (fst ip, 1%Z)) l) -> w = 1%Z).
    { intros c k l H. apply in_app_or in H as [H|H]; [destruct c; [destruct H as [E|[]]; congruence|contradiction]|]. apply in_map_iff in H as (ip & E & _). congruence. }
    destruct Hin as [H|H]; eapply G, H.
Qed.
Print Assumptions C64_alpha_dfg.

Lemma filter_all {X} (f : X -> bool) l : (forall x, In x l -> f x = true) -> filter f l = l.
Proof. induction l as [|x l IH]; intros H; [reflexivity|]. cbn. rewrite (H x) by now left. f_equal. apply IH. intros y Hy. apply H. now right. Qed.
Lemma alpha_log_eq l : alpha_log l = alpha_net (native 1 false l) (d_keys (get_start_activities l)) (d_keys (get_end_activities l)).
Proof.
  unfold alpha_log. cbv zeta. rewrite filter_all; [reflexivity|]. intros [k n] Hin. apply Nat.ltb_lt. cbn [snd].
  assert (Hk : In k (d_keys (native 1 false l))) by (unfold d_keys; apply in_map_iff; exists (k, n); auto).
  apply native_pos in Hk. apply d_in_get in Hin; [|apply native_nodup]. unfold c_get in Hk. now rewrite Hin in Hk.
Qed.
Lemma occurs_iff (l : log) a : occurs (fun w => In w l) a <->
  (exists b, follows (fun w => In w l) a b \/ follows (fun w => In w l) b a) \/ begins (fun w => In w l) a \/ finishes (fun w => In w l) a.
Proof.
  split.
  - intros (w & Hw & Ha). apply in_split in Ha as (w1 & w2 & ->). destruct w2 as [|b w2].
    + right. right. exists w1. exact Hw.
    + left. exists b. left. exists w1, w2. exact Hw.
  - intros [(b & [(w1 & w2 & H)|(w1 & w2 & H)])|[(w & H)|(w & H)]]; eexists; (split; [exact H|]); try (apply in_or_app; right); cbn; auto.
Qed.
Lemma maximal_ext (df df' : nat -> nat -> Prop) A B : (forall a b, df a b <-> df' a b) -> maximal_pair df A B <-> maximal_pair df' A B.
Proof.
  intros H. assert (G : forall A B, alpha_pair df A B <-> alpha_pair df' A B).
  { intros X Y. unfold alpha_pair, causal, choice. split; intros (N1 & N2 & Hc & HX & HY); (split; [exact N1|]); (split; [exact N2|]);
    (split; [intros a b Ha Hb; specialize (Hc a b Ha Hb)|split; intros a b Ha Hb; [specialize (HX a b Ha Hb)|specialize (HY a b Ha Hb)]]); rewrite ?H in *; rewrite <- ?H in *; tauto. }
  unfold maximal_pair. rewrite G. split; intros [H1 H2]; (split; [exact H1|]); intros A' B' HV; apply H2; apply G, HV.
Qed.

(** C64: the same for a log: the transitions are the activities of the log, the source leads to the first activities of the
    traces, the last ones to the sink, and the other places are the maximal pairs of the directly-follows relation of the log. *)
Theorem C64_alpha_log : forall l : log,
  let L := fun w => In w l in
  let net := fst (alpha_log l) in
  exists src snk internal, snd (alpha_log l) = (src, snk) /\ n_places net = src :: snk :: internal /\ NoDup (n_places net) /\
    NoDup (map t_label (n_trans net)) /\
    (forall a, (exists t, In t (n_trans net) /\ t_label t = Some a) <-> occurs L a) /\
    (forall t, In t (n_trans net) -> exists a, t_label t = Some a) /\
    preset net src [] /\ (forall A, postset net src A <-> forall a, In a A <-> begins L a) /\
    postset net snk [] /\ (forall A, preset net snk A <-> forall a, In a A <-> finishes L a) /\
    (forall p, In p internal -> exists A B, preset net p A /\ postset net p B /\ maximal_pair (follows L) A B) /\
    (forall A B, maximal_pair (follows L) A B -> exists p, In p internal /\ preset net p A /\ postset net p B) /\
    (forall p q A B, In p internal -> In q internal -> preset net p A -> preset net q A -> postset net p B -> postset net q B -> p = q) /\
    Spec_Petri.simple_net net /\ Spec_Petri.unit_weights net.
Proof.
  intros l L net. pose proof (native_nodup l) as Hn.
  assert (Hpos : forall k, In k (d_keys (native 1 false l)) -> 0 < c_get (native 1 false l) k) by (intros k Hk; now apply native_pos).
  pose proof (C64_alpha_dfg (native 1 false l) (d_keys (get_start_activities l)) (d_keys (get_end_activities l)) Hn Hpos) as H. cbv zeta in H.
  unfold net. rewrite alpha_log_eq.
  destruct H as (src & snk & ps & H1 & H2 & H3 & H4 & H5 & H6 & H7 & H8 & H9 & H10 & H11 & H12 & H13 & H14 & H15).
  assert (Hst : forall a, In a (d_keys (get_start_activities l)) <-> begins L a) by (intros a; apply (log_start l)).
  assert (Hen : forall a, In a (d_keys (get_end_activities l)) <-> finishes L a) by (intros a; apply (log_end l)).
  exists src, snk, ps. split; [exact H1|]. split; [exact H2|]. split; [exact H3|]. split; [exact H4|].
  split. { intros a. rewrite H5. unfold L. rewrite occurs_iff. rewrite (Hst a), (Hen a). split; (intros [(b & [H|H])|H]; [left; exists b; left; now apply native_keys|left; exists b; right; now apply native_keys|right; exact H]). }
  split; [exact H6|]. split; [exact H7|].
  split. { intros A. split; intros HA a; [rewrite (HA a), <- (H8 a); apply Hst|rewrite (HA a), <- Hst; apply H8]. }
  split; [exact H10|].
  split. { intros A. split; intros HA a; [rewrite (HA a), <- (H9 a); apply Hen|rewrite (HA a), <- Hen; apply H9]. }
  assert (Hdf : forall a b, In (a, b) (d_keys (native 1 false l)) <-> follows L a b) by (intros; apply native_keys).
  split. { intros p Hp. destruct (H11 p Hp) as (A & B & PA & PB & HM). exists A, B. split; [exact PA|]. split; [exact PB|]. eapply maximal_ext, HM. intros a b. symmetry. apply Hdf. }
  split. { intros A B HM. apply H12. eapply maximal_ext, HM. exact Hdf. }
  split; [exact H13|]. split; assumption.
Qed.
Print Assumptions C64_alpha_log.

Example C64_example : internal_places (parallel_pairs (native 1 false [[1; 2; 3; 4]; [1; 3; 2; 4]; [1; 5; 4]])) (causal_alpha (native 1 false [[1; 2; 3; 4]; [1; 3; 2; 4]; [1; 5; 4]]))
  = [([1], [2; 5]); ([3; 5], [4]); ([1], [3; 5]); ([2; 5], [4])].
Proof. vm_compute. reflexivity. Qed.

(** Activities that directly follow themselves are in no pair: their transitions are not connected to the others and may fire at any time. *)
Theorem C64_self_loops : forall (l : log) a, follows (fun w => In w l) a a ->
  forall A B, maximal_pair (follows (fun w => In w l)) A B -> ~ In a A /\ ~ In a B.
Proof. intros l a H A B [(_ & _ & _ & HA & HB) _]. split; intros Ha; [destruct (HA a a Ha Ha)|destruct (HB a a Ha Ha)]; auto. Qed.
Print Assumptions C64_self_loops.
