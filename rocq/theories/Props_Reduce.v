(** C66: the reduction of invisible transitions (pm4py.reduce_petri_net_invisibles) keeps the language and the soundness
    of an accepting Petri net. *)
From stdpp Require Import gmap.
From Coq Require Import List Arith Lia Bool ZArith Permutation.
Import ListNotations.
From Verif Require Import Model_Petri Spec_Petri Model_Tree Model_TreeNet Spec_TreeNet Proofs_Petri Proofs_Shuffle Proofs_Block Proofs_Block3 Proofs_TreeNet Proofs_TreeNet2 Proofs_Reduce Proofs_TreeNet3 Proofs_TreeNet4 Proofs_Reduce2.

(** The number of arcs of the net that end in (start from) a place. *)
Definition arcs_into (pn : petri_net (option nat)) (p : nat) : nat := count_occ Nat.eq_dec (map fst (concat (map t_out (n_trans pn)))) p.
Definition arcs_from (pn : petri_net (option nat)) (p : nat) : nat := count_occ Nat.eq_dec (map fst (concat (map t_in (n_trans pn)))) p.
Definition marked (im fm : marking) (p : nat) : Prop := tokens im p <> 0%Z \/ tokens fm p <> 0%Z.
(** Markings on places with one arc in and one arc out are excluded; no dead transitions. *)
Definition no_marked_pass_through pn im fm : Prop := forall p, marked im fm p -> ~ (arcs_into pn p = 1 /\ arcs_from pn p = 1).
(** Alternatively: marked places are sources or sinks, as in workflow nets. *)
Definition marked_ends pn im fm : Prop := forall p, marked im fm p -> arcs_into pn p = 0 \/ arcs_from pn p = 0.
Definition reducible (pn : petri_net (option nat)) (im fm : marking) : Prop :=
  proper im /\ proper fm /\ distinct_ids pn /\ unit_weights pn /\
  ((no_marked_pass_through pn im fm /\ no_dead_transitions pn im) \/ marked_ends pn im fm).

Lemma count_occ_cnt l p : count_occ Nat.eq_dec l p = cnt l p.
Proof. induction l as [|x l IH]; [reflexivity|]. cbn. destruct (Nat.eq_dec x p), (Nat.eqb_spec x p); try congruence; rewrite IH; reflexivity. Qed.
Lemma arcs_into_eq pn p : arcs_into pn p = in_arcs pn p.
Proof.
  unfold arcs_into. rewrite in_arcs_cnt, count_occ_cnt. induction (n_trans pn) as [|t l IH]; [reflexivity|]. cbn [map concat]. rewrite map_app, cnt_app, IH. unfold post. reflexivity.
Qed.
Lemma arcs_from_eq pn p : arcs_from pn p = out_arcs pn p.
Proof.
  unfold arcs_from. rewrite out_arcs_cnt, count_occ_cnt. induction (n_trans pn) as [|t l IH]; [reflexivity|]. cbn [map concat]. rewrite map_app, cnt_app, IH. unfold pre. reflexivity.
Qed.
Definition nats (m : marking) : nat -> nat := fun p => Z.to_nat (tokens m p).
Lemma proper_tokens m p : proper m -> (0 <= tokens m p)%Z.
Proof. intros H. unfold tokens. destruct (m !! p) as [v|] eqn:E; [|lia]. specialize (H p v E). lia. Qed.
Lemma same_nats m : proper m -> same m (nats m).
Proof. intros H p. unfold nats. pose proof (proper_tokens m p H). lia. Qed.
Lemma unit_unit1 pn : unit_weights pn -> forall t, In t (n_trans pn) -> unit1 t.
Proof.
  intros H t Ht. assert (G : forall l : list (nat * Z), (forall p w, In (p, w) l -> w = 1%Z) -> l = arcs (map fst l)).
  { induction l as [|[p w] l IH]; intros Hl; [reflexivity|]. cbn. rewrite (Hl p w (or_introl eq_refl)). f_equal. apply IH. intros q v Hq. apply (Hl q v). now right. }
  split; apply G; intros p w Hp; eapply H; eauto.
Qed.
Lemma reducible_ready pn im fm : reducible pn im fm -> ready pn (nats im) (nats fm).
Proof.
  intros (Hi & Hf & Hid & Hun & Hc). pose proof (unit_unit1 pn Hun) as Hu. split; [exact Hid|]. split; [exact Hu|]. 
  assert (Hz : forall p, ~ marked im fm p -> nats im p = 0 /\ nats fm p = 0).
  { intros p Hp. unfold marked, nats in *. destruct (Z.eq_dec (tokens im p) 0), (Z.eq_dec (tokens fm p) 0); tauto || lia. }
  destruct Hc as [[Hc Hd]|Hc].
  - left. split.
    + intros p H1 H2. apply Hz. intros Hm. apply (Hc p Hm). now rewrite arcs_into_eq, arcs_from_eq.
    + intros v Hv Hx. destruct (Hd v Hv) as (m & m' & (ts & Hr) & Hfire). destruct (run_runs pn Hu _ _ _ Hr _ (same_nats im Hi)) as (n & Hs & Hr').
      apply (Hx _ _ Hr'). destruct (fires_fire pn Hu _ _ _ _ Hfire Hs) as (n' & _ & [He _]). exact He.
  - right. intros p H1 H2. apply Hz. intros Hm. destruct (Hc p Hm) as [E|E]; rewrite ?arcs_into_eq, ?arcs_from_eq in E; lia.
Qed.
Section Red.
Variables (pn pn' : petri_net (option nat)) (im fm : marking).
Hypothesis HR : reducible pn im fm.
Hypothesis HS : simple_reduction pn pn'.
Lemma HRI : proper im. Proof. apply HR. Qed.
Lemma HRF : proper fm. Proof. apply HR. Qed.
Lemma HU : forall t, In t (n_trans pn) -> unit1 t. Proof. apply unit_unit1, HR. Qed.
Lemma red_refines : refines (n_trans pn) (n_trans pn') (nats im) (nats fm).
Proof. apply (reduction_refines pn pn'); [now apply reducible_ready|exact HS]. Qed.
Lemma HU' : forall t, In t (n_trans pn') -> unit1 t.
Proof. apply (reduction_refines pn pn' (nats im) (nats fm)); [now apply reducible_ready|exact HS]. Qed.
Lemma run_iff_aux p0 (HU0 : forall t, In t (n_trans p0) -> unit1 t) m m' w : proper m -> proper m' -> (exists ts, run p0 m ts m' /\ visible ts = w) <-> runs (n_trans p0) (nats m) w (nats m').
Proof.
  intros Hm Hm'. split.
  - intros (ts & Hr & <-). destruct (run_runs p0 HU0 _ _ _ Hr _ (same_nats m Hm)) as (n & Hs & H). eapply runs_ext_r; [exact H|]. intros p. pose proof (Hs p) as A. pose proof (same_nats m' Hm' p) as A'. lia.
  - intros H. destruct (runs_run p0 HU0 _ _ _ H _ Hm (same_nats m Hm)) as (ts & k & Hr & Hv & Hs & Hk). exists ts. split; [|exact Hv].
    rewrite <- (same_eq k m' _ _ Hk Hm' Hs (same_nats m' Hm')); auto.
Qed.
Lemma reach_back m : reachable pn' im m -> reachable pn im m.
Proof.
  intros (ts & Hr). pose proof (run_proper _ _ _ _ HRI Hr) as Hm. assert (H : exists ts, run pn' im ts m /\ visible ts = visible ts) by eauto.
  pose proof (proj1 (run_iff_aux pn' HU' im m (visible ts) HRI Hm) (ex_intro _ ts (conj Hr eq_refl))) as H1. apply (rf_back _ _ _ _ red_refines) in H1.
  destruct (proj2 (run_iff_aux pn HU im m (visible ts) HRI Hm) H1) as (ts' & Hr' & _). now exists ts'.
Qed.
End Red.

(** The traces are the same, whatever the order in which the rules are applied. *)
Theorem C66_language pn pn' im fm :
  reducible pn im fm -> simple_reduction pn pn' ->
  forall w, accepts pn im fm w <-> accepts pn' im fm w.
Proof.
  intros HR HS w. pose proof (HRI _ _ _ HR) as Hi. pose proof (HRF _ _ _ HR) as Hf. unfold accepts.
  rewrite (run_iff_aux pn (HU _ _ _ HR) im fm w Hi Hf). rewrite (run_iff_aux pn' (HU' _ _ _ _ HR HS) im fm w Hi Hf).
  pose proof (red_refines _ _ _ _ HR HS) as H. split; [apply (rf_to _ _ _ _ H)|apply (rf_back _ _ _ _ H)].
Qed.
Print Assumptions C66_language.

(** A sound net stays sound: each of the parts of soundness is kept. *)
Theorem C66_soundness pn pn' im fm :
  reducible pn im fm -> simple_reduction pn pn' ->
  (option_to_complete pn im fm -> option_to_complete pn' im fm) /\
  (safe pn im -> safe pn' im) /\
  (forall snk, proper_completion pn im fm snk -> proper_completion pn' im fm snk) /\
  (no_dead_transitions pn im -> no_dead_transitions pn' im).
Proof.
  intros HR HS. pose proof (HRI _ _ _ HR) as Hi. pose proof (HRF _ _ _ HR) as Hf. pose proof (HU _ _ _ HR) as Hu. pose proof (HU' _ _ _ _ HR HS) as Hu'.
  pose proof (red_refines _ _ _ _ HR HS) as H. pose proof (reach_back _ _ _ _ HR HS) as Hb. split; [|split; [|split]].
  - intros Ho m Hm. destruct (Ho m (Hb m Hm)) as (ts & Hr). destruct Hm as (ts0 & Hr0). pose proof (run_proper _ _ _ _ Hi Hr0) as Hpm.
    pose proof (proj1 (run_iff_aux pn' Hu' im m (visible ts0) Hi Hpm) (ex_intro _ ts0 (conj Hr0 eq_refl))) as A0.
    pose proof (proj1 (run_iff_aux pn Hu m fm (visible ts) Hpm Hf) (ex_intro _ ts (conj Hr eq_refl))) as A1.
    pose proof (rf_opt _ _ _ _ H _ _ _ A0 A1) as A2. destruct (proj2 (run_iff_aux pn' Hu' m fm (visible ts) Hpm Hf) A2) as (ts' & Hr' & _). now exists ts'.
  - intros Hs m p Hm. apply Hs, Hb, Hm.
  - intros snk Hs m Hm. apply Hs, Hb, Hm.
  - intros Hd v' Hv'. destruct (rf_live _ _ _ _ H v' Hv') as (v & Hv & _ & Hl). destruct (Hd v Hv) as (m & m' & (ts & Hr) & Hfire).
    destruct (run_runs pn Hu _ _ _ Hr _ (same_nats im Hi)) as (n & Hs & Hr'). destruct (fires_fire pn Hu _ _ _ _ Hfire Hs) as (n' & _ & [He _]).
    destruct (Hl _ _ Hr' He) as (k & Hk & Hek). destruct (runs_run pn' Hu' _ _ _ Hk _ Hi (same_nats im Hi)) as (ts' & mk' & Hr2 & _ & Hs2 & Hp2).
    destruct (fire_fires pn' Hu' v' mk' k _ Hv' Hp2 Hs2 (fire_after v' k Hek)) as (m2 & _ & Hf2). exists mk', m2. split; [now exists ts'|exact Hf2].
Qed.
Print Assumptions C66_soundness.

(** The loops end, in a net to which no rule applies, with at most as many transitions. *)
Theorem C66_terminates pn :
  (exists pn', simple_reduction pn pn') /\
  (forall pn', simple_reduction pn pn' -> length (n_trans pn') <= length (n_trans pn) /\ (forall x, ~ exit_step pn' x)).
Proof.
  split; [apply reduction_exists|]. intros pn' (pn1 & H1 & _ & H2 & Hn). split; [|exact Hn].
  assert (G : forall R : petri_net (option nat) -> petri_net (option nat) -> Prop, (forall x y, R x y -> length (n_trans y) < length (n_trans x)) -> forall x y, star R x y -> length (n_trans y) <= length (n_trans x)).
  { intros R HR x y H. induction H as [x|x y z Hxy H IH]; [lia|]. specialize (HR x y Hxy). lia. }
  pose proof (G _ entry_shrinks _ _ H1). pose proof (G _ exit_shrinks _ _ H2). lia.
Qed.
Print Assumptions C66_terminates.

(** Only silent transitions disappear: every visible label occurs as often as before. *)
Definition labels (pn : petri_net (option nat)) (a : nat) : nat := length (List.filter (fun t => match t_label t with Some b => Nat.eqb b a | None => false end) (n_trans pn)).
Lemma labels_on a x g B : (forall v, t_label (g v) = t_label v) ->
  length (List.filter (fun t : tr => match t_label t with Some b => Nat.eqb b a | None => false end) (on_id x g B)) = length (List.filter (fun t : tr => match t_label t with Some b => Nat.eqb b a | None => false end) B).
Proof.
  intros Hg. unfold on_id. induction B as [|v B IH]; [reflexivity|]. cbn. destruct (Nat.eqb (t_id v) x); rewrite ?Hg; destruct (t_label v) as [b|]; [destruct (Nat.eqb b a)| |destruct (Nat.eqb b a)|]; cbn; congruence.
Qed.
Lemma labels_no a (t : tr) B : NoDup (map t_id B) -> In t B -> t_label t = None ->
  length (List.filter (fun t : tr => match t_label t with Some b => Nat.eqb b a | None => false end) (no_id (t_id t) B)) = length (List.filter (fun t : tr => match t_label t with Some b => Nat.eqb b a | None => false end) B).
Proof.
  intros Hn Ht Hl. unfold no_id. assert (G : forall v, In v B -> t_id v = t_id t -> t_label v = None) by (intros v Hv E; rewrite (ids_inj B v t); auto).
  clear Hn Ht. induction B as [|v B IH]; [reflexivity|]. cbn. destruct (Nat.eqb_spec (t_id v) (t_id t)) as [E|E]; cbn.
  - rewrite (G v (or_introl eq_refl) E). apply IH. intros w Hw. apply G. now right.
  - assert (IH' := IH (fun w Hw => G w (or_intror Hw))). destruct (t_label v) as [b|]; [destruct (Nat.eqb b a)|]; cbn; congruence.
Qed.
Theorem C66_visible pn pn' : distinct_ids pn -> simple_reduction pn pn' -> forall a, labels pn' a = labels pn a.
Proof.
  intros Hid (pn1 & H1 & _ & H2 & _) a.
  assert (G : forall R : petri_net (option nat) -> petri_net (option nat) -> Prop, (forall x y, distinct_ids x -> R x y -> distinct_ids y /\ labels y a = labels x a) -> forall x y, star R x y -> distinct_ids x -> distinct_ids y /\ labels y a = labels x a).
  { intros R HR x y H. induction H as [x|x y z Hxy H IH]; intros Hx; [auto|]. destruct (HR x y Hx Hxy) as [Hy Ey]. destruct (IH Hy) as [Hz Ez]. split; congruence. }
  destruct (G entry_step) with (x := pn) (y := pn1) as [D1 E1]; [|exact H1|exact Hid|destruct (G exit_step) with (x := pn1) (y := pn') as [D2 E2]; [|exact H2|exact D1|congruence]].
  - intros x y Hx (t & u & p & w & Ht & Hu & Hl & _ & _ & _ & _ & ->). split; [apply step_ids; auto|]. unfold labels. cbn [n_trans]. rewrite labels_on by reflexivity. now apply labels_no.
  - intros x y Hx (t & u & p & w & Ht & Hu & Hl & _ & _ & _ & _ & ->). split; [apply step_ids; auto|]. unfold labels. cbn [n_trans]. rewrite labels_on by reflexivity. now apply labels_no.
Qed.
Print Assumptions C66_visible.

(** ** Outside the hypotheses *)
Lemma run_nil_eq (pn : petri_net (option nat)) m m' p : run pn m [] m' -> tokens m p = tokens m' p.
Proof. intros H. inversion H. reflexivity. Qed.
(** A marked place with one arc in and one arc out is removed, and with it the language: t : 1 -> 2 silent,
    u : 2 -> 1 visible, from {1} to {2}. *)
Theorem C66_marked_refuted : exists pn pn' im fm,
  proper im /\ proper fm /\ distinct_ids pn /\ unit_weights pn /\ no_dead_transitions pn im /\ simple_reduction pn pn' /\
  accepts pn im fm [5] /\ forall w, ~ accepts pn' im fm w.
Proof.
  set (t := mk_trans 1 None [1] [2]). set (u := mk_trans 2 (Some 5) [2] [1]). set (pn := Net [1; 2] [t; u]). set (pn' := Net [2] [mk_trans 2 (Some 5) [2] [2]]).
  set (im := ({[ 1 := 1%Z ]} : marking)). set (fm := ({[ 2 := 1%Z ]} : marking)). exists pn, pn', im, fm.
  assert (Pi : proper im) by (now apply proper_singleton). assert (Pf : proper fm) by (now apply proper_singleton).
  assert (F1 : fires pn t im fm). { split; [now left|]. split; [|split; [exact Pf|]]; intros p; unfold im, fm; unfold t, mk_trans, arcs; cbn [t_in t_out map weight]; rewrite ?tokens_singleton; destruct (Nat.eqb_spec 1 p), (Nat.eqb_spec 2 p); lia. }
  assert (F2 : fires pn u fm im). { split; [right; now left|]. split; [|split; [exact Pi|]]; intros p; unfold im, fm; unfold u, mk_trans, arcs; cbn [t_in t_out map weight]; rewrite ?tokens_singleton; destruct (Nat.eqb_spec 1 p), (Nat.eqb_spec 2 p); lia. }
  split; [exact Pi|]. split; [exact Pf|]. split; [unfold distinct_ids; cbn; repeat constructor; cbn; intuition lia|]. split.
  { intros v Hv p w. destruct Hv as [<-|[<-|[]]]; cbn; intros [[E|[]]|[E|[]]]; congruence. }
  split. { intros v [<-|[<-|[]]]; [exists im, fm; split; [exists []; constructor|exact F1]|exists fm, im; split; [exists [t]; econstructor; [exact F1|constructor]|exact F2]]. }
  split.
  { exists pn'. assert (Hno : forall x, ~ exit_step pn' x) by (intros x (v & v2 & p & w & [<-|[]] & _ & Hl & _); discriminate). split; [|split; [|split; [constructor|exact Hno]]].
    - econstructor; [|constructor]. exists t, u, 1, 1%Z. repeat split; cbn; auto.
    - intros x (v & v2 & p & w & [<-|[]] & _ & Hl & _). discriminate. }
  split.
  - exists [t; u; t]. split; [|reflexivity]. econstructor; [exact F1|]. econstructor; [exact F2|]. econstructor; [exact F1|constructor].
  - intros w (ts & Hr & _). destruct ts as [|v0 ts0]; [|inversion Hr as [|m v m1 ts' m2 (Hv & He & _) Hr' Em Ets Em2]; subst].
    + pose proof (run_nil_eq _ _ _ 1 Hr) as E'. unfold im, fm in E'. rewrite !tokens_singleton in E'. discriminate.
    + destruct Hv as [<-|[]]. specialize (He 2). unfold im in He. rewrite tokens_singleton in He. cbn in He. lia.
Qed.
Print Assumptions C66_marked_refuted.

(** Arc weights are ignored: u : 1 -> 2 puts two tokens into 2, the silent t : 2 -> 3 moves them on; the new arc from u
    to 3 has weight 1. *)
Theorem C66_weights_refuted : exists pn pn' im fm,
  proper im /\ proper fm /\ distinct_ids pn /\ marked_ends pn im fm /\ no_dead_transitions pn im /\ simple_reduction pn pn' /\
  accepts pn im fm [5] /\ ~ accepts pn' im fm [5].
Proof.
  set (t := mk_trans 1 None [2] [3]). set (u := Trans 2 (Some 5) [(1, 1%Z)] [(2, 2%Z)]). set (pn := Net [1; 2; 3] [t; u]). set (pn' := Net [1; 3] [mk_trans 2 (Some 5) [1] [3]]).
  set (im := ({[ 1 := 1%Z ]} : marking)). set (fm := ({[ 3 := 2%Z ]} : marking)). exists pn, pn', im, fm.
  set (m1 := ({[ 2 := 2%Z ]} : marking)). set (m2 := (<[ 3 := 1%Z ]> {[ 2 := 1%Z ]} : marking)).
  assert (T2 : forall p, tokens m2 p = if Nat.eqb 3 p then 1%Z else if Nat.eqb 2 p then 1%Z else 0%Z).
  { intros p. unfold m2. destruct (Nat.eqb_spec 3 p) as [<-|H3]; [unfold tokens; now rewrite lookup_insert|]. unfold tokens at 1. rewrite lookup_insert_ne by congruence. exact (tokens_singleton 2 1 p). }
  assert (Pi : proper im) by (now apply proper_singleton). assert (Pf : proper fm) by (now apply proper_singleton). assert (P1 : proper m1) by (now apply proper_singleton).
  assert (P2 : proper m2). { intros p v Hv. pose proof (T2 p) as E. unfold tokens in E. rewrite Hv in E. destruct (Nat.eqb 3 p); [lia|]. destruct (Nat.eqb_spec 2 p) as [E2|Hp]; [lia|]. exfalso.
    unfold m2 in Hv. destruct (Nat.eqb_spec 3 p) as [<-|H3]. - rewrite lookup_insert in Hv. congruence. - rewrite lookup_insert_ne in Hv by congruence. rewrite lookup_singleton_ne in Hv by congruence. discriminate. }
  assert (F1 : fires pn u im m1). { split; [right; now left|]. split; [|split; [exact P1|]]; intros p; unfold im, m1, u; cbn [t_in t_out weight]; rewrite ?tokens_singleton; destruct (Nat.eqb_spec 1 p), (Nat.eqb_spec 2 p); lia. }
  assert (F2 : fires pn t m1 m2). { split; [now left|]. split; [|split; [exact P2|]]; intros p; unfold m1, t, mk_trans, arcs; cbn [t_in t_out map weight]; rewrite ?T2, ?tokens_singleton; destruct (Nat.eqb_spec 2 p), (Nat.eqb_spec 3 p); lia. }
  assert (F3 : fires pn t m2 fm). { split; [now left|]. split; [|split; [exact Pf|]]; intros p; unfold fm, t, mk_trans, arcs; cbn [t_in t_out map weight]; rewrite ?T2, ?tokens_singleton; destruct (Nat.eqb_spec 2 p), (Nat.eqb_spec 3 p); lia. }
  split; [exact Pi|]. split; [exact Pf|]. split; [unfold distinct_ids; cbn; repeat constructor; cbn; intuition lia|]. split.
  { intros p [Hp|Hp]; unfold im, fm in Hp; rewrite tokens_singleton in Hp; [destruct (Nat.eqb_spec 1 p) as [E1|]; [left; rewrite <- E1; reflexivity|congruence]|destruct (Nat.eqb_spec 3 p) as [E3|]; [right; rewrite <- E3; reflexivity|congruence]]. }
  split. { intros v [<-|[<-|[]]]; [exists m1, m2; split; [exists [u]; econstructor; [exact F1|constructor]|exact F2]|exists im, m1; split; [exists []; constructor|exact F1]]. }
  split.
  { exists pn'. assert (Hno : forall x, ~ exit_step pn' x) by (intros x (v & v2 & p & w & [<-|[]] & _ & Hl & _); discriminate). split; [|split; [|split; [constructor|exact Hno]]].
    - econstructor; [|constructor]. exists t, u, 2, 1%Z. repeat split; cbn; auto.
    - intros x (v & v2 & p & w & [<-|[]] & _ & Hl & _). discriminate. }
  split.
  - exists [u; t; t]. split; [|reflexivity]. econstructor; [exact F1|]. econstructor; [exact F2|]. econstructor; [exact F3|constructor].
  - intros (ts & Hr & Hv). destruct ts as [|v ts]; [discriminate|]. inversion Hr as [|m v' m1' ts' m2' (Hin & He & _ & Ht) Hr' Em Ets Em2]; subst. destruct Hin as [<-|[]].
    destruct ts as [|v2 ts].
    + specialize (Ht 3). rewrite (run_nil_eq _ _ _ 3 Hr') in Ht. unfold im, fm in Ht. rewrite !tokens_singleton in Ht. cbn in Ht. lia.
    + inversion Hr' as [|m v' m1'' ts' m2' (Hin & He2 & _) Hr'' Em Ets Em2]; subst. destruct Hin as [<-|[]]. specialize (He2 1). specialize (Ht 1). rewrite Ht in He2. unfold im in He2. rewrite !tokens_singleton in He2. cbn in He2. lia.
Qed.
Print Assumptions C66_weights_refuted.

(** The exit rule can create two parallel arcs from one place; with the enabling rule of the code (each arc by itself,
    C02) the reduced net then has a trace that the net did not have.  t : 1 -> 2 silent, u : 1, 2 -> 3. *)
Theorem C66_parallel_refuted : exists pn pn' im fm u',
  reducible pn im fm /\ simple_net pn /\ simple_reduction pn pn' /\
  (forall w, ~ accepts pn im fm w) /\
  In u' (n_trans pn') /\ t_label u' = Some 5 /\ is_enabled u' pn' im = true /\ weak_execute u' im = fm.
Proof.
  set (t := mk_trans 1 None [1] [2]). set (u := mk_trans 2 (Some 5) [1; 2] [3]). set (pn := Net [1; 2; 3] [t; u]).
  set (u' := mk_trans 2 (Some 5) [1; 1] [3]). set (pn' := Net [1; 3] [u']).
  set (im := ({[ 1 := 1%Z ]} : marking)). set (fm := ({[ 3 := 1%Z ]} : marking)). exists pn, pn', im, fm, u'.
  assert (Pi : proper im) by (now apply proper_singleton). assert (Pf : proper fm) by (now apply proper_singleton).
  split. { split; [exact Pi|]. split; [exact Pf|]. split; [unfold distinct_ids; cbn; repeat constructor; cbn; intuition lia|]. split.
    - intros v Hv p w. destruct Hv as [<-|[<-|[]]]; cbn; intuition congruence.
    - right. intros p [Hp|Hp]; unfold im, fm in Hp; rewrite tokens_singleton in Hp; [destruct (Nat.eqb_spec 1 p) as [E1|]; [left; rewrite <- E1; reflexivity|congruence]|destruct (Nat.eqb_spec 3 p) as [E3|]; [right; rewrite <- E3; reflexivity|congruence]]. }
  split. { intros v Hv. destruct Hv as [<-|[<-|[]]]; split; (split; [cbn; repeat constructor; cbn; intuition lia|]); cbn; intros p w H; assert (w = 1%Z) by (intuition congruence); lia. }
  split.
  { exists pn. split; [constructor|]. split.
    - intros x (v & v2 & p & w & [<-|[<-|[]]] & _ & Hl & Hin & _ & Ha & _); [|discriminate]. cbn in Hin. injection Hin as <- <-. discriminate Ha.
    - split; [econstructor; [|constructor]|].
      + exists t, u, 2, 1%Z. repeat split; cbn; auto.
      + intros x (v & v2 & p & w & [<-|[]] & _ & Hl & _). discriminate. }
  split.
  { intros w (ts & Hr & _). destruct ts as [|v0 ts0]; [|inversion Hr as [|m v m1 ts' m2 (Hv & He & _ & Ht) Hr' Em Ets Em2]; subst].
    - pose proof (run_nil_eq _ _ _ 1 Hr) as E'. unfold im, fm in E'. rewrite !tokens_singleton in E'. discriminate.
    - destruct Hv as [<-|[<-|[]]]; [|specialize (He 2); unfold im in He; rewrite tokens_singleton in He; cbn in He; lia].
      destruct ts0 as [|v1 ts0]; [|inversion Hr' as [|m v m1' ts2 m2' (Hv & He' & _) Hr'' Em Ets Em2]; subst].
      + specialize (Ht 3). rewrite (run_nil_eq _ _ _ 3 Hr') in Ht. unfold im, fm in Ht. rewrite !tokens_singleton in Ht. cbn in Ht. lia.
      + specialize (Ht 1). specialize (He' 1). rewrite Ht in He'. unfold im in He'. rewrite tokens_singleton in He'. destruct Hv as [<-|[<-|[]]]; cbn in He'; lia. }
  split; [now left|]. split; [reflexivity|]. split; [vm_compute; reflexivity|].
  apply (bool_decide_eq_true_1 (weak_execute u' im = fm)). vm_compute. reflexivity.
Qed.
Print Assumptions C66_parallel_refuted.

(** The hypotheses are met by the net 1 -t-> 2 -a-> 3 -s-> 4, with t and s silent, whose reduction exists and is not trivial. *)
Example C66_witness :
  let pn := Net [1; 2; 3; 4] [mk_trans 1 None [1] [2]; mk_trans 2 (Some 7) [2] [3]; mk_trans 3 None [3] [4]] in
  let im := ({[ 1 := 1%Z ]} : marking) in let fm := ({[ 4 := 1%Z ]} : marking) in
  reducible pn im fm /\ simple_reduction pn (Net [1; 4] [mk_trans 2 (Some 7) [1] [4]]).
Proof.
  intros pn im fm. split.
  - split; [now apply proper_singleton|]. split; [now apply proper_singleton|]. split; [unfold distinct_ids; cbn; repeat constructor; cbn; intuition lia|]. split.
    + intros v Hv p w. destruct Hv as [<-|[<-|[<-|[]]]]; cbn; intuition congruence.
    + right. intros p [Hp|Hp]; unfold im, fm in Hp; rewrite tokens_singleton in Hp; [destruct (Nat.eqb_spec 1 p) as [E1|]; [left; rewrite <- E1; reflexivity|congruence]|destruct (Nat.eqb_spec 4 p) as [E3|]; [right; rewrite <- E3; reflexivity|congruence]].
  - exists (Net [1; 2; 4] [mk_trans 1 None [1] [2]; mk_trans 2 (Some 7) [2] [4]]). split; [|split; [|split]].
    + econstructor; [|constructor]. exists (mk_trans 3 None [3] [4]), (mk_trans 2 (Some 7) [2] [3]), 3, 1%Z. repeat split; cbn; auto.
    + intros x (v & v2 & p & w & [<-|[<-|[]]] & _ & Hl & Hin & _ & Ha & _); [|discriminate]. cbn in Hin. injection Hin as <- <-. discriminate Ha.
    + econstructor; [|constructor]. exists (mk_trans 1 None [1] [2]), (mk_trans 2 (Some 7) [2] [4]), 2, 1%Z. repeat split; cbn; auto.
    + intros x (v & v2 & p & w & [<-|[]] & _ & Hl & _). discriminate.
Qed.
