(** From blocks to the markings of the code; existence of the reduction. *)
From stdpp Require Import gmap.
From Coq Require Import List Arith Lia Bool ZArith Permutation.
Import ListNotations.
From Verif Require Import Model_Petri Spec_Petri Model_Tree Model_TreeNet Spec_Tree Proofs_Petri Proofs_Shuffle Proofs_Block Proofs_Block3 Proofs_TreeNet Proofs_TreeNet2 Proofs_Reduce Proofs_TreeNet3.

Definition same (m : marking) (n : nat -> nat) : Prop := forall p, tokens m p = Z.of_nat (n p).
Lemma weight_arcs l p : weight (arcs l) p = Z.of_nat (cnt l p).
Proof. induction l as [|q l IH]; cbn [arcs map weight cnt]; [auto|]. fold (arcs l). rewrite IH. destruct (Nat.eqb q p); lia. Qed.
Lemma unit_in t p : unit1 t -> weight (t_in t) p = Z.of_nat (cnt (pre t) p).
Proof. intros [E _]. rewrite E. apply weight_arcs. Qed.
Lemma unit_out t p : unit1 t -> weight (t_out t) p = Z.of_nat (cnt (post t) p).
Proof. intros [_ E]. rewrite E. apply weight_arcs. Qed.

Section Link.
Variable pn : petri_net (option nat).
Hypothesis Hun : forall t, In t (n_trans pn) -> unit1 t.

Lemma visible_vis t ts : visible (t :: ts) = vis t ++ visible ts.
Proof. unfold vis. cbn. destruct (t_label t); reflexivity. Qed.
Lemma visible_snoc ts t : visible (ts ++ [t]) = visible ts ++ vis t.
Proof. induction ts as [|x ts IH]; [cbn; unfold vis; destruct (t_label t); reflexivity|]. cbn [app]. rewrite !visible_vis, IH, app_assoc. reflexivity. Qed.

Lemma fires_fire t m m' n : fires pn t m m' -> same m n -> exists n', same m' n' /\ fire t n n'.
Proof.
  intros (Ht & He & Hp & Hf) Hs. pose proof (Hun t Ht) as Hu.
  assert (Hle : forall p, cnt (pre t) p <= n p) by (intros p; specialize (He p); rewrite unit_in, Hs in He by auto; lia).
  exists (after t n). split; [|apply fire_after; auto]. intros p. rewrite Hf, Hs, unit_in, unit_out by auto. unfold after. specialize (Hle p). lia.
Qed.
Lemma run_runs m ts m' : run pn m ts m' -> forall n, same m n -> exists n', same m' n' /\ runs (n_trans pn) n (visible ts) n'.
Proof.
  induction 1 as [m|m t m1 ts m2 Hf Hr IH]; intros n Hs.
  - exists n. split; auto. apply runs_refl.
  - destruct (fires_fire _ _ _ _ Hf Hs) as (n1 & Hs1 & Hf1). destruct (IH _ Hs1) as (n2 & Hs2 & Hr2).
    exists n2. split; auto. rewrite visible_vis. eapply runs_app; [|exact Hr2]. apply runs_one; auto. apply Hf.
Qed.
Lemma list_marking l : exists k, proper k /\ forall p, tokens k p = Z.of_nat (cnt l p).
Proof.
  induction l as [|q l (k & Hk & Ht)].
  - exists ∅. split; [apply proper_empty|]. intros p. rewrite tokens_empty. reflexivity.
  - exists (m_add k {[ q := 1%Z ]}). split; [apply proper_m_add; auto; apply proper_singleton; lia|].
    intros p. rewrite tokens_m_add, Ht, tokens_singleton. cbn [cnt]. destruct (Nat.eqb q p); lia.
Qed.
Lemma fire_fires t m n n' : In t (n_trans pn) -> proper m -> same m n -> fire t n n' -> exists m', same m' n' /\ fires pn t m m'.
Proof.
  intros Ht Hp Hs [Hf1 Hf2]. pose proof (Hun t Ht) as Hu.
  destruct (list_marking (pre t)) as (a & Ha & Ta). destruct (list_marking (post t)) as (b & Hb & Tb).
  assert (Hp1 : proper (m_sub m a)) by (apply proper_m_sub; auto; intros p; rewrite Hs, Ta; specialize (Hf1 p); lia).
  exists (m_add (m_sub m a) b).
  assert (Hn : same (m_add (m_sub m a) b) n') by (intros p; rewrite tokens_m_add, tokens_m_sub, Hs, Ta, Tb; specialize (Hf1 p); specialize (Hf2 p); lia).
  split; auto. split; auto. split; [|split].
  - intros p. rewrite unit_in, Hs by auto. specialize (Hf1 p). lia.
  - apply proper_m_add; auto.
  - intros p. rewrite Hn, Hs, unit_in, unit_out by auto. specialize (Hf1 p). specialize (Hf2 p). lia.
Qed.
Lemma runs_run n w n' : runs (n_trans pn) n w n' -> forall m, proper m -> same m n ->
  exists ts m', run pn m ts m' /\ visible ts = w /\ same m' n' /\ proper m'.
Proof.
  induction 1 as [n n' E|n w n1 t n2 Hr IH Ht Hf]; intros m Hp Hs.
  - exists [], m. split; [constructor|]. split; auto. split; auto. intros p. rewrite <- E. auto.
  - destruct (IH m Hp Hs) as (ts & m1 & R1 & V1 & S1 & P1). destruct (fire_fires _ _ _ _ Ht P1 S1 Hf) as (m2 & S2 & F2).
    exists (ts ++ [t]), m2. split; [|split; [|split]]; auto.
    + eapply run_app; [exact R1|]. econstructor; [exact F2|constructor].
    + rewrite visible_snoc, V1. reflexivity.
    + apply F2.
Qed.
Lemma same_im : same net_im (cnt [1]).
Proof. intros p. unfold net_im. rewrite tokens_singleton. cbn [cnt]. destruct (Nat.eqb 1 p); lia. Qed.
Lemma same_fm : same net_fm (cnt [2]).
Proof. intros p. unfold net_fm. rewrite tokens_singleton. cbn [cnt]. destruct (Nat.eqb 2 p); lia. Qed.
Lemma proper_im : proper net_im. Proof. apply proper_singleton. lia. Qed.
Lemma proper_fm : proper net_fm. Proof. apply proper_singleton. lia. Qed.
Lemma same_eq m m' n n' : proper m -> proper m' -> same m n -> same m' n' -> (forall p, n p = n' p) -> m = m'.
Proof. intros H1 H2 S1 S2 E. apply proper_ext; auto. intros p. rewrite S1, S2, E. reflexivity. Qed.
End Link.

Section Good.
Variables (Q : Prop) (pn : petri_net (option nat)) (L : list nat -> Prop).
Hypothesis HG : good Q pn L.
Let Hun := g_unit _ _ _ HG.

Lemma good_lang w : accepts pn net_im net_fm w <-> L w.
Proof.
  split.
  - intros (ts & Hr & <-). destruct (run_runs pn Hun _ _ _ Hr _ same_im) as (n' & Hs & H).
    apply (b_sound (g_block _ _ _ HG) n'); auto. intros p. pose proof (Hs p) as E. rewrite (same_fm p) in E. lia.
  - intros Hw. apply (b_complete (g_block _ _ _ HG)) in Hw. destruct (runs_run pn Hun _ _ _ Hw _ proper_im same_im) as (ts & m' & Hr & Hv & Hs & Hp).
    exists ts. split; auto. rewrite <- (same_eq m' net_fm _ _ Hp proper_fm Hs same_fm); auto.
Qed.
Lemma good_safe m p : reachable pn net_im m -> (tokens m p <= 1)%Z.
Proof.
  intros (ts & Hr). destruct (run_runs pn Hun _ _ _ Hr _ same_im) as (n' & Hs & H). rewrite Hs.
  pose proof (b_safe (g_block _ _ _ HG) _ _ p H). lia.
Qed.
Lemma good_option m : reachable pn net_im m -> reachable pn m net_fm.
Proof.
  intros (ts & Hr). pose proof (run_proper _ _ _ _ proper_im Hr) as Hpm. destruct (run_runs pn Hun _ _ _ Hr _ same_im) as (n' & Hs & H).
  destruct (b_opt (g_block _ _ _ HG) _ _ H) as (w' & H' & _).
  destruct (runs_run pn Hun _ _ _ H' _ Hpm Hs) as (ts' & m' & Hr' & _ & Hs' & Hp').
  exists ts'. rewrite <- (same_eq m' net_fm _ _ Hp' proper_fm Hs' same_fm); auto.
Qed.
Lemma good_proper m : reachable pn net_im m -> (1 <= tokens m 2)%Z -> m = net_fm.
Proof.
  intros (ts & Hr) H2. pose proof (run_proper _ _ _ _ proper_im Hr) as Hpm. destruct (run_runs pn Hun _ _ _ Hr _ same_im) as (n' & Hs & H).
  destruct (b_sound (g_block _ _ _ HG) n' _ H) as [E _].
  - intros p. cbn [cnt]. destruct (Nat.eqb_spec 2 p) as [<-|]; [rewrite Hs in H2|]; lia.
  - eapply same_eq; eauto using proper_fm, same_fm.
Qed.
Lemma good_live t : Q -> In t (n_trans pn) -> exists m m', reachable pn net_im m /\ fires pn t m m'.
Proof.
  intros q Ht. destruct (b_live (g_block _ _ _ HG) q t Ht) as (w & n & Hr & He).
  destruct (runs_run pn Hun _ _ _ Hr _ proper_im same_im) as (ts & m & Hr' & _ & Hs & Hp).
  destruct (fire_fires pn Hun t m n _ Ht Hp Hs (fire_after t n He)) as (m' & _ & Hf). exists m, m'. split; auto. exists ts. auto.
Qed.
Lemma good_source t p : In t (n_trans pn) -> In p (pre t) -> In p (n_places pn) /\ p <> 2.
Proof.
  intros Ht Hp. split; [eapply (g_places _ _ _ HG); eauto|]. intros ->. destruct (proj2 (b_pre (g_block _ _ _ HG) t Ht) 2 Hp) as [[E|[]]|[_ E]]; congruence.
Qed.
Lemma good_sink t p : In t (n_trans pn) -> In p (post t) -> In p (n_places pn) /\ p <> 1.
Proof.
  intros Ht Hp. split; [eapply (g_places _ _ _ HG); eauto|]. intros ->. destruct (proj2 (b_post (g_block _ _ _ HG) t Ht) 1 Hp) as [[E|[]]|[E _]]; congruence.
Qed.
End Good.

(** * The reduction exists *)
Lemma ex_list_dec {X} (P : X -> Prop) (l : list X) : (forall x, P x \/ ~ P x) -> (exists x, In x l /\ P x) \/ ~ (exists x, In x l /\ P x).
Proof.
  intros HD. induction l as [|x l IH]; [right; intros (y & [] & _)|]. destruct (HD x) as [H|H]; [left; exists x; split; [left; auto|auto]|].
  destruct IH as [(y & Hy & Py)|IH]; [left; exists y; split; [right; auto|auto]|].
  right. intros (y & [<-|Hy] & Py); [auto|apply IH; eauto].
Qed.
Lemma entry_dec pn : (exists x, entry_step pn x) \/ (forall x, ~ entry_step pn x).
Proof.
  set (P := fun t u : tr => t_label t = None /\ exists p w, t_in t = [(p, w)] /\ In p (map fst (t_out u)) /\ in_arcs pn p = 1 /\ out_arcs pn p = 1).
  assert (PD : forall t u, P t u \/ ~ P t u).
  { intros t u. unfold P. destruct (t_label t); [right; intros [? _]; discriminate|].
    destruct (t_in t) as [|[p w] [|? ?]]; try (right; intros (_ & pz & wz & E & _); discriminate).
    destruct (in_dec Nat.eq_dec p (map fst (t_out u))) as [H1|H1]; [|right; intros (_ & pz & wz & E & H & _); inversion E; subst; auto].
    destruct (Nat.eq_dec (in_arcs pn p) 1) as [H2|H2]; [|right; intros (_ & pz & wz & E & _ & H & _); inversion E; subst; auto].
    destruct (Nat.eq_dec (out_arcs pn p) 1) as [H3|H3]; [|right; intros (_ & pz & wz & E & _ & _ & H); inversion E; subst; auto].
    left. split; auto. exists p, w. auto. }
  destruct (ex_list_dec (fun t => exists u, In u (n_trans pn) /\ P t u) (n_trans pn)) as [(t & Ht & u & Hu & HP)|H].
  - intros t. apply ex_list_dec. apply PD.
  - left. destruct HP as (Hl & p & w & H1 & H2 & H3 & H4). eexists. exists t, u, p, w. repeat (split; [eassumption|]). reflexivity.
  - right. intros x (t & u & p & w & Ht & Hu & Hl & H1 & H2 & H3 & H4 & _). apply H. exists t. split; auto. exists u. split; auto. split; auto. exists p, w. auto.
Qed.
Lemma exit_dec pn : (exists x, exit_step pn x) \/ (forall x, ~ exit_step pn x).
Proof.
  set (P := fun t u : tr => t_label t = None /\ exists p w, t_out t = [(p, w)] /\ In p (map fst (t_in u)) /\ in_arcs pn p = 1 /\ out_arcs pn p = 1).
  assert (PD : forall t u, P t u \/ ~ P t u).
  { intros t u. unfold P. destruct (t_label t); [right; intros [? _]; discriminate|].
    destruct (t_out t) as [|[p w] [|? ?]]; try (right; intros (_ & pz & wz & E & _); discriminate).
    destruct (in_dec Nat.eq_dec p (map fst (t_in u))) as [H1|H1]; [|right; intros (_ & pz & wz & E & H & _); inversion E; subst; auto].
    destruct (Nat.eq_dec (in_arcs pn p) 1) as [H2|H2]; [|right; intros (_ & pz & wz & E & _ & H & _); inversion E; subst; auto].
    destruct (Nat.eq_dec (out_arcs pn p) 1) as [H3|H3]; [|right; intros (_ & pz & wz & E & _ & _ & H); inversion E; subst; auto].
    left. split; auto. exists p, w. auto. }
  destruct (ex_list_dec (fun t => exists u, In u (n_trans pn) /\ P t u) (n_trans pn)) as [(t & Ht & u & Hu & HP)|H].
  - intros t. apply ex_list_dec. apply PD.
  - left. destruct HP as (Hl & p & w & H1 & H2 & H3 & H4). eexists. exists t, u, p, w. repeat (split; [eassumption|]). reflexivity.
  - right. intros x (t & u & p & w & Ht & Hu & Hl & H1 & H2 & H3 & H4 & _). apply H. exists t. split; auto. exists u. split; auto. split; auto. exists p, w. auto.
Qed.
Lemma filter_le {X} (g : X -> bool) l : length (List.filter g l) <= length l.
Proof. induction l as [|x l IH]; cbn; [auto|]. destruct (g x); cbn; lia. Qed.
Lemma filter_lt {X} (g : X -> bool) l x : In x l -> g x = false -> length (List.filter g l) < length l.
Proof.
  induction l as [|y l IH]; intros Hx Hg; [destruct Hx|]. cbn. destruct Hx as [->|Hx].
  - rewrite Hg. pose proof (filter_le g l). lia.
  - specialize (IH Hx Hg). destruct (g y); cbn; lia.
Qed.
Lemma no_id_length (t : tr) B : In t B -> length (no_id (t_id t) B) < length B.
Proof. intros Ht. apply (filter_lt _ _ t Ht). rewrite Nat.eqb_refl. reflexivity. Qed.
Lemma entry_shrinks pn pn' : entry_step pn pn' -> length (n_trans pn') < length (n_trans pn).
Proof. intros (t & u & p & w & Ht & Hu & _ & _ & _ & _ & _ & ->). cbn. unfold on_id. rewrite map_length. apply no_id_length; auto. Qed.
Lemma exit_shrinks pn pn' : exit_step pn pn' -> length (n_trans pn') < length (n_trans pn).
Proof. intros (t & u & p & w & Ht & Hu & _ & _ & _ & _ & _ & ->). cbn. unfold on_id. rewrite map_length. apply no_id_length; auto. Qed.
Lemma normal_form (R : petri_net (option nat) -> petri_net (option nat) -> Prop) :
  (forall x, (exists y, R x y) \/ forall y, ~ R x y) -> (forall x y, R x y -> length (n_trans y) < length (n_trans x)) ->
  forall x, exists y, star R x y /\ forall z, ~ R y z.
Proof.
  intros HD HS x. remember (length (n_trans x)) as k eqn:Ek. revert x Ek. induction k as [k IH] using lt_wf_ind. intros x ->.
  destruct (HD x) as [(y & Hy)|H]; [|exists x; split; [constructor|auto]].
  destruct (IH _ (HS _ _ Hy) y eq_refl) as (z & Hz & Hn). exists z. split; auto. econstructor; eauto.
Qed.
Lemma reduction_exists pn : exists pn', simple_reduction pn pn'.
Proof.
  destruct (normal_form entry_step entry_dec entry_shrinks pn) as (pn1 & H1 & N1).
  destruct (normal_form exit_step exit_dec exit_shrinks pn1) as (pn2 & H2 & N2). exists pn2, pn1. auto.
Qed.
Lemma converted_exists t : exists pn, converted t pn.
Proof.
  destruct (reduction_exists (raw_net t)) as (pn1 & H). exists (clean_places (n_places pn1) pn1), pn1, (n_places pn1). auto.
Qed.
