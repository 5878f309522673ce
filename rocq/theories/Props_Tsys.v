(** C85: transition systems discovered from views of the traces. *)
From Coq Require Import List Arith Bool Lia Permutation.
Import ListNotations.
From Verif Require Import Model_Dict Model_Dfg Model_Graph Model_Tsys Spec_Tsys Proofs_Dict Proofs_Tsys.
Local Open Scope nat_scope.

Lemma discover_built ord k d w l : discover ord k d w l = built ord k (flat_map (steps d w) l).
Proof. reflexivity. Qed.
Lemma in_log_steps d w l x a y : In (x, a, y) (flat_map (steps d w) l) <-> exists t i, In t l /\ nth_error t i = Some a /\ view_at d w t i x /\ view_at d w t (S i) y.
Proof.
  rewrite in_flat_map. split.
  - intros (t & Ht & Hs). apply in_steps in Hs as (i & Hi & -> & ->). assert (i < length t) by (apply nth_error_Some; congruence).
    exists t, i. repeat split; auto; apply window_view; lia.
  - intros (t & i & Ht & Hi & A & B). exists t. split; auto. apply in_steps. exists i. split; auto. assert (i < length t) by (apply nth_error_Some; congruence).
    split; eapply view_unique; eauto; apply window_view; lia.
Qed.
(** Every event of the log is a transition, with its activity, between states that show the views before and after the event. *)
Theorem C85_complete : forall ord k d w l, (forall x, Permutation (ord x) x) -> forall t i a, In t l -> nth_error t i = Some a ->
  exists s s', In (a, s, s') (ts_trans (discover ord k d w l)) /\ shows k d w (discover ord k d w l) t i s /\ shows k d w (discover ord k d w l) t (S i) s'.
Proof.
  intros ord k d w l Ho t i a Ht Hi. rewrite discover_built. assert (Hl : i < length t) by (apply nth_error_Some; congruence).
  destruct (built_inv ord Ho k (flat_map (steps d w) l)) as (_ & _ & _ & I4 & _).
  destruct (I4 (window d w t i) a (window d w t (S i))) as (s & s' & A & (n & B1 & B2) & (n' & C1 & C2)).
  { apply in_log_steps. exists t, i. repeat split; auto; apply window_view; lia. }
  exists s, s'. split; auto. split; [exists n, (window d w t i)|exists n', (window d w t (S i))]; repeat split; auto; apply window_view; lia.
Qed.
Print Assumptions C85_complete.
(** Every transition comes from an event of the log, every state is the end of a transition, and the same transition is not added twice. *)
Theorem C85_justified : forall ord k d w l, (forall x, Permutation (ord x) x) -> let ts := discover ord k d w l in
  (forall a s s', In (a, s, s') (ts_trans ts) -> exists t i, In t l /\ nth_error t i = Some a /\ shows k d w ts t i s /\ shows k d w ts t (S i) s') /\
  (forall s n, In (s, n) (ts_states ts) -> exists a x, In (a, s, x) (ts_trans ts) \/ In (a, x, s) (ts_trans ts)) /\
  NoDup (map fst (ts_states ts)) /\ NoDup (ts_trans ts).
Proof.
  intros ord k d w l Ho. cbv zeta. rewrite discover_built.
  destruct (built_inv ord Ho k (flat_map (steps d w) l)) as (I1 & I2 & I3 & _ & I5 & _). split; [|split; [|split]]; auto.
  - intros a s s' Hin. destruct (I3 _ _ _ Hin) as (v1 & v2 & A & (n & B1 & B2) & (n' & C1 & C2)). apply in_log_steps in A as (t & i & Ht & Hi & V1 & V2).
    exists t, i. split; auto. split; auto. split; [exists n, v1|exists n', v2]; auto.
  - unfold ids_ok in I1. rewrite I1. apply seq_NoDup.
Qed.
Print Assumptions C85_justified.
(** If no event leaves the view unchanged, there is one state per view, and every trace is a path of the system. *)
Definition moving (k : view_kind) (d : direction) (w : nat) (l : log) : Prop :=
  forall t i u v, In t l -> i < length t -> view_at d w t i u -> view_at d w t (S i) v -> ~ same_view k u v.
Theorem C85_paths : forall ord k d w l, (forall x, Permutation (ord x) x) -> moving k d w l -> let ts := discover ord k d w l in
  (forall s n s' n', In (s, n) (ts_states ts) -> In (s', n') (ts_states ts) -> same_view k n n' -> s = s') /\
  (forall t, In t l -> t <> [] -> exists path : list nat, length path = S (length t) /\
    (forall i s, nth_error path i = Some s -> shows k d w ts t i s) /\
    forall i a, nth_error t i = Some a -> exists s s', nth_error path i = Some s /\ nth_error path (S i) = Some s' /\ In (a, s, s') (ts_trans ts)).
Proof.
  intros ord k d w l Ho Hm. cbv zeta. assert (DN : distinct_names k (discover ord k d w l)).
  { rewrite discover_built. apply built_distinct; auto. intros v1 a v2 Hin. apply in_log_steps in Hin as (t & i & Ht & Hi & V1 & V2). apply (Hm t i v1 v2); auto. apply nth_error_Some. congruence. }
  split; [exact DN|]. intros t Ht Hne.
  assert (SH : forall i, i <= length t -> exists s, shows k d w (discover ord k d w l) t i s).
  { intros i Hi. destruct (nth_error t i) as [a|] eqn:E.
    - destruct (C85_complete ord k d w l Ho t i a Ht E) as (s & s' & _ & A & _). eauto.
    - apply nth_error_None in E. assert (i = length t) as -> by lia. destruct (length t) as [|m] eqn:L; [destruct t; [congruence|discriminate]|].
      destruct (nth_error t m) as [a|] eqn:E'; [|apply nth_error_None in E'; lia]. destruct (C85_complete ord k d w l Ho t m a Ht E') as (s & s' & _ & _ & A). eauto. }
  assert (CH : forall m, m <= S (length t) -> exists path, length path = m /\ forall i s, nth_error path i = Some s -> shows k d w (discover ord k d w l) t i s).
  { induction m as [|m IH]; intros Hmm; [exists []; split; auto; intros [|] ? ?; discriminate|]. destruct IH as (p & L & P); [lia|]. destruct (SH m) as [s Hs]; [lia|].
    exists (p ++ [s]). split; [rewrite app_length; cbn; lia|]. intros i x Hx. destruct (Nat.lt_ge_cases i (length p)).
    - rewrite nth_error_app1 in Hx by auto. auto.
    - rewrite nth_error_app2 in Hx by auto. destruct (i - length p) as [|q] eqn:Q; cbn in Hx; [|destruct q; discriminate]. injection Hx as <-. assert (i = m) as -> by lia. auto. }
  destruct (CH (S (length t)) (le_n _)) as (path & L & P). exists path. split; auto. split; auto. intros i a Hi.
  assert (Hl : i < length t) by (apply nth_error_Some; congruence). destruct (C85_complete ord k d w l Ho t i a Ht Hi) as (s & s' & A & B & C).
  assert (U : forall j x, j <= length t -> shows k d w (discover ord k d w l) t j x -> nth_error path j = Some x).
  { intros j x Hj (n & u & X1 & X2 & X3). destruct (nth_error path j) as [y|] eqn:E; [|apply nth_error_None in E; lia]. destruct (P j y E) as (n' & u' & Y1 & Y2 & Y3).
    f_equal. apply (DN y n' x n); auto. assert (u' = u) as -> by (eapply view_unique; eauto). eapply same_trans; eauto. apply same_sym; auto. }
  exists s, s'. split; [apply U; auto; lia|]. split; auto.
Qed.
Print Assumptions C85_paths.
(** The hypothesis holds for sequences and multisets when the window covers the traces (the views have different sizes). *)
Theorem C85_full_window : forall k d w l, k <> Set_ -> (forall t, In t l -> length t <= w) -> moving k d w l.
Proof.
  intros k d w l Hk Hw t i u v Ht Hi (p & q & _ & A) (p' & q' & _ & B) Hs.
  assert (length u = length v). { destruct k; cbn in Hs; [congruence|apply Permutation_length; auto|congruence]. }
  specialize (Hw t Ht). destruct d; lia.
Qed.
Print Assumptions C85_full_window.
(** FINDING: when an event leaves a view unchanged that has no state yet, two states with the same name are created; which of them is
    used later depends on the iteration order of a set of objects, and the traces of the log need not be paths of the system. *)
Theorem C85_stutter_refuted : exists ord k d w l, (forall x, Permutation (ord x) x) /\ let ts := discover ord k d w l in
  (exists s n s' n', In (s, n) (ts_states ts) /\ In (s', n') (ts_states ts) /\ s <> s' /\ same_view k n n') /\
  (exists a b, In [a; b] l /\ forall s1 s2 s3, In (a, s1, s2) (ts_trans ts) -> In (b, s2, s3) (ts_trans ts) -> False).
Proof.
  exists (fun x => rev x), Sequence, Forward, 1, [[1; 1]]. split; [intros; symmetry; apply Permutation_rev|]. cbv zeta. split.
  - exists 0, [1], 1, [1]. cbn. repeat split; auto.
  - exists 1, 1. split; [cbn; auto|]. intros s1 s2 s3 A B. vm_compute in A, B.
    destruct A as [A|[A|[]]]; injection A as <- <-; destruct B as [B|[B|[]]]; discriminate.
Qed.
Print Assumptions C85_stutter_refuted.
Example ex_tsys : discover (fun x => x) Set_ Backward 2 [[1; 2; 3]; [2; 1; 3]] =
  Tsys [(0, []); (1, [1]); (2, [1; 2]); (3, [2; 3]); (4, [2]); (5, [1; 3])] [(1, 0, 1); (2, 1, 2); (3, 2, 3); (2, 0, 4); (1, 4, 2); (3, 2, 5)].
Proof. reflexivity. Qed.
Example ex_moving : moving Set_ Backward 2 [[1; 2; 3]; [2; 1; 3]].
Proof.
  intros t i u v Ht Hi A B.
  assert (Hu : u = window Backward 2 t i) by (eapply view_unique; eauto; apply window_view; lia).
  assert (Hv : v = window Backward 2 t (S i)) by (eapply view_unique; eauto; apply window_view; lia). subst u v.
  rewrite <- same_name_iff. destruct Ht as [<-|[<-|[]]]; cbn in Hi; destruct i as [|[|[|i]]]; try lia; vm_compute; discriminate.
Qed.
