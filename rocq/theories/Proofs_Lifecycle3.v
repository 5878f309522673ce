(** Proofs for C108: lead and cycle time. *)
From Coq Require Import List Arith ZArith Bool Lia.
From Verif Require Import Model_Lifecycle Spec_Lifecycle.
Import ListNotations.
Open Scope Z_scope.

Lemma seconds_split f a b c : a <= b <= c -> seconds f a c = seconds f a b + seconds f b c.
Proof.
  intros H. unfold seconds. replace (Z.to_nat (c - a)) with (Z.to_nat (b - a) + Z.to_nat (c - b))%nat by lia. rewrite seq_app, map_app, filter_app, app_length, Nat2Z.inj_add. f_equal. do 3 f_equal.
  rewrite Nat.add_0_l. remember (Z.to_nat (b - a)) as n. remember (Z.to_nat (c - b)) as k. assert (E : b = a + Z.of_nat n) by lia. rewrite E. clear. replace n with (n + 0)%nat at 1 by lia. generalize 0%nat as s. induction k as [|k IH]; intros s; cbn; auto. f_equal; [lia|]. rewrite <- Nat.add_succ_r. apply IH.
Qed.
Lemma seconds_ext f g a b : (forall x, a <= x < b -> f x = g x) -> seconds f a b = seconds g a b.
Proof.
  intros H. unfold seconds. do 2 f_equal. apply filter_ext_in. intros x Hx. apply in_map_iff in Hx as (i & <- & Hi). apply in_seq in Hi. apply H. lia.
Qed.
Lemma seconds_none f a b : (forall x, a <= x < b -> f x = false) -> seconds f a b = 0.
Proof.
  intros H. rewrite (seconds_ext f (fun _ => false)); auto. unfold seconds. assert (E : forall l : list Z, filter (fun _ => false) l = []) by (induction l; auto). rewrite E. auto.
Qed.
Lemma seconds_empty f a b : b <= a -> seconds f a b = 0.
Proof. intros H. apply seconds_none. intros; lia. Qed.

Section p.
Context {A : Type} (work : Z -> Z -> Z) (working : Z -> bool) (W : forall a b, a <= b -> work a b = seconds working a b).
Implicit Types t : list (interval A).
Definition run t : times := fold_left (lead_step work) t (Times 0 0 0 0 0).
Lemma scan_nth (t : list (interval A)) : forall s n r, nth_error (scan work s t) n = Some r -> r = fold_left (lead_step work) (firstn (S n) t) s.
Proof. induction t as [|i t IH]; intros s n r H; [destruct n; discriminate|]. destruct n as [|n]; cbn in *; [congruence|]. apply IH in H. exact H. Qed.
Lemma running_snoc t i x : running (t ++ [i]) x = running t x || ((st i <=? x) && (x <? et i)).
Proof. unfold running. rewrite existsb_app. cbn. rewrite orb_false_r. auto. Qed.

(** the invariant *)
Record good (s0 : Z) t (s : times) : Prop := {
  g_end : exists i, In i t /\ et i = max_et s;
  g_max : forall i, In i t -> et i <= max_et s;
  g_lead : lead s = seconds working s0 (max_et s);
  g_cycle : cycle s = seconds (fun x => working x && running t x) s0 (max_et s);
  g_wasted : wasted s = seconds (fun x => working x && negb (running t x)) s0 (max_et s) }.
Lemma good_step s0 t s i : good s0 t s -> 0 < s0 -> (forall j, In j t -> s0 <= st j /\ st j <= st i /\ st j <= et j) -> st i <= et i -> (forall j, In j t -> et j <> st i) -> good s0 (t ++ [i]) (lead_step work s i).
Proof.
  intros [(k & Hk & Ek) GM GL GC GW] P S E N. destruct (S k Hk) as (S1 & S2 & S3). specialize (N k Hk).
  assert (R1 : forall x, max_et s <= x -> running t x = false).
  { intros x Hx. unfold running. destruct (existsb _ t) eqn:X; auto. apply existsb_exists in X as (j & Hj & X). apply andb_true_iff in X as [_ X]. apply Z.ltb_lt in X. specialize (GM j Hj). lia. }
  assert (R2 : forall x, st i <= x < max_et s -> running t x = true).
  { intros x Hx. unfold running. apply existsb_exists. exists k. split; auto. apply andb_true_iff. split; [apply Z.leb_le|apply Z.ltb_lt]; lia. }
  unfold lead_step. replace (0 <? max_et s) with true by (symmetry; apply Z.ltb_lt; lia). cbn [andb].
  destruct (Z.ltb_spec (max_et s) (st i)) as [L|L].
  - replace (max_et s <? et i) with true by (symmetry; apply Z.ltb_lt; lia). constructor; cbn [max_et lead cycle wasted].
    + exists i. split; auto. apply in_or_app; right; left; auto.
    + intros j Hj. apply in_app_or in Hj as [Hj|[<-|[]]]; [specialize (GM j Hj)|]; lia.
    + rewrite !W by lia. rewrite GL. rewrite (seconds_split working s0 (max_et s) (et i)), (seconds_split working (max_et s) (st i) (et i)) by lia. lia.
    + rewrite !W by lia. rewrite GC. rewrite (seconds_split _ s0 (max_et s) (et i)), (seconds_split _ (max_et s) (st i) (et i)) by lia.
      rewrite (seconds_none _ (max_et s) (st i)). 2: { intros x Hx. rewrite running_snoc, R1 by lia. replace (st i <=? x) with false by (symmetry; apply Z.leb_gt; lia). apply andb_false_r. }
      rewrite (seconds_ext working (fun x => working x && running (t ++ [i]) x) (st i) (et i)).
      2: { intros x Hx. rewrite running_snoc. replace (st i <=? x) with true by (symmetry; apply Z.leb_le; lia). replace (x <? et i) with true by (symmetry; apply Z.ltb_lt; lia). cbn. rewrite orb_true_r, andb_true_r. auto. }
      rewrite Z.add_0_l. f_equal. apply seconds_ext. intros x Hx. rewrite running_snoc. replace (st i <=? x) with false by (symmetry; apply Z.leb_gt; lia). cbn. rewrite orb_false_r. auto.
    + rewrite !W by lia. rewrite GW. rewrite (seconds_split (fun x => working x && negb (running (t ++ [i]) x)) s0 (max_et s) (et i)), (seconds_split (fun x => working x && negb (running (t ++ [i]) x)) (max_et s) (st i) (et i)) by lia.
      rewrite (seconds_none _ (st i) (et i)).
      2: { intros x Hx. rewrite running_snoc. replace (st i <=? x) with true by (symmetry; apply Z.leb_le; lia). replace (x <? et i) with true by (symmetry; apply Z.ltb_lt; lia). cbn. rewrite orb_true_r. apply andb_false_r. }
      rewrite Z.add_0_r. f_equal; apply seconds_ext; intros x Hx; rewrite running_snoc; replace (st i <=? x) with false by (symmetry; apply Z.leb_gt; lia); cbn; rewrite orb_false_r; auto. rewrite R1 by lia. cbn. rewrite andb_true_r; auto.
  - replace (st i <? max_et s) with true by (symmetry; apply Z.ltb_lt; lia). cbn [andb]. rewrite !Z.add_0_r. destruct (Z.ltb_spec (max_et s) (et i)) as [L2|L2].
    + constructor; cbn [max_et lead cycle wasted].
      * exists i. split; auto. apply in_or_app; right; left; auto.
      * intros j Hj. apply in_app_or in Hj as [Hj|[<-|[]]]; [specialize (GM j Hj)|]; lia.
      * rewrite !W by lia. rewrite GL. rewrite (seconds_split working s0 (max_et s) (et i)) by lia. lia.
      * rewrite !W by lia. rewrite GC. rewrite (seconds_split _ s0 (max_et s) (et i)) by lia. f_equal; apply seconds_ext; intros x Hx; rewrite running_snoc.
        -- destruct (Z.leb_spec (st i) x); cbn; [rewrite R2 by lia; auto|rewrite orb_false_r; auto].
        -- replace (st i <=? x) with true by (symmetry; apply Z.leb_le; lia). replace (x <? et i) with true by (symmetry; apply Z.ltb_lt; lia). cbn. rewrite orb_true_r, andb_true_r. auto.
      * rewrite GW. rewrite (seconds_split (fun x => working x && negb (running (t ++ [i]) x)) s0 (max_et s) (et i)) by lia. rewrite (seconds_none _ (max_et s) (et i)).
        2: { intros x Hx. rewrite running_snoc. replace (st i <=? x) with true by (symmetry; apply Z.leb_le; lia). replace (x <? et i) with true by (symmetry; apply Z.ltb_lt; lia). cbn. rewrite orb_true_r. apply andb_false_r. }
        rewrite Z.add_0_r. apply seconds_ext; intros x Hx; rewrite running_snoc. destruct (Z.leb_spec (st i) x); cbn; [rewrite R2 by lia; auto|rewrite orb_false_r; auto].
    + assert (X : forall x, s0 <= x < max_et s -> running (t ++ [i]) x = running t x).
      { intros x Hx. rewrite running_snoc. destruct (Z.leb_spec (st i) x); cbn; [rewrite R2 by lia; auto|rewrite orb_false_r; auto]. }
      constructor; cbn [max_et lead cycle wasted]; rewrite ?Z.add_0_r; auto.
      * exists k. split; auto. apply in_or_app; auto.
      * intros j Hj. apply in_app_or in Hj as [Hj|[<-|[]]]; [apply GM; auto|lia].
      * rewrite GC. apply seconds_ext. intros x Hx. rewrite X; auto.
      * rewrite GW. apply seconds_ext. intros x Hx. rewrite X; auto.
Qed.
Lemma good_first i : 0 < st i -> st i <= et i -> good (st i) [i] (lead_step work (Times 0 0 0 0 0) i).
Proof.
  intros P E. unfold lead_step. cbn [max_et]. replace (0 <? st i) with true by (symmetry; apply Z.ltb_lt; lia). replace (0 <? et i) with true by (symmetry; apply Z.ltb_lt; lia). cbn [andb Z.ltb Z.compare lead cycle wasted].
  constructor; cbn [max_et lead cycle wasted].
  - exists i. split; [left|]; auto.
  - intros j [<-|[]]. lia.
  - rewrite W by lia. cbn. auto.
  - rewrite W by lia. rewrite Z.add_0_l. apply seconds_ext. intros x Hx. unfold running. cbn. replace (st i <=? x) with true by (symmetry; apply Z.leb_le; lia). replace (x <? et i) with true by (symmetry; apply Z.ltb_lt; lia). rewrite andb_true_r. auto.
  - rewrite seconds_none; auto. intros x Hx. unfold running. cbn. replace (st i <=? x) with true by (symmetry; apply Z.leb_le; lia). replace (x <? et i) with true by (symmetry; apply Z.ltb_lt; lia). apply andb_false_r.
Qed.
Definition apart t : Prop := forall i j a b, (i < j)%nat -> nth_error t i = Some a -> nth_error t j = Some b -> et a <> st b.
Lemma good_run f t : (forall x, In x (f :: t) -> st x <= et x) -> sorted_start (f :: t) -> apart (f :: t) -> 0 < st f -> good (st f) (f :: t) (run (f :: t)).
Proof.
  intros E S D P. induction t as [|i t IH] using rev_ind.
  - apply good_first; auto. apply E. left; auto.
  - unfold run. rewrite app_comm_cons, fold_left_app. cbn [fold_left]. rewrite app_comm_cons in E, S, D.
    assert (B : forall j, In j (f :: t) -> exists n, (n < length (f :: t))%nat /\ nth_error ((f :: t) ++ [i]) n = Some j).
    { intros j Hj. apply In_nth_error in Hj as (n & Hn). exists n. assert (n < length (f :: t))%nat by (apply nth_error_Some; congruence). split; auto. rewrite nth_error_app1; auto. }
    assert (I : nth_error ((f :: t) ++ [i]) (length (f :: t)) = Some i) by (rewrite nth_error_app2, Nat.sub_diag by lia; auto).
    apply good_step; auto.
    + apply IH; [intros x Hx; apply E; apply in_or_app; auto| |]; intros a b x y L Ha Hb; [apply (S a b x y L)|apply (D a b x y L)]; rewrite nth_error_app1; auto; apply nth_error_Some; congruence.
    + intros j Hj. destruct (B j Hj) as (n & Ln & Hn). split; [|split; [apply (S n (length (f :: t)) j i); auto|apply E; apply in_or_app; auto]].
      destruct n as [|n]; [cbn in Hn; injection Hn as <-; lia|]. apply (S O (Datatypes.S n) f j); auto; lia.
    + apply E. apply in_or_app. right. left. auto.
    + intros j Hj. destruct (B j Hj) as (n & Ln & Hn). apply (D n (length (f :: t)) j i); auto.
Qed.
End p.
