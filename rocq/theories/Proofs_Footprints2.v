(** Flattened footprints: the trace-by-trace results and the log fitness. *)
From Coq Require Import List Arith Lia Bool Permutation ZArith QArith Lqa.
Import ListNotations.
From Verif Require Import Model_TreeFP Spec_TreeFP Model_Dict Proofs_Dict Model_Dfg Proofs_Dfg Model_Footprints Proofs_Footprints.
Local Open Scope nat_scope.

Definition acc_fp (r f : log_fp) : log_fp :=
  LFP (fold_left (fun d kv => c_add d (fst kv) (snd kv)) (l_dfg f) (l_dfg r)) (union (l_seq r) (l_seq f)) (union (l_par r) (l_par f))
      (union (l_start r) (l_start f)) (union (l_end r) (l_end f)) [] 0.
Definition empty_fp := LFP [] [] [] [] [] [] 0.
Lemma flatten_fold fs : flatten_fp fs = fold_left acc_fp fs empty_fp. Proof. reflexivity. Qed.

Lemma flat_in {K} (p : log_fp -> list K) (EK : Key K) : (forall r f, p (acc_fp r f) = union (p r) (p f)) ->
  forall fs r k, In k (p (fold_left acc_fp fs r)) <-> In k (p r) \/ exists f, In f fs /\ In k (p f).
Proof.
  intros Hp fs. induction fs as [|f fs IH]; intros r k; cbn [fold_left].
  - split; [auto|]. intros [H|(f & [] & _)]. exact H.
  - rewrite IH, Hp, union_in. split.
    + intros [[H|H]|(g & Hg & H)]; [auto|right; exists f; split; [now left|exact H]|right; exists g; split; [now right|exact H]].
    + intros [H|(g & [<-|Hg] & H)]; [auto|auto|right; eauto].
Qed.
Lemma flat_nodup {K} (p : log_fp -> list K) (EK : Key K) : (forall r f, p (acc_fp r f) = union (p r) (p f)) ->
  forall fs r, NoDup (p r) -> NoDup (p (fold_left acc_fp fs r)).
Proof. intros Hp fs. induction fs as [|f fs IH]; intros r Hr; [exact Hr|]. cbn [fold_left]. apply IH. rewrite Hp. apply union_nodup. Qed.

Lemma add_all_keys (e : list (nat * nat * nat)) : forall d k, In k (d_keys (fold_left (fun d kv => c_add d (fst kv) (snd kv)) e d)) <-> In k (d_keys d) \/ In k (d_keys e).
Proof.
  induction e as [|[x n] e IH]; intros d k; cbn [fold_left fst snd]; [cbn; tauto|]. rewrite IH. unfold c_add. rewrite d_in_keys_set. cbn. intuition congruence.
Qed.
Lemma add_all_nodup (e : list (nat * nat * nat)) : forall d, NoDup (d_keys d) -> NoDup (d_keys (fold_left (fun d kv => c_add d (fst kv) (snd kv)) e d)).
Proof. induction e as [|[x n] e IH]; intros d Hd; cbn [fold_left fst snd]; [exact Hd|]. apply IH. unfold c_add. now apply d_nodup_set. Qed.
Lemma add_all_pos (e : list (nat * nat * nat)) : (forall k n, In (k, n) e -> 0 < n) ->
  forall d, (forall k, In k (d_keys d) -> 0 < c_get d k) -> forall k, In k (d_keys (fold_left (fun d kv => c_add d (fst kv) (snd kv)) e d)) -> 0 < c_get (fold_left (fun d kv => c_add d (fst kv) (snd kv)) e d) k.
Proof.
  induction e as [|[x n] e IH]; intros He d Hd; cbn [fold_left fst snd]; [exact Hd|]. apply IH; [intros k m H; apply (He k m); now right|].
  intros k Hk. rewrite c_get_add. unfold c_add in Hk. rewrite d_in_keys_set in Hk. destruct (keqb_spec x k) as [->|Hne].
  - specialize (He k n (or_introl eq_refl)). lia.
  - destruct Hk as [->|Hk]; [congruence|]. specialize (Hd k Hk). lia.
Qed.

Lemma flat_dfg fs : (forall f, In f fs -> forall k n, In (k, n) (l_dfg f) -> 0 < n) ->
  NoDup (d_keys (l_dfg (flatten_fp fs))) /\ (forall k, In k (d_keys (l_dfg (flatten_fp fs))) -> 0 < c_get (l_dfg (flatten_fp fs)) k) /\
  (forall k, In k (d_keys (l_dfg (flatten_fp fs))) <-> exists f, In f fs /\ In k (d_keys (l_dfg f))).
Proof.
  rewrite flatten_fold. enough (G : forall r, NoDup (d_keys (l_dfg r)) -> (forall k, In k (d_keys (l_dfg r)) -> 0 < c_get (l_dfg r) k) ->
    (forall f, In f fs -> forall k n, In (k, n) (l_dfg f) -> 0 < n) ->
    NoDup (d_keys (l_dfg (fold_left acc_fp fs r))) /\ (forall k, In k (d_keys (l_dfg (fold_left acc_fp fs r))) -> 0 < c_get (l_dfg (fold_left acc_fp fs r)) k) /\
    (forall k, In k (d_keys (l_dfg (fold_left acc_fp fs r))) <-> In k (d_keys (l_dfg r)) \/ exists f, In f fs /\ In k (d_keys (l_dfg f)))).
  { intros H. destruct (G empty_fp) as (A & B & C); [constructor|intros k []|exact H|]. split; [exact A|]. split; [exact B|].
    intros k. rewrite C. cbn. tauto. }
  induction fs as [|f fs IH]; intros r Hr Hp Hf; cbn [fold_left].
  - split; [exact Hr|]. split; [exact Hp|]. intros k. split; [auto|]. intros [H|(f & [] & _)]. exact H.
  - destruct (IH (acc_fp r f)) as (A & B & C).
    + apply add_all_nodup, Hr.
    + apply add_all_pos; [apply Hf; now left|exact Hp].
    + intros g Hg. apply Hf. now right.
    + split; [exact A|]. split; [exact B|]. intros k. rewrite C. unfold acc_fp at 1. cbn [l_dfg]. rewrite add_all_keys. split.
      * intros [[H|H]|(g & Hg & H)]; [auto|right; exists f; split; [now left|exact H]|right; exists g; split; [now right|exact H]].
      * intros [H|(g & [<-|Hg] & H)]; [auto|auto|right; eauto].
Qed.

Definition acc_conf (r c : conf) : conf := Conf (union (c_fp r) (c_fp c)) (union (c_start r) (c_start c)) (union (c_end r) (c_end c)) [] true true.
Definition empty_conf := Conf [] [] [] [] true true.
Lemma conf_flat_in {K} (p : conf -> list K) (EK : Key K) : (forall r f, p (acc_conf r f) = union (p r) (p f)) ->
  forall fs r k, In k (p (fold_left acc_conf fs r)) <-> In k (p r) \/ exists f, In f fs /\ In k (p f).
Proof.
  intros Hp fs. induction fs as [|f fs IH]; intros r k; cbn [fold_left].
  - split; [auto|]. intros [H|(f & [] & _)]. exact H.
  - rewrite IH, Hp, union_in. split.
    + intros [[H|H]|(g & Hg & H)]; [auto|right; exists f; split; [now left|exact H]|right; exists g; split; [now right|exact H]].
    + intros [H|(g & [<-|Hg] & H)]; [auto|auto|right; eauto].
Qed.
Lemma conf_flat_nodup {K} (p : conf -> list K) (EK : Key K) : (forall r f, p (acc_conf r f) = union (p r) (p f)) ->
  forall fs r, NoDup (p r) -> NoDup (p (fold_left acc_conf fs r)).
Proof. intros Hp fs. induction fs as [|f fs IH]; intros r Hr; [exact Hr|]. cbn [fold_left]. apply IH. rewrite Hp. apply union_nodup. Qed.

Lemma nil_iff {X} (l : list X) : l = [] <-> forall x, ~ In x l.
Proof. destruct l as [|y l]; split; intros H; auto; [discriminate|]. exfalso. apply (H y). now left. Qed.

Section Traces.
  Context (ae : bool) (mf : model_fp) (l : log).
  Let fs := map trace_footprints l.
  Let cs := map (fun t => conf_trace ae (trace_footprints t) mf) l.
  Let F := flatten_fp fs.
  Let C := flatten_conf cs.

  Lemma fs_in {K} (EK : Key K) (p : log_fp -> list K) : (forall r f, p (acc_fp r f) = union (p r) (p f)) -> p empty_fp = [] ->
    forall k, In k (p F) <-> exists t, In t l /\ In k (p (trace_footprints t)).
  Proof.
    intros Hp He k. unfold F. rewrite flatten_fold, (flat_in p EK Hp), He. unfold fs. split.
    - intros [[]|(f & Hf & H)]. apply in_map_iff in Hf as (t & <- & Ht). eauto.
    - intros (t & Ht & H). right. exists (trace_footprints t). split; [now apply in_map|exact H].
  Qed.
  Lemma cs_in {K} (EK : Key K) (p : conf -> list K) : (forall r f, p (acc_conf r f) = union (p r) (p f)) -> p empty_conf = [] ->
    forall k, In k (p C) <-> exists t, In t l /\ In k (p (conf_trace ae (trace_footprints t) mf)).
  Proof.
    intros Hp He k. unfold C, flatten_conf. change (fold_left _ cs _) with (fold_left acc_conf cs empty_conf). rewrite (conf_flat_in p EK Hp), He. unfold cs. split.
    - intros [[]|(f & Hf & H)]. apply in_map_iff in Hf as (t & <- & Ht). eauto.
    - intros (t & Ht & H). right. exists (conf_trace ae (trace_footprints t) mf). split; [now apply (in_map (fun t => conf_trace ae (trace_footprints t) mf))|exact H].
  Qed.
  Lemma dfg_entries t k n : In (k, n) (l_dfg (trace_footprints t)) -> 0 < n.
  Proof.
    unfold trace_footprints. cbv zeta. cbn [l_dfg]. intros H.
    assert (Hk : In k (d_keys (native 1 false [t]))) by (unfold d_keys; apply in_map_iff; exists (k, n); auto).
    pose proof (native_pos [t] k) as Hp. apply Hp in Hk. apply d_in_get in H; [|apply native_nodup]. unfold c_get in Hk. rewrite H in Hk. exact Hk.
  Qed.
  Lemma F_dfg : NoDup (d_keys (l_dfg F)) /\ (forall k, In k (d_keys (l_dfg F)) -> 0 < c_get (l_dfg F) k) /\
    (forall a b, In (a, b) (d_keys (l_dfg F)) <-> follows (fun w => In w l) a b).
  Proof.
    destruct (flat_dfg fs) as (A & B & D).
    - intros f Hf k n H. unfold fs in Hf. apply in_map_iff in Hf as (t & <- & _). eapply dfg_entries, H.
    - split; [exact A|]. split; [exact B|]. intros a b. unfold F. rewrite (D (a, b)). split.
      + intros (f & Hf & H). unfold fs in Hf. apply in_map_iff in Hf as (t & <- & Ht). unfold trace_footprints in H. cbv zeta in H. cbn [l_dfg] in H.
        apply native_keys in H as (w1 & w2 & [E|[]]). exists w1, w2. now rewrite <- E.
      + intros (w1 & w2 & H). exists (trace_footprints (w1 ++ a :: b :: w2)). split; [now apply in_map|].
        unfold trace_footprints. cbv zeta. cbn [l_dfg]. apply native_keys. exists w1, w2. now left.
  Qed.
  Lemma F_seq a b : In (a, b) (l_seq F) \/ In (a, b) (l_par F) <-> follows (fun w => In w l) a b.
  Proof.
    rewrite (fs_in key_pair l_seq), (fs_in key_pair l_par) by reflexivity. split.
    - intros [(t & Ht & H)|(t & Ht & H)].
      + apply trace_seq in H as ((w1 & w2 & E) & _). exists w1, w2. now rewrite <- E.
      + apply trace_par in H as ((w1 & w2 & E) & _). exists w1, w2. now rewrite <- E.
    - intros (w1 & w2 & H). assert (Hf : follows (eq (w1 ++ a :: b :: w2)) a b) by (exists w1, w2; reflexivity).
      apply trace_pairs in Hf as [Hf|Hf]; [left|right]; exists (w1 ++ a :: b :: w2); auto.
  Qed.
  Lemma C_fp a b : In (a, b) (c_fp C) <-> follows (fun w => In w l) a b /\ ~ covers mf (a, b).
  Proof.
    rewrite (cs_in key_pair c_fp) by reflexivity. split.
    - intros (t & Ht & H). unfold conf_trace in H. cbv zeta in H. cbn [c_fp] in H. apply conf_fp_in in H as [H Hn]. split; [|exact Hn].
      apply trace_pairs in H as (w1 & w2 & E). exists w1, w2. now rewrite <- E.
    - intros ((w1 & w2 & H) & Hn). exists (w1 ++ a :: b :: w2). split; [exact H|]. unfold conf_trace. cbv zeta. cbn [c_fp]. apply conf_fp_in. split; [|exact Hn].
      apply trace_pairs. exists w1, w2. reflexivity.
  Qed.
  Lemma C_start a : In a (c_start C) <-> begins (fun w => In w l) a /\ exists s, m_start mf = Some s /\ ~ In a s.
  Proof.
    rewrite (cs_in key_nat c_start) by reflexivity. split.
    - intros (t & Ht & H). unfold conf_trace in H. cbv zeta in H. cbn [c_start] in H. destruct (m_start mf) as [s|]; [|contradiction].
      apply diff_in in H as [H Hn]. apply trace_start in H as (w & ->). split; [exists w; exact Ht|eauto].
    - intros ((w & H) & s & E & Hn). exists (a :: w). split; [exact H|]. unfold conf_trace. cbv zeta. cbn [c_start]. rewrite E. apply diff_in. split; [|exact Hn]. apply trace_start. exists w. reflexivity.
  Qed.
  Lemma C_end a : In a (c_end C) <-> finishes (fun w => In w l) a /\ exists s, m_end mf = Some s /\ ~ In a s.
  Proof.
    rewrite (cs_in key_nat c_end) by reflexivity. split.
    - intros (t & Ht & H). unfold conf_trace in H. cbv zeta in H. cbn [c_end] in H. destruct (m_end mf) as [s|]; [|contradiction].
      apply diff_in in H as [H Hn]. apply trace_end in H as (w & ->). split; [exists w; exact Ht|eauto].
    - intros ((w & H) & s & E & Hn). exists (w ++ [a]). split; [exact H|]. unfold conf_trace. cbv zeta. cbn [c_end]. rewrite E. apply diff_in. split; [|exact Hn]. apply trace_end. exists w. reflexivity.
  Qed.
  Lemma traces_fitness : (exists a b, follows (fun w => In w l) a b) ->
    (0 <= fp_fitness F C)%Q /\ (fp_fitness F C <= 1)%Q /\ ((fp_fitness F C == 1)%Q <-> c_fp C = [] /\ c_start C = [] /\ c_end C = []).
  Proof.
    intros (a & b & Hab). destruct F_dfg as (D1 & D2 & D3). apply fitness_generic; [exact D1|exact D2| | | | |].
    - intros E. apply D3 in Hab. rewrite E in Hab. contradiction.
    - apply F_seq in Hab as [H|H]; [destruct (l_seq F)|destruct (l_par F)]; try contradiction; cbn; lia.
    - unfold C, flatten_conf. apply (conf_flat_nodup c_fp key_pair); [reflexivity|constructor].
    - intros [x y] H. apply D3. now apply C_fp in H as [H _].
    - apply Nat.add_le_mono; apply NoDup_incl_length.
      + unfold C, flatten_conf. apply (conf_flat_nodup c_start key_nat); [reflexivity|constructor].
      + intros x Hx. apply C_start in Hx as ((w & Hw) & _). apply (fs_in key_nat l_start); [reflexivity|reflexivity|]. exists (x :: w). split; [exact Hw|now left].
      + unfold C, flatten_conf. apply (conf_flat_nodup c_end key_nat); [reflexivity|constructor].
      + intros x Hx. apply C_end in Hx as ((w & Hw) & _). apply (fs_in key_nat l_end); [reflexivity|reflexivity|]. exists (w ++ [x]). split; [exact Hw|]. apply trace_end. exists w. reflexivity.
  Qed.
End Traces.

(** ** The entire log *)
Section Entire.
  Context (mf : model_fp) (l : log).
  Lemma conf_log_fp a b : In (a, b) (c_fp (conf_log (log_footprints l) mf)) <-> follows (fun w => In w l) a b /\ ~ covers mf (a, b).
  Proof. unfold conf_log. cbv zeta. cbn [c_fp]. rewrite conf_fp_in, log_pairs. reflexivity. Qed.
  Lemma conf_log_start a : In a (c_start (conf_log (log_footprints l) mf)) <-> begins (fun w => In w l) a /\ exists s, m_start mf = Some s /\ ~ In a s.
  Proof.
    unfold conf_log. cbv zeta. cbn [c_start]. rewrite <- log_start. destruct (m_start mf) as [s|].
    - rewrite diff_in. split; [intros [H Hn]; eauto|]. intros (H & s' & [= <-] & Hn). auto.
    - split; [intros []|]. intros (_ & s & E & _). discriminate.
  Qed.
  Lemma conf_log_end a : In a (c_end (conf_log (log_footprints l) mf)) <-> finishes (fun w => In w l) a /\ exists s, m_end mf = Some s /\ ~ In a s.
  Proof.
    unfold conf_log. cbv zeta. cbn [c_end]. rewrite <- log_end. destruct (m_end mf) as [s|].
    - rewrite diff_in. split; [intros [H Hn]; eauto|]. intros (H & s' & [= <-] & Hn). auto.
    - split; [intros []|]. intros (_ & s & E & _). discriminate.
  Qed.
  Lemma entire_fitness : (exists a b, follows (fun w => In w l) a b) ->
    let C := conf_log (log_footprints l) mf in let f := fp_fitness (log_footprints l) C in
    (0 <= f)%Q /\ (f <= 1)%Q /\ ((f == 1)%Q <-> c_fp C = [] /\ c_start C = [] /\ c_end C = []).
  Proof.
    intros (a & b & Hab) C f. apply fitness_generic.
    - apply native_nodup.
    - intros k Hk. now apply native_pos.
    - intros E. apply native_keys in Hab. change (native 1 false l) with (l_dfg (log_footprints l)) in Hab. rewrite E in Hab. contradiction.
    - apply log_pairs in Hab as [H|H]; [destruct (l_seq (log_footprints l))|destruct (l_par (log_footprints l))]; try contradiction; cbn [length]; lia.
    - unfold C, conf_log. cbv zeta. cbn [c_fp]. apply diff_nodup, union_nodup.
    - intros [x y] H. apply conf_log_fp in H as [H _]. now apply native_keys.
    - unfold C, conf_log. cbv zeta. cbn [c_start c_end]. destruct (m_start mf), (m_end mf); cbn [length]; repeat (match goal with |- context [length (diff ?x ?y)] => pose proof (diff_length x y); generalize dependent (length (diff x y)); intros end); lia.
  Qed.
End Entire.
