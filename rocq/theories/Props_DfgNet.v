(** Property C56: a directly-follows graph converted to a Petri net accepts the traces of the graph. *)
From stdpp Require Import gmap.
From Coq Require Import ZArith Lia.
From Verif Require Import Model_Petri Spec_Petri Proofs_Petri Model_Dict Proofs_Dict Model_DfgNet Spec_DfgNet Proofs_DfgNet.
From Verif Require Model_Dfg Spec_Dfg Proofs_Dfg.
Local Open Scope Z_scope.

(** pm4py.convert_to_petri_net on a DFG: the traces of the graph, except one-event traces of an activity that
    is in no edge. *)
Theorem C56_defines_place edges sa ea w :
  let '(pn, im, fm) := defines_place edges sa ea in
  accepts pn im fm w <-> dfg_trace edges sa ea w /\ (forall a, w = [a] -> in_edge edges a).
Proof. cbn. fold (one 0). fold (one 1). rewrite accepts_token. apply dp_token. Qed.

(** Hence exactly the traces of the graph when each start activity occurs in an edge. *)
Theorem C56_defines_place_all edges sa ea w : (forall a, In a sa -> in_edge edges a) ->
  let '(pn, im, fm) := defines_place edges sa ea in accepts pn im fm w <-> dfg_trace edges sa ea w.
Proof.
  intros H. pose proof (C56_defines_place edges sa ea w) as HD. destruct (defines_place edges sa ea) as [[pn im] fm].
  rewrite HD. split; [tauto|]. intros Ht. split; [exact Ht|]. intros a ->. inversion Ht; subst. auto.
Qed.

(** The default start (end) activities: the activities with edges out of (into) them only. *)
Theorem C56_inferred edges a :
  (In a (infer_start edges) <-> (exists b, In (a, b) edges) /\ forall b, ~ In (b, a) edges) /\
  (In a (infer_end edges) <-> (exists b, In (b, a) edges) /\ forall b, ~ In (a, b) edges).
Proof.
  assert (N : forall l : list nat, negb (existsb (Nat.eqb a) l) = true <-> ~ In a l).
  { intros l. rewrite negb_true_iff. split.
    - intros E H. assert (T : existsb (Nat.eqb a) l = true) by (apply existsb_exists; exists a; split; [exact H|apply Nat.eqb_refl]). congruence.
    - intros H. destruct (existsb (Nat.eqb a) l) eqn:E; [|reflexivity]. apply existsb_exists in E as (x & Hx & Ex). apply Nat.eqb_eq in Ex. subst x. contradiction. }
  unfold infer_start, infer_end. rewrite !filter_In, !dedup_in, !N, !in_map_iff. split; split.
  - intros [([x y] & <- & H) Hn]. split; [eauto|]. intros b Hb. apply Hn. exists (b, x). auto.
  - intros [(b & H) Hn]. split; [exists (a, b); auto|]. intros ([x y] & E & H'). cbn in E. subst y. exact (Hn x H').
  - intros [([x y] & <- & H) Hn]. split; [eauto|]. intros b Hb. apply Hn. exists (y, b). auto.
  - intros [(b & H) Hn]. split; [exists (b, a); auto|]. intros ([x y] & E & H'). cbn in E. subst x. exact (Hn y H').
Qed.

(** The other conversion: exactly the traces of the graph, provided the names of the artificial start and end
    activities are not used. *)
Theorem C56_no_duplicates st en edges sa ea : st <> en ->
  (forall x, x = st \/ x = en -> ~ in_edge edges x /\ ~ In x sa /\ ~ In x ea) -> sa <> [] -> ea <> [] ->
  exists pn im fm, no_duplicates st en edges sa ea = Some (pn, im, fm) /\
  forall w, accepts pn im fm w <-> dfg_trace edges sa ea w.
Proof.
  intros Hne Hf Hsa Hea. unfold no_duplicates.
  set (enriched := dedup (edges ++ map (fun a => (st, a)) sa ++ map (fun a => (a, en)) ea)).
  set (acts := dedup (map snd enriched ++ map fst enriched)).
  assert (Is : In st acts).
  { destruct sa as [|a sa']; [congruence|]. apply acts_in. exists a. left. apply enriched_in. right. left. split; [reflexivity|left; reflexivity]. }
  assert (Ie : In en acts).
  { destruct ea as [|a ea']; [congruence|]. apply acts_in. exists a. right. apply enriched_in. right. right. split; [left; reflexivity|reflexivity]. }
  rewrite (proj2 (inside_iff acts st) Is), (proj2 (inside_iff acts en) Ie). cbn [andb].
  eexists _, _, _. split; [reflexivity|]. intros w.
  change ({[left_place st := 1]}) with (one (left_place st)). change ({[right_place en := 1]}) with (one (right_place en)).
  rewrite accepts_token. apply (nd_token st en edges sa ea Hne (Hf st (or_introl eq_refl)) (Hf en (or_intror eq_refl)) w Is Ie).
Qed.

(** Both nets hold exactly one token in every reachable marking. *)
Theorem C56_one_token edges sa ea m :
  let '(pn, im, fm) := defines_place edges sa ea in
  reachable pn im m -> exists p, m = {[ p := 1 ]}.
Proof.
  cbn. intros [ts R]. change ({[0%nat := 1]}) with (one 0%nat) in R.
  destruct (run_token _ _ _ _ _ R) as (q & -> & _). exists q. reflexivity.
Qed.
Theorem C56_one_token_no_duplicates st en edges sa ea pn im fm m :
  no_duplicates st en edges sa ea = Some (pn, im, fm) ->
  reachable pn im m -> exists p, m = {[ p := 1 ]}.
Proof.
  unfold no_duplicates. destruct (_ && _); [|discriminate]. intros [= <- <- <-] [ts R].
  change ({[left_place st := 1]}) with (one (left_place st)) in R.
  destruct (run_token _ _ _ _ _ R) as (q & -> & _). exists q. reflexivity.
Qed.

(** The net of the graph of a log accepts the traces of the log with at least two events. *)
Lemma log_dfg_trace l t : In t l -> t <> [] ->
  let g := Model_Dfg.discover_dfg l in
  dfg_trace (d_keys (Model_Dfg.graph g)) (d_keys (Model_Dfg.start_acts g)) (d_keys (Model_Dfg.end_acts g)) t.
Proof.
  intros Hin Hne. cbn.
  assert (K1 : forall k, In k (d_keys (fold_left (fun d k => c_add d k 1) (concat (map Model_Dfg.consecutive l)) [])) <-> In k (concat (map Model_Dfg.consecutive l))).
  { intros k. apply (c_of_keys (concat (map Model_Dfg.consecutive l)) k). }
  assert (E : forall i a b, nth_error t i = Some a -> nth_error t (S i) = Some b -> In (a, b) (concat (map Model_Dfg.consecutive l))).
  { intros i a b Ha Hb. apply in_concat. exists (Model_Dfg.consecutive t). split; [apply in_map, Hin|].
    unfold Model_Dfg.consecutive. apply in_map_iff. exists i. split.
    - rewrite (nth_error_nth t i 0%nat Ha). replace (i + 1)%nat with (S i) by lia. rewrite (nth_error_nth t (S i) 0%nat Hb). reflexivity.
    - apply in_seq. assert (S i < length t)%nat by (apply nth_error_Some; congruence). lia. }
  destruct t as [|a w]; [congruence|]. constructor.
  - apply c_of_keys. apply in_concat. exists [a]. split; [|left; reflexivity]. apply in_map_iff. exists (a :: w). auto.
  - match goal with |- ends_from ?e ?f _ _ => set (ends := f); set (edges := e) in * end. assert (HE : In (nth (length (a :: w) - 1) (a :: w) 0%nat) ends).
    { unfold ends. apply c_of_keys. apply in_concat. exists [nth (length (a :: w) - 1) (a :: w) 0%nat]. split; [|left; reflexivity].
      apply in_map_iff. exists (a :: w). auto. }
    clearbody ends.
    assert (E' : forall i x y, nth_error (a :: w) i = Some x -> nth_error (a :: w) (S i) = Some y -> In (x, y) edges).
    { intros i x y Hx Hy. unfold edges. apply K1. eapply E; eassumption. }
    clear K1 E Hin Hne. clearbody edges. revert a HE E'. induction w as [|b w IH]; intros a HE E'.
    + constructor. exact HE.
    + constructor.
      * apply (E' 0%nat); reflexivity.
      * apply IH.
        -- cbn [length Nat.sub nth] in HE |- *. rewrite ?Nat.sub_0_r in *. exact HE.
        -- intros i x y Hx Hy. apply (E' (S i)); assumption.
Qed.
Theorem C56_log_accepted l t : In t l -> (2 <= length t)%nat ->
  let g := Model_Dfg.discover_dfg l in
  let '(pn, im, fm) := defines_place (d_keys (Model_Dfg.graph g)) (d_keys (Model_Dfg.start_acts g)) (d_keys (Model_Dfg.end_acts g)) in
  accepts pn im fm t.
Proof.
  intros Hin Hl. cbn zeta.
  pose proof (C56_defines_place (d_keys (Model_Dfg.graph (Model_Dfg.discover_dfg l))) (d_keys (Model_Dfg.start_acts (Model_Dfg.discover_dfg l)))
    (d_keys (Model_Dfg.end_acts (Model_Dfg.discover_dfg l))) t) as H.
  destruct (defines_place _ _ _) as [[pn im] fm]. apply H. split.
  - apply log_dfg_trace; [exact Hin|]. intros ->. cbn in Hl. lia.
  - intros a ->. cbn in Hl. lia.
Qed.

(** One-event cases are lost by pm4py.convert_to_petri_net: the graph of the log <<1>> has the trace <1> but no
    edge, and the net accepts nothing. *)
Theorem C56_single_refuted : exists edges sa ea w, dfg_trace edges sa ea w /\
  let '(pn, im, fm) := defines_place edges sa ea in ~ accepts pn im fm w.
Proof.
  exists [], [1%nat], [1%nat], [1%nat]. split.
  - repeat constructor.
  - pose proof (C56_defines_place [] [1%nat] [1%nat] [1%nat]) as H. destruct (defines_place _ _ _) as [[pn im] fm].
    intros HA. apply H in HA as [_ HA]. destruct (HA 1%nat eq_refl) as (b & [[]|[]]).
Qed.

Example C56_example : dfg_trace [(1, 2); (2, 1); (2, 3)]%nat [1%nat] [3%nat] [1; 2; 1; 2; 3]%nat /\
  (forall a, In a [1%nat] -> in_edge [(1, 2); (2, 1); (2, 3)]%nat a) /\
  (forall x, x = 8%nat \/ x = 9%nat -> ~ in_edge [(1, 2); (2, 1); (2, 3)]%nat x /\ ~ In x [1%nat] /\ ~ In x [3%nat]).
Proof.
  split; [|split].
  - repeat (constructor; cbn; auto).
  - intros a [<-|[]]. exists 2%nat. cbn. auto.
  - intros x Hx. split; [|cbn; lia]. intros (b & H). cbn in H. destruct H as [H|H]; repeat (destruct H as [[= ? ?]|H]; [lia|]); contradiction.
Qed.
Print Assumptions C56_defines_place.
Print Assumptions C56_defines_place_all.
Print Assumptions C56_no_duplicates.
Print Assumptions C56_one_token.
Print Assumptions C56_one_token_no_duplicates.
Print Assumptions C56_log_accepted.
Print Assumptions C56_single_refuted.
Print Assumptions C56_inferred.
