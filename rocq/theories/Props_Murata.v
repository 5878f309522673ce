(** C88: removal of implicit places. *)
From stdpp Require Import gmap.
From Coq Require Import ZArith List Arith Bool Lia Permutation.
Import ListNotations.
From Verif Require Import Model_Petri Model_Graph Model_TreeNet Model_Murata Spec_Petri Spec_Murata Proofs_Petri Proofs_Murata.
From Verif Require Proofs_Graph.
Local Open Scope Z_scope.

Section P.
  Variables (order : list nat) (net net' : petri_net (option nat)) (im im' fm : marking).
  Hypothesis Hnd : List.NoDup (n_places net).
  Hypothesis Hord : Permutation order (n_places net).
  Hypothesis Hsim : simple_net net.
  Hypothesis Harc : arcs_on_places net.
  Hypothesis Him : proper im.
  Hypothesis Hmp : marks_places net im.
  Hypothesis Hfirst : forall p r, order = p :: r -> im !! p = None.
  Hypothesis Hmur : murata order net im fm net' im'.
  Lemma murata_facts : exists red ps, good net im 0 red /\ incl ps red /\ ps = removed fm red /\ incl red (n_places net) /\ net' = remove_all net ps /\ im' = unmark im ps.
  Proof.
    destruct Hmur as (red & Hs & -> & ->). exists red, (removed fm red).
    assert (NO : List.NoDup order) by (eapply Permutation_NoDup; [symmetry; exact Hord|auto]).
    assert (IO : incl order (n_places net)) by (intros z Hz; eapply Permutation_in; eauto).
    destruct (scan_grows net im _ _ _ _ _ Hs) as (ext & E & I & _). cbn in E. subst ext.
    split; [|split; [intros z Hz; unfold removed in Hz; apply filter_In in Hz; tauto|split; [auto|split; [intros z Hz; auto|auto]]]].
    apply (scan_good net im Hnd Harc _ _ _ _ _ Hs); auto. destruct order as [|p r]; auto. cbn [app]. apply zeroed_first; auto. eapply Hfirst; eauto.
  Qed.
  Lemma part_unmark red ps m : incl ps red -> incl red (n_places net) -> marks_places net m -> part_of (remove_all net ps) m (unmark m ps).
  Proof.
    intros H1 H2 Hm p. rewrite (proj1 (remove_all_eq ps net)), filter_In, negb_true_iff, Proofs_Graph.smem_false, unmark_tokens. destruct (smem p ps) eqn:E.
    - apply Proofs_Graph.smem_in in E. split; [tauto|auto].
    - apply Proofs_Graph.smem_false in E. split; [auto|]. intros Hn. unfold tokens. destruct (m !! p) eqn:L; auto. apply Hm in L. tauto.
  Qed.
  Lemma part_unique N m a b : proper a -> proper b -> part_of N m a -> part_of N m b -> a = b.
  Proof. intros Ha Hb A B. apply proper_ext; auto. intros p. destruct (A p) as [A1 A2], (B p) as [B1 B2]. destruct (in_dec Nat.eq_dec p (n_places N)); [rewrite A1, B1|rewrite A2, B2]; auto. Qed.
End P.
Lemma fires_marks net t m m' : arcs_on_places net -> proper m -> marks_places net m -> fires net t m m' -> marks_places net m'.
Proof.
  intros Ha Pm Hm (Ht & He & Hp & HT) p v L. destruct (in_dec Nat.eq_dec p (n_places net)) as [|Hn]; auto. exfalso.
  assert (W : forall l : list (nat * Z), (forall q w, In (q, w) l -> In q (n_places net)) -> weight l p = 0).
  { induction l as [|[q w] l IH]; intros Hl; [reflexivity|]. cbn. rewrite IH by (intros; eapply Hl; right; eauto). destruct (Nat.eqb_spec q p) as [->|]; [|lia]. exfalso. apply Hn. eapply Hl. left. eauto. }
  specialize (HT p). rewrite !W in HT by (intros q w Hq; eapply Ha; eauto). assert (tokens m p = 0). { unfold tokens. destruct (m !! p) eqn:E; auto. apply Hm in E. contradiction. }
  assert (T : tokens m' p = v) by (unfold tokens; rewrite L; auto). apply Hp in L. lia.
Qed.
Lemma run_marks net ts : forall m m', arcs_on_places net -> proper m -> marks_places net m -> run net m ts m' -> marks_places net m' /\ proper m'.
Proof. induction ts as [|t ts IH]; intros m m' Ha Hp Hm Hr; inversion Hr as [|? ? mm ? ? F R]; subst; auto. apply (IH mm); auto; [apply F|eapply fires_marks; eauto]. Qed.

(** When the first place in the order of the names carries no initial token, the original and the reduced net have the same runs,
    up to the tokens on the removed places. *)
Theorem C88_runs : forall order net im fm net' im', List.NoDup (n_places net) -> Permutation order (n_places net) -> simple_net net -> arcs_on_places net ->
  proper im -> marks_places net im -> (forall p r, order = p :: r -> im !! p = None) -> murata order net im fm net' im' ->
  part_of net' im im' /\ incl (n_places net') (n_places net) /\
  (forall ts m, run net im ts m -> exists us m', run net' im' us m' /\ same_firings ts us /\ part_of net' m m') /\
  (forall us m', run net' im' us m' -> exists ts m, run net im ts m /\ same_firings ts us /\ part_of net' m m').
Proof.
  intros order net im fm net' im' Hnd Ho Hs Ha Hp Hm Hf Hmur.
  destruct (murata_facts order net net' im im' fm Hnd Ho Ha Hp Hf Hmur) as (red & ps & Hg & Hi & _ & Hr & -> & ->).
  assert (Pu := fun m => part_unmark net red ps m Hi Hr). split; [auto|]. split; [rewrite (proj1 (remove_all_eq ps net)); intros z Hz; apply filter_In in Hz; tauto|]. split.
  - intros ts m R. exists (map (shrink ps) ts), (unmark m ps). split; [apply run_down; auto|]. split; [apply shrink_same|]. apply Pu. eapply run_marks; eauto.
  - intros us m' R. destruct (run_up net im red ps Hs Hg Hi us im m' Hp (inv_im net im red) R) as (ts & m & -> & R' & ->).
    exists ts, m. split; auto. split; [apply shrink_same|]. apply Pu. eapply run_marks; eauto.
Qed.
Print Assumptions C88_runs.

(** Every trace of the original net is a trace of the reduced net; the traces of the reduced net are those of the runs of the original
    net that reach the final marking on the places that are left. *)
Theorem C88_language : forall order net im fm net' im', List.NoDup (n_places net) -> Permutation order (n_places net) -> simple_net net -> arcs_on_places net ->
  proper im -> marks_places net im -> proper fm -> marks_places net fm -> (forall p r, order = p :: r -> im !! p = None) -> murata order net im fm net' im' ->
  (forall w, accepts net im fm w -> accepts net' im' fm w) /\
  (forall w, accepts net' im' fm w <-> exists ts m, run net im ts m /\ visible ts = w /\ forall p, In p (n_places net') -> tokens m p = tokens fm p).
Proof.
  intros order net im fm net' im' Hnd Ho Hs Ha Hp Hm Hpf Hmf Hf Hmur.
  destruct (C88_runs order net im fm net' im' Hnd Ho Hs Ha Hp Hm Hf Hmur) as (_ & _ & Dn & Up).
  destruct (murata_facts order net net' im im' fm Hnd Ho Ha Hp Hf Hmur) as (red & ps & Hg & Hi & Eps & Hr & En & Ei).
  assert (Pr : forall us m', run net' im' us m' -> proper m').
  { intros us m' R. rewrite En, Ei in R. destruct (run_up net im red ps Hs Hg Hi us im m' Hp (inv_im net im red) R) as (ts & m & _ & R' & ->). apply unmark_proper. apply (proj2 (run_marks net ts im m Ha Hp Hm R')). }
  assert (Pf : part_of net' fm fm).
  { intros p. split; [auto|]. intros Hn. unfold tokens. destruct (fm !! p) as [v|] eqn:L; auto. exfalso. apply Hn. rewrite En, (proj1 (remove_all_eq ps net)). apply filter_In. split; [eapply Hmf; eauto|].
    apply negb_true_iff, Proofs_Graph.smem_false. rewrite Eps. unfold removed. intros X. apply filter_In in X as [_ X]. apply bool_decide_eq_true_1 in X. congruence. }
  assert (B : forall w, accepts net' im' fm w <-> exists ts m, run net im ts m /\ visible ts = w /\ forall p, In p (n_places net') -> tokens m p = tokens fm p).
  { intros w. split.
    - intros (us & R & V). destruct (Up us fm R) as (ts & m & R' & S & P). exists ts, m. split; auto. split; [rewrite (visible_same ts us S); auto|]. intros p Hin. symmetry. apply P. auto.
    - intros (ts & m & R & V & T). destruct (Dn ts m R) as (us & m' & R' & S & P). exists us. split; [|rewrite <- (visible_same ts us S); auto].
      assert (E : m' = fm). { apply (proper_ext m' fm); [eapply Pr; eauto|auto|]. intros p. destruct (P p) as [P1 P2], (Pf p) as [F1 F2]. destruct (in_dec Nat.eq_dec p (n_places net')); [rewrite P1, T|rewrite P2, F2]; auto. }
      rewrite <- E. auto. }
  split; [|exact B]. intros w (ts & R & V). apply B. exists ts, fm. auto.
Qed.
Print Assumptions C88_language.

(** ** Examples and cases outside the hypotheses *)
Definition one_at (p : nat) : marking := {[ p := 1 ]}.
Local Ltac feas xs b := exists xs, b; split; [intros p; do 4 (destruct p as [|p]; [vm_compute; congruence|]); vm_compute; congruence|split; [lia|split;
  (let r := fresh in let Hr := fresh in intros r Hr; vm_compute in Hr; repeat (destruct Hr as [<-|Hr]; [vm_compute; congruence|]); destruct Hr)]].
Local Ltac usee He r := let K := fresh in assert (K := He r ltac:(vm_compute; repeat first [left; reflexivity|right])); unfold value in K; cbn [c_coef c_last c_rhs lhs] in K.
Local Ltac simpl_net := let t := fresh in let Ht := fresh in intros t Ht; cbn in Ht;
  repeat (destruct Ht as [<-|Ht]; [split; split; cbn; [repeat constructor; cbn; intuition lia|intros ? ? Hin; repeat (destruct Hin as [[= <- <-]|Hin]; [lia|]); destruct Hin
                                  |repeat constructor; cbn; intuition lia|intros ? ? Hin; repeat (destruct Hin as [[= <- <-]|Hin]; [lia|]); destruct Hin]|]); destruct Ht.
Local Ltac arcs_tac := intros t p w Ht Hin; cbn in Ht; repeat (destruct Ht as [<-|Ht]; [cbn in Hin |- *; repeat match goal with H : _ \/ _ |- _ => destruct H | H : (_, _) = (_, _) |- _ => injection H as <- <- | H : False |- _ => destruct H end; auto 10|]); destruct Ht.
Local Ltac marks_tac := let p := fresh in let v := fresh in let H := fresh in intros p v H; unfold one_at in H; apply lookup_singleton_Some in H as [<- _]; cbn; auto 10.

(** A positive case: place 0 runs in parallel to place 2. *)
Definition par_net : petri_net (option nat) := Net [0; 1; 2; 3]%nat [Trans 10 (Some 0%nat) [(1%nat, 1)] [(2%nat, 1); (0%nat, 1)]; Trans 11 (Some 1%nat) [(2%nat, 1); (0%nat, 1)] [(3%nat, 1)]].
Example ex_murata : murata [0; 1; 2; 3]%nat par_net (one_at 1) (one_at 3) (Net [1; 2; 3]%nat [Trans 10 (Some 0%nat) [(1%nat, 1)] [(2%nat, 1)]; Trans 11 (Some 1%nat) [(2%nat, 1)] [(3%nat, 1)]]) (one_at 1) /\
  List.NoDup (n_places par_net) /\ simple_net par_net /\ arcs_on_places par_net /\ proper (one_at 1) /\ marks_places par_net (one_at 1) /\ proper (one_at 3) /\ marks_places par_net (one_at 3) /\ one_at 1 !! 0%nat = None.
Proof.
  split.
  - exists [0%nat]. split; [|split; [vm_compute; reflexivity|apply (bool_decide_eq_true_1 (_ = _)); vm_compute; reflexivity]].
    apply scan_redundant; [feas (fun p : nat => match p with O => 1 | 2%nat => 1 | _ => 0 end) 0|].
    apply scan_kept; [intros (x & b & Hx & Hb & He & Hu); usee He (CRow [(1%nat, -1)] (-1) 0); usee Hu (CRow [(1%nat, -1)] 0 (-1)); lia|].
    apply scan_kept; [intros (x & b & Hx & Hb & He & Hu); usee He (CRow [(1%nat, -1)] (-1) 0); usee Hu (CRow [(2%nat, 1)] (-1) 0); usee Hu (CRow [(2%nat, -1)] 0 (-1)); specialize (Hx 1%nat); lia|].
    apply scan_kept; [intros (x & b & Hx & Hb & He & Hu); usee Hu (CRow [(3%nat, 1)] 0 0); usee Hu (CRow [(3%nat, -1)] 0 (-1)); lia|]. apply scan_done.
  - split; [repeat constructor; cbn; intuition lia|]. split; [simpl_net|]. split; [arcs_tac|]. split; [apply proper_singleton; lia|]. split; [marks_tac|]. split; [apply proper_singleton; lia|]. split; [marks_tac|reflexivity].
Qed.

(** A redundant place that would keep tokens at the end is removed all the same: the original net cannot reach the final marking, the
    reduced one can. *)
Definition left_net : petri_net (option nat) := Net [0; 1; 2]%nat [Trans 10 (Some 0%nat) [(1%nat, 1)] [(2%nat, 1); (0%nat, 1)]].
Theorem C88_final_refuted : exists order net im fm net' im', List.NoDup (n_places net) /\ Permutation order (n_places net) /\ simple_net net /\ arcs_on_places net /\
  proper im /\ marks_places net im /\ proper fm /\ marks_places net fm /\ (forall p r, order = p :: r -> im !! p = None) /\ murata order net im fm net' im' /\
  accepts net' im' fm [0%nat] /\ forall w, ~ accepts net im fm w.
Proof.
  exists [0; 1; 2]%nat, left_net, (one_at 1), (one_at 2), (Net [1; 2]%nat [Trans 10 (Some 0%nat) [(1%nat, 1)] [(2%nat, 1)]]), (one_at 1).
  split; [repeat constructor; cbn; intuition lia|]. split; [reflexivity|]. split; [simpl_net|]. split; [arcs_tac|]. split; [apply proper_singleton; lia|]. split; [marks_tac|].
  split; [apply proper_singleton; lia|]. split; [marks_tac|]. split; [intros p r [= <- _]; reflexivity|]. split; [|split].
  - exists [0]%nat. split; [|split; [vm_compute; reflexivity|apply (bool_decide_eq_true_1 (_ = _)); vm_compute; reflexivity]].
    apply scan_redundant; [feas (fun p : nat => match p with O => 1 | _ => 0 end) 0|].
    apply scan_kept; [intros (x & b & Hx & Hb & He & Hu); usee He (CRow [(1%nat, -1)] (-1) 0); usee Hu (CRow [(1%nat, -1)] 0 (-1)); lia|].
    apply scan_kept; [intros (x & b & Hx & Hb & He & Hu); usee Hu (CRow [(2%nat, 1)] 0 0); usee Hu (CRow [(2%nat, -1)] 0 (-1)); lia|]. apply scan_done.
  - exists [Trans 10 (Some 0%nat) [(1%nat, 1)] [(2%nat, 1)]]. split; [|reflexivity]. econstructor; [|constructor]. split; [cbn; auto|]. split; [|split; [apply proper_singleton; lia|]];
      intros p; cbn [t_in t_out weight]; unfold one_at; rewrite ?tokens_singleton; repeat destruct (Nat.eqb _ p); lia.
  - intros w (ts & R & _).
    assert (G : forall ts m m', run left_net m ts m' -> tokens m 0 + tokens m 1 <= tokens m' 0 + tokens m' 1).
    { clear. induction ts as [|t ts IH]; intros m m' R; inversion R as [|? ? m1 ? ? (Ht & _ & _ & HT) R']; subst; [lia|]. apply IH in R'. assert (A := HT 0%nat). assert (B := HT 1%nat). destruct Ht as [<-|[]]; cbn [t_in t_out weight Nat.eqb] in A, B; lia. }
    apply G in R. unfold one_at in R. rewrite !tokens_singleton in R. cbn in R. lia.
Qed.
Print Assumptions C88_final_refuted.
(** If the first place in the order of the names is initially marked (such as the source place), it is itself removed, and its transition
    can then fire any number of times. *)
Definition src_net : petri_net (option nat) := Net [1; 2; 3]%nat [Trans 10 (Some 0%nat) [(1%nat, 1)] [(2%nat, 1)]; Trans 11 (Some 1%nat) [(2%nat, 1)] []; Trans 12 (Some 2%nat) [(2%nat, 1)] [(3%nat, 1)]].
Theorem C88_first_marked_refuted : exists order net im fm net' im' w, List.NoDup (n_places net) /\ Permutation order (n_places net) /\ simple_net net /\ arcs_on_places net /\
  proper im /\ marks_places net im /\ proper fm /\ marks_places net fm /\ murata order net im fm net' im' /\ accepts net' im' fm w /\
  forall ts m, run net im ts m -> visible ts <> w.
Proof.
  exists [1; 2; 3]%nat, src_net, (one_at 1), (one_at 3),
    (Net [2; 3]%nat [Trans 10 (Some 0%nat) [] [(2%nat, 1)]; Trans 11 (Some 1%nat) [(2%nat, 1)] []; Trans 12 (Some 2%nat) [(2%nat, 1)] [(3%nat, 1)]]), ∅, [0; 1; 0; 2]%nat.
  split; [repeat constructor; cbn; intuition lia|]. split; [reflexivity|]. split; [simpl_net|]. split; [arcs_tac|]. split; [apply proper_singleton; lia|]. split; [marks_tac|].
  split; [apply proper_singleton; lia|]. split; [marks_tac|]. split; [|split].
  - exists [1]%nat. split; [|split; [vm_compute; reflexivity|apply (bool_decide_eq_true_1 (_ = _)); vm_compute; reflexivity]].
    apply scan_redundant; [feas (fun p : nat => match p with 1%nat => 1 | _ => 0 end) 1|].
    apply scan_kept; [intros (x & b & Hx & Hb & He & Hu); usee He (CRow [(1%nat, 1)] (-1) 0); usee He (CRow [] (-1) 0); usee Hu (CRow [(1%nat, -1)] 0 (-1)); lia|].
    apply scan_kept; [intros (x & b & Hx & Hb & He & Hu); usee He (CRow [(1%nat, 1)] (-1) 0); usee He (CRow [] (-1) 0); usee Hu (CRow [(1%nat, -1)] 0 (-1)); lia|]. apply scan_done.
  - set (t := Trans 10 (Some 0%nat) [] [(2%nat, 1)]). set (s := Trans 11 (Some 1%nat) [(2%nat, 1)] []). set (u := Trans 12 (Some 2%nat) [(2%nat, 1)] [(3%nat, 1)]).
    assert (T0 : forall p, tokens (∅ : marking) p = 0) by reflexivity. assert (P0 : proper (∅ : marking)) by (intros p v; rewrite lookup_empty; discriminate).
    exists [t; s; t; u]. split; [|reflexivity]. apply run_cons with (one_at 2); [|apply run_cons with ∅; [|apply run_cons with (one_at 2); [|apply run_cons with (one_at 3); [|constructor]]]];
      (split; [cbn; auto|split; [|split; [first [exact P0|apply proper_singleton; lia]|]]]);
      intros p; unfold t, s, u; cbn [t_in t_out weight]; unfold one_at; rewrite ?T0, ?tokens_singleton; repeat destruct (Nat.eqb _ p); lia.
  - intros ts m R V.
    assert (G : forall ts m m', run src_net m ts m' -> (Z.of_nat (count_occ Nat.eq_dec (visible ts) 0%nat) = tokens m 1 - tokens m' 1)).
    { clear. induction ts as [|t ts IH]; intros m m' R; inversion R as [|? ? m1 ? ? (Ht & _ & _ & HT) R']; subst; [cbn; lia|]. apply IH in R'. assert (A := HT 1%nat).
      destruct Ht as [<-|[<-|[<-|[]]]]; cbn [t_in t_out weight Nat.eqb] in A; cbn [visible t_label count_occ Nat.eq_dec]; repeat (destruct (Nat.eq_dec _ _); try discriminate); lia. }
    assert (Hm : 0 <= tokens m 1). { assert (Pm := run_marks src_net ts (one_at 1) m ltac:(arcs_tac) ltac:(apply proper_singleton; lia) ltac:(marks_tac) R). unfold tokens. destruct (m !! 1%nat) eqn:E; [apply Pm in E; lia|lia]. }
    apply G in R. rewrite V in R. unfold one_at in R. rewrite tokens_singleton in R. cbn in R. lia.
Qed.
Print Assumptions C88_first_marked_refuted.
