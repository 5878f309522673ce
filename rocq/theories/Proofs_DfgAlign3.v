(** From walks to alignments; termination; fitness. *)
From Coq Require Import List Arith Bool Lia Permutation QArith Lqa.
Import ListNotations.
From Verif Require Import Model_Dict Proofs_Dict Model_DfgAlign Spec_DfgNet Spec_DfgAlign Proofs_DfgAlign Proofs_DfgAlign2.
Local Open Scope nat_scope.

Section L.
  Context (K : nat) (edges : list (nat * nat)) (sa ea : list nat) (trace : list nat).
  Notation in_model := (in_model edges sa ea).
  Notation N := (length trace).
  Notation walk := (walk K edges sa ea trace).
  Notation out := (out edges sa).
  Notation fin := (fin ea).
  Notation om := (om edges sa ea).

  Definition word_from (n : node) (w : list nat) : Prop :=
    match n with NStart => dfg_trace edges sa ea w | NEnd => w = [] | NAct x => ends_from edges ea x w end.
  Lemma word_out n a w : word_from n (a :: w) <-> out n a /\ word_from (NAct a) w.
  Proof.
    unfold Proofs_DfgAlign.out. destruct n as [| |x]; cbn; split.
    - intros H. inversion H; subst. auto.
    - intros [[[_ H]|(x & E & _)] H2]; [constructor; auto|discriminate].
    - discriminate.
    - intros [[[E _]|(x & E & _)] _]; discriminate.
    - intros H. inversion H; subst. split; [right; eauto|auto].
    - intros [[[E _]|(y & [= <-] & H)] H2]; [discriminate|]. econstructor; eauto.
  Qed.
  Lemma skipn_S i a : nth_error trace i = Some a -> skipn i trace = a :: skipn (S i) trace.
  Proof.
    revert i. induction trace as [|x l IH]; intros [|i] E; try discriminate.
    - injection E as ->. reflexivity.
    - cbn [nth_error] in E. change (skipn (S i) (x :: l)) with (skipn i l). rewrite (IH i E). reflexivity.
  Qed.
  Lemma skipn_nth i a t : skipn i trace = a :: t -> nth_error trace i = Some a /\ skipn (S i) trace = t.
  Proof.
    revert i. induction trace as [|x l IH]; intros [|i] E; try discriminate.
    - injection E as -> ->. split; reflexivity.
    - change (skipn i l = a :: t) in E. destruct (IH i E) as [E1 E2]. split; [exact E1|exact E2].
  Qed.
  Lemma om_cons a l : om (a :: l) = (if in_model a then 0 else 1) + om l.
  Proof. unfold Proofs_DfgAlign2.om. cbn [filter]. destruct (in_model a); reflexivity. Qed.

  Lemma walk_aligned n i ss n' j c : walk n i ss n' j c -> n' = NEnd -> j = N ->
    exists w, word_from n w /\ aligned K (skipn i trace) w (c + K * om (skipn i trace)).
  Proof.
    induction 1 as [n i|n i a ss n' j c E Ho H IH|n i a ss n' j c E H IH|n i a ss n' j c Ho H IH|n i ss n' j c Hf H IH]; intros En Ej.
    - subst n i. exists []. split; [reflexivity|]. rewrite skipn_all. cbn. rewrite Nat.mul_0_r. constructor.
    - destruct (IH En Ej) as (w & Hw & Ha). exists (a :: w). split; [apply word_out; auto|].
      rewrite (skipn_S _ _ E), om_cons, (out_model _ _ ea _ _ Ho). constructor. exact Ha.
    - destruct (IH En Ej) as (w & Hw & Ha). exists w. split; [exact Hw|].
      rewrite (skipn_S _ _ E), om_cons. unfold lc, log_cost. rewrite E.
      replace ((if in_model a then K else 0) + c + K * ((if in_model a then 0 else 1) + om (skipn (S i) trace)))
        with (K + (c + K * om (skipn (S i) trace))) by (destruct (in_model a); lia).
      constructor. exact Ha.
    - destruct (IH En Ej) as (w & Hw & Ha). exists (a :: w). split; [apply word_out; auto|]. rewrite <- Nat.add_assoc. constructor. exact Ha.
    - destruct (IH En Ej) as (w & Hw & Ha). exists w. split; [|exact Ha]. cbn in Hw. subst w. destruct Hf as (x & -> & Hx). constructor. exact Hx.
  Qed.
  Lemma aligned_walk t w c : aligned K t w c -> forall n i, skipn i trace = t -> i <= N -> word_from n w ->
    exists ss c', walk n i ss NEnd N c' /\ c' + K * om t = c.
  Proof.
    induction 1 as [|a t w c H IH|a t w c H IH|a t w c H IH]; intros n i Et Hi Hw.
    - assert (i = N). { assert (L : length (skipn i trace) = 0) by (rewrite Et; reflexivity). rewrite skipn_length in L. lia. } subst i.
      exists [], 0. split; [|cbn; lia]. destruct n as [| |x]; cbn in Hw.
      + inversion Hw.
      + constructor.
      + inversion Hw; subst. apply w_fin; [exists x; auto|constructor].
    - destruct (skipn_nth _ _ _ Et) as [E1 E2]. apply word_out in Hw as [Ho Hw]. assert (i < N) by (apply nth_error_Some; congruence).
      destruct (IH (NAct a) (S i) E2 ltac:(lia) Hw) as (ss & c' & W & Ec). exists (true :: ss), c'. split; [apply w_sync with a; auto|].
      rewrite om_cons, (out_model _ _ ea _ _ Ho). exact Ec.
    - destruct (skipn_nth _ _ _ Et) as [E1 E2]. assert (i < N) by (apply nth_error_Some; congruence).
      destruct (IH n (S i) E2 ltac:(lia) Hw) as (ss & c' & W & Ec). eexists (false :: ss), _. split; [apply w_log with a; eauto|].
      rewrite om_cons. unfold lc, log_cost. rewrite E1. destruct (in_model a); lia.
    - apply word_out in Hw as [Ho Hw]. destruct (IH (NAct a) i Et Hi Hw) as (ss & c' & W & Ec). eexists ss, _. split; [apply w_model with a; eauto|]. lia.
  Qed.
End L.

Section T.
  Context (K : nat) (edges : list (nat * nat)) (sa ea : list nat).
  Context (pop : list ast -> option (ast * list ast)) (nord : list node -> list node).
  Context (HK : 0 < K).
  Context (Hpop0 : pop [] = None).
  Context (Hpop : forall l, l <> [] -> exists s r, pop l = Some (s, r) /\ Permutation l (s :: r) /\ forall x, In x l -> a_f s <= a_f x).
  Context (Hnord : forall l, Permutation (nord l) l).

  Lemma found_optimal trace fuel s : align_dfg K edges sa ea trace pop nord fuel = Found s -> optimal_cost K edges sa ea trace (a_real s).
  Proof.
    intros E. destruct (found_min K edges sa ea trace pop nord HK Hpop0 Hpop Hnord fuel s E) as (Hr & (ss & W) & Hm). split.
    - destruct (walk_aligned _ _ _ _ _ _ _ _ _ _ _ W eq_refl eq_refl) as (w & Hw & Ha). exists w. split; [exact Hw|]. cbn [skipn] in Ha. rewrite Hr. exact Ha.
    - intros w c' Hw Ha. destruct (aligned_walk K edges sa ea trace trace w c' Ha NStart 0 eq_refl ltac:(lia) Hw) as (ss' & c & W' & <-).
      specialize (Hm _ _ W'). rewrite Hr. lia.
  Qed.
  (** any word aligns with any trace *)
  Lemma aligned_all t w : aligned K t w (K * (length t + length w)).
  Proof.
    induction t as [|a t IH]; cbn [length Nat.add].
    - induction w as [|b w IHw]; cbn [length]; [rewrite Nat.mul_0_r; constructor|].
      rewrite Nat.mul_succ_r, Nat.add_comm. constructor. exact IHw.
    - rewrite Nat.mul_succ_r, Nat.add_comm. constructor. exact IH.
  Qed.
  Lemma exhausted_no_trace trace fuel : align_dfg K edges sa ea trace pop nord fuel = Exhausted -> forall w, ~ dfg_trace edges sa ea w.
  Proof.
    intros E w Hw. destruct (aligned_walk K edges sa ea trace trace w _ (aligned_all trace w) NStart 0 eq_refl ltac:(lia) Hw) as (ss & c & W & _).
    exact (exhausted_none K edges sa ea trace pop nord HK Hpop0 Hpop Hnord fuel E _ _ W).
  Qed.

  (** Termination. *)
  Section Term.
    Context (trace : list nat).
    Notation N := (length trace).
    Definition nodes : list node := NStart :: NEnd :: map NAct (model_acts edges sa ea).
    Definition rem (o : option nat) : nat := match o with None => S N | Some j => N - j end.
    Definition meas (closed : node -> option nat) : nat := list_sum (map (fun n => rem (closed n)) nodes).
    Definition ok (s : ast) : Prop := In (a_node s) nodes /\ a_idx s <= N.
    Lemma meas_close closed n i l : In n l -> i <= N -> closed_at closed n i = false ->
      list_sum (map (fun m => rem (close closed n i m)) l) < list_sum (map (fun m => rem (closed m)) l).
    Proof.
      intros Hin Hi Hc.
      assert (LE : forall m, rem (close closed n i m) <= rem (closed m)).
      { intros m. unfold close. destruct (node_eqb_spec m n) as [->|]; [|lia]. unfold closed_at in Hc. destruct (closed n) as [j|]; cbn; [apply Nat.leb_gt in Hc|]; lia. }
      assert (LT : rem (close closed n i n) < rem (closed n)).
      { unfold close. destruct (node_eqb_spec n n); [|congruence]. unfold closed_at in Hc. destruct (closed n) as [j|]; cbn; [apply Nat.leb_gt in Hc|]; lia. }
      induction l as [|m l IH]; [contradiction|]. cbn [map]. unfold list_sum. cbn [fold_right].
      fold (list_sum (map (fun m => rem (close closed n i m)) l)) (list_sum (map (fun m => rem (closed m)) l)).
      destruct Hin as [->|Hin].
      - assert (list_sum (map (fun m => rem (close closed n i m)) l) <= list_sum (map (fun m => rem (closed m)) l)); [|lia].
        clear IH. induction l as [|m l IH]; [cbn; lia|]. cbn [map]. unfold list_sum. cbn [fold_right].
        fold (list_sum (map (fun m => rem (close closed n i m)) l)) (list_sum (map (fun m => rem (closed m)) l)). specialize (LE m). lia.
      - specialize (IH Hin). specialize (LE m). lia.
    Qed.
    Lemma ok_succ s c : ok s -> succ_of K edges sa ea trace s c -> ok c.
    Proof.
      intros [Hn Hi] HS. split; [|exact (succ_idx K edges sa ea trace HK s c HS Hi)].
      inversion HS as [a nv Ea Hne Ho|nv Hne Hf Hm|b nv Hne Ho Hm|a nv Ea Hmm]; subst c; cbn [a_node].
      - right. right. apply in_map. apply inb_iff. exact (out_model _ _ ea _ _ Ho).
      - right. left. reflexivity.
      - right. right. apply in_map. apply inb_iff. exact (out_model _ _ ea _ _ Ho).
      - exact Hn.
    Qed.
    Lemma search_terminates : forall M len open closed nv, meas closed <= M -> length open <= len -> (forall s, In s open -> ok s) ->
      exists f0, forall fuel, f0 <= fuel -> search K edges sa ea trace pop nord fuel open closed nv <> OutOfFuel.
    Proof.
      induction M as [M IHM] using lt_wf_ind. induction len as [|len IHl]; intros open closed nv HM Hl Hok.
      - destruct open; [|cbn in Hl; lia]. exists 1. intros [|fuel] Hf; [lia|]. cbn [search]. rewrite Hpop0. discriminate.
      - destruct open as [|x0 l0]; [exists 1; intros [|fuel] Hf; [lia|]; cbn [search]; rewrite Hpop0; discriminate|].
        destruct (Hpop (x0 :: l0)) as (s & r & Ep & HP & _); [discriminate|]. set (open := x0 :: l0) in *.
        assert (Hr : forall x, In x r -> ok x) by (intros x Hx; apply Hok, (Permutation_in _ (Permutation_sym HP)); right; exact Hx).
        assert (Hs : ok s) by (apply Hok, (Permutation_in _ (Permutation_sym HP)); left; reflexivity).
        destruct (closed_at closed (a_node s) (a_idx s)) eqn:Ec.
        + destruct (IHl r closed (nv + 1) HM) as (f0 & H); [apply Permutation_length in HP; cbn [length] in HP; lia|exact Hr|].
          exists (S f0). intros [|fuel] Hf; [lia|]. cbn [search]. rewrite Ep, Ec. apply H. lia.
        + destruct (node_eqb (a_node s) NEnd && negb (Nat.ltb (a_idx s) N)) eqn:Eg.
          * exists 1. intros [|fuel] Hf; [lia|]. cbn [search]. rewrite Ep, Ec, Eg. discriminate.
          * set (closed' := close closed (a_node s) (a_idx s)).
            assert (Hlt : meas closed' < meas closed) by (apply meas_close; [apply Hs|apply Hs|exact Ec]).
            destruct (IHM (meas closed') ltac:(lia) _ (filter (fun c => negb (closed_at closed' (a_node c) (a_idx c))) (successors K edges sa ea trace nord (nv + 1) s) ++ r)
                        closed' (nv + 1) (Nat.le_refl _) (Nat.le_refl _)) as (f0 & H).
            { intros x Hx. apply in_app_iff in Hx as [Hx|Hx]; [|apply Hr, Hx]. apply filter_In in Hx as [Hx _].
              apply ok_succ with s; [exact Hs|]. exact (succ_spec K edges sa ea trace nord Hnord (nv + 1) s x Hx). }
            exists (S f0). intros [|fuel] Hf; [lia|]. cbn [search]. rewrite Ep, Ec, Eg. apply H. lia.
    Qed.
    Lemma align_terminates : exists f0, forall fuel, f0 <= fuel -> align_dfg K edges sa ea trace pop nord fuel <> OutOfFuel.
    Proof.
      destruct (search_terminates (meas (fun _ => None)) 1 [start_state] (fun _ => None) 0 (Nat.le_refl _) (Nat.le_refl _)) as (f0 & H).
      - intros s [<-|[]]. split; [left; reflexivity|cbn; lia].
      - exists f0. exact H.
    Qed.
  End Term.

  Lemma align_found trace w : dfg_trace edges sa ea w -> exists f0, forall fuel, f0 <= fuel -> exists s, align_dfg K edges sa ea trace pop nord fuel = Found s.
  Proof.
    intros Hw. destruct (align_terminates trace) as (f0 & H). exists f0. intros fuel Hf. specialize (H fuel Hf).
    destruct (align_dfg K edges sa ea trace pop nord fuel) as [s| |] eqn:E; [eauto| |congruence].
    destruct (exhausted_no_trace trace fuel E w Hw).
  Qed.

  (** costs *)
  Lemma aligned_zero t w : aligned K t w 0 <-> t = w.
  Proof.
    split.
    - intros H. remember 0 as c eqn:Ec. revert Ec. induction H; intros Ec; try lia; [reflexivity|]. f_equal. auto.
    - intros <-. induction t; constructor; auto.
  Qed.
  Lemma aligned_nil_l w c : aligned K [] w c -> c = K * length w.
  Proof.
    revert c. induction w as [|b w IH]; intros c H; inversion H; subst; cbn [length]; [lia|].
    match goal with H0 : aligned _ [] w ?x |- _ => rewrite (IH _ H0) end. lia.
  Qed.
  Lemma optimal_unique t c c' : optimal_cost K edges sa ea t c -> optimal_cost K edges sa ea t c' -> c = c'.
  Proof. intros [(w & Hw & Ha) Hm] [(w' & Hw' & Ha') Hm']. specialize (Hm _ _ Hw' Ha'). specialize (Hm' _ _ Hw Ha). lia. Qed.
  Lemma optimal_zero t c : optimal_cost K edges sa ea t c -> c = 0 <-> dfg_trace edges sa ea t.
  Proof.
    intros [(w & Hw & Ha) Hm]. split.
    - intros ->. apply aligned_zero in Ha. subst w. exact Hw.
    - intros Ht. specialize (Hm t 0 Ht (proj2 (aligned_zero t t) eq_refl)). lia.
  Qed.
  Lemma optimal_bounds t e c : optimal_cost K edges sa ea [] e -> optimal_cost K edges sa ea t c -> 0 < e /\ c <= e + K * length t.
  Proof.
    intros [(w & Hw & Ha) _] [_ Hm]. apply aligned_nil_l in Ha as ->. split.
    - inversion Hw. subst. cbn. lia.
    - specialize (Hm _ _ Hw (aligned_all t w)). lia.
  Qed.
  Lemma sum_const (t : list nat) : list_sum (map (fun _ => K) t) = K * length t.
  Proof. induction t as [|a t IH]; cbn [map length]; [cbn; lia|]. unfold list_sum in *. cbn [fold_right]. lia. Qed.

  (** what a result says *)
  Definition result_for (t : list nat) (r : nat * nat * Q) : Prop :=
    exists cost e, optimal_cost K edges sa ea t cost /\ optimal_cost K edges sa ea [] e /\
      r = (cost, e + K * length t, (1 - inject_Z (Z.of_nat cost) / inject_Z (Z.of_nat (e + K * length t)))%Q).
  Lemma al_result_for fuel fuel' t e c : al_cost K edges sa ea pop nord fuel [] = Some e -> al_cost K edges sa ea pop nord fuel' t = Some c -> result_for t (al_result K e t c).
  Proof.
    unfold al_cost. intros He Hc.
    destruct (align_dfg K edges sa ea [] pop nord fuel) as [se| |] eqn:Ee; try discriminate. injection He as <-.
    destruct (align_dfg K edges sa ea t pop nord fuel') as [st| |] eqn:Et; try discriminate. injection Hc as <-.
    exists (a_real st), (a_real se). split; [exact (found_optimal _ _ _ Et)|]. split; [exact (found_optimal _ _ _ Ee)|].
    unfold al_result. rewrite sum_const. reflexivity.
  Qed.
  Lemma align_traces_spec fuel e : al_cost K edges sa ea pop nord fuel [] = Some e -> forall traces dic,
    (forall t r, d_get dic t = Some r -> result_for t r) -> forall rs, align_traces K edges sa ea pop nord fuel e traces dic = Some rs -> Forall2 result_for traces rs.
  Proof.
    intros He. induction traces as [|t traces IH]; intros dic Hd rs E; cbn [align_traces] in E; [injection E as <-; constructor|].
    destruct (d_get dic t) as [r|] eqn:Eg.
    - destruct (align_traces K edges sa ea pop nord fuel e traces dic) as [rs'|] eqn:E'; [|discriminate]. injection E as <-. constructor; [apply Hd, Eg|]. apply (IH dic); auto.
    - destruct (al_cost K edges sa ea pop nord fuel t) as [c|] eqn:Ec; [|discriminate]. cbv zeta in E.
      destruct (align_traces K edges sa ea pop nord fuel e traces (d_set dic t (al_result K e t c))) as [rs'|] eqn:E'; [|discriminate]. injection E as <-.
      pose proof (al_result_for _ _ _ _ _ He Ec) as Hr. constructor; [exact Hr|].
      eapply IH; [|exact E']. intros t' r'. rewrite d_get_set. destruct (keqb_spec t t') as [<-|]; [intros [= <-]; exact Hr|apply Hd].
  Qed.
  Lemma align_log_spec fuel traces rs : align_dfg_log K edges sa ea pop nord fuel traces = Some rs -> Forall2 result_for traces rs.
  Proof.
    unfold align_dfg_log. destruct (al_cost K edges sa ea pop nord fuel []) as [e|] eqn:He; [|discriminate].
    apply (align_traces_spec fuel e He traces []). intros t r E. discriminate.
  Qed.
  Lemma align_log_total w traces : dfg_trace edges sa ea w -> exists f0, forall fuel, f0 <= fuel -> exists rs, align_dfg_log K edges sa ea pop nord fuel traces = Some rs.
  Proof.
    intros Hw.
    assert (H : forall l, exists f0, forall fuel, f0 <= fuel -> forall t, In t l -> exists c, al_cost K edges sa ea pop nord fuel t = Some c).
    { induction l as [|t l (f0 & IH)]; [exists 0; intros fuel _ t []|]. destruct (align_found t w Hw) as (f1 & H1). exists (Nat.max f0 f1).
      intros fuel Hf t' [<-|Ht]; [|apply IH; [lia|exact Ht]]. destruct (H1 fuel ltac:(lia)) as (s & E). unfold al_cost. rewrite E. eauto. }
    destruct (H ([] :: traces)) as (f0 & H0). exists f0. intros fuel Hf. specialize (H0 fuel Hf).
    unfold align_dfg_log. destruct (H0 [] (or_introl eq_refl)) as (e & ->).
    assert (G : forall l dic, (forall t, In t l -> exists c, al_cost K edges sa ea pop nord fuel t = Some c) -> exists rs, align_traces K edges sa ea pop nord fuel e l dic = Some rs).
    { induction l as [|t l IH]; intros dic Hl; [exists []; reflexivity|]. cbn [align_traces].
      destruct (d_get dic t); [destruct (IH dic ltac:(intros; apply Hl; right; assumption)) as (rs & ->); eauto|].
      destruct (Hl t (or_introl eq_refl)) as (c & ->). cbv zeta. destruct (IH (d_set dic t (al_result K e t c)) ltac:(intros; apply Hl; right; assumption)) as (rs & ->). eauto. }
    apply G. intros t Ht. apply H0. right. exact Ht.
  Qed.
  Lemma result_fitness t cost bwc fit : result_for t (cost, bwc, fit) ->
    optimal_cost K edges sa ea t cost /\ 0 < bwc /\ cost <= bwc /\ (0 <= fit <= 1)%Q /\ (fit == 1 <-> dfg_trace edges sa ea t)%Q /\ (fit == 0 <-> cost = bwc)%Q.
  Proof.
    intros (c & e & Hc & He & [= -> -> ->]). destruct (optimal_bounds t e c He Hc) as [H1 H2]. split; [exact Hc|]. split; [lia|]. split; [lia|].
    set (b := e + K * length t) in *. assert (Hb : 0 < b) by lia. clearbody b. pose proof (optimal_zero t c Hc) as HZ.
    assert (QB : (0 < inject_Z (Z.of_nat b))%Q) by (change 0%Q with (inject_Z 0); rewrite <- Zlt_Qlt; lia).
    assert (QC : (0 <= inject_Z (Z.of_nat c))%Q) by (change 0%Q with (inject_Z 0); rewrite <- Zle_Qle; lia).
    assert (QL : (inject_Z (Z.of_nat c) <= inject_Z (Z.of_nat b))%Q) by (rewrite <- Zle_Qle; lia).
    set (x := (inject_Z (Z.of_nat c) / inject_Z (Z.of_nat b))%Q).
    assert (Hx : (x * inject_Z (Z.of_nat b) == inject_Z (Z.of_nat c))%Q) by (unfold x; field; lra).
    assert (X0 : (0 <= x)%Q) by (unfold x; apply Qle_shift_div_l; lra).
    assert (X1 : (x <= 1)%Q) by (unfold x; apply Qle_shift_div_r; lra).
    split; [lra|]. split.
    - rewrite <- HZ. split.
      + intros E. assert (Ex : (x == 0)%Q) by lra. rewrite Ex in Hx. assert (E0 : (inject_Z (Z.of_nat c) == inject_Z 0)%Q) by (rewrite <- Hx; cbn; ring).
        apply (proj1 (inject_Z_injective _ _)) in E0. lia.
      + intros ->. assert (Ex : (x == 0)%Q) by (unfold x; cbn; unfold Qdiv; ring). lra.
    - split.
      + intros E. assert (Ex : (x == 1)%Q) by lra. rewrite Ex in Hx. assert (E0 : (inject_Z (Z.of_nat b) == inject_Z (Z.of_nat c))%Q) by (rewrite <- Hx; ring).
        apply (proj1 (inject_Z_injective _ _)) in E0. lia.
      + intros ->. assert (Ex : (x == 1)%Q) by (unfold x; field; lra). lra.
  Qed.

  (** the chain of predecessors *)
  Inductive chain (trace : list nat) : ast -> Prop :=
  | ch_start : chain trace start_state
  | ch_step s c : chain trace s -> succ_of K edges sa ea trace s c -> chain trace c.
  Lemma search_chain trace fuel : forall open closed nv s, (forall x, In x open -> chain trace x) ->
    search K edges sa ea trace pop nord fuel open closed nv = Found s -> chain trace s.
  Proof.
    induction fuel as [|fuel IH]; intros open closed nv s Ho E; [discriminate|]. cbn [search] in E.
    destruct open as [|x0 l0]; [rewrite Hpop0 in E; discriminate|].
    destruct (Hpop (x0 :: l0)) as (s' & r & Ep & HP & _); [discriminate|]. rewrite Ep in E.
    assert (Hr : forall x, In x r -> chain trace x) by (intros x Hx; apply Ho, (Permutation_in _ (Permutation_sym HP)); right; exact Hx).
    assert (Hs : chain trace s') by (apply Ho, (Permutation_in _ (Permutation_sym HP)); left; reflexivity).
    destruct (closed_at closed (a_node s') (a_idx s')); [eapply IH; eauto|].
    destruct (node_eqb (a_node s') NEnd && negb (Nat.ltb (a_idx s') (length trace))); [injection E as <-; exact Hs|].
    eapply IH; [|exact E]. intros x Hx. apply in_app_iff in Hx as [Hx|Hx]; [|apply Hr, Hx]. apply filter_In in Hx as [Hx _].
    apply ch_step with s'; [exact Hs|]. exact (succ_spec K edges sa ea trace nord Hnord _ s' x Hx).
  Qed.
  Definition sync_moves (l : list nat) : list (option nat * option node) := map (fun a => (Some a, Some (NAct a))) l.
  Definition own_move (trace : list nat) (s : ast) : list (option nat * option node) :=
    match a_idx s with O => [] | S pl => [(if a_mm s then None else nth_error trace pl, if a_lm s then None else Some (a_node s))] end.
  Lemma back_moves_step trace f i v r n l m s : back_moves trace (AState f i v r n l m (Some s)) = back_moves trace s ++ own_move trace s.
  Proof. destruct s. reflexivity. Qed.
  Lemma chain_zero trace s : chain trace s -> a_real s = 0 ->
    match a_node s with
    | NEnd => back_moves trace s = sync_moves (firstn (a_idx s) trace)
    | _ => back_moves trace s ++ own_move trace s = sync_moves (firstn (a_idx s) trace)
    end.
  Proof.
    induction 1 as [|s c H IH HS]; intros Hz; [reflexivity|].
    inversion HS as [a nv Ea Hn Ho|nv Hn Hf Hm|b nv Hn Ho Hm|a nv Ea Hmm]; subst c; cbn [a_real a_node a_idx] in *.
    - assert (E : back_moves trace s ++ own_move trace s = sync_moves (firstn (a_idx s) trace)).
      { specialize (IH Hz). destruct (a_node s); [exact IH|congruence|exact IH]. }
      rewrite back_moves_step, E. unfold own_move. cbn [a_idx a_mm a_lm a_node]. rewrite Nat.add_1_r, Ea.
      rewrite <- Nat.add_1_r, (firstn_S _ _ _ Ea). unfold sync_moves. rewrite map_app. reflexivity.
    - rewrite back_moves_step. specialize (IH Hz). destruct (a_node s); [exact IH|congruence|exact IH].
    - lia.
    - lia.
  Qed.
  Lemma found_moves trace fuel s : align_dfg K edges sa ea trace pop nord fuel = Found s -> a_real s = 0 -> back_moves trace s = sync_moves trace.
  Proof.
    intros E Hz. pose proof (search_chain trace fuel [start_state] (fun _ => None) 0 s) as HC.
    pose proof (align_ok K edges sa ea trace pop nord HK Hpop0 Hpop Hnord fuel) as HO. rewrite E in HO. destruct HO as (En & Ei & _).
    pose proof (chain_zero trace s) as HM. rewrite En, Ei, firstn_all in HM. apply HM; [|exact Hz]. apply HC; [|exact E].
    intros x [<-|[]]. constructor.
  Qed.

  (** alignments that begin with a start activity and do not show the end node *)
  Definition show (m : option nat * option nat) : option nat * option node := (fst m, option_map NAct (snd m)).
  Inductive reach : node -> list nat -> Prop :=
  | rc_start : reach NStart []
  | rc_step n u a : reach n u -> out edges sa n a -> reach (NAct a) (u ++ [a]).
  Lemma reach_word n u : reach n u -> forall w, word_from edges sa ea n w -> dfg_trace edges sa ea (u ++ w).
  Proof.
    induction 1 as [|n u a H IH Ho]; intros w Hw; [exact Hw|]. rewrite <- app_assoc. apply IH. cbn [app]. apply word_out. auto.
  Qed.
  Definition shown_end (l : list (option nat * option node)) : Prop := exists x, In (x, Some NEnd) l.
  Lemma chain_legal trace x t0 s : trace = x :: t0 -> In x sa -> chain trace s ->
    (a_idx s = 0 -> s = start_state) /\
    match a_node s with
    | NEnd => (a_idx s >= 1) /\ ((exists m u k n, back_moves trace s = map show m /\ reach n u /\ fin ea n /\ legal m (firstn (a_idx s) trace) u k /\ a_real s = K * k)
              \/ shown_end (back_moves trace s))
              /\ shown_end (back_moves trace s ++ own_move trace s)
    | n => exists m u k, back_moves trace s ++ own_move trace s = map show m /\ reach n u /\ legal m (firstn (a_idx s) trace) u k /\ a_real s = K * k
    end.
  Proof.
    intros Et Hx. induction 1 as [|s c H [IH0 IH] HS].
    { split; [auto|]. cbn. exists [], [], 0. split; [reflexivity|]. split; [constructor|]. split; [constructor|lia]. }
    assert (NE : a_node s <> NEnd -> exists m u k, back_moves trace s ++ own_move trace s = map show m /\ reach (a_node s) u /\ legal m (firstn (a_idx s) trace) u k /\ a_real s = K * k).
    { intros Hn. destruct (a_node s); [exact IH|congruence|exact IH]. }
    inversion HS as [a nv Ea Hn Ho|nv Hn Hf Hm|b nv Hn Ho Hm|a nv Ea Hmm]; subst c; cbn [a_node a_idx a_real] in *.
    - split; [lia|]. destruct (NE Hn) as (m & u & k & E & R & L & C).
      exists (m ++ [(Some a, Some a)]), (u ++ [a]), k. rewrite back_moves_step, E. split.
      + unfold own_move. cbn [a_idx a_mm a_lm a_node]. rewrite Nat.add_1_r, Ea, map_app. reflexivity.
      + split; [apply rc_step with (a_node s); auto|]. split; [rewrite (firstn_S _ _ _ Ea); constructor; exact L|exact C].
    - destruct (NE Hn) as (m & u & k & E & R & L & C).
      assert (Hi : a_idx s >= 1).
      { destruct (a_idx s) eqn:Ei; [|lia]. exfalso. rewrite (IH0 eq_refl) in Hf. destruct Hf as (y & Ey & _). discriminate. }
      split; [lia|]. split; [exact Hi|]. split.
      + left. exists m, u, k, (a_node s). rewrite back_moves_step. auto.
      + unfold own_move. cbn [a_idx a_mm a_lm a_node]. destruct (a_idx s) as [|pl]; [lia|]. eexists. apply in_app_iff. right. left. reflexivity.
    - assert (Hi : a_idx s >= 1).
      { destruct (a_idx s) eqn:Ei; [|lia]. exfalso. rewrite (IH0 eq_refl) in Hm. subst trace. destruct (Hm x eq_refl) as [_ Hno]. apply Hno. left. auto. }
      split; [lia|]. destruct (NE Hn) as (m & u & k & E & R & L & C).
      exists (m ++ [(None, Some b)]), (u ++ [b]), (S k). rewrite back_moves_step, E. split.
      + unfold own_move. cbn [a_idx a_mm a_lm a_node]. destruct (a_idx s) as [|pl]; [lia|]. rewrite map_app. reflexivity.
      + split; [apply rc_step with (a_node s); auto|]. split; [constructor; exact L|lia].
    - split; [lia|]. destruct (node_eqb_spec (a_node s) NEnd) as [En|Hn].
      + rewrite En in IH |- *. destruct IH as (Hi & _ & (y & Hy)). split; [lia|]. rewrite back_moves_step. split.
        * right. exists y. exact Hy.
        * exists y. apply in_app_iff. left. exact Hy.
      + destruct (NE Hn) as (m & u & k & E & R & L & C).
        assert (G : exists m' u' k', back_moves trace (AState (a_f s + lc K edges sa ea trace (a_idx s)) (a_idx s + 1) nv (a_real s + K) (a_node s) true false (Some s)) ++
                     own_move trace (AState (a_f s + lc K edges sa ea trace (a_idx s)) (a_idx s + 1) nv (a_real s + K) (a_node s) true false (Some s)) = map show m' /\
                     reach (a_node s) u' /\ legal m' (firstn (a_idx s + 1) trace) u' k' /\ a_real s + K = K * k').
        { exists (m ++ [(Some a, None)]), u, (S k). rewrite back_moves_step, E. split.
          - unfold own_move. cbn [a_idx a_mm a_lm a_node]. rewrite Nat.add_1_r, Ea, map_app. reflexivity.
          - split; [exact R|]. split; [rewrite (firstn_S _ _ _ Ea); constructor; exact L|lia]. }
        destruct (a_node s); [exact G|congruence|exact G].
  Qed.
  Lemma found_legal x t0 fuel s : In x sa -> align_dfg K edges sa ea (x :: t0) pop nord fuel = Found s -> ~ shown_end (back_moves (x :: t0) s) ->
    exists m w k, back_moves (x :: t0) s = map show m /\ dfg_trace edges sa ea w /\ legal m (x :: t0) w k /\ a_real s = K * k.
  Proof.
    intros Hx E Hs. pose proof (search_chain (x :: t0) fuel [start_state] (fun _ => None) 0 s) as HC.
    pose proof (align_ok K edges sa ea (x :: t0) pop nord HK Hpop0 Hpop Hnord fuel) as HO. rewrite E in HO. destruct HO as (En & Ei & _).
    destruct (chain_legal (x :: t0) x t0 s eq_refl Hx) as [_ HM].
    - apply HC; [|exact E]. intros y [<-|[]]. constructor.
    - rewrite En, Ei, firstn_all in HM. destruct HM as (_ & [(m & u & k & n & Eb & R & F & L & C)|Hb] & _); [|contradiction].
      exists m, u, k. split; [exact Eb|]. split; [|auto]. rewrite <- (app_nil_r u). apply (reach_word n u R). destruct F as (y & -> & Hy). constructor. exact Hy.
  Qed.
End T.
