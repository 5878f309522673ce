(** C59, C60: playout of accepting Petri nets. *)
From stdpp Require Import gmap.
From Coq Require Import ZArith Lia Permutation.
From Verif Require Import Model_Petri Spec_Petri Proofs_Petri Model_Dict Model_Playout Proofs_Playout Proofs_Playout2 Proofs_Playout3.

(** C59: if the extensive playout ends, the log contains exactly the traces of the language of the net that have
    at most [max_len] events, each of them once. *)
Theorem C59_exact_language pn im fm max_len tord fuel lg :
  simple_net pn -> distinct_ids pn -> proper im -> (forall l, Permutation (tord l) l) ->
  extensive_playout pn (Some fm) max_len None tord fuel im = Some lg ->
  (forall w, In w lg <-> accepts pn im fm w /\ length w <= max_len) /\ List.NoDup lg.
Proof.
  intros HS HD Him Ho E. unfold extensive_playout in E. destruct (extensive_elements _ _ _ _ _ _ _) as [els|] eqn:Ee; [|discriminate]. injection E as <-.
  split; [|eapply extensive_nodup; eauto]. intros w. split.
  - intros Hw. apply in_map_iff in Hw as (e & <- & He). destruct (extensive_sound pn HS HD (Some fm) max_len None tord Ho im Him fuel els Ee e He) as (Hl & m & Hs & ->).
    split; [|exact Hl]. exists (map snd e). split; [apply steps_run, Hs|symmetry; apply labels_visible].
  - intros [(ts & Hr & <-) Hl]. eapply (extensive_complete pn HS HD (Some fm) max_len None tord Ho im Him fuel els Ee eq_refl ts fm Hr Hl). reflexivity.
Qed.

(** Without a final marking: the traces that lead to a deadlock. *)
Theorem C59_no_final_marking pn im max_len tord fuel lg :
  simple_net pn -> distinct_ids pn -> proper im -> (forall l, Permutation (tord l) l) ->
  extensive_playout pn None max_len None tord fuel im = Some lg ->
  forall w, In w lg <-> exists ts m, run pn im ts m /\ visible ts = w /\ length w <= max_len /\ forall t m', ~ fires pn t m m'.
Proof.
  intros HS HD Him Ho E. unfold extensive_playout in E. destruct (extensive_elements _ _ _ _ _ _ _) as [els|] eqn:Ee; [|discriminate]. injection E as <-.
  assert (DEAD : forall m, proper m -> enabled_transitions pn m = [] <-> forall t m', ~ fires pn t m m').
  { intros m Pm. split.
    - intros E t m' Hf. apply (fires_weak pn HS HD m t m' Pm) in Hf as [Hf _]. rewrite E in Hf. exact Hf.
    - intros H. destruct (enabled_transitions pn m) as [|t en] eqn:E; [reflexivity|]. exfalso. apply (H t (weak_execute t m)).
      apply (fires_weak pn HS HD m t _ Pm). rewrite E. split; [left; reflexivity|reflexivity]. }
  intros w. split.
  - intros Hw. apply in_map_iff in Hw as (e & <- & He). destruct (extensive_sound pn HS HD None max_len None tord Ho im Him fuel els Ee e He) as (Hl & m & Hs & Hd).
    apply steps_run in Hs. exists (map snd e), m. split; [exact Hs|]. split; [symmetry; apply labels_visible|]. split; [exact Hl|]. apply DEAD; [|exact Hd]. eapply run_proper; eauto.
  - intros (ts & m & Hr & <- & Hl & Hd). eapply (extensive_complete pn HS HD None max_len None tord Ho im Him fuel els Ee eq_refl ts m Hr Hl). apply DEAD; [|exact Hd]. eapply run_proper; eauto.
Qed.

(** With a bound on the occurrences of a marking (max_marking_occ): only traces of the language, each once. *)
Theorem C59_bounded_occurrences pn im fm max_len max_occ tord fuel lg :
  simple_net pn -> distinct_ids pn -> proper im -> (forall l, Permutation (tord l) l) ->
  extensive_playout pn (Some fm) max_len max_occ tord fuel im = Some lg ->
  (forall w, In w lg -> accepts pn im fm w /\ length w <= max_len) /\ List.NoDup lg.
Proof.
  intros HS HD Him Ho E. unfold extensive_playout in E. destruct (extensive_elements _ _ _ _ _ _ _) as [els|] eqn:Ee; [|discriminate]. injection E as <-.
  split; [|eapply extensive_nodup; eauto]. intros w.
  intros Hw. apply in_map_iff in Hw as (e & <- & He). destruct (extensive_sound pn HS HD (Some fm) max_len max_occ tord Ho im Him fuel els Ee e He) as (Hl & m & Hs & ->).
  split; [|exact Hl]. exists (map snd e). split; [apply steps_run, Hs|symmetry; apply labels_visible].
Qed.

(** The bound on the occurrences of a marking: no run leaves a marking more often than that, and a bound larger than
    the maximal length of traces changes nothing. *)
Theorem C59_marking_occurrences pn fm max_len k tord fuel im els :
  extensive_elements pn fm max_len (Some k) tord fuel im = Some els ->
  forall e, In e els -> forall m, length (List.filter (fun x => bool_decide (fst x = m)) e) <= k.
Proof. intros E e He m. exact (extensive_occurs pn fm max_len tord k fuel im els E e He m). Qed.
Theorem C59_large_bound pn fm max_len k tord fuel im : max_len < k ->
  extensive_playout pn fm max_len (Some k) tord fuel im = extensive_playout pn fm max_len None tord fuel im.
Proof. apply extensive_unbounded. Qed.

(** The playout ends if finitely many markings are reachable. *)
Theorem C59_bounded_nets_terminate pn im fm max_len max_occ tord ms :
  simple_net pn -> distinct_ids pn -> proper im -> (forall l, Permutation (tord l) l) ->
  (forall m, reachable pn im m -> In m ms) ->
  exists f0, forall fuel, f0 <= fuel -> extensive_playout pn fm max_len max_occ tord fuel im <> None.
Proof. intros HS HD Him Ho Hm. eapply bounded_terminates; eauto. Qed.

(** For unbounded nets it may run for ever, whatever the maximal length of traces. *)
Theorem C59_unbounded_net_refuted :
  exists pn im fm, simple_net pn /\ distinct_ids pn /\ proper im /\
    forall max_len fuel, extensive_playout pn (Some fm) max_len None (fun l => l) fuel im = None.
Proof.
  set (t := Trans 1%nat (@None nat) [] [(1%nat, 1%Z)]). exists (Net [1%nat] [t]), {[ 1%nat := 1%Z ]}, ∅.
  split; [|split; [|split]].
  - intros u [<-|[]]. split; split; [constructor|intros p w []|repeat constructor; intros []|]. intros p w [[= <- <-]|[]]. lia.
  - repeat constructor. intros [].
  - apply proper_singleton. lia.
  - intros max_len fuel. unfold extensive_playout, extensive_elements.
    assert (G : forall fuel n els vis fea, (1 <= n)%Z -> (forall m w, In (m, w) vis -> exists k, m = {[ 1%nat := k ]} /\ (k < n)%Z) ->
      ext_loop (Net [1%nat] [t]) (Some ∅) max_len None (fun l => l) fuel [({[ 1%nat := n ]}, [], els)] vis fea = None).
    { clear fuel. induction fuel as [|fuel IH]; intros n els vis fea Hn Hv; [reflexivity|]. cbn [ext_loop].
      destruct (seen vis {[1%nat := n]} []) eqn:Es.
      - apply seen_iff in Es. destruct (Hv _ _ Es) as (k & Ek & Hk). exfalso.
        assert (E : ({[1%nat := n]} : marking) !! 1%nat = ({[1%nat := k]} : marking) !! 1%nat) by (rewrite Ek; reflexivity). rewrite !lookup_singleton in E. injection E. lia.
      - assert (EN : next_states (Net [1%nat] [t]) max_len None (fun l => l) {[1%nat := n]} [] els = [({[1%nat := (n + 1)%Z]}, [], els ++ [({[1%nat := n]}, t)])]).
        { unfold next_states. replace (enabled_transitions (Net [1%nat] [t]) {[1%nat := n]}) with [t] by reflexivity. cbn [map concat too_often t_label t length Nat.ltb Nat.leb app].
          assert (EW : weak_execute t {[1%nat := n]} = {[1%nat := (n + 1)%Z]}).
          { unfold weak_execute. cbn. unfold produce. cbn. change (mget {[1%nat := n]} 1%nat) with (tokens {[1%nat := n]} 1%nat). rewrite tokens_singleton. cbn. apply insert_singleton. }
          rewrite EW. reflexivity. }
        rewrite EN. cbn [app]. apply IH; [lia|]. intros m w [[= <- <-]|Hi]; [exists n; split; [reflexivity|lia]|].
        destruct (Hv m w Hi) as (k & -> & Hk). exists k. split; [reflexivity|lia]. }
    rewrite G; [reflexivity|lia|]. intros m w [].
Qed.

(** C60: the random playout.  [choice] is the random choice: any function that picks an element. *)
Definition any_choice (choice : nat -> list step -> list (option (transition (option nat))) -> option (transition (option nat))) : Prop :=
  forall i els l, l <> [] -> In (choice i els l) l.

(** Every generated trace is a firing sequence of the net, of bounded length, that stops because of the bound, at
    a deadlock or in the final marking. *)
Theorem C60_runs pn im fm max_len choice fuel only n lg :
  simple_net pn -> distinct_ids pn -> proper im -> proper fm -> any_choice choice ->
  basic_playout pn (Some fm) max_len false choice fuel only n im = Some lg ->
  forall w, In w lg -> exists ts m, run pn im ts m /\ visible ts = w /\ length w <= max_len /\
    (length w = max_len \/ (forall t m', ~ fires pn t m m') \/ m = fm) /\ (only = true -> m = fm).
Proof.
  intros HS HD Him Hfm Hc E. unfold basic_playout in E. destruct (play_all _ _ _ _ _ _ _ _ _ _ _) as [els|] eqn:Ep; [|discriminate]. injection E as <-.
  destruct (play_all_spec pn HS HD (Some fm) max_len false choice Hc im Him fuel only n 0 [] els) as (G & _); [intros e []|cbn; lia|reflexivity|exact Ep|].
  intros w Hw. apply in_map_iff in Hw as (e & <- & He). destruct (G e He) as (m & Hs & Hl & Hst & Hk). apply steps_run in Hs.
  assert (Pm : proper m) by exact (run_proper pn im (map snd e) m Him Hs).
  exists (map snd e), m. split; [exact Hs|]. split; [symmetry; apply labels_visible|]. split; [exact Hl|]. split.
  - destruct Hst as [H|[H|H]]; [auto| |].
    + right. left. intros t m' Hf. apply (fires_weak pn HS HD m t m' Pm) in Hf as [Hf _]. rewrite H in Hf. exact Hf.
    + right. right. unfold may_stop in H. apply andb_true_iff in H as [_ H]. rewrite orb_false_r in H. apply bool_decide_eq_true in H. auto.
  - intros ->. unfold kept in Hk. cbn [negb orb] in Hk. rewrite andb_false_r, orb_false_r in Hk. apply bool_decide_eq_true in Hk. auto.
Qed.

(** Hence, with add_only_if_fm_is_reached, every trace of the log is accepted by the net. *)
Theorem C60_accepted pn im fm max_len choice fuel n lg :
  simple_net pn -> distinct_ids pn -> proper im -> proper fm -> any_choice choice ->
  basic_playout pn (Some fm) max_len false choice fuel true n im = Some lg ->
  forall w, In w lg -> accepts pn im fm w /\ length w <= max_len.
Proof.
  intros HS HD Him Hfm Hc E w Hw. destruct (C60_runs pn im fm max_len choice fuel true n lg HS HD Him Hfm Hc E w Hw) as (ts & m & Hr & Hv & Hl & _ & Hm).
  rewrite (Hm eq_refl) in Hr. split; [exists ts; auto|exact Hl].
Qed.

(** The number of traces. *)
Theorem C60_number pn im fm max_len leq choice fuel only n lg :
  simple_net pn -> distinct_ids pn -> proper im -> any_choice choice ->
  basic_playout pn fm max_len leq choice fuel only n im = Some lg ->
  length lg <= n /\ (only = false -> length lg = n).
Proof.
  intros HS HD Him Hc E. unfold basic_playout in E. destruct (play_all _ _ _ _ _ _ _ _ _ _ _) as [els|] eqn:Ep; [|discriminate]. injection E as <-.
  destruct (play_all_spec pn HS HD fm max_len leq choice Hc im Him fuel only n 0 [] els) as (_ & G); [intros e []|cbn; lia|reflexivity|exact Ep|].
  rewrite map_length. exact G.
Qed.

(** Every trace of the net (shorter than the bound) is generated by some random choices. *)
Theorem C60_all_traces_possible pn im fm max_len w :
  simple_net pn -> distinct_ids pn -> proper im -> accepts pn im fm w -> length w < max_len ->
  exists choice fuel, any_choice choice /\ basic_playout pn (Some fm) max_len false choice fuel true 1 im = Some [w].
Proof. intros HS HD Him Ha Hl. exact (complete_playout pn HS HD fm max_len false im w Him Ha Hl). Qed.

(** Concrete case: a; (b with a loop back); c, and a silent skip. *)
Definition ex_net : petri_net (option nat) :=
  Net [0; 1; 2; 3]%nat
    [Trans 1 (Some 1%nat) [(0%nat, 1%Z)] [(1%nat, 1%Z)]; Trans 2 (Some 2%nat) [(1%nat, 1%Z)] [(2%nat, 1%Z)];
     Trans 3 None [(2%nat, 1%Z)] [(1%nat, 1%Z)]; Trans 4 (Some 3%nat) [(2%nat, 1%Z)] [(3%nat, 1%Z)];
     Trans 5 None [(1%nat, 1%Z)] [(2%nat, 1%Z)]].
Example ext_example :
  extensive_playout ex_net (Some {[ 3%nat := 1%Z ]}) 4 None (fun l => l) 1000 {[ 0%nat := 1%Z ]} = Some [[1; 2; 3]; [1; 3]; [1; 2; 2; 3]]%nat.
Proof. vm_compute. reflexivity. Qed.
Example basic_example :
  basic_playout ex_net (Some {[ 3%nat := 1%Z ]}) 10 false (fun i els l => nth (Nat.modulo (Nat.div2 (length els) + i) (length l)) l None) 100 true 3 {[ 0%nat := 1%Z ]}
  = Some [[1; 2; 3]; [1; 2; 3]; [1; 2; 3]]%nat.
Proof. vm_compute. reflexivity. Qed.
Print Assumptions C59_exact_language.
Print Assumptions C59_no_final_marking.
Print Assumptions C59_bounded_occurrences.
Print Assumptions C59_bounded_nets_terminate.
Print Assumptions C59_unbounded_net_refuted.
Print Assumptions C60_runs.
Print Assumptions C60_accepted.
Print Assumptions C60_number.
Print Assumptions C60_all_traces_possible.
Print Assumptions C59_marking_occurrences.
Print Assumptions C59_large_bound.
