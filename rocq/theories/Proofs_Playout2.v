(** Termination of the extensive playout of bounded nets; the random playout. *)
From stdpp Require Import gmap.
From Coq Require Import ZArith Lia Permutation.
From Verif Require Import Model_Petri Spec_Petri Proofs_Petri Model_Dict Proofs_Dict Model_Playout Proofs_Playout.

(** all words of length at most [n] over an alphabet *)
Fixpoint words (al : list nat) (n : nat) : list (list nat) :=
  match n with O => [[]] | S n => [] :: concat (map (fun a => map (cons a) (words al n)) al) end.
Lemma words_in al n : forall w, length w <= n -> (forall a, In a w -> In a al) -> In w (words al n).
Proof.
  induction n as [|n IH]; intros w Hl Ha.
  - destruct w; [left; reflexivity|cbn in Hl; lia].
  - destruct w as [|a w]; [left; reflexivity|]. right. apply in_concat. exists (map (cons a) (words al n)). split.
    + apply in_map_iff. exists a. split; [reflexivity|]. apply Ha. left. reflexivity.
    + apply in_map, IH; [cbn in Hl; lia|]. intros b Hb. apply Ha. right. exact Hb.
Qed.
Definition alphabet (pn : petri_net (option nat)) : list nat :=
  concat (map (fun t => match t_label t with Some a => [a] | None => [] end) (n_trans pn)).
Lemma visible_alphabet pn ts : (forall t, In t ts -> In t (n_trans pn)) -> forall a, In a (visible ts) -> In a (alphabet pn).
Proof.
  induction ts as [|t ts IH]; intros H a Ha; [contradiction|]. cbn in Ha.
  assert (IH' : In a (visible ts) -> In a (alphabet pn)) by (apply IH; intros u Hu; apply H; right; exact Hu).
  destruct (t_label t) as [b|] eqn:E; [destruct Ha as [<-|Ha]; [|auto]|auto].
  apply in_concat. exists [b]. split; [|left; reflexivity]. apply in_map_iff. exists t. rewrite E. split; [reflexivity|]. apply H. left. reflexivity.
Qed.

Section P.
  Context (pn : petri_net (option nat)) (HS : simple_net pn) (HD : distinct_ids pn).

  Lemma bounded_terminates fm max_len max_occ tord im ms : (forall l, Permutation (tord l) l) -> proper im ->
    (forall m, reachable pn im m -> In m ms) ->
    exists f0, forall fuel, f0 <= fuel -> extensive_playout pn fm max_len max_occ tord fuel im <> None.
  Proof.
    intros Ho Him Hms.
    destruct (loop_terminates pn HS HD fm max_len max_occ tord Ho im Him (list_prod ms (words (alphabet pn) max_len))) with
      (k := length (list_prod ms (words (alphabet pn) max_len))) (len := 1) (tv := [(im, @nil nat, @nil step)]) (vis := @nil (marking * list nat)) (fea := @nil (list step)) as (f0 & H).
    - intros ts m Hr Hl. apply in_prod; [apply Hms; exists ts; exact Hr|]. apply words_in; [exact Hl|]. apply visible_alphabet. exact (run_in pn im ts m Hr).
    - lia.
    - constructor.
    - intros v [].
    - cbn. lia.
    - intros x [<-|[]]. split; [constructor|]. split; [reflexivity|cbn; lia].
    - exists f0. intros fuel Hf. specialize (H fuel Hf). unfold extensive_playout, extensive_elements. destruct (ext_loop _ _ _ _ _ _ _ _ _); [discriminate|congruence].
  Qed.

  Section B.
    Context (fm : option marking) (max_len : nat) (leq : bool).
    Context (choice : nat -> list step -> list (option (transition (option nat))) -> option (transition (option nat))).
    Context (Hchoice : forall i els l, l <> [] -> In (choice i els l) l).
    Context (im : marking) (Him : proper im) (Hfm : forall f, fm = Some f -> proper f).

    Definition stopped (w : list nat) (m : marking) : Prop :=
      length w = max_len \/ enabled_transitions pn m = [] \/ may_stop fm leq m = true.
    Lemma play_spec fuel i : forall m els els' m', steps pn im els m -> length (labels els) <= max_len ->
      play pn fm max_len leq choice fuel i m els = Some (els', m') ->
      steps pn im els' m' /\ length (labels els') <= max_len /\ stopped (labels els') m'.
    Proof.
      induction fuel as [|fuel IH]; intros m els els' m' Hs Hl E; [discriminate|]. cbn [play] in E.
      destruct (Nat.ltb_spec (length (labels els)) max_len) as [L|L].
      - destruct (enabled_transitions pn m) as [|t0 en] eqn:Een; [injection E as <- <-; split; [exact Hs|split; [exact Hl|right; left; exact Een]]|].
        set (opts := map Some (t0 :: en) ++ (if may_stop fm leq m then [None] else [])) in E.
        pose proof (Hchoice i els opts ltac:(unfold opts; discriminate)) as Hc.
        assert (Pm : proper m) by (apply (run_proper pn im (map snd els)); [exact Him|apply steps_run, Hs]).
        destruct (choice i els opts) as [t|].
        + destruct (execute t pn m) as [m1|] eqn:Ex; [|discriminate].
          assert (Ht : In t (n_trans pn)).
          { apply in_app_iff in Hc as [Hc|Hc].
            - apply in_map_iff in Hc as (t' & [= ->] & Ht'). rewrite <- Een in Ht'. apply (enabled_iff pn HS HD m t Pm) in Ht'. apply Ht'.
            - destruct (may_stop fm leq m); [destruct Hc as [?|[]]; discriminate|contradiction]. }
          apply (execute_some pn t m m1 (ident pn HD t Ht) (HS t Ht) Pm) in Ex.
          apply (IH m1 (els ++ [(m, t)]) els' m'); [econstructor; eauto| |exact E].
          rewrite ext_labels. unfold ext. destruct (t_label t); [rewrite app_length; cbn; lia|lia].
        + injection E as <- <-. split; [exact Hs|]. split; [exact Hl|]. right. right.
          apply in_app_iff in Hc as [Hc|Hc]; [apply in_map_iff in Hc as (? & ? & _); discriminate|].
          destruct (may_stop fm leq m); [reflexivity|contradiction].
      - injection E as <- <-. split; [exact Hs|]. split; [exact Hl|]. left. lia.
    Qed.
    Definition good_run (only : bool) (els : list step) : Prop := exists m, steps pn im els m /\ length (labels els) <= max_len /\ stopped (labels els) m /\ kept fm leq only m = true.
    Lemma play_all_spec fuel only n : forall i all res, (forall e, In e all -> good_run only e) -> length all <= n -> (only = false -> length all = i) ->
      play_all pn fm max_len leq choice fuel only n im i all = Some res ->
      (forall e, In e res -> good_run only e) /\ length res <= n /\ (only = false -> length res = n).
    Proof.
      induction fuel as [|fuel IH]; intros i all res Hg Hl Hi E; [discriminate|]. cbn [play_all] in E.
      destruct (Nat.leb_spec n (length all)) as [L|L]; [injection E as <-; repeat split; auto; lia|].
      destruct (Nat.leb n i && (negb only || match all with [] => true | _ => false end)) eqn:Es.
      - injection E as <-. split; [exact Hg|]. split; [exact Hl|]. intros ->. specialize (Hi eq_refl). apply andb_true_iff in Es as [Es _]. apply Nat.leb_le in Es. lia.
      - destruct (play pn fm max_len leq choice fuel i im []) as [[els m]|] eqn:Ep; [|discriminate].
        destruct (play_spec fuel i im [] els m) as (A & B & C); [constructor|cbn; lia|exact Ep|].
        apply (IH (i + 1) (if kept fm leq only m then all ++ [els] else all)) in E; [exact E| | |].
        + destruct (kept fm leq only m) eqn:Ek; [|exact Hg]. intros e He. apply in_app_iff in He as [He|[<-|[]]]; [apply Hg, He|]. exists m. auto.
        + destruct (kept fm leq only m); [rewrite app_length; cbn; lia|lia].
        + intros ->. cbn [kept negb orb]. rewrite app_length. cbn. rewrite (Hi eq_refl). reflexivity.
    Qed.
  End B.

  (** every accepted trace can be generated *)
  Definition follow (ts : list (transition (option nat))) (i : nat) (els : list step) (l : list (option (transition (option nat)))) : option (transition (option nat)) :=
    match nth_error ts (length els) with
    | Some t => match List.find (fun o => match o with Some u => Nat.eqb (t_id u) (t_id t) | None => false end) l with Some o => o | None => hd None l end
    | None => if existsb (fun o => match o with None => true | Some _ => false end) l then None else hd None l
    end.
  Lemma follow_valid ts i els l : l <> [] -> In (follow ts i els l) l.
  Proof.
    intros Hl. assert (Hh : In (hd None l) l) by (destruct l; [congruence|left; reflexivity]).
    unfold follow. destruct (nth_error ts (length els)) as [t|].
    - destruct (List.find _ l) as [o|] eqn:E; [|exact Hh]. apply find_some in E as [E _]. exact E.
    - destruct (existsb _ l) eqn:E; [|exact Hh]. apply existsb_exists in E as ([x|] & Hx & Ex); [discriminate|exact Hx].
  Qed.
  Lemma follow_play f max_len leq ts i : forall ts2 ts1 m els, ts = ts1 ++ ts2 -> map snd els = ts1 -> proper m -> run pn m ts2 f -> length (visible ts) < max_len ->
    exists els', play pn (Some f) max_len leq (follow ts) (S (length ts2)) i m els = Some (els', f) /\ map snd els' = ts.
  Proof.
    intros ts2. induction ts2 as [|t ts2 IH]; intros ts1 m els Et Ee Pm Hr Hl.
    - assert (m = f) by (inversion Hr; congruence). subst m. exists els. cbn [play length]. rewrite app_nil_r in Et. rewrite labels_visible, Ee, <- Et.
      rewrite (proj2 (Nat.ltb_lt _ _) Hl). split; [|congruence].
      destruct (enabled_transitions pn f) as [|t0 en]; [reflexivity|].
      assert (EM : may_stop (Some f) leq f = true).
      { unfold may_stop. apply andb_true_iff. split.
        - apply m_leb_iff; [exact Pm|exact Pm|]. intros p. lia.
        - apply orb_true_iff. left. apply bool_decide_eq_true. reflexivity. }
      rewrite EM. unfold follow, step in *.
      assert (EN : nth_error ts (length els) = None) by (apply nth_error_None; rewrite Et, <- Ee, map_length; lia).
      rewrite EN, existsb_app, orb_true_r. reflexivity.
    - inversion Hr as [|? ? m1 ? ? Hf Hr1]; subst. pose proof Hf as (Hi & He & P1 & _).
      assert (Hen : In t (enabled_transitions pn m)) by (apply (enabled_iff pn HS HD m t Pm); auto).
      destruct (IH (map snd els ++ [t]) m1 (els ++ [(m, t)])) as (els' & Ep & Em).
      { rewrite <- app_assoc. reflexivity. } { rewrite map_app. reflexivity. } { exact P1. } { exact Hr1. } { exact Hl. }
      exists els'. split; [|exact Em]. cbn [length]. cbn [play].
      assert (Hlt : length (labels els) < max_len). { rewrite visible_app, app_length in Hl. unfold step in *. rewrite (labels_visible els). lia. }
      rewrite (proj2 (Nat.ltb_lt _ _) Hlt).
      set (opts := map Some (enabled_transitions pn m) ++ (if may_stop (Some f) leq m then [None] else [])).
      assert (EC : follow (map snd els ++ t :: ts2) i els opts = Some t).
      { unfold follow. unfold step in *. rewrite nth_error_app2 by (rewrite map_length; lia). rewrite map_length, Nat.sub_diag. cbn [nth_error].
        destruct (List.find _ opts) as [o|] eqn:Ef.
        - apply find_some in Ef as [Ho Eo]. destruct o as [u|]; [|discriminate]. apply Nat.eqb_eq in Eo. f_equal.
          apply in_app_iff in Ho as [Ho|Ho].
          + apply in_map_iff in Ho as (u' & [= ->] & Hu). apply (enabled_iff pn HS HD m u Pm) in Hu as [Hu _]. apply (ident pn HD t Hi u Hu Eo).
          + destruct (may_stop (Some f) leq m); [destruct Ho as [?|[]]; discriminate|contradiction].
        - exfalso. apply (find_none _ _ Ef (Some t)) in Hen || pose proof (find_none _ _ Ef (Some t)) as Hno.
          assert (Hin : In (Some t) opts) by (apply in_app_iff; left; apply in_map, Hen). specialize (Hno Hin). cbn in Hno. rewrite Nat.eqb_refl in Hno. discriminate. }
      destruct (enabled_transitions pn m) as [|t0 en] eqn:Een; [contradiction|]. fold opts. rewrite EC.
      rewrite (proj2 (execute_some pn t m m1 (ident pn HD t Hi) (HS t Hi) Pm) Hf). exact Ep.
  Qed.
  Lemma complete_playout f max_len leq im w : proper im -> accepts pn im f w -> length w < max_len ->
    exists choice fuel, (forall i els l, l <> [] -> In (choice i els l) l) /\ basic_playout pn (Some f) max_len leq choice fuel true 1 im = Some [w].
  Proof.
    intros Pi (ts & Hr & Ew) Hl. exists (follow ts), (S (S (S (length ts)))). split; [apply follow_valid|].
    destruct (follow_play f max_len leq ts 0 ts [] im [] eq_refl eq_refl Pi Hr ltac:(rewrite Ew; exact Hl)) as (els & Ep & Em).
    assert (FM : forall fuel m e i r, play pn (Some f) max_len leq (follow ts) fuel i m e = Some r -> play pn (Some f) max_len leq (follow ts) (S fuel) i m e = Some r).
    { clear. induction fuel as [|fuel IH]; intros m e i r E; [discriminate|].
      cbn [play] in E. remember (S fuel) as n eqn:En. cbn [play].
      destruct (Nat.ltb (length (labels e)) max_len); [|exact E]. destruct (enabled_transitions pn m) as [|t0 en]; [exact E|].
      destruct (follow ts i e _) as [t|]; [|exact E]. destruct (execute t pn m) as [m1|]; [|exact E]. subst n. apply IH, E. }
    apply FM in Ep. unfold basic_playout. remember (S (S (length ts))) as n eqn:En. cbn [play_all Nat.leb length andb]. unfold step in *. rewrite Ep.
    assert (EK : kept (Some f) leq true f = true). { unfold kept. cbn [negb orb]. apply orb_true_iff. left. apply bool_decide_eq_true. reflexivity. }
    rewrite EK. subst n. cbn [app play_all Nat.leb length option_map map]. rewrite labels_visible, Em, Ew. reflexivity.
  Qed.
End P.
