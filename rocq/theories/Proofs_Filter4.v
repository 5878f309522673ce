From Coq Require Import List Arith Bool ZArith QArith Lia Permutation.
Import ListNotations.
From Verif Require Import Model_Dict Proofs_Dict Model_Tree Model_Filter Spec_Filter Proofs_Filter Spec_Filter2.
Local Open Scope nat_scope.
Local Arguments keqb {K Key} : simpl never.
Lemma cut_first key a es i : cut_index key a true es = Some i <-> first_pos key a es i.
Proof.
  unfold cut_index, first_pos. cbv zeta.
  assert (G : forall n, hd_error (filter (fun i => match nth_error es (i - n) with Some e => has key a e | None => false end) (seq n (length es))) = Some (n + i) <->
     (exists e, nth_error es i = Some e /\ value key e a) /\ forall j e, j < i -> nth_error es j = Some e -> ~ value key e a).
  { revert i. induction es as [|e es IH]; intros i n; cbn [length seq filter].
    - cbn. split; [discriminate|]. intros ((e & H & _) & _). destruct i; discriminate.
    - rewrite Nat.sub_diag. cbn [nth_error]. 
      assert (E : filter (fun i => match nth_error (e :: es) (i - n) with Some e0 => has key a e0 | None => false end) (seq (S n) (length es)) =
                  filter (fun i => match nth_error es (i - S n) with Some e0 => has key a e0 | None => false end) (seq (S n) (length es))).
      { apply filter_ext_in. intros k Hk. apply in_seq in Hk. replace (k - n) with (S (k - S n)) by lia. reflexivity. }
      rewrite E. destruct (has key a e) eqn:H.
      + cbn [hd_error]. apply has_iff in H. split.
        * intros HH. assert (i = 0) by (injection HH; lia). clear HH. subst i. split; [exists e; auto|]. intros; lia.
        * intros (_ & N). destruct i as [|i]; [f_equal; lia|]. exfalso. apply (N 0 e); auto; lia.
      + assert (H' : ~ value key e a) by (rewrite <- has_iff; congruence). destruct i as [|i].
        * split.
          -- intros HH. exfalso. match type of HH with hd_error ?t = _ => destruct t as [|x r] eqn:F end; [discriminate|]. cbn in HH. assert (x = n + 0) by congruence. subst x.
             assert (I : In (n + 0) (n + 0 :: r)) by (cbn; auto). rewrite <- F in I. apply filter_In in I. destruct I as (I & _). apply in_seq in I. lia.
          -- intros ((e' & E' & V) & _). cbn in E'. injection E' as <-. contradiction.
        * replace (n + S i) with (S n + i) by lia. rewrite IH. split.
          -- intros (A & B). split; [exact A|]. intros [|j] e' L E'; cbn in E'; [injection E' as <-; auto|]. apply (B j); auto; lia.
          -- intros (A & B). split; [exact A|]. intros j e' L E'. apply (B (S j)); auto; lia. }
  unfold occurrences. rewrite <- (G 0). cbn [Nat.add].
  assert (E : forall k, filter (fun i => match nth_error es i with Some e => has key a e | None => false end) k = filter (fun i => match nth_error es (i - 0) with Some e => has key a e | None => false end) k).
  { intros k. apply filter_ext. intros j. rewrite Nat.sub_0_r. reflexivity. }
  rewrite E. tauto.
Qed.
Lemma filter_sorted_last (f : nat -> bool) n s x : hd_error (rev (filter f (seq s n))) = Some x <->
  (s <= x < s + n /\ f x = true /\ forall y, x < y < s + n -> f y = false).
Proof.
  revert x. induction n as [|n IH]; intros x.
  - cbn. split; [discriminate|lia].
  - rewrite seq_S, filter_app, rev_app_distr. cbn [filter]. destruct (f (s + n)) eqn:E.
    + cbn. split.
      * intros [= <-]. repeat split; auto; lia.
      * intros (A & B & C). f_equal. destruct (Nat.eq_dec x (s + n)); auto. rewrite C in E by lia. discriminate.
    + cbn [rev app]. rewrite IH. split; intros (A & B & C); repeat split; auto; try lia.
      * intros y Hy. destruct (Nat.eq_dec y (s + n)); [subst; auto|apply C; lia].
      * destruct (Nat.eq_dec x (s + n)); [subst; congruence|lia].
      * intros; apply C; lia.
Qed.
Lemma cut_last key a es i : cut_index key a false es = Some i <-> last_pos key a es i.
Proof.
  unfold cut_index, last_pos, occurrences. cbv zeta. rewrite filter_sorted_last. cbn [Nat.add]. split.
  - intros (A & B & C). split.
    + destruct (nth_error es i) as [e|] eqn:E; [|discriminate]. exists e. split; auto. apply has_iff; auto.
    + intros j e L E V. assert (j < length es) by (apply nth_error_Some; congruence). specialize (C j ltac:(lia)). rewrite E in C. apply has_iff in V. congruence.
  - intros ((e & E & V) & C). assert (i < length es) by (apply nth_error_Some; congruence). repeat split; try lia.
    + rewrite E. apply has_iff; auto.
    + intros y Hy. destruct (nth_error es y) as [e'|] eqn:E'; auto. destruct (has key a e') eqn:Hh; auto. apply has_iff in Hh. exfalso. apply (C y e'); auto; lia.
Qed.
Lemma cut_ok first key a es i : cut_index key a first es = Some i <-> cut_pos first key a es i.
Proof. destruct first; [apply cut_first|apply cut_last]. Qed.
Lemma cut_none first key a es : cut_index key a first es = None <-> ~ exists e, In e es /\ value key e a.
Proof.
  unfold cut_index. cbv zeta. assert (O : occurrences key es a = [] <-> ~ exists e, In e es /\ value key e a).
  { split.
    - intros E (e & He & V). apply In_nth_error in He. destruct He as (i & Hi). assert (I : In i (occurrences key es a)) by (apply occ_in; eauto). rewrite E in I. destruct I.
    - intros H. destruct (occurrences key es a) as [|i r] eqn:E; auto. exfalso. assert (I : In i (occurrences key es a)) by (rewrite E; cbn; auto).
      apply occ_in in I. destruct I as (e & N & V). apply H. exists e. split; auto. eapply nth_error_In; eauto. }
  rewrite <- O. destruct first.
  - destruct (occurrences key es a); cbn; split; congruence.
  - destruct (occurrences key es a) as [|x r] eqn:E; cbn [rev]; [tauto|]. destruct (rev r ++ [x]) as [|y k] eqn:E'; [destruct (rev r); discriminate|]. cbn. split; discriminate.
Qed.
Lemma flat_cut first key a (g : nat -> list event -> list event) l :
  exists ds, Selected (contains key a) l ds /\
  Forall2 (fun c c' => c_attrs c' = c_attrs c /\ exists i, cut_pos first key a (c_events c) i /\ c_events c' = g i (c_events c)) ds
   (flat_map (fun c => match cut_index key a first (c_events c) with Some i => [Case (c_attrs c) (g i (c_events c))] | None => [] end) l).
Proof.
  induction l as [|c l (ds & S & F)]; cbn; [exists []; split; constructor|].
  destruct (cut_index key a first (c_events c)) as [i|] eqn:E.
  - exists (c :: ds). split.
    + constructor; auto. unfold contains. assert (N : cut_index key a first (c_events c) <> None) by congruence.
      destruct (existsb (has key a) (c_events c)) eqn:X.
      * apply existsb_exists in X. destruct X as (e & He & V). apply has_iff in V. eauto.
      * exfalso. apply N. apply cut_none. intros (e & He & V). assert (existsb (has key a) (c_events c) = true) by (apply existsb_exists; exists e; rewrite has_iff; auto). congruence.
    + constructor; auto. cbn. split; auto. exists i. split; auto. apply cut_ok; auto.
  - exists ds. split; auto. constructor; auto. apply (cut_none first) in E. exact E.
Qed.
Lemma cut_lt first key a es i : cut_pos first key a es i -> i < length es.
Proof. destruct first; intros ((e & E & _) & _); apply nth_error_Some; congruence. Qed.
Lemma Forall2_weaken {A B} (P Q : A -> B -> Prop) l k : (forall x y, P x y -> Q x y) -> Forall2 P l k -> Forall2 Q l k.
Proof. intros H. induction 1; constructor; auto. Qed.
Lemma prefixes_ok key a (first strict : bool) l : exists ds, Selected (contains key a) l ds /\
  Forall2 (fun c c' => c_attrs c' = c_attrs c /\ exists i post, cut_pos first key a (c_events c) i /\ c_events c = c_events c' ++ post /\
     length (c_events c') = if strict then i else i + 1) ds (prefixes key a first strict l).
Proof.
  destruct (flat_cut first key a (fun i es => firstn (if strict then i else i + 1) es) l) as (ds & S & F). exists ds. split; auto.
  eapply Forall2_weaken; [|exact F]. cbv beta. intros c c' (A & i & P & E). split; auto. exists i, (skipn (if strict then i else i + 1) (c_events c)). split; auto.
  rewrite E. split; [symmetry; apply firstn_skipn|]. rewrite firstn_length. apply cut_lt in P. destruct strict; lia.
Qed.
Lemma suffixes_ok key a (first strict : bool) l : exists ds, Selected (contains key a) l ds /\
  Forall2 (fun c c' => c_attrs c' = c_attrs c /\ exists i pre, cut_pos first key a (c_events c) i /\ c_events c = pre ++ c_events c' /\
     length pre = if strict then i + 1 else i) ds (suffixes key a first strict l).
Proof.
  destruct (flat_cut first key a (fun i es => skipn (if strict then i + 1 else i) es) l) as (ds & S & F). exists ds. split; auto.
  eapply Forall2_weaken; [|exact F]. cbv beta. intros c c' (A & i & P & E). split; auto. exists i, (firstn (if strict then i + 1 else i) (c_events c)). split; auto.
  rewrite E. split; [symmetry; apply firstn_skipn|]. rewrite firstn_length. apply cut_lt in P. destruct strict; lia.
Qed.
Lemma prefix_suffix key a (first strict : bool) l : Selected (contains key a) l
  (map (fun ps => Case (c_attrs (fst ps)) (c_events (fst ps) ++ c_events (snd ps))) (combine (prefixes key a first strict l) (suffixes key a first (negb strict) l))) /\
  length (prefixes key a first strict l) = length (suffixes key a first (negb strict) l).
Proof.
  unfold prefixes, suffixes. induction l as [|c l (S & L)]; cbn; [split; constructor|].
  destruct (cut_index key a first (c_events c)) as [i|] eqn:E; cbn.
  - split; [|f_equal; exact L]. replace (if negb strict then i + 1 else i) with (if strict then i else i + 1) by (destruct strict; auto). rewrite firstn_skipn.
    destruct c as [at_ es]; cbn in *. constructor; auto. unfold contains. cbn. destruct (existsb (has key a) es) eqn:X.
    + apply existsb_exists in X. destruct X as (e & He & V). apply has_iff in V. eauto.
    + exfalso. assert (N : cut_index key a first es <> None) by congruence. apply N. apply cut_none. intros (e & He & V).
      assert (existsb (has key a) es = true) by (apply existsb_exists; exists e; rewrite has_iff; auto). congruence.
  - split; auto. constructor; auto. apply (cut_none first) in E. exact E.
Qed.
(** ---- between *)
Section Between.
Variables (key : nat) (act1 act2 : list Z).
Notation seg := (segments key act1 act2).
Lemma seg_gap e es out : ~ one_of key act1 e -> seg es out -> seg (e :: es) out.
Proof.
  intros H S. inversion S as [k F|gap e1 rest F1 H1 F2|gap e1 mid e2 rest out' F1 H1 F2 H2 S']; subst.
  - apply seg_none. constructor; auto.
  - apply (seg_open _ _ _ (e :: gap)); auto.
  - apply (seg_hit _ _ _ (e :: gap)); auto.
Qed.
Lemma one_of_dec acts e a : d_get e key = Some a -> (vmem a acts = true <-> one_of key acts e).
Proof.
  intros E. rewrite vmem_in. unfold one_of, value. split; [eauto|]. intros (b & E' & H). congruence.
Qed.
Lemma keqb_eq_dec (T : Type) (x y : T) : (if keqb act1 act2 then x else y) = (if list_eq_dec Z.eq_dec act1 act2 then x else y).
Proof. destruct (keqb_spec act1 act2), (list_eq_dec Z.eq_dec act1 act2); congruence. Qed.
Lemma loop_ok es : (forall out, between_loop (fun a => vmem a act1) (fun a => vmem a act2) (keqb act1 act2) key es None = Some out -> seg es out) /\
  (forall e0 mid out, one_of key act1 e0 -> Forall (fun e => ~ one_of key act2 e) mid ->
     between_loop (fun a => vmem a act1) (fun a => vmem a act2) (keqb act1 act2) key es (Some (e0 :: mid)) = Some out -> seg (e0 :: mid ++ es) out).
Proof.
  induction es as [|e es (IH1 & IH2)]; split.
  - intros out [= <-]. apply seg_none. constructor.
  - intros e0 mid out H F [= <-]. rewrite app_nil_r. apply (seg_open _ _ _ []); auto.
  - intros out H. cbn [between_loop] in H. apply bind_some in H. destruct H as (a & Ea & H). destruct (vmem a act1) eqn:V.
    + apply (one_of_dec act1 e a Ea) in V. apply (IH2 e [] out); auto.
    + apply seg_gap; auto. rewrite <- (one_of_dec act1 e a Ea). congruence.
  - intros e0 mid out Ho F H. cbn [between_loop] in H. apply bind_some in H. destruct H as (a & Ea & H). destruct (vmem a act2) eqn:V.
    + apply (one_of_dec act2 e a Ea) in V. apply bind_some in H. destruct H as (out' & H & [= <-]).
      apply (seg_hit _ _ _ [] e0 mid e es out'); auto. rewrite keqb_eq_dec in H. destruct (list_eq_dec Z.eq_dec act1 act2) as [Eq|Ne].
      * apply (IH2 e [] out'); auto. rewrite Eq. exact V.
      * apply IH1; auto.
    + assert (V' : ~ one_of key act2 e) by (rewrite <- (one_of_dec act2 e a Ea); congruence).
      cbn [app] in H. replace (mid ++ e :: es) with ((mid ++ [e]) ++ es) by (rewrite <- app_assoc; reflexivity). apply IH2; auto. apply Forall_app. auto.
Qed.
Lemma between_ok l out : between key act1 act2 l = Some out -> Forall2 (fun c segs => seg (c_events c) segs) l out.
Proof.
  unfold between. revert out. induction l as [|c l IH]; cbn; intros out H; [injection H as <-; constructor|].
  destruct (between_loop _ _ _ _ _ _) as [o|] eqn:E; [|discriminate].
  match type of H with match ?x with _ => _ end = _ => destruct x as [os|] eqn:E' end; [|discriminate]. injection H as <-. constructor; auto. apply loop_ok. exact E.
Qed.
Lemma loop_total es op : (forall e, In e es -> exists v, value key e v) -> exists out, between_loop (fun a => vmem a act1) (fun a => vmem a act2) (keqb act1 act2) key es op = Some out.
Proof.
  revert op. induction es as [|e es IH]; intros op H; cbn; [eauto|]. destruct (H e (or_introl eq_refl)) as (v & V). unfold value in V. rewrite V. cbn [bind].
  assert (H' : forall e, In e es -> exists v, value key e v) by (intros; apply H; cbn; auto).
  destruct op as [t|]; [destruct (vmem v act2)|destruct (vmem v act1)]; auto. destruct (IH (if keqb act1 act2 then Some [e] else None) H') as (o & ->). cbn. eauto.
Qed.
Lemma between_total l : everywhere key l -> exists out, between key act1 act2 l = Some out.
Proof. intros H. apply map_opt_total. intros c Hc. apply loop_total. intros e He. eapply H; eauto. Qed.
End Between.
(** the reading is unambiguous *)
Lemma app_first_eq {X} (P : X -> Prop) a b (x y : X) u v : Forall (fun e => ~ P e) a -> P x -> Forall (fun e => ~ P e) b -> P y -> a ++ x :: u = b ++ y :: v -> a = b /\ x = y /\ u = v.
Proof.
  revert b. induction a as [|e a IH]; intros [|f b] Fa Px Fb Py E; cbn in E; injection E; intros; subst; auto.
  - inversion Fb; subst; contradiction.
  - inversion Fa; subst; contradiction.
  - inversion Fa; inversion Fb; subst. destruct (IH b) as (-> & -> & ->); auto.
Qed.
Lemma app_first_none {X} (P : X -> Prop) a b (x : X) u : Forall (fun e => ~ P e) b -> P x -> b = a ++ x :: u -> False.
Proof. intros F Px ->. rewrite Forall_forall in F. apply (F x); auto. apply in_app_iff. cbn; auto. Qed.
Lemma segments_unique key act1 act2 es o1 o2 : segments key act1 act2 es o1 -> segments key act1 act2 es o2 -> o1 = o2.
Proof.
  intros H. revert o2. induction H as [k F|gap e1 rest F1 H1 F2|gap e1 mid e2 rest out F1 H1 F2 H2 S IH]; intros o2 H';
    inversion H' as [k' F'|gap' e1' rest' F1' H1' F2' Eg|gap' e1' mid' e2' rest' out' F1' H1' F2' H2' S' Eg]; subst; auto.
  - exfalso. eapply (app_first_none (one_of key act1)); [exact F|exact H1'|reflexivity].
  - exfalso. apply (app_first_eq (one_of key act1)) in Eg; auto. destruct Eg as (-> & -> & E). eapply (app_first_none (one_of key act2)); [exact F2|exact H2'|symmetry; exact E].
  - exfalso. eapply (app_first_none (one_of key act1)); [exact F'|exact H1|reflexivity].
  - exfalso. apply (app_first_eq (one_of key act1)) in Eg; auto. destruct Eg as (-> & -> & E). eapply (app_first_none (one_of key act2)); [exact F2'|exact H2|exact E].
  - apply (app_first_eq (one_of key act1)) in Eg; auto. destruct Eg as (-> & -> & E). apply (app_first_eq (one_of key act2)) in E; auto. destruct E as (-> & -> & ->).
    f_equal. apply IH. exact S'.
Qed.
