From Coq Require Import List Arith Bool ZArith QArith Lia Permutation.
Import ListNotations.
From Verif Require Import Model_Dict Proofs_Dict Model_Tree Model_Filter Spec_Filter.
From Verif Require Spec_Dfg Proofs_Dfg.
Local Open Scope nat_scope.
Local Arguments keqb {K Key} : simpl never.
Local Arguments Nat.ltb : simpl never.
Local Arguments Nat.leb : simpl never.
Local Arguments Nat.eqb : simpl never.

(** ---- Selected *)
Lemma selected_in {X} (P : X -> Prop) l r x : Selected P l r -> In x r <-> In x l /\ P x.
Proof.
  induction 1; cbn; [tauto| |].
  - rewrite IHSelected. split; [intros [->|[]]; auto|intros [[->|]]; auto].
  - rewrite IHSelected. split; [intros []; auto|intros [[->|]]; tauto].
Qed.
Lemma selected_ext {X} (P Q : X -> Prop) l r : (forall x, In x l -> P x <-> Q x) -> Selected P l r -> Selected Q l r.
Proof.
  intros E H. induction H; constructor; try (apply E; cbn; auto; fail); try (apply IHSelected; intros; apply E; cbn; auto).
  rewrite <- E; cbn; auto.
Qed.
Lemma selected_unique {X} (P : X -> Prop) l r r' : Selected P l r -> Selected P l r' -> r = r'.
Proof. intros H. revert r'. induction H; intros r' H'; inversion H'; subst; try tauto; f_equal; auto. Qed.
Lemma selected_splits {X} (P Q : X -> Prop) l p n : (forall x, In x l -> Q x <-> ~ P x) -> Selected P l p -> Selected Q l n -> Splits l p n.
Proof.
  intros E H. revert n. induction H as [|x l r Px H IH|x l r Px H IH]; intros n H'; inversion H' as [|y k q Q1 Q2|y k q Q1 Q2]; subst.
  - constructor.
  - exfalso. apply E in Q1; cbn; auto.
  - constructor. apply IH; auto. intros; apply E; cbn; auto.
  - constructor. apply IH; auto. intros; apply E; cbn; auto.
  - exfalso. apply Q1, E; cbn; auto.
Qed.
Lemma splits_perm {X} (l p n : list X) : Splits l p n -> Permutation l (p ++ n).
Proof. induction 1; cbn; auto. apply Permutation_cons_app; auto. Qed.
Lemma selected_filter {X} (P : X -> Prop) (p : X -> bool) l : (forall x, In x l -> p x = true <-> P x) -> Selected P l (filter p l).
Proof.
  induction l as [|x l IH]; intros E; cbn; [constructor|].
  destruct (p x) eqn:Px; constructor; try (apply IH; intros; apply E; cbn; auto).
  - apply E; cbn; auto.
  - rewrite <- E; cbn; auto. congruence.
Qed.
(** ---- choose *)
Lemma choose_selected p (P : case -> Prop) l r :
  (forall c b, In c l -> p c = Some b -> (b = true <-> P c)) -> choose p l = Some r -> Selected P l r.
Proof.
  revert r. induction l as [|c l IH]; intros r E H; cbn in H.
  - injection H as <-. constructor.
  - destruct (p c) as [b|] eqn:Pc; [|discriminate]. destruct (choose p l) as [r'|] eqn:C; [|discriminate].
    injection H as <-. assert (Ec := E c b (or_introl eq_refl) Pc).
    destruct b; constructor; try (apply IH; auto; intros; eapply E; cbn; eauto).
    + apply Ec; auto.
    + intros Hp. apply Ec in Hp. discriminate.
Qed.
Lemma choose_total p l : (forall c, In c l -> exists b, p c = Some b) -> exists r, choose p l = Some r.
Proof.
  induction l as [|c l IH]; intros E; cbn; [eauto|].
  destruct (E c (or_introl eq_refl)) as [b ->]. destruct IH as [r ->]; [intros; apply E; cbn; auto|eauto].
Qed.
Lemma vmem_in {K} {EK : Key K} (v : K) l : vmem v l = true <-> In v l.
Proof.
  unfold vmem. rewrite existsb_exists. split.
  - intros (x & Hx & E). destruct (keqb_spec v x); [subst; auto|discriminate].
  - intros H. exists v. split; auto. destruct (keqb_spec v v); auto.
Qed.
Lemma eqb_polar b positive (P : Prop) : (b = true <-> P) -> (Bool.eqb b positive = true <-> polar positive P).
Proof. intros E. unfold polar. destruct b, positive; cbn; intuition congruence. Qed.
Lemma found_polar b positive (P : Prop) : (b = true <-> P) -> (b && positive || negb b && negb positive = true <-> polar positive P).
Proof. intros E. unfold polar. destruct b, positive; cbn; intuition congruence. Qed.
Lemma any_opt_spec {X} (f : X -> option bool) l b : any_opt f l = Some b ->
  (b = true <-> exists x, In x l /\ f x = Some true).
Proof.
  induction l as [|x l IH]; cbn; intros H.
  - injection H as <-. split; [discriminate|]. intros (x & [] & _).
  - destruct (f x) as [[|]|] eqn:F; [|rewrite (IH H)|discriminate].
    + injection H as <-. split; auto. intros _. exists x. auto.
    + split; [intros (y & Hy & E); eauto|]. intros (y & [<-|Hy] & E); [congruence|eauto].
Qed.
Lemma any_opt_total {X} (f : X -> option bool) l : (forall x, In x l -> exists b, f x = Some b) -> exists b, any_opt f l = Some b.
Proof.
  induction l as [|x l IH]; cbn; intros H; [eauto|].
  destruct (H x (or_introl eq_refl)) as [[|] ->]; eauto.
Qed.
Lemma bind_some {X Y} (o : option X) (f : X -> option Y) y : bind o f = Some y <-> exists x, o = Some x /\ f x = Some y.
Proof. destruct o; cbn; [|split; [discriminate|intros (x & E & _); discriminate]]. split; [eauto|]. intros (z & [= ->] & E). exact E. Qed.
Lemma last_event_snoc es e : last_event (es ++ [e]) = Some e.
Proof.
  unfold last_event. rewrite app_length. cbn. replace (length es + 1 - 1) with (length es) by lia.
  rewrite nth_error_app2, Nat.sub_diag by lia. reflexivity.
Qed.
Lemma snoc_case {X} (l : list X) : l = [] \/ exists r x, l = r ++ [x].
Proof. destruct l using rev_ind; eauto. Qed.
Lemma last_event_iff c e : last_event (c_events c) = Some e <-> last_is c e.
Proof.
  unfold last_is. destruct (snoc_case (c_events c)) as [E|(r & x & E)]; rewrite E.
  - cbn. split; [discriminate|]. intros (es & H). destruct es; discriminate.
  - rewrite last_event_snoc. split; [intros [= <-]; eauto|]. intros (es & H). apply app_inj_tail in H. destruct H; congruence.
Qed.
Lemma first_event_iff c e : nth_error (c_events c) 0 = Some e <-> first_is c e.
Proof. unfold first_is. destruct (c_events c); cbn; split; try discriminate; [intros (? & ?); discriminate|intros [= ->]; eauto|intros (? & [= -> ->]); auto]. Qed.
Lemma has_iff key v e : has key v e = true <-> value key e v.
Proof. unfold has, value. destruct (d_get e key) as [w|]; [|split; discriminate]. destruct (Z.eqb_spec w v); split; congruence. Qed.

Section OneFilter.
Variables (key : nat) (l : flog).

Lemma start_ok positive admitted r : start_activities positive key admitted l = Some r ->
  Selected (fun c => exists e v, first_is c e /\ value key e v /\ polar positive (In v admitted)) l r.
Proof.
  apply choose_selected. intros c b _. unfold first_is. destruct (c_events c) as [|e es].
  - intros [= <-]. split; [discriminate|]. intros (? & ? & (? & ?) & _). discriminate.
  - rewrite bind_some. intros (v & Hv & [= <-]). rewrite eqb_polar by apply vmem_in. split.
    + intros H. exists e, v. repeat split; eauto.
    + intros (e' & v' & (es' & Heq) & Hv' & Hp). injection Heq as <- <-. unfold value in Hv'. congruence.
Qed.
Lemma start_total positive admitted : everywhere key l -> exists r, start_activities positive key admitted l = Some r.
Proof.
  intros H. apply choose_total. intros c Hc. destruct (c_events c) as [|e es] eqn:E; [eauto|].
  destruct (H c e Hc) as (v & ->); [rewrite E; cbn; auto|]. cbn. eauto.
Qed.
Lemma end_ok positive admitted r : end_activities positive key admitted l = Some r ->
  Selected (fun c => exists e v, last_is c e /\ value key e v /\ polar positive (In v admitted)) l r.
Proof.
  apply choose_selected. intros c b _. pose proof (last_event_iff c) as LI. destruct (c_events c) as [|e0 es] eqn:Ec.
  - intros [= <-]. split; [discriminate|]. intros (e & ? & H & _). apply LI in H. discriminate.
  - rewrite bind_some. intros (e & He & H). rewrite bind_some in H. destruct H as (v & Hv & [= <-]).
    rewrite eqb_polar by apply vmem_in. split.
    + intros H. exists e, v. repeat split; auto. apply LI; auto.
    + intros (e' & v' & H & Hv' & P). apply LI in H. unfold value in Hv'. congruence.
Qed.
Lemma last_in es e : last_event es = Some e -> In e es.
Proof. apply nth_error_In. Qed.
Lemma last_ex e es : exists e', last_event (e :: es) = Some e'.
Proof. destruct (last_event (e :: es)) eqn:E; eauto. apply nth_error_None in E. cbn in E. lia. Qed.
Lemma end_total positive admitted : everywhere key l -> exists r, end_activities positive key admitted l = Some r.
Proof.
  intros H. apply choose_total. intros c Hc. destruct (c_events c) as [|e es] eqn:E; [eauto|].
  destruct (last_ex e es) as (e' & E'). rewrite E'. cbn [bind].
  destruct (H c e' Hc) as (v & ->); [rewrite E; apply last_in; auto|]. cbn. eauto.
Qed.
(** occurrences *)
Lemma occ_in es v i : In i (occurrences key es v) <-> exists e, nth_error es i = Some e /\ value key e v.
Proof.
  unfold occurrences. rewrite filter_In, in_seq. split.
  - intros (_ & H). destruct (nth_error es i) as [e|]; [|discriminate]. exists e. split; auto. apply has_iff; auto.
  - intros (e & E & H). split; [assert (i < length es) by (apply nth_error_Some; congruence); lia|]. rewrite E. apply has_iff; auto.
Qed.
Lemma product_in {X} (ls : list (list X)) (x : list X) : In x (product ls) <-> Forall2 (fun a l => In a l) x ls.
Proof.
  revert x. induction ls as [|l0 ls IH]; intros x; cbn.
  - split; [intros [<-|[]]; constructor|]. inversion 1; auto.
  - rewrite in_flat_map. split.
    + intros (a & Ha & H). apply in_map_iff in H. destruct H as (y & <- & Hy). constructor; auto. apply IH; auto.
    + intros H. inversion H as [|a l' y ls' Ha Hy]; subst. exists a. split; auto. apply in_map. apply IH; auto.
Qed.
Lemma increasing_cons x c : increasing (x :: c) = true <-> (match c with [] => True | y :: _ => x < y end) /\ increasing c = true.
Proof.
  destruct c as [|y c]; cbn [increasing]; [tauto|]. destruct (Nat.leb_spec y x); [split; [discriminate|intros []; lia]|tauto].
Qed.
Lemma increasing_map_S c : increasing (map S c) = increasing c.
Proof. induction c as [|x c IH]; auto. destruct c as [|y c]; auto. cbn [map increasing] in *. rewrite IH. reflexivity. Qed.
Lemma incr_all_pos c x : increasing (x :: c) = true -> Forall (fun y => x < y) c.
Proof.
  revert x. induction c as [|y c IH]; intros x H; constructor; apply increasing_cons in H; destruct H as (H1 & H2); auto.
  apply IH in H2. eapply Forall_impl; [|exact H2]. cbn. intros. lia.
Qed.
Lemma eventually_positions vs es :
  Eventually key vs es <-> exists c, Forall2 (fun i v => exists e, nth_error es i = Some e /\ value key e v) c vs /\ increasing c = true.
Proof.
  split.
  - induction 1 as [es|v vs e es Hv H (c & F & I)|vs e es H (c & F & I)].
    + exists []. split; [constructor|reflexivity].
    + exists (0 :: map S c). split.
      * constructor; [exists e; auto|]. clear -F. induction F; cbn; constructor; auto.
      * apply increasing_cons. rewrite increasing_map_S. split; auto. destruct c; cbn; auto. lia.
    + exists (map S c). split; [|rewrite increasing_map_S; auto]. clear -F. induction F; cbn; constructor; auto.
  - revert vs. induction es as [|e es IH]; intros vs (c & F & I).
    + destruct F as [|i v c vs (e & E & _) F]; [constructor|destruct i; discriminate].
    + destruct F as [|i v c vs (e' & E & Hv) F]; [constructor|].
      assert (P := incr_all_pos _ _ I). apply increasing_cons in I as [I0 I].
      assert (exists c', c = map S c') as (c' & ->).
      { clear -P. induction c as [|x c IH]; [exists []; auto|]. inversion P; subst. destruct IH as (c' & ->); auto.
        exists (x - 1 :: c'). cbn. f_equal. lia. }
      assert (F' : Forall2 (fun i v => exists e, nth_error es i = Some e /\ value key e v) c' vs).
      { clear -F. remember (map S c') as c. revert c' Heqc. induction F; intros [|a c'] E; try discriminate; constructor.
        - injection E as -> ->. auto.
        - injection E as -> ->. auto. }
      rewrite increasing_map_S in I. destruct i as [|i].
      * cbn in E. injection E as ->. constructor; auto. apply IH. eauto.
      * apply ev_skip, IH. exists (i :: c'). split; [constructor; eauto|]. apply increasing_cons. split; auto.
        destruct c'; auto. cbn in I0. lia.
Qed.
Lemma follows_ok positive ts vs r : eventually_follows positive key ts vs None l = Some r ->
  Selected (fun c => polar positive (Eventually key vs (c_events c))) l r.
Proof.
  apply choose_selected. intros c b _. rewrite bind_some. intros (g & G & [= <-]). apply eqb_polar.
  apply any_opt_spec in G. rewrite G. rewrite eventually_positions. unfold combination. split.
  - intros (x & Hx & E). destruct (increasing x) eqn:I; [|discriminate]. exists x. split; auto.
    apply product_in in Hx. clear -Hx. remember (map _ vs) as m eqn:Em. revert vs Em.
    induction Hx; intros [|v vs] E; try discriminate; constructor; injection E as -> ->; auto. apply occ_in; auto.
  - intros (x & F & I). exists x. rewrite I. split; auto. apply product_in. clear -F. induction F; cbn; constructor; auto.
    apply occ_in; auto.
Qed.
Lemma follows_total positive ts vs : exists r, eventually_follows positive key ts vs None l = Some r.
Proof.
  apply choose_total. intros c _. destruct (any_opt_total (combination ts None (c_events c)) (product (map (occurrences key (c_events c)) vs))) as (b & ->); [|cbn; eauto].
  intros x _. unfold combination. destruct (increasing x); eauto.
Qed.
Lemma adjacent3_nth es e1 e2 e3 : adjacent3 es e1 e2 e3 <-> exists i, nth_error es i = Some e1 /\ nth_error es (i + 1) = Some e2 /\ nth_error es (i + 1 + 1) = Some e3.
Proof.
  unfold adjacent3. split.
  - intros (p & s & ->). exists (length p). rewrite !nth_error_app2 by lia.
    replace (length p - length p) with 0 by lia. replace (length p + 1 - length p) with 1 by lia.
    replace (length p + 1 + 1 - length p) with 2 by lia. auto.
  - intros (i & A & B & C). apply nth_error_split in A. destruct A as (p & s & -> & <-).
    rewrite nth_error_app2 in B by lia. rewrite nth_error_app2 in C by lia.
    replace (length p + 1 - length p) with 1 in B by lia. replace (length p + 1 + 1 - length p) with 2 in C by lia.
    cbn in B, C. destruct s as [|x [|y s]]; cbn in *; try discriminate. injection B as ->. injection C as ->. eauto.
Qed.
Lemma adjacent_steps es e1 e2 : adjacent es e1 e2 <-> In (e1, e2) (steps es).
Proof.
  unfold adjacent, steps. induction es as [|e es IH]; [split; [intros ([|] & s & H); discriminate|intros []]|].
  destruct es as [|e' es]; [split; [intros ([|? [|]] & s & H); discriminate|intros []]|]. cbn [tl combine In] in *. rewrite <- IH. split.
  - intros (p & s & H). destruct p as [|x p]; cbn in H; [injection H; intros; subst; auto|]. injection H as -> H. right. eauto.
  - intros [[= -> ->]|(p & s & ->)]; [exists [], es; auto|exists (e :: p), s; auto].
Qed.
Lemma abc_ok positive A B C r : A_next_B_next_C positive key A B C l = Some r ->
  Selected (fun c => polar positive (exists e1 e2 e3, adjacent3 (c_events c) e1 e2 e3 /\ value key e1 A /\ value key e2 B /\ value key e3 C)) l r.
Proof.
  apply choose_selected. intros c b _ [= <-]. apply eqb_polar. rewrite existsb_exists. split.
  - intros (i & Hi & H). apply existsb_exists in H. destruct H as (j & Hj & H). apply existsb_exists in H. destruct H as (k & Hk & H).
    apply andb_true_iff in H. destruct H as (H1 & H2). apply Nat.eqb_eq in H1, H2. subst.
    apply occ_in in Hi, Hj, Hk. destruct Hi as (e1 & ? & ?), Hj as (e2 & ? & ?), Hk as (e3 & ? & ?).
    exists e1, e2, e3. repeat split; auto. apply adjacent3_nth. eauto.
  - intros (e1 & e2 & e3 & H & V1 & V2 & V3). apply adjacent3_nth in H. destruct H as (i & N1 & N2 & N3).
    exists i. split; [apply occ_in; eauto|]. apply existsb_exists. exists (i + 1). split; [apply occ_in; eauto|].
    apply existsb_exists. exists (i + 1 + 1). split; [apply occ_in; eauto|]. rewrite !Nat.eqb_refl. reflexivity.
Qed.
Lemma abc_total positive A B C : exists r, A_next_B_next_C positive key A B C l = Some r.
Proof. apply choose_total. eauto. Qed.
Variable res : nat.
Lemma resources_in c v x : In x (resources key res v (c_events c)) <-> performs key res c v x.
Proof.
  unfold resources, performs. rewrite dedup_in, in_flat_map. split.
  - intros (e & He & H). exists e. destruct (has key v e) eqn:E; [|destruct H]. apply has_iff in E. unfold value in *.
    destruct (d_get e res); [|destruct H]. destruct H as [->|[]]. auto.
  - intros (e & He & Hv & Hr). exists e. split; auto. apply has_iff in Hv. rewrite Hv. unfold value in Hr. rewrite Hr. cbn; auto.
Qed.
Lemma resources_nodup v es : NoDup (resources key res v es).
Proof. apply dedup_nodup. Qed.
Lemma nonempty_iff {X} (k : list X) : (0 <? length k) = true <-> exists x, In x k.
Proof. rewrite Nat.ltb_lt. destruct k; cbn; split; try lia; [intros (? & []); auto|eauto]. Qed.
Lemma four_eyes_ok positive A B r : four_eyes positive key res A B l = Some r ->
  Selected (fun c => (exists x, performs key res c A x) /\ (exists x, performs key res c B x) /\
     polar positive (forall x, performs key res c A x -> performs key res c B x -> False)) l r.
Proof.
  apply choose_selected. intros c b _ [= <-]. rewrite !andb_true_iff, !nonempty_iff.
  setoid_rewrite resources_in.
  assert (E : (0 <? length (filter (fun x => vmem x (resources key res B (c_events c))) (resources key res A (c_events c)))) = true
     <-> exists x, performs key res c A x /\ performs key res c B x).
  { rewrite nonempty_iff. split; intros (x & H).
    - apply filter_In in H. rewrite vmem_in, !resources_in in H. eauto.
    - exists x. apply filter_In. rewrite vmem_in, !resources_in. auto. }
  assert (E0 : (length (filter (fun x => vmem x (resources key res B (c_events c))) (resources key res A (c_events c))) =? 0) = true
     <-> forall x, performs key res c A x -> performs key res c B x -> False).
  { split.
    - intros H x HA HB. apply Nat.eqb_eq in H. assert (X : exists x, performs key res c A x /\ performs key res c B x) by eauto.
      apply E in X. apply Nat.ltb_lt in X. lia.
    - intros H. apply Nat.eqb_eq. destruct (length _) eqn:L; auto. exfalso. destruct (proj1 E eq_refl) as (x & ? & ?). eauto. }
  destruct positive; cbn [polar]; [rewrite E0; tauto|]. rewrite <- E0.
  assert (N : forall n, (0 <? n) = true <-> (n =? 0) <> true) by (intros n; rewrite Nat.ltb_lt, Nat.eqb_eq; lia).
  rewrite N. tauto.
Qed.
Lemma four_eyes_total positive A B : exists r, four_eyes positive key res A B l = Some r.
Proof. apply choose_total. eauto. Qed.
Lemma two_distinct {X} (k : list X) : NoDup k -> (1 <? length k) = true <-> exists x y, In x k /\ In y k /\ x <> y.
Proof.
  intros N. rewrite Nat.ltb_lt. split.
  - destruct k as [|x [|y k]]; cbn; try lia. intros _. exists x, y. repeat split; auto. intros ->. inversion N; subst. cbn in *; tauto.
  - intros (x & y & Hx & Hy & D). destruct k as [|a [|b k]]; cbn in *; try lia; intuition congruence.
Qed.
Lemma persons_ok positive A r : different_persons positive key res A l = Some r ->
  Selected (fun c => polar positive (exists x y, x <> y /\ performs key res c A x /\ performs key res c A y)) l r.
Proof.
  apply choose_selected. intros c b _ [= <-]. apply eqb_polar. rewrite two_distinct by apply resources_nodup.
  setoid_rewrite resources_in. split; intros (x & y & H); exists x, y; tauto.
Qed.
Lemma persons_total positive A : exists r, different_persons positive key res A l = Some r.
Proof. apply choose_total. eauto. Qed.
Lemma paths_ok positive wanted r : paths positive key wanted l = Some r ->
  Selected (fun c => polar positive (exists e1 e2 a b, adjacent (c_events c) e1 e2 /\ value key e1 a /\ value key e2 b /\ In (a, b) wanted)) l r.
Proof.
  apply choose_selected. intros c b _. rewrite bind_some. intros (g & G & [= <-]). apply found_polar.
  apply any_opt_spec in G. rewrite G. split.
  - intros ((e1, e2) & Hs & E). apply bind_some in E. destruct E as (a & Ha & E). apply bind_some in E. destruct E as (b & Hb & [= E]).
    exists e1, e2, a, b. repeat split; auto; [apply adjacent_steps; auto|]. apply vmem_in; auto.
  - intros (e1 & e2 & a & b & H & Ha & Hb & W). exists (e1, e2). split; [apply adjacent_steps; auto|]. cbn [fst snd]. unfold value in *.
    rewrite Ha, Hb. cbn. f_equal. apply vmem_in; auto.
Qed.
Lemma steps_in c e1 e2 : In (e1, e2) (steps (c_events c)) -> In e1 (c_events c) /\ In e2 (c_events c).
Proof. intros H. apply adjacent_steps in H. destruct H as (p & s & ->). split; apply in_app_iff; cbn; auto. Qed.
Lemma paths_total positive wanted : everywhere key l -> exists r, paths positive key wanted l = Some r.
Proof.
  intros H. apply choose_total. intros c Hc.
  destruct (any_opt_total (fun s => bind (d_get (fst s) key) (fun a => bind (d_get (snd s) key) (fun b => Some (vmem (a, b) wanted)))) (steps (c_events c))) as (g & ->); [|cbn; eauto].
  intros (e1, e2) Hs. apply steps_in in Hs. destruct Hs as (I1 & I2). cbn [fst snd].
  destruct (H c e1 Hc I1) as (a & ->), (H c e2 Hc I2) as (b & ->). cbn. eauto.
Qed.
Lemma performance_ok positive ts a b lo hi r : path_performance positive key ts (a, b) lo hi l = Some r ->
  Selected (fun c => polar positive (exists e1 e2 t1 t2, adjacent (c_events c) e1 e2 /\ value key e1 a /\ value key e2 b /\
     value ts e1 t1 /\ value ts e2 t2 /\ (lo <= t2 - t1 <= hi)%Z)) l r.
Proof.
  apply choose_selected. intros c b' _. rewrite bind_some. intros (g & G & [= <-]). apply found_polar.
  apply any_opt_spec in G. rewrite G. split.
  - intros ((e1, e2) & Hs & E). cbn [fst snd] in E. apply bind_some in E. destruct E as (a0 & Ha & E). apply bind_some in E. destruct E as (b0 & Hb & E).
    destruct (keqb_spec (a0, b0) (a, b)) as [[= -> ->]|]; [|discriminate].
    apply bind_some in E. destruct E as (t2 & H2 & E). apply bind_some in E. destruct E as (t1 & H1 & [= E]).
    apply andb_true_iff in E. rewrite !Z.leb_le in E.
    exists e1, e2, t1, t2. repeat split; auto; try tauto. apply adjacent_steps; auto.
  - intros (e1 & e2 & t1 & t2 & H & Ha & Hb & H1 & H2 & W). exists (e1, e2). split; [apply adjacent_steps; auto|]. cbn [fst snd]. unfold value in *.
    rewrite Ha, Hb. cbn [bind]. destruct (keqb_spec (a, b) (a, b)); [|congruence]. rewrite H1, H2. cbn [bind]. f_equal.
    apply andb_true_iff. rewrite !Z.leb_le. exact W.
Qed.
Lemma performance_total positive ts a b lo hi : everywhere key l -> everywhere ts l -> exists r, path_performance positive key ts (a, b) lo hi l = Some r.
Proof.
  intros H HT. apply choose_total. intros c Hc. match goal with |- exists b, bind (any_opt ?f ?l) _ = _ => destruct (any_opt_total f l) as (g & ->); [|cbn; eauto] end.
  intros (e1, e2) Hs. apply steps_in in Hs. destruct Hs as (I1 & I2). cbn [fst snd].
  destruct (H c e1 Hc I1) as (x & ->), (H c e2 Hc I2) as (y & ->). cbn [bind]. destruct (keqb _ _); [|eauto].
  destruct (HT c e1 Hc I1) as (? & ->), (HT c e2 Hc I2) as (? & ->). cbn. eauto.
Qed.
(** counting *)
Lemma count_exactly c v : occurs key c v (length (filter (has key v) (c_events c))).
Proof.
  unfold occurs. generalize (c_events c). intros es. exists (occurrences key es v). split; [|split].
  - unfold occurrences. apply NoDup_filter, seq_NoDup.
  - assert (G : forall n, length (filter (fun i => match nth_error es (i - n) with Some e => has key v e | None => false end) (seq n (length es))) =
      length (filter (has key v) es)).
    { induction es as [|e es IH]; intros n; auto. cbn [length seq filter]. rewrite Nat.sub_diag. cbn [nth_error].
      pose proof (IH (S n)) as IHn.
      assert (E : filter (fun i => match nth_error (e :: es) (i - n) with Some e0 => has key v e0 | None => false end) (seq (S n) (length es)) =
                  filter (fun i => match nth_error es (i - S n) with Some e0 => has key v e0 | None => false end) (seq (S n) (length es))).
      { apply filter_ext_in. intros i Hi. apply in_seq in Hi. replace (i - n) with (S (i - S n)) by lia. reflexivity. }
      rewrite E. destruct (has key v e); cbn [length]; rewrite IHn; reflexivity. }
    rewrite <- (G 0). unfold occurrences. f_equal. apply filter_ext. intros i. rewrite Nat.sub_0_r. reflexivity.
  - intros i. apply occ_in.
Qed.
Lemma occurs_unique c v n : occurs key c v n -> n = length (filter (has key v) (c_events c)).
Proof. intros H. eapply Proofs_Dfg.exactly_unique; [exact H|apply count_exactly]. Qed.
Lemma occ_filter c vs v : map_opt (fun e => d_get e key) (c_events c) = Some vs -> occ v vs = length (filter (has key v) (c_events c)).
Proof.
  unfold occ. revert vs. induction (c_events c) as [|e es IH]; cbn; intros vs H; [injection H as <-; auto|].
  destruct (d_get e key) as [w|] eqn:E; [|discriminate]. destruct (map_opt (fun e => d_get e key) es) as [ws|]; [|discriminate]. injection H as <-.
  cbn [filter]. specialize (IH _ eq_refl). unfold has at 1. rewrite E.
  change (keqb w v) with (Z.eqb w v).
  destruct (Z.eqb w v); cbn [length]; rewrite IH; reflexivity.
Qed.
Lemma rework_ok positive a m r : rework positive key a m l = Some r ->
  Selected (fun c => polar positive (exists n, occurs key c a n /\ 1 <= n /\ m <= n)) l r.
Proof.
  apply choose_selected. intros c b _. rewrite bind_some. intros (vs & V & [= <-]).
  assert (M : d_mem (c_of vs) a = true <-> 1 <= occ a vs).
  { rewrite d_mem_in, c_of_keys. symmetry. apply occ_pos. }
  assert (P : (d_mem (c_of vs) a && (m <=? c_get (c_of vs) a) = true) <-> (exists n, occurs key c a n /\ 1 <= n /\ m <= n)).
  { rewrite andb_true_iff, M, Nat.leb_le, c_get_of, (occ_filter c vs a V). split.
    - intros (? & ?). eexists. split; [apply count_exactly|]. auto.
    - intros (n & O & ? & ?). apply occurs_unique in O. subst. auto. }
  destruct positive; cbn [polar]; rewrite <- P; [tauto|]. rewrite Nat.ltb_antisym, <- negb_andb, negb_true_iff.
  destruct (_ && _); intuition congruence.
Qed.
Lemma map_opt_total {X Y} (f : X -> option Y) k : (forall x, In x k -> exists y, f x = Some y) -> exists ys, map_opt f k = Some ys.
Proof.
  induction k as [|x k IH]; cbn; intros H; [eauto|]. destruct (H x (or_introl eq_refl)) as (y & ->). destruct IH as (ys & ->); eauto.
Qed.
Lemma rework_total positive a m : everywhere key l -> exists r, rework positive key a m l = Some r.
Proof.
  intros H. apply choose_total. intros c Hc. destruct (map_opt_total (fun e => d_get e key) (c_events c)) as (vs & ->); [|cbn; eauto].
  intros e He. destruct (H c e Hc He) as (v & E). exists v. exact E.
Qed.
Lemma repetitions_ok a m M r : repetitions key a m M l = Some r -> Selected (fun c => exists n, occurs key c a n /\ m <= n <= M) l r.
Proof.
  apply choose_selected. intros c b _ [= <-]. rewrite andb_true_iff, !Nat.leb_le. split.
  - intros H. eexists. split; [apply count_exactly|]. lia.
  - intros (n & O & ?). apply occurs_unique in O. subst. auto.
Qed.
Lemma attribute_ok positive values r : attribute_values positive key values l = Some r ->
  Selected (fun c => c_events c <> [] /\ polar positive (exists e v, In e (c_events c) /\ value key e v /\ In v values)) l r.
Proof.
  apply choose_selected. intros c b _ [= <-]. rewrite andb_true_iff. erewrite found_polar; [|apply existsb_exists].
  assert (E : (exists x, In x (c_events c) /\ match d_get x key with Some v => vmem v values | None => false end = true) <->
              (exists e v, In e (c_events c) /\ value key e v /\ In v values)).
  { unfold value. split.
    - intros (x & H & E). exists x. destruct (d_get x key) as [v|]; [|discriminate]. exists v. rewrite vmem_in in E. auto.
    - intros (x & v & H & E & I). exists x. rewrite E, vmem_in. auto. }
  assert (N : (0 <? length (c_events c)) = true <-> c_events c <> []).
  { destruct (c_events c); cbn; rewrite Nat.ltb_lt; cbn; split; intros; try lia; congruence. }
  rewrite N. destruct positive; cbn [polar]; rewrite E; tauto.
Qed.
Lemma trace_attribute_ok positive values r : trace_attribute positive key values l = Some r ->
  Selected (fun c => polar positive (exists v, d_get (c_attrs c) key = Some v /\ In v values)) l r.
Proof.
  apply choose_selected. intros c b _ [= <-].
  assert (P : (match d_get (c_attrs c) key with Some v => vmem v values | None => false end = true) <-> exists v, d_get (c_attrs c) key = Some v /\ In v values).
  { destruct (d_get _ _) as [v|]; [rewrite vmem_in|]; split; try discriminate; eauto.
    - intros (w & [= ->] & ?); auto.
    - intros (w & ? & _); discriminate. }
  destruct positive; cbn [polar]; rewrite <- P; [tauto|]. destruct (d_get _ _) as [v|]; [|intuition congruence].
  rewrite negb_true_iff. destruct (vmem v values); intuition congruence.
Qed.
Lemma case_size_ok m M r : case_size m M l = Some r ->
  Selected (fun c => m <= length (c_events c) /\ forall k, M = Some k -> length (c_events c) <= k) l r.
Proof.
  apply choose_selected. intros c b _ [= <-]. rewrite andb_true_iff, Nat.leb_le. destruct M as [k|].
  - rewrite Nat.leb_le. split; intros (? & ?); split; auto. intros ? [= <-]; auto.
  - intuition discriminate.
Qed.
Lemma first_last_some ts c t1 t2 : first_last ts (c_events c) = Some (t1, t2) <->
  exists e1 e2, first_is c e1 /\ last_is c e2 /\ value ts e1 t1 /\ value ts e2 t2.
Proof.
  unfold first_last. rewrite bind_some. split.
  - intros (e1 & H1 & H). apply bind_some in H. destruct H as (x & X & H). apply bind_some in H. destruct H as (e2 & H2 & H).
    apply bind_some in H. destruct H as (y & Y & [= -> ->]). exists e1, e2. rewrite <- first_event_iff, <- last_event_iff. auto.
  - intros (e1 & e2 & F & L & V1 & V2). rewrite <- first_event_iff in F. rewrite <- last_event_iff in L.
    exists e1. rewrite F, L. unfold value in *. rewrite V1. cbn [bind]. rewrite V2. auto.
Qed.
Lemma first_last_sel ts (q : Z -> Z -> bool) (Q : Z -> Z -> Prop) r : (forall a b, q a b = true <-> Q a b) ->
  choose (fun c => match c_events c with [] => Some false | es => bind (first_last ts es) (fun t => Some (q (fst t) (snd t))) end) l = Some r ->
  Selected (fun c => exists e1 e2 t1 t2, first_is c e1 /\ last_is c e2 /\ value ts e1 t1 /\ value ts e2 t2 /\ Q t1 t2) l r.
Proof.
  intros E. apply choose_selected. intros c b _. destruct (c_events c) as [|e es] eqn:Ec.
  - intros [= <-]. split; [discriminate|]. intros (? & ? & ? & ? & (? & H) & _). congruence.
  - rewrite bind_some, <- Ec. intros ((t1, t2) & H & [= <-]). cbn [fst snd]. rewrite E. split.
    + intros HQ. apply first_last_some in H. destruct H as (e1 & e2 & H). exists e1, e2, t1, t2. tauto.
    + intros (e1 & e2 & x & y & F & L & V1 & V2 & HQ). assert (H' : first_last ts (c_events c) = Some (x, y)) by (apply first_last_some; exists e1, e2; auto).
      rewrite H' in H. injection H as -> ->. exact HQ.
Qed.
Lemma first_last_total ts (q : Z -> Z -> bool) : everywhere ts l -> exists r,
  choose (fun c => match c_events c with [] => Some false | es => bind (first_last ts es) (fun t => Some (q (fst t) (snd t))) end) l = Some r.
Proof.
  intros H. apply choose_total. intros c Hc. destruct (c_events c) as [|e es] eqn:Ec; [eauto|].
  destruct (last_ex e es) as (e' & E').
  destruct (H c e Hc) as (v & V); [rewrite Ec; cbn; auto|]. destruct (H c e' Hc) as (w & W); [rewrite Ec; apply last_in; auto|].
  unfold first_last. rewrite E'. cbn [nth_error bind]. unfold value in *. rewrite V. cbn [bind]. rewrite W. cbn [bind]. eauto.
Qed.
Lemma case_performance_ok ts lo hi r : case_performance ts lo hi l = Some r ->
  Selected (fun c => exists e1 e2 t1 t2, first_is c e1 /\ last_is c e2 /\ value ts e1 t1 /\ value ts e2 t2 /\ (lo <= t2 - t1 <= hi)%Z) l r.
Proof.
  apply (first_last_sel ts (fun a b => (lo <=? b - a)%Z && (b - a <=? hi)%Z)). intros a b. rewrite andb_true_iff, !Z.leb_le. tauto.
Qed.
Lemma contained_ok ts dt1 dt2 r : traces_contained ts dt1 dt2 l = Some r ->
  Selected (fun c => exists e1 e2 t1 t2, first_is c e1 /\ last_is c e2 /\ value ts e1 t1 /\ value ts e2 t2 /\ (dt1 <= t1)%Z /\ (t2 <= dt2)%Z) l r.
Proof. apply (first_last_sel ts (fun a b => (dt1 <=? a)%Z && (b <=? dt2)%Z)). intros a b. rewrite andb_true_iff, !Z.leb_le. tauto. Qed.
Lemma intersecting_ok ts dt1 dt2 r : (dt1 <= dt2)%Z ->
  (forall c e1 e2 t1 t2, In c l -> first_is c e1 -> last_is c e2 -> value ts e1 t1 -> value ts e2 t2 -> (t1 <= t2)%Z) ->
  traces_intersecting ts dt1 dt2 l = Some r ->
  Selected (fun c => exists e1 e2 t1 t2, first_is c e1 /\ last_is c e2 /\ value ts e1 t1 /\ value ts e2 t2 /\
     exists t, (dt1 <= t <= dt2)%Z /\ (t1 <= t <= t2)%Z) l r.
Proof.
  intros D HO H.
  assert (G := first_last_sel ts (fun a b => ((dt1 <=? a)%Z && (a <=? dt2)%Z) || ((dt1 <=? b)%Z && (b <=? dt2)%Z)
                             || ((a <=? dt1)%Z && (dt1 <=? b)%Z) || ((a <=? dt2)%Z && (dt2 <=? b)%Z)) (fun a b =>
     (dt1 <= a <= dt2 \/ dt1 <= b <= dt2 \/ a <= dt1 <= b \/ a <= dt2 <= b)%Z) r).
  eapply selected_ext; [|apply G].
  - intros c Hc. cbn beta. split; intros (e1 & e2 & t1 & t2 & F & L & V1 & V2 & Q); exists e1, e2, t1, t2; repeat split; auto;
      assert (t1 <= t2)%Z by eauto.
    + exists (Z.max dt1 t1). lia.
    + destruct Q as (t & ? & ?). lia.
  - intros a b. rewrite !orb_true_iff, !andb_true_iff, !Z.leb_le. tauto.
  - unfold traces_intersecting in H. rewrite <- H. clear. induction l as [|c k IH]; auto. cbn [choose]. rewrite IH.
    destruct (c_events c); auto. destruct (first_last _ _) as [(?, ?)|]; reflexivity.
Qed.
Lemma intersecting_total ts dt1 dt2 : everywhere ts l -> exists r, traces_intersecting ts dt1 dt2 l = Some r.
Proof.
  intros H. destruct (first_last_total ts (fun a b => ((dt1 <=? a)%Z && (a <=? dt2)%Z) || ((dt1 <=? b)%Z && (b <=? dt2)%Z)
                             || ((a <=? dt1)%Z && (dt1 <=? b)%Z) || ((a <=? dt2)%Z && (dt2 <=? b)%Z)) H) as (r & E).
  exists r. rewrite <- E. unfold traces_intersecting. clear. induction l as [|c k IH]; auto. cbn [choose]. rewrite IH.
  destruct (c_events c); auto. destruct (first_last _ _) as [(?, ?)|]; reflexivity.
Qed.
Lemma trace_time_ok dt1 dt2 r : trace_attribute_time key dt1 dt2 l = Some r ->
  Selected (fun c => exists v, d_get (c_attrs c) key = Some v /\ (dt1 <= v <= dt2)%Z) l r.
Proof.
  apply choose_selected. intros c b _ [= <-]. destruct (d_get _ _) as [v|].
  - rewrite andb_true_iff, !Z.leb_le. split; [eauto|]. intros (w & [= ->] & ?); auto.
  - split; [discriminate|]. intros (w & ? & _); discriminate.
Qed.
Lemma timeframe_ok v ts dt1 dt2 r : attribute_in_timeframe key v ts dt1 dt2 l = Some r ->
  Selected (fun c => exists e t, In e (c_events c) /\ value key e v /\ value ts e t /\ (dt1 <= t <= dt2)%Z) l r.
Proof.
  apply choose_selected. intros c b _ H. apply any_opt_spec in H. rewrite H. split.
  - intros (e & He & E). destruct (has key v e) eqn:V; [|discriminate]. apply has_iff in V. apply bind_some in E. destruct E as (t & T & [= E]).
    rewrite andb_true_iff, !Z.leb_le in E. eauto 6.
  - intros (e & t & He & V & T & B). exists e. split; auto. apply has_iff in V. rewrite V. unfold value in T. rewrite T. cbn [bind]. f_equal.
    rewrite andb_true_iff, !Z.leb_le. auto.
Qed.
Lemma timeframe_total v ts dt1 dt2 : everywhere ts l -> exists r, attribute_in_timeframe key v ts dt1 dt2 l = Some r.
Proof.
  intros H. apply choose_total. intros c Hc. apply any_opt_total. intros e He. destruct (has key v e); [|eauto].
  destruct (H c e Hc He) as (t & ->). cbn. eauto.
Qed.
End OneFilter.

(** numeric attribute filter *)
Section Numeric.
Variables (idk key : nat) (filters : list (nat * Z)) (lo hi : Z).
Definition num_good (positive : bool) (e : event) : Prop :=
  (forall k v, In (k, v) filters -> value k e v) /\ exists x, value key e x /\ polar positive (lo <= x <= hi)%Z.
Lemma map_opt_pair l ics : map_opt (fun c => bind (d_get (c_attrs c) idk) (fun i => Some (i, c))) l = Some ics ->
  forall i c, In (i, c) ics <-> In c l /\ d_get (c_attrs c) idk = Some i.
Proof.
  revert ics. induction l as [|c l IH]; cbn; intros ics H i c'.
  - injection H as <-. cbn. tauto.
  - destruct (d_get (c_attrs c) idk) as [j|] eqn:E; [|discriminate]. cbn in H.
    destruct (map_opt (fun c => bind (d_get (c_attrs c) idk) (fun i => Some (i, c))) l) as [r|]; [|discriminate]. injection H as <-.
    cbn. rewrite (IH _ eq_refl). split.
    + intros [[= -> ->]|]; tauto.
    + intros [[->|] ?]; [left; congruence|tauto].
Qed.
Lemma numeric_ok positive l r :
  (forall c c' i, In c l -> In c' l -> d_get (c_attrs c) idk = Some i -> d_get (c_attrs c') idk = Some i -> c = c') ->
  numeric positive idk key filters lo hi l = Some r ->
  Selected (fun c => exists e, In e (c_events c) /\ num_good positive e) l r.
Proof.
  intros U H. unfold numeric in H. apply bind_some in H. destruct H as (ics & M & H). revert H. apply choose_selected.
  intros c b Hc H. apply bind_some in H. destruct H as (i & Hi & [= <-]). rewrite vmem_in, in_flat_map. split.
  - intros ((j, c') & Hj & H). apply (map_opt_pair _ _ M) in Hj. cbn [fst snd] in H. apply in_map_iff in H. destruct H as (e & -> & He).
    apply filter_In in He. destruct He as (He & G). destruct Hj as (Hc' & Hj). assert (c = c') by eauto. subst c'.
    exists e. split; auto. apply andb_true_iff in G. destruct G as (G1 & G2). split.
    + intros k v Hkv. rewrite forallb_forall in G1. apply (G1 (k, v)) in Hkv. apply has_iff in Hkv. exact Hkv.
    + destruct (d_get e key) as [x|] eqn:E; [|discriminate]. exists x. split; auto.
      destruct positive; cbn [polar]; revert G2; [rewrite andb_true_iff, !Z.leb_le|rewrite orb_true_iff, !Z.ltb_lt]; lia.
  - intros (e & He & G1 & x & X & P). exists (i, c). split; [apply (map_opt_pair _ _ M); auto|]. cbn [fst snd].
    apply in_map_iff. exists e. split; auto. apply filter_In. split; auto. apply andb_true_iff. split.
    + apply forallb_forall. intros (k, v) Hkv. apply has_iff. apply G1. exact Hkv.
    + unfold value in X. rewrite X. destruct positive; cbn [polar] in P; [rewrite andb_true_iff, !Z.leb_le|rewrite orb_true_iff, !Z.ltb_lt]; lia.
Qed.
Lemma numeric_total positive l : (forall c, In c l -> exists i, d_get (c_attrs c) idk = Some i) -> exists r, numeric positive idk key filters lo hi l = Some r.
Proof.
  intros H. unfold numeric. destruct (map_opt_total (fun c => bind (d_get (c_attrs c) idk) (fun i => Some (i, c))) l) as (ics & ->).
  - intros c Hc. destruct (H c Hc) as (i & ->). cbn. eauto.
  - cbn [bind]. apply choose_total. intros c Hc. destruct (H c Hc) as (i & ->). cbn. eauto.
Qed.
End Numeric.
Lemma ncases_ok n l : exists s, l = ncases n l ++ s /\ length (ncases n l) = Nat.min (length l) n.
Proof. exists (skipn (Nat.min (length l) n) l). unfold ncases. split; [symmetry; apply firstn_skipn|]. rewrite firstn_length. lia. Qed.
