(** Removing a superfluous exclusive gateway keeps the traces of a diagram. *)
From Coq Require Import List Arith Bool Lia ZArith Permutation.
Import ListNotations.
From Verif Require Import Model_Petri Model_Tree Model_TreeNet Model_Bpmn Spec_Bpmn Proofs_Bpmn Model_ToBpmn.

Definition enters_p d n k ins := exists i, Permutation ins i /\ enters d n k i.
Definition leaves_p d n k outs := exists o, Permutation outs o /\ leaves d n k o.
Lemma s_node_p d s w s1 n k ins outs rest s2 : steps d s w s1 -> In (n, k) (b_nodes d) -> enters_p d n k ins -> leaves_p d n k outs ->
  Permutation s1 (ins ++ rest) -> Permutation s2 (outs ++ rest) -> steps d s (w ++ shows k) s2.
Proof.
  intros H Hn (i & Pi & Hi) (o & Po & Ho) P1 P2. eapply s_node; eauto; [now rewrite P1, Pi|now rewrite P2, Po].
Qed.
Lemma steps_perm' d s w s1 s2 : steps d s w s1 -> Permutation s1 s2 -> steps d s w s2.
Proof. intros H P. destruct H as [s s' P'|]; [constructor; now rewrite P'|]. eapply s_node; eauto. now rewrite <- P. Qed.
Lemma steps_trans d s w s1 v s2 : steps d s w s1 -> steps d s1 v s2 -> steps d s (w ++ v) s2.
Proof.
  intros H1 H2. revert H1. induction H2 as [s1 s2 P|s1 v s2 n k ins outs rest s3 H IH Hn He Ho P1 P2]; intros H1.
  - rewrite app_nil_r. eapply steps_perm'; eauto.
  - rewrite app_assoc. eapply s_node; eauto.
Qed.
(** one step of a node, with the trace it shows *)
Lemma one d n k ins outs rest : In (n, k) (b_nodes d) -> enters_p d n k ins -> leaves_p d n k outs -> steps d (ins ++ rest) (shows k) (outs ++ rest).
Proof. intros A B C. change (shows k) with ([] ++ shows k). eapply s_node_p; eauto. constructor. auto. Qed.

Definition inc (l : list (nat * (nat * nat))) (n : nat) := map fst (filter (fun f => Nat.eqb (snd (snd f)) n) l).
Definition out (l : list (nat * (nat * nat))) (n : nat) := map fst (filter (fun f => Nat.eqb (fst (snd f)) n) l).
Lemma filter_perm {X} (q : X -> bool) l k : Permutation l k -> Permutation (filter q l) (filter q k).
Proof. induction 1; cbn; auto; [destruct (q x); auto|destruct (q x), (q y); auto; constructor|etransitivity; eauto]. Qed.
Lemma inc_app l k n : inc (l ++ k) n = inc l n ++ inc k n. Proof. unfold inc. now rewrite filter_app, map_app. Qed.
Lemma out_app l k n : out (l ++ k) n = out l n ++ out k n. Proof. unfold out. now rewrite filter_app, map_app. Qed.
Lemma nodup_fst {X} (l : list (nat * X)) : NoDup (map fst l) -> forall i x y, In (i, x) l -> In (i, y) l -> x = y.
Proof.
  induction l as [|[j z] l IH]; intros N i x y A B; [easy|]. inversion N as [|? ? N1 N2]; subst. cbn in *.
  destruct A as [E|A], B as [E'|B]; [congruence| | |eauto]; exfalso; apply N1; [injection E as -> _; apply (in_map fst _ _ B)|injection E' as -> _; apply (in_map fst _ _ A)].
Qed.
Lemma take_one {X} (l : list (nat * X)) i x : NoDup (map fst l) -> In (i, x) l -> Permutation l ((i, x) :: filter (fun y => negb (Nat.eqb (fst y) i)) l).
Proof.
  intros N H. apply in_split in H as (a & b & ->). rewrite map_app in N. cbn in N. rewrite filter_app. cbn. rewrite Nat.eqb_refl. cbn.
  assert (F : forall c, (forall y, In y c -> fst y <> i) -> filter (fun y : nat * X => negb (Nat.eqb (fst y) i)) c = c).
  { induction c as [|y c IH]; intros Hc; [reflexivity|]. cbn. rewrite (proj2 (Nat.eqb_neq (fst y) i)) by (apply Hc; left; auto). cbn. f_equal. apply IH. intros z Hz. apply Hc. right; auto. }
  apply NoDup_remove_2 in N. rewrite in_app_iff in N. rewrite !F; [symmetry; apply Permutation_middle| |]; intros y Hy E; apply N; [right|left]; rewrite <- E; now apply in_map.
Qed.

Section Red.
  Variable d : diagram.
  Hypothesis WF : well_formed d.
  Variables (g f1 f2 a b f : nat).
  Hypothesis Hg : In (g, ExclusiveGateway) (b_nodes d).
  Hypothesis Hi : ins_of d g = [(f1, (a, g))].
  Hypothesis Ho : outs_of d g = [(f2, (g, b))].
  Hypothesis Hne : f1 <> f2.
  Hypothesis Hf : ~ In f (map fst (b_flows d)).
  Definition left_flows := filter (fun x : nat * (nat * nat) => negb (Nat.eqb (fst x) f1) && negb (Nat.eqb (fst x) f2)) (b_flows d).
  Definition red : diagram := Bpmn (filter (fun x => negb (Nat.eqb (fst x) g)) (b_nodes d)) (left_flows ++ [(f, (a, b))]).
  Lemma in_flows i s t : In (i, (s, t)) (b_flows d) -> t = g -> i = f1 /\ s = a.
  Proof. intros H ->. assert (Q : In (i, (s, g)) (ins_of d g)) by (apply filter_In; split; auto; apply Nat.eqb_refl). rewrite Hi in Q. destruct Q as [E|[]]. injection E as -> ->. auto. Qed.
  Lemma out_flows i s t : In (i, (s, t)) (b_flows d) -> s = g -> i = f2 /\ t = b.
  Proof. intros H ->. assert (Q : In (i, (g, t)) (outs_of d g)) by (apply filter_In; split; auto; apply Nat.eqb_refl). rewrite Ho in Q. destruct Q as [E|[]]. injection E as -> ->. auto. Qed.
  Lemma has1 : In (f1, (a, g)) (b_flows d).
  Proof. assert (Q : In (f1, (a, g)) (ins_of d g)) by (rewrite Hi; left; auto). apply filter_In in Q. tauto. Qed.
  Lemma has2 : In (f2, (g, b)) (b_flows d).
  Proof. assert (Q : In (f2, (g, b)) (outs_of d g)) by (rewrite Ho; left; auto). apply filter_In in Q. tauto. Qed.
  Lemma a_g : a <> g. Proof. intros E. apply Hne. apply (out_flows _ _ _ has1 E). Qed.
  Lemma b_g : b <> g. Proof. intros E. apply Hne. symmetry. apply (in_flows _ _ _ has2 E). Qed.
  Lemma split_flows : Permutation (b_flows d) ((f1, (a, g)) :: (f2, (g, b)) :: left_flows).
  Proof.
    destruct WF as (_ & N & _). rewrite (take_one _ _ _ N has1) at 1. apply perm_skip.
    assert (N' : NoDup (map fst (filter (fun y : nat * (nat * nat) => negb (Nat.eqb (fst y) f1)) (b_flows d)))).
    { clear -N. induction (b_flows d) as [|y l IH]; cbn in *; [constructor|]. inversion N as [|? ? N1 N2]; subst. destruct (negb (Nat.eqb (fst y) f1)); cbn; auto. constructor; auto. intros Q. apply N1. apply in_map_iff in Q as (z & E & Q). apply filter_In in Q as [Q _]. rewrite <- E. now apply in_map. }
    rewrite (take_one _ f2 (g, b) N'); [|apply filter_In; split; [apply has2|]; cbn; apply negb_true_iff, Nat.eqb_neq; auto]. apply perm_skip.
    unfold left_flows. assert (E : forall l : list (nat * (nat * nat)), filter (fun y => negb (fst y =? f2)) (filter (fun y => negb (fst y =? f1)) l) = filter (fun x => negb (fst x =? f1) && negb (fst x =? f2)) l).
    { induction l as [|y l IH]; [reflexivity|]. cbn. destruct (fst y =? f1); cbn; [exact IH|]. destruct (fst y =? f2); cbn; [exact IH|]. now rewrite IH. }
    now rewrite E.
  Qed.
  Lemma left_ids i x : In (i, x) left_flows -> i <> f1 /\ i <> f2 /\ i <> f /\ In (i, x) (b_flows d).
  Proof.
    intros H. unfold left_flows in H. apply filter_In in H as [H E]. cbn in E. apply andb_true_iff in E as [E1 E2]. apply negb_true_iff, Nat.eqb_neq in E1. apply negb_true_iff, Nat.eqb_neq in E2.
    repeat split; auto. intros ->. apply Hf. apply (in_map fst _ _ H).
  Qed.
  Lemma red_wf : well_formed red.
  Proof.
    destruct WF as (N1 & N2 & N3 & N4). split; [|split; [|split]].
    - cbn [red b_nodes]. clear -N1. induction (b_nodes d) as [|y l IH]; cbn in *; [constructor|]. inversion N1 as [|? ? M1 M2]; subst. destruct (negb (fst y =? g)); cbn; auto. constructor; auto.
      intros Q. apply M1. apply in_map_iff in Q as (z & E & Q). apply filter_In in Q as [Q _]. rewrite <- E. now apply in_map.
    - cbn [red b_flows]. rewrite map_app. cbn. pose proof (Permutation_map fst split_flows) as P. cbn in P. rewrite P in N2. inversion N2 as [|? ? _ M]; subst. inversion M as [|? ? _ M']; subst.
      rewrite Permutation_app_comm. cbn. constructor; auto. intros Q. apply in_map_iff in Q as ([i x] & E & Q). cbn in E. subst i. apply left_ids in Q. tauto.
    - intros n Q. cbn [red b_nodes] in Q. apply filter_In in Q as [Q _]. eapply N3; eauto.
    - assert (K : forall n, In n (map fst (b_nodes d)) -> n <> g -> In n (map fst (b_nodes red))).
      { intros n Q E. apply in_map_iff in Q as (x & <- & Q). cbn [red b_nodes]. apply in_map. apply filter_In. split; auto. apply negb_true_iff, Nat.eqb_neq. auto. }
      intros i s t Q. cbn [red b_flows] in Q. apply in_app_iff in Q as [Q|[E|[]]].
      + apply left_ids in Q as (A & B & _ & Q). destruct (N4 _ _ _ Q) as [C D]. split; apply K; auto; intros E; [apply (out_flows _ _ _ Q) in E|apply (in_flows _ _ _ Q) in E]; tauto.
      + injection E as <- <- <-. split; apply K; [apply (N4 _ _ _ has1)|apply a_g|apply (N4 _ _ _ has2)|apply b_g].
  Qed.
  Lemma inc_d n : n <> g -> Permutation (incoming d n) ((if Nat.eqb b n then [f2] else []) ++ inc left_flows n).
  Proof.
    intros N. change (incoming d n) with (inc (b_flows d) n). unfold inc at 1. rewrite (Permutation_map fst (filter_perm _ _ _ split_flows)). cbn [filter snd]. rewrite (proj2 (Nat.eqb_neq g n)) by auto.
    destruct (Nat.eqb b n); reflexivity.
  Qed.
  Lemma out_d n : n <> g -> Permutation (outgoing d n) ((if Nat.eqb a n then [f1] else []) ++ out left_flows n).
  Proof.
    intros N. change (outgoing d n) with (out (b_flows d) n). unfold out at 1. rewrite (Permutation_map fst (filter_perm _ _ _ split_flows)). cbn [filter fst snd]. rewrite (proj2 (Nat.eqb_neq g n)) by auto.
    destruct (Nat.eqb a n); reflexivity.
  Qed.
  Lemma inc_r n : incoming red n = inc left_flows n ++ (if Nat.eqb b n then [f] else []).
  Proof. change (incoming red n) with (inc (b_flows red) n). cbn [red b_flows]. rewrite inc_app. f_equal. unfold inc. cbn. destruct (Nat.eqb b n); reflexivity. Qed.
  Lemma out_r n : outgoing red n = out left_flows n ++ (if Nat.eqb a n then [f] else []).
  Proof. change (outgoing red n) with (out (b_flows red) n). cbn [red b_flows]. rewrite out_app. f_equal. unfold out. cbn. destruct (Nat.eqb a n); reflexivity. Qed.
  Definition mv (x y : nat) (t : token) : token := match t with On i => if Nat.eqb i x then On y else On i | _ => t end.
  Definition rho (t : token) : token := mv f1 f (mv f2 f t).
  Lemma mv_on x y l : (forall i, In i l -> i <> x) -> map (mv x y) (map On l) = map On l.
  Proof. intros H. rewrite map_map. apply map_ext_in. intros i Hi'. cbn. rewrite (proj2 (Nat.eqb_neq i x)); auto. Qed.
  Lemma inc_left n i : In i (inc left_flows n) -> i <> f1 /\ i <> f2 /\ i <> f.
  Proof. intros H. unfold inc in H. apply in_map_iff in H as ([j x] & <- & H). apply filter_In in H as [H _]. apply left_ids in H. cbn. tauto. Qed.
  Lemma out_left n i : In i (out left_flows n) -> i <> f1 /\ i <> f2 /\ i <> f.
  Proof. intros H. unfold out in H. apply in_map_iff in H as ([j x] & <- & H). apply filter_In in H as [H _]. apply left_ids in H. cbn. tauto. Qed.
  Lemma f_not : f <> f1 /\ f <> f2.
  Proof. split; intros E; apply Hf; rewrite E; [apply (in_map fst _ _ has1)|apply (in_map fst _ _ has2)]. Qed.
  Lemma rho_on l : (forall i, In i l -> i <> f1 /\ i <> f2 /\ i <> f) -> map rho (map On l) = map On l.
  Proof. intros H. unfold rho. rewrite <- (map_map (mv f2 f) (mv f1 f)). rewrite mv_on by (intros; now apply H). apply mv_on. intros; now apply H. Qed.
  Lemma rho_in n : n <> g -> Permutation (map rho (map On (incoming d n))) (map On (incoming red n)).
  Proof.
    intros N. rewrite inc_r, (inc_d n N). rewrite !map_app, (rho_on (inc left_flows n)) by (apply inc_left). rewrite Permutation_app_comm. apply Permutation_app_head.
    destruct (Nat.eqb b n); [|reflexivity]. cbn. unfold rho. cbn. rewrite Nat.eqb_refl. cbn. destruct (Nat.eqb f f1); reflexivity.
  Qed.
  Lemma rho_out n : n <> g -> Permutation (map rho (map On (outgoing d n))) (map On (outgoing red n)).
  Proof.
    intros N. rewrite out_r, (out_d n N). rewrite !map_app, (rho_on (out left_flows n)) by (apply out_left). rewrite Permutation_app_comm. apply Permutation_app_head.
    destruct (Nat.eqb a n); [|reflexivity]. cbn. unfold rho. cbn. rewrite (proj2 (Nat.eqb_neq f1 f2)) by auto. cbn. rewrite Nat.eqb_refl. reflexivity.
  Qed.
  Lemma sigma_in n : n <> g -> Permutation (map (mv f f2) (map On (incoming red n))) (map On (incoming d n)).
  Proof.
    intros N. rewrite inc_r, (inc_d n N). rewrite !map_app, (mv_on _ _ (inc left_flows n)) by (intros i Hi'; apply inc_left in Hi'; tauto). rewrite Permutation_app_comm. apply Permutation_app_tail.
    destruct (Nat.eqb b n); [|reflexivity]. cbn. rewrite Nat.eqb_refl. reflexivity.
  Qed.
  Lemma sigma_out n : n <> g -> Permutation (map (mv f f1) (map On (outgoing red n))) (map On (outgoing d n)).
  Proof.
    intros N. rewrite out_r, (out_d n N). rewrite !map_app, (mv_on _ _ (out left_flows n)) by (intros i Hi'; apply out_left in Hi'; tauto). rewrite Permutation_app_comm. apply Permutation_app_tail.
    destruct (Nat.eqb a n); [|reflexivity]. cbn. rewrite Nat.eqb_refl. reflexivity.
  Qed.
  (** a renaming of tokens that maps the incoming (outgoing) flows onto each other *)
  Lemma enters_map e e' h n k ins : h Begin = Begin -> Permutation (map h (map On (incoming e n))) (map On (incoming e' n)) -> enters e n k ins -> enters_p e' n k (map h ins).
  Proof.
    intros HB P H. destruct k; cbn [enters] in H; try (destruct H as [(i & Hi' & ->)|[E ->]];
      [assert (Q : In (h (On i)) (map On (incoming e' n))) by (rewrite <- P; apply in_map, in_map; auto); apply in_map_iff in Q as (j & Ej & Hj); exists [On j]; split; [cbn; rewrite Ej; auto|left; eauto]|
       exists [Begin]; split; [cbn; rewrite HB; auto|right; auto]]).
    destruct H as [-> N]. exists (map On (incoming e' n)). split; auto. split; auto. intros E. rewrite E in P. symmetry in P. apply Permutation_nil in P. apply map_eq_nil in P. congruence.
  Qed.
  Lemma leaves_map e e' h n k outs : h Done = Done -> Permutation (map h (map On (outgoing e n))) (map On (outgoing e' n)) -> leaves e n k outs -> leaves_p e' n k (map h outs).
  Proof.
    intros HB P H. destruct k; cbn [leaves] in H; try (destruct H as [(i & Hi' & ->)|[E ->]];
      [assert (Q : In (h (On i)) (map On (outgoing e' n))) by (rewrite <- P; apply in_map, in_map; auto); apply in_map_iff in Q as (j & Ej & Hj); exists [On j]; split; [cbn; rewrite Ej; auto|left; eauto]|
       exists [Done]; split; [cbn; rewrite HB; auto|right; auto]]).
    destruct H as [-> N]. exists (map On (outgoing e' n)). split; auto. split; auto. intros E. rewrite E in P. symmetry in P. apply Permutation_nil in P. apply map_eq_nil in P. congruence.
  Qed.
  Lemma inc_g : incoming d g = [f1].
  Proof. change (incoming d g) with (map fst (ins_of d g)). rewrite Hi. reflexivity. Qed.
  Lemma out_g : outgoing d g = [f2].
  Proof. change (outgoing d g) with (map fst (outs_of d g)). rewrite Ho. reflexivity. Qed.
  Lemma forth_red s w s' : steps d s w s' -> steps red (map rho s) w (map rho s').
  Proof.
    induction 1 as [s s' P|s w s1 n k ins outs rest s2 H IH Hn He Hl P1 P2].
    - constructor. now rewrite P.
    - destruct (Nat.eq_dec n g) as [->|N].
      + assert (k = ExclusiveGateway) by (eapply kind_unique; eauto). subst k. cbn [enters leaves] in *. rewrite inc_g in He. rewrite out_g in Hl.
        destruct He as [(i & [<- |[]] & ->)|[E _]]; [|discriminate]. destruct Hl as [(j & [<- |[]] & ->)|[E _]]; [|discriminate]. rewrite app_nil_r. eapply steps_perm'; [exact IH|].
        rewrite P1, P2. cbn [app map]. assert (R1 : rho (On f1) = On f) by (unfold rho; cbn; rewrite (proj2 (Nat.eqb_neq f1 f2)) by auto; cbn; rewrite Nat.eqb_refl; reflexivity).
        assert (R2 : rho (On f2) = On f) by (unfold rho; cbn; rewrite Nat.eqb_refl; cbn; destruct (Nat.eqb f f1); reflexivity). rewrite R1, R2. reflexivity.
      + eapply (s_node_p red _ w _ n k (map rho ins) (map rho outs) (map rho rest)); [exact IH| | | | |].
        * cbn [red b_nodes]. apply filter_In. split; auto. cbn. apply negb_true_iff, Nat.eqb_neq. auto.
        * eapply enters_map; [reflexivity|apply rho_in; auto|exact He].
        * eapply leaves_map; [reflexivity|apply rho_out; auto|exact Hl].
        * now rewrite P1, map_app.
        * now rewrite P2, map_app.
  Qed.
  Lemma advance l rest : steps d (map (mv f f1) l ++ rest) [] (map (mv f f2) l ++ rest).
  Proof.
    revert rest. induction l as [|t l IH]; intros rest; [constructor; auto|]. cbn [map app].
    assert (S1 : steps d (mv f f1 t :: map (mv f f1) l ++ rest) [] (mv f f2 t :: map (mv f f1) l ++ rest)).
    { destruct t as [|i|]; [constructor; auto| |constructor; auto]. cbn. destruct (Nat.eqb i f); [|constructor; auto].
      apply (one d g ExclusiveGateway [On f1] [On f2]); auto.
      - exists [On f1]. split; auto. left. exists f1. rewrite inc_g. split; [left; auto|auto].
      - exists [On f2]. split; auto. left. exists f2. rewrite out_g. split; [left; auto|auto]. }
    eapply (steps_trans d _ [] _ []); [exact S1|]. eapply steps_perm'; [|apply Permutation_sym, Permutation_middle].
    eapply (steps_trans d _ [] _ []); [constructor; apply Permutation_middle|]. apply IH.
  Qed.
  Lemma back_red s w s' : steps red s w s' -> steps d (map (mv f f1) s) w (map (mv f f1) s').
  Proof.
    induction 1 as [s s' P|s w s1 n k ins outs rest s2 H IH Hn He Hl P1 P2].
    - constructor. now rewrite P.
    - cbn [red b_nodes] in Hn. apply filter_In in Hn as [Hn E]. cbn in E. apply negb_true_iff, Nat.eqb_neq in E.
      eapply steps_trans; [exact IH|]. eapply (steps_trans d _ [] _ (shows k)); [|].
      + eapply steps_perm'; [constructor; rewrite P1, map_app; reflexivity|reflexivity].
      + eapply (steps_trans d _ [] _ (shows k)); [apply advance|]. eapply steps_perm'; [apply (one d n k (map (mv f f2) ins) (map (mv f f1) outs) (map (mv f f1) rest) Hn)|].
        * eapply enters_map; [reflexivity|apply sigma_in; auto|exact He].
        * eapply leaves_map; [reflexivity|apply sigma_out; auto|exact Hl].
        * now rewrite P2, map_app.
  Qed.
  Lemma red_plays w : plays d w <-> plays red w.
  Proof. split; intros H; [exact (forth_red _ _ _ H)|exact (back_red _ _ _ H)]. Qed.
End Red.
Lemma xor_step_ok d d' : well_formed d -> xor_step d d' -> well_formed d' /\ forall w, plays d w <-> plays d' w.
Proof.
  intros WF (g & f1 & f2 & a & b & f & [Hg _] & Hi & Ho & Hne & Hf & ->). split; [apply (red_wf d WF g f1 f2 a b f); auto|]. intros w. apply (red_plays d WF g f1 f2 a b f); auto.
Qed.
Lemma reduce_xor_ok d d' : well_formed d -> reduce_xor d d' -> well_formed d' /\ forall w, plays d w <-> plays d' w.
Proof.
  intros WF [H _]. induction H as [d|d d1 d2 H1 H2 IH]; [split; auto; tauto|]. destruct (xor_step_ok d d1 WF H1) as [W E]. destruct (IH W) as [W' E']. split; auto. intros w. rewrite E. apply E'.
Qed.
