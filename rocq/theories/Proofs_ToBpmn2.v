(** The diagram made from a Petri net plays the traces of the net. *)
From Coq Require Import List Arith Bool Lia ZArith Permutation.
Import ListNotations.
From Verif Require Import Model_Petri Spec_Petri Model_Tree Model_TreeNet Proofs_Block Model_Bpmn Spec_Bpmn Proofs_Bpmn Model_ToBpmn Proofs_ToBpmn1.

Lemma code_inj a b : code a = code b -> a = b.
Proof. destruct a, b; cbn [code]; intros H; try (exfalso; lia); try (f_equal; lia); reflexivity. Qed.
Definition name_eq_dec (a b : name) : {a = b} + {a <> b}. Proof. decide equality; apply Nat.eq_dec. Defined.
Lemma flat_only {X Y} (h : X -> list Y) l x : NoDup l -> In x l -> (forall y, In y l -> y <> x -> h y = []) -> flat_map h l = h x.
Proof.
  induction l as [|y l IH]; intros N H E; [easy|]. inversion N as [|? ? N1 N2]; subst. cbn. destruct H as [<- |H].
  - assert (Z : forall k, (forall z, In z k -> h z = []) -> flat_map h k = []). { induction k as [|z k IHk]; intros Hk; [reflexivity|]. cbn. rewrite (Hk z) by (left; auto). apply IHk. intros u Hu. apply Hk. right; auto. }
    rewrite Z; [apply app_nil_r|]. intros z Hz. apply E; [right; auto|intros ->; auto].
  - rewrite (E y); [|left; auto|intros ->; auto]. apply IH; auto. intros z Hz. apply E. right; auto.
Qed.
Lemma flat_none {X Y} (h : X -> list Y) l : (forall z, In z l -> h z = []) -> flat_map h l = [].
Proof. induction l as [|z k IHk]; intros Hk; [reflexivity|]. cbn. rewrite (Hk z) by (left; auto). apply IHk. intros u Hu. apply Hk. right; auto. Qed.
Lemma filter_flat {X Y} (q : Y -> bool) (h : X -> list Y) l : filter q (flat_map h l) = flat_map (fun x => filter q (h x)) l.
Proof. induction l as [|x l IH]; [reflexivity|]. cbn. now rewrite filter_app, IH. Qed.

Section Net.
  Variable net : petri_net (option nat).
  Variables i o : nat.
  Hypothesis HD : distinct_ids net.
  Hypothesis HA : forall t, In t (n_trans net) -> t_in t <> [] /\ t_out t <> [].
  Hypothesis HP : forall t p, In t (n_trans net) -> In p (pre t) \/ In p (post t) -> In p (n_places net).
  Hypothesis HPn : NoDup (n_places net).
  Hypothesis Hi : In i (n_places net).
  Hypothesis Ho : In o (n_places net).
  Notation ts := (n_trans net).
  Notation ann := (name * name * list nat)%type.
  Definition ann_task (t : tr) : list ann := match t_label t with None => [] | Some _ => [((NIn (t_id t), NTask (t_id t)), pre t); ((NTask (t_id t), NOut (t_id t)), post t)] end.
  Definition ann_arc (t : tr) : list ann := map (fun p => ((NPlace p, NIn (t_id t)), [p])) (pre t) ++ map (fun p => ((exit_name t, NPlace p), [p])) (post t).
  Definition anns : list ann := flat_map ann_task ts ++ flat_map ann_arc ts ++ [((NStart, NPlace i), [i])] ++ [((NPlace o, NEnd), [o])].
  Lemma map_flat {X Y Z} (h : Y -> Z) (k : X -> list Y) l : map h (flat_map k l) = flat_map (fun x => map h (k x)) l.
  Proof. induction l as [|x l IH]; [reflexivity|]. cbn. now rewrite map_app, IH. Qed.
  Lemma anns_flows : map fst anns = named_flows net [i] [o].
  Proof.
    unfold anns, named_flows. rewrite !map_app, !map_flat. f_equal; [|f_equal].
    - apply flat_map_ext. intros t. unfold ann_task, task_flows. destruct (t_label t); reflexivity.
    - apply flat_map_ext. intros t. unfold ann_arc, arc_flows, pre, post. rewrite map_app, !map_map. reflexivity.
  Qed.
  Notation d := (raw_diagram net [i] [o]).
  Definition cc (x : name * name) := (code (fst x), code (snd x)).
  Lemma enum_map {X Y} (h : X -> Y) (l : list X) : enum (map h l) = map (fun x => (fst x, h (snd x))) (enum l).
  Proof. unfold enum. rewrite map_length. generalize 0. induction l as [|x l IH]; intros k; [reflexivity|]. cbn. f_equal. apply IH. Qed.
  Lemma d_flows : b_flows d = map (fun x => (fst x, cc (fst (snd x)))) (enum anns).
  Proof. unfold raw_diagram. cbn [b_flows]. rewrite <- anns_flows, map_map. rewrite (enum_map (fun x : ann => (code (fst (fst x)), code (snd (fst x))))). reflexivity. Qed.
  Definition tgt (n : name) : list ann := filter (fun x => if name_eq_dec (snd (fst x)) n then true else false) anns.
  Definition src (n : name) : list ann := filter (fun x => if name_eq_dec (fst (fst x)) n then true else false) anns.
  Lemma code_test a b : Nat.eqb (code a) (code b) = if name_eq_dec a b then true else false.
  Proof. destruct (name_eq_dec a b) as [->|N]; [apply Nat.eqb_refl|]. apply Nat.eqb_neq. intros E. apply N, code_inj, E. Qed.
  Lemma filter_enum {X} (q : X -> bool) (l : list X) : map snd (filter (fun x => q (snd x)) (enum l)) = filter q l.
  Proof. unfold enum. generalize 0. induction l as [|x l IH]; intros k; [reflexivity|]. cbn. destruct (q x); cbn; rewrite IH; reflexivity. Qed.
  Lemma filter_map' {X Y} (q : Y -> bool) (h : X -> Y) l : filter q (map h l) = map h (filter (fun x => q (h x)) l).
  Proof. induction l as [|x l IH]; [reflexivity|]. cbn. destruct (q (h x)); cbn; now rewrite IH. Qed.
  (** the flow with number [f] *)
  Definition flow (f : nat) (x : ann) : Prop := nth_error anns f = Some x.
  Lemma inc_list n : exists fs, incoming d (code n) = fs /\ Forall2 flow fs (tgt n).
  Proof.
    eexists. split; [reflexivity|]. unfold incoming. rewrite d_flows, filter_map', map_map. unfold tgt. rewrite <- (filter_enum (fun x : ann => if name_eq_dec (snd (fst x)) n then true else false) anns).
    erewrite (filter_ext (fun x : nat * ann => Nat.eqb _ _) (fun x : nat * ann => if name_eq_dec (snd (fst (snd x))) n then true else false)); [|intros [? [[? ?] ?]]; cbn; apply code_test].
    assert (G : forall l : list (nat * ann), (forall x, In x l -> flow (fst x) (snd x)) -> Forall2 flow (map (fun x => fst x) l) (map snd l)).
    { induction l as [|x l IH]; intros H; constructor; [apply H; left; auto|apply IH; intros; apply H; right; auto]. }
    apply G. intros [f x] H. apply filter_In in H as [H _]. now apply enum_in in H.
  Qed.
  Lemma out_list n : exists fs, outgoing d (code n) = fs /\ Forall2 flow fs (src n).
  Proof.
    eexists. split; [reflexivity|]. unfold outgoing. rewrite d_flows, filter_map', map_map. unfold src. rewrite <- (filter_enum (fun x : ann => if name_eq_dec (fst (fst x)) n then true else false) anns).
    erewrite (filter_ext (fun x : nat * ann => Nat.eqb _ _) (fun x : nat * ann => if name_eq_dec (fst (fst (snd x))) n then true else false)); [|intros [? [[? ?] ?]]; cbn; apply code_test].
    assert (G : forall l : list (nat * ann), (forall x, In x l -> flow (fst x) (snd x)) -> Forall2 flow (map (fun x => fst x) l) (map snd l)).
    { induction l as [|x l IH]; intros H; constructor; [apply H; left; auto|apply IH; intros; apply H; right; auto]. }
    apply G. intros [f x] H. apply filter_In in H as [H _]. now apply enum_in in H.
  Qed.
  Lemma inc_flow n f x : flow f x -> snd (fst x) = n -> In f (incoming d (code n)).
  Proof.
    intros H E. unfold incoming. rewrite d_flows, filter_map', map_map. apply in_map_iff. exists (f, x). split; auto. apply filter_In. split; [now apply enum_in|]. cbn. rewrite code_test.
    destruct (name_eq_dec (snd (fst x)) n); congruence.
  Qed.
  Lemma out_flow n f x : flow f x -> fst (fst x) = n -> In f (outgoing d (code n)).
  Proof.
    intros H E. unfold outgoing. rewrite d_flows, filter_map', map_map. apply in_map_iff. exists (f, x). split; auto. apply filter_In. split; [now apply enum_in|]. cbn. rewrite code_test.
    destruct (name_eq_dec (fst (fst x)) n); congruence.
  Qed.
  Definition val (t : token) : list nat := match t with Begin => [i] | Done => [o] | On f => match nth_error anns f with Some x => snd x | None => [] end end.
  Definition vals (s : state) : list nat := concat (map val s).
  Lemma vals_on fs l : Forall2 flow fs l -> vals (map On fs) = concat (map snd l).
  Proof. unfold vals. induction 1 as [|f x fs l H F IH]; [reflexivity|]. cbn in *. rewrite IH. unfold flow in H. now rewrite H. Qed.
  Lemma vals_perm s s' : Permutation s s' -> Permutation (vals s) (vals s').
  Proof. intros P. unfold vals. induction P; cbn; auto; [now apply Permutation_app_head|rewrite !app_assoc; now apply Permutation_app_tail, Permutation_app_comm|etransitivity; eauto]. Qed.
  Lemma vals_app s s' : vals (s ++ s') = vals s ++ vals s'. Proof. unfold vals. now rewrite map_app, concat_app. Qed.

  (** ** the flows of each node *)
  Lemma same_id t u : In t ts -> In u ts -> t_id u = t_id t -> u = t.
  Proof. unfold distinct_ids in HD. clear -HD. induction ts as [|x l IH]; [easy|]. cbn in HD. inversion HD as [|? ? A B]; subst. intros [<- |H1] [<- |H2] E; auto; exfalso; apply A; [rewrite <- E|rewrite E]; now apply in_map. Qed.
  Lemma ts_nodup : NoDup ts.
  Proof. unfold distinct_ids in HD. eapply NoDup_map_inv; exact HD. Qed.
  Ltac dec_all := repeat (match goal with |- context [name_eq_dec ?a ?b] => destruct (name_eq_dec a b); try congruence end).
  Lemma filter_ann q : filter q anns = flat_map (fun t => filter q (ann_task t)) ts ++ flat_map (fun t => filter q (ann_arc t)) ts ++ filter q [((NStart, NPlace i), [i])] ++ filter q [((NPlace o, NEnd), [o])].
  Proof. unfold anns. now rewrite !filter_app, !filter_flat. Qed.
  Lemma filter_all {X} (q : X -> bool) l : (forall x, In x l -> q x = true) -> filter q l = l.
  Proof. induction l as [|x l IH]; intros H; [reflexivity|]. cbn. rewrite (H x) by (left; auto). f_equal. apply IH. intros; apply H; right; auto. Qed.
  Lemma filter_no {X} (q : X -> bool) l : (forall x, In x l -> q x = false) -> filter q l = [].
  Proof. induction l as [|x l IH]; intros H; [reflexivity|]. cbn. rewrite (H x) by (left; auto). apply IH. intros; apply H; right; auto. Qed.
  Lemma exit_in t : t_label t = None -> exit_name t = NIn (t_id t). Proof. unfold exit_name. now intros ->. Qed.
  Lemma exit_out t a : t_label t = Some a -> exit_name t = NOut (t_id t). Proof. unfold exit_name. now intros ->. Qed.
  Lemma exit_cases t : (t_label t = None /\ exit_name t = NIn (t_id t)) \/ (exists a, t_label t = Some a /\ exit_name t = NOut (t_id t)).
  Proof. unfold exit_name. destruct (t_label t); eauto. Qed.
  Ltac split_ann := rewrite ?filter_app, ?filter_map'; cbn [fst snd].
  Ltac kill_filters := repeat match goal with
    | |- context [filter ?q ?l] => first [rewrite (filter_no q l) by (intros; cbn [fst snd]; dec_all; reflexivity) | rewrite (filter_all q l) by (intros; cbn [fst snd]; dec_all; reflexivity)] end.
  Definition in_anns (t : tr) : list ann := map (fun p => ((NPlace p, NIn (t_id t)), [p])) (pre t).
  Definition out_anns (t : tr) : list ann := map (fun p => ((exit_name t, NPlace p), [p])) (post t).
  Lemma tgt_in t : In t ts -> tgt (NIn (t_id t)) = in_anns t.
  Proof.
    intros Ht. unfold tgt. rewrite filter_ann. rewrite (flat_none (fun t => filter _ (ann_task t))).
    - rewrite (flat_only _ ts t ts_nodup Ht).
      + unfold ann_arc. split_ann. kill_filters. cbn. rewrite !app_nil_r. unfold in_anns. reflexivity.
      + intros u Hu N. assert (t_id u <> t_id t) by (intros E; apply N; eapply same_id; eauto). unfold ann_arc. split_ann. kill_filters. reflexivity.
    - intros u Hu. unfold ann_task. destruct (t_label u); [|reflexivity]. kill_filters. reflexivity.
  Qed.
  Lemma src_exit t : In t ts -> src (exit_name t) = out_anns t.
  Proof.
    intros Ht. unfold src. rewrite filter_ann. destruct (exit_cases t) as [[L E]|(a & L & E)].
    - rewrite (flat_none (fun t => filter _ (ann_task t))).
      + rewrite (flat_only _ ts t ts_nodup Ht).
        * unfold ann_arc, out_anns. rewrite E. split_ann. kill_filters. cbn. now rewrite ?app_nil_r.
        * intros u Hu N. assert (t_id u <> t_id t) by (intros E'; apply N; eapply same_id; eauto). unfold ann_arc. rewrite E. destruct (exit_cases u) as [[L' E']|(a' & L' & E')]; rewrite E'; split_ann; kill_filters; reflexivity.
      + intros u Hu. unfold ann_task. rewrite E. destruct (t_label u) eqn:Lu; [|reflexivity]. assert (t_id u <> t_id t) by (intros E'; apply (same_id t u Ht Hu) in E'; congruence). cbn [filter fst snd]. dec_all; reflexivity.
    - rewrite (flat_none (fun t => filter _ (ann_task t))).
      + rewrite (flat_only _ ts t ts_nodup Ht).
        * unfold ann_arc, out_anns. rewrite E. split_ann. kill_filters. cbn. now rewrite ?app_nil_r.
        * intros u Hu N. assert (t_id u <> t_id t) by (intros E'; apply N; eapply same_id; eauto). unfold ann_arc. rewrite E. destruct (exit_cases u) as [[L' E']|(a' & L' & E')]; rewrite E'; split_ann; kill_filters; reflexivity.
      + intros u Hu. unfold ann_task. rewrite E. destruct (t_label u) eqn:Lu; [|reflexivity]. kill_filters. reflexivity.
  Qed.
  Lemma task_only (q : ann -> bool) t : In t ts -> (forall u, In u ts -> u <> t -> filter q (ann_task u) = []) -> (forall u, In u ts -> filter q (ann_arc u) = []) ->
    filter q [((NStart, NPlace i), [i])] = [] -> filter q [((NPlace o, NEnd), [o])] = [] -> filter q anns = filter q (ann_task t).
  Proof. intros Ht A B C D. rewrite filter_ann, (flat_only _ ts t ts_nodup Ht A), (flat_none _ _ B), C, D. cbn. now rewrite ?app_nil_r. Qed.
  Ltac task_lemma t Ht L := let u := fresh "u" in let Hu := fresh "Hu" in let N := fresh "N" in
    erewrite (task_only _ t Ht); [unfold ann_task; rewrite L; kill_filters; cbn [filter fst snd]; dec_all; reflexivity| | |cbn; dec_all; reflexivity|cbn; dec_all; reflexivity];
    intros u Hu; [intros N; assert (t_id u <> t_id t) by (intros E'; apply N; eapply same_id; eauto); unfold ann_task; destruct (t_label u); [cbn [filter fst snd]; dec_all; reflexivity|reflexivity]|
      unfold ann_arc; destruct (exit_cases u) as [[? E']|(? & ? & E')]; rewrite E'; split_ann; kill_filters; reflexivity].
  Lemma tgt_task t a : In t ts -> t_label t = Some a -> tgt (NTask (t_id t)) = [((NIn (t_id t), NTask (t_id t)), pre t)].
  Proof. intros Ht L. unfold tgt. task_lemma t Ht L. Qed.
  Lemma src_task t a : In t ts -> t_label t = Some a -> src (NTask (t_id t)) = [((NTask (t_id t), NOut (t_id t)), post t)].
  Proof. intros Ht L. unfold src. task_lemma t Ht L. Qed.
  Lemma tgt_out t a : In t ts -> t_label t = Some a -> tgt (NOut (t_id t)) = [((NTask (t_id t), NOut (t_id t)), post t)].
  Proof. intros Ht L. unfold tgt. task_lemma t Ht L. Qed.
  Lemma src_in t a : In t ts -> t_label t = Some a -> src (NIn (t_id t)) = [((NIn (t_id t), NTask (t_id t)), pre t)].
  Proof.
    intros Ht L. unfold src.
    erewrite (task_only _ t Ht); [unfold ann_task; rewrite L; cbn [filter fst snd]; dec_all; reflexivity| | |cbn; dec_all; reflexivity|cbn; dec_all; reflexivity]; intros u Hu.
    - intros N. assert (t_id u <> t_id t) by (intros E'; apply N; eapply same_id; eauto). unfold ann_task. destruct (t_label u); [cbn [filter fst snd]; dec_all; reflexivity|reflexivity].
    - unfold ann_arc. destruct (exit_cases u) as [[L' E']|(? & ? & E')]; rewrite E'; split_ann; [|kill_filters; reflexivity].
      assert (t_id u <> t_id t) by (intros E''; apply (same_id t u Ht Hu) in E''; congruence). kill_filters. reflexivity.
  Qed.
  Lemma tgt_start : tgt NStart = [].
  Proof.
    unfold tgt. rewrite filter_ann. rewrite !flat_none; [cbn; reflexivity| |]; intros u Hu.
    - unfold ann_arc. split_ann. kill_filters. reflexivity.
    - unfold ann_task. destruct (t_label u); [|reflexivity]. kill_filters. reflexivity.
  Qed.
  Lemma src_start : src NStart = [((NStart, NPlace i), [i])].
  Proof.
    unfold src. rewrite filter_ann. rewrite !flat_none; [cbn; reflexivity| |]; intros u Hu.
    - unfold ann_arc. destruct (exit_cases u) as [[L' E']|(? & ? & E')]; rewrite E'; split_ann; kill_filters; reflexivity.
    - unfold ann_task. destruct (t_label u); [|reflexivity]. kill_filters. reflexivity.
  Qed.
  Lemma tgt_end : tgt NEnd = [((NPlace o, NEnd), [o])].
  Proof.
    unfold tgt. rewrite filter_ann. rewrite !flat_none; [cbn; reflexivity| |]; intros u Hu.
    - unfold ann_arc. split_ann. kill_filters. reflexivity.
    - unfold ann_task. destruct (t_label u); [|reflexivity]. kill_filters. reflexivity.
  Qed.
  Lemma src_end : src NEnd = [].
  Proof.
    unfold src. rewrite filter_ann. rewrite !flat_none; [cbn; reflexivity| |]; intros u Hu.
    - unfold ann_arc. destruct (exit_cases u) as [[L' E']|(? & ? & E')]; rewrite E'; split_ann; kill_filters; reflexivity.
    - unfold ann_task. destruct (t_label u); [|reflexivity]. kill_filters. reflexivity.
  Qed.
  Lemma ann_shape x : In x anns -> (exists t, In t ts /\ In x (ann_task t)) \/ (exists t, In t ts /\ In x (ann_arc t)) \/ x = ((NStart, NPlace i), [i]) \/ x = ((NPlace o, NEnd), [o]).
  Proof.
    unfold anns. rewrite !in_app_iff, !in_flat_map. cbn. intuition.
  Qed.
  Lemma place_val x p : In x anns -> (fst (fst x) = NPlace p \/ snd (fst x) = NPlace p) -> snd x = [p].
  Proof.
    intros H. apply ann_shape in H as [(t & Ht & H)|[(t & Ht & H)|[-> | ->]]].
    - unfold ann_task in H. destruct (t_label t); [|easy]. destruct H as [<- |[<- |[]]]; cbn; intros [E|E]; discriminate.
    - unfold ann_arc in H. rewrite in_app_iff, !in_map_iff in H. destruct H as [(q & <- & _)|(q & <- & _)]; cbn; intros [E|E]; try congruence.
      destruct (exit_cases t) as [[_ E']|(? & _ & E')]; congruence.
    - cbn. intros [E|E]; congruence.
    - cbn. intros [E|E]; congruence.
  Qed.

  (** ** the nodes *)
  Lemma node_name n k : In (n, k) (b_nodes d) -> exists m, In (m, k) (named_nodes net) /\ n = code m.
  Proof. unfold raw_diagram. cbn [b_nodes]. rewrite in_map_iff. intros ([m k'] & E & H). cbn in E. injection E as <- <-. eauto. Qed.
  Lemma name_node m k : In (m, k) (named_nodes net) -> In (code m, k) (b_nodes d).
  Proof. intros H. unfold raw_diagram. cbn [b_nodes]. apply in_map_iff. exists (m, k). auto. Qed.
  Lemma place_node p : In p (n_places net) -> In (NPlace p, ExclusiveGateway) (named_nodes net).
  Proof. intros H. unfold named_nodes. apply in_app_iff. left. now apply (in_map (fun p => (NPlace p, ExclusiveGateway))). Qed.
  Lemma trans_node t x : In t ts -> In x (trans_nodes t) -> In x (named_nodes net).
  Proof. intros H Hx. unfold named_nodes. apply in_app_iff. right. apply in_app_iff. left. apply in_flat_map. eauto. Qed.
  Lemma start_node : In (NStart, StartEvent) (named_nodes net). Proof. unfold named_nodes. rewrite !in_app_iff. right. right. left. auto. Qed.
  Lemma end_node : In (NEnd, EndEvent) (named_nodes net). Proof. unfold named_nodes. rewrite !in_app_iff. right. right. right. left. auto. Qed.
  Inductive node_case : name -> kind -> Prop :=
  | nc_place p : In p (n_places net) -> node_case (NPlace p) ExclusiveGateway
  | nc_silent t : In t ts -> t_label t = None -> node_case (NIn (t_id t)) (gateway (several (t_in t) || several (t_out t)))
  | nc_in t a : In t ts -> t_label t = Some a -> node_case (NIn (t_id t)) (gateway (several (t_in t)))
  | nc_out t a : In t ts -> t_label t = Some a -> node_case (NOut (t_id t)) (gateway (several (t_out t)))
  | nc_task t a : In t ts -> t_label t = Some a -> node_case (NTask (t_id t)) (Task (Some a))
  | nc_start : node_case NStart StartEvent
  | nc_end : node_case NEnd EndEvent.
  Lemma cases m k : In (m, k) (named_nodes net) -> node_case m k.
  Proof.
    unfold named_nodes. rewrite !in_app_iff, in_map_iff, in_flat_map. intros [(p & E & H)|[(t & Ht & H)|[E|[E|[]]]]].
    - injection E as <- <-. now constructor.
    - unfold trans_nodes in H. destruct (t_label t) as [a|] eqn:L; [destruct H as [E|[E|[E|[]]]]|destruct H as [E|[]]]; injection E as <- <-; econstructor; eauto.
    - injection E as <- <-. constructor.
    - injection E as <- <-. constructor.
  Qed.

  (** ** from the diagram to the net *)
  Lemma in_single {X} (l : list X) x : In x l -> length l = 1 -> l = [x].
  Proof. destruct l as [|y [|]]; cbn; try lia. intros [->|[]]; auto. Qed.
  Lemma f2_length {X Y} (R : X -> Y -> Prop) l k : Forall2 R l k -> length l = length k.
  Proof. induction 1; cbn; auto. Qed.
  Lemma f2_in {X Y} (R : X -> Y -> Prop) l k x : Forall2 R l k -> In x l -> exists y, In y k /\ R x y.
  Proof. induction 1 as [|a b l k H F IH]; intros Hx; [destruct Hx|]. destruct Hx as [E|Hx]; [subst; exists b; split; [left; auto|auto]|]. destruct (IH Hx) as (y & A & B). exists y. split; [right; auto|auto]. Qed.
  Lemma in_vals m k ins : enters d (code m) k ins -> k <> StartEvent -> (k = ParallelGateway \/ length (tgt m) = 1) -> vals ins = concat (map snd (tgt m)).
  Proof.
    intros H N C. destruct (inc_list m) as (fs & E & F). destruct k; cbn [enters] in H; try (destruct C as [C|C]; [discriminate|]; destruct H as [(f & Hf & ->)|[E' _]]; [|congruence];
      rewrite E in Hf; assert (Q : fs = [f]) by (apply in_single; auto; rewrite (f2_length _ _ _ F); auto); rewrite Q in F; rewrite <- (vals_on _ _ F); reflexivity).
    destruct H as [-> _]. rewrite E. now apply vals_on.
  Qed.
  Lemma out_vals m k outs : leaves d (code m) k outs -> k <> EndEvent -> (k = ParallelGateway \/ length (src m) = 1) -> vals outs = concat (map snd (src m)).
  Proof.
    intros H N C. destruct (out_list m) as (fs & E & F). destruct k; cbn [leaves] in H; try (destruct C as [C|C]; [discriminate|]; destruct H as [(f & Hf & ->)|[E' _]]; [|congruence];
      rewrite E in Hf; assert (Q : fs = [f]) by (apply in_single; auto; rewrite (f2_length _ _ _ F); auto); rewrite Q in F; rewrite <- (vals_on _ _ F); reflexivity).
    destruct H as [-> _]. rewrite E. now apply vals_on.
  Qed.
  Lemma conc_single {X} (h : nat -> X) l : concat (map snd (map (fun p => (h p, [p])) l)) = l.
  Proof. induction l as [|p l IH]; [reflexivity|]. cbn. now rewrite IH. Qed.
  Lemma in_conc t : concat (map snd (in_anns t)) = pre t. Proof. apply conc_single. Qed.
  Lemma out_conc t : concat (map snd (out_anns t)) = post t. Proof. apply conc_single. Qed.
  Lemma not_several {X} (l : list X) : l <> [] -> several l = false -> length l = 1.
  Proof. unfold several. rewrite Nat.ltb_ge. destruct l; [congruence|cbn; lia]. Qed.
  Lemma in_len t : length (in_anns t) = length (t_in t). Proof. unfold in_anns, pre. now rewrite !map_length. Qed.
  Lemma out_len t : length (out_anns t) = length (t_out t). Proof. unfold out_anns, post. now rewrite !map_length. Qed.
  Lemma gw_not k b : gateway b = k -> k = ParallelGateway \/ (k = ExclusiveGateway /\ b = false). Proof. destruct b; cbn; intros <-; auto. Qed.
  Lemma gw_par b : gateway b = ParallelGateway \/ b = false. Proof. destruct b; cbn; auto. Qed.
  Lemma gw_start b : gateway b <> StartEvent. Proof. destruct b; discriminate. Qed.
  Lemma gw_end b : gateway b <> EndEvent. Proof. destruct b; discriminate. Qed.
  Lemma gw_shows b : shows (gateway b) = []. Proof. destruct b; reflexivity. Qed.
  Lemma sim m k ins outs : In (m, k) (named_nodes net) -> enters d (code m) k ins -> leaves d (code m) k outs ->
    (shows k = [] /\ vals ins = vals outs) \/ (exists t, In t ts /\ vis t = shows k /\ vals ins = pre t /\ vals outs = post t).
  Proof.
    intros Hn He Hl. apply cases in Hn. destruct Hn as [p Hp|t Ht L|t a Ht L|t a Ht L|t a Ht L| |].
    - left. split; [reflexivity|]. cbn [enters leaves] in *. destruct He as [(f & Hf & ->)|[E _]]; [|discriminate]. destruct Hl as [(f' & Hf' & ->)|[E _]]; [|discriminate].
      destruct (inc_list (NPlace p)) as (fs & E & F). rewrite E in Hf. destruct (f2_in _ _ _ _ F Hf) as (x & Hx & Vx). destruct (out_list (NPlace p)) as (fs' & E' & F'). rewrite E' in Hf'. destruct (f2_in _ _ _ _ F' Hf') as (y & Hy & Vy).
      unfold tgt in Hx. apply filter_In in Hx as [Hx Tx]. destruct (name_eq_dec (snd (fst x)) (NPlace p)) as [Dx|]; [|discriminate].
      unfold src in Hy. apply filter_In in Hy as [Hy Ty]. destruct (name_eq_dec (fst (fst y)) (NPlace p)) as [Dy|]; [|discriminate].
      unfold vals. cbn. unfold flow in Vx, Vy. rewrite Vx, Vy, (place_val x p Hx), (place_val y p Hy); auto.
    - right. exists t. split; auto. split; [unfold vis; rewrite L, gw_shows; reflexivity|]. destruct (HA t Ht) as [A1 A2].
      assert (C : gateway (several (t_in t) || several (t_out t)) = ParallelGateway \/ (length (t_in t) = 1 /\ length (t_out t) = 1)).
      { destruct (gw_par (several (t_in t) || several (t_out t))) as [G|G]; [auto|]. right. apply orb_false_iff in G as [G1 G2]. split; apply not_several; auto. }
      split.
      + rewrite (in_vals _ _ _ He (gw_start _)); [rewrite (tgt_in t Ht); apply conc_single|]. rewrite (tgt_in t Ht), in_len. tauto.
      + rewrite <- (exit_in t L) in Hl. rewrite (out_vals _ _ _ Hl (gw_end _)); [rewrite (src_exit t Ht); apply conc_single|]. rewrite (src_exit t Ht), out_len. tauto.
    - left. split; [apply gw_shows|]. destruct (HA t Ht) as [A1 A2]. rewrite (in_vals _ _ _ He (gw_start _)); [rewrite (tgt_in t Ht), in_conc|].
      + rewrite (out_vals _ _ _ Hl (gw_end _)); rewrite (src_in t a Ht L); [cbn; now rewrite app_nil_r|cbn; auto].
      + rewrite (tgt_in t Ht), in_len. destruct (gw_par (several (t_in t))); auto. right. apply not_several; auto.
    - left. split; [apply gw_shows|]. destruct (HA t Ht) as [A1 A2]. rewrite <- (exit_out t a L) in Hl. rewrite (out_vals _ _ _ Hl (gw_end _)); [rewrite (src_exit t Ht), out_conc|].
      + rewrite (in_vals _ _ _ He (gw_start _)); rewrite (tgt_out t a Ht L); [cbn; now rewrite app_nil_r|cbn; auto].
      + rewrite (src_exit t Ht), out_len. destruct (gw_par (several (t_out t))); auto. right. apply not_several; auto.
    - right. exists t. split; auto. split; [unfold vis; rewrite L; reflexivity|]. split.
      + rewrite (in_vals _ _ _ He ltac:(discriminate)); rewrite (tgt_task t a Ht L); [cbn; now rewrite app_nil_r|cbn; auto].
      + rewrite (out_vals _ _ _ Hl ltac:(discriminate)); rewrite (src_task t a Ht L); [cbn; now rewrite app_nil_r|cbn; auto].
    - left. split; [reflexivity|]. rewrite (out_vals _ _ _ Hl ltac:(discriminate)); rewrite src_start; [|cbn; auto]. cbn [enters] in He. destruct He as [(f & Hf & _)|[_ ->]]; [|reflexivity].
      destruct (inc_list NStart) as (fs & E & F). rewrite E in Hf. destruct (f2_in _ _ _ _ F Hf) as (x & Hx & _). rewrite tgt_start in Hx. easy.
    - left. split; [reflexivity|]. rewrite (in_vals _ _ _ He ltac:(discriminate)); rewrite tgt_end; [|cbn; auto]. cbn [leaves] in Hl. destruct Hl as [(f & Hf & _)|[_ ->]]; [|reflexivity].
      destruct (out_list NEnd) as (fs & E & F). rewrite E in Hf. destruct (f2_in _ _ _ _ F Hf) as (x & Hx & _). rewrite src_end in Hx. easy.
  Qed.
  Lemma to_net s w s' : steps d s w s' -> runs ts (cnt (vals s)) w (cnt (vals s')).
  Proof.
    induction 1 as [s s' P|s w s1 n k ins outs rest s2 H IH Hn He Hl P1 P2].
    - constructor. intros p. apply cnt_perm, vals_perm, P.
    - apply node_name in Hn as (m & Hm & ->). destruct (sim m k ins outs Hm He Hl) as [[E V]|(t & Ht & E & V1 & V2)].
      + rewrite E, app_nil_r. eapply runs_ext_r; [exact IH|]. intros p. rewrite (cnt_perm _ _ p (vals_perm _ _ P1)), (cnt_perm _ _ p (vals_perm _ _ P2)), !vals_app, V. reflexivity.
      + rewrite <- E. eapply r_snoc; [exact IH|exact Ht|]. split; intros p; rewrite (cnt_perm _ _ p (vals_perm _ _ P1)), ?(cnt_perm _ _ p (vals_perm _ _ P2)), !vals_app, !cnt_app, V1, ?V2; lia.
  Qed.

  (** ** from the net to the diagram *)
  Definition at_place (x : token) (p : nat) : Prop := exists f a, x = On f /\ flow f a /\ snd (fst a) = NPlace p.
  Lemma move (t : tr) s ps fs rest : (forall p, In p ps -> In p (n_places net)) -> Forall2 at_place s ps -> Forall2 flow fs (map (fun p => ((NPlace p, NIn (t_id t)), [p])) ps) ->
    steps d (s ++ rest) [] (map On fs ++ rest).
  Proof.
    revert s fs rest. induction ps as [|p ps IH]; intros s fs rest Hp A F; inversion A as [|x p' s1 ps' X A1 E1 E2]; subst; inversion F as [|g a fs1 l Y F1 E3 E4]; subst.
    - constructor. auto.
    - cbn [map app]. destruct X as (f & b & -> & Fb & Tb). eapply (steps_trans d _ [] (On g :: s1 ++ rest) []).
      + apply (one d (code (NPlace p)) ExclusiveGateway [On f] [On g] (s1 ++ rest)).
        * apply name_node, place_node, Hp. left; auto.
        * exists [On f]. split; auto. left. exists f. split; auto. eapply inc_flow; eauto.
        * exists [On g]. split; auto. left. exists g. split; auto. eapply out_flow; [exact Y|reflexivity].
      + eapply (steps_trans d _ [] (s1 ++ On g :: rest) []); [constructor; apply Permutation_middle|]. eapply steps_perm'; [apply (IH s1 fs1 (On g :: rest))|apply Permutation_sym, Permutation_middle]; auto.
        intros q Hq. apply Hp. right; auto.
  Qed.
  Lemma one_nil e n k ins outs rest : shows k = [] -> In (n, k) (b_nodes e) -> enters_p e n k ins -> leaves_p e n k outs -> steps e (ins ++ rest) [] (outs ++ rest).
  Proof. intros S A B C. rewrite <- S. now apply (one e n k). Qed.
  Lemma enter_all m k fs l : incoming d (code m) = fs -> Forall2 flow fs l -> l <> [] -> (k = ParallelGateway \/ length l = 1) -> enters_p d (code m) k (map On fs).
  Proof.
    intros E F N C. exists (map On fs). split; auto. assert (Nf : fs <> []) by (intros ->; inversion F; subst; auto).
    assert (G : k <> ParallelGateway -> exists f, In f (incoming d (code m)) /\ map On fs = [On f]).
    { intros K. destruct C as [C|C]; [congruence|]. rewrite E. apply f2_length in F. destruct fs as [|f [|]]; cbn in F; try lia. exists f. split; [left; auto|auto]. }
    destruct k; cbn [enters]; try (left; apply G; discriminate). rewrite E. split; auto. intros Q. apply map_eq_nil in Q. auto.
  Qed.
  Lemma leave_all m k fs l : outgoing d (code m) = fs -> Forall2 flow fs l -> l <> [] -> (k = ParallelGateway \/ length l = 1) -> leaves_p d (code m) k (map On fs).
  Proof.
    intros E F N C. exists (map On fs). split; auto. assert (Nf : fs <> []) by (intros ->; inversion F; subst; auto).
    assert (G : k <> ParallelGateway -> exists f, In f (outgoing d (code m)) /\ map On fs = [On f]).
    { intros K. destruct C as [C|C]; [congruence|]. rewrite E. apply f2_length in F. destruct fs as [|f [|]]; cbn in F; try lia. exists f. split; [left; auto|auto]. }
    destruct k; cbn [leaves]; try (left; apply G; discriminate). rewrite E. split; auto. intros Q. apply map_eq_nil in Q. auto.
  Qed.
  Lemma in_ne t : In t ts -> in_anns t <> []. Proof. intros Ht E. destruct (HA t Ht) as [A _]. apply A. apply length_zero_iff_nil. rewrite <- in_len, E. reflexivity. Qed.
  Lemma out_ne t : In t ts -> out_anns t <> []. Proof. intros Ht E. destruct (HA t Ht) as [_ A]. apply A. apply length_zero_iff_nil. rewrite <- out_len, E. reflexivity. Qed.
  Lemma inc_out_task f m m' x : flow f x -> fst x = (m, m') -> tgt m' = [x] -> incoming d (code m') = [f].
  Proof.
    intros Hf E T. destruct (inc_list m') as (fs & Ei & F). assert (Hi' : In f (incoming d (code m'))) by (eapply inc_flow; eauto; now rewrite E). rewrite Ei in *. rewrite T in F. apply f2_length in F. apply in_single; auto.
  Qed.
  Lemma fire_steps t rest : In t ts -> exists fs gs, incoming d (code (NIn (t_id t))) = fs /\ Forall2 flow fs (in_anns t) /\ Forall2 flow gs (out_anns t) /\ steps d (map On fs ++ rest) (vis t) (map On gs ++ rest).
  Proof.
    intros Ht. destruct (HA t Ht) as [A1 A2]. destruct (inc_list (NIn (t_id t))) as (fs & Ef & Ff). rewrite (tgt_in t Ht) in Ff. destruct (out_list (exit_name t)) as (gs & Eg & Fg). rewrite (src_exit t Ht) in Fg.
    exists fs, gs. split; auto. split; auto. split; auto. destruct (exit_cases t) as [[L E]|(a & L & E)].
    - set (k := gateway (several (t_in t) || several (t_out t))). assert (C : k = ParallelGateway \/ (length (t_in t) = 1 /\ length (t_out t) = 1)).
      { unfold k. destruct (gw_par (several (t_in t) || several (t_out t))) as [G|G]; [auto|]. right. apply orb_false_iff in G as [G1 G2]. split; apply not_several; auto. }
      assert (V : vis t = shows k) by (unfold vis, k; now rewrite L, gw_shows). rewrite V. apply (one d (code (NIn (t_id t))) k).
      + apply name_node. apply (trans_node t); auto. unfold trans_nodes. rewrite L. left. reflexivity.
      + apply (enter_all _ _ _ _ Ef Ff (in_ne t Ht)). rewrite in_len. tauto.
      + rewrite <- E. apply (leave_all _ _ _ _ Eg Fg (out_ne t Ht)). rewrite out_len. tauto.
    - destruct (out_list (NIn (t_id t))) as (f1 & E1 & F1). rewrite (src_in t a Ht L) in F1. inversion F1 as [|x1 ? f1' ? H1 F1' X1 X2]; subst. inversion F1'; subst.
      destruct (out_list (NTask (t_id t))) as (f2 & E2 & F2). rewrite (src_task t a Ht L) in F2. inversion F2 as [|x2 ? f2' ? H2 F2' Y1 Y2]; subst. inversion F2'; subst. rewrite <- X1 in F1. rewrite <- Y1 in F2.
      assert (I1 : incoming d (code (NTask (t_id t))) = [x1]) by (eapply inc_out_task; [exact H1|reflexivity|eapply tgt_task; eauto]).
      assert (I2 : incoming d (code (NOut (t_id t))) = [x2]) by (eapply inc_out_task; [exact H2|reflexivity|eapply tgt_out; eauto]).
      assert (N1 : In (NIn (t_id t), gateway (several (t_in t))) (named_nodes net)) by (apply (trans_node t); auto; unfold trans_nodes; rewrite L; left; auto).
      assert (N2 : In (NOut (t_id t), gateway (several (t_out t))) (named_nodes net)) by (apply (trans_node t); auto; unfold trans_nodes; rewrite L; right; left; auto).
      assert (N3 : In (NTask (t_id t), Task (Some a)) (named_nodes net)) by (apply (trans_node t); auto; unfold trans_nodes; rewrite L; right; right; left; auto).
      assert (S1 : steps d (map On (incoming d (code (NIn (t_id t)))) ++ rest) [] (map On [x1] ++ rest)).
      { apply (one_nil d (code (NIn (t_id t))) _ _ _ _ (gw_shows (several (t_in t)))); [now apply name_node| |].
        - apply (enter_all _ _ _ _ eq_refl Ff (in_ne t Ht)). rewrite in_len. destruct (gw_par (several (t_in t))); auto. right. apply not_several; auto.
        - eapply (leave_all _ _ [x1]); [congruence|exact F1|discriminate|right; reflexivity]. }
      assert (S2 : steps d (map On [x1] ++ rest) (vis t) (map On [x2] ++ rest)).
      { assert (V : vis t = shows (Task (Some a))) by (unfold vis; now rewrite L). rewrite V. apply (one d (code (NTask (t_id t)))); [now apply name_node| |].
        - eapply (enter_all _ _ [x1]); [exact I1|exact F1|discriminate|right; reflexivity].
        - eapply (leave_all _ _ [x2]); [congruence|exact F2|discriminate|right; reflexivity]. }
      assert (S3 : steps d (map On [x2] ++ rest) [] (map On (outgoing d (code (exit_name t))) ++ rest)).
      { apply (one_nil d (code (NOut (t_id t))) _ _ _ _ (gw_shows (several (t_out t)))); [now apply name_node| |].
        - eapply (enter_all _ _ [x2]); [exact I2|exact F2|discriminate|right; reflexivity].
        - rewrite <- E. apply (leave_all _ _ _ _ eq_refl Fg (out_ne t Ht)). rewrite out_len. destruct (gw_par (several (t_out t))); auto. right. apply not_several; auto. }
      rewrite <- (app_nil_r (vis t)). rewrite <- (app_nil_l (vis t)) at 1. eapply steps_trans; [eapply steps_trans; [exact S1|exact S2]|exact S3].
  Qed.
  Lemma cnt_split a : forall l, (forall p, cnt a p <= cnt l p) -> exists r, Permutation l (a ++ r).
  Proof.
    induction a as [|x a IH]; intros l H; [exists l; auto|]. assert (Hx : In x l) by (apply cnt_in; specialize (H x); cbn in H; rewrite Nat.eqb_refl in H; lia).
    apply in_split in Hx as (l1 & l2 & ->). destruct (IH (l1 ++ l2)) as (r & P).
    - intros p. specialize (H p). rewrite cnt_app in *. cbn in H. destruct (Nat.eqb x p); lia.
    - exists r. cbn. rewrite <- P. symmetry. apply Permutation_middle.
  Qed.
  Lemma from_net m w m' : runs ts m w m' -> forall s ps, (forall p, m p = cnt ps p) -> Forall2 at_place s ps ->
    exists s' ps', (forall p, m' p = cnt ps' p) /\ Forall2 at_place s' ps' /\ steps d s w s'.
  Proof.
    induction 1 as [m m' E|m w m1 t m2 H IH Ht [G1 G2]]; intros s ps Em A.
    - exists s, ps. split; [intros p; rewrite <- E; auto|]. split; auto. constructor. auto.
    - destruct (IH s ps Em A) as (s1 & ps1 & E1 & A1 & S1). destruct (cnt_split (pre t) ps1) as (r & P); [intros p; rewrite <- E1; auto|].
      assert (A1' : Forall2 (fun p x => at_place x p) ps1 s1) by (clear -A1; induction A1; constructor; auto).
      destruct (Permutation_Forall2 P A1') as (s1' & Ps & F). apply Forall2_app_inv_l in F as (sa & sb & Fa & Fb & ->).
      destruct (fire_steps t sb Ht) as (fs & gs & _ & Ff & Fg & S2).
      exists (map On gs ++ sb), (post t ++ r). split; [|split].
      + intros p. specialize (G2 p). rewrite (E1 p), (cnt_perm _ _ p P), !cnt_app in *. lia.
      + apply Forall2_app.
        * clear -Fg. unfold out_anns in Fg. revert gs Fg. induction (post t) as [|p l IHl]; intros gs Fg; inversion Fg as [|g a gs' l' X F1 E3 E4]; subst; [constructor|]. cbn. constructor; auto. exists g, ((exit_name t, NPlace p), [p]). auto.
        * clear -Fb. induction Fb; constructor; auto.
      + eapply steps_trans; [exact S1|]. rewrite <- (app_nil_l (vis t)). eapply steps_trans; [|exact S2]. eapply (steps_trans d _ [] (sa ++ sb) []); [constructor; exact Ps|].
        apply (move t sa (pre t)); auto; [intros p Hp; apply (HP t); auto|]. clear -Fa. induction Fa; constructor; auto.
  Qed.
  Theorem raw_plays w : plays d w <-> runs ts (cnt [i]) w (cnt [o]).
  Proof.
    split; [intros H; exact (to_net _ _ _ H)|]. intros H.
    destruct (out_list NStart) as (fs & E & F). rewrite src_start in F. inversion F as [|f ? fs' ? Hf F' X1 X2]; subst. inversion F'; subst.
    destruct (from_net _ _ _ H [On f] [i]) as (s' & ps' & E' & A' & S'); [auto|constructor; [|constructor]; eexists f, _; split; [reflexivity|split; [exact Hf|reflexivity]]|].
    assert (P : Permutation [o] ps') by (apply perm_of_cnt; auto). apply Permutation_length_1_inv in P. subst ps'. inversion A' as [|x p s1 l1 (g & a & -> & Fa & Ta) A1 Z1 Z2]; subst. inversion A1; subst.
    destruct (out_list (NPlace o)) as (gs & Eo & _).
    destruct (inc_list NEnd) as (hs & Eh & Fh). rewrite tgt_end in Fh. inversion Fh as [|h ? hs' ? Hh Fh' Y1 Y2]; subst. inversion Fh'; subst.
    assert (S0 : steps d [Begin] [] [On f]).
    { apply (one d (code NStart) StartEvent [Begin] [On f] []); [apply name_node, start_node| |].
      - exists [Begin]. split; auto. right. auto.
      - exists [On f]. split; auto. left. exists f. split; auto. eapply out_flow; eauto. }
    assert (S1 : steps d [On g] [] [On h]).
    { apply (one d (code (NPlace o)) ExclusiveGateway [On g] [On h] []); [now apply name_node, place_node| |].
      - exists [On g]. split; auto. left. exists g. split; auto. eapply inc_flow; eauto.
      - exists [On h]. split; auto. left. exists h. split; auto. eapply out_flow; eauto. }
    assert (S2 : steps d [On h] [] [Done]).
    { apply (one d (code NEnd) EndEvent [On h] [Done] []); [apply name_node, end_node| |].
      - exists [On h]. split; auto. left. exists h. split; auto. eapply inc_flow; eauto.
      - exists [Done]. split; auto. right. auto. }
    unfold plays. rewrite <- (app_nil_l w), <- (app_nil_r ([] ++ w)). eapply steps_trans; [eapply steps_trans; [exact S0|exact S']|]. eapply (steps_trans d _ [] _ []); [exact S1|exact S2].
  Qed.
  (** ** the diagram is well-formed *)
  Lemma codes_nodup l : NoDup l -> NoDup (map code l).
  Proof. induction 1 as [|x l H N IH]; cbn [map]; constructor; auto. rewrite in_map_iff. intros (y & E & Hy). apply code_inj in E. subst. auto. Qed.
  Lemma nodup_flat {X Y} (h : X -> list Y) l : NoDup l -> (forall x, In x l -> NoDup (h x)) -> (forall x y z, In x l -> In y l -> In z (h x) -> In z (h y) -> x = y) -> NoDup (flat_map h l).
  Proof.
    induction 1 as [|x l H N IH]; intros A B; [constructor|]. cbn. assert (NoDup (flat_map h l)) by (apply IH; [intros; apply A; right; auto|intros u v z Hu Hv; apply B; right; auto]).
    assert (Nx : NoDup (h x)) by (apply A; left; auto). assert (Dj : forall z, In z (h x) -> ~ In z (flat_map h l)). { intros z Hz Q. apply in_flat_map in Q as (y & Hy & Q). apply H. rewrite (B x y z); auto; [left; auto|right; auto]. }
    clear -H0 Nx Dj. induction (h x) as [|z k IHk]; [auto|]. inversion Nx; subst. cbn. constructor; [rewrite in_app_iff; intros [Q|Q]; [auto|apply (Dj z); [left; auto|auto]]|]. apply IHk; auto. intros u Hu. apply Dj. right; auto.
  Qed.
  Lemma nodup_app' {X} (l k : list X) : NoDup l -> NoDup k -> (forall z, In z l -> ~ In z k) -> NoDup (l ++ k).
  Proof. induction 1 as [|x l H N IH]; intros K D; [auto|]. cbn. constructor; [rewrite in_app_iff; intros [Q|Q]; [auto|apply (D x); [left; auto|auto]]|]. apply IH; auto. intros z Hz. apply D. right; auto. Qed.
  Definition id_of (n : name) : nat := match n with NPlace p => p | NIn x | NOut x | NTask x => x | _ => 0 end.
  Lemma names_of t z : In z (map fst (trans_nodes t)) -> id_of z = t_id t /\ z <> NStart /\ z <> NEnd /\ forall p, z <> NPlace p.
  Proof. unfold trans_nodes. destruct (t_label t); cbn; intuition subst; cbn; auto; discriminate. Qed.
  Lemma raw_wf : well_formed d.
  Proof.
    split; [|split; [|split]].
    - assert (E : map fst (b_nodes d) = map code (map fst (named_nodes net))) by (unfold raw_diagram; cbn [b_nodes]; now rewrite !map_map). rewrite E. apply codes_nodup.
      unfold named_nodes. rewrite !map_app, map_flat. apply nodup_app'; [| |].
      + rewrite map_map. cbn. clear -HPn. induction HPn as [|x l H N IH]; cbn [map]; constructor; auto. rewrite in_map_iff. intros (y & E & Hy). injection E as ->. auto.
      + apply nodup_app'.
        * apply nodup_flat; [apply ts_nodup| |].
          -- intros t _. unfold trans_nodes. destruct (t_label t); cbn; repeat constructor; cbn; intuition discriminate.
          -- intros t u z Ht Hu A B. apply names_of in A as [A _]. apply names_of in B as [B _]. symmetry. eapply same_id; eauto. congruence.
        * cbn. repeat constructor; cbn; intuition discriminate.
        * intros z Hz. apply in_flat_map in Hz as (t & _ & Hz). apply names_of in Hz. cbn. intuition congruence.
      + intros z Hz. rewrite map_map in Hz. apply in_map_iff in Hz as (p & <- & _). cbn [fst]. rewrite in_app_iff, in_flat_map. intros [(t & _ & Q)|Q]; [apply names_of in Q as (_ & _ & _ & Q); eapply Q; reflexivity|]. cbn in Q. intuition discriminate.
    - rewrite d_flows, map_map. cbn. unfold enum. generalize anns. clear. intros l. replace (map (fun x : nat * ann => fst x) (combine (seq 0 (length l)) l)) with (seq 0 (length l)); [apply seq_NoDup|].
      generalize 0. induction l as [|x l IH]; intros k; [reflexivity|]. cbn. f_equal. apply IH.
    - intros n Hn. apply node_name in Hn as (m & Hm & _). apply cases in Hm. inversion Hm as [| | | | | |]; subst; try (match goal with H : gateway ?b = Other |- _ => destruct b; discriminate end).
    - assert (K : forall m k, In (m, k) (named_nodes net) -> In (code m) (map fst (b_nodes d))) by (intros m k Hm; apply name_node in Hm; apply (in_map fst _ _ Hm)).
      assert (Kp : forall p, In p (n_places net) -> In (code (NPlace p)) (map fst (b_nodes d))) by (intros p Hp; eapply K; apply place_node; auto).
      assert (Ki : forall t, In t ts -> In (code (NIn (t_id t))) (map fst (b_nodes d))) by (intros t Ht; destruct (t_label t) eqn:L; eapply K; eapply (trans_node t); eauto; unfold trans_nodes; rewrite L; left; reflexivity).
      assert (Ko : forall t a, In t ts -> t_label t = Some a -> In (code (NOut (t_id t))) (map fst (b_nodes d))) by (intros t a Ht L; eapply K; eapply (trans_node t); eauto; unfold trans_nodes; rewrite L; right; left; reflexivity).
      assert (Kt : forall t a, In t ts -> t_label t = Some a -> In (code (NTask (t_id t))) (map fst (b_nodes d))) by (intros t a Ht L; eapply K; eapply (trans_node t); eauto; unfold trans_nodes; rewrite L; right; right; left; reflexivity).
      assert (Ke : forall t, In t ts -> In (code (exit_name t)) (map fst (b_nodes d))) by (intros t Ht; destruct (exit_cases t) as [[L E]|(a & L & E)]; rewrite E; eauto).
      intros f s t H. rewrite d_flows in H. apply in_map_iff in H as ([f' x] & E & H). injection E as _ <- <-. apply enum_in in H. apply nth_error_In in H. cbn.
      apply ann_shape in H as [(u & Hu & H)|[(u & Hu & H)|[-> | ->]]].
      + unfold ann_task in H. destruct (t_label u) eqn:L; [|easy]. destruct H as [<- |[<- |[]]]; cbn [fst snd]; split; eauto.
      + unfold ann_arc in H. rewrite in_app_iff, !in_map_iff in H. destruct H as [(q & <- & Hq)|(q & <- & Hq)]; cbn [fst snd]; split; auto; apply Kp, (HP u); auto.
      + cbn [fst snd]. split; auto. eapply K. apply start_node.
      + cbn [fst snd]. split; auto. eapply K. apply end_node.
  Qed.
End Net.
