From Coq Require Import List Arith Bool Ascii Lia.
From Verif Require Import Model_Dict Proofs_Dict Model_DfgFile Model_LogConv Spec_LogConv.
Import ListNotations.

Lemma starts_spec pat s : starts pat s = true <-> begins_with pat s.
Proof.
  revert s. induction pat as [|c p IH]; intros s; [split; [exists s; reflexivity|reflexivity]|]. destruct s as [|d s]; cbn; [split; [discriminate|intros (b & E); discriminate]|].
  rewrite andb_true_iff, IH. split.
  - intros [E (b & ->)]. apply Ascii.eqb_eq in E. subst d. exists b. reflexivity.
  - intros (b & E). injection E as -> ->. split; [apply Ascii.eqb_refl|exists b; reflexivity].
Qed.
Lemma starts_no pat s : ~ begins_with pat s -> starts pat s = false.
Proof. intros H. destruct (starts pat s) eqn:E; auto. apply starts_spec in E. tauto. Qed.
Lemma starts_app pat k : starts pat (pat ++ k) = true.
Proof. apply starts_spec. exists k. reflexivity. Qed.
Lemma remove_free pat k : free_of pat k -> remove_all pat 0 k = k.
Proof.
  induction k as [|c k IH]; intros F; [reflexivity|]. cbn [remove_all]. destruct (starts pat (c :: k)) eqn:E.
  - apply starts_spec in E as (b & E). exfalso. exact (F [] b E).
  - rewrite IH; auto. intros a b Q. apply (F (c :: a) b). rewrite Q. reflexivity.
Qed.
Lemma remove_skip pat a k : remove_all pat (length a) (a ++ k) = remove_all pat 0 k.
Proof. induction a as [|c a IH]; [destruct k; reflexivity|exact IH]. Qed.
Lemma remove_pref pat k : pat <> [] -> free_of pat k -> remove_all pat 0 (pat ++ k) = k.
Proof.
  intros N F. destruct pat as [|c p]; [congruence|]. cbn [app remove_all]. rewrite (starts_app (c :: p) k : starts (c :: p) (c :: p ++ k) = true). cbn [length]. rewrite Nat.sub_succ, Nat.sub_0_r, remove_skip. apply remove_free, F.
Qed.

Section C.
  Context {V : Type} {KV : Key V}.
  Implicit Types e d : dict text V.
  Implicit Types t : trace V.
  Variables pref name : text.
  Hypothesis HP : pref <> [].
  Notation glue := (pref ++ name).
  Lemma d_get_nil k : d_get ([] : dict text V) k = None.
  Proof. reflexivity. Qed.
  Lemma d_get_filter (f : text -> bool) e k : d_get (filter (fun kv => f (fst kv)) e) k = if f k then d_get e k else None.
  Proof.
    induction e as [|[a v] e IH]; [destruct (f k); reflexivity|]. cbn [filter fst d_get]. destruct (keqb_spec a k) as [E|N]; destruct (f a) eqn:Fa; cbn [d_get].
    - subst a. rewrite keqb_refl, Fa. reflexivity.
    - subst a. rewrite IH, Fa. reflexivity.
    - rewrite keqb_neq by auto. exact IH.
    - exact IH.
  Qed.
  (** ** the attributes of a case *)
  Definition gather e d := fold_left (fun d kv => if starts pref (fst kv) then d_set d (remove_all pref 0 (fst kv)) (snd kv) else d) e d.
  Definition clean e := forall k, In (pref ++ k) (map fst e) -> free_of pref k.
  Lemma gather_get e : NoDup (map fst e) -> clean e -> forall d k, d_get (gather e d) k = match d_get e (pref ++ k) with Some v => Some v | None => d_get d k end.
  Proof.
    induction e as [|[a v] e IH]; intros N C d k; [reflexivity|]. cbn [map fst] in N. inversion N as [|? ? N1 N2]; subst. assert (C' : clean e) by (intros k' Hk; apply C; right; exact Hk).
    change (gather ((a, v) :: e) d) with (gather e (if starts pref a then d_set d (remove_all pref 0 a) v else d)). rewrite IH by auto. cbn [d_get]. destruct (starts pref a) eqn:S.
    - apply starts_spec in S as (b & ->). rewrite remove_pref; auto; [|apply C; left; reflexivity]. rewrite d_get_set. destruct (keqb_spec (pref ++ b) (pref ++ k)) as [E|E].
      + apply app_inv_head in E. subst b. rewrite (proj2 (d_get_none e (pref ++ k)) N1), !keqb_refl. reflexivity.
      + rewrite (keqb_neq b k), (keqb_neq (pref ++ b)) by congruence. reflexivity.
    - destruct (keqb_spec a (pref ++ k)) as [->|E]; [rewrite starts_app in S; discriminate|reflexivity].
  Qed.
  Lemma attrs_get id e : NoDup (map fst e) -> clean e -> In glue (map fst e) -> forall k, d_get (case_attributes pref name id e) k = d_get e (pref ++ k).
  Proof.
    intros N C G k. unfold case_attributes. change (fold_left _ e []) with (gather e []). assert (M : d_mem (gather e []) name = true).
    { unfold d_mem. rewrite gather_get by auto. apply (proj2 (d_get_keys e glue)) in G. revert G. destruct (d_get e glue); [reflexivity|intros []; reflexivity]. }
    rewrite M, gather_get by auto. destruct (d_get e (pref ++ k)); reflexivity.
  Qed.
  Lemma part_of e : event_part pref e (without_case pref e).
  Proof.
    unfold without_case. split; intros k H; rewrite (d_get_filter (fun k => negb (starts pref k)) e k).
    - apply starts_spec in H. rewrite H. reflexivity.
    - apply starts_no in H. rewrite H. reflexivity.
  Qed.
  (** ** grouping *)
  Lemma of_case_app id (s s' : list (event V)) : of_case glue id (s ++ s') = of_case glue id s ++ of_case glue id s'.
  Proof. unfold of_case. apply filter_app. Qed.
  Lemma ids_app (s s' : list (event V)) : case_ids glue (s ++ s') = case_ids glue s ++ case_ids glue s'.
  Proof. unfold case_ids. apply flat_map_app. Qed.
  Definition group (s : list (event V)) (id : V) : trace V := Trace (match of_case glue id s with e :: _ => case_attributes pref name id e | [] => [] end) (map (without_case pref) (of_case glue id s)).
  Lemma get_map {X} (f : V -> X) l id : d_get (map (fun i => (i, f i)) l) id = if existsb (fun y => keqb y id) l then Some (f id) else None.
  Proof. induction l as [|x l IH]; [reflexivity|]. cbn. destruct (keqb_spec x id) as [->|]; auto. Qed.
  Lemma set_map {X} (f g : V -> X) l id : NoDup l -> (forall x, In x l -> x <> id -> f x = g x) -> d_set (map (fun i => (i, f i)) l) id (g id) = map (fun i => (i, g i)) (if existsb (fun y => keqb y id) l then l else l ++ [id]).
  Proof.
    induction l as [|x l IH]; intros N H; [reflexivity|]. inversion N as [|? ? N1 N2]; subst. cbn [map d_set existsb]. destruct (keqb_spec x id) as [->|E]; cbn [orb].
    - cbn [map]. f_equal. apply map_ext_in. intros y Hy. rewrite H; [reflexivity|right; auto|]. intros ->. auto.
    - rewrite (IH N2 (fun y Hy => H y (or_intror Hy))), (H x (or_introl eq_refl) E). destruct (existsb _ l); reflexivity.
  Qed.
  Lemma no_case id s : ~ In id (case_ids glue s) -> of_case glue id s = [].
  Proof.
    induction s as [|e s IH]; intros H; [reflexivity|]. cbn [of_case filter]. cbn [case_ids flat_map] in H. rewrite in_app_iff in H. destruct (d_get e glue) as [v|]; [|apply IH; tauto].
    destruct (keqb_spec v id) as [->|]; [exfalso; apply H; left; left; auto|apply IH; tauto].
  Qed.
  Lemma some_case id s : In id (case_ids glue s) -> of_case glue id s <> [].
  Proof.
    induction s as [|e s IH]; intros H; [destruct H|]. cbn [of_case filter]. cbn [case_ids flat_map] in H. apply in_app_iff in H. destruct (d_get e glue) as [v|]; [|apply IH; destruct H; [easy|auto]].
    destruct (keqb_spec v id) as [->|N]; [discriminate|]. apply IH. destruct H as [[H|[]]|H]; [congruence|auto].
  Qed.
  Lemma group_snoc s e id : d_get e glue = Some id -> group (s ++ [e]) id = (let t := match d_get (map (fun i => (i, group s i)) (dedup (case_ids glue s))) id with Some t => t | None => Trace (case_attributes pref name id e) [] end in Trace (attributes t) (events t ++ [without_case pref e])).
  Proof.
    intros E. rewrite get_map. unfold group. rewrite of_case_app. assert (O : of_case glue id [e] = [e]) by (unfold of_case; cbn; rewrite E, keqb_refl; reflexivity). rewrite O. destruct (existsb _ _) eqn:X.
    - apply existsb_keqb, dedup_in, some_case in X. cbn [attributes events]. rewrite map_app. destruct (of_case glue id s); [congruence|reflexivity].
    - assert (N : ~ In id (case_ids glue s)) by (rewrite <- dedup_in, <- existsb_keqb; congruence). rewrite (no_case _ _ N). reflexivity.
  Qed.
  Lemma group_other s e id id' : d_get e glue = Some id -> id' <> id -> group (s ++ [e]) id' = group s id'.
  Proof.
    intros E N. unfold group. rewrite of_case_app. assert (O : of_case glue id' [e] = []) by (unfold of_case; cbn; rewrite E, keqb_neq by congruence; reflexivity). rewrite O, app_nil_r. reflexivity.
  Qed.
  Lemma add_events_ok s' : forall s, (forall e, In e s' -> In glue (map fst e)) ->
    add_events pref glue name (map (fun i => (i, group s i)) (dedup (case_ids glue s))) s' = Some (map (fun i => (i, group (s ++ s') i)) (dedup (case_ids glue (s ++ s')))).
  Proof.
    induction s' as [|e s' IH]; intros s H; [rewrite app_nil_r; reflexivity|]. cbn [add_events]. unfold add_event. assert (G : exists id, d_get e glue = Some id). { specialize (H e (or_introl eq_refl)). apply (proj2 (d_get_keys e glue)) in H. destruct (d_get e glue) as [v|]; [exists v; reflexivity|congruence]. }
    destruct G as (id & E). rewrite E. pose proof (group_snoc s e id E) as Q. cbn zeta in Q. rewrite <- Q.
    rewrite (set_map (group s) (group (s ++ [e])) _ id (dedup_nodup _)) by (intros x _ N; symmetry; apply (group_other s e id); auto).
    replace (if existsb _ (dedup (case_ids glue s)) then _ else _) with (dedup (case_ids glue (s ++ [e]))).
    - rewrite IH by (intros; apply H; right; auto). rewrite <- app_assoc. reflexivity.
    - rewrite ids_app. replace (case_ids glue [e]) with [id] by (unfold case_ids; cbn; rewrite E; reflexivity). rewrite dedup_snoc. reflexivity.
  Qed.
  Lemma to_log_ok s : (forall e, In e s -> In glue (map fst e)) -> to_event_log pref glue name s = Some (map (group s) (dedup (case_ids glue s))).
  Proof.
    intros H. unfold to_event_log. pose proof (add_events_ok s [] H) as Q. cbn in Q. rewrite Q. unfold d_values. rewrite map_map. reflexivity.
  Qed.
  Lemma to_log_error s : to_event_log pref glue name s <> None <-> forall e, In e s -> In glue (map fst e).
  Proof.
    split; [|intros H; rewrite to_log_ok by auto; discriminate]. unfold to_event_log. generalize ([] : dict V (trace V)). induction s as [|e s IH]; intros d H x Hx; [destruct Hx|]. cbn [add_events] in H. destruct (add_event _ _ _ d e) as [d'|] eqn:E; [|congruence].
    destruct Hx as [<- |Hx]; [|exact (IH d' H x Hx)]. unfold add_event in E. apply (proj1 (d_get_keys e glue)). intros Z. rewrite Z in E. discriminate.
  Qed.
  Lemma dedup_firsts_gen {K} {EK : Key K} (l acc : list K) : fold_left (fun acc x => if existsb (fun y => keqb y x) acc then acc else acc ++ [x]) l acc = acc ++ filter (fun x => negb (existsb (fun y => keqb y x) acc)) (firsts l).
  Proof.
    revert acc. induction l as [|x l IH]; intros acc; [cbn; rewrite app_nil_r; reflexivity|]. cbn [fold_left firsts filter]. rewrite IH. destruct (existsb (fun y => keqb y x) acc) eqn:E; cbn [negb].
    - f_equal. clear IH. induction (firsts l) as [|z r IHr]; [reflexivity|]. cbn [filter]. destruct (keqb_spec z x) as [->|N]; cbn [negb]; [rewrite E; cbn [negb]; exact IHr|]. cbn [filter]. destruct (existsb _ acc); cbn [negb]; rewrite IHr; reflexivity.
    - rewrite <- app_assoc. cbn [app]. do 2 f_equal. clear IH. induction (firsts l) as [|z r IHr]; [reflexivity|]. cbn [filter]. rewrite existsb_app. cbn [existsb]. rewrite orb_false_r, (keqb_sym z x). destruct (keqb x z) eqn:F; cbn [negb].
      + rewrite orb_true_r. cbn [negb]. exact IHr.
      + rewrite orb_false_r. cbn [filter]. destruct (existsb _ acc); cbn [negb]; rewrite IHr; reflexivity.
  Qed.
  Lemma dedup_firsts (l : list V) : dedup l = firsts l.
  Proof. unfold dedup. rewrite dedup_firsts_gen. cbn. induction (firsts l) as [|x r IH]; [reflexivity|]. cbn. f_equal. exact IH. Qed.
  Theorem grouped s log : proper_stream pref glue s -> to_event_log pref glue name s = Some log -> Forall2 (case_of pref glue s) (firsts (case_ids glue s)) log.
  Proof.
    intros P H. rewrite to_log_ok in H by apply P. injection H as <-. rewrite <- dedup_firsts. assert (A : forall id, In id (dedup (case_ids glue s)) -> case_of pref glue s id (group s id)).
    { intros id Hid. apply dedup_in, some_case in Hid. assert (I : forall e, In e (of_case glue id s) -> In e s) by (intros e He; apply filter_In in He; tauto). split.
      - unfold group. destruct (of_case glue id s) as [|e r] eqn:E; [congruence|]. exists e, r. split; auto. cbn [attributes]. assert (He : In e s) by (apply I; left; auto). apply attrs_get; [apply P; auto|intros k Hk; eapply (s_names _ _ _ P); eauto|apply (s_identified _ _ _ P); auto].
      - unfold group. cbn [events]. clear. induction (of_case glue id s); constructor; auto. apply part_of. }
    induction (dedup (case_ids glue s)) as [|id l IH]; constructor; [apply A; left; auto|apply IH; intros; apply A; right; auto].
  Qed.
End C.
