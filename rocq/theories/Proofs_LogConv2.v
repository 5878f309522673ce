From Coq Require Import List Arith Bool Ascii Lia.
From Verif Require Import Model_Dict Proofs_Dict Model_DfgFile Model_LogConv Spec_LogConv Proofs_LogConv1.
Import ListNotations.

Lemma nodup_app_intro {X} (l k : list X) : NoDup l -> NoDup k -> (forall x, In x l -> ~ In x k) -> NoDup (l ++ k).
Proof. induction 1 as [|x l N1 N2 IH]; intros K H; [exact K|]. cbn. constructor; [rewrite in_app_iff; intros [Q|Q]; [auto|exact (H x (or_introl eq_refl) Q)]|apply IH; auto; intros; apply H; right; auto]. Qed.

Section C.
  Context {V : Type} {KV : Key V}.
  Implicit Types e d a : dict text V.
  Implicit Types t : trace V.
  Variables pref name : text.
  Hypothesis HP : pref <> [].
  Notation glue := (pref ++ name).
  Definition add a e : event V := fold_left (fun d kv => d_set d (pref ++ fst kv) (snd kv)) a e.
  Definition named a : dict text V := map (fun kv => (pref ++ fst kv, snd kv)) a.
  Lemma d_set_new d k v : ~ In k (map fst d) -> d_set d k v = d ++ [(k, v)].
  Proof. induction d as [|[k' v'] d IH]; intros H; [reflexivity|]. cbn [d_set map fst] in *. rewrite keqb_neq by (intros ->; apply H; left; auto). rewrite IH by (intros Q; apply H; right; auto). reflexivity. Qed.
  Lemma d_set_same d k v : d_get d k = Some v -> d_set d k v = d.
  Proof. induction d as [|[k' v'] d IH]; cbn [d_set d_get]; intros H; [discriminate|]. destruct (keqb k' k); [injection H as ->; reflexivity|]. rewrite IH; auto. Qed.
  Lemma named_keys a : map fst (named a) = map (app pref) (map fst a).
  Proof. unfold named. rewrite !map_map. reflexivity. Qed.
  Lemma add_new a : forall e, NoDup (map fst a) -> (forall k, ~ In (pref ++ k) (map fst e)) -> add a e = e ++ named a.
  Proof.
    assert (G : forall a e, NoDup (map fst a) -> (forall k, In k (map fst a) -> ~ In (pref ++ k) (map fst e)) -> add a e = e ++ named a); [|intros e N H; apply G; auto].
    clear a. induction a as [|[k v] a IH]; intros e N H; [cbn; rewrite app_nil_r; reflexivity|]. cbn [map fst] in *. inversion N as [|? ? N1 N2]; subst. change (add ((k, v) :: a) e) with (add a (d_set e (pref ++ k) v)). rewrite d_set_new by (apply H; left; auto). rewrite IH; auto.
    - rewrite <- app_assoc. reflexivity.
    - intros k' Hk Q. rewrite map_app in Q. apply in_app_iff in Q as [Q|[Q|[]]]; [exact (H k' (or_intror Hk) Q)|]. cbn in Q. apply app_inv_head in Q. subst. auto.
  Qed.
  Lemma add_get a : NoDup (map fst a) -> forall e k, d_get (add a e) (pref ++ k) = match d_get a k with Some v => Some v | None => d_get e (pref ++ k) end.
  Proof.
    induction a as [|[k' v] a IH]; intros N e k; [reflexivity|]. cbn [map fst] in N. inversion N as [|? ? N1 N2]; subst. change (add ((k', v) :: a) e) with (add a (d_set e (pref ++ k') v)). rewrite IH by auto. cbn [d_get]. rewrite d_get_set.
    destruct (keqb_spec k' k) as [->|E]; [rewrite (proj2 (d_get_none a k) N1), keqb_refl; reflexivity|]. rewrite keqb_neq; [reflexivity|]. intros Q. apply app_inv_head in Q. auto.
  Qed.
  Lemma add_get_other a : forall e k, ~ begins_with pref k -> d_get (add a e) k = d_get e k.
  Proof.
    induction a as [|[k' v] a IH]; intros e k H; [reflexivity|]. change (add ((k', v) :: a) e) with (add a (d_set e (pref ++ k') v)). rewrite IH by auto. apply d_get_set_other. intros Q. apply H. exists k'. auto.
  Qed.
  Lemma add_twice a e : NoDup (map fst a) -> add a (add a e) = add a e.
  Proof.
    intros N. assert (G : forall b d, (forall k v, In (k, v) b -> d_get d (pref ++ k) = Some v) -> add b d = d).
    { induction b as [|[k v] b IH]; intros d H; [reflexivity|]. change (add ((k, v) :: b) d) with (add b (d_set d (pref ++ k) v)). rewrite d_set_same by (apply H; left; auto). apply IH. intros; apply H; right; auto. }
    apply G. intros k v H. rewrite add_get by auto. rewrite (d_in_get a k v N H). reflexivity.
  Qed.
  (** ** the stream of a log *)
  Definition stream (log : list (trace V)) : list (event V) := flat_map (fun t => map (add (attributes t)) (events t)) log.
  Lemma extended_eq deep str log : fst (to_event_stream pref glue true deep str log) = stream log /\ snd (to_event_stream pref glue true deep str log) = if deep then log else map (fun t => Trace (attributes t) (map (add (attributes t)) (events t))) log.
  Proof.
    unfold to_event_stream. cbn [fst snd]. generalize 0. induction log as [|t log IH]; intros n; [destruct deep; auto|]. cbn [length seq combine map flat_map fst snd]. destruct (IH (S n)) as [I1 I2]. split.
    - cbn [events]. unfold stream. cbn [flat_map]. f_equal. exact I1.
    - destruct deep; [reflexivity|]. f_equal. exact I2.
  Qed.
  (** ** back *)
  Record good t := { g_attrs : NoDup (map fst (attributes t)); g_some : events t <> []; g_keys : forall e, In e (events t) -> NoDup (map fst e);
    g_events : forall e k, In e (events t) -> ~ In (pref ++ k) (map fst e); g_names : forall k, In k (map fst (attributes t)) -> free_of pref k }.
  Definition R t (id : V) : Prop := good t /\ d_get (attributes t) name = Some id.
  Lemma add_glue t id e : R t id -> In e (events t) -> d_get (add (attributes t) e) glue = Some id.
  Proof. intros [G E] He. rewrite add_get by apply G. rewrite E. reflexivity. Qed.
  Lemma case_ids_map t id es : R t id -> incl es (events t) -> case_ids glue (map (add (attributes t)) es) = map (fun _ => id) es.
  Proof. intros H I. induction es as [|e es IH]; [reflexivity|]. cbn [map case_ids flat_map]. rewrite (add_glue t id e H) by (apply I; left; auto). cbn [app]. f_equal. apply IH. intros x Hx. apply I. right. auto. Qed.
  Lemma case_ids_stream log ids : Forall2 R log ids -> forall x, In x (case_ids glue (stream log)) <-> In x ids.
  Proof.
    induction 1 as [|t id log ids H F IH]; intros x; [reflexivity|]. cbn [stream flat_map]. rewrite ids_app, (case_ids_map t id) by (auto; apply incl_refl). rewrite in_app_iff, IH. cbn [In]. split.
    - intros [Q|Q]; [apply in_map_iff in Q as (y & Q & _); auto|auto].
    - intros [<- |Q]; [|auto]. left. pose proof (g_some _ (proj1 H)) as Z. destruct (events t) as [|e es]; [congruence|]. left. reflexivity.
  Qed.
  Lemma of_case_map t id es i : R t id -> incl es (events t) -> of_case glue i (map (add (attributes t)) es) = if keqb id i then map (add (attributes t)) es else [].
  Proof.
    intros H I. induction es as [|e es IH]; [destruct (keqb id i); reflexivity|]. cbn [map of_case filter]. rewrite (add_glue t id e H) by (apply I; left; auto). fold (of_case glue i (map (add (attributes t)) es)).
    rewrite IH by (intros x Hx; apply I; right; auto). destruct (keqb id i); reflexivity.
  Qed.
  Lemma of_case_stream log ids : Forall2 R log ids -> NoDup ids -> forall t id, In (t, id) (combine log ids) -> of_case glue id (stream log) = map (add (attributes t)) (events t).
  Proof.
    induction 1 as [|u i log ids H F IH]; intros N t id Hi; [destruct Hi|]. inversion N as [|? ? N1 N2]; subst. cbn [stream flat_map]. rewrite of_case_app, (of_case_map u i _ id H (incl_refl _)). destruct Hi as [Hi|Hi].
    - injection Hi as -> ->. rewrite keqb_refl. rewrite no_case; [apply app_nil_r|]. rewrite (case_ids_stream log ids F). exact N1.
    - rewrite keqb_neq; [apply IH; auto|]. intros ->. apply N1. apply in_combine_r in Hi. exact Hi.
  Qed.
  Lemma firsts_in (l : list V) x : In x (firsts l) <-> In x l.
  Proof. rewrite <- dedup_firsts by (exact []). apply dedup_in. Qed.
  Lemma filter_none (l : list V) x : ~ In x l -> filter (fun y => negb (keqb y x)) l = l.
  Proof. induction l as [|y l IH]; intros H; [reflexivity|]. cbn. rewrite keqb_neq by (intros ->; apply H; left; auto). cbn. f_equal. apply IH. intros Q; apply H; right; auto. Qed.
  Lemma firsts_run {X} (x : V) (es : list X) r : es <> [] -> ~ In x r -> firsts (map (fun _ => x) es ++ r) = x :: firsts r.
  Proof.
    induction es as [|e es IH]; intros N H; [congruence|]. cbn [map app firsts]. destruct es as [|e' es].
    - cbn [map app]. rewrite filter_none by (rewrite firsts_in; auto). reflexivity.
    - rewrite IH by (auto; discriminate). cbn [filter]. rewrite keqb_refl. cbn [negb]. rewrite filter_none by (rewrite firsts_in; auto). reflexivity.
  Qed.
  Lemma firsts_stream log ids : Forall2 R log ids -> NoDup ids -> firsts (case_ids glue (stream log)) = ids.
  Proof.
    induction 1 as [|t i log ids H F IH]; intros N; [reflexivity|]. inversion N as [|? ? N1 N2]; subst. cbn [stream flat_map]. rewrite ids_app, (case_ids_map t i) by (auto; apply incl_refl). rewrite firsts_run; [f_equal; apply IH; auto|apply H|]. fold (stream log). rewrite (case_ids_stream log ids F). exact N1.
  Qed.
  Lemma no_start e : (forall k, ~ In (pref ++ k) (map fst e)) -> forall kv, In kv e -> starts pref (fst kv) = false.
  Proof. intros H kv Hk. apply starts_no. intros (b & E). apply (H b). rewrite <- E. apply in_map. exact Hk. Qed.
  Lemma without_add a e : NoDup (map fst a) -> (forall k, ~ In (pref ++ k) (map fst e)) -> without_case pref (add a e) = e.
  Proof.
    intros N H. rewrite add_new by auto. unfold without_case. rewrite filter_app. replace (filter _ (named a)) with (@nil (text * V)).
    - rewrite app_nil_r. pose proof (no_start e H) as S. clear H. induction e as [|kv e IH]; [reflexivity|]. cbn. rewrite S by (left; auto). cbn. f_equal. apply IH. intros; apply S; right; auto.
    - clear. induction a as [|[k v] a IH]; [reflexivity|]. cbn [named map filter fst]. rewrite starts_app. exact IH.
  Qed.
  Lemma gather_app e e' d : gather pref (e ++ e') d = gather pref e' (gather pref e d).
  Proof. unfold gather. apply fold_left_app. Qed.
  Lemma gather_none e d : (forall kv, In kv e -> starts pref (fst kv) = false) -> gather pref e d = d.
  Proof. intros H. induction e as [|kv e IH]; [reflexivity|]. unfold gather. cbn [fold_left]. rewrite H by (left; auto). apply IH. intros; apply H; right; auto. Qed.
  Lemma gather_named a : forall d, (forall k, In k (map fst a) -> free_of pref k) -> NoDup (map fst (d ++ a)) -> gather pref (named a) d = d ++ a.
  Proof.
    induction a as [|[k v] a IH]; intros d F N; [cbn; rewrite app_nil_r; reflexivity|]. change (gather pref (named ((k, v) :: a)) d) with (gather pref (named a) (if starts pref (pref ++ k) then d_set d (remove_all pref 0 (pref ++ k)) v else d)).
    rewrite starts_app, (remove_pref pref k HP) by (apply F; left; reflexivity). rewrite d_set_new.
    - rewrite IH; [rewrite <- app_assoc; reflexivity|intros; apply F; right; auto|rewrite <- app_assoc; exact N].
    - rewrite map_app in N. cbn [map fst] in N. apply NoDup_remove_2 in N. intros Q. apply N, in_app_iff. auto.
  Qed.
  Lemma attrs_add t id i e : R t id -> In e (events t) -> case_attributes pref name i (add (attributes t) e) = attributes t.
  Proof.
    intros [G E] He. unfold case_attributes. change (fold_left _ (add (attributes t) e) []) with (gather pref (add (attributes t) e) []). rewrite add_new by (try apply G; auto; intros k; apply (g_events _ G); auto).
    rewrite gather_app, (gather_none e) by (apply no_start; intros k; apply (g_events _ G); auto). rewrite gather_named by (try apply G; cbn; apply G). cbn [app]. unfold d_mem. rewrite E. reflexivity.
  Qed.
  Lemma group_stream log ids : Forall2 R log ids -> NoDup ids -> map (group pref name (stream log)) ids = log.
  Proof.
    intros F N. assert (A : forall t id, In (t, id) (combine log ids) -> group pref name (stream log) id = t).
    { intros t id H. assert (Rt : R t id) by (clear N; induction F; [destruct H|destruct H as [H|H]; [injection H as -> ->; auto|auto]]). unfold group. rewrite (of_case_stream log ids F N t id H). pose proof (attrs_add t id id) as Q.
      assert (W : map (without_case pref) (map (add (attributes t)) (events t)) = events t). { rewrite map_map. rewrite <- (map_id (events t)) at 2. apply map_ext_in. intros e He. apply without_add; [apply Rt|intros k; apply (g_events _ (proj1 Rt)); auto]. }
      rewrite W. pose proof (g_some _ (proj1 Rt)) as Z. destruct t as [a es]. cbn [attributes events] in *. destruct es as [|e es]; [congruence|]. cbn [map]. rewrite Q by (auto; left; auto). reflexivity. }
    clear N. revert A. generalize (stream log). intros s A. induction F as [|t id log ids H F IH]; [reflexivity|]. cbn [map]. rewrite (A t id) by (left; auto). f_equal. apply IH. intros; apply A; right; auto.
  Qed.
  Lemma proper_R log : proper_log pref name log -> exists ids, Forall2 R log ids /\ NoDup ids.
  Proof.
    intros P. assert (G : forall t, In t log -> exists id, R t id).
    { intros t Ht. destruct (identified _ _ _ P t Ht) as (id & Hid). exists id. destruct (keys_once _ _ _ P t Ht) as [K1 K2]. split; [|apply d_in_get; auto]. constructor; auto; [apply (some_event _ _ _ P t Ht)|intros e k He Q; apply (event_names _ _ _ P t e _ Ht He Q); exists k; auto|intros k Hk; apply (trace_names _ _ _ P t k Ht Hk)]. }
    assert (Q : exists ids, Forall2 R log ids). { clear P. induction log as [|t log IH]; [exists []; constructor|]. destruct (G t (or_introl eq_refl)) as (id & Hid). destruct IH as (ids & F); [intros; apply G; right; auto|]. exists (id :: ids). constructor; auto. }
    destruct Q as (ids & F). exists ids. split; auto. apply NoDup_nth_error. intros i j Hi E. assert (X : forall k x, nth_error ids k = Some x -> exists t, nth_error log k = Some t /\ R t x).
    { clear -F. induction F as [|t id log ids H F IH]; intros [|k] x Hx; try discriminate; [injection Hx as <-; exists t; auto|apply IH; exact Hx]. }
    destruct (nth_error ids i) as [x|] eqn:Ei; [|apply nth_error_None in Ei; lia]. destruct (X i x Ei) as (t & T1 & T2 & T3). symmetry in E. destruct (X j x E) as (u & U1 & U2 & U3). eapply (distinct _ _ _ P); eauto; apply d_get_in; eauto.
  Qed.
  Lemma in_stream log (e : event V) : In e (stream log) -> exists t e0, In t log /\ In e0 (events t) /\ e = add (attributes t) e0.
  Proof. unfold stream. intros H. apply in_flat_map in H as (t & Ht & H). apply in_map_iff in H as (e0 & <- & He). eauto. Qed.
  Lemma stream_proper log : proper_log pref name log -> proper_stream pref glue (stream log).
  Proof.
    intros P. assert (A : forall t e, In t log -> In e (events t) -> add (attributes t) e = e ++ named (attributes t)).
    { intros t e Ht He. apply add_new; [apply (proj1 (keys_once _ _ _ P t Ht))|]. intros k Q. apply (event_names _ _ _ P t e _ Ht He Q). exists k. auto. }
    constructor.
    - intros e He. apply in_stream in He as (t & e0 & Ht & He & ->). rewrite (A t e0 Ht He), map_app, named_keys. destruct (keys_once _ _ _ P t Ht) as [K1 K2]. apply nodup_app_intro; [auto| |].
      + clear -K1. induction K1 as [|k l N1 N2 IH]; constructor; auto. intros Q. apply in_map_iff in Q as (y & Q & Hy). apply app_inv_head in Q. subst. auto.
      + intros k H1 H2. apply in_map_iff in H2 as (y & <- & _). apply (event_names _ _ _ P t e0 _ Ht He H1). exists y. auto.
    - intros e He. apply in_stream in He as (t & e0 & Ht & He & ->). rewrite (A t e0 Ht He), map_app, named_keys. destruct (identified _ _ _ P t Ht) as (id & Hid). apply in_app_iff. right. apply in_map. apply (in_map fst) in Hid. exact Hid.
    - intros e k He Q. apply in_stream in He as (t & e0 & Ht & He & ->). rewrite (A t e0 Ht He), map_app, named_keys in Q. apply in_app_iff in Q as [Q|Q]; [exfalso; apply (event_names _ _ _ P t e0 _ Ht He Q); exists k; auto|].
      apply in_map_iff in Q as (y & Q & Hy). apply app_inv_head in Q. subst y. apply (trace_names _ _ _ P t k Ht Hy).
  Qed.
  Theorem round_trip log : proper_log pref name log -> to_event_log pref glue name (stream log) = Some log.
  Proof.
    intros P. destruct (proper_R log P) as (ids & F & N). rewrite to_log_ok by apply (s_identified _ _ _ (stream_proper log P)). rewrite dedup_firsts by (exact []). rewrite (firsts_stream log ids F N), (group_stream log ids F N). reflexivity.
  Qed.
  (** ** only the contents of the dictionaries count *)
  Lemma same_keys (e e' : event V) : same_dict e e' -> forall k, In k (map fst e) <-> In k (map fst e').
  Proof. intros S k. pose proof (d_get_keys e k) as A. pose proof (d_get_keys e' k) as B. rewrite (S k) in A. unfold d_keys in *. tauto. Qed.
  Lemma same_ids (s s' : list (event V)) : Forall2 same_dict s s' -> case_ids glue s = case_ids glue s'.
  Proof. induction 1 as [|e e' s s' H F IH]; [reflexivity|]. cbn [case_ids flat_map]. rewrite (H glue). f_equal. exact IH. Qed.
  Lemma same_case (s s' : list (event V)) id : Forall2 same_dict s s' -> Forall2 same_dict (of_case glue id s) (of_case glue id s').
  Proof. induction 1 as [|e e' s s' H F IH]; [constructor|]. cbn [of_case filter]. rewrite (H glue). destruct (d_get e' glue) as [v|]; [destruct (keqb v id); [constructor; auto|exact IH]|exact IH]. Qed.
  Theorem same_contents (s s' : list (event V)) log : proper_stream pref glue s -> Forall2 same_dict s s' -> (forall e, In e s' -> NoDup (map fst e)) -> to_event_log pref glue name s = Some log ->
    exists log', to_event_log pref glue name s' = Some log' /\ Forall2 same_trace log log'.
  Proof.
    intros P F K H. assert (I : forall e', In e' s' -> exists e, In e s /\ same_dict e e'). { clear -F. induction F as [|e e' s s' H F IH]; intros x Hx; [destruct Hx|]. destruct Hx as [<- |Hx]; [exists e; split; [left; auto|auto]|]. destruct (IH x Hx) as (y & Y1 & Y2). exists y. split; [right; auto|auto]. }
    assert (P' : proper_stream pref glue s'). { constructor; auto.
      - intros e' He. destruct (I e' He) as (e & E1 & E2). apply (same_keys _ _ E2). apply (s_identified _ _ _ P); auto.
      - intros e' k He Q. destruct (I e' He) as (e & E1 & E2). apply (same_keys _ _ E2) in Q. eapply (s_names _ _ _ P); eauto. }
    rewrite to_log_ok in * by (apply P || apply P'). injection H as <-. eexists. split; [reflexivity|]. rewrite <- (same_ids s s' F). assert (G : forall id, In id (dedup (case_ids glue s)) -> same_trace (group pref name s id) (group pref name s' id)).
    { intros id Hid. apply dedup_in, some_case in Hid. pose proof (same_case s s' id F) as C. unfold group. assert (J : forall e, In e (of_case glue id s) -> In e s) by (intros e He; apply filter_In in He; tauto). assert (J' : forall e, In e (of_case glue id s') -> In e s') by (intros e He; apply filter_In in He; tauto). split; cbn [attributes events].
      - destruct C as [|e e' l l' E C]; [congruence|]. assert (He : In e s) by (apply J; left; auto). assert (He' : In e' s') by (apply J'; left; auto). intros k. rewrite (attrs_get pref name HP id e (s_keys_once _ _ _ P e He) (fun k' Hk => s_names _ _ _ P e k' He Hk) (s_identified _ _ _ P e He)).
        rewrite (attrs_get pref name HP id e' (s_keys_once _ _ _ P' e' He') (fun k' Hk => s_names _ _ _ P' e' k' He' Hk) (s_identified _ _ _ P' e' He')). exact (E _).
      - clear -C. induction C as [|e e' l l' E C IH]; constructor; auto. intros k. unfold without_case. rewrite !(d_get_filter (fun k => negb (starts pref k))). rewrite (E k). reflexivity. }
    induction (dedup (case_ids glue s)) as [|id l IH]; constructor; [apply G; left; auto|apply IH; intros; apply G; right; auto].
  Qed.
  (** ** dataframes *)
  Lemma record_get post (nan : V) c (e : event V) k : d_get (record_of post nan c (map (d_get e) c)) k = if existsb (fun y => keqb y k) c then match d_get e k with Some v => Some v | None => if post then None else Some nan end else None.
  Proof.
    induction c as [|x c IH]; [reflexivity|]. unfold record_of in *. cbn [map combine flat_map fst snd existsb]. destruct (keqb_spec x k) as [->|N]; cbn [orb].
    - destruct (d_get e k) as [v|] eqn:E; [cbn [app d_get]; rewrite keqb_refl; reflexivity|]. destruct post; [cbn [app]; rewrite IH; destruct (existsb _ c); reflexivity|]. cbn [app d_get]. rewrite keqb_refl. reflexivity.
    - rewrite <- IH. destruct (d_get e x) as [v|]; [cbn [app d_get]; rewrite keqb_neq by auto; reflexivity|]. destruct post; [reflexivity|]. cbn [app d_get]. rewrite keqb_neq by auto. reflexivity.
  Qed.
  Lemma record_keys post (nan : V) c (r : list (option V)) : NoDup c -> NoDup (map fst (record_of post nan c r)).
  Proof.
    intros N. assert (G : forall k, In k (map fst (record_of post nan c r)) -> In k c). { intros k Hk. apply in_map_iff in Hk as ([k' v] & <- & Hk). unfold record_of in Hk. apply in_flat_map in Hk as ([x o] & Hx & Hk). apply in_combine_l in Hx. cbn [fst snd] in Hk. destruct o; [destruct Hk as [Hk|[]]; injection Hk as <- _; auto|]. destruct post; [destruct Hk|]. destruct Hk as [Hk|[]]. injection Hk as <- _. auto. }
    clear G. revert r. induction N as [|x c N1 N2 IH]; intros r; [constructor|]. destruct r as [|o r]; [constructor|]. assert (G : ~ In x (map fst (record_of post nan c r))).
    { intros Hk. apply N1. apply in_map_iff in Hk as ([k' v] & E & Hk). cbn in E. subst k'. unfold record_of in Hk. apply in_flat_map in Hk as ([y p] & Hx & Hk). apply in_combine_l in Hx. cbn [fst snd] in Hk. destruct p; [destruct Hk as [Hk|[]]; injection Hk as <- _; auto|]. destruct post; [destruct Hk|]. destruct Hk as [Hk|[]]. injection Hk as <- _. auto. }
    specialize (IH r). unfold record_of in *. cbn [combine flat_map fst snd]. destruct o; [cbn; constructor; auto|]. destruct post; [exact IH|cbn; constructor; auto].
  Qed.
  Lemma columns_of (s : list (event V)) e k : In e s -> In k (map fst e) -> In k (columns (to_dataframe s)).
  Proof. intros H K. unfold to_dataframe. cbn [columns]. apply dedup_in, in_flat_map. exists e. auto. Qed.
  Definition rec_of (post : bool) (nan : V) (c : list text) (e e' : event V) : Prop :=
    NoDup (map fst e') /\ forall k : text, d_get e' k = match d_get e k with Some v => Some v | None => if post then @None V else if existsb (fun y => keqb y k) c then Some nan else None end.
  Theorem records (s : list (event V)) (post : bool) (nan : V) : Forall2 (rec_of post nan (columns (to_dataframe s))) s (dataframe_to_stream post nan (to_dataframe s)).
  Proof.
    unfold dataframe_to_stream. cbn [rows to_dataframe columns]. set (c := dedup (flat_map d_keys s)). assert (G : forall l, incl l s -> Forall2 (rec_of post nan c) l (map (record_of post nan c) (map (fun e => map (d_get e) c) l))); [|apply G, incl_refl].
    induction l as [|e l IH]; intros I; constructor; [|apply IH; intros x Hx; apply I; right; auto]. split; [apply record_keys, dedup_nodup|]. intros k. rewrite record_get. destruct (existsb _ c) eqn:X; [destruct (d_get e k); auto|].
    replace (d_get e k) with (@None V); [destruct post; reflexivity|]. symmetry. apply d_get_none. intros Q. assert (Z : existsb (fun y => keqb y k) c = true) by (apply existsb_keqb; apply (columns_of s e k); [apply I; left; auto|exact Q]). congruence.
  Qed.
End C.
