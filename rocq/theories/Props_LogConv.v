(** C106: conversions between event logs, event streams and dataframes. *)
From Coq Require Import String Ascii List Arith Bool Lia.
From Verif Require Import Model_Dict Proofs_Dict Model_DfgFile Model_LogConv Spec_LogConv Proofs_LogConv1 Proofs_LogConv2.
Import ListNotations.
Open Scope list_scope.

Section P.
  Context {V : Type} {KV : Key V}.
  Variables pref name : text.
  Notation glue := (pref ++ name).

  (** the log of a stream: one trace per case identifier, in the order of their first events; the attributes are those of the first event that begin with the prefix,
      the events are those of the stream, in its order, without these attributes.  The conversion fails exactly if an event has no case identifier. *)
Theorem C106_to_event_log (s : list (event V)) : pref <> [] ->
    (to_event_log pref glue name s <> None <-> forall e, In e s -> In glue (map fst e)) /\
    (proper_stream pref glue s -> forall log, to_event_log pref glue name s = Some log -> Forall2 (case_of pref glue s) (firsts (case_ids glue s)) log).
  Proof. intros HP. split; [apply to_log_error|intros P log; apply grouped; auto]. Qed.

  Lemma stream_pairs log : Forall2 (fun te (e' : event V) => e' = add pref (attributes (fst te)) (snd te)) (flat_map (fun t => map (pair t) (events t)) log) (stream pref log).
  Proof. unfold stream. induction log as [|t log IH]; [constructor|]. cbn [flat_map]. apply Forall2_app; [|exact IH]. induction (events t); constructor; auto. Qed.
  Lemma f2_in {X Y} (P Q : X -> Y -> Prop) l k : Forall2 P l k -> (forall x y, In x l -> P x y -> Q x y) -> Forall2 Q l k.
  Proof. induction 1 as [|x y l k H F IH]; intros A; constructor; [apply A; [left; auto|auto]|apply IH; intros; apply A; [right; auto|auto]]. Qed.
  (** the stream of a log: the events of the first trace, then those of the second, and so on, each with the attributes of its trace under the prefixed names *)
Theorem C106_to_event_stream (deep : bool) (str : nat -> V) (log : list (trace V)) : proper_log pref name log ->
    Forall2 (fun te e' => (forall k, d_get e' (pref ++ k) = d_get (attributes (fst te)) k) /\ forall k, ~ begins_with pref k -> d_get e' k = d_get (snd te) k)
      (flat_map (fun t => map (pair t) (events t)) log) (fst (to_event_stream pref glue true deep str log)) /\
    (deep = true -> snd (to_event_stream pref glue true deep str log) = log).
  Proof.
    intros P. destruct (extended_eq pref name deep str log) as [E1 E2]. rewrite E1, E2. split; [|intros ->; reflexivity]. eapply f2_in; [apply stream_pairs|]. intros [t e] e' Hte ->. cbn [fst snd]. apply in_flat_map in Hte as (u & Hu & Hte). apply in_map_iff in Hte as (x & Q & He). injection Q as -> ->. split.
    - intros k. rewrite add_get by apply (proj1 (keys_once _ _ _ P t Hu)). destruct (d_get (attributes t) k); [reflexivity|]. apply d_get_none. intros Q. apply (event_names _ _ _ P t e _ Hu He Q). exists k. auto.
    - intros k H. apply add_get_other. auto.
  Qed.

  (** without the case attributes, each event gets the position of its trace as case identifier *)
Theorem C106_without_case_attributes (deep : bool) (str : nat -> V) (log : list (trace V)) :
    Forall2 (fun ie e' => d_get e' glue = Some (str (fst ie)) /\ forall k, k <> glue -> d_get e' k = d_get (snd ie) k)
      (flat_map (fun it => map (pair (fst it)) (events (snd it))) (combine (seq 0 (length log)) log)) (fst (to_event_stream pref glue false deep str log)).
  Proof.
    unfold to_event_stream. cbn [fst]. induction (combine (seq 0 (length log)) log) as [|[i t] l IH]; [constructor|]. cbn [flat_map map fst snd events]. apply Forall2_app; [|exact IH]. clear IH. induction (events t) as [|e es IHe]; constructor; auto. cbn [fst snd new_event]. split; [apply d_get_set_same|intros k N; apply d_get_set_other; auto].
  Qed.

  (** a log converted to a stream and back is the same log *)
Theorem C106_round_trip (deep : bool) (str : nat -> V) (log : list (trace V)) : pref <> [] -> proper_log pref name log ->
    to_event_log pref glue name (fst (to_event_stream pref glue true deep str log)) = Some log.
  Proof. intros HP P. rewrite (proj1 (extended_eq pref name deep str log)). apply round_trip; auto. Qed.

  (** a stream converted to a dataframe and back has the same events, if missing values are dropped *)
Theorem C106_dataframe_stream (nan : V) (s : list (event V)) : Forall2 same_dict s (dataframe_to_stream true nan (to_dataframe s)).
  Proof. eapply f2_in; [apply records|]. intros e e' _ [_ H] k. rewrite (H k). destruct (d_get e k); reflexivity. Qed.
  (** without dropping them an attribute is present exactly if some event of the stream has it *)
Theorem C106_dataframe_missing (nan : V) (s : list (event V)) :
    Forall2 (fun e e' => forall k v, d_get e' k = Some v <-> d_get e k = Some v \/ d_get e k = None /\ v = nan /\ exists x, In x s /\ In k (map fst x)) s (dataframe_to_stream false nan (to_dataframe s)).
  Proof.
    eapply f2_in; [apply records|]. intros e e' _ [_ H] k v. rewrite (H k). destruct (d_get e k) as [w|]; [split; [auto|intros [E|[E _]]; [auto|discriminate]]|]. destruct (existsb _ _) eqn:X.
    - apply existsb_keqb in X. unfold to_dataframe in X. cbn [columns] in X. apply dedup_in, in_flat_map in X as (x & X1 & X2). split; [intros E; injection E as <-; right; eauto|intros [E|(_ & -> & _)]; [discriminate|reflexivity]].
    - split; [discriminate|]. intros [E|(_ & _ & x & X1 & X2)]; [discriminate|]. assert (Z : existsb (fun y => keqb y k) (columns (to_dataframe s)) = true) by (apply existsb_keqb; apply (columns_of s x k X1 X2)). congruence.
  Qed.

  (** a log converted to a dataframe and back is the same log up to the order of the attributes *)
Theorem C106_log_dataframe_log (str : nat -> V) (nan : V) (log : list (trace V)) : pref <> [] -> proper_log pref name log ->
    exists log', to_event_log pref glue name (dataframe_to_stream true nan (fst (log_to_dataframe pref glue str log))) = Some log' /\ Forall2 same_trace log log'.
  Proof.
    intros HP P. unfold log_to_dataframe. cbn [fst]. rewrite (proj1 (extended_eq pref name false str log)). apply (same_contents pref name HP (stream pref log)).
    - apply stream_proper; auto.
    - apply C106_dataframe_stream.
    - pose proof (records (stream pref log) true nan) as F. revert F. generalize (stream pref log) at 2. intros l F. generalize dependent (dataframe_to_stream true nan (to_dataframe (stream pref log))). intros l' F. induction F as [|e e' l l' H F IH]; intros x Hx; [destruct Hx|]. destruct Hx as [<- |Hx]; [apply H|apply IH; auto].
    - apply round_trip; auto.
  Qed.

  (** convert_to_dataframe changes the log that is given (see C106_changed_refuted), but converting it again gives the same dataframe *)
Theorem C106_again (str : nat -> V) (log : list (trace V)) : proper_log pref name log ->
    fst (log_to_dataframe pref glue str (snd (log_to_dataframe pref glue str log))) = fst (log_to_dataframe pref glue str log).
  Proof.
    intros P. unfold log_to_dataframe. cbn [fst snd]. f_equal. rewrite !(proj1 (extended_eq pref name false str _)), (proj2 (extended_eq pref name false str log)). unfold stream. rewrite !flat_map_concat_map, map_map. f_equal. apply map_ext_in. intros t Ht. cbn [attributes events]. rewrite map_map. apply map_ext. intros e. apply add_twice. apply (proj1 (keys_once _ _ _ P t Ht)).
  Qed.
End P.
Print Assumptions C106_to_event_log.
Print Assumptions C106_to_event_stream.
Print Assumptions C106_without_case_attributes.
Print Assumptions C106_round_trip.
Print Assumptions C106_dataframe_stream.
Print Assumptions C106_dataframe_missing.
Print Assumptions C106_log_dataframe_log.
Print Assumptions C106_again.

(** ** a concrete case; values are numbers *)
Definition tx (s : string) : text := list_ascii_of_string s.
Definition ex_log : list (trace nat) :=
  [Trace [(tx "concept:name", 1); (tx "cost", 20)] [[(tx "concept:name", 100); (tx "resource", 7)]; [(tx "concept:name", 101)]];
   Trace [(tx "concept:name", 2)] [[(tx "concept:name", 100)]]].
Example C106_example : proper_log (tx "case:") (tx "concept:name") ex_log.
Proof.
  assert (K : forall (p s : text), (forallb (fun i => negb (starts p (skipn i s))) (seq 0 (S (length s))) = true) -> free_of p s).
  { intros p s H a b E. rewrite forallb_forall in H. specialize (H (length a)). assert (I : In (length a) (seq 0 (S (length s)))) by (apply in_seq; rewrite E, app_length; lia). specialize (H I). rewrite E, skipn_app, skipn_all, Nat.sub_diag in H. cbn [app skipn] in H. rewrite starts_app in H. discriminate. }
  assert (B : forall p s : text, starts p s = false -> ~ begins_with p s) by (intros p s H Q; apply starts_spec in Q; congruence).
  constructor.
  - intros t [<- |[<- |[]]]; (split; [repeat constructor; cbn; intuition discriminate|intros e He; cbn in He; intuition; subst e; repeat constructor; cbn; intuition discriminate]).
  - intros t [<- |[<- |[]]]; discriminate.
  - intros t [<- |[<- |[]]]; eexists; left; reflexivity.
  - intros i j t u id Hi Hj H1 H2. destruct i as [|[|i]], j as [|[|j]]; cbn in Hi, Hj; try (destruct i; discriminate); try (destruct j; discriminate); auto; injection Hi as <-; injection Hj as <-; cbn in H1, H2; exfalso; intuition congruence.
  - intros t e k [<- |[<- |[]]] He Hk; cbn in He; repeat match goal with H : _ \/ _ |- _ => destruct H as [H|H] | H : False |- _ => destruct H end; subst e; cbn [map fst In] in Hk; repeat match goal with H : _ \/ _ |- _ => destruct H as [H|H] | H : False |- _ => destruct H end; subst k; apply B; reflexivity.
  - intros t k [<- |[<- |[]]] Hk; cbn [attributes map fst In] in Hk; repeat match goal with H : _ \/ _ |- _ => destruct H as [H|H] | H : False |- _ => destruct H end; subst k; apply K; reflexivity.
Qed.
Example C106_example_runs : fst (to_event_stream (tx "case:") (tx "case:concept:name") true true (fun n => n) ex_log) =
  [[(tx "concept:name", 100); (tx "resource", 7); (tx "case:concept:name", 1); (tx "case:cost", 20)]; [(tx "concept:name", 101); (tx "case:concept:name", 1); (tx "case:cost", 20)]; [(tx "concept:name", 100); (tx "case:concept:name", 2)]]
  /\ option_map (map (fun t => length (events t))) (to_event_log (tx "case:") (tx "case:concept:name") (tx "concept:name") (fst (to_event_stream (tx "case:") (tx "case:concept:name") true true (fun n => n) ex_log))) = Some [2; 1].
Proof. split; vm_compute; reflexivity. Qed.

(** ** findings *)
(** convert_to_dataframe turns off the deep copy: the events of the log that is given get the case attributes *)
Theorem C106_changed_refuted : exists log : list (trace nat), proper_log (tx "case:") (tx "concept:name") log /\ snd (log_to_dataframe (tx "case:") (tx "case:concept:name") (fun n => n) log) <> log.
Proof. exists ex_log. split; [apply C106_example|]. vm_compute. discriminate. Qed.
Print Assumptions C106_changed_refuted.
(** the default conversion of a dataframe does not drop missing values: the second event of the example gets a resource *)
Theorem C106_missing_refuted : exists (log : list (trace nat)) log', proper_log (tx "case:") (tx "concept:name") log /\
  to_event_log (tx "case:") (tx "case:concept:name") (tx "concept:name") (dataframe_to_stream false 0 (fst (log_to_dataframe (tx "case:") (tx "case:concept:name") (fun n => n) log))) = Some log' /\ ~ Forall2 same_trace log log'.
Proof.
  exists ex_log. eexists. split; [apply C106_example|]. split; [vm_compute; reflexivity|]. intros F. inversion F as [|t t' l l' H _]; subst. destruct H as [_ H]. inversion H as [|? ? ? ? _ H']; subst. inversion H' as [|? ? ? ? E _]; subst. specialize (E (tx "resource")). vm_compute in E. discriminate.
Qed.
Print Assumptions C106_missing_refuted.
(** a trace attribute whose name contains the prefix gets another name *)
Theorem C106_names_refuted : exists log : list (trace nat), to_event_log (tx "case:") (tx "case:concept:name") (tx "concept:name") (fst (to_event_stream (tx "case:") (tx "case:concept:name") true true (fun n => n) log)) =
  Some [Trace [(tx "concept:name", 1); (tx "showid", 20)] [[(tx "concept:name", 100)]]] /\ log = [Trace [(tx "concept:name", 1); (tx "showcase:id", 20)] [[(tx "concept:name", 100)]]].
Proof. eexists. split; [|reflexivity]. vm_compute. reflexivity. Qed.
Print Assumptions C106_names_refuted.
(** a trace without events is lost *)
Theorem C106_empty_refuted : to_event_log (tx "case:") (tx "case:concept:name") (tx "concept:name") (fst (to_event_stream (tx "case:") (tx "case:concept:name") true true (fun n => n) [Trace [(tx "concept:name", 1)] []])) = Some [].
Proof. vm_compute. reflexivity. Qed.
Print Assumptions C106_empty_refuted.
