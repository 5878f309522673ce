(** C97, C98: reading XES files in chunks; writing a log and reading it again. *)
From Coq Require Import String Ascii List Arith ZArith Bool Lia.
Import ListNotations.
From Verif Require Import Model_Tree Model_Parse Model_Dict Proofs_Dict Model_DfgFile Proofs_DfgFile Model_Pnml Model_Xes Spec_Xes Proofs_Xes1 Proofs_Xes2 Proofs_Xes3.
Local Open Scope list_scope.

(** C97: The log that is read does not depend on the way in which the file is cut into chunks. *)
Theorem C97_chunks F D (C : codec F D) (chunks chunks' : list text) :
  concat chunks = concat chunks' -> tidy (concat chunks) -> import_chunks C chunks = import_chunks C chunks'.
Proof.
  intros E T. unfold import_chunks. apply tidy_neat in T. 
  rewrite (read_run C chunks initial None I T). rewrite E in T |- *. now rewrite (read_run C chunks' initial None I T).
Qed.
Print Assumptions C97_chunks.

Lemma view_pr {F D} n (h : list (dict text (@cell F D))) l : map (fun kv => (fst kv, view_val n h (snd kv))) (map pr l) = l.
Proof. rewrite map_map. rewrite <- (map_id l) at 2. apply map_ext. intros [k v]. cbn. now destruct n. Qed.
Lemma nth_mid {A} (a b : list A) x d : nth (length a) (a ++ x :: b) d = x.
Proof. rewrite app_nth2, Nat.sub_diag by lia. reflexivity. Qed.
Lemma view_mid {F D} (a b : list (dict text (@cell F D))) l : view_dict (a ++ map pr l :: b) (length a) = l.
Proof.
  unfold view_dict. replace (nth (length a) (a ++ map pr l :: b) []) with (map (@pr F D) l) by (symmetry; apply (nth_mid a b)).
  apply view_pr.
Qed.
Lemma view_events {F D} (l : list (list (text * aval F D))) : forall a b,
  map (view_dict (a ++ map (map pr) l ++ b)) (addresses (length a) l) = l.
Proof.
  induction l as [|e l IH]; intros a b; [reflexivity|]. cbn [map addresses app]. f_equal; [apply view_mid|].
  specialize (IH (a ++ [map pr e]) b). rewrite app_length, Nat.add_1_r, <- app_assoc in IH. exact IH.
Qed.
Lemma view_traces {F D} (l : list (list (text * aval F D) * list (list (text * aval F D)))) : forall a b,
  map (fun t => (view_dict (a ++ concat (map trace_cells l) ++ b) (fst t), map (view_dict (a ++ concat (map trace_cells l) ++ b)) (snd t))) (trace_refs (length a) l) = l.
Proof.
  induction l as [|t l IH]; intros a b; [reflexivity|]. cbn [map concat trace_refs]. f_equal.
  - destruct t as [x es]. cbn [fst snd]. f_equal.
    + unfold trace_cells at 1. cbn [fst snd app]. rewrite <- app_assoc. apply view_mid.
    + unfold trace_cells at 1. cbn [fst snd app].
      assert (V := view_events es (a ++ [map pr x]) (concat (map trace_cells l) ++ b)).
      rewrite app_length, Nat.add_1_r, <- app_assoc in V. rewrite <- app_assoc. exact V.
  - specialize (IH (a ++ trace_cells t) b). rewrite app_length, <- app_assoc in IH. rewrite <- app_assoc. exact IH.
Qed.
Lemma view_globs {F D} (l : list (text * list (text * aval F D))) : forall a b,
  map (fun kv => (fst kv, match snd kv with XDict x => view_dict (a ++ map (fun g => map pr (snd g)) l ++ b) x | _ => [] end)) (scopes (length a) l) = l.
Proof.
  induction l as [|[s g] l IH]; intros a b; [reflexivity|]. cbn [map scopes fst snd app]. f_equal.
  - f_equal. apply view_mid.
  - specialize (IH (a ++ [map pr g]) b). rewrite app_length, Nat.add_1_r, <- app_assoc in IH. exact IH.
Qed.

Definition xml_head (encoding : text) : text := tx "?xml version=" ++ dq (tx "1.0") ++ tx " encoding=" ++ dq encoding ++ tx " ?".
Definition log_head : text := tx "log xes.version=" ++ dq (tx "1849-2016") ++ tx " xes.features=" ++ dq (tx "nested-attributes")
                    ++ tx " xmlns=" ++ dq (tx "http://www.xes-standard.org/").

Lemma written_read F D (C : codec F D) (HC : faithful C) encoding (l l' : xlog F D) :
  lacks encoding [60; 62] -> reads_log C l l' ->
  exists s, export_log C encoding l = Some s /\ tidy s /\ finished (run C initial (kept (pieces s))) = Some l'.
Proof.
  intros He [Hx Hc Ha Hg Ht]. destruct Hx as (Ex & Hx & Nx), Hc as (Ec & Hc & Nc), Hg as (Hg & Ng).
  destruct (extensions_ok C _ Hx) as (lx & Tx & Rx). destruct (classifiers_ok C _ Hc) as (lc & Tc & Rc).
  destruct Ha as [Ha Na]. destruct (attrs_ok C HC _ _ Ha 1) as (sa & la & Ea & Ta & Ra).
  destruct (globals_ok C HC _ _ Hg) as (sg & lg & Eg & Tg & Rg). destruct (traces_ok C HC _ _ Ht) as (st & lt & Et & Tt & Rt).
  unfold export_log, export_attributes. rewrite Ea, Eg, Et. cbn [concat_opt]. rewrite app_nil_r.
  set (items := [xml_head encoding] ++ [log_head] ++ lx ++ lc ++ la ++ lg ++ lt ++ [tx "/log"]).
  eexists. split; [reflexivity|].
  match goal with |- tidy ?s /\ _ => assert (T : tagged s items) end.
  { unfold items. apply tagged_app.
    { replace (tx "<?xml version=" ++ dq (tx "1.0") ++ tx " encoding=" ++ dq encoding ++ tx " ?>" ++ nl) with (tx "<" ++ xml_head encoding ++ tx ">" ++ nl).
      - apply tagged_0. split; [|eexists; eexists; split; reflexivity]. unfold xml_head. repeat (apply clean_app; split); try clean_lit.
        intros c I. destruct (angle c) eqn:A; auto. apply angle_in in A. exfalso. exact (He c I A).
      - unfold xml_head. change (tx "<?xml version=") with (tx "<" ++ tx "?xml version="). change (tx " ?>") with (tx " ?" ++ tx ">").
        rewrite <- !app_assoc. reflexivity. }
    apply tagged_app; [apply (tagged_0 log_head); split; [clean_lit|eexists; eexists; split; reflexivity]|].
    repeat (apply tagged_app; [assumption|]). apply (tagged_0 (tx "/log")). split; [clean_lit|eexists; eexists; split; reflexivity]. }
  destruct (tagged_pieces _ _ T) as [K N]. split; [now apply tidy_neat|]. rewrite K. unfold items. clear K N T items.
  rewrite run_app. 
  assert (R0 : run C initial [xml_head encoding] = Go initial).
  { cbn [run]. unfold handle. change (closing (xml_head encoding)) with false. cbn iota.
    replace (before_space (xml_head encoding)) with (Some (tx "?xml")) by (symmetry; apply (before_sp (tx "?xml")); cbn; intuition discriminate).
    reflexivity. }
  rewrite R0. rewrite run_app. 
  assert (R1 : run C (@initial F D) [log_head] = Go (mk [[]; []; []; []; []] [1] [])) by reflexivity.
  rewrite R1. rewrite run_app, Rx by exact Nx. rewrite run_app, Rc by exact Nc. rewrite run_app.
  rewrite (Ra _ 1 []) by reflexivity. unfold with_heap. cbn [mk heap stack traces].
  set (E := [] ++ map (fun e => (fst e, XExt (fst (snd e)) (snd (snd e)))) (x_ext l)).
  set (K := [] ++ map (fun e => (fst e, XKeys (snd e))) (x_cls l)).
  assert (SA := store_all_app (map pr (x_att l')) [[]] [] [E; K; []] ltac:(easy) ltac:(cbn; rewrite pr_keys; exact Na)).
  cbn [length app] in SA. 
  match goal with |- finished (match run C {| heap := ?X; stack := ?a; traces := ?b |} ?c with _ => _ end) = _ => idtac | |- finished (run C {| heap := ?X; stack := _; traces := _ |} _) = _ => replace X with ([] :: map pr (x_att l') :: [E; K; []]) by (symmetry; exact SA) end.
  rewrite run_app. fold (mk ([] :: map (@pr F D) (x_att l') :: [E; K; []]) [1] []). rewrite Rg by exact Ng.
  rewrite run_app, Rt by easy. cbn [run].
  unfold handle. change (closing (tx "/log")) with true. cbn iota. cbn [mk stack finished]. f_equal.
  unfold view. cbn [mk heap traces]. rewrite app_nil_r, map_rev, rev_involutive.
  set (G := map (fun g => map pr (snd g)) (x_glob l')). set (TC := concat (map trace_cells (x_traces l'))).
  cbn [length]. change (5 + 0) with 5.
  destruct l' as [e' k' a' g' t']. cbn [x_ext x_cls x_att x_glob x_traces] in *. f_equal.
  - cbn [nth app]. unfold E. rewrite map_app, map_map. cbn [map app fst snd]. rewrite Ex. rewrite <- (map_id (x_ext l)) at 2. apply map_ext. now intros [? [? ?]].
  - cbn [nth app]. unfold K. rewrite map_app, map_map. cbn [map app fst snd]. rewrite Ec. rewrite <- (map_id (x_cls l)) at 2. apply map_ext. now intros [? ?].
  - exact (view_mid [[]] _ a').
  - cbn [nth app]. exact (view_globs g' [[]; map pr a'; E; K; scopes 5 g'] TC).
  - assert (V := view_traces t' ([[]; map pr a'; E; K; scopes 5 g'] ++ G) []). rewrite app_nil_r in V. exact V.
Qed.

(** C97: in particular, for every file written by write_xes. *)
Theorem C97_written F D (C : codec F D) encoding (l l' : xlog F D) (chunks : list text) : faithful C ->
  lacks encoding [60; 62] -> reads_log C l l' -> export_log C encoding l = Some (concat chunks) -> import_chunks C chunks = Some l'.
Proof.
  intros HC He R E. destruct (written_read F D C HC encoding l l' He R) as (s & E' & T & Fi). rewrite E in E'. injection E' as <-.
  unfold import_chunks. rewrite (read_run C chunks initial None I); [exact Fi|now apply tidy_neat].
Qed.
Print Assumptions C97_written.

Lemma simple_reads {F D} (C : codec F D) kv : simple kv -> reads C kv kv.
Proof.
  intros S. assert (E : forall s, plain s -> esc s = s) by apply esc_plain. 
  destruct S as [k s A B|k z A B|k f A B|k d A B|k b A B]; rewrite <- (E k A) at 2; try (constructor; auto; now apply plain_lacks).
  rewrite <- (E s B) at 2. constructor; now apply plain_lacks.
Qed.
Lemma simple_reads_dict {F D} (C : codec F D) l : simple_dict l -> reads_dict C l l.
Proof.
  intros [H N]. split; auto. clear N. induction H; constructor; auto. now apply simple_reads.
Qed.
(** C98: A log whose attributes are texts without special characters, integers, floating point numbers, dates and
    Boolean values is read exactly as it has been written: extensions, classifiers, attributes of the log, globals, traces,
    events, in the same order and with the same keys and values, however the file is cut into chunks. *)
Theorem C98_roundtrip F D (C : codec F D) encoding (l : xlog F D) : faithful C -> lacks encoding [60; 62] -> simple_log l ->
  exists s, export_log C encoding l = Some s /\ forall chunks, concat chunks = s -> import_chunks C chunks = Some l.
Proof.
  intros HC He S. assert (R : reads_log C l l).
  { destruct S as [[Sx Nx] [Sc Nc] Sa [Sg Ng] St]. split; auto.
    - now apply simple_reads_dict.
    - split; auto. clear Ng. induction Sg as [|g gs [U G] Sg IH]; constructor; auto. split; [auto|]. split; [auto|]. now apply simple_reads_dict.
    - clear - St. induction St as [|t ts [A B] St IH]; constructor; auto. split; [now apply simple_reads_dict|].
      clear - B. induction B; constructor; auto. now apply simple_reads_dict. }
  destruct (written_read F D C HC encoding l l He R) as (s & E & _). exists s. split; auto. intros chunks <-.
  now apply (C97_written F D C encoding l l chunks).
Qed.
Print Assumptions C98_roundtrip.
(** C98: For other attributes: special characters come back as entities, values of other types as texts, nested
    attributes without their children. *)
Theorem C98_lossy F D (C : codec F D) encoding (l l' : xlog F D) : faithful C -> lacks encoding [60; 62] -> reads_log C l l' ->
  exists s, export_log C encoding l = Some s /\ import_chunks C [s] = Some l'.
Proof.
  intros HC He R. destruct (written_read F D C HC encoding l l' He R) as (s & E & _). exists s. split; auto.
  apply (C97_written F D C encoding l l' [s]); auto. cbn. now rewrite app_nil_r.
Qed.
Print Assumptions C98_lossy.

(** ** Examples *)
(** a codec with numbers for floating point numbers and dates *)
Definition zcodec : codec Z Z := {| show_float := print_int; parse_float := read_int; show_date := print_int; parse_date := read_int; str_date := print_int |}.
Example zcodec_faithful : faithful zcodec.
Proof. split; intros z; (split; [apply read_print|apply num_lacks]). Qed.

Definition small_log : xlog Z Z :=
  {| x_ext := [(tx "Concept", (tx "concept", tx "http://www.xes-standard.org/concept.xesext"))];
     x_cls := [(tx "Activity", [tx "concept:name"; tx "lifecycle:transition"])];
     x_att := [(tx "source", AStr (tx "it's a test")); (tx "version", AInt (-3))];
     x_glob := [(tx "event", [(tx "concept:name", AStr (tx "none"))])];
     x_traces := [([(tx "concept:name", AStr (tx "case 1"))],
                   [[(tx "concept:name", AStr (tx "a")); (tx "time:timestamp", ADate 7%Z)]; [(tx "concept:name", AStr (tx "b")); (tx "ok", ABool true)]]);
                  ([(tx "cost", AFloat 12%Z)], [])] |}.
Ltac plain_lit := let c := fresh in let I := fresh in let J := fresh in
  intros c I J; cbn in I; repeat (destruct I as [<-|I]; [cbn in J; intuition discriminate|]); destruct I.
Ltac simple_lit := first [apply simple_str; plain_lit | apply simple_int; [plain_lit|discriminate] | apply simple_float; [plain_lit|discriminate]
  | apply simple_date; [plain_lit|discriminate] | apply simple_bool; [plain_lit|discriminate]].
Ltac dict_lit := split; [repeat (constructor; [simple_lit|]); constructor|repeat (constructor; [cbn; intuition discriminate|]); constructor].
Lemma not_part p s : contains p s = false -> ~ part_of p s.
Proof. intros H (u & v & ->). rewrite contains_pre in H. discriminate. Qed.
Example small_simple : simple_log small_log.
Proof.
  split; cbn.
  - split; [|repeat constructor; auto]. constructor; [|constructor].
    split; [plain_lit|]. split; [plain_lit|]. split; [plain_lit|]. split; [|split]; apply not_part; reflexivity.
  - split; [|repeat constructor; auto]. constructor; [|constructor]. split; [plain_lit|]. split; [apply not_part; reflexivity|].
    constructor; [|constructor; [|constructor]]; (split; [discriminate|]; split; [plain_lit|]; split; [plain_lit|]; clean_lit).
  - dict_lit.
  - split; [|repeat constructor; auto]. constructor; [|constructor]. split; [plain_lit|dict_lit].
  - constructor; [|constructor; [|constructor]]; cbn.
    + split; [dict_lit|]. constructor; [dict_lit|constructor; [dict_lit|constructor]].
    + split; [dict_lit|constructor].
Qed.
Example small_encoding : lacks (tx "utf-8") [60; 62].
Proof. plain_lit. Qed.
Example small_roundtrip : exists s, export_log zcodec (tx "utf-8") small_log = Some s /\ import_chunks zcodec [s] = Some small_log
  /\ import_chunks zcodec [firstn 300 s; firstn 400 (skipn 300 s); skipn 700 s] = Some small_log /\ 700 < length s.
Proof. eexists. split; [vm_compute; reflexivity|]. split; [vm_compute; reflexivity|]. split; [vm_compute; reflexivity|]. vm_compute. lia. Qed.

(** C97: For a text with white space at the start of a tag, the log depends on the position of the cut. *)
Theorem C97_untidy_refuted : exists (c1 c2 : text),
  import_chunks zcodec [c1; c2] <> import_chunks zcodec [c1 ++ c2].
Proof. exists (tx "<log><trace>< "), (tx "event></event></trace></log>"). vm_compute. discriminate. Qed.

(** C98: Special characters, double quotes, nested attributes, and lists do not survive. *)
Definition log_with (a : list (text * aval Z Z)) : xlog Z Z := {| x_ext := []; x_cls := []; x_att := a; x_glob := []; x_traces := [] |}.
Definition twice (a : list (text * aval Z Z)) : option (option (list (text * aval Z Z))) :=
  option_map (fun s => option_map x_att (import_chunks zcodec [s])) (export_log zcodec (tx "utf-8") (log_with a)).
Theorem C98_entities_refuted : twice [(tx "k", AStr (tx "a & b"))] = Some (Some [(tx "k", AStr (tx "a &amp; b"))]).
Proof. vm_compute. reflexivity. Qed.
(** a value that is a double quote: something else is read *)
Theorem C98_quotes_refuted : twice [(tx "k", AStr [c_dq])] = Some (Some [(tx "k", AStr (tx "' /"))]).
Proof. vm_compute. reflexivity. Qed.
Theorem C98_nested_refuted : twice [(tx "k", ANested (AInt 5) [(tx "child", AInt 6)])] = Some (Some [(tx "k", AInt 5)]).
Proof. vm_compute. reflexivity. Qed.
(** a list comes back as a dictionary; written again, the first two characters of its keys are left *)
Theorem C98_lists_refuted : let l := [(tx "k", AList [(tx "first", AInt 5); (tx "second", AInt 6)])] in
  twice l = Some (Some [(tx "k", ADictList [(tx "first", AInt 5); (tx "second", AInt 6)])]) /\
  twice [(tx "k", ADictList [(tx "first", AInt 5); (tx "second", AInt 6)])] = Some (Some [(tx "k", ADictList [(tx "f", AStr (tx "i")); (tx "s", AStr (tx "e"))])]).
Proof. split; vm_compute; reflexivity. Qed.
(** the keys of a classifier that contain a space come back as two keys *)
Theorem C98_classifier_refuted : exists s l, export_log zcodec (tx "utf-8") {| x_ext := []; x_cls := [(tx "c", [tx "my key"])]; x_att := []; x_glob := []; x_traces := [] |} = Some s /\
  import_chunks zcodec [s] = Some l /\ x_cls l = [(tx "c", [tx "my"; tx "key"])].
Proof. eexists. eexists. split; [vm_compute; reflexivity|]. split; vm_compute; reflexivity. Qed.
(** a numpy integer comes back as a text *)
Theorem C98_numpy_refuted : twice [(tx "k", AOther (tx "5"))] = Some (Some [(tx "k", AStr (tx "5"))]).
Proof. vm_compute. reflexivity. Qed.
