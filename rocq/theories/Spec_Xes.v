(** What is said about writing and reading XES files, on texts. *)
From Coq Require Import String Ascii List Arith ZArith Bool.
Import ListNotations.
From Verif Require Import Model_Parse Model_DfgFile Model_Pnml Model_Xes.
Local Open Scope list_scope.

Definition lacks (s : text) (cs : list nat) : Prop := forall c, In c s -> ~ In (nat_of_ascii c) cs.
(** white space (space, tab, line feed, ...) *)
Definition white (s : text) : Prop := forall c, In c s -> is_space c = true.
(** the text between two neighbouring angle brackets of [s] (or before the first, or after the last one) is white space,
    or starts with a character that is not white space *)
Definition tidy (s : text) : Prop :=
  forall u p v, s = u ++ p ++ v -> lacks p [60; 62] ->
    (u = [] \/ exists u' c, u = u' ++ [c] /\ In (nat_of_ascii c) [60; 62]) ->
    (v = [] \/ exists c v', v = c :: v' /\ In (nat_of_ascii c) [60; 62]) ->
    white p \/ exists c p', p = c :: p' /\ is_space c = false.

(** A text that contains no character with a special treatment in XML attributes: the ampersand (38), the angle brackets
    (60, 62), the double quote (34), the line feed (10), the carriage return (13) and the tab (9). *)
Definition plain (s : text) : Prop := lacks s [38; 60; 62; 34; 10; 13; 9].
Definition unquoted (s : text) : Prop := lacks s [60; 62; 34].
Definition part_of (p s : text) : Prop := exists u v, s = u ++ p ++ v.

Section Logs.
Context {F D : Type}.
(** the attributes whose values are texts, numbers, dates or Boolean values; concept:name is a text *)
Inductive simple : text * aval F D -> Prop :=
| simple_str k s : plain k -> plain s -> simple (k, AStr s)
| simple_int k z : plain k -> k <> tx "concept:name" -> simple (k, AInt z)
| simple_float k f : plain k -> k <> tx "concept:name" -> simple (k, AFloat f)
| simple_date k d : plain k -> k <> tx "concept:name" -> simple (k, ADate d)
| simple_bool k b : plain k -> k <> tx "concept:name" -> simple (k, ABool b).
(** a dictionary of such attributes *)
Definition simple_dict (l : list (text * aval F D)) : Prop := Forall simple l /\ NoDup (map fst l).

Definition good_extension (e : text * (text * text)) : Prop :=
  unquoted (fst e) /\ unquoted (fst (snd e)) /\ unquoted (snd (snd e)) /\
  ~ part_of (tx "prefix=") (fst e) /\ ~ part_of (tx "uri=") (fst e) /\ ~ part_of (tx "uri=") (fst (snd e)).
(** the keys are words *)
Definition good_classifier (c : text * list text) : Prop :=
  unquoted (fst c) /\ ~ part_of (tx "keys=") (fst c) /\
  Forall (fun w => w <> [] /\ unquoted w /\ lacks w [39] /\ forall ch, In ch w -> is_space ch = false) (snd c).
(** How an attribute comes back after writing and reading: special characters as XML entities, values of other types as
    texts, nested attributes without their children. *)
Inductive reads (C : codec F D) : text * aval F D -> text * aval F D -> Prop :=
| reads_str k s : lacks k [34] -> lacks s [34] -> reads C (k, AStr s) (esc k, AStr (esc s))
| reads_other k s : lacks k [34] -> lacks s [34] -> reads C (k, AOther s) (esc k, AStr (esc s))
| reads_int k z : lacks k [34] -> k <> tx "concept:name" -> reads C (k, AInt z) (esc k, AInt z)
| reads_float k f : lacks k [34] -> k <> tx "concept:name" -> reads C (k, AFloat f) (esc k, AFloat f)
| reads_date k d : lacks k [34] -> k <> tx "concept:name" -> reads C (k, ADate d) (esc k, ADate d)
| reads_bool k b : lacks k [34] -> k <> tx "concept:name" -> reads C (k, ABool b) (esc k, ABool b)
| reads_name_int z : reads C (tx "concept:name", AInt z) (tx "concept:name", AStr (print_int z))
| reads_nested k w ch r cr : k <> tx "concept:name" -> reads C (k, w) r -> (forall v l, w <> ANested v l) -> Forall2 (reads C) ch cr ->
    reads C (k, ANested w ch) r.
(** the dictionary [l'] holds what is read for the dictionary [l] *)
Definition reads_dict (C : codec F D) (l l' : list (text * aval F D)) : Prop := Forall2 (reads C) l l' /\ NoDup (map fst l').
Record reads_log (C : codec F D) (l l' : xlog F D) : Prop := {
  r_ext : x_ext l' = x_ext l /\ Forall good_extension (x_ext l) /\ NoDup (map fst (x_ext l));
  r_cls : x_cls l' = x_cls l /\ Forall good_classifier (x_cls l) /\ NoDup (map fst (x_cls l));
  r_att : reads_dict C (x_att l) (x_att l');
  r_glob : Forall2 (fun g g' => unquoted (fst g) /\ fst g' = fst g /\ reads_dict C (snd g) (snd g')) (x_glob l) (x_glob l') /\ NoDup (map fst (x_glob l));
  r_traces : Forall2 (fun t t' => reads_dict C (fst t) (fst t') /\ Forall2 (reads_dict C) (snd t) (snd t')) (x_traces l) (x_traces l') }.
Record simple_log (l : xlog F D) : Prop := {
  s_ext : Forall good_extension (x_ext l) /\ NoDup (map fst (x_ext l));
  s_cls : Forall good_classifier (x_cls l) /\ NoDup (map fst (x_cls l));
  s_att : simple_dict (x_att l);
  s_glob : Forall (fun g => unquoted (fst g) /\ simple_dict (snd g)) (x_glob l) /\ NoDup (map fst (x_glob l));
  s_traces : Forall (fun t => simple_dict (fst t) /\ Forall simple_dict (snd t)) (x_traces l) }.
End Logs.
(** reading undoes writing, for floating point numbers and dates, and the texts written are plain *)
Definition faithful {F D} (C : codec F D) : Prop :=
  (forall f, parse_float C (show_float C f) = Some f /\ plain (show_float C f)) /\
  (forall d, parse_date C (show_date C d) = Some d /\ plain (show_date C d)).
