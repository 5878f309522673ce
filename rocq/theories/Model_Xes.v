(** Model of writing and reading XES files:
    pm4py/objects/log/exporter/xes/variants/line_by_line.py (ex; the default exporter of write_xes) and
    pm4py/objects/log/importer/xes/variants/chunk_regex.py (im; the default importer of read_xes).

    Strings are lists of 8-bit characters ([text], Model_Parse.v): the encoding of the file is left out, as are
    compression and the progress bar.  Floating point numbers and dates are arbitrary types with the functions
    that write and read them ([codec]); integers are written and read by [print_int] and [read_int].
    A Python exception is [None] ([Raise] in the importer). *)
From Coq Require Import String Ascii List Arith ZArith Bool.
Import ListNotations.
From Verif Require Import Model_Tree Model_Parse Model_Dict Model_DfgFile Model_Pnml.
Local Open Scope list_scope.

(** str, isoformat, float and the date parser *)
Record codec (F D : Type) := {
  show_float : F -> text; parse_float : text -> option F;
  show_date : D -> text; parse_date : text -> option D;
  str_date : D -> text }.
Arguments show_float {F D}. Arguments parse_float {F D}. Arguments show_date {F D}. Arguments parse_date {F D}. Arguments str_date {F D}.

(** The values of attributes.  [AOther] is a value of a type that is not in the table at ex 33-44 (numpy.int64, for
    example, whose type name is "int64"), given by its str.  [AList] is {"value": None, "children": list of pairs},
    [ADictList] the same with a dictionary as children, [ANested] has a value and a dictionary of children. *)
Inductive aval (F D : Type) :=
| AStr (s : text) | AInt (z : Z) | AFloat (f : F) | ADate (d : D) | ABool (b : bool) | ANone | AOther (s : text)
| AList (children : list (text * aval F D))
| ADictList (children : list (text * aval F D))
| ANested (v : aval F D) (children : list (text * aval F D)).
Arguments AStr {F D}. Arguments AInt {F D}. Arguments AFloat {F D}. Arguments ADate {F D}. Arguments ABool {F D}. Arguments ANone {F D}.
Arguments AOther {F D}. Arguments AList {F D}. Arguments ADictList {F D}. Arguments ANested {F D}.

(** An EventLog: log.extensions (prefix and uri), log.classifiers, log.attributes, log.omni_present, and the traces
    with their attributes and events. *)
Record xlog (F D : Type) := {
  x_ext : list (text * (text * text));
  x_cls : list (text * list text);
  x_att : list (text * aval F D);
  x_glob : list (text * list (text * aval F D));
  x_traces : list (list (text * aval F D) * list (list (text * aval F D))) }.
Arguments x_ext {F D}. Arguments x_cls {F D}. Arguments x_att {F D}. Arguments x_glob {F D}. Arguments x_traces {F D}.
Arguments Build_xlog {F D}.

Definition c_lt : ascii := ascii_of_nat 60.
Definition c_amp : ascii := ascii_of_nat 38.
Definition c_dq : ascii := ascii_of_nat 34.
Definition c_tab : ascii := ascii_of_nat 9.
Definition c_slash : ascii := ascii_of_nat 47.

(** xml.sax.saxutils.escape with the entities added by quoteattr *)
Definition esc_char (c : ascii) : text :=
  if Ascii.eqb c c_amp then tx "&amp;" else if Ascii.eqb c c_gt then tx "&gt;" else if Ascii.eqb c c_lt then tx "&lt;"
  else if Ascii.eqb c c_nl then tx "&#10;" else if Ascii.eqb c c_cr then tx "&#13;" else if Ascii.eqb c c_tab then tx "&#9;"
  else [c].
Definition esc (s : text) : text := concat (map esc_char s).
Definition has (c : ascii) (s : text) : bool := existsb (Ascii.eqb c) s.
(** ex 108-122 [escape], which is xml.sax.saxutils.quoteattr *)
Definition quoteattr (s : text) : text :=
  let d := esc s in
  if has c_dq d then
    if has c_quote d then [c_dq] ++ concat (map (fun c => if Ascii.eqb c c_dq then tx "&quot;" else [c]) d) ++ [c_dq]
    else [c_quote] ++ d ++ [c_quote]
  else [c_dq] ++ d ++ [c_dq].

(** ex 92-105 [get_tab_indent] *)
Definition indent (n : nat) : text := repeat c_tab n.
Definition nl : text := [c_nl].
Definition name_key : text := tx "concept:name".

Fixpoint concat_opt (l : list (option text)) : option text :=
  match l with
  | [] => Some []
  | None :: _ => None
  | Some s :: r => match concat_opt r with Some t => Some (s ++ t) | None => None end
  end.

Section Exporter.
Context {F D : Type} (C : codec F D).
Notation aval := (aval F D).
Notation xlog := (xlog F D).

(** ex 33-66 [__get_xes_attr_type]; the dictionaries are lists and nested attributes *)
Definition xes_type (k : text) (v : aval) : text :=
  if keqb k name_key then tx "string"
  else match v with
       | AInt _ => tx "int" | AFloat _ => tx "float" | ADate _ => tx "date" | ABool _ => tx "boolean"
       | AList _ | ADictList _ | ANested _ _ => tx "list"
       | AStr _ | AOther _ | ANone => tx "string"
       end.
(** str(v); the text of a dictionary is left out *)
Definition py_str (v : aval) : text :=
  match v with
  | AStr s | AOther s => s
  | AInt z => print_int z
  | AFloat f => show_float C f
  | ADate d => str_date C d
  | ABool b => if b then tx "True" else tx "False"
  | ANone => tx "None"
  | AList _ | ADictList _ | ANested _ _ => tx "{...}"
  end.
(** ex 69-84 [__get_xes_attr_value] (isoformat of something that is not a date does not occur) *)
Definition xes_value (v : aval) (t : text) : text :=
  if keqb t (tx "date") then match v with ADate d => show_date C d | _ => py_str v end
  else if keqb t (tx "boolean") then match v with ABool b => if b then tx "true" else tx "false" | _ => py_str v end
  else py_str v.

(** ex 149-150: a simple attribute *)
Definition simple_line (n : nat) (k : text) (v : aval) (close : text) : text :=
  indent n ++ tx "<" ++ xes_type k v ++ tx " key=" ++ quoteattr k ++ tx " value=" ++ quoteattr (xes_value v (xes_type k v)) ++ close ++ nl.
(** ex 125-171 [export_attribute].  For the elements of a dictionary of children at ex 156-157, subattr is the key,
    so that its first two characters are taken for the name and the value of the attribute. *)
Fixpoint export_attribute (k : text) (v : aval) (n : nat) {struct v} : option text :=
  match v with
  | ANone => Some []
  | AList ch =>
    if keqb k name_key then Some (simple_line n k v (tx " />"))
    else match concat_opt (map (fun kv => export_attribute (fst kv) (snd kv) (n + 2)) ch) with
         | Some body =>
           Some (indent n ++ tx "<list key=" ++ quoteattr k ++ tx ">" ++ nl ++ indent (n + 1) ++ tx "<values>" ++ nl ++ body
                 ++ indent (n + 1) ++ tx "</values>" ++ nl ++ indent n ++ tx "</list>" ++ nl)
         | None => None
         end
  | ADictList ch =>
    if keqb k name_key then Some (simple_line n k v (tx " />"))
    else match concat_opt (map (fun kv => match fst kv with
                                          | a :: b :: _ => Some (simple_line (n + 2) [a] (AStr [b]) (tx " />"))
                                          | _ => None
                                          end) ch) with
         | Some body =>
           Some (indent n ++ tx "<list key=" ++ quoteattr k ++ tx ">" ++ nl ++ indent (n + 1) ++ tx "<values>" ++ nl ++ body
                 ++ indent (n + 1) ++ tx "</values>" ++ nl ++ indent n ++ tx "</list>" ++ nl)
         | None => None
         end
  | ANested w ch =>
    if keqb k name_key then Some (simple_line n k v (tx " />"))
    else match concat_opt (map (fun kv => export_attribute (fst kv) (snd kv) (n + 1)) ch) with
         | Some body => Some (simple_line n k w (tx ">") ++ body ++ tx "</" ++ xes_type k w ++ tx ">" ++ nl)
         | None => None
         end
  | _ => Some (simple_line n k v (tx " />"))
  end.
Definition export_attributes (l : list (text * aval)) (n : nat) : option text :=
  concat_opt (map (fun kv => export_attribute (fst kv) (snd kv) n) l).

(** ex 188-191: an event *)
Definition export_event (e : list (text * aval)) : option text :=
  concat_opt [Some (indent 2 ++ tx "<event>" ++ nl); export_attributes e 3; Some (indent 2 ++ tx "</event>" ++ nl)].
(** ex 174-192 [export_trace_line_by_line] *)
Definition export_trace (t : list (text * aval) * list (list (text * aval))) : option text :=
  concat_opt [Some (indent 1 ++ tx "<trace>" ++ nl); export_attributes (fst t) 2; concat_opt (map export_event (snd t));
              Some (indent 1 ++ tx "</trace>" ++ nl)].

(** " ".join(l) *)
Fixpoint join_sp (l : list text) : text :=
  match l with
  | [] => []
  | [w] => w
  | w :: r => w ++ [c_sp] ++ join_sp r
  end.
(** a quoted text, not escaped *)
Definition dq (s : text) : text := [c_dq] ++ s ++ [c_dq].
(** ex 222-224 *)
Definition export_extension (e : text * (text * text)) : text :=
  indent 1 ++ tx "<extension name=" ++ dq (fst e) ++ tx " prefix=" ++ dq (fst (snd e)) ++ tx " uri=" ++ dq (snd (snd e)) ++ tx " />" ++ nl.
(** ex 225-227 *)
Definition export_classifier (c : text * list text) : text :=
  indent 1 ++ tx "<classifier name=" ++ dq (fst c) ++ tx " keys=" ++ dq (join_sp (snd c)) ++ tx " />" ++ nl.
(** ex 230-234 *)
Definition export_global (g : text * list (text * aval)) : option text :=
  concat_opt [Some (indent 1 ++ tx "<global scope=" ++ dq (fst g) ++ tx ">" ++ nl); export_attributes (snd g) 2;
              Some (indent 1 ++ tx "</global>" ++ nl)].
(** ex 195-245 [export_log_line_by_line]; 278-311 [export_log_as_string], 248-275 [apply] write the same text *)
Definition export_log (encoding : text) (l : xlog) : option text :=
  concat_opt [Some (tx "<?xml version=" ++ dq (tx "1.0") ++ tx " encoding=" ++ dq encoding ++ tx " ?>" ++ nl);
              Some (tx "<log xes.version=" ++ dq (tx "1849-2016") ++ tx " xes.features=" ++ dq (tx "nested-attributes")
                    ++ tx " xmlns=" ++ dq (tx "http://www.xes-standard.org/") ++ tx ">" ++ nl);
              Some (concat (map export_extension (x_ext l)));
              Some (concat (map export_classifier (x_cls l)));
              export_attributes (x_att l) 1;
              concat_opt (map export_global (x_glob l));
              concat_opt (map export_trace (x_traces l));
              Some (tx "</log>" ++ nl)].

(** ** The importer *)

(** rex.split: the pieces between the characters < and >, and these characters *)
Fixpoint pieces (s : text) : list text :=
  match s with
  | [] => [[]]
  | c :: r =>
    if Ascii.eqb c c_lt || Ascii.eqb c c_gt then [] :: [c] :: pieces r
    else match pieces r with
         | w :: ws => (c :: w) :: ws
         | [] => [[c]]
         end
  end.

(** The dictionaries created by the importer, with their addresses: 0 is fk_dict (im 63), which is written but never
    read, so that its content is not kept; 1 log.attributes, 2 log.extensions, 3 log.classifiers, 4 log.omni_present;
    then the new ones in the order of their creation. *)
Inductive cell :=
| XVal (v : aval)                 (* a simple value *)
| XExt (prefix uri : text)        (* im 124 *)
| XKeys (l : list text)           (* im 133-135 *)
| XDict (a : nat)                 (* im 143: a dictionary *)
| XList (a : nat).                (* im 152: {"value": None, "children": dictionary} *)
Record state := { heap : list (dict text cell); stack : list nat; traces : list (nat * list nat) }.
(** the log, with its traces (addresses of the attributes and of the events), the last one first *)
Definition initial : state := {| heap := [[]; []; []; []; []]; stack := []; traces := [] |}.

Fixpoint replace {A} (l : list A) (i : nat) (f : A -> A) : list A :=
  match l, i with
  | [], _ => []
  | x :: r, O => f x :: r
  | x :: r, S j => x :: replace r j f
  end.
(** dictionary[k] = v *)
Definition store (a : nat) (k : text) (v : cell) (h : list (dict text cell)) : list (dict text cell) :=
  match a with O => h | _ => replace h a (fun d => d_set d k v) end.

Inductive outcome := Raise | Return (st : state) | Go (st : state).

(** the first character is '/' *)
Definition closing (el : text) : bool := match el with c :: _ => Ascii.eqb c c_slash | [] => false end.
(** el[:el.find(' ')] when there is a space *)
Fixpoint before_space (el : text) : option text :=
  match el with
  | [] => None
  | c :: r => if Ascii.eqb c c_sp then Some [] else option_map (cons c) (before_space r)
  end.
(** el split at the double quotes, with the last element stripped: im 87-88 *)
Fixpoint strip_last (l : list text) : list text :=
  match l with
  | [] => []
  | [s] => [strip s]
  | s :: r => s :: strip_last r
  end.
Definition fields (el : text) : list text := strip_last (split_on c_dq el).
(** the element after the first one that contains a text: im 121-123, 130-131 *)
Fixpoint after (p : text) (l : list text) : option text :=
  match l with
  | [] => None
  | s :: r => if contains p s then match r with s' :: _ => Some s' | [] => None end else after p r
  end.
(** s.split(): the words separated by white space *)
Fixpoint words (s : text) : list text :=
  match s with
  | [] => []
  | c :: r =>
    if is_space c then words r
    else match r with
         | d :: _ => if is_space d then [c] :: words r
                     else match words r with w :: ws => (c :: w) :: ws | [] => [[c]] end
         | [] => [[c]]
         end
  end.
Definition blank (s : text) : bool := forallb is_space s.
(** im 132-135 *)
Definition read_keys (keys : text) : list text :=
  if has c_quote keys then filter (fun x => negb (blank x)) (split_on c_quote keys) else words keys.

(** im 90-117: an attribute with value [v], assigned to the dictionary on top of the stack *)
Definition put (st : state) (fs : list text) (k : text) (v : option aval) : outcome :=
  match stack st, v with
  | a :: r, Some w =>
    let h := store a k (XVal w) (heap st) in
    Go {| heap := h; stack := if keqb (last fs []) [c_slash] then stack st else 0 :: stack st; traces := traces st |}
  | _, _ => Raise
  end.
(** im 89-117 *)
Definition attribute (st : state) (fs : list text) (parse : text -> option aval) : outcome :=
  match nth_error fs 1, nth_error fs 3 with
  | Some k, Some v => put st fs k (parse v)
  | _, _ => Raise
  end.
Definition push (st : state) (fs : list text) (a : nat) (h : list (dict text cell)) : outcome :=
  Go {| heap := h; stack := if keqb (last fs []) [c_slash] then stack st else a :: stack st; traces := traces st |}.

(** im 76-176: a piece of text that is not blank, nor < or > *)
Definition handle (st : state) (el : text) : outcome :=
  if closing el then
    match stack st with
    | _ :: b :: r => Go {| heap := heap st; stack := b :: r; traces := traces st |}
    | _ => Return st
    end
  else
    match before_space el with
    | Some t =>
      let fs := fields el in
      if keqb t (tx "string") then attribute st fs (fun s => Some (AStr s))
      else if keqb t (tx "date") then attribute st fs (fun s => option_map ADate (parse_date C s))
      else if keqb t (tx "int") then attribute st fs (fun s => option_map AInt (read_int s))
      else if keqb t (tx "float") then attribute st fs (fun s => option_map AFloat (parse_float C s))
      else if keqb t (tx "boolean") then attribute st fs (fun s => Some (ABool (keqb s (tx "true"))))
      else if keqb t (tx "extension") then
        match after (tx "name=") fs, after (tx "prefix=") fs, after (tx "uri=") fs with
        | Some n, Some p, Some u => push st fs 2 (store 2 n (XExt p u) (heap st))
        | _, _, _ => Raise
        end
      else if keqb t (tx "classifier") then
        match after (tx "name=") fs, after (tx "keys=") fs with
        | Some n, Some ks => push st fs 3 (store 3 n (XKeys (read_keys ks)) (heap st))
        | _, _ => Raise
        end
      else if keqb t (tx "global") then
        match nth_error fs 1 with
        | Some s => push st fs (length (heap st)) (store 4 s (XDict (length (heap st))) (heap st) ++ [[]])
        | None => Raise
        end
      else if keqb t (tx "log") then Go {| heap := heap st; stack := 1 :: stack st; traces := traces st |}
      else if keqb t (tx "list") then
        match stack st, nth_error fs 1 with
        | a :: r, Some k => Go {| heap := store a k (XList (length (heap st))) (heap st) ++ [[]];
                                  stack := length (heap st) :: stack st; traces := traces st |}
        | _, _ => Raise
        end
      else Go st
    | None =>
      if keqb el (tx "event") then
        match traces st with
        | (a, es) :: r => Go {| heap := heap st ++ [[]]; stack := length (heap st) :: stack st;
                                traces := (a, es ++ [length (heap st)]) :: r |}
        | [] => Raise
        end
      else if keqb el (tx "trace") then
        Go {| heap := heap st ++ [[]]; stack := length (heap st) :: stack st; traces := (length (heap st), []) :: traces st |}
      else if keqb el (tx "log") then Go {| heap := heap st; stack := 1 :: stack st; traces := traces st |}
      else if keqb el (tx "values") then
        match stack st with
        | a :: r => Go {| heap := heap st; stack := a :: a :: r; traces := traces st |}
        | [] => Raise
        end
      else Go st
    end.

(** the pieces that are skipped: im 69-73 *)
Definition skipped (el : text) : bool := blank el || keqb el [c_lt] || keqb el [c_gt].

(** im 66-75: the pieces of a chunk; the last one, when it is not skipped, is kept and completed with the next chunks
    (im 74-80: the second component) *)
Fixpoint items (st : state) (ps : list text) : outcome * option text :=
  match ps with
  | [] => (Go st, None)
  | el :: r =>
    if skipped el then items st r
    else match r with
         | [] => (Go st, Some el)
         | _ :: _ => match handle st el with
                     | Go st' => items st' r
                     | o => (o, None)
                     end
         end
  end.
(** im 59-178 [import_log_from_file_object], with the chunks of bytes that F.read delivers (none of them empty) and the
    piece that is being completed *)
Fixpoint read_chunks (st : state) (pending : option text) (chunks : list text) {struct chunks} : outcome :=
  match chunks with
  | [] => match pending with
          | Some el => handle st el
          | None => Go st
          end
  | c :: cs =>
    match pending with
    | None => match items st (pieces c) with
              | (Go st', p) => read_chunks st' p cs
              | (o, _) => o
              end
    | Some el =>
      match pieces c with
      | p :: (q :: ps) =>
        match handle st (el ++ p) with
        | Go st' => match items st' (q :: ps) with
                    | (Go st'', p') => read_chunks st'' p' cs
                    | (o, _) => o
                    end
        | o => o
        end
      | p :: [] => read_chunks st (Some (el ++ p)) cs
      | [] => read_chunks st (Some el) cs
      end
    end
  end.

(** the log object that is returned: the dictionaries at the addresses (lists of lists up to the number of dictionaries) *)
Fixpoint view_val (fuel : nat) (h : list (dict text cell)) (v : cell) : aval :=
  match v, fuel with
  | XVal w, _ => w
  | XList a, S n => ADictList (map (fun kv => (fst kv, view_val n h (snd kv))) (nth a h []))
  | XDict a, S n => ADictList (map (fun kv => (fst kv, view_val n h (snd kv))) (nth a h []))
  | _, _ => ANone
  end.
Definition view_dict (h : list (dict text cell)) (a : nat) : list (text * aval) :=
  map (fun kv => (fst kv, view_val (length h) h (snd kv))) (nth a h []).
Definition view (st : state) : xlog :=
  let h := heap st in
  {| x_ext := map (fun kv => (fst kv, match snd kv with XExt p u => (p, u) | _ => ([], []) end)) (nth 2 h []);
     x_cls := map (fun kv => (fst kv, match snd kv with XKeys l => l | _ => [] end)) (nth 3 h []);
     x_att := view_dict h 1;
     x_glob := map (fun kv => (fst kv, match snd kv with XDict a => view_dict h a | _ => [] end)) (nth 4 h []);
     x_traces := rev (map (fun t => (view_dict h (fst t), map (view_dict h) (snd t))) (traces st)) |}.
Definition finished (o : outcome) : option xlog :=
  match o with Raise => None | Return st | Go st => Some (view st) end.
(** reading a file that is delivered in the given chunks *)
Definition import_chunks (chunks : list text) : option xlog := finished (read_chunks initial None chunks).
End Exporter.
