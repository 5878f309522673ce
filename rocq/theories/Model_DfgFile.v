(** Model of the .dfg file format: pm4py/objects/dfg/exporter/variants/classic.py (ex) and
    pm4py/objects/dfg/importer/variants/classic.py (im).

    Strings are lists of 8-bit characters ([text], Model_Parse.v), encoding and decoding are left out.  The
    frequencies are integers.  int(s) is modelled on an optional minus sign and decimal digits surrounded by
    white space (Python also accepts a plus sign and underscores, which the exporter never writes).  An
    exception is [None].  [ord] is the enumeration order of the set of activities. *)
From Coq Require Import String Ascii List Arith ZArith Bool DecimalString.
Import ListNotations.
From Verif Require Import Model_Tree Model_Parse Model_Dict.
Local Open Scope list_scope.

#[export] Instance key_ascii : Key ascii := {| keqb := Ascii.eqb; keqb_spec := Ascii.eqb_spec |}.

Definition c_x : ascii := ascii_of_nat 120.
Definition c_gt : ascii := ascii_of_nat 62.

(** "%d" % z *)
Definition print_int (z : Z) : text := list_ascii_of_string (NilZero.string_of_int (Z.to_int z)).
(** int(s) *)
Definition read_int (s : text) : option Z :=
  option_map Z.of_int (NilZero.int_of_string (string_of_list_ascii (strip s))).

(** s.split(c) *)
Fixpoint split_on (c : ascii) (s : text) : list text :=
  match s with
  | [] => [[]]
  | d :: r =>
    if Ascii.eqb d c then [] :: split_on c r
    else match split_on c r with
         | w :: ws => (d :: w) :: ws
         | [] => [[d]]
         end
  end.
(** l.index(x) *)
Fixpoint index_of {A} {KA : Key A} (l : list A) (x : A) : option nat :=
  match l with
  | [] => None
  | y :: r => if keqb y x then Some 0 else option_map S (index_of r x)
  end.
(** l[z]: negative indices count from the end *)
Definition at_index {A} (l : list A) (z : Z) : option A :=
  if (z <? 0)%Z
  then if (z + Z.of_nat (length l) <? 0)%Z then None else nth_error l (Z.to_nat (z + Z.of_nat (length l)))
  else nth_error l (Z.to_nat z).

Definition dfg_graph := dict (text * text) Z.
Definition act_counts := dict text Z.

(** ex 63: list(set(sources).union(set(targets))) *)
Definition activities (ord : list text -> list text) (g : dfg_graph) : list text :=
  ord (dedup (map (fun e => fst (fst e)) g ++ map (fun e => snd (fst e)) g)).

(** ex 69-75: the lines of the start (end) activities *)
Definition act_lines (acts : list text) (sa : act_counts) : option (list text) :=
  option_map (cons (print_int (Z.of_nat (length sa)) ++ [c_nl]))
    (map_opt (fun ac => option_map (fun i => print_int (Z.of_nat i) ++ [c_x] ++ print_int (snd ac) ++ [c_nl])
                          (index_of acts (fst ac))) sa).
(** ex 77-78: the lines of the edges *)
Definition edge_lines (acts : list text) (g : dfg_graph) : option (list text) :=
  map_opt (fun e =>
    match index_of acts (fst (fst e)), index_of acts (snd (fst e)) with
    | Some i, Some j =>
      Some (print_int (Z.of_nat i) ++ [c_gt] ++ print_int (Z.of_nat j) ++ [c_x] ++ print_int (snd e) ++ [c_nl])
    | _, _ => None
    end) g.
(** ex 30-78 [export_line_by_line], with given start and end activities *)
Definition export_lines (ord : list text -> list text) (g : dfg_graph) (sa ea : act_counts) : option (list text) :=
  match sa, ea with
  | [], _ | _, [] => None
  | _, _ =>
    let acts := activities ord g in
    match act_lines acts sa, act_lines acts ea, edge_lines acts g with
    | Some ls, Some le, Some lg =>
      Some ((print_int (Z.of_nat (length acts)) ++ [c_nl]) :: map (fun a => a ++ [c_nl]) acts ++ ls ++ le ++ lg)
    | _, _, _ => None
    end
  end.
(** ex 108-139 [export_as_string]; 81-105 [apply] writes the same characters *)
Definition export_string ord g sa ea : option text := option_map (@concat ascii) (export_lines ord g sa ea).

(** io: readlines(); every line keeps its end of line *)
Fixpoint readlines (s : text) : list text :=
  match s with
  | [] => []
  | c :: r =>
    if Ascii.eqb c c_nl then [c] :: readlines r
    else match readlines r with
         | w :: ws => (c :: w) :: ws
         | [] => [[c]]
         end
  end.
(** open(path, "r"): "\r\n" and "\r" are read as "\n" *)
Fixpoint universal (s : text) : text :=
  match s with
  | [] => []
  | c :: r =>
    if Ascii.eqb c c_cr then
      match r with
      | d :: r' => if Ascii.eqb d c_nl then universal r else c_nl :: universal r
      | [] => [c_nl]
      end
    else c :: universal r
  end.

(** im 56-58: the next [n] rows (IndexError when there are not enough) *)
Fixpoint take_rows (n : nat) (rows : list text) : option (list text * list text) :=
  match n, rows with
  | O, _ => Some ([], rows)
  | S n', r :: rows' => option_map (fun p => (r :: fst p, snd p)) (take_rows n' rows')
  | S _, [] => None
  end.
(** im 54, 60, 72: the number in the next row *)
Definition read_count (rows : list text) : option (nat * list text) :=
  match rows with
  | r :: rows' => option_map (fun z => (Z.to_nat z, rows')) (read_int r)
  | [] => None
  end.
(** im 66-68, 78-80: a row "index x count" *)
Definition read_act (acts : list text) (row : text) : option (text * Z) :=
  match split_on c_x (strip row) with
  | [a; c] =>
    match read_int a with
    | Some z => match at_index acts z, read_int c with Some x, Some n => Some (x, n) | _, _ => None end
    | None => None
    end
  | _ => None
  end.
(** im 85-89: a row "index > index x count" *)
Definition read_edge (acts : list text) (row : text) : option (text * text * Z) :=
  match split_on c_x (strip row) with
  | [e; c] =>
    match read_int c, split_on c_gt e with
    | Some n, [a; b] =>
      match read_int a, read_int b with
      | Some i, Some j => match at_index acts i, at_index acts j with Some x, Some y => Some (x, y, n) | _, _ => None end
      | _, _ => None
      end
    | _, _ => None
    end
  | _ => None
  end.
(** the assignments d[k] = v in order *)
Definition assign {K V} {EK : Key K} (l : list (K * V)) : dict K V :=
  fold_left (fun d kv => d_set d (fst kv) (snd kv)) l [].

(** im 26-93 [import_dfg_from_rows] *)
Definition import_rows (rows : list text) : option (dfg_graph * act_counts * act_counts) :=
  match read_count rows with
  | None => None
  | Some (n, rows) =>
  match take_rows n rows with
  | None => None
  | Some (names, rows) =>
  let acts := map strip names in
  match read_count rows with
  | None => None
  | Some (n, rows) =>
  match take_rows n rows with
  | None => None
  | Some (rs, rows) =>
  match map_opt (read_act acts) rs with
  | None => None
  | Some sa =>
  match read_count rows with
  | None => None
  | Some (n, rows) =>
  match take_rows n rows with
  | None => None
  | Some (re, rows) =>
  match map_opt (read_act acts) re, map_opt (read_edge acts) rows with
  | Some ea, Some g => Some (assign g, assign sa, assign ea)
  | _, _ => None
  end end end end end end end end.
(** im 128-156 [import_dfg_from_string] *)
Definition import_string (s : text) : option (dfg_graph * act_counts * act_counts) := import_rows (readlines s).
(** im 96-125 [apply] *)
Definition import_file (s : text) : option (dfg_graph * act_counts * act_counts) := import_rows (readlines (universal s)).
