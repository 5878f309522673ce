(** Discovery of DECLARE models: algo/discovery/declare/variants/classic.py.  Activities are numbers (non-empty strings in the code), a
    trace is the list of the activities of a case (pm4py.project_on_event_attribute, line 483). *)
From Coq Require Import List Arith Bool ZArith QArith.
Import ListNotations.
From Verif Require Import Model_Dict Model_Dfg Model_Declare.
Local Open Scope nat_scope.

(** classic.py:39-118 (the __rule_ functions and __col_to_dict_rule): the name of a column is the template with its activity or couple of activities; as in
    Model_Declare, a unary key is the couple (act, act). *)
Definition col := (template * key)%type.
(** one row of the table: a dictionary from columns to -1, 0, 1 *)
Definition row := dict col Z.
Definition table := dict col (list Z).

(** classic.py:497-500: the positions of each activity of the trace *)
Definition positions (t : trace) : dict nat (list nat) :=
  fold_left (fun d ia => d_set d (snd ia) (idxs d (snd ia) ++ [fst ia])) (combine (seq 0 (length t)) t) (map (fun x => (x, [])) (dedup t)).

(** The assignments rules[column] = value made by the step1 functions, in order.
    classic.py:121-129 *)
Definition existence_1 (acts : list nat) (t : trace) : list (col * Z) :=
  map (fun a => ((EXISTENCE, (a, a)), if mem a t then 1%Z else (-1)%Z)) acts.
(** classic.py:132-141 *)
Definition exactly_one_1 (acts : list nat) (t : trace) : list (col * Z) :=
  flat_map (fun a => if mem a t then [((EXACTLY_ONE, (a, a)), if Nat.eqb (c_get (c_of t) a) 1 then 1%Z else (-1)%Z)] else []) acts.
(** classic.py:144-152; trace[0] raises an IndexError on an empty trace, if there is an activity at all *)
Definition init_1 (acts : list nat) (t : trace) : option (list (col * Z)) :=
  match acts, t with
  | [], _ => Some []
  | _, [] => None
  | _, x :: _ => Some (map (fun a => ((INIT, (a, a)), if Nat.eqb a x then 1%Z else (-1)%Z)) acts)
  end.
(** the nested loops "for act in act_counter: for act2 in activities: if act2 != act" *)
Definition couples (acts : list nat) (t : trace) : list (nat * nat) :=
  flat_map (fun a => flat_map (fun b => if Nat.eqb b a then [] else [(a, b)]) acts) (d_keys (c_of t)).
(** classic.py:155-165 *)
Definition responded_existence_1 (acts : list nat) (t : trace) : list (col * Z) :=
  map (fun ab => ((RESPONDED_EXISTENCE, ab), if negb (mem (snd ab) t) then (-1)%Z else 1%Z)) (couples acts t).
(** classic.py:168-181 *)
Definition response_1 (acts : list nat) (t : trace) : list (col * Z) :=
  map (fun ab => ((RESPONSE, ab), if negb (mem (snd ab) t) then (-1)%Z
                                  else if Nat.ltb (last (idxs (positions t) (fst ab)) 0) (last (idxs (positions t) (snd ab)) 0) then 1%Z else (-1)%Z)) (couples acts t).
(** classic.py:184-197 *)
Definition precedence_1 (acts : list nat) (t : trace) : list (col * Z) :=
  flat_map (fun ab => let '(a, a2) := ab in
              if negb (mem a2 t) then []
              else [((PRECEDENCE, (a2, a)), if Nat.ltb (nth 0 (idxs (positions t) a2) 0) (nth 0 (idxs (positions t) a) 0) then 1%Z else (-1)%Z)]) (couples acts t).
(** classic.py:210-221 (altresponse), 235-247 (chainresponse), 261-271 (altprecedence), 285-297 (chainprecedence): the test on the
    position lists p, q, where p belongs to the activity that should come first *)
Definition lists_ok (chain : bool) (p q : list nat) : bool :=
  Nat.eqb (length p) (length q) &&
  forallb (fun i => negb (Nat.ltb (nth i q 0) (nth i p 0) || (Nat.ltb i (length p - 1) && Nat.ltb (nth (i + 1) p 0) (nth i q 0)))
                    && (negb chain || Nat.eqb (nth i p 0 + 1) (nth i q 0))) (seq 0 (length p)).
(** classic.py:200-222, 225-248 *)
Definition alt_response_1 (chain : bool) (acts : list nat) (t : trace) : list (col * Z) :=
  map (fun ab => ((if chain then CHAINRESPONSE else ALTRESPONSE, ab),
                  if negb (mem (snd ab) t) then (-1)%Z
                  else if lists_ok chain (idxs (positions t) (fst ab)) (idxs (positions t) (snd ab)) then 1%Z else (-1)%Z)) (couples acts t).
(** classic.py:251-272, 275-298 *)
Definition alt_precedence_1 (chain : bool) (acts : list nat) (t : trace) : list (col * Z) :=
  flat_map (fun ab => let '(a, a2) := ab in
              if negb (mem a2 t) then []
              else [((if chain then CHAINPRECEDENCE else ALTPRECEDENCE, (a2, a)),
                     if lists_ok chain (idxs (positions t) a2) (idxs (positions t) a) then 1%Z else (-1)%Z)]) (couples acts t).

Definition in_t (allowed : list template) (T : template) : bool := existsb (template_eqb T) allowed.
Definition only_if {A} (c : bool) (l : list A) : list A := if c then l else [].
(** classic.py:502-513: the row of a trace *)
Definition row_of (allowed : list template) (acts : list nat) (t : trace) : option row :=
  match (if in_t allowed INIT then init_1 acts t else Some []) with
  | None => None
  | Some i =>
      Some (fold_left (fun d cv => d_set d (fst cv) (snd cv))
        (only_if (in_t allowed EXISTENCE) (existence_1 acts t) ++ only_if (in_t allowed EXACTLY_ONE) (exactly_one_1 acts t) ++ i
         ++ only_if (in_t allowed RESPONDED_EXISTENCE) (responded_existence_1 acts t) ++ only_if (in_t allowed RESPONSE) (response_1 acts t)
         ++ only_if (in_t allowed PRECEDENCE) (precedence_1 acts t) ++ only_if (in_t allowed ALTRESPONSE) (alt_response_1 false acts t)
         ++ only_if (in_t allowed CHAINRESPONSE) (alt_response_1 true acts t) ++ only_if (in_t allowed ALTPRECEDENCE) (alt_precedence_1 false acts t)
         ++ only_if (in_t allowed CHAINPRECEDENCE) (alt_precedence_1 true acts t)) [])
  end.
(** classic.py:492-516: one row per case, the cases grouped by variant *)
Fixpoint rows (allowed : list template) (acts : list nat) (vars : list (trace * nat)) : option (list row) :=
  match vars with
  | [] => Some []
  | (t, n) :: r => match row_of allowed acts t, rows allowed acts r with
                   | Some x, Some y => Some (repeat x n ++ y)
                   | _, _ => None
                   end
  end.
(** classic.py:518-529: missing values become 0 ([columns] is a set: its order does not matter here) *)
Definition columns (rs : list row) : list col := dedup (flat_map (map fst) rs).
Definition to_table (rs : list row) : table :=
  map (fun c => (c, map (fun r => match d_get r c with Some v => v | None => 0%Z end) rs)) (columns rs).
(** a loop of assignments table[c] = f(table, c); None: KeyError or IndexError *)
Fixpoint assign (f : table -> col -> option (list Z)) (cs : list col) (tb : table) : option table :=
  match cs with
  | [] => Some tb
  | c :: r => match f tb c with Some v => assign f r (d_set tb c v) | None => None end
  end.
Definition unary_cols (T : template) (acts : list nat) : list col := map (fun a => (T, (a, a))) acts.
(** "for act in activities: for act2 in activities: if act2 != act" *)
Definition binary_cols (T : template) (acts : list nat) : list col :=
  flat_map (fun a => flat_map (fun b => if Nat.eqb b a then [] else [(T, (a, b))]) acts) acts.
(** classic.py:301-306 *)
Definition absence_2 (allowed : list template) (acts : list nat) (tb : table) : option table :=
  if in_t allowed ABSENCE && in_t allowed EXISTENCE then
    assign (fun tb c => option_map (map (Z.mul (-1))) (d_get tb (EXISTENCE, snd c))) (unary_cols ABSENCE acts) tb
  else Some tb.
(** [0] * len(table[list(table.keys())[0]]) *)
Definition zeros (tb : table) : option (list Z) := match tb with [] => None | (_, v) :: _ => Some (repeat 0%Z (length v)) end.
(** classic.py:309-315, 318-392 (the other _step2 functions): the columns without any value *)
Definition fill_2 (allowed : list template) (cols : list col) (T : template) (all : list col) (tb : table) : option table :=
  if in_t allowed T then assign (fun tb _ => zeros tb) (filter (fun c => negb (existsb (keqb c) cols)) all) tb else Some tb.
(** np.minimum(u, v) *)
Definition minimum (u v : list Z) : list Z := map (fun xy => Z.min (fst xy) (snd xy)) (combine u v).
Definition lift2 {A B C} (f : A -> B -> C) (x : option A) (y : option B) : option C :=
  match x, y with Some x, Some y => Some (f x y) | _, _ => None end.
(** classic.py:395-402, 405-412, 415-422 (succession, altsuccession, chainsuccession): T from R and P *)
Definition succession_2 (T R P : template) (allowed : list template) (acts : list nat) (tb : table) : option table :=
  if in_t allowed T && in_t allowed R && in_t allowed P then
    assign (fun tb c => lift2 minimum (d_get tb (R, snd c)) (d_get tb (P, snd c))) (binary_cols T acts) tb
  else Some tb.
(** classic.py:425-432 *)
Definition coexistence_2 (allowed : list template) (acts : list nat) (tb : table) : option table :=
  if in_t allowed COEXISTENCE && in_t allowed RESPONDED_EXISTENCE then
    assign (fun tb c => lift2 minimum (d_get tb (RESPONDED_EXISTENCE, snd c)) (d_get tb (RESPONDED_EXISTENCE, (snd (snd c), fst (snd c))))) (binary_cols COEXISTENCE acts) tb
  else Some tb.
(** classic.py:435-442, 445-452, 455-463: the negated templates; [need]: the templates that must be allowed *)
Definition negated_2 (T S : template) (need : list template) (allowed : list template) (acts : list nat) (tb : table) : option table :=
  if forallb (in_t allowed) need then
    assign (fun tb c => option_map (map (Z.mul (-1))) (d_get tb (S, snd c))) (binary_cols T acts) tb
  else Some tb.
Definition bind {A B} (x : option A) (f : A -> option B) : option B := match x with Some a => f a | None => None end.
(** classic.py:466-549 form_rules_table, after the projection of the log; [acts]: CONSIDERED_ACTIVITIES, by default the activities of
    the log; [allowed]: ALLOWED_TEMPLATES *)
Definition considered (acts : list nat) (t : trace) : trace := filter (fun x => existsb (Nat.eqb x) acts) t.
Definition form_rules_table (allowed : list template) (acts : list nat) (l : log) : option (table * nat) :=
  bind (rows allowed acts (c_of (map (considered acts) l))) (fun rs =>
  let cols := columns rs in
  bind (absence_2 allowed acts (to_table rs)) (fun tb =>
  bind (fill_2 allowed cols EXACTLY_ONE (unary_cols EXACTLY_ONE acts) tb) (fun tb =>
  bind (fill_2 allowed cols RESPONDED_EXISTENCE (binary_cols RESPONDED_EXISTENCE acts) tb) (fun tb =>
  bind (fill_2 allowed cols RESPONSE (binary_cols RESPONSE acts) tb) (fun tb =>
  bind (fill_2 allowed cols PRECEDENCE (binary_cols PRECEDENCE acts) tb) (fun tb =>
  bind (fill_2 allowed cols ALTRESPONSE (binary_cols ALTRESPONSE acts) tb) (fun tb =>
  bind (fill_2 allowed cols CHAINRESPONSE (binary_cols CHAINRESPONSE acts) tb) (fun tb =>
  bind (fill_2 allowed cols ALTPRECEDENCE (binary_cols ALTPRECEDENCE acts) tb) (fun tb =>
  bind (fill_2 allowed cols CHAINPRECEDENCE (binary_cols CHAINPRECEDENCE acts) tb) (fun tb =>
  bind (succession_2 SUCCESSION RESPONSE PRECEDENCE allowed acts tb) (fun tb =>
  bind (succession_2 ALTSUCCESSION ALTRESPONSE ALTPRECEDENCE allowed acts tb) (fun tb =>
  bind (succession_2 CHAINSUCCESSION CHAINRESPONSE CHAINPRECEDENCE allowed acts tb) (fun tb =>
  bind (coexistence_2 allowed acts tb) (fun tb =>
  bind (negated_2 NONCOEXISTENCE COEXISTENCE [NONCOEXISTENCE; COEXISTENCE; RESPONDED_EXISTENCE] allowed acts tb) (fun tb =>
  bind (negated_2 NONSUCCESSION SUCCESSION [NONSUCCESSION; SUCCESSION; RESPONSE; PRECEDENCE] allowed acts tb) (fun tb =>
  bind (negated_2 NONCHAINSUCCESSION CHAINSUCCESSION [NONCHAINSUCCESSION; CHAINSUCCESSION; CHAINRESPONSE; CHAINPRECEDENCE] allowed acts tb) (fun tb =>
  Some (tb, match tb with [] => 0 | (_, v) :: _ => length v end)))))))))))))))))).

(** len(col[col != 0]), len(col[col == 1]) *)
Definition supp (v : list Z) : nat := length (filter (fun x => negb (Z.eqb x 0)) v).
Definition conf (v : list Z) : nat := length (filter (fun x => Z.eqb x 1) v).
Definition qn (n : nat) : Q := inject_Z (Z.of_nat n).
Definition qlt (x y : Q) : bool := negb (Qle_bool y x).
(** a discovered model: template -> key -> (support, confidence) *)
Definition discovered := dict template (dict key (nat * nat)).
(** classic.py:580-592, one column; n = len(rules_df).  Floating-point numbers are rational numbers here. *)
Definition keep (n : nat) (ms mc : Q) (m : discovered) (cv : col * list Z) : discovered :=
  let s := supp (snd cv) in
  if qlt (qn n * ms)%Q (qn s) then
    let c := conf (snd cv) in
    if qlt (qn s * mc)%Q (qn c) then
      let m := if d_mem m (fst (fst cv)) then m else d_set m (fst (fst cv)) [] in
      d_set m (fst (fst cv)) (d_set (match d_get m (fst (fst cv)) with Some r => r | None => [] end) (snd (fst cv)) (s, c))
    else m
  else m.
Definition rules_of (n : nat) (ms mc : Q) (tb : table) : discovered := fold_left (keep n ms mc) tb [].
(** classic.py:565-573: the product of the two ratios, for the columns with a positive support *)
Definition cols_prod (n : nat) (tb : table) : list (col * Q) :=
  flat_map (fun cv => let s := supp (snd cv) in
              if qlt 0 (qn s / qn n)%Q then [(fst cv, (qn s / qn n) * (qn (conf (snd cv)) / qn s))%Q] else []) tb.
(** sorted(cols_prod, key = (product, name), reverse)[0]; [later c c']: the name c comes after c' in the order of the names *)
Definition best (later : col -> col -> bool) (l : list (col * Q)) : option col :=
  match l with
  | [] => None
  | x :: r => Some (fst (fold_left (fun b y => if qlt (snd b) (snd y) || (Qeq_bool (snd b) (snd y) && later (fst y) (fst b)) then y else b) r x))
  end.
(** classic.py:553-594 get_rules_from_rules_df.  None: IndexError of line 575, and the case in which only one of the two thresholds is
    given (the product with None raises a TypeError; simplification: also when no column would reach that product) *)
Definition get_rules (later : col -> col -> bool) (ms mc : option Q) (mult : Q) (tn : table * nat) : option discovered :=
  let '(tb, n) := tn in
  match ms, mc with
  | Some ms, Some mc => Some (rules_of n ms mc tb)
  | None, None =>
      match best later (cols_prod n tb) with
      | None => None
      | Some c =>
          match d_get tb c with
          | None => None
          | Some v => Some (rules_of n (qn (supp v) / qn n * mult)%Q (qn (conf v) / qn (supp v) * mult)%Q tb)
          end
      end
  | _, _ => None
  end.
(** classic.py:597-649 apply *)
Definition discover (later : col -> col -> bool) (allowed : list template) (acts : list nat) (ms mc : option Q) (mult : Q) (l : log) : option discovered :=
  bind (form_rules_table allowed acts l) (get_rules later ms mc mult).
(** classic.py:476-479 *)
Definition default_templates : list template :=
  [EXISTENCE; EXACTLY_ONE; INIT; RESPONDED_EXISTENCE; RESPONSE; PRECEDENCE; SUCCESSION; ALTRESPONSE; ALTPRECEDENCE; ALTSUCCESSION;
   CHAINRESPONSE; CHAINPRECEDENCE; CHAINSUCCESSION; ABSENCE; COEXISTENCE].
(** classic.py:486-487 *)
Definition all_activities (l : log) : list nat := dedup (concat l).
