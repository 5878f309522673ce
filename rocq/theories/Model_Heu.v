(** Model of the Heuristics Miner: pm4py/algo/discovery/heuristics/variants/classic.py (hm),
    pm4py/objects/heuristics_net/obj.py and node.py (nd), the cleaning of the DFG in
    pm4py/algo/filtering/dfg/dfg_filtering.py (cl) and pm4py/objects/dfg/utils/dfg_utils.py (du).

    Activities are numbers (ordered as their names are).  Thresholds and measures are rational numbers (the floating
    point rounding of the quotients is left out).  The decoration is "frequency"; colours and the matrix of the DFG with
    window 2, which is not used, are left out.  The keys of input_connections and output_connections are nodes, which
    are represented by their names. *)
From Coq Require Import List Arith Bool ZArith QArith.
Import ListNotations.
From Verif Require Import Model_Dict Model_Dfg Model_Lev.
Local Open Scope nat_scope.
Local Open Scope list_scope.

(** Dictionaries of dictionaries *)
Definition matrix (V : Type) := dict nat (dict nat V).
(** if a not in m: m[a] = {};  m[a][b] = v *)
Definition m_row {V} (m : matrix V) (a : nat) : dict nat V := match d_get m a with Some r => r | None => [] end.
Definition m_set {V} (m : matrix V) (a b : nat) (v : V) : matrix V := d_set m a (d_set (m_row m a) b v).
Definition m_get {V} (m : matrix V) (a b : nat) : option V := d_get (m_row m a) b.
(** m[a][b] if a in m and b in m[a] else 0 *)
Definition m_nat (m : matrix nat) (a b : nat) : nat := match m_get m a b with Some v => v | None => 0 end.
(** for a in m: for b in m[a] *)
Definition m_pairs {V} (m : matrix V) : list (nat * nat) := concat (map (fun ar => map (fun bv => (fst ar, fst bv)) (snd ar)) m).

Definition graph_counts := dict (nat * nat) nat.
(** du 25-39 [get_outgoing_edges] *)
Definition get_outgoing_edges (g : graph_counts) : matrix nat := fold_left (fun m e => m_set m (fst (fst e)) (snd (fst e)) (snd e)) g [].
(** du 42-56 [get_ingoing_edges] *)
Definition get_ingoing_edges (g : graph_counts) : matrix nat := fold_left (fun m e => m_set m (snd (fst e)) (fst (fst e)) (snd e)) g [].
(** du 238-265 [get_max_activity_count] *)
Definition get_max_activity_count (g : graph_counts) (a : nat) : Z :=
  let m1 := fold_left (fun m bv => if (m <? Z.of_nat (snd bv))%Z then Z.of_nat (snd bv) else m) (m_row (get_ingoing_edges g) a) (-1)%Z in
  fold_left (fun m bv => if (m <? Z.of_nat (snd bv))%Z then Z.of_nat (snd bv) else m) (m_row (get_outgoing_edges g) a) m1.
Definition qn (n : nat) : Q := inject_Z (Z.of_nat n).
Definition qlt (x y : Q) : bool := negb (Qle_bool y x).
(** min(x, y) *)
Definition qmin (x y : Q) : Q := if qlt y x then y else x.
(** cl 554-613 [clean_dfg_based_on_noise_thresh], without most common paths, when the activities are those of the graph *)
Definition clean_dfg (g : graph_counts) (thresh : Q) : graph_counts :=
  filter (fun e => negb (qlt (qn (snd e)) (qmin (inject_Z (get_max_activity_count g (fst (fst e))) * thresh)%Q
                                               (inject_Z (get_max_activity_count g (snd (fst e))) * thresh)%Q))) g.

(** An edge carries its dependency value and its number of occurrences. *)
Definition edge := (Q * nat)%type.
Record node := Node {
  node_occ : nat;
  outputs : dict nat (list edge); inputs : dict nat (list edge);
  and_out : matrix Q; and_in : matrix Q;
  loop_two : dict nat nat }.
Definition nodes := dict nat node.
(** nd 21-57 *)
Definition new_node (occ : nat) : node := Node occ [] [] [] [] [].
Definition modify (ns : nodes) (a : nat) (f : node -> node) : nodes := match d_get ns a with Some n => d_set ns a (f n) | None => ns end.
(** nd 59-84, 86-111: appending to the list of edges *)
Definition append_edge (d : dict nat (list edge)) (b : nat) (e : edge) : dict nat (list edge) :=
  d_set d b (match d_get d b with Some l => l | None => [] end ++ [e]).
Definition add_output (ns : nodes) (a b : nat) (e : edge) : nodes :=
  modify ns a (fun n => Node (node_occ n) (append_edge (outputs n) b e) (inputs n) (and_out n) (and_in n) (loop_two n)).
Definition add_input (ns : nodes) (a b : nat) (e : edge) : nodes :=
  modify ns a (fun n => Node (node_occ n) (outputs n) (append_edge (inputs n) b e) (and_out n) (and_in n) (loop_two n)).
(** hm 446-460, 490-496: a node, when it does not exist *)
Definition ensure (occ : dict nat nat) (ns : nodes) (a : nat) : nodes :=
  if d_mem ns a then ns else d_set ns a (new_node (c_get occ a)).

Record params := Params { dep_t : Q; and_t : Q; noise_t : Q; loop_t : Q; min_act : nat; min_dfg : nat }.

(** hm 415-425: occurrences of a b a *)
Definition triples_matrix (f : dict (nat * nat * nat) nat) : matrix nat :=
  fold_left (fun m e => let '(a, b, c) := fst e in if Nat.eqb a c && negb (Nat.eqb a b) then m_set m a b (snd e) else m) f [].
(** hm 427-445 *)
Definition dependency (g : graph_counts) (e : nat * nat * nat) : Q :=
  let '(a, b, c1) := e in
  if negb (Nat.eqb a b) then
    match d_get g (b, a) with
    | Some c2 => ((qn c1 - qn c2) / (qn c1 + qn c2 + 1))%Q
    | None => (qn c1 / (qn c1 + 1))%Q
    end
  else (qn c1 / (qn c1 + 1))%Q.
Definition dependency_matrix (g : graph_counts) : matrix Q := fold_left (fun m e => m_set m (fst (fst e)) (snd (fst e)) (dependency g e)) g [].
(** dfg_matrix: the same construction as [get_outgoing_edges] *)
Definition dfg_matrix : graph_counts -> matrix nat := get_outgoing_edges.

(** n in activities_occurrences and activities_occurrences[n] >= min_act_count *)
Definition frequent (P : params) (occ : dict nat nat) (a : nat) : bool :=
  match d_get occ a with Some n => min_act P <=? n | None => false end.
(** matrix[a][b] >= threshold, when the entry exists *)
Definition dep_ok (P : params) (dm : matrix Q) (a b : nat) : bool :=
  match m_get dm a b with Some d => Qle_bool (dep_t P) d | None => false end.
(** hm 446-473: one pair of activities *)
Definition connect (P : params) (occ : dict nat nat) (dm : matrix Q) (fm : matrix nat) (ns : nodes) (p : nat * nat) : nodes :=
  let '(a, b) := p in
  match m_get dm a b, m_get fm a b with
  | Some d, Some c =>
    if frequent P occ a && frequent P occ b && (min_dfg P <=? c) && Qle_bool (dep_t P) d
    then let ns := ensure occ (ensure occ ns a) b in add_input (add_output ns a b (d, c)) b a (d, c)
    else ns
  | _, _ => ns
  end.

(** nd 113-142, 144-172: the couples of names and their AND measure.  [c3] gives the number of occurrences of the edge with the node. *)
Definition and_measures (t : Q) (fm : matrix nat) (c3 : nat -> nat) (names : list nat) : matrix Q :=
  let fix go (l : list nat) (m : matrix Q) : matrix Q :=
    match l with
    | [] => m
    | a :: r => go r (fold_left (fun m b =>
        let v := ((qn (m_nat fm a b) + qn (m_nat fm b a)) / (qn (c3 a) + qn (c3 b) + 1))%Q in
        if Qle_bool t v then m_set m a b v else m) r m)
    end in go names [].
Definition sort_names (l : list nat) : list nat := sorted_by Z.of_nat l.
(** nd 174-199 [calculate_loops_length_two] *)
Definition loops_two (P : params) (fm tm : matrix nat) (a : nat) : dict nat nat :=
  fold_left (fun d bv => let b := fst bv in
    let v1 := m_nat tm a b in let v2 := m_nat tm b a in
    if Qle_bool (loop_t P) ((qn v1 + qn v2) / (qn v1 + qn v2 + 1))%Q then d_set d b (m_nat fm a b) else d) (m_row tm a) [].
(** hm 474-479 *)
Definition measure (P : params) (fm tm : matrix nat) (an : nat * node) : nat * node :=
  let '(a, n) := an in
  (a, Node (node_occ n) (outputs n) (inputs n)
           (and_measures (and_t P) fm (fun b => m_nat fm a b) (sort_names (d_keys (outputs n))))
           (and_measures (and_t P) fm (fun b => m_nat fm b a) (sort_names (d_keys (inputs n))))
           (loops_two P fm tm a)).

(** hm 483-523: a loop of length two between a and b; the second component is added_loops *)
Definition add_loop (P : params) (occ : dict nat nat) (dm : matrix Q) (fm : matrix nat) (st : nodes * list (nat * nat)) (a b : nat) : nodes * list (nat * nat) :=
  match m_get fm a b with
  | Some c =>
    if (min_dfg P <=? c) && frequent P occ a && frequent P occ b && negb (dep_ok P dm a b || dep_ok P dm b a)
    then
      let ns := ensure occ (fst st) b in
      let added := snd st in
      let v1 := m_nat fm a b in let v2 := m_nat fm b a in
      let '(ns, added) := if existsb (keqb (a, b)) added then (ns, added)
                          else (add_input (add_output ns a b (0%Q, v1)) b a (0%Q, v2), added ++ [(a, b)]) in
      if existsb (keqb (b, a)) added then (ns, added)
      else (add_input (add_output ns b a (0%Q, v2)) a b (0%Q, v1), added ++ [(b, a)])
    else st
  | None => st
  end.
Definition add_loops (P : params) (occ : dict nat nat) (dm : matrix Q) (fm : matrix nat) (ns : nodes) : nodes :=
  fst (fold_left (fun st a => fold_left (fun st b => add_loop P occ dm fm st a b)
                                (match d_get (fst st) a with Some n => d_keys (loop_two n) | None => [] end) st)
                 (d_keys ns) (ns, [])).

(** hm 370-533 [calculate] *)
Definition calculate (P : params) (g : graph_counts) (occ : dict nat nat) (activities : list nat) (triples : dict (nat * nat * nat) nat) : nodes :=
  let g := if qlt 0 (noise_t P) then clean_dfg g (noise_t P) else g in
  let tm := triples_matrix triples in
  let dm := dependency_matrix g in
  let fm := dfg_matrix g in
  let ns := fold_left (connect P occ dm fm) (m_pairs dm) [] in
  let ns := map (measure P fm tm) ns in
  let ns := add_loops P occ dm fm ns in
  match ns with
  | [] => fold_left (fun ns a => d_set ns a (new_node (c_get occ a))) activities []
  | _ => ns
  end.

(** algo/discovery/dfg/variants/freq_triples.py:30-54 *)
Definition freq_triples (l : log) : dict (nat * nat * nat) nat :=
  c_of (concat (map (fun t => map (fun i => (nth (i - 2) t 0, nth (i - 1) t 0, nth i t 0)) (seq 2 (length t - 2))) l)).
(** hm 183-222 [apply_heu], with the statistics of the log *)
Definition discover_heu (P : params) (l : log) : nodes :=
  let occ := c_of (concat l) in
  calculate P (native 1 false l) occ (d_keys occ) (freq_triples l).
