(** Model of pm4py/objects/conversion/process_tree/variants/to_petri_net.py and of the part of
    pm4py/objects/petri_net/utils/reduction.py that it uses.

    Simplifications: places are numbered like the counter of the code ('p_k' is place k, the place
    renamed "source" is 1, "sink" is 2); transitions get one common counter; the sets of places,
    transitions and arcs are lists, their iteration order is left open where the code depends on it
    (the reduction rules below are relations). *)
From stdpp Require Import gmap.
From Coq Require Import ZArith List.
Import ListNotations.
From Verif Require Import Model_Petri Model_Tree.

Notation tr := (transition (option nat)).

(** to_petri_net.py:28-63 [Counts]: the next place and the next transition. *)
Record counts := Counts { next_place : nat; next_trans : nat }.
Definition new_place (s : counts) : nat * counts := (next_place s, Counts (S (next_place s)) (next_trans s)).
Definition new_trans (s : counts) : nat * counts := (next_trans s, Counts (next_place s) (S (next_trans s))).

(** petri_utils.py:156-195 [add_arc_from_to]: arcs of weight 1. *)
Definition arcs (l : list nat) : list (nat * Z) := map (fun p => (p, 1%Z)) l.
Definition mk_trans (id : nat) (label : option nat) (pre post : list nat) : tr := Trans id label (arcs pre) (arcs post).

(** The loops over the children in [recursively_add_tree]; [add] is the recursive call. *)
Section Children.
  Context (add : tree nat -> nat -> nat -> counts -> list tr * counts).
  (** to_petri_net.py:373-377 (XOR), 516-518 (redo children of a loop). *)
  Fixpoint add_choice (cs : list (tree nat)) (i f : nat) (s : counts) : list tr * counts :=
    match cs with
    | [] => ([], s)
    | c :: r => let '(b, s) := add c i f s in let '(b', s) := add_choice r i f s in (b ++ b', s)
    end.
  (** to_petri_net.py:386-426 (OR). *)
  Fixpoint add_or (first term : nat) (cs : list (tree nat)) (s : counts) : list nat * list nat * list tr * counts :=
    match cs with
    | [] => ([], [], [], s)
    | c :: r =>
        let '(ini, s) := new_place s in
        let '(sta, s) := new_place s in
        let '(en, s) := new_place s in
        let '(t1, s) := new_trans s in
        let '(t2, s) := new_trans s in
        let '(t3, s) := new_trans s in
        let '(b, s) := add c sta en s in
        let '(inits, ends, b', s) := add_or first term r s in
        (ini :: inits, en :: ends,
         mk_trans t1 None [first; ini] [sta; term] ::
         mk_trans t2 None [term; ini] [sta; term] ::
         mk_trans t3 None [term; ini] [term; en] :: b ++ b', s)
    end.
  (** to_petri_net.py:433-441 (PARALLEL). *)
  Fixpoint add_par (cs : list (tree nat)) (s : counts) : list nat * list nat * list tr * counts :=
    match cs with
    | [] => ([], [], [], s)
    | c :: r =>
        let '(ini, s) := new_place s in
        let '(en, s) := new_place s in
        let '(b, s) := add c ini en s in
        let '(inits, ends, b', s) := add_par r s in
        (ini :: inits, en :: ends, b ++ b', s)
    end.
  (** to_petri_net.py:453-479 (INTERLEAVING). *)
  Fixpoint add_int (ctl : nat) (cs : list (tree nat)) (s : counts) : list nat * list nat * list tr * counts :=
    match cs with
    | [] => ([], [], [], s)
    | c :: r =>
        let '(pi, s) := new_place s in
        let '(ti, s) := new_trans s in
        let '(pf, s) := new_place s in
        let '(tf, s) := new_trans s in
        let '(sta, s) := new_place s in
        let '(en, s) := new_place s in
        let '(b, s) := add c sta en s in
        let '(inits, ends, b', s) := add_int ctl r s in
        (pi :: inits, pf :: ends,
         mk_trans ti None [pi; ctl] [sta] :: mk_trans tf None [en] [pf; ctl] :: b ++ b', s)
    end.
  (** to_petri_net.py:481-489 (SEQUENCE). *)
  Fixpoint add_seq (cs : list (tree nat)) (i f : nat) (s : counts) : list tr * counts :=
    match cs with
    | [] => ([], s)
    | c :: r =>
        match r with
        | [] => add c i f s
        | _ => let '(q, s) := new_place s in
               let '(b, s) := add c i q s in
               let '(b', s) := add_seq r q f s in (b ++ b', s)
        end
    end.
End Children.

(** to_petri_net.py:311-526 [recursively_add_tree] with an initial and a final place; when the code
    is called with a transition (or None) instead of a place, it first creates the place, which here
    the caller does.  [force_add_skip] is never set. *)
Fixpoint add_tree (t : tree nat) (i f : nat) (s : counts) : list tr * counts :=
  match t with
  | Leaf l => (* lines 361-371 *)
      let '(x, s) := new_trans s in ([mk_trans x l [i] [f]], s)
  | Node Xor cs => add_choice add_tree cs i f s
  | Node Or cs => (* lines 378-426 *)
      let '(x, s) := new_trans s in
      let '(y, s) := new_trans s in
      let '(term, s) := new_place s in
      let '(first, s) := new_place s in
      let '(inits, ends, b, s) := add_or add_tree first term cs s in
      (mk_trans x None [i] (first :: inits) :: mk_trans y None (term :: ends) [f] :: b, s)
  | Node Parallel cs => (* lines 428-441 *)
      let '(x, s) := new_trans s in
      let '(y, s) := new_trans s in
      let '(inits, ends, b, s) := add_par add_tree cs s in
      (mk_trans x None [i] inits :: mk_trans y None ends [f] :: b, s)
  | Node Interleaving cs => (* lines 443-479 *)
      let '(x, s) := new_trans s in
      let '(y, s) := new_trans s in
      let '(ctl, s) := new_place s in
      let '(inits, ends, b, s) := add_int add_tree ctl cs s in
      (mk_trans x None [i] (ctl :: inits) :: mk_trans y None (ctl :: ends) [f] :: b, s)
  | Node Sequence cs => add_seq add_tree cs i f s
  | Node Loop [] => (* lines 490-525; the code raises for a loop without children *) ([], s)
  | Node Loop [c] => (* lines 499-507 *)
      let '(p, s) := new_place s in
      let '(x, s) := new_trans s in
      let '(y, s) := new_trans s in
      let '(b, s) := add_tree c p f s in
      (mk_trans x None [i] [p] :: mk_trans y None [f] [p] :: b, s)
  | Node Loop (d :: rs) => (* lines 508-524 *)
      let '(p, s) := new_place s in
      let '(x, s) := new_trans s in
      let '(y, s) := new_trans s in
      let '(q1, s) := new_place s in
      let '(bd, s) := add_tree d p q1 s in
      let '(q2, s) := new_place s in
      let '(br, s) := add_choice add_tree rs q1 q2 s in
      let '(z, s) := new_trans s in
      (mk_trans x None [i] [p] :: mk_trans y None [q2] [p] :: mk_trans z None [q1] [f] :: bd ++ br, s)
  end.

Definition is_loop {A} (t : tree A) : bool := match t with Node Loop _ => true | _ => false end.
(** to_petri_net.py:172-218 [check_loop_to_first_operator], [check_loop_to_last_operator]. *)
Fixpoint loop_first {A} (t : tree A) : bool :=
  match t with
  | Node Loop _ => true
  | Node _ (c :: _) => loop_first c
  | _ => false
  end.
Fixpoint loop_last {A} (t : tree A) : bool :=
  match t with
  | Node Loop _ => true
  | Node _ cs => (fix go cs := match cs with [] => false | [c] => loop_last c | _ :: r => go r end) cs
  | Leaf _ => false
  end.
(** to_petri_net.py:242-262 [check_terminal_loop], 221-239 [check_initial_loop] (which continues
    on the right-hand side).  The conditions on the number of terminal transitions (lines 121-169,
    283, 305) are always false: the lists have at most one element. *)
Fixpoint terminal_loop {A} (t : tree A) : bool :=
  match t with
  | Node _ cs => (fix go cs := match cs with
                               | [] => false
                               | [c] => match c with Node Loop _ => true | Node _ _ => terminal_loop c | Leaf _ => false end
                               | _ :: r => go r
                               end) cs
  | Leaf _ => false
  end.
Definition initial_loop {A} (t : tree A) : bool :=
  match t with
  | Node _ (Node Loop _ :: _) => true
  | Node _ ((Node _ _ as c) :: _) => terminal_loop c
  | _ => false
  end.
Definition xor_or_parallel {A} (t : tree A) : bool := match t with Node (Xor | Parallel) _ => true | _ => false end.
(** to_petri_net.py:265-308. *)
Definition tau_initial {A} (t : tree A) : bool := initial_loop t || loop_first t || xor_or_parallel t.
Definition tau_final {A} (t : tree A) : bool := terminal_loop t || loop_last t || xor_or_parallel t.

(** to_petri_net.py:547-584: the net before the reduction; source = 1, sink = 2. *)
Definition raw_net (t : tree nat) : petri_net (option nat) :=
  let s := Counts 3 1 in
  let '(ip, bi, s) :=
    if tau_initial t then let '(p, s) := new_place s in let '(x, s) := new_trans s in (p, [mk_trans x None [1] [p]], s)
    else (1, [], s) in
  let '(fp, bf, s) :=
    if tau_final t then let '(p, s) := new_place s in let '(x, s) := new_trans s in (p, [mk_trans x None [p] [2]], s)
    else (2, [], s) in
  let '(b, s) := add_tree t ip fp s in
  Net (seq 1 (next_place s - 1)) (bi ++ b ++ bf).
Definition net_im : marking := {[ 1 := 1%Z ]}.
Definition net_fm : marking := {[ 2 := 1%Z ]}.

(** len(place.in_arcs), len(place.out_arcs): number of arcs into and out of a place. *)
Definition occurrences (p : nat) (a : list (nat * Z)) : nat := length (filter (fun x => Nat.eqb (fst x) p) a).
Definition in_arcs (pn : petri_net (option nat)) (p : nat) : nat := list_sum (map (fun t => occurrences p (t_out t)) (n_trans pn)).
Definition out_arcs (pn : petri_net (option nat)) (p : nat) : nat := list_sum (map (fun t => occurrences p (t_in t)) (n_trans pn)).
Definition drop_arc (p : nat) (a : list (nat * Z)) : list (nat * Z) := filter (fun x => negb (Nat.eqb (fst x) p)) a.
Definition drop_place (p : nat) (l : list nat) : list nat := filter (fun q => negb (Nat.eqb q p)) l.

Definition no_id (x : nat) (l : list tr) : list tr := filter (fun t => negb (Nat.eqb (t_id t) x)) l.
Definition on_id (x : nat) (g : tr -> tr) (l : list tr) : list tr := map (fun t => if Nat.eqb (t_id t) x then g t else t) l.

(** reduction.py:24-49 [reduce_single_entry_transitions], one round of the while loop: the silent
    transition [t] has the single input place [p], which has one arc in, from [u], and one arc out:
    [t] and [p] are removed, [u] gets the targets of [t].  (The order in which candidates are looked
    at is the iteration order of a set: any candidate may be taken.)  Simplification: if [u] is [t] itself (a silent
    transition that alone fills its only input place; it can never fire), the code adds arcs from the removed transition
    to its target places, which count as incoming arcs of these places later on; the model just removes [t]. *)
Definition entry_step (pn pn' : petri_net (option nat)) : Prop :=
  exists t u p w, In t (n_trans pn) /\ In u (n_trans pn) /\
    t_label t = None /\ t_in t = [(p, w)] /\ In p (map fst (t_out u)) /\ in_arcs pn p = 1 /\ out_arcs pn p = 1 /\
    pn' = Net (drop_place p (n_places pn))
              (on_id (t_id u) (fun v => Trans (t_id v) (t_label v) (t_in v) (drop_arc p (t_out v) ++ arcs (map fst (t_out t))))
                 (no_id (t_id t) (n_trans pn))).
(** reduction.py:52-77 [reduce_single_exit_transitions], one round: the silent transition [t] has the
    single output place [p], which has one arc in and one arc out, to [u]: [t] and [p] are removed,
    [u] gets the sources of [t]. *)
Definition exit_step (pn pn' : petri_net (option nat)) : Prop :=
  exists t u p w, In t (n_trans pn) /\ In u (n_trans pn) /\
    t_label t = None /\ t_out t = [(p, w)] /\ In p (map fst (t_in u)) /\ in_arcs pn p = 1 /\ out_arcs pn p = 1 /\
    pn' = Net (drop_place p (n_places pn))
              (on_id (t_id u) (fun v => Trans (t_id v) (t_label v) (drop_arc p (t_in v) ++ arcs (map fst (t_in t))) (t_out v))
                 (no_id (t_id t) (n_trans pn))).
Inductive star {X} (R : X -> X -> Prop) : X -> X -> Prop :=
| star_refl x : star R x x
| star_step x y z : R x y -> star R y z -> star R x z.
(** reduction.py:80-91 [apply_simple_reduction]: each rule until it no longer applies. *)
Definition simple_reduction (pn pn' : petri_net (option nat)) : Prop :=
  exists pn1, star entry_step pn pn1 /\ (forall x, ~ entry_step pn1 x) /\
              star exit_step pn1 pn' /\ (forall x, ~ exit_step pn' x).

(** petri_utils.py:125-153 [remove_place]. *)
Definition remove_place (pn : petri_net (option nat)) (p : nat) : petri_net (option nat) :=
  Net (drop_place p (n_places pn))
      (map (fun t => Trans (t_id t) (t_label t) (drop_arc p (t_in t)) (drop_arc p (t_out t))) (n_trans pn)).
(** to_petri_net.py:588-593: remove the places without outgoing (incoming) arcs. *)
Definition clean_places (order : list nat) (pn : petri_net (option nat)) : petri_net (option nat) :=
  fold_left (fun pn p =>
    let pn := if Nat.eqb (out_arcs pn p) 0 && negb (Nat.eqb p 2) then remove_place pn p else pn in
    if Nat.eqb (in_arcs pn p) 0 && negb (Nat.eqb p 1) then remove_place pn p else pn) order pn.

(** to_petri_net.py:529-595 [apply]: [pn] is a possible result for the tree [t]; the markings are
    [net_im] and [net_fm]. *)
Definition converted (t : tree nat) (pn : petri_net (option nat)) : Prop :=
  exists pn1 order, simple_reduction (raw_net t) pn1 /\ Permutation order (n_places pn1) /\ pn = clean_places order pn1.
