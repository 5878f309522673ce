(** Model of POWL.simplify, pm4py/objects/powl/obj.py:35-36, 234-284, 363-395.
    Simplification: a leaf with label None is a SilentTransition (Transition(None) of the library is not, and is then
    never merged); the objects of a model are distinct, so that dictionaries keyed by nodes are indexed by position. *)
From Coq Require Import List Arith Bool.
Import ListNotations.
From Verif Require Import Model_Rel Model_Powl.

Definition is_tau (p : powl) : bool := match p with PLeaf None => true | _ => false end.
(** obj.py:368-376 [merge_with_children]: the children, in order, of the loop that replaces the choice. *)
Definition merge_with (c0 c1 : powl) : option (powl * powl) :=
  match c1 with
  | PLoop d r => if is_tau c0 then (if is_tau d then Some (d, r) else if is_tau r then Some (r, d) else None) else None
  | _ => None
  end.
(** obj.py:364-384 *)
Definition merge (cs : list powl) : option (powl * powl) :=
  match cs with
  | [c0; c1] => match merge_with c0 c1 with Some x => Some x | None => merge_with c1 c0 end
  | _ => None
  end.

(** obj.py:240-244 [connected] *)
Definition connected (n : nat) (e : rel) (i : nat) : bool := existsb (fun j => e i j || e j i) (seq 0 n).
(** What becomes of a simplified child (obj.py:246-263): it is kept ([g_sub] = false), or it is a partial order whose
    children take its place; then edges to it go to [g_start] and edges from it leave from [g_end]. *)
Record group := Group { g_ds : list powl; g_r : rel; g_sub : bool; g_start : nat; g_end : nat }.
Definition kept (s : powl) : group := Group [s] no_edges false 0 0.
Definition group_of (conn : bool) (s : powl) : group :=
  match s with
  | PPo ds r =>
      if conn then
        match get_start_nodes (length ds) r, get_end_nodes (length ds) r with
        | [x], [y] => Group ds r true x y
        | _, _ => kept s
        end
      else Group ds r true 0 0
  | _ => kept s
  end.
Definition groups (n : nat) (e : rel) (ss : list powl) : list group :=
  map (fun js => group_of (connected n e (fst js)) (snd js)) (combine (seq 0 n) ss).
Definition g_dummy : group := Group [] no_edges false 0 0.
(** obj.py:265-268: the new nodes, each as the pair of the old child and the position in its group: first the kept
    children, then the children of the others. *)
Definition keys (gs : list group) : list (nat * nat) :=
  let igs := combine (seq 0 (length gs)) gs in
  map (fun ig => (fst ig, 0)) (filter (fun ig => negb (g_sub (snd ig))) igs) ++
  flat_map (fun ig => map (pair (fst ig)) (seq 0 (length (g_ds (snd ig))))) (filter (fun ig => g_sub (snd ig)) igs).
Definition new_nodes (gs : list group) : list powl :=
  map (fun ix => nth (snd ix) (g_ds (nth (fst ix) gs g_dummy)) (PLeaf None)) (keys gs).
(** obj.py:269-284: the new edges. *)
Definition new_edges (gs : list group) (e : rel) : rel := fun a b =>
  let '(i, x) := nth a (keys gs) (0, 0) in
  let '(j, y) := nth b (keys gs) (0, 0) in
  (e i j && Nat.eqb x (g_end (nth i gs g_dummy)) && Nat.eqb y (g_start (nth j gs g_dummy))) ||
  (Nat.eqb i j && g_sub (nth i gs g_dummy) && g_r (nth i gs g_dummy) x y).
Definition flatten (ss : list powl) (e : rel) : powl :=
  let gs := groups (length ss) e ss in PPo (new_nodes gs) (new_edges gs e).

(** obj.py:35-36 (leaves), 363-395 (OperatorPOWL), 234-284 (StrictPartialOrder).  The recursion of line 391 is on an already
    simplified child; [fuel] bounds the recursion depth, None = exhausted. *)
Fixpoint simplify (fuel : nat) (t : powl) : option powl :=
  match fuel with
  | 0 => None
  | S f =>
      match t with
      | PLeaf _ => Some t
      | PLoop d r =>
          match simplify f d, simplify f r with Some d', Some r' => Some (PLoop d' r') | _, _ => None end
      | PXor cs =>
          match merge cs with
          | Some (a, b) => match simplify f a, simplify f b with Some a', Some b' => Some (PLoop a' b') | _, _ => None end
          | None =>
              match map_opt_list (fun c => match simplify f c with
                                           | Some (PXor ds) => map_opt_list (simplify f) ds
                                           | Some s => Some [s]
                                           | None => None end) cs with
              | Some css => Some (PXor (concat css))
              | None => None
              end
          end
      | PPo cs e =>
          match map_opt_list (simplify f) cs with Some ss => Some (flatten ss e) | None => None end
      end
  end.
