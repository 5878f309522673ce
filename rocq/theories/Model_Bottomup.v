(** Model of the bottom-up visit of process trees, pm4py/objects/process_tree/utils/bottomup.py (bu), and of the
    functions that use it: the minimal length of a trace and the footprints of a tree
    (algo/discovery/footprints/tree/variants/bottomup.py, fp).

    Nodes are compared with __eq__ (same label / same operator and equal children), so sets and dictionaries identify
    equal nodes at different positions.  A node object is its chain: the node, its parent, ..., the root.
    [ord] is the enumeration order of the set of nodes.  Loops have fuel; [None] = not finished or an exception. *)
From Coq Require Import List Arith Bool.
Import ListNotations.
From Verif Require Import Model_Tree Model_TreeFP.

Definition chain := list (tree nat).
Definition node_of (c : chain) : tree nat := hd (Leaf None) c.
Definition children (t : tree nat) : list (tree nat) := match t with Leaf _ => [] | Node _ cs => cs end.
(** x in l, for a list or set of nodes *)
Definition among (l : list chain) (x : tree nat) : bool := existsb (fun c => tree_eqb Nat.eqb (node_of c) x) l.

(** bu 213-219: the nodes in the order of the visit; set.add keeps the node that is already there *)
Fixpoint visit (fuel : nat) (to_visit all_nodes : list chain) : option (list chain) :=
  match fuel with
  | O => None
  | S fuel' =>
    match to_visit with
    | [] => Some all_nodes
    | c :: rest =>
      visit fuel' (rest ++ map (fun x => x :: c) (children (node_of c)))
        (if among all_nodes (node_of c) then all_nodes else all_nodes ++ [c])
    end
  end.
(** bu 223-234: the nodes before the index [i] are [processed], the others [rest] *)
Fixpoint grow (fuel : nat) (processed rest : list chain) : option (list chain) :=
  match fuel with
  | O => None
  | S fuel' =>
    match rest with
    | [] => Some processed
    | c :: rest' =>
      match tl c with
      | [] => grow fuel' (processed ++ [c]) rest'
      | p :: up =>
        if among (processed ++ rest) p then grow fuel' (processed ++ [c]) rest'
        else if forallb (among (processed ++ rest)) (children p)
        then grow fuel' (processed ++ [c]) (rest' ++ [p :: up])
        else grow fuel' (processed ++ [c]) rest'
      end
    end
  end.
(** bu 194-236 [get_bottomup_nodes] *)
Definition get_bottomup_nodes (ord : list chain -> list chain) (fuel : nat) (t : tree nat) : option (list chain) :=
  match visit fuel [[t]] [] with
  | None => None
  | Some all_nodes =>
    grow fuel [] (filter (fun c => match children (node_of c) with [] => true | _ => false end) (ord all_nodes))
  end.

(** a dictionary whose keys are nodes *)
Fixpoint find_node {V} (d : list (tree nat * V)) (x : tree nat) : option V :=
  match d with
  | [] => None
  | (k, v) :: r => if tree_eqb Nat.eqb k x then Some v else find_node r x
  end.
(** the loops "for i in range(len(bottomup)): d[bottomup[i]] = f(...)"; the keys are pairwise different *)
Fixpoint fill {V} (f : tree nat -> list (tree nat * V) -> option V) (nodes : list chain) (d : list (tree nat * V))
  : option (list (tree nat * V)) :=
  match nodes with
  | [] => Some d
  | c :: r => match f (node_of c) d with Some v => fill f r (d ++ [(node_of c, v)]) | None => None end
  end.

(** bu 169-191 [get_min_length_dict] *)
Definition min_of (l : list nat) : option nat := match l with [] => None | x :: r => Some (fold_left Nat.min r x) end.
Definition min_length_node (t : tree nat) (d : list (tree nat * nat)) : option nat :=
  match t with
  | Leaf None => Some 0
  | Leaf (Some _) => Some 1
  | Node _ [] => Some 0
  | Node Xor cs => match map_opt (find_node d) cs with Some ls => min_of ls | None => None end
  | Node (Parallel | Sequence | Or) cs => option_map list_sum (map_opt (find_node d) cs)
  | Node Loop (c :: _) => find_node d c
  | Node Interleaving _ => None
  end.
(** bu 50-74 [get_min_trace_length] *)
Definition get_min_trace_length (ord : list chain -> list chain) (fuel : nat) (t : tree nat) : option nat :=
  match get_bottomup_nodes ord fuel t with
  | None => None
  | Some nodes => match fill min_length_node nodes [] with Some d => find_node d t | None => None end
  end.

(** fp 348-373 [get_footprints] *)
Definition node_footprints (t : tree nat) (d : list (tree nat * footprint)) : option footprint :=
  match t with
  | Leaf l => Some (fp_leaf l)
  | Node _ [] => Some (fp_leaf None)
  | Node o cs =>
    match map_opt (find_node d) cs with
    | None => None
    | Some fs =>
      match o with
      | Xor => Some (fp_xor fs)
      | Parallel | Or => Some (fp_parallel fs)
      | Sequence => Some (fp_sequence fs)
      | Loop => fp_loop fs
      | Interleaving => None
      end
    end
  end.
(** fp 376-429 [get_all_footprints], [apply]: the footprints of the root and the minimal length of a trace *)
Definition tree_footprints (ord1 ord2 : list chain -> list chain) (fuel : nat) (t : tree nat) : option (footprint * nat) :=
  match get_bottomup_nodes ord1 fuel t with
  | None => None
  | Some nodes =>
    match fill node_footprints nodes [] with
    | None => None
    | Some d =>
      match find_node d t, get_min_trace_length ord2 fuel t with
      | Some f, Some n => Some (f, n)
      | _, _ => None
      end
    end
  end.
