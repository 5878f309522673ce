(** Model of process_tree/utils/generic.py [structurally_language_equal] (ge) and of
    algo/reduction/process_tree/variants/tree_tr_based.py (rd).

    Simplifications: trees are values (Model_Tree).  [structurally_language_equal] returns None for INTERLEAVING nodes, which the callers treat as
    False; here false. *)
From Coq Require Import List Arith Bool Ascii.
Import ListNotations.
From Verif Require Import Model_Tree Model_TreeFP Model_Bottomup.

(** ge 357-360: list.remove of the first index in [matches] whose child fits; nothing happens without one *)
Fixpoint drop_first {X} (f : X -> bool) (l : list X) : list X :=
  match l with [] => [] | x :: r => if f x then r else x :: drop_first f r end.

(** ge 333-365 [structurally_language_equal] *)
Fixpoint structurally_equal (t u : tree nat) : bool :=
  match t with
  | Leaf (Some a) => match u with Leaf (Some b) => Nat.eqb b a | _ => false end
  | Leaf None => match u with Leaf None | Node _ [] => true | _ => false end
  | Node _ [] => match u with Leaf None | Node _ [] => true | _ => false end
  | Node o cs =>
    match u with
    | Leaf _ => false
    | Node o' ds =>
      op_eqb o o' && Nat.eqb (length cs) (length ds) &&
      match o with
      | Sequence | Loop =>
        (fix go cs ds := match cs, ds with c :: cs', d :: ds' => structurally_equal c d && go cs' ds' | _, _ => true end) cs ds
      | Parallel | Xor | Or =>
        match (fix go cs ms := match cs with [] => ms | c :: cs' => go cs' (drop_first (structurally_equal c) ms) end) cs ds with [] => true | _ => false end
      | Interleaving => false
      end
    end
  end.

(** rd 101-104: is the node skippable and without an activity of the trace, according to the footprints of the original tree *)
Definition superfluous (acts : list nat) (t : tree nat) : bool :=
  match footprints t with
  | Some f => f_skip f && forallb (fun a => negb (mem_nat a acts)) (f_acts f)
  | None => false
  end.
(** rd 95-109: the loop over all nodes but the root; a superfluous node is replaced by a silent leaf.
    Nodes at different positions that are equal (ProcessTree.__eq__) occur once in [bottomup_nodes], and children.index finds the first equal child, so not every
    superfluous node is necessarily replaced: [pick] (a position, root first) says which ones are. *)
Fixpoint reduce_below (pick : list nat -> bool) (acts : list nat) (here : list nat) (t : tree nat) : tree nat :=
  match t with
  | Leaf l => Leaf l
  | Node o cs =>
    Node o ((fix go (k : nat) (cs : list (tree nat)) : list (tree nat) := match cs with
             | [] => []
             | c :: r => (if superfluous acts c && pick (here ++ [k]) then Leaf None else reduce_below pick acts (here ++ [k]) c) :: go (S k) r
             end) 0 cs)
  end.
(** rd 43-113 [apply], [reduce]; None: an exception (footprints of an INTERLEAVING node or a loop with one child, KeyError).  bottomup_nodes[-1] is taken for the root. *)
Definition reduce_tree (text_of : nat -> list ascii) (ord : list chain -> list chain) (fuel : nat) (pick : list nat -> bool) (tree : tree nat) (trace : list nat) : option (Model_Tree.tree nat) :=
  match get_bottomup_nodes ord fuel tree with
  | None => None
  | Some nodes =>
    match fill node_footprints nodes [] with
    | None => None
    | Some _ => fold_tree Nat.eqb text_of (reduce_below pick trace [] (node_of (last nodes [])))
    end
  end.
