(** Model of pm4py/objects/process_tree/obj.py and pm4py/objects/process_tree/utils/generic.py
    (fold, _fold, reduce_tau_leafs, tree_sort, process_tree_to_binary_process_tree, __eq__).

    Simplifications: a ProcessTree object is an inductive value (no parent pointers, no object
    identity, no sharing of nodes; the deepcopy of [fold] is therefore the identity).  A node
    without operator is a [Leaf] (silent when its label is None), a node with an operator is a
    [Node] (its label, unused by the code, is dropped).  PARTIALORDER is not modelled. *)
From Coq Require Import List Arith Bool ZArith Ascii String.
Import ListNotations.
From Verif Require Import Model_Lev.

(** obj.py:22-36 [class Operator]. *)
Inductive operator := Sequence | Xor | Parallel | Loop | Or | Interleaving.
Definition op_eqb (a b : operator) : bool :=
  match a, b with
  | Sequence, Sequence | Xor, Xor | Parallel, Parallel | Loop, Loop | Or, Or
  | Interleaving, Interleaving => true
  | _, _ => false
  end.

(** obj.py:61-88 [class ProcessTree]. *)
Inductive tree (A : Type) :=
| Leaf (label : option A)
| Node (op : operator) (children : list (tree A)).
Arguments Leaf {A}. Arguments Node {A}.

Section Tree.
  Context {A : Type} (eqb : A -> A -> bool).
  Implicit Types (t : tree A) (cs : list (tree A)).

  (** number of nodes (not in the code: bounds the recursion of the model) *)
  Fixpoint size t : nat :=
    match t with
    | Leaf _ => 1
    | Node _ cs => S ((fix go cs := match cs with [] => 0 | c :: r => size c + go r end) cs)
    end.

  (** obj.py:139-156 [__eq__]. *)
  Fixpoint tree_eqb t u : bool :=
    match t, u with
    | Leaf (Some a), Leaf (Some b) => eqb a b
    | Leaf (Some _), _ => false
    | Leaf None, Leaf None | Leaf None, Node _ [] | Node _ [], Leaf None | Node _ [], Node _ [] => true
    | Leaf None, _ | Node _ [], _ => false
    | Node o cs, Node o' ds =>
        op_eqb o o' &&
        (fix go cs ds := match cs, ds with
                         | [], [] => true
                         | c :: cs', d :: ds' => tree_eqb c d && go cs' ds'
                         | _, _ => false
                         end) cs ds
    | Node _ _, Leaf _ => false
    end.

  (** generic.py:167-172 [is_tau_leaf], [is_leaf]. *)
  Definition is_tau_leaf t : bool := match t with Leaf None => true | _ => false end.

  (** list.remove(x): removes the first element equal to [x] (by [__eq__]). *)
  Fixpoint py_remove (x : tree A) cs : list (tree A) :=
    match cs with
    | [] => []
    | c :: r => if tree_eqb c x then r else c :: py_remove x r
    end.

  (** generic.py:132-138, 155-162: "while silents > 1: remove the first tau leaf". *)
  Fixpoint drop_taus (n : nat) cs : list (tree A) :=
    match n with
    | 0 => cs
    | S n' => drop_taus n' (match List.find is_tau_leaf cs with
                            | Some c => py_remove c cs
                            | None => cs
                            end)
    end.

  (** generic.py:141-145, 149-153: a for loop over the list that is being shortened; [i] is the
      position of the list iterator. *)
  Fixpoint remove_iter (fuel i : nat) cs : list (tree A) :=
    match fuel with
    | 0 => cs
    | S n => match nth_error cs i with
             | None => cs
             | Some c => remove_iter n (S i) (if is_tau_leaf c then py_remove c cs else cs)
             end
    end.

  (** generic.py:121-163, for one node whose children have been treated already. *)
  Definition reduce_children (o : operator) cs : list (tree A) :=
    let silents := List.length (List.filter is_tau_leaf cs) in
    if Nat.eqb silents 0 then cs
    else if Nat.eqb (List.length cs) silents then
      match o with
      | Sequence | Parallel | Xor | Or => drop_taus (silents - 1) cs
      | Loop => if Nat.eqb (List.length cs) 2 then remove_iter (List.length cs) 0 cs else cs
      | Interleaving => cs
      end
    else
      match o with
      | Sequence | Parallel => remove_iter (List.length cs) 0 cs
      | Xor | Or => drop_taus (silents - 1) cs
      | _ => cs
      end.

  (** generic.py:108-164 [reduce_tau_leafs]. *)
  Fixpoint reduce_tau_leafs t : tree A :=
    match t with
    | Leaf l => Leaf l
    | Node o cs =>
        Node o (reduce_children o ((fix go cs := match cs with [] => [] | c :: r => reduce_tau_leafs c :: go r end) cs))
    end.

  (** list.index(x): position of the first element equal to [x]. *)
  Fixpoint py_index (x : tree A) cs : option nat :=
    match cs with
    | [] => None
    | c :: r => if tree_eqb c x then Some 0 else option_map S (py_index x r)
    end.

  (** generic.py:94-104: merge the children that have the operator of their parent; [None] is a
      ValueError of list.index.  (c.children.clear() acts on a node that has left the list.) *)
  Fixpoint splice (o : operator) (chlds cs : list (tree A)) : option (list (tree A)) :=
    match chlds with
    | [] => Some cs
    | Node o' ccs :: r =>
        if op_eqb o' o then
          match py_index (Node o' ccs) cs with
          | None => None
          | Some i => splice o r (py_remove (Node o' ccs) (firstn i cs ++ ccs ++ skipn i cs))
          end
        else splice o r cs
    | Leaf _ :: r => splice o r cs
    end.

  Fixpoint map_opt {X Y} (f : X -> option Y) (l : list X) : option (list Y) :=
    match l with
    | [] => Some []
    | x :: r => match f x, map_opt f r with Some y, Some ys => Some (y :: ys) | _, _ => None end
    end.
  Fixpoint somes {X} (l : list (option X)) : list X :=
    match l with [] => [] | Some x :: r => x :: somes r | None :: r => somes r end.

  (** generic.py:84-92: remove the silent children of a sequence or parallel node. *)
  Definition drop_silent (o : operator) cs : list (tree A) :=
    match o with
    | Sequence | Parallel => List.filter (fun c => negb (is_tau_leaf c)) cs
    | _ => cs
    end.

  (** generic.py:65-105 [_fold].  The outer option is [None] for an exception (or exhausted
      [fuel]); the inner one is the Python result, possibly None. *)
  Fixpoint pfold (fuel : nat) t : option (option (tree A)) :=
    match fuel with
    | 0 => None
    | S n =>
        match reduce_tau_leafs t with
        | Leaf l => Some (Some (Leaf l))
        | Node o [] => Some (Some (Node o []))
        | Node o cs =>
            match map_opt (pfold n) cs with
            | None => None
            | Some rs =>
                match somes rs with
                | [] => Some None
                | [c] => Some (Some c)
                | cs1 =>
                    match drop_silent o cs1 with
                    | [] => Some (Some (Leaf None))
                    | cs2 =>
                        match o with
                        | Sequence | Xor | Parallel => option_map (fun cs3 => Some (Node o cs3)) (splice o cs2 cs2)
                        | _ => Some (Some (Node o cs2))
                        end
                    end
                end
            end
        end
    end.

  (** generic.py:41-46: unwrap a root with a single child. *)
  Fixpoint unwrap t : tree A :=
    match t with
    | Node _ [c] => unwrap c
    | _ => t
    end.
End Tree.

(** obj.py:22-47: the printed operators. *)
Definition op_str (o : operator) : list ascii :=
  list_ascii_of_string
    (match o with
     | Sequence => "->" | Xor => "X" | Parallel => "+" | Loop => "*" | Or => "O" | Interleaving => "<>"
     end)%string.
Definition s_tau : list ascii := list_ascii_of_string "tau".
Definition s_quote : list ascii := list_ascii_of_string "'".
Definition s_sep : list ascii := list_ascii_of_string ", ".
Definition s_open : list ascii := list_ascii_of_string "( ".
Definition s_close : list ascii := list_ascii_of_string " )".

(** obj.py:158-187 [to_string] (indent = False); [lab] gives the text of a label. *)
Section Show.
  Context {A : Type} (lab : A -> list ascii).
  (** obj.py:172-180: the text of a child: quoted when it is a labelled leaf. *)
  Fixpoint show (t : tree A) : list ascii :=
    match t with
    | Leaf (Some a) => lab a
    | Leaf None => s_tau
    | Node o cs =>
        op_str o ++ s_open ++
        (fix go (cs : list (tree A)) : list ascii :=
           match cs with
           | [] => []
           | c :: r =>
               (match c with Leaf (Some a) => s_quote ++ lab a ++ s_quote | _ => show c end) ++
               (match r with [] => [] | _ => s_sep end) ++ go r
           end) cs ++ s_close
    end.
End Show.

Section Fold.
  Context {A : Type} (eqb : A -> A -> bool) (lab : A -> list ascii).
  (** generic.py:28-62 [fold]; [None]: an exception (or exhausted [fuel]).  (When line 59 finds
      the same length, [tree] is the object that [_fold] has just updated in place.) *)
  Fixpoint fold (fuel : nat) (t : tree A) : option (tree A) :=
    match fuel with
    | 0 => None
    | S n =>
        match pfold eqb (size t) t with
        | Some (Some t1) =>
            let t2 := unwrap t1 in
            let t3 := reduce_tau_leafs eqb t2 in
            match (if Nat.eqb (List.length (show lab t3)) (List.length (show lab t2)) then Some t3 else fold n t3) with
            | None => None
            | Some t4 =>
                match pfold eqb (size t4) t4 with
                | Some (Some t5) =>
                    if Nat.eqb (List.length (show lab t5)) (List.length (show lab t4)) then Some t5 else fold n t5
                | _ => None
                end
            end
        | _ => None
        end
    end.

  (** the number of nested calls that is always enough *)
  Definition fold_tree (t : tree A) : option (tree A) := fold (S (size t)) t.
End Fold.

(** generic.py:310-330 [tree_sort]; [hash] is the md5 value of a label. *)
Section SortTree.
  Context {A : Type} (hash : A -> Z).
  Fixpoint hash_sum (t : tree A) : Z :=
    match t with
    | Leaf None => 0
    | Leaf (Some a) => hash a
    | Node _ cs => (fix go cs := match cs with [] => 0 | c :: r => hash_sum c + go r end) cs
    end%Z.
  Fixpoint tree_sort (t : tree A) : tree A :=
    match t with
    | Leaf l => Leaf l
    | Node o cs =>
        let cs' := (fix go cs := match cs with [] => [] | c :: r => tree_sort c :: go r end) cs in
        Node o (match o with Parallel | Xor => sorted_by hash_sum cs' | _ => cs' end)
    end.
End SortTree.

(** generic.py:380-398 [process_tree_to_binary_process_tree].  [None]: exhausted [fuel]. *)
Fixpoint to_binary {A} (fuel : nat) (t : tree A) : option (tree A) :=
  match fuel with
  | 0 => None
  | S n =>
      match t with
      | Leaf l => Some (Leaf l)
      | Node o cs =>
          let cs' := match cs with
                     | a :: ((_ :: _ :: _) as rest) =>
                         [a; Node (match o with Loop => Xor | _ => o end) rest]
                     | _ => cs
                     end in
          option_map (Node o) (map_opt (to_binary n) cs')
      end
  end.
