(** The language of a process tree, independent of the code. *)
From Coq Require Import List Permutation.
Import ListNotations.
From Verif Require Import Model_Tree.

(** [shuffle ws u]: [u] is an interleaving of the words [ws]. *)
Inductive shuffle {A} : list (list A) -> list A -> Prop :=
| sh_nil ws : (forall w, In w ws -> w = []) -> shuffle ws []
| sh_cons l1 a w l2 u : shuffle (l1 ++ w :: l2) u -> shuffle (l1 ++ (a :: w) :: l2) (a :: u).

(** [select l l']: [l'] is obtained from [l] by leaving out some elements. *)
Inductive select {X} : list X -> list X -> Prop :=
| sel_nil : select [] []
| sel_skip x l l' : select l l' -> select (x :: l) l'
| sel_take x l l' : select l l' -> select (x :: l) (x :: l').

(** The traces of a process tree.  (A loop with only a do part is given no repetition; the
    theorems about trees require loops to have a redo part.) *)
Inductive lang {A} : tree A -> list A -> Prop :=
| L_tau : lang (Leaf None) []
| L_act a : lang (Leaf (Some a)) [a]
| L_seq cs ws : Forall2 lang cs ws -> lang (Node Sequence cs) (concat ws)
| L_xor cs c w : In c cs -> lang c w -> lang (Node Xor cs) w
| L_par cs ws w : Forall2 lang cs ws -> shuffle ws w -> lang (Node Parallel cs) w
| L_or cs cs' ws w : select cs cs' -> cs' <> [] -> Forall2 lang cs' ws -> shuffle ws w ->
    lang (Node Or cs) w
| L_int cs cs' ws : Permutation cs cs' -> Forall2 lang cs' ws -> lang (Node Interleaving cs) (concat ws)
| L_loop_exit d rs w : lang d w -> lang (Node Loop (d :: rs)) w
| L_loop_redo d rs r w v w' : lang d w -> In r rs -> lang r v -> lang (Node Loop (d :: rs)) w' ->
    lang (Node Loop (d :: rs)) (w ++ v ++ w').

(** Two trees have the same traces. *)
Definition same_lang {A} (t u : tree A) : Prop := forall w, lang t w <-> lang u w.

(** Every subtree satisfies [P]. *)
Inductive everywhere {A} (P : tree A -> Prop) : tree A -> Prop :=
| ev_leaf l : P (Leaf l) -> everywhere P (Leaf l)
| ev_node o cs : P (Node o cs) -> Forall (everywhere P) cs -> everywhere P (Node o cs).

(** Operators have children, loops a do and at least one redo child. *)
Definition shape_ok {A} (t : tree A) : Prop :=
  match t with
  | Leaf _ => True
  | Node Loop cs => 2 <= length cs
  | Node _ cs => cs <> []
  end.
Definition wf_tree {A} (t : tree A) : Prop := everywhere shape_ok t.

(** No interleaving operator. *)
Definition no_interleaving {A} (t : tree A) : Prop :=
  everywhere (fun u => match u with Node Interleaving _ => False | _ => True end) t.
(** Every operator has exactly two children, except that operators that had one child keep it. *)
Definition at_most_binary {A} (t : tree A) : Prop :=
  everywhere (fun u => match u with Node _ cs => length cs <= 2 | _ => True end) t.
