(** Trees that are equal up to the order of the children of parallel, choice and inclusive-choice nodes. *)
From Coq Require Import List Permutation.
From Verif Require Import Model_Tree.
Inductive shuffled : tree nat -> tree nat -> Prop :=
| sh_leaf l : shuffled (Leaf l) (Leaf l)
| sh_ordered o cs ds : o = Sequence \/ o = Loop -> Forall2 shuffled cs ds -> shuffled (Node o cs) (Node o ds)
| sh_any o cs cs' ds : o = Parallel \/ o = Xor \/ o = Or -> Permutation cs cs' -> Forall2 shuffled cs' ds -> shuffled (Node o cs) (Node o ds).
