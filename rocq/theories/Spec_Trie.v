(** Vocabulary for prefix trees. *)
From Coq Require Import List Arith.
Import ListNotations.
From Verif Require Import Model_Dfg Model_Trie.

(** The node is reached from the tree by following children with these labels. *)
Inductive reaches : trie -> trace -> trie -> Prop :=
| reach_here t : reaches t [] t
| reach_child t c a p n : In c (t_children t) -> t_label c = Some a -> reaches c p n -> reaches t (a :: p) n.
Definition prefix_of (p v : trace) : Prop := exists s, v = p ++ s.
(** Two different children of a node have different labels, everywhere in the tree. *)
Definition deterministic (t : trie) : Prop :=
  forall p n, reaches t p n -> NoDup (map t_label (t_children n)).
(** The activity occurs at two positions of the trace. *)
Definition repeats (t : trace) (a : nat) : Prop := exists i j, i < j /\ nth_error t i = Some a /\ nth_error t j = Some a.
(** The trace of a case, and the log, of a table with rows (case, activity). *)
Definition trace_of (rows : list (nat * nat)) (c : nat) : trace := map snd (filter (fun r => Nat.eqb (fst r) c) rows).
Definition log_of_rows (rows : list (nat * nat)) : log := map (trace_of rows) (nodup Nat.eq_dec (map fst rows)).
