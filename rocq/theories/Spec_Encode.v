(** Words over the alphabet. *)
From Coq Require Import List Arith.
Import ListNotations.

(** a word over the 26 letters *)
Definition word (w : list nat) : Prop := w <> [] /\ forall d, In d w -> d < 26.
(** dictionary order of words of the same length *)
Inductive lex : list nat -> list nat -> Prop :=
| lex_here x y a b : x < y -> length a = length b -> lex (x :: a) (y :: b)
| lex_later x a b : lex a b -> lex (x :: a) (x :: b).
(** shorter words come first *)
Definition shortlex (a b : list nat) : Prop := length a < length b \/ length a = length b /\ lex a b.
