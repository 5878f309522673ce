(** Specification: alignments between a trace and a word (a trace of the graph, Spec_DfgNet). *)
From Coq Require Import List.
Import ListNotations.
From Verif Require Import Spec_DfgNet.

(** [aligned K t w c]: the trace [t] and the word [w] are aligned at cost [c]: synchronous moves are free, moves
    on one side only cost [K]. *)
Inductive aligned (K : nat) : list nat -> list nat -> nat -> Prop :=
| al_nil : aligned K [] [] 0
| al_sync a t w c : aligned K t w c -> aligned K (a :: t) (a :: w) c
| al_log a t w c : aligned K t w c -> aligned K (a :: t) w (K + c)
| al_model a t w c : aligned K t w c -> aligned K t (a :: w) (K + c).

(** [c] is the cost of an optimal alignment of [t] with the graph. *)
Definition optimal_cost (K : nat) (edges : list (nat * nat)) (sa ea : list nat) (t : list nat) (c : nat) : Prop :=
  (exists w, dfg_trace edges sa ea w /\ aligned K t w c) /\
  (forall w c', dfg_trace edges sa ea w -> aligned K t w c' -> c <= c').

(** [legal moves t w k]: the list [moves] is an alignment of the trace [t] and the word [w] in which [k] moves
    are not synchronous (None = ">>"). *)
Inductive legal : list (option nat * option nat) -> list nat -> list nat -> nat -> Prop :=
| lg_nil : legal [] [] [] 0
| lg_sync m t w k a : legal m t w k -> legal (m ++ [(Some a, Some a)]) (t ++ [a]) (w ++ [a]) k
| lg_log m t w k a : legal m t w k -> legal (m ++ [(Some a, None)]) (t ++ [a]) w (S k)
| lg_model m t w k a : legal m t w k -> legal (m ++ [(None, Some a)]) t (w ++ [a]) (S k).
