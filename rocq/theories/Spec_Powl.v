(** The language of a POWL model, independent of the code. *)
From Coq Require Import List.
Import ListNotations.
From Verif Require Import Model_Powl Spec_Rel.

(** A tagged word: every event carries the index of the child it belongs to. *)
Definition events_of (k : nat) (tw : list (nat * nat)) : list nat := map snd (filter (fun x => Nat.eqb (fst x) k) tw).
(** [tw] interleaves the words [ws] of the children so that, whenever child [i] comes before child [j] in the order
    generated by [e], all events of [i] come before all events of [j]. *)
Definition woven (e : nat -> nat -> bool) (ws : list (list nat)) (tw : list (nat * nat)) : Prop :=
  (forall x, In x tw -> fst x < length ws) /\
  (forall k, k < length ws -> events_of k tw = nth k ws []) /\
  ForallOrdPairs (fun x y => ~ closure (length ws) e (fst y) (fst x)) tw.

Inductive plang : powl -> list nat -> Prop :=
| PL_tau : plang (PLeaf None) []
| PL_act a : plang (PLeaf (Some a)) [a]
| PL_xor cs c w : In c cs -> plang c w -> plang (PXor cs) w
| PL_exit d r w : plang d w -> plang (PLoop d r) w
| PL_redo d r w v w' : plang d w -> plang r v -> plang (PLoop d r) w' -> plang (PLoop d r) (w ++ v ++ w')
| PL_po cs e ws tw : Forall2 plang cs ws -> woven e ws tw -> plang (PPo cs e) (map snd tw).

(** Choices and partial orders have children, and the orders have no cycles. *)
Definition acyclic (n : nat) (e : nat -> nat -> bool) : Prop := forall i, ~ closure n e i i.
Inductive wf_powl : powl -> Prop :=
| wp_leaf l : wf_powl (PLeaf l)
| wp_xor cs : cs <> [] -> Forall wf_powl cs -> wf_powl (PXor cs)
| wp_loop d r : wf_powl d -> wf_powl r -> wf_powl (PLoop d r)
| wp_po cs e : cs <> [] -> acyclic (length cs) e -> Forall wf_powl cs -> wf_powl (PPo cs e).
