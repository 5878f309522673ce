(** Traces of a directly-follows graph with frequencies, and their probabilities. *)
From Coq Require Import List Arith QArith Bool.
Import ListNotations.
Open Scope nat_scope.

Section Graph.
  (** edges, start and end activities, each with its frequency *)
  Variable dfg : list (nat * nat * nat).
  Variables sa ea : list (nat * nat).
  (** entries are distinct and all frequencies are positive *)
  Definition proper_dfg : Prop :=
    NoDup (map fst dfg) /\ NoDup (map fst sa) /\ NoDup (map fst ea) /\ (forall e c, In (e, c) dfg -> 0 < c) /\ (forall a c, In (a, c) sa \/ In (a, c) ea -> 0 < c).
  (** no dead ends: every start activity and every target of an edge is the source of an edge or an end activity *)
  Definition complete_dfg : Prop :=
    forall a, In a (map fst sa) \/ In a (map (fun e => snd (fst e)) dfg) -> In a (map (fun e => fst (fst e)) dfg) \/ In a (map fst ea).
  (** a non-empty trace from a start to an end activity along the edges *)
  Definition is_trace (t : list nat) : Prop :=
    t <> [] /\ In (hd 0 t) (map fst sa) /\ In (last t 0) (map fst ea) /\ forall i a b, nth_error t i = Some a -> nth_error t (S i) = Some b -> In (a, b) (map fst dfg).
  Definition few (max : nat) (t : list nat) : Prop := forall a, count_occ Nat.eq_dec t a <= max.

  Definition total {K} (l : list (K * nat)) : nat := list_sum (map snd l).
  Definition share (c n : nat) : Q := (inject_Z (Z.of_nat c) / inject_Z (Z.of_nat n))%Q.
  Definition count (l : list (nat * nat)) (a : nat) : nat := total (filter (fun e => Nat.eqb (fst e) a) l).
  Definition edge_count (a b : nat) : nat := total (filter (fun e => Nat.eqb (fst (fst e)) a && Nat.eqb (snd (fst e)) b) dfg).
  (** how often something comes after [a]: another activity, or the end *)
  Definition out_total (a : nat) : nat := total (filter (fun e => Nat.eqb (fst (fst e)) a) dfg) + count ea a.
  (** the chance of a trace: that of its start activity, of each next activity, and of ending after the last one *)
  Fixpoint chance_after (a : nat) (r : list nat) : Q :=
    match r with [] => share (count ea a) (out_total a) | b :: r' => (share (edge_count a b) (out_total a) * chance_after b r')%Q end.
  Definition chance (t : list nat) : Q := match t with [] => 0%Q | a :: r => (share (count sa a) (total sa) * chance_after a r)%Q end.
End Graph.
Definition sum_of {X} (f : X -> Q) (l : list X) : Q := fold_right (fun x s => (f x + s)%Q) 0%Q l.
(** the start activity, the end activity and the pairs of neighbours of [t] all occur in the same role in some trace of [L] *)
Definition covered (L : list (list nat)) (t : list nat) : Prop :=
  (exists u, In u L /\ hd 0 u = hd 0 t) /\ (exists u, In u L /\ last u 0 = last t 0) /\
  (forall i a b, nth_error t i = Some a -> nth_error t (S i) = Some b -> exists u j, In u L /\ nth_error u j = Some a /\ nth_error u (S j) = Some b).
