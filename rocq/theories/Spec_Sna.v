(** Social networks, on the cases of a log seen as lists of resources. *)
From Coq Require Import List Arith ZArith QArith Bool.
Import ListNotations.
From Verif Require Import Spec_Eval.
(** all pairs of positions i < j < n *)
Definition pairs (n : nat) : list (nat * nat) := flat_map (fun i => map (fun j => (i, j)) (seq (S i) (n - S i))) (seq 0 n).
(** [is t i a]: the resource at position i is a, as 1 or 0 *)
Definition is (t : list nat) (i a : nat) : Q := match nth_error t i with Some x => if Nat.eqb x a then 1 else 0 | None => 0 end.
(** the handovers from a to b in a case, a handover over k other events weighted with beta^k (0^0 = 1) *)
Definition handed (beta : Q) (t : list nat) (a b : nat) : Q :=
  Qsum (map (fun ij => is t (fst ij) a * is t (snd ij) b * beta ^ Z.of_nat (snd ij - fst ij - 1))%Q (pairs (length t))).
(** all handovers in a case *)
Definition handed_all (beta : Q) (t : list nat) : Q := Qsum (map (fun ij => beta ^ Z.of_nat (snd ij - fst ij - 1))%Q (pairs (length t))).
Definition over (f : list nat -> Q) (log : list (list nat)) : Q := Qsum (map f log).
(** how often, in a case, b is strictly between two events of a that are n positions apart *)
Definition subcontracted (n : nat) (t : list nat) (a b : nat) : Q :=
  Qsum (map (fun i => is t i a * is t (i + n) a * Qsum (map (fun j => is t j b) (seq (S i) (n - 1))))%Q (seq 0 (length t))).
(** two different resources both work on a case; the number of such cases *)
Definition both (t : list nat) (a b : nat) : bool := negb (Nat.eqb a b) && existsb (Nat.eqb a) t && existsb (Nat.eqb b) t.
Definition together (log : list (list nat)) (a b : nat) : nat := length (filter (fun t => both t a b) log).
