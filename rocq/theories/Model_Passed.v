(** Model of the performance DFG and the passed and service times: algo/discovery/dfg/variants/performance.py (pf), native.py (nt), statistics/passed_time/log/variants/pre.py, post.py,
    prepost.py (pp) and statistics/service_time/log/get.py (st).

    Simplifications: timestamps are integers, results are rationals (the code: floats); without business hours; a dictionary is the list of its items; the measures median,
    stdev and all are not modelled. *)
From Coq Require Import List Arith ZArith QArith.
From Verif Require Import Spec_Passed.
Import ListNotations.
Open Scope nat_scope.

Section dict.
  Context {K : Type} (eqb : K -> K -> bool).
  (** pf 99-103: a new list for a new key, then append *)
  Fixpoint append (d : list (K * list Z)) (k : K) (v : Z) : list (K * list Z) :=
    match d with [] => [(k, [v])] | (k', l) :: r => if eqb k k' then (k', l ++ [v]) :: r else (k', l) :: append r k v end.
  Definition group (cs : list (K * Z)) : list (K * list Z) := fold_left (fun d c => append d (fst c) (snd c)) cs [].
End dict.
Definition pair_eqb (x y : nat * nat) : bool := Nat.eqb (fst x) (fst y) && Nat.eqb (snd x) (snd y).
(** pf 94-97: the couples of a trace *)
Fixpoint couples (t : list event) : list (nat * nat * Z) := match t with e :: ((f :: _) as r) => (act e, act f, Z.max 0 (start f - stamp e)) :: couples r | _ => [] end.
(** pf 98-122 *)
Definition aggregate (m : measure) (l : list Z) : Q :=
  match m with
  | Mmin => inject_Z (match l with [] => 0%Z | x :: r => fold_left Z.min r x end)
  | Mmax => inject_Z (match l with [] => 0%Z | x :: r => fold_left Z.max r x end)
  | Msum => inject_Z (fold_left Z.add l 0%Z)
  | Mmean => (inject_Z (fold_left Z.add l 0%Z) / inject_Z (Z.of_nat (length l)))%Q
  end.
Definition performance (m : measure) (log : list (list event)) : list (nat * nat * Q) := map (fun p => (fst p, aggregate m (snd p))) (group pair_eqb (flat_map couples log)).
(** nt 62-63 *)
Definition frequency (log : list (list event)) (k : nat * nat) : nat := length (filter (fun c => pair_eqb k (fst c)) (flat_map couples log)).
(** pp 55-74 (post.py 51-62, pre.py 51-62): the entries of one side, and the average *)
Definition side (sel : nat * nat -> nat) (other : nat * nat -> nat) (log : list (list event)) (a : nat) : list (nat * Q * nat) * Q :=
  let es := filter (fun p => Nat.eqb (sel (fst p)) a) (performance Mmean log) in
  let s := fold_left (fun s p => s + snd p * inject_Z (Z.of_nat (frequency log (fst p))))%Q es 0%Q in
  let n := fold_left (fun n p => n + inject_Z (Z.of_nat (frequency log (fst p))))%Q es 0%Q in
  (map (fun p => (other (fst p), snd p, frequency log (fst p))) es, if Qle_bool n 0 then 0%Q else (s / n)%Q).
Definition pre := side snd fst.
Definition post := side fst snd.
(** st 86-116: first all activities get an empty list, then the durations are appended *)
Definition service_time (m : measure) (log : list (list event)) : list (nat * Q) := map (fun p => (fst p, aggregate m (snd p))) (group Nat.eqb (map (fun e => (act e, (stamp e - start e)%Z)) (concat log))).
