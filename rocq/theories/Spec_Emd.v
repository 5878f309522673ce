(** Transport plans between histograms. *)
From Coq Require Import List Arith QArith.
Import ListNotations.
Open Scope Q_scope.

Definition total {X} (l : list X) (f : X -> Q) : Q := fold_right (fun x s => f x + s) 0 l.
Definition at_ (h : list Q) (i : nat) : Q := nth i h 0.
Definition cell (d : list (list Q)) (i j : nat) : Q := nth j (nth i d []) 0.
(** a plan moves the first histogram to the second *)
Definition plan (h1 h2 : list Q) (f : nat -> nat -> Q) : Prop :=
  (forall i j, 0 <= f i j) /\ (forall i, (i < length h1)%nat -> total (seq 0 (length h2)) (f i) == at_ h1 i) /\ (forall j, (j < length h2)%nat -> total (seq 0 (length h1)) (fun i => f i j) == at_ h2 j).
Definition cost (h1 h2 : list Q) (d : list (list Q)) (f : nat -> nat -> Q) : Q := total (seq 0 (length h1)) (fun i => total (seq 0 (length h2)) (fun j => f i j * cell d i j)).
(** the earth mover's distance: the least cost of a plan *)
Definition emd (h1 h2 : list Q) (d : list (list Q)) (v : Q) : Prop := (exists f, plan h1 h2 f /\ cost h1 h2 d f == v) /\ forall f, plan h1 h2 f -> v <= cost h1 h2 d f.
(** a stochastic language *)
Definition probability (lang : list (list nat * Q)) (t : list nat) : Q := total lang (fun p => if list_eq_dec Nat.eq_dec (fst p) t then snd p else 0).
Definition stochastic (lang : list (list nat * Q)) : Prop := NoDup (map fst lang) /\ (forall t p, In (t, p) lang -> 0 <= p) /\ total lang snd == 1.
(** the share of a trace in a log *)
Definition share (log : list (list nat)) (t : list nat) : Q := (inject_Z (Z.of_nat (count_occ (list_eq_dec Nat.eq_dec) log t)) / inject_Z (Z.of_nat (length log)))%Q.
