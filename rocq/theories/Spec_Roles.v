(** Roles, in terms of the events (resource, activity) of a log; a role is a group of activities. *)
From Coq Require Import List Arith ZArith QArith Qminmax Bool Permutation Relations.
Import ListNotations.
From Verif Require Import Spec_Eval.
Definition member (a : nat) (A : list nat) : bool := existsb (Nat.eqb a) A.
(** how often the resource does an activity of the group, and anybody does *)
Definition done (log : list (nat * nat)) (A : list nat) (r : nat) : nat := length (filter (fun e => Nat.eqb (fst e) r && member (snd e) A) log).
Definition done_all (log : list (nat * nat)) (A : list nat) : nat := length (filter (fun e => member (snd e) A) log).
Definition share (log : list (nat * nat)) (A : list nat) (r : nat) : Q := inject_Z (Z.of_nat (done log A r)) / inject_Z (Z.of_nat (done_all log A)).
(** the resources of the log, each once *)
Definition resources (log : list (nat * nat)) : list nat := nodup Nat.eq_dec (map fst log).
Definition similarity (log : list (nat * nat)) (A B : list nat) : Q :=
  Qsum (map (fun r => Qmin (share log A r) (share log B r)) (resources log)) / Qsum (map (fun r => Qmax (share log A r) (share log B r)) (resources log)).
(** two different groups of a list of groups *)
Definition two_of (G : list (list nat)) (A B : list nat) (rest : list (list nat)) : Prop := Permutation G (A :: B :: rest).
(** merging two groups: the two most similar ones, with a similarity above the threshold *)
Definition merge_step (log : list (nat * nat)) (theta : Q) (G G' : list (list nat)) : Prop :=
  exists A B C rest, two_of G A B rest /\ (theta < similarity log A B)%Q /\ (forall X Y r, two_of G X Y r -> (similarity log X Y <= similarity log A B)%Q) /\
    (forall a, In a C <-> In a A \/ In a B) /\ Permutation G' (C :: rest).
Definition merged (log : list (nat * nat)) (theta : Q) : list (list nat) -> list (list nat) -> Prop := clos_refl_trans _ (merge_step log theta).
