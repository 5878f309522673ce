(** What the filters on directly-follows graphs should guarantee. *)
From Coq Require Import List Arith ZArith QArith.
Import ListNotations.
Local Open Scope nat_scope.
From Verif Require Import Model_Dict Spec_Graph Model_DfgFilter.

(** a well-formed DFG: dictionaries, and all the activities mentioned are in the activities count *)
Definition wf (d : fdfg) : Prop :=
  NoDup (d_keys (f_dfg d)) /\ NoDup (d_keys (f_start d)) /\ NoDup (d_keys (f_end d)) /\ NoDup (d_keys (f_act d)) /\
  (forall x y, In (x, y) (d_keys (f_dfg d)) -> In x (d_keys (f_act d)) /\ In y (d_keys (f_act d))) /\
  (forall x, In x (d_keys (f_start d)) -> In x (d_keys (f_act d))) /\
  (forall x, In x (d_keys (f_end d)) -> In x (d_keys (f_act d))).
(** the identifiers of the artificial nodes are not activities *)
Definition fresh (sn en : nat) (d : fdfg) : Prop := sn <> en /\ ~ In sn (d_keys (f_act d)) /\ ~ In en (d_keys (f_act d)).
(** the activity a is on a path from a start activity to an end activity *)
Definition on_path (d : fdfg) (a : nat) : Prop :=
  exists s e, In s (d_keys (f_start d)) /\ In e (d_keys (f_end d)) /\ path (d_keys (f_dfg d)) s a /\ path (d_keys (f_dfg d)) a e.
Definition connected (d : fdfg) : Prop := forall a, In a (d_keys (f_act d)) -> on_path d a.
(** the entries of d are entries of d' *)
Definition sub_dict {K V} (d d' : dict K V) : Prop := incl d d'.
Definition smaller (d d' : fdfg) : Prop :=
  sub_dict (f_dfg d) (f_dfg d') /\ sub_dict (f_start d) (f_start d') /\ sub_dict (f_end d) (f_end d') /\ sub_dict (f_act d) (f_act d').
(** the dependency of the Heuristics Miner: (|x > y| - |y > x|) / (|x > y| + |y > x| + 1), missing links count 0 *)
Definition link_count (d : fdfg) (x y n : nat) : Prop := In ((x, y), n) (f_dfg d) \/ (n = 0%nat /\ ~ In (x, y) (d_keys (f_dfg d))).
Definition dependency_measure (d : fdfg) (x y : nat) (q : Q) : Prop :=
  exists n m, link_count d x y n /\ link_count d y x m /\
    (q == inject_Z (Z.of_nat n - Z.of_nat m) / inject_Z (Z.of_nat n + Z.of_nat m + 1))%Q.
(** orderings: by count, then by name *)
Definition act_above (x y : nat * nat) : Prop := snd y < snd x \/ (snd x = snd y /\ fst y < fst x).
Definition edge_above (x y : (nat * nat) * nat) : Prop :=
  snd y < snd x \/ (snd x = snd y /\ (fst (fst y) < fst (fst x) \/ (fst (fst x) = fst (fst y) /\ snd (fst y) < snd (fst x)))).
(** the activities on a path from a start activity to the first visit of [target] *)
Definition leads_to (d : fdfg) (target a : nat) : Prop :=
  let E := filter (fun e => negb (Nat.eqb (fst e) target)) (d_keys (f_dfg d)) in
  exists s, In s (d_keys (f_start d)) /\ path E s a /\ path E a target.
(** the activities on a path from the last visit of [source] to an end activity *)
Definition follows (d : fdfg) (source a : nat) : Prop :=
  let E := filter (fun e => negb (Nat.eqb (snd e) source)) (d_keys (f_dfg d)) in
  exists e, In e (d_keys (f_end d)) /\ path E source a /\ path E a e.
