(** Specification for the ETConformance precision: what a net can do after a prefix, and how the log
    continues it. Only the data types of the Petri-net model are used. *)
From stdpp Require Import gmap.
From Coq Require Import ZArith QArith List.
From Verif Require Import Model_Petri Spec_Petri.
Import ListNotations.
Local Open Scope Z_scope.

(** From [m] the net can reach [m'] by silent transitions only. *)
Definition silently (pn : petri_net (option nat)) (m m' : marking) : Prop :=
  exists ts, run pn m ts m' /\ visible ts = [].

(** Transition [t] is visible and enabled after some silent transitions. *)
Definition eventually_enabled (pn : petri_net (option nat)) (m : marking) (t : transition (option nat)) : Prop :=
  In t (n_trans pn) /\ t_label t <> None /\ exists m', silently pn m m' /\ enabled_at t m'.

(** Activity [a] can be the next visible step. *)
Definition can_do (pn : petri_net (option nat)) (m : marking) (a : nat) : Prop :=
  exists t, eventually_enabled pn m t /\ t_label t = Some a.

(** Each silent transition is enabled in at most one of the markings silently reachable from [m]. *)
Definition no_silent_concurrency (pn : petri_net (option nat)) (m : marking) : Prop :=
  forall t m1 m2, In t (n_trans pn) -> t_label t = None ->
    silently pn m m1 -> silently pn m m2 -> enabled_at t m1 -> enabled_at t m2 -> m1 = m2.

(** Number of silent transitions in a firing sequence. *)
Fixpoint silent_steps (ts : list (transition (option nat))) : Z :=
  match ts with
  | [] => 0
  | t :: r => (match t_label t with Some _ => 0 | None => 1 end) + silent_steps r
  end.

(** Marking [m] is reached from [im] by a firing sequence spelling [w] with [k] silent transitions. *)
Definition spells (pn : petri_net (option nat)) (im : marking) (w : list nat) (m : marking) (k : Z) : Prop :=
  exists ts, run pn im ts m /\ visible ts = w /\ silent_steps ts = k.

(** ... and no firing sequence spelling [w] needs fewer silent transitions. *)
Definition shortest (pn : petri_net (option nat)) (im : marking) (w : list nat) (m : marking) : Prop :=
  exists k, spells pn im w m k /\ forall m' k', spells pn im w m' k' -> k <= k'.

(** Every silent transition has an input place. *)
Definition silent_have_input (pn : petri_net (option nat)) : Prop :=
  forall t, In t (n_trans pn) -> t_label t = None -> t_in t <> [].

(** ---- Log side ---- *)
(** Some trace of the log starts with [w]. *)
Definition log_has_prefix (log : list (list nat)) (w : list nat) : Prop :=
  exists rest, In (w ++ rest) log.

Fixpoint prefixb (w tr : list nat) : bool :=
  match w, tr with
  | [], _ => true
  | a :: w', b :: tr' => Nat.eqb a b && prefixb w' tr'
  | _, _ => false
  end.

(** The labels of [ls] with which no trace of the log continues [w]. *)
Definition not_in_log (log : list (list nat)) (w : list nat) (ls : list nat) : list nat :=
  List.filter (fun a => negb (existsb (prefixb (w ++ [a])) log)) ls.

(** Sum of [F] over the cases of the log and, in each case, over the prefixes of length 0 .. n-1
    (only the empty prefix if the case has no event). *)
Definition over_prefixes (F : list nat -> nat) (log : list (list nat)) : nat :=
  list_sum (map (fun tr => list_sum (map (fun i => F (firstn i tr)) (0%nat :: seq 1 (length tr - 1)))) log).

(** The precision of Munoz-Gama and Carmona: one minus escaping over activated labels. *)
Definition et_precision (A : list nat -> list nat) (log : list (list nat)) : Q :=
  let at_ := over_prefixes (fun w => length (A w)) log in
  let ee := over_prefixes (fun w => length (not_in_log log w (A w))) log in
  if Nat.eqb at_ 0 then 1%Q else (1 - inject_Z (Z.of_nat ee) / inject_Z (Z.of_nat at_))%Q.
