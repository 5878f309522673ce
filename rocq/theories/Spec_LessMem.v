(** Specification for the memory-saving alignment search: moves that remember their transition. *)
From stdpp Require Import gmap.
From Coq Require Import ZArith.
From Verif Require Import Model_Petri Spec_Petri Model_Align Spec_Align Model_LessMem.
Local Open Scope Z_scope.

(** Move together in [a] with transition [t], move on the log in [a], move on the model with [t]. *)
Inductive tmove := TSync (a : nat) (t : ptrans) | TLog (a : nat) | TModel (t : ptrans).

(** A synchronous move pairs equal labels. *)
Definition tm_ok (m : tmove) : Prop := match m with TSync a t => t_label t = Some a | _ => True end.
(** What is shown to the user. *)
Definition tm_label (m : tmove) : slabel :=
  match m with
  | TSync a t => (Lab (Some a), Lab (t_label t))
  | TLog a => (Lab (Some a), Skip)
  | TModel t => (Skip, Lab (t_label t))
  end.
Definition tm_log (ms : list tmove) : list nat :=
  flat_map (fun m => match m with TSync a _ | TLog a => [a] | TModel _ => [] end) ms.
Definition tm_trans (ms : list tmove) : list ptrans :=
  flat_map (fun m => match m with TSync _ t | TModel t => [t] | TLog _ => [] end) ms.
(** Cost of the moves, the trace being at position [p]. *)
Fixpoint tm_cost (cs : lcosts) (p : nat) (ms : list tmove) : Z :=
  match ms with
  | [] => 0
  | TSync _ _ :: r => c_sync cs + tm_cost cs (S p) r
  | TLog _ :: r => c_log cs p + tm_cost cs (S p) r
  | TModel t :: r => c_model cs t + tm_cost cs p r
  end.

(** Costs are non-negative and moving together is never dearer than moving alone. *)
Definition costs_ok (cs : lcosts) (pn : petri_net (option nat)) (trace : list nat) : Prop :=
  0 <= c_sync cs /\ (forall t, In t (n_trans pn) -> c_sync cs <= c_model cs t) /\
  (forall i, (i < length trace)%nat -> 0 <= c_log cs i).

(** Cost of skipping the first [n] events. *)
Definition skip_cost (cs : lcosts) (n : nat) : Z := zsum (c_log cs) (seq 0 n).

(** Visible deviations of an alignment: log moves and visible model moves. *)
Fixpoint deviations (g : list slabel) : Z :=
  match g with
  | [] => 0
  | (Lab _, Skip) :: r => 1 + deviations r
  | (Skip, Lab (Some _)) :: r => 1 + deviations r
  | _ :: r => deviations r
  end.
Fixpoint silent_moves (g : list slabel) : Z :=
  match g with
  | [] => 0
  | (Skip, Lab None) :: r => 1 + silent_moves r
  | _ :: r => silent_moves r
  end.

(** At most one enabled transition per label, no silent ones: the net is deterministic. *)
Definition deterministic_from (pn : petri_net (option nat)) (im : marking) : Prop :=
  (forall t, In t (n_trans pn) -> t_label t <> None) /\
  forall m t u, reachable pn im m -> In t (n_trans pn) -> In u (n_trans pn) ->
    enabled_at t m -> enabled_at u m -> t_label t = t_label u -> t = u.
