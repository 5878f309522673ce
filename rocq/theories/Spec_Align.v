(** Specification of alignments: what a user means by an (optimal) alignment. *)
From stdpp Require Import gmap.
From Coq Require Import ZArith.
From Verif Require Import Model_Petri Spec_Petri Model_Align.
Local Open Scope Z_scope.

(** A legal move: log move (a,>>), model move (>>,l), synchronous move (a,a). *)
Inductive legal_move : slabel -> Prop :=
| lm_log a : legal_move (Lab (Some a), Skip)
| lm_model l : legal_move (Skip, Lab l)
| lm_sync a : legal_move (Lab (Some a), Lab (Some a)).

(** What the log components spell / the model components spell. *)
Fixpoint log_part (g : list slabel) : list nat :=
  match g with
  | [] => []
  | (Lab (Some a), _) :: r => a :: log_part r
  | _ :: r => log_part r
  end.
Fixpoint model_part (g : list slabel) : list (option nat) :=
  match g with
  | [] => []
  | (_, Lab l) :: r => l :: model_part r
  | _ :: r => model_part r
  end.

(** [g] is an alignment of the trace and the accepting net. *)
Definition is_alignment (pn : petri_net (option nat)) (im fm : marking) (trace : list nat)
                        (g : list slabel) : Prop :=
  Forall legal_move g /\ log_part g = trace /\
  exists ts, run pn im ts fm /\ map t_label ts = model_part g.

(** Standard costs. *)
Definition move_cost (l : slabel) : Z :=
  match l with
  | (Lab _, Skip) => 10000
  | (Skip, Lab (Some _)) => 10000
  | (Skip, Lab None) => 1
  | _ => 0
  end.
Fixpoint align_cost (g : list slabel) : Z :=
  match g with [] => 0 | l :: r => move_cost l + align_cost r end.

(** [g] is an alignment of minimal cost. *)
Definition optimal_alignment pn im fm trace g : Prop :=
  is_alignment pn im fm trace g /\
  forall g', is_alignment pn im fm trace g' -> align_cost g <= align_cost g'.

(** Cost of a run for a cost function on transitions. *)
Fixpoint run_cost {L} (cost : transition L -> Z) (ts : list (transition L)) : Z :=
  match ts with [] => 0 | t :: r => cost t + run_cost cost r end.
