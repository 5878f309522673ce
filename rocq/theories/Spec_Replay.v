(** Specification vocabulary for token-based replay (only the record of results of Model_Replay is used). *)
From stdpp Require Import gmap.
From Coq Require Import ZArith.
From Verif Require Import Model_Petri Spec_Petri Model_Replay.
Local Open Scope Z_scope.

(** Number of tokens of a marking; total weight of a list of arcs. *)
Definition total (m : marking) : Z := zsum snd (map_to_list m).
Definition arcs_total (arcs : list (nat * Z)) : Z := zsum snd arcs.

(** Number of tokens that [m] has beyond [n], summed over all places. *)
Definition excess (m n : marking) : Z :=
  zsum (fun kv => Z.max 0 (kv.2 - tokens n kv.1)) (map_to_list m).

(** Activities that label a transition of the net, and the part of a trace made of them. *)
Definition known (pn : petri_net (option nat)) (a : nat) : Prop :=
  exists t, In t (n_trans pn) /\ t_label t = Some a.
Inductive known_part (pn : petri_net (option nat)) : list nat -> list nat -> Prop :=
| kp_nil : known_part pn [] []
| kp_keep a w v : known pn a -> known_part pn w v -> known_part pn (a :: w) (a :: v)
| kp_skip a w v : ~ known pn a -> known_part pn w v -> known_part pn (a :: w) v.

(** No two visible transitions carry the same label. *)
Definition distinct_labels (pn : petri_net (option nat)) : Prop :=
  forall t u a, In t (n_trans pn) -> In u (n_trans pn) -> t_label t = Some a -> t_label u = Some a -> t = u.

(** [ts] leads from place [p] to place [q] through silent transitions. *)
Inductive silent_path (pn : petri_net (option nat)) : nat -> list (transition (option nat)) -> nat -> Prop :=
| sp_one p t q : In t (n_trans pn) -> t_label t = None ->
    In p (map fst (t_in t)) -> In q (map fst (t_out t)) -> silent_path pn p [t] q
| sp_snoc p ts r t q : silent_path pn p ts r -> In t (n_trans pn) -> t_label t = None ->
    In r (map fst (t_in t)) -> In q (map fst (t_out t)) -> silent_path pn p (ts ++ [t]) q.

(** Agreement of results on everything but the place statistics. *)
Definition same_result (a b : result) : Prop :=
  r_fit a = r_fit b /\ r_fitness a = r_fitness b /\ r_act a = r_act b /\ r_prob a = r_prob b /\ r_reached a = r_reached b /\
  r_missing a = r_missing b /\ r_consumed a = r_consumed b /\ r_remaining a = r_remaining b /\ r_produced a = r_produced b.
