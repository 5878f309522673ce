(** Variant filters, prefixes, suffixes, between. *)
From Coq Require Import List ZArith QArith.
Import ListNotations.
From Verif Require Import Model_Dict Model_Filter Spec_Filter.
Local Open Scope nat_scope.
(** [r] consists of the cases of the log [l] whose variant is one of [vs]: variant by variant, the cases of a variant
    unmodified and in the order of the log. *)
Definition cases_of_variants (key : nat) (l : flog) (vs : list (list Z)) (r : flog) : Prop :=
  NoDup vs /\ exists gs, Forall2 (fun v g => Selected (fun c => trace_is key c v) l g /\ g <> []) vs gs /\ r = concat gs.
(** [v] is the variant of some case. *)
Definition is_variant (key : nat) (l : flog) (v : list Z) : Prop := exists c, In c l /\ trace_is key c v.
Definition qn (n : nat) : Q := inject_Z (Z.of_nat n).
(** [i] is the first / the last position with the activity. *)
Definition first_pos (key : nat) (a : Z) (es : list event) (i : nat) : Prop :=
  (exists e, nth_error es i = Some e /\ value key e a) /\ forall j e, j < i -> nth_error es j = Some e -> ~ value key e a.
Definition last_pos (key : nat) (a : Z) (es : list event) (i : nat) : Prop :=
  (exists e, nth_error es i = Some e /\ value key e a) /\ forall j e, i < j -> nth_error es j = Some e -> ~ value key e a.
Definition cut_pos (first : bool) (key : nat) (a : Z) (es : list event) (i : nat) : Prop :=
  if first then first_pos key a es i else last_pos key a es i.
(** Some event of the case has the activity. *)
Definition contains (key : nat) (a : Z) (c : case) : Prop := exists e, In e (c_events c) /\ value key e a.
(** The activity of the event is one of [acts]. *)
Definition one_of (key : nat) (acts : list Z) (e : event) : Prop := exists a, value key e a /\ In a acts.
(** The trace read from left to right: stretches without act1 (gaps), and segments from an event with act1 to the next
    event with act2, included.  With act1 = act2 the closing event of a segment opens the next one. *)
Inductive segments (key : nat) (act1 act2 : list Z) : list event -> list (list event) -> Prop :=
| seg_none es : Forall (fun e => ~ one_of key act1 e) es -> segments key act1 act2 es []
| seg_open gap e rest : Forall (fun e => ~ one_of key act1 e) gap -> one_of key act1 e -> Forall (fun e => ~ one_of key act2 e) rest ->
    segments key act1 act2 (gap ++ e :: rest) []
| seg_hit gap e mid e' rest out : Forall (fun e => ~ one_of key act1 e) gap -> one_of key act1 e -> Forall (fun e => ~ one_of key act2 e) mid ->
    one_of key act2 e' -> segments key act1 act2 (if list_eq_dec Z.eq_dec act1 act2 then e' :: rest else rest) out ->
    segments key act1 act2 (gap ++ e :: mid ++ e' :: rest) ((e :: mid ++ [e']) :: out).
