(** The DECLARE templates on finite traces. *)
From Coq Require Import List Arith QArith.
Import ListNotations.
From Verif Require Import Model_Dict Model_Dfg Model_Declare.
Local Open Scope nat_scope.

(** every a is followed by a later b *)
Definition response (t : trace) (a b : nat) : Prop := forall u v, t = u ++ a :: v -> In b v.
(** every b is preceded by an a *)
Definition precedence (t : trace) (a b : nat) : Prop := forall u v, t = u ++ b :: v -> In a u.
(** every a is followed by a b before the next a *)
Definition alt_response (t : trace) (a b : nat) : Prop :=
  forall u v, t = u ++ a :: v -> exists v1 v2, v = v1 ++ b :: v2 /\ ~ In a v1.
(** every b is preceded by an a after the previous b *)
Definition alt_precedence (t : trace) (a b : nat) : Prop :=
  forall u v, t = u ++ b :: v -> exists u1 u2, u = u1 ++ a :: u2 /\ ~ In b u2.
(** every a is immediately followed by b; every b is immediately preceded by a *)
Definition chain_response (t : trace) (a b : nat) : Prop := forall u v, t = u ++ a :: v -> exists v', v = b :: v'.
Definition chain_precedence (t : trace) (a b : nat) : Prop := forall u v, t = u ++ b :: v -> exists u', u = u' ++ [a].

Definition holds (T : template) (t : trace) (k : key) : Prop :=
  let '(a, b) := k in
  match T with
  | EXISTENCE => In a t
  | ABSENCE => ~ In a t
  | EXACTLY_ONE => exists u v, t = u ++ a :: v /\ ~ In a u /\ ~ In a v
  | INIT => exists v, t = a :: v
  | RESPONDED_EXISTENCE => In a t -> In b t
  | COEXISTENCE => In a t <-> In b t
  | NONCOEXISTENCE => ~ (In a t /\ In b t)
  | RESPONSE => response t a b
  | PRECEDENCE => precedence t a b
  | SUCCESSION => response t a b /\ precedence t a b
  | ALTRESPONSE => alt_response t a b
  | ALTPRECEDENCE => alt_precedence t a b
  | ALTSUCCESSION => alt_response t a b /\ alt_precedence t a b
  | CHAINRESPONSE => chain_response t a b
  | CHAINPRECEDENCE => chain_precedence t a b
  | CHAINSUCCESSION => chain_response t a b /\ chain_precedence t a b
  | NONSUCCESSION => forall u v, t = u ++ a :: v -> ~ In b v
  | NONCHAINSUCCESSION => forall u v, t <> u ++ a :: b :: v
  end.
(** the templates over two activities *)
Definition binary (T : template) : Prop := match T with EXISTENCE | ABSENCE | EXACTLY_ONE | INIT => False | _ => True end.
(** the occurrences of a and b in the trace *)
Definition proj (a b : nat) (t : trace) : trace := filter (fun x => orb (Nat.eqb x a) (Nat.eqb x b)) t.
(** n times the sequence <a, b> *)
Definition abs (a b n : nat) : trace := concat (repeat [a; b] n).
(** the templates whose check is claimed to be exact *)
Definition exact (T : template) : Prop :=
  match T with
  | EXISTENCE | ABSENCE | EXACTLY_ONE | INIT | RESPONDED_EXISTENCE | COEXISTENCE | NONCOEXISTENCE
  | RESPONSE | PRECEDENCE | ALTSUCCESSION | CHAINSUCCESSION => True
  | _ => False
  end.
