(** What the support and the confidence of a discovered DECLARE constraint count. *)
From Coq Require Import List Arith QArith.
Import ListNotations.
From Verif Require Import Model_Dict Model_Dfg Model_Declare Spec_Declare Spec_Dfg.
Local Open Scope nat_scope.

(** the cases in which the constraint is activated *)
Definition activated (T : template) (t : trace) (k : key) : Prop :=
  let '(a, b) := k in
  match T with
  | EXISTENCE | ABSENCE | INIT => True
  | PRECEDENCE | ALTPRECEDENCE | CHAINPRECEDENCE => In a t /\ In b t
  | COEXISTENCE | NONCOEXISTENCE => In a t \/ In b t
  | _ => In a t
  end.
(** what is tested in these cases *)
Definition tested (T : template) (t : trace) (k : key) : Prop :=
  match T with
  | ALTRESPONSE | ALTPRECEDENCE => holds ALTSUCCESSION t k
  | CHAINRESPONSE | CHAINPRECEDENCE => holds CHAINSUCCESSION t k
  | NONSUCCESSION => ~ holds SUCCESSION t k
  | NONCHAINSUCCESSION => ~ holds CHAINSUCCESSION t k
  | _ => holds T t k
  end.
(** the templates that must be allowed for T to be computed *)
Definition needs (T : template) : list template :=
  match T with
  | ABSENCE => [ABSENCE; EXISTENCE]
  | COEXISTENCE => [COEXISTENCE; RESPONDED_EXISTENCE]
  | NONCOEXISTENCE => [NONCOEXISTENCE; COEXISTENCE; RESPONDED_EXISTENCE]
  | SUCCESSION => [SUCCESSION; RESPONSE; PRECEDENCE]
  | ALTSUCCESSION => [ALTSUCCESSION; ALTRESPONSE; ALTPRECEDENCE]
  | CHAINSUCCESSION => [CHAINSUCCESSION; CHAINRESPONSE; CHAINPRECEDENCE]
  | NONSUCCESSION => [NONSUCCESSION; SUCCESSION; RESPONSE; PRECEDENCE]
  | NONCHAINSUCCESSION => [NONCHAINSUCCESSION; CHAINSUCCESSION; CHAINRESPONSE; CHAINPRECEDENCE]
  | _ => [T]
  end.
Definition computed (allowed : list template) (T : template) : Prop := forall S, In S (needs T) -> In S allowed.
(** the keys of a template over the given activities *)
Definition over (acts : list nat) (T : template) (k : key) : Prop :=
  In (fst k) acts /\ In (snd k) acts /\ (binary T -> fst k <> snd k) /\ (~ binary T -> fst k = snd k).
(** the case without the activities that are not considered *)
Definition restricted (acts : list nat) (t u : trace) : Prop := u = filter (fun x => if in_dec Nat.eq_dec x acts then true else false) t.
(** exactly n cases of the log satisfy P, once restricted to the activities *)
Definition cases (acts : list nat) (l : log) (n : nat) (P : trace -> Prop) : Prop :=
  exactly n (fun j => exists t u, nth_error l j = Some t /\ restricted acts t u /\ P u).
(** the entry of a constraint in a discovered model *)
Definition entry (m : dict template (dict key (nat * nat))) (T : template) (k : key) : option (nat * nat) :=
  match d_get m T with Some r => d_get r k | None => None end.
(** support s and confidence c of a constraint in a log *)
Definition measures (acts : list nat) (l : log) (T : template) (k : key) (s c : nat) : Prop :=
  cases acts l s (fun u => activated T u k) /\ cases acts l c (fun u => activated T u k /\ tested T u k).
