(** DECLARE conformance checking: algo/conformance/declare/variants/classic.py.  Activities are numbers. *)
From Coq Require Import List Arith Bool ZArith QArith.
Import ListNotations.
From Verif Require Import Model_Dict Model_Dfg Model_Lev.
Local Open Scope nat_scope.

(** algo/discovery/declare/templates.py:17-34 *)
Inductive template := EXISTENCE | EXACTLY_ONE | INIT | RESPONDED_EXISTENCE | RESPONSE | PRECEDENCE | SUCCESSION
  | ALTRESPONSE | ALTPRECEDENCE | ALTSUCCESSION | CHAINRESPONSE | CHAINPRECEDENCE | CHAINSUCCESSION | ABSENCE
  | COEXISTENCE | NONCOEXISTENCE | NONSUCCESSION | NONCHAINSUCCESSION.
Definition template_eqb (a b : template) : bool :=
  match a, b with
  | EXISTENCE, EXISTENCE | EXACTLY_ONE, EXACTLY_ONE | INIT, INIT | RESPONDED_EXISTENCE, RESPONDED_EXISTENCE
  | RESPONSE, RESPONSE | PRECEDENCE, PRECEDENCE | SUCCESSION, SUCCESSION | ALTRESPONSE, ALTRESPONSE
  | ALTPRECEDENCE, ALTPRECEDENCE | ALTSUCCESSION, ALTSUCCESSION | CHAINRESPONSE, CHAINRESPONSE
  | CHAINPRECEDENCE, CHAINPRECEDENCE | CHAINSUCCESSION, CHAINSUCCESSION | ABSENCE, ABSENCE
  | COEXISTENCE, COEXISTENCE | NONCOEXISTENCE, NONCOEXISTENCE | NONSUCCESSION, NONSUCCESSION
  | NONCHAINSUCCESSION, NONCHAINSUCCESSION => true
  | _, _ => false
  end.
Lemma template_eqb_spec a b : reflect (a = b) (template_eqb a b).
Proof. destruct a, b; cbn; constructor; congruence. Qed.
#[export] Instance key_template : Key template := {| keqb := template_eqb; keqb_spec := template_eqb_spec |}.
(** The key of a constraint: an activity act for the unary templates, a couple (act, act2) for the others; here
    a unary key is the couple (act, act).  A DECLARE model maps templates to the keys of its constraints (the
    support and confidence of a constraint are not used in conformance checking). *)
Definition decl := dict template (list (nat * nat)).
Definition key := (nat * nat)%type.
Definition dev := (template * key)%type.
Definition keys_of (m : decl) (T : template) : list key := match d_get m T with Some l => l | None => [] end.
Definition mem (a : nat) (t : trace) : bool := existsb (Nat.eqb a) t.

(** classic.py:274-279: act_idxs, the positions of each activity *)
Definition act_idxs (t : trace) : dict nat (list nat) :=
  fold_left (fun d ia => let d := if d_mem d (snd ia) then d else d_set d (snd ia) [] in
                         d_set d (snd ia) (match d_get d (snd ia) with Some l => l | None => [] end ++ [fst ia]))
            (combine (seq 0 (length t)) t) [].
Definition idxs (d : dict nat (list nat)) (a : nat) : list nat := match d_get d a with Some l => l | None => [] end.
(** max(l), min(l) of a non-empty list *)
Definition pmax (l : list nat) : nat := match l with [] => 0 | x :: r => fold_left Nat.max r x end.
Definition pmin (l : list nat) : nat := match l with [] => 0 | x :: r => fold_left Nat.min r x end.

(** The checks, one per constraint: true if the constraint (a, b) is reported as deviation.
    classic.py:32-37 *)
Definition bad_existence (t : trace) (k : key) : bool := negb (mem (fst k) t).
(** classic.py:40-45 *)
Definition bad_absence (t : trace) (k : key) : bool := mem (fst k) t.
(** classic.py:48-54 *)
Definition bad_exactly_one (t : trace) (k : key) : bool := negb (Nat.eqb (c_get (c_of t) (fst k)) 1).
(** classic.py:57-62 *)
Definition bad_init (t : trace) (k : key) : bool := match t with [] => true | x :: _ => negb (Nat.eqb x (fst k)) end.
(** classic.py:65-70 *)
Definition bad_responded_existence (t : trace) (k : key) : bool := mem (fst k) t && negb (mem (snd k) t).
(** classic.py:73-79 *)
Definition bad_coexistence (t : trace) (k : key) : bool :=
  (mem (fst k) t && negb (mem (snd k) t)) || (mem (snd k) t && negb (mem (fst k) t)).
(** classic.py:82-87 *)
Definition bad_non_coexistence (t : trace) (k : key) : bool := mem (fst k) t && mem (snd k) t.
(** classic.py:90-96 *)
Definition bad_response (t : trace) (k : key) : bool :=
  mem (fst k) t && (negb (mem (snd k) t) || Nat.ltb (pmax (idxs (act_idxs t) (snd k))) (pmax (idxs (act_idxs t) (fst k)))).
(** classic.py:99-105 *)
Definition bad_precedence (t : trace) (k : key) : bool :=
  mem (snd k) t && (negb (mem (fst k) t) || Nat.ltb (pmin (idxs (act_idxs t) (snd k))) (pmin (idxs (act_idxs t) (fst k)))).
(** classic.py:108-114 *)
Definition bad_succession (t : trace) (k : key) : bool :=
  (negb (mem (fst k) t) || negb (mem (snd k) t))
  || Nat.ltb (pmin (idxs (act_idxs t) (snd k))) (pmin (idxs (act_idxs t) (fst k)))
  || Nat.ltb (pmax (idxs (act_idxs t) (snd k))) (pmax (idxs (act_idxs t) (fst k))).
(** e.g. classic.py:122-127: the occurrences of the two activities, sorted by position *)
Definition spec_idxs (t : trace) (k : key) : list (nat * nat) :=
  sorted_by (fun x => Z.of_nat (snd x))
    ((if mem (fst k) t then map (fun i => (fst k, i)) (idxs (act_idxs t) (fst k)) else []) ++
     (if mem (snd k) t then map (fun i => (snd k, i)) (idxs (act_idxs t) (snd k)) else [])).
(** e.g. classic.py:128-132: drop the leading elements that are not act_couple[0] *)
Fixpoint drop_first (a : nat) (l : list (nat * nat)) : list (nat * nat) :=
  match l with [] => [] | x :: r => if negb (Nat.eqb (fst x) a) then drop_first a r else l end.
(** e.g. classic.py:180-184: drop the first element until the second one is act_couple[1] *)
Fixpoint drop_second (b : nat) (l : list (nat * nat)) : list (nat * nat) :=
  match l with
  | x :: (y :: _) as r => if negb (Nat.eqb (fst y) b) then drop_second b r else l
  | _ => l
  end.
(** e.g. classic.py:133-138 (alternate) and 159-164 (chain): the loop that computes is_ok *)
Definition pairs_ok (chain : bool) (k : key) (l : list (nat * nat)) : bool :=
  forallb (fun i => negb (Nat.even i &&
    (negb (Nat.eqb (fst (nth i l (0, 0))) (fst k)) || Nat.eqb i (length l - 1) || negb (Nat.eqb (fst (nth (i + 1) l (0, 0))) (snd k))
     || (chain && negb (Nat.eqb (snd (nth (i + 1) l (0, 0))) (snd (nth i l (0, 0)) + 1)))))) (seq 0 (length l)).
(** classic.py:117-140, 143-166 *)
Definition bad_alt_response (chain : bool) (t : trace) (k : key) : bool := negb (pairs_ok chain k (drop_first (fst k) (spec_idxs t k))).
(** classic.py:169-192, 195-218 *)
Definition bad_alt_precedence (chain : bool) (t : trace) (k : key) : bool := negb (pairs_ok chain k (drop_second (snd k) (spec_idxs t k))).
(** classic.py:221-239, 242-260 *)
Definition bad_alt_succession (chain : bool) (t : trace) (k : key) : bool := negb (pairs_ok chain k (spec_idxs t k)).

(** "if T in model: for key in model[T']: if bad: deviations.append([T, key])"; T' differs from T only in
    __check_alt_response (line 121), where model[RESPONSE] may raise a KeyError. *)
Definition check (m : decl) (T T' : template) (bad : key -> bool) : option (list dev) :=
  if d_mem m T then match d_get m T' with
                    | Some l => Some (map (fun k => (T, k)) (filter bad l))
                    | None => None
                    end
  else Some [].
(** classic.py:284-300: the calls, in this order; __check_non_coexistence is called twice *)
Definition checks (m : decl) (t : trace) : list (option (list dev)) :=
  [check m EXISTENCE EXISTENCE (bad_existence t); check m EXACTLY_ONE EXACTLY_ONE (bad_exactly_one t);
   check m INIT INIT (bad_init t); check m RESPONDED_EXISTENCE RESPONDED_EXISTENCE (bad_responded_existence t);
   check m COEXISTENCE COEXISTENCE (bad_coexistence t); check m NONCOEXISTENCE NONCOEXISTENCE (bad_non_coexistence t);
   check m RESPONSE RESPONSE (bad_response t); check m PRECEDENCE PRECEDENCE (bad_precedence t);
   check m SUCCESSION SUCCESSION (bad_succession t); check m ALTRESPONSE RESPONSE (bad_alt_response false t);
   check m CHAINRESPONSE CHAINRESPONSE (bad_alt_response true t); check m ALTPRECEDENCE ALTPRECEDENCE (bad_alt_precedence false t);
   check m CHAINPRECEDENCE CHAINPRECEDENCE (bad_alt_precedence true t); check m ALTSUCCESSION ALTSUCCESSION (bad_alt_succession false t);
   check m CHAINSUCCESSION CHAINSUCCESSION (bad_alt_succession true t); check m ABSENCE ABSENCE (bad_absence t);
   check m NONCOEXISTENCE NONCOEXISTENCE (bad_non_coexistence t)].
Record declres := Dres { d_devs : list dev; d_total : nat; d_fitness : Q; d_fit : bool }.
Fixpoint opt_concat {A} (l : list (option (list A))) : option (list A) :=
  match l with
  | [] => Some []
  | None :: _ => None
  | Some x :: r => match opt_concat r with Some y => Some (x ++ y) | None => None end
  end.
(** classic.py:263-309 apply_list, for one trace.  [None]: KeyError of line 121 or ZeroDivisionError of line 303. *)
Definition check_trace (m : decl) (t : trace) : option declres :=
  let total := list_sum (map (fun kv => length (snd kv)) m) in
  match opt_concat (checks m t) with
  | None => None
  | Some devs => if Nat.eqb total 0 then None else
      Some (Dres devs total (1 - inject_Z (Z.of_nat (length devs)) / inject_Z (Z.of_nat total)) (Nat.eqb (length devs) 0))
  end.
Definition apply_list (m : decl) (l : log) : list (option declres) := map (check_trace m) l.
