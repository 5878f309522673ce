(** Streaming conformance checking: footprints and temporal profile; and the batch temporal profile. *)
From Coq Require Import List Arith Bool.
Import ListNotations.
From Verif Require Import Model_Dict Model_Dfg.

(** * Footprints: streaming/algo/conformance/footprints/variants/classic.py *)
Record footprints := Fp { fp_acts : list nat; fp_starts : list nat; fp_ends : list nat; fp_pairs : list (nat * nat) }.
Definition mem {A} {K : Key A} (x : A) (l : list A) : bool := existsb (fun y => keqb y x) l.
Record fstate := FS { f_case : dict nat nat; f_dev : dict nat nat }.
Definition f_init : fstate := FS [] [].
(** self.dev_dict[case] = int(self.dev_dict[case]) + 1; the key is there whenever this line runs *)
Definition dev_incr (d : dict nat nat) (c : nat) : dict nat nat :=
  match d_get d c with Some n => d_set d c (n + 1) | None => d end.
(** classic.py:114-139 verify_footprints, with :141-158 verify_intra_case and :160-174 verify_start_case.
    The "case not in self.case_dict.keys()" of line 127 and of line 130 see the same dictionary. *)
Definition verify_footprints (fp : footprints) (s : fstate) (c a : nat) : fstate :=
  let dev := match d_get (f_case s) c with None => d_set (f_dev s) c 0 | Some _ => f_dev s end in
  if mem a (fp_acts fp) then
    let dev := match d_get (f_case s) c with
      | None => if mem a (fp_starts fp) then dev else dev_incr dev c
      | Some p => if mem (p, a) (fp_pairs fp) then dev else dev_incr dev c
      end in
    FS (d_set (f_case s) c a) dev
  else FS (f_case s) (dev_incr dev c).
(** classic.py:97-112 _process *)
Definition fp_process (fp : footprints) (s : fstate) (e : event) : fstate :=
  match e_case e, e_act e with
  | Some c, Some a => verify_footprints fp s c a
  | _, _ => s
  end.
Definition fp_run (fp : footprints) (evs : list event) : fstate := fold_left (fp_process fp) evs f_init.
(** classic.py:176-199 get_status: None for an unknown case *)
Definition get_status (s : fstate) (c : nat) : option bool :=
  match d_get (f_case s) c with
  | Some _ => match d_get (f_dev s) c with Some n => Some (Nat.eqb n 0) | None => None end
  | None => None
  end.
(** classic.py:201-228 terminate *)
Definition terminate (fp : footprints) (s : fstate) (c : nat) : option bool * fstate :=
  match d_get (f_case s) c with
  | Some curr =>
    let dev := if mem curr (fp_ends fp) then f_dev s else dev_incr (f_dev s) c in
    (match d_get dev c with Some n => Some (Nat.eqb n 0) | None => None end, FS (d_del (f_case s) c) (d_del dev c))
  | None => (None, s)
  end.

(** * Temporal profile *)
(** The numbers (times, averages): the operations the code uses, nothing is assumed about them here. *)
Class Num (N : Type) := {
  n_zero : N; n_max : N; n_add : N -> N -> N; n_sub : N -> N -> N; n_mul : N -> N -> N; n_div : N -> N -> N; n_abs : N -> N;
  n_leb : N -> N -> bool; n_ltb : N -> N -> bool; n_mean : list N -> N; n_stdev : list N -> N }.
Section Temporal.
  Context {N : Type} {NN : Num N}.
  (** an event: activity, start timestamp, (end) timestamp *)
  Record tevent := TE { te_act : nat; te_start : N; te_end : N }.
  Definition ttrace := list tevent.
  Definition profile := dict (nat * nat) (N * N).
  (** algo/discovery/temporal_profile/variants/log.py:84-101: the recordings of one pair of events (i before j);
      business_hours = False *)
  Definition recordings_pair (d : dict (nat * nat) (list N)) (ei ej : tevent) : dict (nat * nat) (list N) :=
    if n_leb (te_end ei) (te_start ej) then
      let k := (te_act ei, te_act ej) in
      let d := match d_get d k with None => d_set d k [] | Some _ => d end in
      match d_get d k with Some l => d_set d k (l ++ [n_sub (te_start ej) (te_end ei)]) | None => d end
    else d.
  (** the loops "for i in range(len(trace) - 1): for j in range(i + 1, len(trace))" as a recursion over suffixes *)
  Fixpoint recordings_trace (d : dict (nat * nat) (list N)) (t : ttrace) : dict (nat * nat) (list N) :=
    match t with
    | [] => d
    | ei :: r => recordings_trace (fold_left (fun d ej => recordings_pair d ei ej) r d) r
    end.
  Definition recordings (l : list ttrace) : dict (nat * nat) (list N) := fold_left recordings_trace l [].
  (** log.py:103-110 *)
  Definition discover_profile (l : list ttrace) : profile :=
    map (fun kr => (fst kr,
      if Nat.ltb 1 (length (snd kr)) then (n_mean (snd kr), n_stdev (snd kr)) else (nth 0 (snd kr) n_zero, n_zero))) (recordings l).

  (** algo/conformance/temporal_profile/variants/log.py:92-115: one pair of events, i before j *)
  Definition deviation := (nat * nat * N * N)%type.
  Definition check_pair (p : profile) (zeta : N) (ei ej : tevent) : list deviation :=
    if n_leb (te_end ei) (te_start ej) then
      match d_get p (te_act ei, te_act ej) with
      | None => []
      | Some (mean, std) =>
        let diff := n_sub (te_start ej) (te_end ei) in
        if n_ltb diff (n_sub mean (n_mul zeta std)) || n_ltb (n_add mean (n_mul zeta std)) diff then
          let this_zeta := if n_ltb n_zero std then n_div (n_abs (n_sub diff mean)) std else n_max in
          [(te_act ei, te_act ej, diff, this_zeta)]
        else []
      end
    else [].
  Fixpoint check_trace (p : profile) (zeta : N) (t : ttrace) : list deviation :=
    match t with
    | [] => []
    | ei :: r => concat (map (check_pair p zeta ei) r) ++ check_trace p zeta r
    end.
  (** log.py:86-119 apply *)
  Definition conformance (p : profile) (zeta : N) (l : list ttrace) : list (list deviation) := map (check_trace p zeta) l.

  (** streaming/algo/conformance/temporal/variants/classic.py; json encoding and decoding are the identity *)
  Record tstate := TS { t_case : dict nat ttrace; t_dev : dict nat (list deviation) }.
  Definition t_init : tstate := TS [] [].
  (** an incoming event; None if the case, activity or a timestamp is missing *)
  Definition sevent := option (nat * tevent).
  (** classic.py:90-137 _process and check_conformance *)
  Definition t_process (p : profile) (zeta : N) (s : tstate) (e : sevent) : tstate :=
    match e with
    | None => s
    | Some (c, e) =>
      let '(cd, dd) := match d_get (t_case s) c with
        | None => (d_set (t_case s) c [], d_set (t_dev s) c [])
        | Some _ => (t_case s, t_dev s)
        end in
      let prev := match d_get cd c with Some l => l | None => [] end in
      let dd := fold_left (fun dd ei =>
          fold_left (fun dd dv => match d_get dd c with Some l => d_set dd c (l ++ [dv]) | None => dd end) (check_pair p zeta ei e) dd) prev dd in
      TS (d_set cd c (prev ++ [e])) dd
    end.
  Definition t_run (p : profile) (zeta : N) (evs : list sevent) : tstate := fold_left (t_process p zeta) evs t_init.
  (** classic.py:158-172 _current_result: the cases with deviations *)
  Definition t_result (s : tstate) : dict nat (list deviation) := filter (fun kv => negb (Nat.eqb (length (snd kv)) 0)) (t_dev s).
End Temporal.
Arguments tevent : clear implicits.
Arguments sevent : clear implicits.
Arguments deviation : clear implicits.
Arguments profile : clear implicits.
Arguments ttrace : clear implicits.
