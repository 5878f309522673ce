(** Model of pm4py/statistics/concurrent_activities/log/get.py, statistics/eventually_follows/log/get.py and uvcl/get.py,
    statistics/traces/cycle_time/util/compute.py, statistics/overlap/utils/compute.py and overlap/cases/log/get.py.
    Simplifications: activities are numbers; a timestamp is an integer number of some unit of time (floats are not
    modelled); Python's sorted is [sorted_by] of Model_Lev (stable). *)
From Coq Require Import List Arith ZArith QArith Bool.
Import ListNotations.
From Verif Require Import Model_Dict Model_Lev.
Local Open Scope Z_scope.

(** An event of an interval log: activity, start timestamp, (completion) timestamp. *)
Record iev := Iev { ie_act : nat; ie_start : Z; ie_end : Z }.
Definition itrace := list iev.
Definition ilog := list itrace.

(** tuple(sorted((act1, act2))) *)
Definition sorted_pair (a b : nat) : nat * nat := if Nat.leb a b then (a, b) else (b, a).
(** concurrent_activities/log/get.py:70-84: the inner while loop, over the events behind [e1]. *)
Fixpoint conc_inner (strict : bool) (e1 : iev) (rest : itrace) (d : @counter (nat * nat)) : @counter (nat * nat) :=
  match rest with
  | [] => d
  | e2 :: r =>
      let lo := Z.max (ie_start e1) (ie_start e2) in
      let hi := Z.min (ie_end e1) (ie_end e2) in
      if lo <=? hi then
        conc_inner strict e1 r (if negb strict || (lo <? hi) then c_add d (sorted_pair (ie_act e1) (ie_act e2)) 1 else d)
      else d
  end.
(** lines 65-85: the outer loop over one sorted trace *)
Fixpoint conc_outer (strict : bool) (t : itrace) (d : @counter (nat * nat)) : @counter (nat * nat) :=
  match t with
  | [] => d
  | e1 :: r => conc_outer strict r (conc_inner strict e1 r d)
  end.
(** lines 62-87; line 64 sorts the trace by start timestamp *)
Definition concurrent_activities (strict : bool) (l : ilog) : @counter (nat * nat) :=
  fold_left (fun d t => conc_outer strict (sorted_by ie_start t) d) l [].

(** eventually_follows/log/get.py:54-66 *)
Fixpoint efg_inner (first : bool) (e1 : iev) (rest : itrace) (d : @counter (nat * nat)) : @counter (nat * nat) :=
  match rest with
  | [] => d
  | e2 :: r =>
      if ie_end e1 <=? ie_start e2 then
        let d' := c_add d (ie_act e1, ie_act e2) 1 in
        if first then d' else efg_inner first e1 r d'
      else efg_inner first e1 r d
  end.
Fixpoint efg_outer (first : bool) (t : itrace) (d : @counter (nat * nat)) : @counter (nat * nat) :=
  match t with
  | [] => d
  | e1 :: r => efg_outer first r (efg_inner first e1 r d)
  end.
(** lines 46-69; [first] = keep_first_following *)
Definition eventually_follows (first : bool) (l : ilog) : @counter (nat * nat) :=
  fold_left (fun d t => efg_outer first (sorted_by ie_start t) d) l [].

(** eventually_follows/uvcl/get.py:39-54: the same on a dictionary from variants to frequencies *)
Fixpoint uvcl_inner (a : nat) (rest : list nat) (freq : nat) (d : @counter (nat * nat)) : @counter (nat * nat) :=
  match rest with [] => d | b :: r => uvcl_inner a r freq (c_add d (a, b) freq) end.
Fixpoint uvcl_outer (t : list nat) (freq : nat) (d : @counter (nat * nat)) : @counter (nat * nat) :=
  match t with [] => d | a :: r => uvcl_outer r freq (uvcl_inner a r freq d) end.
Definition eventually_follows_uvcl (v : @counter (list nat)) : @counter (nat * nat) :=
  fold_left (fun d tf => uvcl_outer (fst tf) (snd tf) d) v [].

(** cycle_time/util/compute.py:51-61: the loop; the state is (st, et, production_time). *)
Definition ct_step (s : Z * Z * Z) (x : Z * Z) : Z * Z * Z :=
  let '(st, et, p) := s in
  let '(a, b) := x in
  if et <? a then (a, Z.max et b, p + (et - st)) else (st, Z.max et b, p).
(** compute.py:21-63 [cycle_time]; None = the IndexError of an empty list or the ZeroDivisionError; sorting by the pair is
    stable sorting by the second and then by the first component. *)
Definition cycle_time (events : list (Z * Z)) (num_instances : nat) : option Q :=
  match sorted_by fst (sorted_by snd events) with
  | [] => None
  | (a, b) :: r =>
      let '(_, _, p) := fold_left ct_step r (a, b, 0) in
      match num_instances with O => None | _ => Some (inject_Z p / inject_Z (Z.of_nat num_instances))%Q end
  end.

(** overlap/cases/log/get.py:58-63: first start and last completion of a case; None = min() of an empty case. *)
Definition case_point (t : itrace) : option (Z * Z) :=
  match t with
  | [] => None
  | e :: r => Some (fold_left (fun m x => Z.min m (ie_start x)) r (ie_start e), fold_left (fun m x => Z.max m (ie_end x)) r (ie_end e))
  end.
(** overlap/utils/compute.py:47-58; the interval tree is a set of intervals: adding an interval [a, b] with b <= a raises
    ValueError, and tree[a:b] is the set of intervals with begin < b and end > a, empty if b <= a. *)
Definition tree_overlap (tree : list (Z * Z)) (p : Z * Z) : list (Z * Z) :=
  if snd p <=? fst p then [] else filter (fun q => (fst q <? snd p) && (fst p <? snd q)) tree.
#[export] Instance key_Z2 : Key Z := {| keqb := Z.eqb; keqb_spec := Z.eqb_spec |}.
Definition overlap (eps : Z) (points : list (Z * Z)) : option (list nat) :=
  let points := map (fun x => (fst x - eps, snd x + eps)) points in
  if existsb (fun p => snd p <=? fst p) points then None
  else let tree := dedup (sorted_by fst (sorted_by snd points)) in
       Some (map (fun p => length (tree_overlap tree p)) points).
Fixpoint points_of (l : ilog) : option (list (Z * Z)) :=
  match l with
  | [] => Some []
  | t :: r => match case_point t, points_of r with Some p, Some q => Some (p :: q) | _, _ => None end
  end.
Definition case_overlap (eps : Z) (l : ilog) : option (list nat) :=
  match points_of l with Some ps => overlap eps ps | None => None end.
