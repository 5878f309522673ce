(** Organizational roles (pm4py.discover_organizational_roles): pm4py/algo/organizational_mining/roles/common/algorithm.py, called from
    roles/variants/log.py and roles/variants/pandas.py with the Counter of the (resource, activity) pairs of the events.
    Simplifications: resources and activities are numbers; floats are rationals; the sorting of roles by their names ([ord]) is any
    permutation, the sorting of the candidate pairs ([srt]) is any sorting by decreasing similarity (ties are broken by names in the code);
    the loop has a fuel (None when it runs out). *)
From Coq Require Import List Arith ZArith QArith Qminmax Bool.
Import ListNotations.
From Verif Require Import Model_Lev Model_Dict.

Definition role := (list nat * @counter nat)%type.
Definition qn (n : nat) : Q := inject_Z (Z.of_nat n).
(** algorithm.py:32-47 get_sum_from_dictio_values *)
Definition dict_sum (d : dict nat Q) : Q := fold_right Qplus 0%Q (map snd d).
Definition count_sum (d : @counter nat) : Q := fold_right Qplus 0%Q (map (fun kv => qn (snd kv)) d).
(** 50-73 normalize_role *)
Definition normalize (d : @counter nat) : dict nat Q := map (fun kv => (fst kv, qn (snd kv) / count_sum d)%Q) d.
(** 76-106 find_multiset_intersection *)
Definition inter (d1 d2 : dict nat Q) : dict nat Q :=
  flat_map (fun kv => match d_get d2 (fst kv) with Some w => [(fst kv, Qmin (snd kv) w)] | None => [] end) d1.
(** 109-145 find_multiset_union *)
Definition union (d1 d2 : dict nat Q) : dict nat Q :=
  map (fun kv => match d_get d2 (fst kv) with Some w => (fst kv, Qmax (snd kv) w) | None => kv end) d1 ++
  filter (fun kv => negb (d_mem d1 (fst kv))) d2.
(** 148-175 find_role_similarity *)
Definition role_similarity (r1 r2 : role) : Q :=
  (dict_sum (inter (normalize (snd r1)) (normalize (snd r2))) / dict_sum (union (normalize (snd r1)) (normalize (snd r2))))%Q.
(** Counter.__add__: sums, without the elements that are not positive *)
Definition c_plus (d1 d2 : @counter nat) : @counter nat :=
  filter (fun kv => Nat.ltb 0 (snd kv)) (map (fun kv => (fst kv, snd kv + c_get d2 (fst kv))%nat) d1) ++
  filter (fun kv => Nat.ltb 0 (snd kv) && negb (d_mem d1 (fst kv))) d2.
Definition cand := (nat * nat * Q)%type.
(** 197-201: all pairs i < j with their similarity *)
Definition cands (roles : list role) : list cand :=
  flat_map (fun i => flat_map (fun j => match nth_error roles i, nth_error roles j with Some r1, Some r2 => [(i, j, role_similarity r1 r2)] | _, _ => [] end)
    (seq (S i) (length roles - S i))) (seq 0 (length roles)).
(** del roles[i] *)
Definition del {X} (i : nat) (l : list X) : list X := firstn i l ++ skipn (S i) l.
Section Roles.
  Variable srt : list cand -> list cand.
  Variable ord : list role -> list role.
  Variable theta : Q.
  (** 178-228 aggregate_roles_iteration *)
  Definition agg_iteration (roles : list role) : list role * bool :=
    match srt (cands roles) with
    | (i, j, s) :: _ =>
      if negb (Qle_bool s theta) then
        match nth_error roles i, nth_error roles j with
        | Some r1, Some r2 =>
          (ord (del (j - 1) (del i roles) ++ [(sorted_by Z.of_nat (dedup (fst r1 ++ fst r2)), c_plus (snd r1) (snd r2))]), true)
        | _, _ => (roles, false)
        end
      else (roles, false)
    | [] => (roles, false)
    end.
  (** 231-251 aggregate_roles_algorithm *)
  Fixpoint agg_loop (fuel : nat) (roles : list role) : option (list role) :=
    match fuel with
    | O => None
    | S n => let (r, found) := agg_iteration roles in if found then agg_loop n r else Some r
    end.
  (** 274-289: one role per activity *)
  Definition init_step (m : dict nat (@counter nat)) (kv : (nat * nat) * nat) : dict nat (@counter nat) :=
    let c := match d_get m (snd (fst kv)) with Some c => c | None => [] end in
    d_set m (snd (fst kv)) (if d_mem c (fst (fst kv)) then c else d_set c (fst (fst kv)) (snd kv)).
  Definition init_roles (couples : @counter (nat * nat)) : list role := map (fun kv => ([fst kv], snd kv)) (fold_left init_step couples []).
  (** 254-297 get_initial_roles, 300-328 apply *)
  Definition roles_of (couples : @counter (nat * nat)) : option (list role) :=
    option_map ord (agg_loop (S (length (init_roles couples))) (ord (init_roles couples))).
  (** roles/variants/log.py:53-62: the events with their resource and activity *)
  Definition discover_roles (events : list (nat * nat)) : option (list role) := roles_of (c_of events).
End Roles.
