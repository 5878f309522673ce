(** Graphs: networkx reachability and objects/dfg/utils/dfg_utils.py:819-902.  Nodes are numbers, sets are
    duplicate-free lists, a graph is the list of its edges (isolated nodes do not matter here). *)
From Coq Require Import List Arith Bool.
Import ListNotations.
From Verif Require Import Model_Dict.

Definition edge := (nat * nat)%type.
Definition smem (x : nat) (s : list nat) : bool := existsb (Nat.eqb x) s.
Definition sadd (s : list nat) (x : nat) : list nat := if smem x s then s else s ++ [x].
Definition sunion (s t : list nat) : list nat := fold_left sadd t s.
Definition sdiff (s t : list nat) : list nat := filter (fun x => negb (smem x t)) s.
Definition subset (s t : list nat) : bool := forallb (fun x => smem x t) s.
Definition set_eqb (s t : list nat) : bool := subset s t && subset t s.

(** networkx.descendants(G, s), networkx.ancestors(G, s) (util/nx_utils.py:50-55): the nodes reachable from s
    (that can reach s), without s.  networkx does a breadth-first search; here the set of the nodes found so far
    grows by one pass over the edges at a time, as many times as there are edges. *)
Definition pass (E : list edge) (s : list nat) : list nat :=
  fold_left (fun s e => if smem (fst e) s then sadd s (snd e) else s) E s.
Definition descendants (E : list edge) (v : nat) : list nat :=
  filter (fun x => negb (Nat.eqb x v)) (Nat.iter (length E) (pass E) [v]).
Definition flip (E : list edge) : list edge := map (fun e => (snd e, fst e)) E.
Definition ancestors (E : list edge) (v : nat) : list nat := descendants (flip E) v.

(** dfg_utils.py:819-859 get_successors.  [ord] is the order in which a Python set is iterated over.  [acts] is
    activities_model; the edges are assumed to be between these activities (KeyError otherwise). *)
Section Successors.
  Variable ord : list nat -> list nat.
  Definition sget (d : dict nat (list nat)) (x : nat) : list nat := match d_get d x with Some s => s | None => [] end.
  Record sstate := SS { s_prev : dict nat (list nat); s_curr : dict nat (list nat); s_changed : dict nat bool }.
  Definition chg (d : dict nat bool) (x : nat) : bool := match d_get d x with Some b => b | None => false end.
  (** dfg_utils.py:837-841 *)
  Definition s_init (E : list edge) (acts : list nat) : sstate :=
    SS (map (fun x => (x, [])) acts)
       (fold_left (fun c e => d_set c (fst e) (sadd (sget c (fst e)) (snd e))) E (map (fun x => (x, [])) acts))
       (map (fun x => (x, true)) acts).
  (** dfg_utils.py:845-853: diff, the new value of changed, and sthing_diff *)
  Definition s_diff (st : sstate) : dict nat (list nat) :=
    map (fun x => (x, sdiff (sget (s_curr st) x) (sget (s_prev st) x))) (filter (chg (s_changed st)) (d_keys (s_prev st))).
  Definition is_nil {A} (l : list A) : bool := match l with [] => true | _ => false end.
  Definition s_changed' (st : sstate) : dict nat bool :=
    fold_left (fun c xd => if is_nil (snd xd) then d_set c (fst xd) false else c) (s_diff st) (s_changed st).
  Definition sthing_diff (st : sstate) : bool := existsb (fun xd => negb (is_nil (snd xd))) (s_diff st).
  (** dfg_utils.py:857-858 *)
  Definition s_merge (x : nat) (c : dict nat (list nat)) (d : list nat) : dict nat (list nat) :=
    fold_left (fun c y => d_set c x (sunion (sget c x) (sget c y))) (ord d) c.
  (** dfg_utils.py:854-858 *)
  Definition s_round (st : sstate) : sstate :=
    SS (s_curr st)
       (fold_left (fun c xd => if chg (s_changed' st) (fst xd) then s_merge (fst xd) c (snd xd) else c) (s_diff st) (s_curr st))
       (s_changed' st).
  (** dfg_utils.py:842-859: the while loop, at most [fuel] iterations *)
  Fixpoint s_loop (fuel : nat) (st : sstate) : option (dict nat (list nat)) :=
    match fuel with
    | O => None
    | S n => if sthing_diff st then s_loop n (s_round st) else Some (s_curr (s_round st))
    end.
  Definition get_successors (fuel : nat) (E : list edge) (acts : list nat) : option (dict nat (list nat)) := s_loop fuel (s_init E acts).
  (** dfg_utils.py:862-902 get_predecessors: the same code on the reversed edges *)
  Definition get_predecessors (fuel : nat) (E : list edge) (acts : list nat) : option (dict nat (list nat)) := get_successors fuel (flip E) acts.
End Successors.
