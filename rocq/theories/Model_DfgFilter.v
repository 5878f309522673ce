(** algo/filtering/dfg/dfg_filtering.py.  Activities are numbers, ordered as their names are; start_node and
    end_node (two fixed strings, lines 48-49) are the numbers [sn] and [en]. *)
From Coq Require Import List Arith Bool ZArith QArith Qround.
Import ListNotations.
From Verif Require Import Model_Dict Model_Graph.
Local Open Scope nat_scope.

(** A DFG with its start activities, end activities and activities count *)
Record fdfg := FD { f_dfg : dict (nat * nat) nat; f_start : dict nat nat; f_end : dict nat nat; f_act : dict nat nat }.

(** sorted(l, key=..., reverse=True), with [ge x y] iff key(x) >= key(y) *)
Section Sort.
  Context {A : Type} (ge : A -> A -> bool).
  Fixpoint ins (x : A) (l : list A) : list A := match l with [] => [x] | y :: r => if ge x y then x :: l else y :: ins x r end.
  Definition sort_desc (l : list A) : list A := fold_right ins [] l.
End Sort.
(** key=lambda x: (x[1], x[0]) of lines 102 and 252 *)
Definition act_ge (x y : nat * nat) : bool := Nat.ltb (snd y) (snd x) || (Nat.eqb (snd x) (snd y) && Nat.leb (fst y) (fst x)).
Definition edge_ge (x y : (nat * nat) * nat) : bool :=
  Nat.ltb (snd y) (snd x) || (Nat.eqb (snd x) (snd y) &&
    (Nat.ltb (fst (fst y)) (fst (fst x)) || (Nat.eqb (fst (fst x)) (fst (fst y)) && Nat.leb (snd (fst y)) (snd (fst x))))).
(** math.ceil((n - 1) * percentage) + 1 (lines 106, 109, 255, 256), for a non-negative percentage; a rational number
    in place of a float *)
Definition num_keep (n : nat) (p : Q) : nat := Z.to_nat (Qceiling (inject_Z (Z.of_nat (n - 1)) * p)) + 1.

Section Filter.
  Variables sn en : nat.
  (** dfg_filtering.py:26-63 generate_nx_graph_from_dfg: the edges *)
  Definition graph_of (d : fdfg) : list edge :=
    d_keys (f_dfg d) ++ map (fun a => (sn, a)) (d_keys (f_start d)) ++ map (fun a => (a, en)) (d_keys (f_end d)).
  (** new_graph.remove_node(act) *)
  Definition remove_node (act : nat) (g : list edge) : list edge := filter (fun e => negb (Nat.eqb (fst e) act) && negb (Nat.eqb (snd e) act)) g.
  (** new_graph.remove_edge(u, v) *)
  Definition remove_edge (e : edge) (g : list edge) : list edge := filter (fun e' => negb (keqb e' e)) g.
  (** lines 118-121, 168-172 *)
  Definition all_connected (g : list edge) (keep : list nat) : bool := subset keep (descendants g sn) && subset keep (ancestors g en).
  (** {x: y for x, y in dfg.items() if x[0] != act and x[1] != act} *)
  Definition dfg_without (act : nat) (d : dict (nat * nat) nat) : dict (nat * nat) nat :=
    filter (fun kv => negb (Nat.eqb (fst (fst kv)) act) && negb (Nat.eqb (snd (fst kv)) act)) d.
  (** lines 128-133, 147-152, 192-197 *)
  Definition remove_act (act : nat) (d : fdfg) : fdfg :=
    FD (dfg_without act (f_dfg d)) (d_del (f_start d) act) (d_del (f_end d) act) (d_del (f_act d) act).
  (** lines 114-134 *)
  Fixpoint act_loop (keep : list nat) (acts : list nat) (d : fdfg) (g : list edge) : fdfg * list edge :=
    match acts with
    | [] => (d, g)
    | act :: r =>
        let g' := remove_node act g in
        if all_connected g' keep && negb (is_nil (dfg_without act (f_dfg d))) then act_loop keep r (remove_act act d) g'
        else act_loop keep r d g
    end.
  (** lines 139-152, 182-197: remove the activities that are not between start and end (the iteration order over the
      set is irrelevant; here the order of activities_count) *)
  Definition remove_unreachable (d : fdfg) (g : list edge) : fdfg :=
    fold_left (fun d a => remove_act a d)
      (filter (fun a => negb (smem a (descendants g sn) && smem a (ancestors g en))) (d_keys (f_act d))) d.
  Definition big (d : fdfg) : bool := Nat.ltb 1 (length (f_act d)) && Nat.ltb 1 (length (f_dfg d)).
  (** dfg_filtering.py:66-154 *)
  Definition filter_dfg_on_activities_percentage (d : fdfg) (p : Q) : fdfg :=
    if big d then
      let l := map fst (sort_desc act_ge (f_act d)) in
      let k := num_keep (length (f_act d)) p in
      let '(d', g') := act_loop (firstn k l) (rev (skipn k l)) d (graph_of d) in
      remove_unreachable d' g'
    else d.

  (** lines 175-181 *)
  Definition delete_edge (e : edge) (d : fdfg) : fdfg :=
    if d_mem (f_dfg d) e then FD (d_del (f_dfg d) e) (f_start d) (f_end d) (f_act d)
    else if Nat.eqb (fst e) sn then FD (f_dfg d) (d_del (f_start d) (snd e)) (f_end d) (f_act d)
    else if Nat.eqb (snd e) en then FD (f_dfg d) (f_start d) (d_del (f_end d) (fst e)) (f_act d)
    else d.
  (** lines 159-181 *)
  Fixpoint path_loop (keep : list nat) (edges : list edge) (d : fdfg) (g : list edge) : fdfg * list edge :=
    match edges with
    | [] => (d, g)
    | e :: r =>
        if Nat.ltb 1 (length (f_dfg d)) && all_connected (remove_edge e g) keep
        then path_loop keep r (delete_edge e d) (remove_edge e g)
        else path_loop keep r d g
    end.
  (** dfg_filtering.py:157-202 *)
  Definition filter_specified_paths (d : fdfg) (g : list edge) (discardable : list edge) (keep : list nat) : fdfg :=
    let '(d', g') := path_loop keep discardable d g in
    let d'' := remove_unreachable d' g' in
    FD (filter (fun kv => d_mem (f_act d'') (fst (fst kv)) && d_mem (f_act d'') (snd (fst kv))) (f_dfg d'')) (f_start d'') (f_end d'') (f_act d'').
  (** lines 249-251 *)
  Definition all_edges (d : fdfg) : list (edge * nat) :=
    f_dfg d ++ map (fun kv => ((sn, fst kv), snd kv)) (f_start d) ++ map (fun kv => ((fst kv, en), snd kv)) (f_end d).
  (** lines 262-267 (347-350) *)
  Definition not_to_discard (keep_all : bool) (d : fdfg) (non_discardable : list edge) : list nat :=
    if keep_all then map fst (d_keys (f_dfg d)) ++ map snd (d_keys (f_dfg d)) ++ d_keys (f_start d) ++ d_keys (f_end d) ++ d_keys (f_act d)
    else filter (fun x => negb (Nat.eqb x sn)) (map fst non_discardable) ++ filter (fun x => negb (Nat.eqb x en)) (map snd non_discardable).
  (** dfg_filtering.py:205-276 *)
  Definition filter_dfg_on_paths_percentage (d : fdfg) (p : Q) (keep_all : bool) : fdfg :=
    if big d then
      let l := map fst (sort_desc edge_ge (all_edges d)) in
      let k := num_keep (length (all_edges d)) p in
      filter_specified_paths d (graph_of d) (rev (skipn k l)) (not_to_discard keep_all d (firstn k l))
    else d.

  (** lines 324-331 *)
  Definition dependency (dfg : dict (nat * nat) nat) (e : edge) : Q :=
    let q n := inject_Z (Z.of_nat n) in
    let v := match d_get dfg e with Some n => n | None => 0 end in
    match d_get dfg (snd e, fst e) with
    | Some w => ((q v - q w) / (q v + q w + 1))%Q
    | None => (q v / (q v + 1))%Q
    end.
  (** lines 333-339; the sort (by dependency and name) is a permutation whose result matters only for the order in
      which the discardable edges are tried: [ord] is any function that permutes. *)
  Definition dep_edges (d : fdfg) : list (edge * Q) :=
    map (fun e => (e, dependency (f_dfg d) e)) (d_keys (f_dfg d)) ++ map (fun a => ((sn, a), 1%Q)) (d_keys (f_start d)) ++ map (fun a => ((a, en), 1%Q)) (d_keys (f_end d)).
  (** dfg_filtering.py:279-359 *)
  Definition filter_dfg_keep_connected (ord : list (edge * Q) -> list (edge * Q)) (d : fdfg) (thr : Q) (keep_all : bool) : fdfg :=
    if big d then
      let l := ord (dep_edges d) in
      let keepb := fun x : edge * Q => Qle_bool thr (snd x) in
      filter_specified_paths d (graph_of d) (rev (map fst (filter (fun x => negb (keepb x)) l))) (not_to_discard keep_all d (map fst (filter keepb l)))
    else d.
End Filter.

(** dfg_filtering.py:362-422.  [ord]: iteration order of sets; [None]: KeyError, or more than [fuel] iterations. *)
Section ToActivity.
  Variable ord : list nat -> list nat.
  Definition restrict_act (s : list nat) (d : dict nat nat) : dict nat nat := filter (fun kv => smem (fst kv) s) d.
  Definition restrict_dfg (s : list nat) (d : dict (nat * nat) nat) : dict (nat * nat) nat := filter (fun kv => smem (fst (fst kv)) s && smem (snd (fst kv)) s) d.
  Definition sfuel (acts : dict nat nat) : nat := S (length acts * length acts).
  Definition sinter (s t : list nat) : list nat := filter (fun x => smem x t) s.
  (** lines 410-413 *)
  Definition reach_from (succ : dict nat (list nat)) (l : list nat) : list nat := fold_left (fun s a => sadd (sunion s (sget succ a)) a) l [].
  (** lines 404-420 *)
  Fixpoint to_loop (fuel target : nat) (d : fdfg) : option fdfg :=
    match fuel with
    | O => None
    | S n =>
        match get_predecessors ord (sfuel (f_act d)) (d_keys (f_dfg d)) (d_keys (f_act d)), get_successors ord (sfuel (f_act d)) (d_keys (f_dfg d)) (d_keys (f_act d)) with
        | Some pred, Some succ =>
            let reachable := sunion (sinter (reach_from succ (d_keys (f_start d))) (sget pred target)) [target] in
            if negb (set_eqb reachable (d_keys (f_act d)))
            then to_loop n target (FD (restrict_dfg reachable (f_dfg d)) (restrict_act reachable (f_start d)) (f_end d) (restrict_act reachable (f_act d)))
            else Some d
        | _, _ => None
        end
    end.
  Definition filter_dfg_to_activity (d : fdfg) (target : nat) : option fdfg :=
    match d_get (f_act d) target with
    | None => None
    | Some c => to_loop (S (length (f_act d))) target
        (FD (filter (fun kv => negb (Nat.eqb (fst (fst kv)) target)) (f_dfg d)) (f_start d) [(target, c)] (f_act d))
    end.
  (** dfg_filtering.py:425-485 filter_dfg_from_activity *)
  Fixpoint from_loop (fuel source : nat) (d : fdfg) : option fdfg :=
    match fuel with
    | O => None
    | S n =>
        match get_predecessors ord (sfuel (f_act d)) (d_keys (f_dfg d)) (d_keys (f_act d)), get_successors ord (sfuel (f_act d)) (d_keys (f_dfg d)) (d_keys (f_act d)) with
        | Some pred, Some succ =>
            let reachable := sunion (sinter (reach_from pred (d_keys (f_end d))) (sget succ source)) [source] in
            if negb (set_eqb reachable (d_keys (f_act d)))
            then from_loop n source (FD (restrict_dfg reachable (f_dfg d)) (f_start d) (restrict_act reachable (f_end d)) (restrict_act reachable (f_act d)))
            else Some d
        | _, _ => None
        end
    end.
  Definition filter_dfg_from_activity (d : fdfg) (source : nat) : option fdfg :=
    match d_get (f_act d) source with
    | None => None
    | Some c => from_loop (S (length (f_act d))) source
        (FD (filter (fun kv => negb (Nat.eqb (snd (fst kv)) source)) (f_dfg d)) [(source, c)] (f_end d) (f_act d))
    end.
  (** dfg_filtering.py:488-551 filter_dfg_contain_activity; comparing the filtered dictionaries with the old ones
      amounts to comparing their sizes *)
  Fixpoint contain_loop (fuel act : nat) (d : fdfg) : option fdfg :=
    match fuel with
    | O => None
    | S n =>
        match get_predecessors ord (sfuel (f_act d)) (d_keys (f_dfg d)) (d_keys (f_act d)), get_successors ord (sfuel (f_act d)) (d_keys (f_dfg d)) (d_keys (f_act d)) with
        | Some pred, Some succ =>
            let p := sunion (sget pred act) [act] in
            let s := sunion (sget succ act) [act] in
            let st := restrict_act p (f_start d) in
            let ed := restrict_act s (f_end d) in
            let changed := negb (Nat.eqb (length st) (length (f_start d))) || negb (Nat.eqb (length ed) (length (f_end d))) in
            let reachable := sunion p s in
            if negb (set_eqb reachable (d_keys (f_act d)))
            then contain_loop n act (FD (restrict_dfg reachable (f_dfg d)) st ed (restrict_act reachable (f_act d)))
            else if changed then contain_loop n act (FD (f_dfg d) st ed (f_act d))
            else Some (FD (f_dfg d) st ed (f_act d))
        | _, _ => None
        end
    end.
  Definition filter_dfg_contain_activity (d : fdfg) (act : nat) : option fdfg :=
    if d_mem (f_act d) act then contain_loop (length (f_act d) + length (f_start d) + length (f_end d) + 1) act d else None.
End ToActivity.
