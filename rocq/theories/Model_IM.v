(** The Inductive Miner on variant logs: algo/discovery/inductive (variants IM and IMf).
    Activities are numbers, in the order in which Python compares the labels; a log is a Counter of variants
    (UVCL, util/compression/dtypes.py); Python sets are duplicate-free lists, and [ord] is the order in which a set
    is iterated over (so next(iter(g)) is the head of [ord g]). *)
From Coq Require Import List Arith Bool ZArith QArith.
Import ListNotations.
From Verif Require Import Model_Dict Model_Dfg Model_Graph Model_Lev Model_Tree.
Local Open Scope nat_scope.

Definition uvcl := @counter trace.
Definition group := list nat.

Section IM.
  Variable ord : list nat -> list nat.

  (** networkx.connected_components (util/nx_utils.py:60-61) of an undirected graph: one component for each node, in
      the order of the nodes, that is in no component found before. *)
  Definition undirected (E : list edge) : list edge := E ++ flip E.
  Definition component (E : list edge) (v : nat) : group := v :: descendants (undirected E) v.
  Fixpoint components_from (E : list edge) (nodes seen : list nat) : list group :=
    match nodes with
    | [] => []
    | v :: r => if smem v seen then components_from E r seen
                else component E v :: components_from E r (seen ++ component E v)
    end.
  Definition connected_components (E : list edge) (nodes : list nat) : list group := components_from E nodes [].

  (** the edges of a DFG (objects/dfg/util.py:157-158 get_edges) *)
  Definition edges (g : dfg) : list edge := d_keys (graph g).

  (** ---- cuts/xor.py:37-58 ExclusiveChoiceCut.holds (objects/dfg/util.py:149-154 as_nx_graph) *)
  Definition xor_holds (g : dfg) : option (list group) :=
    let cs := connected_components (edges g) (ord (get_vertices g)) in
    if 2 <=? length cs then Some cs else None.
  (** the index of the largest number, the last one among equals: sorted(..., key=lambda x: (x[1], x[0]), reverse=True)[0][0] *)
  Fixpoint argmax_from (i : nat) (l : list nat) (best : nat * nat) : nat :=
    match l with
    | [] => snd best
    | c :: r => argmax_from (S i) r (if fst best <=? c then (c, i) else best)
    end.
  Definition argmax (l : list nat) : nat := argmax_from 0 l (0, 0).
  Definition proj (g : group) (t : trace) : trace := filter (fun e => smem e g) t.
  (** xor.py:64-77 ExclusiveChoiceCutUVCL.project.  The loop over the traces fills all the sublogs at once; here (and in
      the other projections) one loop over the traces for each sublog. *)
  Definition xor_index (groups : list group) (t : trace) : nat := argmax (map (fun g => length (proj g t)) groups).
  Definition xor_project (v : uvcl) (groups : list group) : list uvcl :=
    map (fun i => fold_left (fun (d : uvcl) tn =>
        if Nat.eqb (xor_index groups (fst tn)) i then c_add d (proj (nth i groups []) (fst tn)) (snd tn) else d) v [])
      (seq 0 (length groups)).

  (** ---- cuts/sequence.py:39-45 check_merge_condition (trans_succ: objects/dfg/util.py:101-129) *)
  Definition succ (E : list edge) (a b : nat) : bool := smem b (descendants E a).
  Definition related (E : list edge) (a b : nat) : bool :=
    (succ E a b && succ E b a) || (negb (succ E a b) && negb (succ E b a)).
  Definition check_merge (E : list edge) (g h : group) : bool := existsb (fun a => existsb (fun b => related E a b) h) g.
  (** sequence.py:48-59 merge_groups: the inner while loop for one group, then the outer one *)
  Fixpoint absorb (E : list edge) (g : group) (rest : list group) : group * list group :=
    match rest with
    | [] => (g, [])
    | h :: r => if check_merge E g h then absorb E (sunion g h) r
                else let '(g', r') := absorb E g r in (g', h :: r')
    end.
  Fixpoint merge_pass (E : list edge) (n : nat) (gs : list group) : list group :=
    match n, gs with
    | S n, g :: rest => let '(g', rest') := absorb E g rest in g' :: merge_pass E n rest'
    | _, _ => []
    end.
  Definition merge_groups (E : list edge) (gs : list group) : list group := merge_pass E (length gs) gs.
  (** sequence.py:82-85: until the number of groups does not change; each iteration but the last decreases it, so the
      number of groups bounds the number of iterations *)
  Fixpoint merge_loop (E : list edge) (fuel : nat) (gs : list group) : list group :=
    match fuel with
    | O => gs
    | S n => let gs' := merge_groups E gs in if Nat.eqb (length gs') (length gs) then gs' else merge_loop E n gs'
    end.
  (** sequence.py:87-88: the key of the sort *)
  Definition seq_key (E : list edge) (n : nat) (g : group) : Z :=
    let a := hd 0 (ord g) in Z.of_nat (length (ancestors E a)) + (Z.of_nat n - Z.of_nat (length (descendants E a))).
  (** sequence.py:62-90 SequenceCut.holds *)
  Definition seq_holds (g : dfg) : option (list group) :=
    let alphabet := ord (get_vertices g) in
    let groups := map (fun a => [a]) alphabet in
    match groups with
    | [] => None
    | _ =>
      let groups := merge_loop (edges g) (S (length groups)) groups in
      let groups := sorted_by (seq_key (edges g) (length alphabet)) groups in
      if 2 <=? length groups then Some groups else None
    end.

  (** sequence.py:95-117 StrictSequenceCut._skippable *)
  Definition skippable (p : nat) (g : dfg) (c : list group) : bool :=
    let n := length c in
    existsb (fun i => existsb (fun j => existsb (fun a => existsb (fun b => d_mem (graph g) (a, b)) (nth j c [])) (nth i c []))
                        (seq (p + 1) (n - (p + 1)))) (seq 0 p)
    || existsb (fun i => existsb (fun a => d_mem (start_acts g) a) (nth i c [])) (seq (p + 1) (n - (p + 1)))
    || existsb (fun i => existsb (fun a => d_mem (end_acts g) a) (nth i c [])) (seq 0 p).
  (** l[i] = x *)
  Fixpoint upd {X} (l : list X) (i : nat) (x : X) : list X :=
    match l, i with
    | [], _ => []
    | _ :: r, O => x :: r
    | y :: r, S i => y :: upd r i x
    end.
  (** sequence.py:152-157 _construct_alphabet_cluster_map *)
  Definition cluster_map (c : list group) : dict nat nat :=
    fold_left (fun d ig => fold_left (fun d a => d_set d a (fst ig)) (snd ig) d) (combine (seq 0 (length c)) c) [].
  (** sequence.py:131-136: mf and mt.  sys.maxsize is replaced by the number of groups, which is as good: the values are
      only compared with group indexes. *)
  Definition mf_mt (g : dfg) (c : list group) : list Z * list Z :=
    let M := Z.of_nat (length c) in
    let cmap := cluster_map c in
    let mf := map (fun G => if existsb (d_mem (start_acts g)) G then (- M)%Z else M) c in
    let mt := map (fun G => if existsb (d_mem (end_acts g)) G then M else (- M)%Z) c in
    fold_left (fun m ab =>
        let ia := c_get cmap (fst ab) in let ib := c_get cmap (snd ab) in
        (upd (fst m) ib (Z.min (nth ib (fst m) 0%Z) (Z.of_nat ia)), upd (snd m) ia (Z.max (nth ia (snd m) 0%Z) (Z.of_nat ib))))
      (edges g) (mf, mt).
  (** sequence.py:140-141: c[p] = c[p].union(c[q]); c[q] = set() *)
  Definition take (c : list group) (p q : nat) : list group := upd (upd c p (sunion (nth p c []) (nth q c []))) q [].
  (** sequence.py:139-142: q = p-1, p-2, ... ([q1] is q + 1) *)
  Fixpoint back (mt : list Z) (p q1 : nat) (c : list group) : list group :=
    match q1 with
    | O => c
    | S q => if (nth q mt 0 <=? Z.of_nat p)%Z then back mt p q (take c p q) else c
    end.
  (** sequence.py:143-147: q = p+1, p+2, ... ([k] iterations are left) *)
  Fixpoint forth (mf : list Z) (p k q : nat) (c : list group) : list group :=
    match k with
    | O => c
    | S k => if (Z.of_nat p <=? nth q mf 0)%Z then forth mf p k (S q) (take c p q) else c
    end.
  (** sequence.py:138-147: one iteration over p *)
  Definition strict_step (g : dfg) (m : list Z * list Z) (c : list group) (p : nat) : list group :=
    if skippable p g c
    then let c := back (snd m) p p c in forth (fst m) p (length (fst m) - (p + 1)) (p + 1) c
    else c.
  (** sequence.py:120-149 StrictSequenceCut.holds *)
  Definition nonempty (g : group) : bool := negb (is_nil g).
  Definition strict_holds (g : dfg) : option (list group) :=
    match seq_holds g with
    | Some c => let m := mf_mt g c in Some (filter nonempty (fold_left (strict_step g m) (seq 0 (length c)) c))
    | None => None
    end.

  (** sequence.py:185-203 _find_split_point: [t] is the part of the trace from index [i] on *)
  Fixpoint split_loop (g : group) (ignore : list nat) (t : trace) (i : nat) (cost least : Z) (pos : nat) : nat :=
    match t with
    | [] => pos
    | e :: r =>
      let cost := if smem e g then (cost - 1)%Z else if smem e ignore then cost else (cost + 1)%Z in
      if (cost <? least)%Z then split_loop g ignore r (i + 1) cost cost (i + 1) else split_loop g ignore r (i + 1) cost least pos
    end.
  Definition find_split_point (t : trace) (g : group) (start : nat) (ignore : list nat) : nat :=
    split_loop g ignore (skipn start t) start 0 0 start.
  (** sequence.py:166-181: the parts of one trace, one for each group *)
  Fixpoint seq_split (t : trace) (groups : list group) (split_point : nat) (act_union : list nat) : list trace :=
    match groups with
    | [] => []
    | g :: r =>
      let nsp := find_split_point t g split_point act_union in
      proj g (slice t split_point nsp) :: seq_split t r nsp (sunion act_union g)
    end.
  (** sequence.py:163-182 SequenceCutUVCL.project *)
  Definition seq_project (v : uvcl) (groups : list group) : list uvcl :=
    map (fun i => fold_left (fun (d : uvcl) tn => c_add d (nth i (seq_split (fst tn) groups 0 []) []) (snd tn)) v [])
      (seq 0 (length groups)).

  (** ---- cuts/concurrency.py:46-67: the first pair of groups (i, j) with two activities that are not connected in both
      directions; groups[i] is extended by groups[j], groups[j] deleted *)
  Definition disconnected (g : dfg) (x y : group) : bool :=
    existsb (fun a => existsb (fun b => negb (d_mem (graph g) (a, b)) || negb (d_mem (graph g) (b, a))) y) x.
  Fixpoint join_first (g : dfg) (x : group) (rest : list group) : option (group * list group) :=
    match rest with
    | [] => None
    | y :: r => if disconnected g x y then Some (sunion x y, r)
                else match join_first g x r with Some (x', r') => Some (x', y :: r') | None => None end
    end.
  Fixpoint par_step (g : dfg) (gs : list group) : option (list group) :=
    match gs with
    | [] => None
    | x :: r => match join_first g x r with
                | Some (x', r') => Some (x' :: r')
                | None => match par_step g r with Some r' => Some (x :: r') | None => None end
                end
    end.
  (** concurrency.py:45-67: while cont; every iteration removes a group, so their number bounds the iterations *)
  Fixpoint par_loop (g : dfg) (fuel : nat) (gs : list group) : list group :=
    match fuel with
    | O => gs
    | S n => match par_step g gs with Some gs' => par_loop g n gs' | None => gs end
    end.
  (** concurrency.py:70-81: groups without a start or without an end activity go to a neighbour.  The groups before
      index i are in [front], the nearest first, the others in [rest]. *)
  Definition has_start_end (g : dfg) (x : group) : bool :=
    existsb (d_mem (start_acts g)) x && existsb (d_mem (end_acts g)) x.
  Fixpoint par_settle (g : dfg) (fuel : nat) (front rest : list group) : list group :=
    match fuel, rest with
    | S n, x :: r =>
      if 1 <? length front + length rest then
        if has_start_end g x then par_settle g n (x :: front) r
        else match front, r with
             | f :: fs, _ => par_settle g n (sunion f x :: fs) r
             | [], y :: r' => par_settle g n [] (sunion y x :: r')
             | [], [] => [x]
             end
      else rev front ++ rest
    | _, _ => rev front ++ rest
    end.
  (** concurrency.py:35-83 ConcurrencyCut.holds *)
  Definition par_holds (g : dfg) : option (list group) :=
    let groups := map (fun a => [a]) (sorted_by Z.of_nat (get_vertices g)) in
    match groups with
    | [] => None
    | _ =>
      let groups := par_loop g (length groups) groups in
      let groups := sorted_by (fun x => Z.of_nat (length x)) groups in
      let groups := par_settle g (length groups) [] groups in
      if 2 <=? length groups then Some groups else None
    end.
  (** concurrency.py:89-96 ConcurrencyCutUVCL.project: the counts are assigned *)
  Definition par_project (v : uvcl) (groups : list group) : list uvcl :=
    map (fun g => fold_left (fun (d : uvcl) tn => d_set d (proj g (fst tn)) (snd tn)) v []) groups.

  (** ---- cuts/loop.py:117-129 and 131-144: the merge of the groups of a and b, at the front.  The last group that
      contains the activity is taken; every activity is in some group, so the Python None is never used. *)
  Definition group_of (a : nat) (groups : list group) : group := fold_left (fun r g => if smem a g then g else r) groups [].
  Definition merge_front (groups : list group) (ab : edge) : list group :=
    let ga := group_of (fst ab) groups in
    let gb := group_of (snd ab) groups in
    sunion ga gb :: filter (fun x => negb (set_eqb x ga) && negb (set_eqb x gb)) groups.
  (** loop.py:114-129 _exclude_sets_non_reachable_from_start; [s], [e]: the start and end activities *)
  Definition excl_start (g : dfg) (s e : list nat) (groups : list group) : list group :=
    fold_left (fun gs a => fold_left merge_front (filter (fun xb => Nat.eqb (fst xb) a) (edges g)) gs) (ord (sdiff s e)) groups.
  (** loop.py:131-144 _exclude_sets_no_reachable_from_end *)
  Definition excl_end (g : dfg) (s e : list nat) (groups : list group) : list group :=
    fold_left (fun gs b => fold_left merge_front (filter (fun ax => Nat.eqb (snd ax) b) (edges g)) gs) (ord (sdiff e s)) groups.
  (** loop.py:77-83, 99-105: the group has an activity with an edge to some but not to all the start activities
      (from some but not from all the end activities) *)
  Definition start_incomplete (g : dfg) (s : list nat) (x : group) : bool :=
    existsb (fun a => existsb (fun b => d_mem (graph g) (a, b)) s && existsb (fun b => negb (d_mem (graph g) (a, b))) s) x.
  Definition end_incomplete (g : dfg) (e : list nat) (x : group) : bool :=
    existsb (fun a => existsb (fun b => d_mem (graph g) (b, a)) e && existsb (fun b => negb (d_mem (graph g) (b, a))) e) x.
  (** loop.py:70-90, 92-112 _check_start_completeness, _check_end_completeness: such groups are merged with groups[0] *)
  Fixpoint complete (bad : group -> bool) (do : group) (redo : list group) : list group :=
    match redo with
    | [] => [do]
    | x :: r => if bad x then complete bad (sunion do x) r
                else match complete bad do r with d :: r' => d :: x :: r' | [] => [] end
    end.
  Definition check_complete (bad : group -> bool) (groups : list group) : list group :=
    match groups with [] => [] | do :: redo => complete bad do redo end.
  (** loop.py:147-155 _compute_connected_components *)
  Definition loop_components (g : dfg) (s e : list nat) : list group :=
    connected_components (filter (fun ab => negb (smem (fst ab) s || smem (fst ab) e || smem (snd ab) s || smem (snd ab) e)) (edges g))
      (sdiff (sdiff (ord (get_vertices g)) s) e).
  (** loop.py:39-68 LoopCut.holds *)
  Definition loop_holds (g : dfg) : option (list group) :=
    let s := d_keys (start_acts g) in
    let e := d_keys (end_acts g) in
    if is_nil (edges g) then None else
    let groups := sunion s e :: loop_components g s e in
    let groups := excl_start g s e groups in
    let groups := excl_end g s e groups in
    let groups := check_complete (start_incomplete g s) groups in
    let groups := check_complete (end_incomplete g e) groups in
    let groups := filter nonempty groups in
    if 2 <=? length groups then Some groups else None.
  (** loop.py:168-186: the do parts and the redo parts of a trace; an activity outside all the groups is skipped.
      A trace that ends with a redo part makes line 185 fail (a missing argument): [None]. *)
  Fixpoint loop_scan (do redo_acts : list nat) (t do_trace redo_trace : trace) : option (list trace * list trace) :=
    match t with
    | [] => if is_nil redo_trace then Some ([do_trace], []) else None
    | e :: r =>
      if smem e do then
        match loop_scan do redo_acts r (do_trace ++ [e]) [] with
        | Some (ds, rs) => Some (ds, if is_nil redo_trace then rs else redo_trace :: rs)
        | None => None
        end
      else if smem e redo_acts then
        match loop_scan do redo_acts r [] (redo_trace ++ [e]) with
        | Some (ds, rs) => Some (if is_nil do_trace then ds else do_trace :: ds, rs)
        | None => None
        end
      else loop_scan do redo_acts r do_trace redo_trace
    end.
  (** loop.py:191-199 _append_trace_to_redo_log: the group with the largest intersection, the last among equals *)
  Definition redo_index (redo : list group) (t : trace) : nat :=
    argmax (map (fun g => length (filter (fun a => smem a g) (dedup t))) redo).
  (** loop.py:160-189 LoopCutUVCL.project *)
  Definition loop_project (v : uvcl) (groups : list group) : option (list uvcl) :=
    match groups with
    | [] => None
    | do :: redo =>
      match map_opt (fun tn => match loop_scan do (concat redo) (fst tn) [] [] with
                               | Some dr => Some (dr, snd tn) | None => None end) v with
      | None => None
      | Some parts =>
        let do_log := fold_left (fun d p => fold_left (fun (d : uvcl) t => c_add d t (snd p)) (fst (fst p)) d) parts [] in
        let redo_log i := fold_left (fun d p => fold_left (fun (d : uvcl) t =>
            if Nat.eqb (redo_index redo t) i then c_add d t (snd p) else d) (snd (fst p)) d) parts [] in
        Some (do_log :: map redo_log (seq 0 (length redo)))
      end
    end.

  (** ---- cuts/factory.py:42-68 CutFactory.get_cuts, find_cut (and cuts/abc.py:40-42 Cut.apply).  [strict] is false when
      DISABLE_STRICT_SEQUENCE_CUT is set.  The operator tells which cut was found. *)
  Variable strict : bool.
  Definition find_cut (g : dfg) : option (operator * list group) :=
    match xor_holds g with
    | Some c => Some (Xor, c)
    | None =>
      match (if strict then strict_holds g else seq_holds g) with
      | Some c => Some (Sequence, c)
      | None =>
        match par_holds g with
        | Some c => Some (Parallel, c)
        | None => match loop_holds g with Some c => Some (Loop, c) | None => None end
        end
      end
    end.
  Definition project (o : operator) (v : uvcl) (groups : list group) : option (list uvcl) :=
    match o with
    | Xor => Some (xor_project v groups)
    | Sequence => Some (seq_project v groups)
    | Parallel => Some (par_project v groups)
    | _ => loop_project v groups
    end.

  (** ---- base_case/factory.py:43-49, empty_log.py:36-37, single_activity.py:25-39 *)
  Definition base_case (v : uvcl) : option (tree nat) :=
    match v with
    | [] => Some (Leaf None)
    | [([], _)] => Some (Leaf None)
    | [([a], _)] => Some (Leaf (Some a))
    | _ => None
    end.

  (** ---- fall_through/empty_traces.py:30-46 EmptyTracesUVCL; the operator None is the silent leaf ProcessTree() *)
  Definition has_empty (v : uvcl) : bool := existsb is_nil (d_keys v).
  Definition empty_traces (v : uvcl) : option (option operator * list uvcl) :=
    if has_empty v then
      let rest := d_del v [] in
      if is_nil rest then Some (None, []) else Some (Some Xor, [[]; rest])
    else None.
  (** activity_concurrent.py:98-108 ActivityConcurrentUVCL.apply after the choice of the candidate *)
  Definition only (a : nat) (t : trace) : trace := filter (fun e => Nat.eqb e a) t.
  Definition without (a : nat) (t : trace) : trace := filter (fun e => negb (Nat.eqb e a)) t.
  Definition split_off (v : uvcl) (a : nat) : list uvcl :=
    [fold_left (fun (d : uvcl) tn => c_add d (only a (fst tn)) (snd tn)) v [];
     fold_left (fun (d : uvcl) tn => c_add d (without a (fst tn)) (snd tn)) v []].
  Definition candidates (v : uvcl) : list nat := sorted_by Z.of_nat (get_alphabet (d_keys v)).
  (** activity_once_per_trace.py:28-37 _get_candidate: the first candidate left after the loop over the traces *)
  Definition once_candidate (v : uvcl) : option nat :=
    hd_error (filter (fun a => forallb (fun t => Nat.eqb (length (only a t)) 1) (d_keys v)) (candidates v)).
  (** activity_concurrent.py:37-90 _process_candidate, _get_candidate, _find_cut: the first candidate, in the order
      [par_order], whose removal gives a log with a cut.  Without multiprocessing the order is the sorted one; with it,
      the order in which the results arrive. *)
  Variable par_order : list nat -> list nat.
  Definition l_alt (v : uvcl) (c : nat) : uvcl := fold_left (fun (d : uvcl) tn => d_set d (without c (fst tn)) (snd tn)) v [].
  Definition is_some {X} (o : option X) : bool := match o with Some _ => true | None => false end.
  Definition concurrent_candidate (v : uvcl) : option nat :=
    find (fun c => is_some (find_cut (discover_dfg_uvcl (l_alt v c)))) (par_order (candidates v)).
  (** strict_tau_loop.py:31-42, tau_loop.py:29-38 _get_projected_log: cut the trace before the positions i >= 1 that satisfy
      [cutp (t[i-1]) (t[i])]; [seg] is the current part t[x:i], [prev] its last activity *)
  Fixpoint cut_at (cutp : nat -> nat -> bool) (seg : trace) (prev : nat) (t : trace) : list trace :=
    match t with
    | [] => [seg]
    | e :: r => if cutp prev e then seg :: cut_at cutp [e] e r else cut_at cutp (seg ++ [e]) e r
    end.
  Definition parts (cutp : nat -> nat -> bool) (t : trace) : list trace :=
    match t with [] => [[]] | e :: r => cut_at cutp [e] e r end.
  (** util/compression/util.py:196-207 get_start_activities, get_end_activities of the variants *)
  Definition starts (v : uvcl) : list nat := concat (map (fun t => match t with [] => [] | a :: _ => [a] end) (d_keys v)).
  Definition ends (v : uvcl) : list nat := concat (map (fun t => match t with [] => [] | _ => [nth (length t - 1) t 0] end) (d_keys v)).
  Definition projected (cutp : nat -> nat -> bool) (v : uvcl) : uvcl :=
    fold_left (fun d tn => fold_left (fun (d : uvcl) t => c_add d t (snd tn)) (parts cutp (fst tn)) d) v [].
  Definition total_count (v : uvcl) : nat := list_sum (map snd v).
  (** strict_tau_loop.py:49-53 apply *)
  Definition tau_loop (cutp : nat -> nat -> bool) (v : uvcl) : option (option operator * list uvcl) :=
    let p := projected cutp v in
    if total_count v <? total_count p then Some (Some Loop, [p; []]) else None.
  Definition strict_tau_loop (v : uvcl) := tau_loop (fun x y => smem y (starts v) && smem x (ends v)) v.
  Definition plain_tau_loop (v : uvcl) := tau_loop (fun _ y => smem y (starts v)) v.
  (** flower.py:36-47 FlowerModelUVCL.apply *)
  Definition flower (v : uvcl) : option operator * list uvcl :=
    (Some Loop, [fold_left (fun (d : uvcl) a => d_set d [a] 1) (candidates v) []; []]).
  Definition or_else {X} (o : option X) (x : X) : X := match o with Some y => y | None => x end.
  (** fall_through/factory.py:41-71.  [ft] is false when DISABLE_FALLTHROUGHS is set. *)
  Variable ft : bool.
  Definition fall_through (v : uvcl) : option operator * list uvcl :=
    match empty_traces v with
    | Some r => r
    | None =>
      if ft then
        match once_candidate v with
        | Some a => (Some Parallel, split_off v a)
        | None =>
          match concurrent_candidate v with
          | Some a => (Some Parallel, split_off v a)
          | None => match strict_tau_loop v with
                    | Some r => r
                    | None => or_else (plain_tau_loop v) (flower v)
                    end
          end
        end
      else flower v
    end.

  (** ---- variants/abc.py:84-89 _recurse on the results of the calls for the sublogs *)
  Definition mk_node (o : option operator) (ts : list (tree nat)) : tree nat :=
    match o with Some o => Node o ts | None => Leaf None end.
  Definition recurse (call : uvcl -> option (tree nat)) (r : option operator * list uvcl) : option (tree nat) :=
    match map_opt call (snd r) with Some ts => Some (mk_node (fst r) ts) | None => None end.
  (** variants/im.py:33-39 IMUVCL.apply, variants/abc.py:72-82 apply; at most [fuel] nested calls, [None] if that is not
      enough or if an exception is raised *)
  Fixpoint im (fuel : nat) (v : uvcl) : option (tree nat) :=
    match fuel with
    | O => None
    | S n =>
      match empty_traces v with
      | Some r => recurse (im n) r
      | None =>
        match base_case v with
        | Some t => Some t
        | None =>
          match find_cut (discover_dfg_uvcl v) with
          | Some (o, groups) => match project o v groups with Some l => recurse (im n) (Some o, l) | None => None end
          | None => recurse (im n) (fall_through v)
          end
        end
      end
    end.

  (** ---- variants/imf.py:73-98 __filter_dfg_noise *)
  Definition max_out (g : dfg) : @counter nat :=
    fold_left (fun o xy =>
        let act := fst (fst xy) in
        let o := d_set o act (if d_mem o act then Nat.max (snd xy) (c_get o act) else snd xy) in
        if d_mem (end_acts g) act then d_set o act (Nat.max (c_get o act) (c_get (end_acts g) act)) else o) (graph g) [].
  Definition qn (n : nat) : Q := inject_Z (Z.of_nat n).
  Definition filter_noise (noise : Q) (g : dfg) : dfg :=
    let o := max_out g in
    Dfg (filter (fun xy => negb (Qle_bool (qn (snd xy)) (noise * qn (c_get o (fst (fst xy)))))) (graph g)) (start_acts g) (end_acts g).
  (** variants/imf.py:45-71 IMFUVCL.apply on the log [v] with the DFG [g].  [Some None]: the Python None, [None]: out of
      fuel or an exception *)
  Definition unwrap_call (r : option (option (tree nat))) : option (tree nat) := match r with Some (Some t) => Some t | _ => None end.
  Definition lift (r : option (tree nat)) : option (option (tree nat)) := match r with Some t => Some (Some t) | None => None end.
  Fixpoint imf (noise : Q) (fuel : nat) (second : bool) (v : uvcl) (g : dfg) : option (option (tree nat)) :=
    match fuel with
    | O => None
    | S n =>
      let call v := unwrap_call (imf noise n false v (discover_dfg_uvcl v)) in
      let rest (v : uvcl) (g : dfg) :=
        match base_case v with
        | Some t => Some (Some t)
        | None =>
          match find_cut g with
          | Some (o, groups) => match project o v groups with Some l => lift (recurse call (Some o, l)) | None => None end
          | None =>
            if second then Some None
            else match imf noise n true v (filter_noise noise g) with
                 | Some (Some t) => Some (Some t)
                 | Some None => lift (recurse call (fall_through v))
                 | None => None
                 end
          end
        end in
      match empty_traces v with
      | Some (o, e :: r :: _) =>
        if Qle_bool (qn (total_count v) - qn (total_count r)) (noise * qn (total_count v)) then rest r (discover_dfg_uvcl r)
        else lift (recurse call (o, [e; r]))
      | _ => rest v g
      end
    end.

  (** ---- algorithm.py:49-89 apply for an event log; [lab]: the characters of a label, [hash] its md5 value *)
  Variable lab : nat -> list Ascii.ascii.
  Variable hash : nat -> Z.
  Definition finish (r : option (tree nat)) : option (tree nat) :=
    match r with
    | Some t => match fold_tree Nat.eqb lab t with Some t' => Some (tree_sort hash t') | None => None end
    | None => None
    end.
  Definition discover_im (fuel : nat) (l : log) : option (tree nat) := finish (im fuel (get_variants l)).
  Definition discover_imf (noise : Q) (fuel : nat) (l : log) : option (tree nat) :=
    finish (unwrap_call (imf noise fuel false (get_variants l) (discover_dfg_uvcl (get_variants l)))).
End IM.
