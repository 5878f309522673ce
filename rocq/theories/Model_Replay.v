(** Model of token-based replay: pm4py/algo/conformance/tokenreplay/variants/token_replay.py (tr),
    pm4py/objects/petri_net/utils/petri_utils.py (pu) get_places_shortest_path*, and
    pm4py/algo/evaluation/replay_fitness/variants/token_replay.py (rf).

    Simplifications (global to this file)
    - Fitness values are exact rationals instead of floats.
    - Not modelled: the post-fix and marking-to-activity caches (only consulted when is_reduction is
      passed), cleaning_token_flood, progress bars, renaming of the result (transcribe_result), the
      enabled_transitions_in_marking field, and the sets underfed_traces/overfed_traces/fit_traces of
      the place and transition statistics.
    - The iteration order of Python sets and of dictionary keys is given by arbitrary functions
      ([tord], [aord], [pord], [kord], [vord]); theorems quantify over them. *)
From stdpp Require Import gmap.
From Coq Require Import ZArith QArith.
From Verif Require Import Model_Petri Model_Lev Model_Dict.
Local Open Scope Z_scope.

Notation ptrans := (transition (option nat)).

(** Limits: TechnicalParameters (tr 56-65): MAX_REC_DEPTH = 50, MAX_REC_DEPTH_HIDTRANSENABL = 2,
    MAX_IT_FINAL1 = MAX_IT_FINAL2 = 5; tr 249: range(10000000).  Theorems hold for every value. *)
Record limits := Limits { l_paths : nat; l_hidden : nat; l_final1 : nat; l_final2 : nat; l_rounds : nat }.

(** Options of [apply] (tr 1126-1181). *)
Record options := Options {
  consider_remaining : bool;      (* CONSIDER_REMAINING_IN_FITNESS, default True *)
  reach_through_hidden : bool;    (* TRY_TO_REACH_FINAL_MARKING_THROUGH_HIDDEN, default True *)
  stop_when_unfit : bool;         (* STOP_IMMEDIATELY_UNFIT, default False *)
  walk_hidden : bool;             (* WALK_THROUGH_HIDDEN_TRANS, default True *)
  unknown_unfit : bool }.         (* CONSIDER_ACTIVITIES_NOT_IN_MODEL_IN_FITNESS, default False *)
Definition default_options := Options true true false true false.

Definition same_trans (t u : ptrans) : bool := Nat.eqb (t_id t) (t_id u).
Definition silent (t : ptrans) : bool := match t_label t with None => true | Some _ => false end.
Definition labelled (a : nat) (t : ptrans) : bool :=
  match t_label t with Some b => Nat.eqb b a | None => false end.

(** A counter indexed by places: c[p] += v. *)
Definition bump (c : marking) (p : nat) (v : Z) : marking := <[p := mget c p + v]> c.

(** Keys of a marking. *)
Definition m_places (m : marking) : list nat := map fst (map_to_list m).

(** sum of the arc weights: the first component of tr 100-114 [get_consumed_tokens] and 117-131
    [get_produced_tokens]. *)
Definition arc_sum (arcs : list (nat * Z)) : Z := fold_left (fun s a => s + a.2) arcs 0.
(** their second component: a dictionary place -> weight of (the last) arc. *)
Definition arc_map (arcs : list (nat * Z)) : marking :=
  fold_left (fun (d : marking) a => <[a.1 := a.2]> d) arcs ∅.

(** tr 79-97 [add_missing_tokens]: marking, number of missing tokens, tokens_added. *)
Definition add_missing_arc (st : marking * Z * marking) (a : nat * Z) : marking * Z * marking :=
  let '(m, missing, added) := st in
  if mget m a.1 <? a.2 then
    (<[a.1 := mget m a.1 + a.2]> m, missing + (a.2 - mget m a.1), <[a.1 := a.2 - mget m a.1]> added)
  else st.
Definition add_missing_tokens (t : ptrans) (m : marking) : marking * Z * marking :=
  fold_left add_missing_arc (t_in t) (m, 0, ∅).

(** tr 154-168 [get_places_with_missing_tokens]. *)
Definition places_with_missing (t : ptrans) (m : marking) : list nat :=
  map fst (List.filter (fun a => mget m a.1 <? a.2) (t_in t)).

(** tr 351-367 [break_condition_final_marking]: the places of the final marking are keys of the marking. *)
Definition break_condition (m fm : marking) : bool :=
  forallb (fun p => match m !! p with Some _ => true | None => false end) (m_places fm).

Section Replay.
  Context (pn : petri_net (option nat)) (lim : limits).
  Context (tord : list ptrans -> list ptrans) (aord : list ptrans -> list ptrans)
    (pord : list nat -> list nat) (kord : list nat -> list nat).

  (** pu 384-421 [get_places_shortest_path], as the update of the dictionary
      places_shortest_path[place_to_populate]; [fuel] = max_rec_depth - rec_depth + 1.
      The out-arcs of a place are found from the arcs of the transitions. *)
  Definition consumers (p : nat) : list ptrans :=
    aord (List.filter (fun t => existsb (fun a => Nat.eqb a.1 p) (t_in t)) (n_trans pn)).
  Fixpoint paths_from (fuel : nat) (current : nat) (d : dict nat (list ptrans)) (actual : list ptrans)
    : dict nat (list ptrans) :=
    match fuel with
    | O => d
    | S fuel' =>
      fold_left (fun d t =>
        if silent t then
          fold_left (fun d a =>
            let better := match d_get d (fst a) with
                          | None => true
                          | Some l => Nat.ltb (length actual + 1) (length l)
                          end in
            if better then paths_from fuel' (fst a) (d_set d (fst a) (actual ++ [t])) (actual ++ [t])
            else d) (t_out t) d
        else d) (consumers current) d
    end.
  (** pu 424-438 [get_places_shortest_path_by_hidden]. *)
  Definition hidden_paths : dict nat (dict nat (list ptrans)) :=
    map (fun p => (p, paths_from (S (l_paths lim)) p [] [])) (n_places pn).

  Section Trace.
  Context (paths : dict nat (dict nat (list ptrans))).

  (** p2 in paths[p1] and its value. *)
  Definition path_lookup (p1 p2 : nat) : option (list ptrans) :=
    match d_get paths p1 with Some d => d_get d p2 | None => None end.

  (** tr 171-196 [get_hidden_transitions_to_enable] and 199-224 [get_req_transitions_for_final_marking]
      (the same code, with the places of the final marking as targets). *)
  Definition hidden_groups (m : marking) (targets : list nat) : list (list ptrans) :=
    sorted_by (fun g => Z.of_nat (length g))
      (concat (map (fun p1 => concat (map (fun p2 =>
         match path_lookup p1 p2 with Some g => [g] | None => [] end) (pord targets))) (pord (m_places m)))).

  (** semantics.execute after a successful is_enabled test. *)
  Definition exec (t : ptrans) (m : marking) : marking :=
    match execute t pn m with Some m' => m' | None => m end.

  (** State of the search through hidden transitions: marking, activated and visited transitions. *)
  Record hstate := HState { h_mark : marking; h_act : list ptrans; h_vis : list ptrans }.
  Definition visited (t : ptrans) (s : hstate) : bool := existsb (same_trans t) (h_vis s).
  Definition h_fire (t : ptrans) (s : hstate) : hstate :=
    HState (exec t (h_mark s)) (h_act s ++ [t]) (t :: h_vis s).

  (** tr 251-264: the inner loop of [enable_hidden_transitions] on the rest of one group; returns the
      new state, the still unvisited rest of the group, and something_changed. *)
  Fixpoint eh_group (t : ptrans) (g : list ptrans) (s : hstate) : hstate * list ptrans * bool :=
    match g with
    | [] => (s, [], false)
    | t3 :: g' =>
      let fireable := negb (same_trans t3 t) && is_enabled t3 pn (h_mark s) && negb (visited t3 s) in
      let s1 := if fireable then h_fire t3 s else s in
      if is_enabled t pn (h_mark s1) then (s1, g', fireable)
      else let '(s2, g2, ch) := eh_group t g' s1 in (s2, g2, fireable || ch)
    end.
  (** tr 227-271 [enable_hidden_transitions]: the rounds z = 0, 1, ... visit the groups cyclically. *)
  Fixpoint eh_loop (rounds : nat) (t : ptrans) (groups : list (list ptrans)) (s : hstate) : hstate :=
    match rounds, groups with
    | S r, g :: gs =>
      let '(s1, g1, changed) := eh_group t g s in
      if is_enabled t pn (h_mark s1) then s1
      else if changed then eh_loop r t (gs ++ [g1]) s1
      else s1
    | _, _ => s
    end.

  (** tr 274-348 [apply_hidden_trans]; [depth] = MAX_REC_DEPTH_HIDTRANSENABL - rec_depth. *)
  Fixpoint apply_hidden (depth : nat) (t : ptrans) (s : hstate) : hstate :=
    match depth with
    | O => s
    | S depth' =>
      if visited t s then s else
      let s0 := HState (h_mark s) (h_act s) (t :: h_vis s) in
      let wanted := places_with_missing t (h_mark s) in
      match hidden_groups (h_mark s) wanted with
      | [] => s0
      | groups =>
        let s1 := eh_loop (l_rounds lim) t groups s0 in
        let s2 :=
          if is_enabled t pn (h_mark s1) then s1
          else fold_left (fun s t4 =>
            if negb (same_trans t4 t) && negb (visited t4 s) then
              let s' := if is_enabled t4 pn (h_mark s) then s else apply_hidden depth' t4 s in
              if is_enabled t4 pn (h_mark s') then h_fire t4 s' else s'
            else s) (concat (hidden_groups (h_mark s1) wanted)) s1 in
        if is_enabled t pn (h_mark s2) then s2
        else if m_eqb (h_mark s) (h_mark s2) then s2
        else apply_hidden depth' t s2
      end
    end.

  (** tr 989-991: trans_map, restricted to visible labels: the last transition with the label. *)
  Definition trans_map (a : nat) : option ptrans := find (labelled a) (rev (tord (n_trans pn))).
  (** tr 475-479: the transition replayed for an event. *)
  Definition choose (a : nat) (m : marking) : option ptrans :=
    match trans_map a with
    | None => None
    | Some t0 =>
      match List.filter (labelled a) (tord (enabled_transitions pn m)) with
      | t :: _ => Some t
      | [] => Some t0
      end
    end.

  (** State of the replay of a trace.  [s_pc], [s_pp], [s_pm], [s_pr]: the c, p, m, r entries of the place
      statistics (kept when enable_pltr_fitness is set). *)
  Record rstate := RState {
    s_mark : marking; s_act : list ptrans; s_prob : list ptrans;
    s_missing : Z; s_consumed : Z; s_produced : Z;
    s_pc : marking; s_pp : marking; s_pm : marking; s_pr : marking }.

  Context (occ : Z).   (* trace_occurrences *)

  Definition bump_all (k : Z) (c add : marking) : marking :=
    fold_left (fun c kv => bump c kv.1 (kv.2 * k)) (map_to_list add) c.

  (** counting the tokens of one fired transition (tr 494-505, 531-542, 588-599, 620-631) *)
  Definition count (t : ptrans) (s : rstate) : rstate :=
    RState (s_mark s) (s_act s) (s_prob s) (s_missing s)
      (s_consumed s + arc_sum (t_in t)) (s_produced s + arc_sum (t_out t))
      (bump_all occ (s_pc s) (arc_map (t_in t))) (bump_all occ (s_pp s) (arc_map (t_out t)))
      (s_pm s) (s_pr s).
  Definition set_mark (m : marking) (act : list ptrans) (s : rstate) : rstate :=
    RState m act (s_prob s) (s_missing s) (s_consumed s) (s_produced s) (s_pc s) (s_pp s) (s_pm s) (s_pr s).
  (** execute a transition and record it (tr 543-546, 584-587, 616-619) *)
  Definition r_fire (t : ptrans) (s : rstate) : rstate :=
    set_mark (exec t (s_mark s)) (s_act s ++ [t]) s.

  (** tr 480-507: walking through hidden transitions. *)
  Definition walk (t : ptrans) (s : rstate) : rstate :=
    if is_enabled t pn (s_mark s) then s else
    let h := apply_hidden (l_hidden lim) t (HState (s_mark s) (s_act s) []) in
    fold_left (fun s u => count u s) (skipn (length (s_act s)) (h_act h)) (set_mark (h_mark h) (h_act h) s).

  (** tr 510-525: the transition is not enabled.  (The m entries of the place statistics are not
      multiplied by trace_occurrences: tr 522.) *)
  Definition force (t : ptrans) (s : rstate) : rstate :=
    let '(m, miss, added) := add_missing_tokens t (s_mark s) in
    RState m (s_act s) (s_prob s ++ [t]) (s_missing s + miss) (s_consumed s) (s_produced s)
      (s_pc s) (s_pp s) (bump_all 1 (s_pm s) added) (s_pr s).

  (** tr 469-546: one event whose activity labels a transition of the model; the boolean tells that the
      loop over the events is left (stop_immediately_unfit). *)
  Definition replay_event (o : options) (t : ptrans) (s : rstate) : rstate * bool :=
    let s1 := if walk_hidden o then walk t s else s in
    let en := is_enabled t pn (s_mark s1) in
    if negb en && stop_when_unfit o then
      (RState (s_mark s1) (s_act s1) (s_prob s1 ++ [t]) (s_missing s1 + 1) (s_consumed s1) (s_produced s1)
         (s_pc s1) (s_pp s1) (s_pm s1) (s_pr s1), true)
    else
      let s2 := if en then s1 else force t s1 in
      let s3 := count t s2 in
      (if is_enabled t pn (s_mark s3) then r_fire t s3 else s3, false).

  (** tr 444-576: the loop over the events; [unknown] collects the activities not in the model. *)
  Fixpoint replay_events (o : options) (tr : list nat) (s : rstate) (unknown : list nat)
    : rstate * list nat :=
    match tr with
    | [] => (s, unknown)
    | a :: tr' =>
      match choose a (s_mark s) with
      | Some t =>
        let '(s', stop) := replay_event o t s in
        if stop then (s', unknown) else replay_events o tr' s' unknown
      | None => replay_events o tr' s (unknown ++ [a])
      end
    end.

  (** tr 578-606 *)
  Definition fire_enabled (s : rstate) (t : ptrans) : rstate :=
    if is_enabled t pn (s_mark s) then count t (r_fire t s) else s.
  Fixpoint final_groups (fm : marking) (groups : list (list ptrans)) (s : rstate) : rstate :=
    match groups with
    | [] => s
    | g :: gs =>
      let s' := fold_left fire_enabled g s in
      if break_condition (s_mark s') fm then s' else final_groups fm gs s'
    end.
  Fixpoint final1 (n : nat) (fm : marking) (s : rstate) : rstate :=
    match n with
    | O => s
    | S n' =>
      if break_condition (s_mark s) fm then s
      else final1 n' fm (final_groups fm (hidden_groups (s_mark s) (m_places fm)) s)
    end.
  (** tr 608-641 *)
  Fixpoint fire_prefix (path : list ptrans) (s : rstate) : rstate :=
    match path with
    | [] => s
    | t :: r => if is_enabled t pn (s_mark s) then fire_prefix r (fire_enabled s t) else s
    end.
  Definition connections (m : marking) (sink : nat) : list (list ptrans) :=
    sorted_by (fun g => Z.of_nat (length g))
      (concat (map (fun p => match path_lookup p sink with Some g => [g] | None => [] end)
                 (kord (m_places m)))).
  Definition final2 (fm : marking) (s : rstate) : rstate :=
    if break_condition (s_mark s) fm then s else
    match m_places fm with
    | [sink] =>
      let cs := connections (s_mark s) sink in
      Nat.iter (l_final2 lim) (fun s => fold_left (fun s g => fire_prefix g s) cs s) s
    | _ => s
    end.

  (** tr 646-651: tokens of the final marking that are not there *)
  Definition final_missing (m fm : marking) : marking :=
    fold_left (fun (d : marking) (kv : nat * Z) =>
      if 0 <? kv.2 - mget m kv.1 then <[kv.1 := kv.2 - mget m kv.1]> d else d) (map_to_list fm) ∅.
  (** tr 654-668: what remains of each place of the marking *)
  Definition left_over (fm : marking) (p : nat) (v : Z) : Z :=
    match fm !! p with Some w => Z.max 0 (v - w) | None => v end.

  Record result := Result {
    r_fit : bool; r_fitness : Q; r_act : list ptrans; r_prob : list ptrans; r_reached : marking;
    r_missing : Z; r_consumed : Z; r_remaining : Z; r_produced : Z;
    r_pc : marking; r_pp : marking; r_pm : marking; r_pr : marking }.

  Definition m_sum (m : marking) : Z := fold_left (fun s (kv : nat * Z) => s + kv.2) (map_to_list m) 0.

  (** tr 706-710 *)
  Definition trace_fitness (missing consumed remaining produced : Z) : Q :=
    if (0 <? consumed) && (0 <? produced) then
      ((1#2) * (1 - inject_Z missing / inject_Z consumed)
       + (1#2) * (1 - inject_Z remaining / inject_Z produced))%Q
    else 1%Q.

  (** tr 643-745: the statistics at the end of the replay *)
  Definition finish (o : options) (im fm : marking) (unknown : list nat) (s : rstate) : result :=
    let m := s_mark s in
    let diff := final_missing m fm in
    let remaining := fold_left (fun r (kv : nat * Z) => r + left_over fm kv.1 kv.2) (map_to_list m) 0 in
    let fit0 := if consider_remaining o then (s_missing s =? 0) && (remaining =? 0) else s_missing s =? 0 in
    let fit := if unknown_unfit o && negb (match unknown with [] => true | _ => false end) then false else fit0 in
    let consumed := s_consumed s + m_sum fm in
    let missing := s_missing s + m_sum diff in
    let pr := fold_left (fun c (kv : nat * Z) => bump c kv.1 (left_over fm kv.1 kv.2 * occ)) (map_to_list m) (s_pr s) in
    Result fit (trace_fitness missing consumed remaining (s_produced s)) (s_act s) (s_prob s) m
      missing consumed remaining (s_produced s)
      (bump_all occ (s_pc s) fm) (bump_all occ (s_pp s) im) (bump_all occ (s_pm s) diff) pr.

  (** tr 370-745 [apply_trace].  [unknown]: the dictionary notexisting_activities_in_model (its keys),
      which apply_log shares between all traces; [stats]: the c, p, m, r entries of the place statistics,
      shared as well. *)
  Definition apply_trace (o : options) (im fm : marking) (unknown : list nat)
    (stats : marking * marking * marking * marking) (tr : list nat) : result * list nat :=
    let '(c, p, m, r) := stats in
    let s0 := RState im [] [] 0 0 (m_sum im) c p m r in
    let '(s1, unknown') := replay_events o tr s0 unknown in
    let s2 := if reach_through_hidden o then final2 fm (final1 (l_final1 lim) fm s1) else s1 in
    (finish o im fm unknown' s2, unknown').
  End Trace.

  (** The replay of one trace with fresh statistics: what [apply] computes for a log with this only trace. *)
  Definition replay (o : options) (im fm : marking) (tr : list nat) : result :=
    fst (apply_trace hidden_paths 1 o im fm [] (∅, ∅, ∅, ∅) tr).

  (** tr 1000-1004: variants: activity sequence -> positions of its cases *)
  Definition variants_of (log : list (list nat)) : dict (list nat) (list nat) :=
    fold_left (fun d (it : nat * list nat) =>
      match d_get d it.2 with
      | Some l => d_set d it.2 (l ++ [it.1])
      | None => d_set d it.2 [it.1]
      end) (combine (seq 0 (length log)) log) [].

  Context (vord : list (list nat * list nat) -> list (list nat * list nat)).

  (** tr 951-1123 [apply_log] (variants enabled).  The variants are replayed in a sorted order (tr 1009,
      [vord]); [None] would be a KeyError in tr 1112. *)
  Definition apply_log (o : options) (im fm : marking) (log : list (list nat))
    : option (list result) * (marking * marking * marking * marking) :=
    let paths := hidden_paths in
    let '(results, _, stats) :=
      fold_left (fun '(results, unknown, stats) (vc : list nat * list nat) =>
        let '(r, unknown') := apply_trace paths (Z.of_nat (length vc.2)) o im fm unknown stats vc.1 in
        (fold_left (fun d i => d_set d i r) vc.2 results, unknown', (r_pc r, r_pp r, r_pm r, r_pr r)))
        (vord (variants_of log)) ([], [], (∅, ∅, ∅, ∅)) in
    (mapM (fun i => d_get results i) (seq 0 (length log)), stats).
End Replay.

(** rf 39-82 [evaluate]: percentage of fitting traces, average trace fitness, log fitness. *)
Definition zsum_of {A} (f : A -> Z) (l : list A) : Z := fold_left (fun s x => s + f x) l 0.
Definition evaluate (res : list result) : Q * Q * Q :=
  let n := Z.of_nat (length res) in
  let fit := Z.of_nat (length (List.filter r_fit res)) in
  let sum_fitness := fold_left (fun s r => s + r_fitness r)%Q res 0%Q in
  let tm := zsum_of r_missing res in let tc := zsum_of r_consumed res in
  let tr := zsum_of r_remaining res in let tp := zsum_of r_produced res in
  if (0 <? n) && (0 <? tc) && (0 <? tp) then
    ((inject_Z 100 * inject_Z fit / inject_Z n)%Q, (sum_fitness / inject_Z n)%Q,
     ((1#2) * (1 - inject_Z tm / inject_Z tc) + (1#2) * (1 - inject_Z tr / inject_Z tp))%Q)
  else (0%Q, 0%Q, 0%Q).
