(** Converting a workflow net into a process tree:
    pm4py/objects/conversion/wf_net/variants/to_process_tree.py (tp).

    Simplifications
    - Transitions and places are Python objects compared by identity; here numbers ([tid], places).
    - A fresh transition (tp 44-48) or place (tp 264-266) gets a number not used before: names are uuid4 / time stamps and
      are only compared with the prefix and with the names of the original places.
    - The label TEXT of a grouped transition is the print-out of a tree (tp 39-48, process_tree/obj.py __repr__), which tp 361-362 parses again.  Here the
      label is that tree itself (the round trip of the text is property C20).  An ungrouped transition has a leaf.
    - Arcs are pairs without weights: tp creates all arcs of grouped transitions with weight 1 and never looks at weights.
    - A set is iterated in an arbitrary order, [ord] for transitions and [ordp] for places. *)
From Coq Require Import String Ascii List Arith ZArith Bool.
Import ListNotations.
From Verif Require Import Model_Petri Model_Wfnet Model_Graph Model_Tree.

Record tr := Tr { tid : nat; lab : tree nat; pre : list nat; post : list nat }.
Record tnet := TNet { pl : list nat; ts : list tr }.

(** petri_utils.py:52-65 pre_set/post_set of a place *)
Definition producers (N : tnet) (p : nat) : list tr := filter (fun t => smem p (post t)) (ts N).
Definition consumers (N : tnet) (p : nat) : list tr := filter (fun t => smem p (pre t)) (ts N).
Definition is_in (t : tr) (l : list tr) : bool := existsb (fun x => tid x =? tid t) l.
Definition differ (t1 t2 : tr) : bool := negb (tid t1 =? tid t2).
Definition same_set (l m : list nat) : bool := forallb (fun x => smem x m) l && forallb (fun x => smem x l) m.

(** tp 51-78 loop_requirement *)
Definition loop_requirement (N : tnet) (t1 t2 : tr) : bool :=
  differ t1 t2 &&
  forallb (fun p => (length (producers N p) =? 1) && is_in t1 (producers N p)) (pre t2) &&
  forallb (fun p => (length (consumers N p) =? 1) && is_in t1 (consumers N p)) (post t2) &&
  forallb (fun p => (length (consumers N p) =? 1) && is_in t1 (consumers N p) && is_in t2 (producers N p)) (pre t1) &&
  forallb (fun p => (length (producers N p) =? 1) && is_in t1 (producers N p) && is_in t2 (consumers N p)) (post t1).

(** tp 103-135 concurrent_requirement *)
Definition concurrent_requirement (N : tnet) (t1 t2 : tr) : bool :=
  differ t1 t2 &&
  negb ((length (pre t1) =? 0) || (length (post t1) =? 0) || (length (pre t2) =? 0) || (length (post t2) =? 0)) &&
  forallb (fun p => negb (1 <? length (consumers N p)) && is_in t1 (consumers N p)) (pre t1) &&
  forallb (fun p => negb (1 <? length (producers N p)) && is_in t1 (producers N p)) (post t1) &&
  forallb (fun p => negb (1 <? length (consumers N p)) && is_in t2 (consumers N p)) (pre t2) &&
  forallb (fun p => negb (1 <? length (producers N p)) && is_in t2 (producers N p)) (post t2) &&
  (let pre_pre := flat_map (producers N) (pre t1 ++ pre t2) in
   let post_post := flat_map (consumers N) (post t1 ++ post t2) in
   forallb (fun p => forallb (fun t => is_in t (producers N p)) pre_pre) (pre t1 ++ pre t2) &&
   forallb (fun p => forallb (fun t => is_in t (consumers N p)) post_post) (post t1 ++ post t2)).

(** tp 164-167 choice_requirement *)
Definition choice_requirement (N : tnet) (t1 t2 : tr) : bool :=
  differ t1 t2 && same_set (pre t1) (pre t2) && same_set (post t1) (post t2) &&
  (0 <? length (pre t1)) && (0 <? length (post t1)).

(** tp 191-210 sequence_requirement *)
Definition sequence_requirement (N : tnet) (t1 t2 : tr) : bool :=
  differ t1 t2 && negb (length (pre t2) =? 0) &&
  let ok p := (length (producers N p) =? 1) && (length (consumers N p) =? 1) && is_in t1 (producers N p) && is_in t2 (consumers N p) in
  forallb ok (post t1) && forallb ok (pre t2).

Section Convert.
  Variable ord : list tr -> list tr.
  Variable ordp : list nat -> list nat.

  (** the first pair of itertools.product(net.transitions, net.transitions) that meets a requirement (tp 84-88, 141-145, 173-177, 216-220) *)
  Definition first_pair (req : tnet -> tr -> tr -> bool) (N : tnet) : option (tr * tr) :=
    find (fun p => req N (fst p) (snd p)) (list_prod (ord (ts N)) (ord (ts N))).
  (** a transition object that is not in the net yet *)
  Definition new_id (N : tnet) : nat := S (list_max (map tid (ts N))).
  Definition without (t1 t2 : tr) (l : list tr) : list tr := filter (fun x => differ x t1 && differ x t2) l.
  (** remove_place (petri_utils.py:125-157) for several places: the places and their arcs disappear *)
  Definition cut (Q l : list nat) : list nat := filter (fun p => negb (smem p Q)) l.
  Definition remove_places (Q : list nat) (N : tnet) : tnet :=
    TNet (cut Q (pl N)) (map (fun x => Tr (tid x) (lab x) (cut Q (pre x)) (cut Q (post x))) (ts N)).

  (** tp 170-188 binary_choice_detection *)
  Definition merge_choice (N : tnet) (t1 t2 : tr) : tnet :=
    TNet (pl N) (Tr (new_id N) (Node Xor [lab t1; lab t2]) (pre t1) (post t2) :: without t1 t2 (ts N)).
  (** tp 213-233 binary_sequence_detection *)
  Definition merge_sequence (N : tnet) (t1 t2 : tr) : tnet :=
    remove_places (post t1)
      (TNet (pl N) (Tr (new_id N) (Node Sequence [lab t1; lab t2]) (pre t1) (post t2) :: without t1 t2 (ts N))).
  (** tp 138-161 binary_concurrency_detection *)
  Definition merge_concurrent (N : tnet) (t1 t2 : tr) : tnet :=
    TNet (pl N) (Tr (new_id N) (Node Parallel [lab t1; lab t2]) (pre t1 ++ pre t2) (post t1 ++ post t2) :: without t1 t2 (ts N)).
  (** tp 81-100 binary_loop_detection *)
  Definition merge_loop (N : tnet) (t1 t2 : tr) : tnet :=
    TNet (pl N) (Tr (new_id N) (Node Loop [lab t1; lab t2]) (pre t1) (post t1) :: without t1 t2 (ts N)).

  (** tp 236-249 __group_blocks_internal: None when no rule applies *)
  Definition group_once (N : tnet) : option tnet :=
    match first_pair choice_requirement N with
    | Some (t1, t2) => Some (merge_choice N t1 t2)
    | None => match first_pair sequence_requirement N with
    | Some (t1, t2) => Some (merge_sequence N t1 t2)
    | None => match first_pair concurrent_requirement N with
    | Some (t1, t2) => Some (merge_concurrent N t1 t2)
    | None => match first_pair loop_requirement N with
    | Some (t1, t2) => Some (merge_loop N t1 t2)
    | None => None
    end end end end.

  (** tp 309-310: the places without incoming / outgoing arcs *)
  Definition start_places (N : tnet) : list nat := filter (fun p => length (producers N p) =? 0) (pl N).
  Definition end_places (N : tnet) : list nat := filter (fun p => length (consumers N p) =? 0) (pl N).

  (** tp 261-278: one place [p] is replaced by source_p -> skip -> target_p *)
  Definition redirect (p q : nat) (l : list nat) : list nat := map (fun x => if x =? p then q else x) l.
  Definition split_place (ini : list nat) (N : tnet) (p : nat) : tnet :=
    let s := S (list_max (ini ++ pl N)) in
    let d := S s in
    TNet (s :: d :: cut [p] (pl N))
      (Tr (new_id N) (Leaf None) [s] [d] :: map (fun x => Tr (tid x) (lab x) (redirect p d (pre x)) (redirect p s (post x))) (ts N)).
  (** tp 252-278 __insert_dummy_invisibles; [im], [fm] are the markings computed before *)
  Definition insert_dummies (ini im fm : list nat) (N : tnet) : tnet :=
    fold_left (fun M p => if smem p ini && negb (smem p im) && negb (smem p fm) then split_place ini M p else M) (ordp (pl N)) N.

  (** tp 308-324: the main loop; None only when [fuel] is used up *)
  Fixpoint group (fuel : nat) (ini : list nat) (N : tnet) : option tnet :=
    match fuel with
    | 0 => None
    | S f =>
      if length (ts N) <=? 1 then Some N
      else if negb (length (start_places N) =? 1) && negb (length (end_places N) =? 1) then Some N
      else match group_once N with
           | Some N' => group f ini N'
           | None =>
             let N1 := insert_dummies ini (start_places N) (end_places N) N in
             match group_once N1 with
             | Some N' => group f ini N'
             | None => Some N1
             end
           end
    end.

  (** the input net *)
  Definition of_net (net : petri_net (option nat)) : tnet :=
    TNet (n_places net) (map (fun t => Tr (t_id t) (Leaf (t_label t)) (map fst (t_in t)) (map fst (t_out t))) (n_trans net)).
  Definition fuel_for (net : petri_net (option nat)) : nat := S (length (n_trans net) + length (n_places net)).

  (** tp 281-326 group_blocks_in_net: ValueError (None) when the net is not a workflow net *)
  Definition group_blocks (name : node -> nat) (short : nat) (net : petri_net (option nat)) : option tnet :=
    if is_workflow_net name short net then group (fuel_for net) (n_places net) (of_net net) else None.

  (** tp 329-367 apply; None: an exception.  A single ungrouped transition has the bare activity name as label, which is not a
      tree expression ('tau' and quotes are only added when grouping), so parse raises *)
  Definition to_process_tree (text_of : nat -> list ascii) (hash : nat -> Z) (fold : bool) (name : node -> nat) (short : nat)
      (net : petri_net (option nat)) : option (tree nat) :=
    match group_blocks name short net with
    | Some (TNet _ [t]) =>
      match lab t with
      | Leaf _ => None
      | Node _ _ => match (if fold then fold_tree Nat.eqb text_of (lab t) else Some (lab t)) with
                    | Some r => Some (tree_sort hash r)
                    | None => None
                    end
      end
    | _ => None
    end.
End Convert.
