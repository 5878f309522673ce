(** Model of the playout of accepting Petri nets:
    pm4py/algo/simulation/playout/petri_net/variants/extensive.py (ex) and basic_playout.py (bp), with the
    classic semantics.

    Simplifications: the events of the generated log are reduced to their activities (case ids and timestamps
    are counters); a sequence (m0, t0, m1, t1, ...) of visited elements is the list of the pairs (mi, ti) (bp
    also records the last marking); the enumeration of the set of enabled transitions is an arbitrary order;
    random choices are arbitrary functions of the history.  Loops have fuel, [None] = not finished. *)
From stdpp Require Import gmap.
From Coq Require Import ZArith.
From Verif Require Import Model_Petri Model_Dict.

Definition step := (marking * transition (option nat))%type.

(** ex 132, bp 142-143: the labels of the visible transitions among the visited elements *)
Definition labels (els : list step) : list nat :=
  concat (map (fun e => match t_label (snd e) with Some a => [a] | None => [] end) els).

Section Extensive.
  Context (pn : petri_net (option nat)) (fm : option marking) (max_len : nat) (max_occ : option nat).
  Context (tord : list (transition (option nat)) -> list (transition (option nat))).

  (** ex 94: (m, trace) in visited *)
  Definition seen (visited : list (marking * list nat)) (m : marking) (trace : list nat) : bool :=
    existsb (fun v => m_eqb (fst v) m && keqb (snd v) trace) visited.

  (** ex 105-111: the current marking occurs too often (it is appended before counting) *)
  Definition too_often (els : list step) (m : marking) : bool :=
    match max_occ with
    | None => false
    | Some k => Nat.ltb k (length (List.filter (fun e => m_eqb (fst e) m) els) + 1)
    end.

  (** ex 104-123: the successor states; the test "new_state in visited" compares a triple with pairs and is
      never true *)
  Definition next_states (m : marking) (trace : list nat) (els : list step)
    : list (marking * list nat * list step) :=
    concat (map (fun t =>
      if too_often els m then []
      else
        let trace' := match t_label t with Some a => trace ++ [a] | None => trace end in
        if Nat.ltb max_len (length trace') then [] else [(weak_execute t m, trace', els ++ [(m, t)])])
      (tord (enabled_transitions pn m))).

  (** ex 87-123: the loop; 100-102 the test *)
  Definition accepted (m : marking) (trace : list nat) : bool :=
    match fm with
    | Some f => m_eqb m f
    | None => match enabled_transitions pn m with [] => true | _ => false end
    end && Nat.leb (length trace) max_len.
  Fixpoint ext_loop (fuel : nat) (to_visit : list (marking * list nat * list step))
      (visited : list (marking * list nat)) (feasible : list (list step)) : option (list (list step)) :=
    match fuel with
    | O => None
    | S fuel' =>
      match to_visit with
      | [] => Some feasible
      | (m, trace, els) :: rest =>
        if seen visited m trace then ext_loop fuel' rest visited feasible
        else
          ext_loop fuel' (rest ++ next_states m trace els) ((m, trace) :: visited)
            (if accepted m trace then feasible ++ [els] else feasible)
      end
    end.
  (** ex 43-139 [apply]: the visited elements (return_elements) and the log *)
  Definition extensive_elements (fuel : nat) (im : marking) : option (list (list step)) :=
    ext_loop fuel [(im, [], [])] [] [].
  Definition extensive_playout (fuel : nat) (im : marking) : option (list (list nat)) :=
    option_map (map labels) (extensive_elements fuel im).
End Extensive.

Section Basic.
  Context (pn : petri_net (option nat)) (fm : option marking) (max_len : nat) (leq_accepted : bool).
  (** random.choice: [choice i history options] *)
  Context (choice : nat -> list step -> list (option (transition (option nat))) -> option (transition (option nat))).

  (** bp 112: the final marking is reached *)
  Definition may_stop (m : marking) : bool :=
    match fm with Some f => m_leb f m && (m_eqb f m || leq_accepted) | None => false end.

  (** bp 102-123: one run; returns the visited elements and the last marking *)
  Fixpoint play (fuel : nat) (i : nat) (m : marking) (els : list step) : option (list step * marking) :=
    match fuel with
    | O => None
    | S fuel' =>
      if Nat.ltb (length (labels els)) max_len then
        match enabled_transitions pn m with
        | [] => Some (els, m)
        | en =>
          match choice i els (map Some en ++ (if may_stop m then [None] else [])) with
          | None => Some (els, m)
          | Some t =>
            match execute t pn m with
            | Some m' => play fuel' i m' (els ++ [(m, t)])
            | None => None
            end
          end
        end
      else Some (els, m)
    end.

  (** bp 125-130: is the run kept?  (With [only_if_fm] and no final marking the code raises a TypeError.) *)
  Definition kept (only_if_fm : bool) (m : marking) : bool :=
    negb only_if_fm || match fm with Some f => m_eqb f m || (m_leb f m && leq_accepted) | None => false end.

  (** bp 89-132: the outer loop *)
  Fixpoint play_all (fuel : nat) (only_if_fm : bool) (no_traces : nat) (im : marking) (i : nat) (all : list (list step))
    : option (list (list step)) :=
    match fuel with
    | O => None
    | S fuel' =>
      if Nat.leb no_traces (length all) then Some all
      else if Nat.leb no_traces i && (negb only_if_fm || match all with [] => true | _ => false end) then Some all
      else
        match play fuel' i im [] with
        | None => None
        | Some (els, m) => play_all fuel' only_if_fm no_traces im (i + 1) (if kept only_if_fm m then all ++ [els] else all)
        end
    end.
  Definition basic_playout (fuel : nat) (only_if_fm : bool) (no_traces : nat) (im : marking) : option (list (list nat)) :=
    option_map (map labels) (play_all fuel only_if_fm no_traces im 0 []).
End Basic.
