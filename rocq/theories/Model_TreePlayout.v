(** Model of the playout of process trees, pm4py/algo/simulation/playout/process_tree/variants/topbottom.py (tb), the
    variant used by pm4py.play_out.

    Randomness: the outcomes of the random module are given as a list of draws, consumed in order: random.choice gives
    any index of the list, random.random() <= 0.5 any boolean, random.shuffle any rearrangement.  A draw that does not
    fit is not an outcome ([None]).  [None] is also an exception; loops have fuel.
    Simplification: the shuffle of tb 143 also reorders the children in the tree given by the user; the model
    leaves the tree as it is (the order of the children of an interleaving does not matter for later draws). *)
From Coq Require Import List Arith Bool.
Import ListNotations.
From Verif Require Import Model_Tree.

Inductive draw := DChoice (i : nat) | DCoin (b : bool) | DShuffle (l : list nat).

(** random.shuffle: the same elements in another order *)
Definition rearranged (a b : list nat) : bool :=
  forallb (fun x => Nat.eqb (count_occ Nat.eq_dec a x) (count_occ Nat.eq_dec b x)) (a ++ b).

(** the loop over the children, threading the draws *)
Fixpoint ex_list {T} (ex : T -> list draw -> option (list (option nat) * list draw)) (cs : list T) (ds : list draw)
  : option (list (list (option nat)) * list draw) :=
  match cs with
  | [] => Some ([], ds)
  | c :: r =>
    match ex c ds with
    | None => None
    | Some (s, ds1) => match ex_list ex r ds1 with Some (ss, ds2) => Some (s :: ss, ds2) | None => None end
    end
  end.
(** tb 163-166: list_choices *)
Fixpoint choices (k : nat) (ss : list (list (option nat))) : list nat :=
  match ss with [] => [] | s :: r => repeat k (length s) ++ choices (S k) r end.
(** children_traces[c].pop(0) *)
Fixpoint pop_at {X} (ss : list (list X)) (c : nat) : option (X * list (list X)) :=
  match ss, c with
  | [], _ => None
  | [] :: _, O => None
  | (x :: s) :: r, O => Some (x, s :: r)
  | s :: r, S c' => match pop_at r c' with Some (x, r') => Some (x, s :: r') | None => None end
  end.
(** tb 168-170 *)
Fixpoint pops {X} (ss : list (list X)) (cs : list nat) : option (list X) :=
  match cs with
  | [] => Some []
  | c :: r =>
    match pop_at ss c with
    | None => None
    | Some (x, ss') => option_map (cons x) (pops ss' r)
    end
  end.

(** tb 118-171 [get_ex_seq]: the leaves in the order of their execution.  For OR the function returns None, on which
    its callers fail.  The while loop of tb 151-157 is a recursive call. *)
Fixpoint get_ex_seq (fuel : nat) (t : tree nat) (ds : list draw) : option (list (option nat) * list draw) :=
  match fuel with
  | O => None
  | S fuel' =>
    match t with
    | Leaf l => Some ([l], ds)
    | Node Xor cs =>
      match ds with
      | DChoice i :: ds' => match nth_error cs i with Some c => get_ex_seq fuel' c ds' | None => None end
      | _ => None
      end
    | Node Sequence cs =>
      match ex_list (get_ex_seq fuel') cs ds with Some (ss, ds') => Some (concat ss, ds') | None => None end
    | Node Interleaving cs =>
      match ds with
      | DShuffle p :: ds' =>
        if rearranged p (seq 0 (length cs)) then
          match ex_list (get_ex_seq fuel') (map (fun i => nth i cs (Leaf None)) p) ds' with
          | Some (ss, ds'') => Some (concat ss, ds'')
          | None => None
          end
        else None
      | _ => None
      end
    | Node Loop (c :: r) =>
      match get_ex_seq fuel' c ds with
      | Some (s, DCoin false :: ds1) => Some (s, ds1)
      | Some (s, DCoin true :: ds1) =>
        match r with
        | [] => None
        | c1 :: _ =>
          match get_ex_seq fuel' c1 ds1 with
          | None => None
          | Some (s1, ds2) =>
            match get_ex_seq fuel' (Node Loop (c :: r)) ds2 with
            | Some (s2, ds3) => Some (s ++ s1 ++ s2, ds3)
            | None => None
            end
          end
        end
      | _ => None
      end
    | Node Parallel cs =>
      match ex_list (get_ex_seq fuel') cs ds with
      | Some (ss, DShuffle p :: ds') =>
        if rearranged p (choices 0 ss) then
          match pops ss p with Some s => Some (s, ds') | None => None end
        else None
      | _ => None
      end
    | Node _ _ => None
    end
  end.
(** tb 63-66 *)
Definition visible_labels (s : list (option nat)) : list nat :=
  concat (map (fun l => match l with Some a => [a] | None => [] end) s).
(** tb 96-115 [get_num_ex_sequences] and 34-69 [apply]: the activities of the traces of the log *)
Fixpoint play_tree (fuel : nat) (t : tree nat) (num : nat) (ds : list draw) : option (list (list nat)) :=
  match num with
  | O => Some []
  | S n =>
    match get_ex_seq fuel t ds with
    | None => None
    | Some (s, ds') => option_map (cons (visible_labels s)) (play_tree fuel t n ds')
    end
  end.
