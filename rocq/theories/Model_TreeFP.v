(** Model of pm4py/algo/discovery/footprints/tree/variants/bottomup.py.
    Python sets are lists (only membership matters); a Python exception (KeyError/IndexError/
    TypeError) is [None].  The dictionary that maps each (equal) node to its footprints is replaced
    by the recursion over the tree (bottom-up order, equal nodes get equal footprints). *)
From Coq Require Import List Arith Bool.
Import ListNotations.
From Verif Require Import Model_Tree.

Record footprint := FP {
  f_start : list nat; f_end : list nat; f_acts : list nat; f_skip : bool;
  f_seq : list (nat * nat); f_par : list (nat * nat); f_always : list nat }.

Definition pair_eqb (x y : nat * nat) : bool := Nat.eqb (fst x) (fst y) && Nat.eqb (snd x) (snd y).
Definition mem_pair (x : nat * nat) (l : list (nat * nat)) : bool := existsb (pair_eqb x) l.
Definition mem_nat (x : nat) (l : list nat) : bool := existsb (Nat.eqb x) l.
Definition inter (l k : list nat) : list nat := filter (fun x => mem_nat x k) l.

(** bottomup.py:48-73 [fix_fp]. *)
Definition fix_fp (sequence parallel : list (nat * nat)) : list (nat * nat) * list (nat * nat) :=
  let sequence := filter (fun x => negb (mem_pair x parallel)) sequence in
  let par_els := filter (fun x => mem_pair (snd x, fst x) sequence) sequence in
  (filter (fun x => negb (mem_pair x par_els)) sequence, parallel ++ par_els).

Definition finish (st en ac : list nat) (sk : bool) (sq pr : list (nat * nat)) (al : list nat) : footprint :=
  let sp := fix_fp sq pr in FP st en ac sk (fst sp) (snd sp) al.

(** bottomup.py:76-98 [get_footprints_leaf]. *)
Definition fp_leaf (l : option nat) : footprint :=
  match l with
  | None => FP [] [] [] true [] [] []
  | Some a => FP [a] [a] [a] false [] [] [a]
  end.

(** bottomup.py:101-145 [get_footprints_xor]. *)
Definition fp_xor (fs : list footprint) : footprint :=
  finish (flat_map f_start fs) (flat_map f_end fs) (flat_map f_acts fs) (existsb f_skip fs)
    (flat_map f_seq fs) (flat_map f_par fs)
    (fold_left (fun acc n => if negb (f_skip n) then inter acc (f_always n) else []) fs
       (match fs with [] => [] | f :: _ => f_always f end)).

(** bottomup.py:173-174, 228-229: the activities that always happen, for parallel and sequence. *)
Definition always_all (fs : list footprint) : list nat :=
  flat_map (fun n => if negb (f_skip n) then f_always n else []) fs.

(** bottomup.py:176-188: all pairs of activities of different children, both ways. *)
Definition both (l k : list nat) : list (nat * nat) := flat_map (fun a1 => flat_map (fun a2 => [(a1, a2); (a2, a1)]) k) l.
Fixpoint cross (fs : list footprint) : list (nat * nat) :=
  match fs with
  | [] => []
  | f :: r => flat_map (fun g => both (f_acts f) (f_acts g)) r ++ cross r
  end.
(** bottomup.py:148-200 [get_footprints_parallel]. *)
Definition fp_parallel (fs : list footprint) : footprint :=
  finish (flat_map f_start fs) (flat_map f_end fs) (flat_map f_acts fs) (forallb f_skip fs)
    (flat_map f_seq fs) (flat_map f_par fs ++ cross fs) (always_all fs).

(** bottomup.py:251-258: the start activities up to the first child that cannot be skipped. *)
Fixpoint starts (fs : list footprint) : list nat :=
  match fs with
  | [] => []
  | f :: r => f_start f ++ (if negb (f_skip f) then [] else starts r)
  end.
(** bottomup.py:260-267: the same from the right. *)
Fixpoint ends_rev (fs : list footprint) : list nat :=
  match fs with
  | [] => []
  | f :: r => f_end f ++ (if negb (f_skip f) then [] else ends_rev r)
  end.
Definition ends (fs : list footprint) : list nat := ends_rev (rev fs).
Definition prod_pairs (l k : list nat) : list (nat * nat) := flat_map (fun a1 => map (fun a2 => (a1, a2)) k) l.
(** bottomup.py:237-247: inner loop for the child [n0] and the children after it. *)
Fixpoint link (n0 : footprint) (r : list footprint) : list (nat * nat) :=
  match r with
  | [] => []
  | n1 :: r' => prod_pairs (f_end n0) (f_start n1) ++ (if negb (f_skip n1) then [] else link n0 r')
  end.
Fixpoint links (fs : list footprint) : list (nat * nat) :=
  match fs with [] => [] | f :: r => link f r ++ links r end.
(** bottomup.py:203-275 [get_footprints_sequence]. *)
Definition fp_sequence (fs : list footprint) : footprint :=
  finish (starts fs) (ends fs) (flat_map f_acts fs) (forallb f_skip fs)
    (flat_map f_seq fs ++ links fs) (flat_map f_par fs) (always_all fs).

(** bottomup.py:278-345 [get_footprints_loop]. *)
Definition fp_loop (fs : list footprint) : option footprint :=
  match fs with
  | d :: r :: _ =>
      Some (finish (f_start d ++ (if f_skip d then f_start r else []))
        (f_end d ++ (if f_skip d then f_end r else []))
        (flat_map f_acts fs) (f_skip d)
        (flat_map f_seq fs ++ prod_pairs (f_end d) (f_start r) ++ prod_pairs (f_end r) (f_start d)
           ++ (if f_skip d then prod_pairs (f_end r) (f_start r) else [])
           ++ (if f_skip r then prod_pairs (f_end d) (f_start d) else []))
        (flat_map f_par fs) (if negb (f_skip d) then f_always d else []))
  | _ => None
  end.

(** bottomup.py:348-373 [get_footprints] over the whole tree (376-401 [get_all_footprints]). *)
Fixpoint footprints (t : tree nat) : option footprint :=
  match t with
  | Leaf l => Some (fp_leaf l)
  | Node o cs =>
      match (fix go (cs : list (tree nat)) : option (list footprint) :=
               match cs with
               | [] => Some []
               | c :: r => match footprints c, go r with Some f, Some fs => Some (f :: fs) | _, _ => None end
               end) cs with
      | None => None
      | Some fs =>
          match cs with
          | [] => Some (fp_leaf None)
          | _ => match o with
                 | Xor => Some (fp_xor fs)
                 | Parallel | Or => Some (fp_parallel fs)
                 | Sequence => Some (fp_sequence fs)
                 | Loop => fp_loop fs
                 | Interleaving => None
                 end
          end
      end
  end.
