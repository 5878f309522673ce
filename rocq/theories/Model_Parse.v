(** Model of process tree parsing: pm4py/objects/process_tree/utils/generic.py:212-307.
    A string is a list of 8-bit characters; the spellings of the silent leaf with a Greek letter
    (line 288) are left out.  An exception (AssertionError, IndexError, KeyError) is [None]. *)
From Coq Require Import String Ascii List Arith ZArith Bool.
Import ListNotations.
From Verif Require Import Model_Tree.
Local Open Scope list_scope.

Definition text := list ascii.
(** characters removed by str.strip() (8-bit range) *)
Definition is_space (c : ascii) : bool :=
  let n := nat_of_ascii c in
  (Nat.leb 9 n && Nat.leb n 13) || (Nat.leb 28 n && Nat.leb n 32) || Nat.eqb n 133 || Nat.eqb n 160.
Fixpoint lstrip (s : text) : text :=
  match s with
  | c :: r => if is_space c then lstrip r else s
  | [] => []
  end.
(** str.strip() *)
Definition strip (s : text) : text := rev (lstrip (rev (lstrip s))).

Definition c_cr : ascii := ascii_of_nat 13.
Definition c_nl : ascii := ascii_of_nat 10.
Definition c_sp : ascii := ascii_of_nat 32.
Definition c_quote : ascii := ascii_of_nat 39.
Definition c_open : ascii := ascii_of_nat 40.
Definition c_close : ascii := ascii_of_nat 41.
(** generic.py:250: strip().replace("\r", "").replace("\n", " ") *)
Definition normalise (s : text) : text :=
  map (fun c => if Ascii.eqb c c_nl then c_sp else c) (filter (fun c => negb (Ascii.eqb c c_cr)) (strip s)).

(** s.startswith(p), with the remaining text *)
Fixpoint after_prefix (p s : text) : option text :=
  match p, s with
  | [], _ => Some s
  | c :: p', d :: s' => if Ascii.eqb c d then after_prefix p' s' else None
  | _ :: _, [] => None
  end.
(** generic.py:253-270: the operators in the order in which they are tried *)
Definition op_order : list operator := [Loop; Parallel; Xor; Or; Sequence; Interleaving].
Fixpoint read_op (os : list operator) (s : text) : option (operator * text) :=
  match os with
  | [] => None
  | o :: r => match after_prefix (op_str o) s with
              | Some s' => Some (o, s')
              | None => read_op r s
              end
  end.

(** s.find("'"): the text before and from the first quote *)
Fixpoint split_quote (s : text) : option (text * text) :=
  match s with
  | [] => None
  | c :: r => if Ascii.eqb c c_quote then Some ([], s)
              else match split_quote r with Some (u, v) => Some (c :: u, v) | None => None end
  end.
(** generic.py:281-294: the label (None: silent) and the remaining text.  Without a closing quote,
    find returns -1: the label is all but the last character and the text stays as it is. *)
Definition read_leaf (s : text) : option (option text * text) :=
  match s with
  | c :: r =>
      if Ascii.eqb c c_quote then
        match split_quote r with
        | Some (u, _ :: v) => Some (Some u, v)
        | Some (u, []) => Some (Some u, [])
        | None => Some (Some (removelast r), r)
        end
      else match after_prefix s_tau s with Some r' => Some (None, r') | None => None end
  | [] => None
  end.

(** generic.py:300-302: "while string_rep.strip().startswith(')')"; [fuel] = number of characters. *)
Fixpoint closes (fuel : nat) (depth : Z) (s : text) : Z * text :=
  match fuel with
  | 0 => (depth, s)
  | S n => match strip s with
           | c :: r => if Ascii.eqb c c_close then closes n (depth - 1) r else (depth, s)
           | [] => (depth, s)
           end
  end.

(** What a call creates: an operator node or a leaf. *)
Inductive kind := KOp (o : operator) | KLeaf (l : option text).

(** generic.py:232-307 [parse_recursive].  The result is the list of the created nodes in order of
    creation, each with the depth at which it is created; its parent is depth_cache[depth-1], the
    last operator node created one level up ([assemble] below).  For depth < 0 the lookup in
    depth_cache fails (keys are non-negative); for depth > 0 it succeeds, because the depth only
    grows when an operator node has just been cached one level up. *)
Fixpoint parse_rec (fuel : nat) (s : text) (depth : Z) : option (list (Z * kind)) :=
  match fuel with
  | 0 => None
  | S n =>
      let s := normalise s in
      match read_op op_order s with
      | Some (o, r) =>
          if (depth <? 0)%Z then None
          else match strip r with
               | c :: r' => if Ascii.eqb c c_open
                            then option_map (cons (depth, KOp o)) (parse_rec n r' (depth + 1))
                            else None
               | [] => None
               end
      | None =>
          match read_leaf s with
          | None => None
          | Some (l, r) =>
              if (depth <? 0)%Z then None
              else let dr := closes (List.length r) depth r in
                   match strip (snd dr) with
                   | [] => Some [(depth, KLeaf l)]
                   | _ :: r' => option_map (cons (depth, KLeaf l)) (parse_rec n r' (fst dr))
                   end
          end
      end
  end.

(** "parent.children.append(node)" for all created nodes: the children of a node are the nodes one
    level down that are created before the next node on its own level or above. *)
Fixpoint take_children (d : Z) (f : list (Z * tree text)) : list (tree text) * list (Z * tree text) :=
  match f with
  | (e, t) :: r => if (e =? d + 1)%Z then let cr := take_children d r in (t :: fst cr, snd cr) else ([], f)
  | [] => ([], [])
  end.
Definition attach (x : Z * kind) (f : list (Z * tree text)) : list (Z * tree text) :=
  let cr := take_children (fst x) f in
  (fst x, match snd x with
          | KOp o => Node o (fst cr)
          | KLeaf l => Leaf l
          end) :: snd cr.
Definition assemble (l : list (Z * kind)) : list (Z * tree text) := fold_right attach [] l.

(** generic.py:212-229 [parse]: the first created node is returned. *)
Definition parse (s : text) : option (tree text) :=
  match parse_rec (S (List.length s)) s 0 with
  | Some l => match assemble l with (_, t) :: _ => Some t | [] => None end
  | None => None
  end.
(** str(tree) for trees labelled with strings: obj.py:158-197. *)
Definition show_tree (t : tree text) : text := show (fun l => l) t.
