(** Writing and reading process trees (pm4py.write_ptml / pm4py.read_ptml):
    pm4py/objects/process_tree/exporter/variants/ptml.py (ex) and pm4py/objects/process_tree/importer/variants/ptml.py (im).

    XML elements are the trees of Model_Pnml; the XML library (lxml) is taken to return the tree that was written.  The nodes of a tree are
    identified with their paths from the root; [uid] gives the random identifier (uuid4) of each node.  An exception is [None]. *)
From Coq Require Import String Ascii List Arith ZArith Bool.
Import ListNotations.
From Verif Require Import Model_Lev Model_Tree Model_Parse Model_Dict Model_DfgFile Model_Pnml.
Local Open Scope list_scope.

(** ex 86-95: loops with fewer than three children get a silent last child *)
Fixpoint pad {A} (t : tree A) : tree A :=
  match t with
  | Leaf l => Leaf l
  | Node o cs => let cs' := map pad cs in
                 Node o (match o with Loop => if length cs <? 3 then cs' ++ [Leaf None] else cs' | _ => cs' end)
  end.
Definition item := (list nat * tree text)%type.
Definition children {A} (t : tree A) : list (tree A) := match t with Leaf _ => [] | Node _ cs => cs end.
Fixpoint number {A} (p : list nat) (i : nat) (cs : list A) : list (list nat * A) := match cs with [] => [] | c :: r => (p ++ [i], c) :: number p (S i) r end.
(** the children of a node, with their paths *)
Definition sub_items (x : item) : list item := number (fst x) 0 (children (snd x)).
(** ex 31-60 get_list_nodes_from_tree: breadth-first; [fuel]: the number of nodes *)
Fixpoint bfs (fuel : nat) (todo : list item) : list item :=
  match fuel, todo with
  | S n, x :: q => x :: bfs n (q ++ sub_items x)
  | _, _ => []
  end.
(** ex 106-128; the automatic task has an empty name; INTERLEAVING is not handled (the element is None, and child.set raises) *)
Definition node_xml (uid : list nat -> text) (x : item) : option xml :=
  let elem tg nm := Some (Elem (tx tg) [(tx "name", nm); (tx "id", uid (fst x))] [] []) in
  match snd x with
  | Leaf None => elem "automaticTask"%string []
  | Leaf (Some l) => elem "manualTask"%string l
  | Node Sequence _ => elem "sequence"%string []
  | Node Xor _ => elem "xor"%string []
  | Node Parallel _ => elem "and"%string []
  | Node Or _ => elem "or"%string []
  | Node Loop _ => elem "xorLoop"%string []
  | Node Interleaving _ => None
  end.
(** ex 130-135; [eid]: the random identifier of the edge *)
Definition edge_xml (uid eid : list nat -> text) (x : item) : xml :=
  Elem (tx "parentsNode") [(tx "id", eid (fst x)); (tx "sourceId", uid (removelast (fst x))); (tx "targetId", uid (fst x))] [] [].
(** ex 63-138 export_ptree_tree; a node gets no edge if it is equal (__eq__) to the whole tree *)
Definition export_tree (uid eid : list nat -> text) (name id : text) (t : tree text) : option xml :=
  let t' := pad t in
  let nodes := bfs (size t') [([], t')] in
  option_map (fun els => Elem (tx "ptml") [] []
    [Elem (tx "processTree") [(tx "name", name); (tx "root", uid []); (tx "id", id)] []
      (els ++ map (edge_xml uid eid) (filter (fun x => negb (tree_eqb keqb (snd x) t')) nodes))])
    (map_opt (node_xml uid) nodes).

(** The objects built by the importer: (0, i) is the node with identifier i, (1, i) the sequence made for the loop i. *)
Definition ref := (nat * text)%type.
Record cell := Cell { c_op : option operator; c_label : option text; c_kids : list ref; c_parent : option ref }.
Definition heap := dict ref cell.
(** im 122-146 *)
Definition tag_cell (tg name : text) : option cell :=
  if keqb tg (tx "and") then Some (Cell (Some Parallel) None [] None)
  else if keqb tg (tx "sequence") then Some (Cell (Some Sequence) None [] None)
  else if keqb tg (tx "xor") then Some (Cell (Some Xor) None [] None)
  else if keqb tg (tx "xorLoop") then Some (Cell (Some Loop) None [] None)
  else if keqb tg (tx "or") then Some (Cell (Some Or) None [] None)
  else if keqb tg (tx "manualTask") then Some (Cell None (Some name) [] None)
  else if keqb tg (tx "automaticTask") then Some (Cell None None [] None)
  else None.
Definition with_kids (c : cell) (k : list ref) : cell := Cell (c_op c) (c_label c) k (c_parent c).
Definition with_parent (c : cell) (p : option ref) : cell := Cell (c_op c) (c_label c) (c_kids c) p.
(** im 113-150: one element: a node (it has a name) or an edge.  Identifiers of nodes are distinct in a file. *)
Definition read_elem (h : heap) (e : xml) : option heap :=
  match attr e (tx "name") with
  | Some name => match attr e (tx "id"), tag_cell (tag e) name with
                 | Some i, Some c => Some (d_set h (0, i) c)
                 | _, _ => None
                 end
  | None => match attr e (tx "sourceId"), attr e (tx "targetId") with
            | Some s, Some t =>
              match d_get h (0, s), d_get h (0, t) with
              | Some cs, Some _ => let h1 := d_set h (0, s) (with_kids cs (c_kids cs ++ [(0, t)])) in
                                   match d_get h1 (0, t) with Some ct => Some (d_set h1 (0, t) (with_parent ct (Some (0, s)))) | None => None end
              | _, _ => None
              end
            | _, _ => None
            end
  end.
Fixpoint read_elems (h : heap) (l : list xml) : option heap :=
  match l with [] => Some h | e :: r => match read_elem h e with Some h' => read_elems h' r | None => None end end.
Fixpoint remove_ref (r : ref) (l : list ref) : list ref := match l with [] => [] | x :: l' => if keqb x r then l' else x :: remove_ref r l' end.
(** im 152-168: a loop with three children, the third not silent, becomes a sequence of a loop with two children and the third;
    the sequence is put at the end of the children of the loop's parent.  (The code deletes the first child equal to the loop.) *)
Definition fix_loop (h : heap) (r : ref) : heap :=
  match d_get h r with
  | Some c =>
    match c_op c, c_kids c with
    | Some Loop, [a; b; e] =>
      let h1 := match d_get h e with
                | Some (Cell None None _ _) => h
                | Some ce =>
                  let n := (1, snd r) in
                  let h := d_set h r (with_parent c (Some n)) in
                  let h := d_set h e (with_parent ce (Some n)) in
                  let h := d_set h n (Cell (Some Sequence) None [r; e] (c_parent c)) in
                  match c_parent c with
                  | Some p => match d_get h p with Some cp => d_set h p (with_kids cp (remove_ref r (c_kids cp) ++ [n])) | None => h end
                  | None => h
                  end
                | None => h
                end in
      match d_get h1 r with Some c1 => d_set h1 r (with_kids c1 [a; b]) | None => h1 end
    | _, _ => h
    end
  | None => h
  end.
(** the tree under a node *)
Fixpoint unfold_ref (fuel : nat) (h : heap) (r : ref) : option (tree text) :=
  match fuel with
  | 0 => None
  | S n => match d_get h r with
           | None => None
           | Some c => match c_op c with
                       | None => Some (Leaf (c_label c))
                       | Some o => option_map (Node o) (map_opt (unfold_ref n h) (c_kids c))
                       end
           end
  end.
(** im 89-172 import_tree_from_xml_object: the last element under the root; [hash]: the md5 value of a label *)
Definition import_tree (hash : text -> Z) (root : xml) : option (tree text) :=
  match last_such (fun _ => true) (kids root) with
  | None => None
  | Some c0 =>
    match attr c0 (tx "root"), read_elems [] (kids c0) with
    | Some r, Some h =>
      let h' := fold_left fix_loop (map fst h) h in
      option_map (tree_sort hash) (unfold_ref (S (length h')) h' (0, r))
    | _, _ => None
    end
  end.
