(** Model of pm4py/objects/powl/obj.py (the classes), of
    pm4py/objects/conversion/powl/variants/to_petri_net.py and of
    pm4py/objects/conversion/process_tree/variants/to_powl.py.

    Simplifications: places and transitions are numbered as in Model_TreeNet; the nodes of a partial order are
    distinct objects and identified with their index (as in Model_Rel).  A FrequentTransition is a leaf whose label is
    its own (decorated) label. *)
From stdpp Require Import gmap.
From Coq Require Import ZArith List Bool.
Import ListNotations.
From Verif Require Import Model_Petri Model_Tree Model_TreeNet Model_Rel.

(** obj.py:68-110 Transition / SilentTransition (label None), 299-311 OperatorPOWL (XOR, and LOOP with exactly two
    children), 129-157 StrictPartialOrder with the matrix of its BinaryRelation. *)
Inductive powl :=
| PLeaf (l : option nat)
| PXor (cs : list powl)
| PLoop (d r : powl)
| PPo (cs : list powl) (e : rel).

(** What the loop over the children of a partial order creates for one child (to_petri_net.py:144-169): the silent
    transitions in front of and behind it, the places between tauSplit / tauJoin and these (at most one each), the
    two places made by the recursive call, and the transitions of the child. *)
Record pnode := Pnode { pn_k : nat; pn_ti : nat; pn_in : list nat; pn_tf : nat; pn_out : list nat; pn_sta : nat; pn_en : nat; pn_B : list tr }.
Definition mem (k : nat) (l : list nat) : bool := existsb (Nat.eqb k) l.
Definition place_if (b : bool) (s : counts) : list nat * counts :=
  if b then let '(p, s) := new_place s in ([p], s) else ([], s).

Section Children.
  Context (add : powl -> nat -> nat -> counts -> list tr * counts).
  (** to_petri_net.py:94-99 (XOR). *)
  Fixpoint powl_choice (cs : list powl) (i f : nat) (s : counts) : list tr * counts :=
    match cs with
    | [] => ([], s)
    | c :: r => let '(b, s) := add c i f s in let '(b', s) := powl_choice r i f s in (b ++ b', s)
    end.
  (** to_petri_net.py:144-169: the loop over the children; [k] is the index of the first one. *)
  Fixpoint powl_nodes (starts ends : list nat) (k : nat) (cs : list powl) (s : counts) : list pnode * counts :=
    match cs with
    | [] => ([], s)
    | c :: r =>
        let '(ti, s) := new_trans s in
        let '(ip, s) := place_if (mem k starts) s in
        let '(tf, s) := new_trans s in
        let '(fp, s) := place_if (mem k ends) s in
        let '(sta, s) := new_place s in
        let '(en, s) := new_place s in
        let '(b, s) := add c sta en s in
        let '(l, s) := powl_nodes starts ends (S k) r s in
        (Pnode k ti ip tf fp sta en b :: l, s)
    end.
End Children.
(** to_petri_net.py:171-177: a place for every edge of the transitive reduction. *)
Fixpoint powl_edges (r : rel) (l : list (nat * nat)) (s : counts) : list (nat * nat * nat) * counts :=
  match l with
  | [] => ([], s)
  | (i, j) :: l =>
      if r i j then let '(p, s) := new_place s in let '(es, s) := powl_edges r l s in ((i, j, p) :: es, s)
      else powl_edges r l s
  end.
Definition edges_into (k : nat) (es : list (nat * nat * nat)) : list nat := map snd (filter (fun x => Nat.eqb (snd (fst x)) k) es).
Definition edges_from (k : nat) (es : list (nat * nat * nat)) : list nat := map snd (filter (fun x => Nat.eqb (fst (fst x)) k) es).
Definition node_trans (es : list (nat * nat * nat)) (x : pnode) : list tr :=
  mk_trans (pn_ti x) None (pn_in x ++ edges_into (pn_k x) es) [pn_sta x] ::
  mk_trans (pn_tf x) None [pn_en x] (pn_out x ++ edges_from (pn_k x) es) :: pn_B x.

(** powl.order.get_transitive_reduction(); if it raises, so does the conversion, see [raises] below. *)
Definition reduced (n : nat) (e : rel) : rel := match get_transitive_reduction n e with Some r => r | None => e end.

(** to_petri_net.py:31-179 [recursively_add_tree] with an initial and a final place (created by the caller where
    the code is called with a transition or None). *)
Fixpoint add_powl (t : powl) (i f : nat) (s : counts) : list tr * counts :=
  match t with
  | PLeaf l => (* lines 81-90 *)
      let '(x, s) := new_trans s in ([mk_trans x l [i] [f]], s)
  | PXor cs => powl_choice add_powl cs i f s
  | PLoop d r => (* lines 100-128 *)
      let '(p, s) := new_place s in
      let '(x, s) := new_trans s in
      let '(y, s) := new_trans s in
      let '(q1, s) := new_place s in
      let '(bd, s) := add_powl d p q1 s in
      let '(q2, s) := new_place s in
      let '(br, s) := add_powl r q1 q2 s in
      let '(z, s) := new_trans s in
      (mk_trans x None [i] [p] :: mk_trans y None [q2] [p] :: mk_trans z None [q1] [f] :: bd ++ br, s)
  | PPo cs e => (* lines 130-177 *)
      let n := length cs in
      let r := reduced n e in
      let '(x, s) := new_trans s in
      let '(y, s) := new_trans s in
      let '(nds, s) := powl_nodes add_powl (get_start_nodes n r) (get_end_nodes n r) 0 cs s in
      let '(es, s) := powl_edges r (pairs n) s in
      (mk_trans x None [i] (flat_map pn_in nds) :: mk_trans y None (flat_map pn_out nds) [f] :: flat_map (node_trans es) nds, s)
  end.

(** The ValueError of get_transitive_reduction (BinaryRelation.py:110-111) is raised for some partial order. *)
Fixpoint raises (t : powl) : bool :=
  match t with
  | PLeaf _ => false
  | PXor cs => existsb raises cs
  | PLoop d r => raises d || raises r
  | PPo cs e => negb (is_irreflexive (length cs) e) || existsb raises cs
  end.

(** to_petri_net.py:203-236: the net before the reduction; source = 1, sink = 2, a silent transition behind the
    source and in front of the sink are always added. *)
Definition raw_powl (t : powl) : petri_net (option nat) :=
  let '(b, s) := add_powl t 3 4 (Counts 5 3) in
  Net (seq 1 (next_place s - 1)) (mk_trans 1 None [1] [3] :: mk_trans 2 None [4] [2] :: b).
(** to_petri_net.py:182-247 [apply]: [pn] is a possible result for [t] (the reduction and the removal of places as in
    Model_TreeNet); the markings are [net_im] and [net_fm]. *)
Definition powl_converted (t : powl) (pn : petri_net (option nat)) : Prop :=
  raises t = false /\
  exists pn1 order, simple_reduction (raw_powl t) pn1 /\ Permutation order (n_places pn1) /\ pn = clean_places order pn1.

(** * to_powl.py *)
(** to_powl.py:45-47: the edges of a sequence; no edges otherwise *)
Definition consecutive : rel := fun i j => Nat.eqb (S i) j.
Definition no_edges : rel := fun _ _ => false.
Section MapOpt.
  Context {A B : Type} (f : A -> option B).
  Fixpoint map_opt_list (l : list A) : option (list B) :=
    match l with
    | [] => Some []
    | a :: r => match f a, map_opt_list r with Some b, Some q => Some (b :: q) | _, _ => None end
    end.
End MapOpt.
(** to_powl.py:22-51 [apply_recursive]; None = an exception (OR, or the constructor of OperatorPOWL, obj.py:300-308). *)
Fixpoint tree_to_powl (t : tree nat) : option powl :=
  match t with
  | Leaf l => Some (PLeaf l)
  | Node o cs =>
      match map_opt_list tree_to_powl cs with
      | None => None
      | Some ps =>
          match o with
          | Or => None
          | Xor => if Nat.ltb (length ps) 2 then None else Some (PXor ps)
          | Loop => match ps with [d; r] => Some (PLoop d r) | _ => None end
          | Sequence => Some (PPo ps consecutive)
          | Parallel | Interleaving => Some (PPo ps no_edges)
          end
      end
  end.
