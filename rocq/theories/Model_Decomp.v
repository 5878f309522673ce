(** Maximal decomposition of an accepting Petri net (pm4py.maximal_decomposition): pm4py/objects/petri_net/utils/decomposition.py. *)
From stdpp Require Import gmap.
From Coq Require Import ZArith List Arith Bool.
Import ListNotations.
From Verif Require Import Model_Petri Model_Graph Model_Wfnet Model_IM.
Local Open Scope nat_scope.

Section Decomp.
  (** the names of the nodes of the net, and the label texts (strings are numbers; a label can be the name of a node) *)
  Variable name : node -> nat.
  Variable text : nat -> nat.
  Variable net : petri_net (option nat).
  Definition t_name (t : transition (option nat)) : nat := name (TNode (t_id t)).
  (** decomposition.py:50-57: tmap, trans_dup_label (one entry for each label, the last transition with that label wins) *)
  Definition same_label (a : nat) : list (transition (option nat)) :=
    List.filter (fun t => match t_label t with Some b => Nat.eqb a b | None => false end) (n_trans net).
  Definition dup_trans : list (nat * transition (option nat)) :=
    flat_map (fun t => match t_label t with
                       | Some a => if 2 <=? length (same_label a) then match rev (same_label a) with u :: _ => [(a, u)] | [] => [] end else []
                       | None => [] end) (n_trans net).
  Definition silent_trans : list (transition (option nat)) := List.filter (fun t => match t_label t with None => true | Some _ => false end) (n_trans net).
  (** decomposition.py:38 all_inserted_val *)
  Definition inserted : list node := map PNode (n_places net) ++ map (fun t => TNode (t_id t)) silent_trans ++ map (fun au => TNode (t_id (snd au))) dup_trans.
  Definition node_eqb (x y : node) : bool := match x, y with PNode p, PNode q => Nat.eqb p q | TNode t, TNode u => Nat.eqb t u | _, _ => false end.
  Definition is_inserted (x : node) : bool := existsb (node_eqb x) inserted.
  (** decomposition.py:31-37 (the edges between equal labels are loops) and 39-43 *)
  Definition g_edges : list edge := map (fun au => (text (fst au), text (fst au))) dup_trans ++
    map (fun a => (name (fst a), name (snd a))) (List.filter (fun a => is_inserted (fst a) && is_inserted (snd a)) (arcs net)).
  (** decomposition.py:24-30, and the nodes added with the edges *)
  Definition g_nodes : list nat := map (fun p => name (PNode p)) (n_places net) ++ map t_name silent_trans ++ map (fun au => text (fst au)) dup_trans ++
    flat_map (fun e => [fst e; snd e]) g_edges.
  (** decomposition.py:23-45 get_graph_components *)
  Definition graph_components : list (list nat) := connected_components g_edges g_nodes.
  (** decomposition.py:61-91: the net of a component: its places, the transitions named in it and the transitions next to its places;
      the arcs at its places, all with weight 1 (the weight is not passed to add_arc_from_to) *)
  Definition in_comp (c : list nat) (p : nat) : bool := smem (name (PNode p)) c.
  Definition comp_arcs (c : list nat) (l : list (nat * Z)) : list (nat * Z) := map (fun pw => (fst pw, 1%Z)) (List.filter (fun pw => in_comp c (fst pw)) l).
  Definition comp_trans (c : list nat) (t : transition (option nat)) : transition (option nat) := Trans (t_id t) (t_label t) (comp_arcs c (t_in t)) (comp_arcs c (t_out t)).
  Definition touches (c : list nat) (t : transition (option nat)) : bool := smem (t_name t) c || existsb (fun pw => in_comp c (fst pw)) (t_in t ++ t_out t).
  Definition comp_net (c : list nat) : petri_net (option nat) := Net (List.filter (in_comp c) (n_places net)) (map (comp_trans c) (List.filter (touches c) (n_trans net))).
  (** decomposition.py:86-89 *)
  Definition comp_marking (c : list nat) (m : marking) : marking := base.filter (fun pv => in_comp c (fst pv) = true) m.
  (** decomposition.py:99-100 *)
  Definition not_empty (n : petri_net (option nat)) : bool := match n_places n, n_trans n with [], [] => false | _, _ => true end.
  Definition kept : list (list nat) := List.filter (fun c => not_empty (comp_net c)) graph_components.
  (** decomposition.py:48-102 decompose *)
  Definition decompose (im fm : marking) : list (petri_net (option nat) * marking * marking) :=
    map (fun c => (comp_net c, comp_marking c im, comp_marking c fm)) kept.
End Decomp.
