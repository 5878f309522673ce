(** Checking whether a Petri net is a workflow net: pm4py/algo/analysis/workflow_net/variants/petri_net.py (sc) and
    pm4py/objects/petri_net/utils/check_soundness.py (cs). *)
From stdpp Require Import gmap.
From Coq Require Import ZArith List Arith Bool.
Import ListNotations.
From Verif Require Import Model_Petri Model_Graph.
Local Open Scope nat_scope.

(** Nodes of a net: objects compared by identity. *)
Inductive node := PNode (p : nat) | TNode (t : nat).
Section Net.
  Context {L : Type}.
  (** the arcs of the net *)
  Definition arcs (net : petri_net L) : list (node * node) :=
    flat_map (fun t => map (fun pw => (PNode (fst pw), TNode (t_id t))) (t_in t) ++ map (fun pw => (TNode (t_id t), PNode (fst pw))) (t_out t)) (n_trans net).
  Definition nodes (net : petri_net L) : list node := map PNode (n_places net) ++ map (fun t => TNode (t_id t)) (n_trans net).
  (** len(place.in_arcs) == 0, len(place.out_arcs) == 0 *)
  Definition no_in (net : petri_net L) (p : nat) : bool := forallb (fun t => negb (smem p (map fst (t_out t)))) (n_trans net).
  Definition no_out (net : petri_net L) (p : nat) : bool := forallb (fun t => negb (smem p (map fst (t_in t)))) (n_trans net).
  (** cs 53-76 check_source_place_presence, cs 79-102 check_sink_place_presence; sc 40-52: the place, if there is exactly one *)
  Definition the_only (l : list nat) : option nat := match l with [p] => Some p | _ => None end.
  Definition source_place (net : petri_net L) : option nat := the_only (List.filter (no_in net) (n_places net)).
  Definition sink_place (net : petri_net L) : option nat := the_only (List.filter (no_out net) (n_places net)).

  (** networkx.is_strongly_connected: every node reaches every node *)
  Definition strongly_connected (V : list nat) (E : list edge) : bool :=
    forallb (fun x => forallb (fun y => Nat.eqb x y || smem y (descendants E x)) V) V.
  (** sc 24-60 _short_circuit_petri_net and sc 63-101 apply.  The nodes of the graph are the NAMES of the places and transitions
      ([name]; [short] is the name "short_circuited_transition") *)
  Definition is_workflow_net (name : node -> nat) (short : nat) (net : petri_net L) : bool :=
    match source_place net, sink_place net with
    | Some i, Some o =>
      strongly_connected (short :: map name (nodes net))
        ((name (PNode o), short) :: (short, name (PNode i)) :: map (fun a => (name (fst a), name (snd a))) (arcs net))
    | _, _ => false
    end.

  (** objects/petri_net/utils/networkx_graph.py:20-59 create_networkx_undirected_graph numbers the objects; any numbering is the same
      up to renaming *)
  Definition number (x : node) : nat := match x with PNode p => 2 * p | TNode t => 2 * t + 1 end.
  (** nx.Graph is undirected: ancestors and descendants follow the arcs in both directions *)
  Definition und_arcs (net : petri_net L) : list edge :=
    let E := map (fun a => (number (fst a), number (snd a))) (arcs net) in E ++ flip E.
  (** cs 23-50 check_source_and_sink_reachability and cs 105-123 check_wfnet *)
  Definition check_wfnet (net : petri_net L) : bool :=
    match source_place net, sink_place net with
    | Some i, Some o =>
      Nat.eqb (length (ancestors (und_arcs net) (number (PNode o)))) (length (nodes net) - 1) &&
      Nat.eqb (length (descendants (und_arcs net) (number (PNode i)))) (length (nodes net) - 1)
    | _, _ => false
    end.
End Net.
