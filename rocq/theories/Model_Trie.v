(** Prefix trees of logs (pm4py.discover_prefix_tree), and activities repeated within a case (pm4py.get_rework_cases_per_activity). *)
From Coq Require Import List Arith Bool ZArith.
Import ListNotations.
From Verif Require Import Model_Dict Model_Dfg.
From Verif Require Model_Filter Model_FilterDf.

(** pm4py/objects/trie/obj.py:17-61 Trie: label (None at the root), depth, final, children.  The parent is the position in the tree. *)
Inductive trie := Trie (label : option nat) (depth : nat) (final : bool) (children : list trie).
Definition t_label (t : trie) := let (l, _, _, _) := t in l.
Definition t_depth (t : trie) := let (_, d, _, _) := t in d.
Definition t_final (t : trie) := let (_, _, f, _) := t in f.
Definition t_children (t : trie) := let (_, _, _, c) := t in c.

(** pm4py/algo/transformation/log_to_trie/algorithm.py:53-58: position of the first child with the label *)
Fixpoint find_child (a : nat) (cs : list trie) : option nat :=
  match cs with
  | [] => None
  | c :: r => if match t_label c with Some b => Nat.eqb b a | None => false end then Some 0 else option_map S (find_child a r)
  end.
(** the node at a position of the list is changed in place *)
Fixpoint update {X} (k : nat) (f : X -> X) (l : list X) : list X :=
  match l, k with
  | [], _ => []
  | x :: r, 0 => f x :: r
  | x :: r, S k => x :: update k f r
  end.
(** algorithm.py:49-65: the walk of one variant; the node is marked final only when it is created by the last activity
    (the walk continues with the next activity when a child matches) *)
Fixpoint insert (v : trace) (t : trie) : trie :=
  match v with
  | [] => t
  | a :: w =>
    let (l, d, f, cs) := t in
    match find_child a cs with
    | Some k => Trie l d f (update k (insert w) cs)
    | None => Trie l d f (cs ++ [insert w (Trie (Some a) (d + 1) (match w with [] => true | _ => false end) [])])
    end
  end.
(** algorithm.py:45-66: one walk per variant *)
Definition prefix_tree (variants : list trace) : trie := fold_left (fun t v => insert v t) variants (Trie None 0 false []).
(** algorithm.py:36-45 apply for an event log: the variants are the keys of a dictionary, in order of first occurrence
    (statistics/variants/log/get.py:67-94) *)
Definition prefix_tree_log (l : log) : trie := prefix_tree (dedup l).

(** statistics/rework/log/get.py:29-61 apply *)
Definition rework_log (l : log) : @counter nat :=
  fold_left (fun ret t => fold_left (fun ret a => c_add ret a 1) (map fst (filter (fun an => 1 <? snd an) (c_of t))) ret) l [].
(** statistics/rework/pandas/get.py:33-65 apply.  The dataframe is the list of (case, activity) of its rows; cumcount is the number of
    earlier rows of the same group; groupby.last leaves one row per group; groupby.size counts them (groupby sorts its keys: the
    dictionary is compared by content only). *)
Fixpoint cumcount (seen rows : list (nat * nat)) : list ((nat * nat) * nat) :=
  match rows with
  | [] => []
  | ra :: r => (ra, length (filter (keqb ra) seen)) :: cumcount (seen ++ [ra]) r
  end.
Definition rework_df (rows : list (nat * nat)) : @counter nat :=
  c_of (map snd (dedup (map fst (filter (fun rn => 0 <? snd rn) (cumcount [] rows))))).
