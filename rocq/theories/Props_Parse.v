(** Property theorem C20 (printing and parsing process trees). *)
From Coq Require Import String Ascii List Arith.
Import ListNotations.
From Verif Require Import Model_Tree Spec_Tree Model_Parse Spec_Parse Proofs_Parse.
Local Open Scope list_scope.

Theorem C20_parse_show : forall t : tree text, printable t -> parse (show_tree t) = Some t.
Proof. intros t [H1 H2]. apply parse_show; auto. Qed.
Print Assumptions C20_parse_show.

(** Consequently different trees are printed differently. *)
Theorem C20_show_injective : forall t u : tree text, printable t -> printable u -> show_tree t = show_tree u -> t = u.
Proof.
  intros t u Ht Hu E. apply C20_parse_show in Ht. apply C20_parse_show in Hu. rewrite E in Ht. congruence.
Qed.
Print Assumptions C20_show_injective.

Local Open Scope string_scope.
Definition lb (s : string) : tree text := Leaf (Some (list_ascii_of_string s)).
Example C20_example :
  let t := Node Sequence [lb "a, (b"; Node Xor [lb "tau"; Leaf None; lb ""]; Node Loop [Node Or [lb " x) "]; lb "->"]] in
  printable t /\ string_of_list_ascii (show_tree t) = "->( 'a, (b', X( 'tau', tau, '' ), *( O( ' x) ' ), '->' ) )".
Proof.
  split; [|reflexivity]. split; [|discriminate].
  repeat constructor; try discriminate; cbn in *; intuition (subst; discriminate).
Qed.

(** A tree that is a single labelled leaf is printed without quotes (obj.py:184-185): reading it
    back fails, or gives another tree. *)
Theorem C20_root_leaf_refuted :
  parse (show_tree (lb "a")) = None /\ parse (show_tree (lb "tau")) = Some (Leaf None).
Proof. split; reflexivity. Qed.
Print Assumptions C20_root_leaf_refuted.

(** A quote in a label: the tree read back is different. *)
Theorem C20_quote_refuted : exists t, everywhere (fun u => match u with Node _ cs => cs <> [] | _ => True end) t /\
  parse (show_tree t) <> Some t.
Proof.
  exists (Node Sequence [lb "a'b"; lb "c"]). split; [repeat constructor; discriminate|]. vm_compute. discriminate.
Qed.
Print Assumptions C20_quote_refuted.
