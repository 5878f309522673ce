(** Property theorems C17, C41 (edit distance). *)
From Coq Require Import List Arith.
Import ListNotations.
From Verif Require Import Model_Lev Spec_Lev Proofs_Lev.

(** C17 *)
Theorem C17_levenshtein_minimal : forall s1 s2, edit_distance s1 s2 (levenshtein_distance s1 s2).
Proof. exact levenshtein_correct. Qed.
Print Assumptions C17_levenshtein_minimal.

Theorem C17_levenshtein_metric : forall a b c,
  levenshtein_distance a b = levenshtein_distance b a /\
  (levenshtein_distance a b = 0 <-> a = b) /\
  levenshtein_distance a c <= levenshtein_distance a b + levenshtein_distance b c.
Proof. exact levenshtein_metric. Qed.
Print Assumptions C17_levenshtein_metric.

Example C17_example : levenshtein_distance [1; 2; 3; 4] [2; 3; 5; 4; 6] = 3 /\ levenshtein_distance [] [1] = 1.
Proof. split; reflexivity. Qed.

(** C41 *)
Theorem C41_argmin_closest : forall stru l,
  match argmin_levenshtein stru l with
  | None => l = []
  | Some c => In c l /\ forall x, In x l -> levenshtein_distance stru c <= levenshtein_distance stru x
  end.
Proof. exact argmin_correct. Qed.
Print Assumptions C41_argmin_closest.

Theorem C41_argmax_farthest : forall stru l,
  match argmax_levenshtein stru l with
  | None => forall x, In x l -> x = stru
  | Some c => In c l /\ forall x, In x l -> levenshtein_distance stru x <= levenshtein_distance stru c
  end.
Proof. exact argmax_correct. Qed.
Print Assumptions C41_argmax_farthest.

(** argmax_levenshtein on a non-empty list may return None (string_distance.py:112,122: strict
    comparison with the initial 0). *)
Theorem C41_argmax_none_refuted : exists stru l, l <> [] /\ argmax_levenshtein stru l = None.
Proof. exists [1], [[1]]. split; [discriminate|reflexivity]. Qed.
Print Assumptions C41_argmax_none_refuted.

Example C41_example : argmin_levenshtein [1; 2] [[5; 6; 7]; [1; 2; 3]; [9]] = Some [1; 2; 3] /\
  argmax_levenshtein [1; 2] [[1; 2]; [5; 6; 7]; [9]] = Some [5; 6; 7].
Proof. split; reflexivity. Qed.
