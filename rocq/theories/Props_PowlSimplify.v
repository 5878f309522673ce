(** C73: simplifying a POWL model. *)
From Coq Require Import List Arith Lia Bool.
Import ListNotations.
From Verif Require Import Model_Rel Spec_Rel Model_Powl Spec_Powl Spec_PowlSimplify Model_PowlSimplify Proofs_PowlS3 Proofs_PowlS4.

(** The simplified model has exactly the traces of the model. *)
Theorem C73_language : forall fuel t t', wf_powl t -> simplify fuel t = Some t' -> forall w, plang t' w <-> plang t w.
Proof. intros f t t' Hw E w. symmetry. apply (simplify_good f t t' Hw E). Qed.
Print Assumptions C73_language.

(** Its orders are still without cycles and nothing is empty. *)
Theorem C73_well_formed : forall fuel t t', wf_powl t -> simplify fuel t = Some t' -> wf_powl t'.
Proof. intros f t t' Hw E. apply (simplify_good f t t' Hw E). Qed.
Print Assumptions C73_well_formed.

(** The recursion ends, within as many nested calls as the model is deep, and the result is not deeper. *)
Theorem C73_terminates : forall t fuel, depth t <= fuel -> exists t', simplify fuel t = Some t' /\ depth t' <= depth t.
Proof. intros t f H. apply simplify_total; auto. Qed.
Print Assumptions C73_terminates.

(** Every choice that is built has at least two alternatives, so the constructor raises nothing. *)
Theorem C73_choices : forall fuel t t', real_choices t -> simplify fuel t = Some t' -> real_choices t'.
Proof. apply simplify_real. Qed.
Print Assumptions C73_choices.

(** No choice is directly inside a choice any more. *)
Theorem C73_no_nested_choice : forall fuel t t', simplify fuel t = Some t' -> flat_choices t'.
Proof. apply simplify_flat. Qed.
Print Assumptions C73_no_nested_choice.

(** a, optionally repeated; then b before c *)
Definition first_before : rel := fun i j => match i, j with 0, 1 => true | _, _ => false end.
Definition ex_nested : powl := PPo [PXor [PLeaf None; PLoop (PLeaf (Some 1)) (PLeaf None)]; PPo [PLeaf (Some 2); PLeaf (Some 3)] first_before] first_before.
Lemma first_before_acyclic n : acyclic n first_before.
Proof.
  intros i H. assert (G : forall x y, closure n first_before x y -> x < y).
  { intros x y C. induction C as [x y (_ & _ & C)|x y z _ IH1 _ IH2]; [|lia]. unfold first_before in C. destruct x, y as [|[|y]]; try discriminate. lia. }
  apply G in H. lia.
Qed.
Example ex_nested_wf : wf_powl ex_nested /\ real_choices ex_nested.
Proof.
  split; [|repeat constructor]. constructor; [discriminate|apply first_before_acyclic|]. constructor; [repeat constructor; discriminate|]. constructor; [|constructor].
  constructor; [discriminate|apply first_before_acyclic|repeat constructor].
Qed.
Example ex_nested_simplified : exists e, simplify 3 ex_nested = Some (PPo [PLoop (PLeaf None) (PLeaf (Some 1)); PLeaf (Some 2); PLeaf (Some 3)] e) /\
  map (fun ij => e (fst ij) (snd ij)) (pairs 3) = [false; true; false; false; false; true; false; false; false].
Proof. eexists. split; [reflexivity|vm_compute; reflexivity]. Qed.

(** The order of the result need not be transitive, even if all orders of the model are: the result is then rejected by the
    library's own check of a strict partial order. *)
Theorem C73_transitive_refuted : exists t n e n' e' t', t = PPo [PLeaf (Some 1); PPo [PLeaf (Some 2); PLeaf (Some 3)] e] e /\
  is_strict_partial_order n e = true /\ n = 2 /\ simplify 3 t = Some t' /\ (exists cs, t' = PPo cs e' /\ length cs = n') /\ is_strict_partial_order n' e' = false.
Proof.
  eexists _, 2, first_before, 3, _, _. split; [reflexivity|]. split; [reflexivity|]. split; [reflexivity|]. split; [reflexivity|]. split; [eexists; split; [reflexivity|reflexivity]|]. vm_compute. reflexivity.
Qed.
Print Assumptions C73_transitive_refuted.

(** Simplifying twice can change the model again: tau or (tau or loop). *)
Theorem C73_idempotent_refuted : exists t t' t'', real_choices t /\ simplify (depth t) t = Some t' /\ simplify (depth t') t' = Some t'' /\ t'' <> t'.
Proof.
  exists (PXor [PLeaf None; PXor [PLeaf None; PLoop (PLeaf None) (PLeaf (Some 1))]]). eexists _, _. split; [repeat constructor|]. split; [reflexivity|]. split; [reflexivity|]. discriminate.
Qed.
Print Assumptions C73_idempotent_refuted.
