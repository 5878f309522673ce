(** C65: the playout of a process tree (pm4py.play_out on trees, top-bottom variant) generates traces of the language of
    the tree, exactly as many as asked for, and can generate each of them. *)
From Coq Require Import List Arith Lia Bool Permutation.
Import ListNotations.
From Verif Require Import Model_Tree Spec_Tree Proofs_Shuffle Model_TreePlayout Proofs_TreePlayout.

(** What the code supports: no inclusive choice, and loops with a do part and a single redo part. *)
Definition supported (t : tree nat) : Prop :=
  everywhere (fun u => match u with Node Or _ => False | Node Loop cs => length cs = 2 | _ => True end) t.

(** Whatever the random choices: if the playout gives a log, every trace is in the language of the tree (any tree,
    any operators), and the log has the number of traces asked for. *)
Theorem C65_sound fuel t num ds l :
  play_tree fuel t num ds = Some l ->
  length l = num /\ forall w, In w l -> lang t w.
Proof.
  revert ds l. induction num as [|n IH]; intros ds l H; cbn in H.
  - injection H as <-. split; [reflexivity|contradiction].
  - destruct (get_ex_seq fuel t ds) as [[s d]|] eqn:E; [|discriminate]. destruct (play_tree fuel t n d) as [l'|] eqn:E2; [|discriminate].
    injection H as <-. destruct (IH d l' E2) as [Hl Hw]. split; [cbn; congruence|]. intros w [<-|Hi]; [|auto]. eapply sound, E.
Qed.
Print Assumptions C65_sound.

(** Every log over the language can come out: for supported trees and any list of traces of the language there are
    random choices for which the playout gives exactly these traces. *)
Theorem C65_complete t l :
  supported t -> (forall w, In w l -> lang t w) ->
  exists fuel ds, play_tree fuel t (length l) ds = Some l.
Proof.
  intros Hs. assert (H : (forall w, In w l -> lang t w) -> exists fuel ds, forall m rest, fuel <= m -> play_tree m t (length l) (ds ++ rest) = Some l).
  { induction l as [|w l IH]; intros Hl; [exists 0, []; reflexivity|]. destruct (IH (fun v Hv => Hl v (or_intror Hv))) as (f & ds & E).
    destruct (complete t Hs w (Hl w (or_introl eq_refl))) as (n & d1 & s & Es & En). exists (n + f), (d1 ++ ds). intros m rest Hm.
    cbn [length play_tree]. rewrite <- app_assoc. rewrite (mono n m _ _ _ (En (ds ++ rest))) by lia. rewrite E by lia. cbn. now rewrite Es. }
  intros Hl. destruct (H Hl) as (f & ds & E). exists f, ds. specialize (E f [] (le_n _)). now rewrite app_nil_r in E.
Qed.
Print Assumptions C65_complete.

(** The shuffle of a parallel block: any rearrangement of the list of the numbers of the children (each repeated once
    per leaf executed in it) gives an interleaving of the executions of the children; the pops cannot fail. *)
Theorem C65_parallel (ss : list (list (option nat))) (p : list nat) :
  Permutation p (choices 0 ss) -> exists s, pops ss p = Some s /\ shuffle ss s.
Proof. intros H. destruct (pops_ok p ss H) as (s & E & Hs & _). eauto. Qed.
Print Assumptions C65_parallel.

(** An inclusive choice makes the playout fail, whatever the random choices. *)
Theorem C65_or_refuted fuel cs num ds : 0 < num -> play_tree fuel (Node Or cs) num ds = None.
Proof. destruct num; [lia|]. intros _. cbn. destruct fuel; reflexivity. Qed.
Print Assumptions C65_or_refuted.

(** The third child of a loop is never executed, although the semantics of the tree allows it. *)
Theorem C65_loop3_refuted :
  lang (Node Loop [Leaf (Some 1); Leaf (Some 2); Leaf (Some 3)]) [1; 3; 1] /\
  forall fuel num ds l w, play_tree fuel (Node Loop [Leaf (Some 1); Leaf (Some 2); Leaf (Some 3)]) num ds = Some l -> In w l -> ~ In 3 w.
Proof.
  set (t := Node Loop [Leaf (Some 1); Leaf (Some 2); Leaf (Some 3)]). split.
  - apply (L_loop_redo _ _ (Leaf (Some 3)) [1] [3] [1]); [constructor|right; now left|constructor|]. apply L_loop_exit. constructor.
  - assert (H : forall fuel ds s d, get_ex_seq fuel t ds = Some (s, d) -> ~ In 3 (visible_labels s)).
    { induction fuel as [|f IH]; intros ds s d H; [discriminate|]. destruct f as [|f]; [discriminate|].
      change (match ds with | DCoin false :: ds1 => Some ([Some 1], ds1)
              | DCoin true :: ds1 => match get_ex_seq (S f) t ds1 with Some (s2, ds3) => Some ([Some 1] ++ [Some 2] ++ s2, ds3) | None => None end
              | _ => None end = Some (s, d)) in H.
      destruct ds as [|[|[]|] ds]; try discriminate.
      - destruct (get_ex_seq (S f) t ds) as [[s2 d2]|] eqn:E; [|discriminate]. injection H as <- _. specialize (IH _ _ _ E). intros [H|[H|H]]; [discriminate..|tauto].
      - injection H as <- _. intros [H|[]]; discriminate. }
    intros fuel num. induction num as [|n IHn]; intros ds l w E Hw; cbn in E; [injection E as <-; contradiction|].
    destruct (get_ex_seq fuel t ds) as [[s d]|] eqn:Eg; [|discriminate]. destruct (play_tree fuel t n d) as [l'|] eqn:El; [|discriminate]. injection E as <-.
    destruct Hw as [<-|Hw]; [eapply H, Eg|eapply IHn; eauto].
Qed.
Print Assumptions C65_loop3_refuted.

(** ->(1, +(2, X(3, tau)), *(4, 5)) *)
Example C65_witness :
  let t := Node Sequence [Leaf (Some 1); Node Parallel [Leaf (Some 2); Node Xor [Leaf (Some 3); Leaf None]]; Node Loop [Leaf (Some 4); Leaf (Some 5)]] in
  supported t /\
  play_tree 9 t 2 [DChoice 0; DShuffle [1; 0]; DCoin true; DCoin false; DChoice 1; DShuffle [0; 1]; DCoin false] = Some [[1; 3; 2; 4; 5; 4]; [1; 2; 4]].
Proof. split; [|vm_compute; reflexivity]. repeat (constructor; try exact I; try reflexivity). Qed.
