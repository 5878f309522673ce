(** C57, C58: alignments of traces with directly-follows graphs. *)
From Coq Require Import List Arith Bool Lia Permutation QArith.
Import ListNotations.
From Verif Require Import Model_Dict Model_DfgAlign Spec_DfgNet Spec_DfgAlign Proofs_DfgAlign3.
Local Open Scope nat_scope.

(** heappop: some state with the smallest cost leaves the queue. *)
Definition any_pop (pop : list ast -> option (ast * list ast)) : Prop :=
  pop [] = None /\
  forall l, l <> [] -> exists s r, pop l = Some (s, r) /\ Permutation l (s :: r) /\ forall x, In x l -> a_f s <= a_f x.
Definition any_nord (nord : list node -> list node) : Prop := forall l, Permutation (nord l) l.

(** C57: whatever the order of equal states in the heap and of the successors, the search ends; the cost that
    is returned is the cost of an optimal alignment; nothing is returned only if the graph has no trace. *)
Theorem C57_cost_optimal K edges sa ea trace pop nord fuel s : 0 < K -> any_pop pop -> any_nord nord ->
  align_dfg K edges sa ea trace pop nord fuel = Found s ->
  optimal_cost K edges sa ea trace (a_real s).
Proof. intros HK [H0 H1] HN. apply found_optimal; assumption. Qed.

Theorem C57_none_only_without_traces K edges sa ea trace pop nord fuel : 0 < K -> any_pop pop -> any_nord nord ->
  align_dfg K edges sa ea trace pop nord fuel = Exhausted -> forall w, ~ dfg_trace edges sa ea w.
Proof. intros HK [H0 H1] HN. apply exhausted_no_trace; assumption. Qed.

Theorem C57_terminates K edges sa ea trace pop nord : 0 < K -> any_pop pop -> any_nord nord ->
  exists f0, forall fuel, f0 <= fuel -> align_dfg K edges sa ea trace pop nord fuel <> OutOfFuel.
Proof. intros HK [H0 H1] HN. apply align_terminates; assumption. Qed.

(** If the graph has a trace, an alignment is returned for every trace of the log. *)
Theorem C57_alignment_found K edges sa ea trace pop nord w : 0 < K -> any_pop pop -> any_nord nord ->
  dfg_trace edges sa ea w ->
  exists f0, forall fuel, f0 <= fuel -> exists s, align_dfg K edges sa ea trace pop nord fuel = Found s.
Proof. intros HK [H0 H1] HN. apply align_found; assumption. Qed.

(** The cost is 0 exactly for the traces of the graph; then the returned moves are the synchronous moves. *)
Theorem C57_cost_zero K edges sa ea trace pop nord fuel s : 0 < K -> any_pop pop -> any_nord nord ->
  align_dfg K edges sa ea trace pop nord fuel = Found s ->
  (a_real s = 0 <-> dfg_trace edges sa ea trace) /\
  (dfg_trace edges sa ea trace -> back_moves trace s = map (fun a => (Some a, Some (NAct a))) trace).
Proof.
  intros HK [H0 H1] HN E. pose proof (found_optimal K edges sa ea pop nord HK H0 H1 HN trace fuel s E) as HO.
  pose proof (optimal_zero K edges sa ea HK trace _ HO) as HZ. split; [exact HZ|].
  intros Ht. apply (found_moves K edges sa ea pop nord HK H0 H1 HN trace fuel s E), HZ, Ht.
Qed.

(** The returned moves are an optimal alignment, if the trace begins with a start activity and the end node is not
    shown (see the _refuted theorems below for these conditions). *)
Theorem C57_moves K edges sa ea pop nord fuel x t s : 0 < K -> any_pop pop -> any_nord nord -> In x sa ->
  align_dfg K edges sa ea (x :: t) pop nord fuel = Found s ->
  (forall y, ~ In (y, Some NEnd) (back_moves (x :: t) s)) ->
  exists moves w k, back_moves (x :: t) s = map (fun m => (fst m, option_map NAct (snd m))) moves /\
    dfg_trace edges sa ea w /\ legal moves (x :: t) w k /\ a_real s = K * k.
Proof.
  intros HK [H0 H1] HN Hx E Hs. apply (found_legal K edges sa ea pop nord HK H0 H1 HN x t fuel s Hx E). intros (y & Hy). exact (Hs y Hy).
Qed.

(** C58: [apply_log]: each trace gets the cost of its optimal alignment, a fitness between 0 and 1 that is 1
    exactly for the traces of the graph and 0 exactly when the cost is the worst-case cost. *)
Theorem C58_log_results K edges sa ea pop nord fuel traces rs : 0 < K -> any_pop pop -> any_nord nord ->
  align_dfg_log K edges sa ea pop nord fuel traces = Some rs ->
  Forall2 (fun t r => let '(cost, bwc, fitness) := r in
     optimal_cost K edges sa ea t cost /\
     (exists e, optimal_cost K edges sa ea [] e /\ bwc = e + K * length t) /\
     cost <= bwc /\ (fitness == 1 - inject_Z (Z.of_nat cost) / inject_Z (Z.of_nat bwc))%Q /\
     (0 <= fitness <= 1)%Q /\
     (fitness == 1 <-> dfg_trace edges sa ea t)%Q /\ (fitness == 0 <-> cost = bwc)%Q) traces rs.
Proof.
  intros HK [H0 H1] HN E. apply (align_log_spec K edges sa ea pop nord HK H0 H1 HN) in E.
  induction E as [|t [[cost bwc] fit] ts rs Hr _ IH]; constructor; [|exact IH].
  destruct (result_fitness K edges sa ea HK t cost bwc fit Hr) as (A & _ & B & C & D & F). split; [exact A|].
  destruct Hr as (c' & e & _ & He & [= -> -> ->]). split; [exists e; auto|]. split; [exact B|]. split; [reflexivity|]. auto.
Qed.

(** [apply_log] returns a result for every log if the graph has a trace. *)
Theorem C58_log_total K edges sa ea pop nord traces w : 0 < K -> any_pop pop -> any_nord nord ->
  dfg_trace edges sa ea w ->
  exists f0, forall fuel, f0 <= fuel -> exists rs, align_dfg_log K edges sa ea pop nord fuel traces = Some rs.
Proof. intros HK [H0 H1] HN. apply align_log_total; assumption. Qed.

(** A heap that takes the smallest tuple (f, -index, ...). *)
Definition better (x y : ast) : bool := Nat.ltb (a_f x) (a_f y) || (Nat.eqb (a_f x) (a_f y) && Nat.ltb (a_idx y) (a_idx x)).
Fixpoint heap_pop (l : list ast) : option (ast * list ast) :=
  match l with
  | [] => None
  | x :: r => match heap_pop r with
              | None => Some (x, [])
              | Some (y, r') => if better y x then Some (y, x :: r') else Some (x, r)
              end
  end.
Lemma heap_pop_any : any_pop heap_pop.
Proof.
  split; [reflexivity|]. induction l as [|x r IH]; intros Hl; [congruence|]. cbn [heap_pop].
  destruct r as [|z r0]; [exists x, []; split; [reflexivity|]; split; [reflexivity|]; intros y [<-|[]]; lia|].
  destruct (IH ltac:(discriminate)) as (y & r' & E & HP & Hm). rewrite E. destruct (better y x) eqn:B.
  - exists y, (x :: r'). split; [reflexivity|]. split; [rewrite HP; apply perm_swap|].
    intros u [<-|Hu]; [|apply Hm, Hu]. unfold better in B. apply orb_true_iff in B as [B|B].
    + apply Nat.ltb_lt in B. lia.
    + apply andb_true_iff in B as [B _]. apply Nat.eqb_eq in B. lia.
  - exists x, (z :: r0). split; [reflexivity|]. split; [reflexivity|]. intros u [<-|Hu]; [lia|]. specialize (Hm u Hu).
    unfold better in B. apply orb_false_iff in B as [B _]. apply Nat.ltb_ge in B. lia.
Qed.

(** The moves that are returned are not an alignment in general: moves on the model before the first event are
    left out; a move on the log after the end of the model is lost, and the random name of the end node appears
    as an activity instead. *)
Theorem C57_moves_before_first_event_lost_refuted :
  exists edges sa ea trace s, align_dfg 10 edges sa ea trace heap_pop (fun l => l) 100 = Found s /\
    a_real s = 10 /\ trace = [2] /\ dfg_trace edges sa ea [1; 2] /\
    (forall w, dfg_trace edges sa ea w -> w = [1; 2]) /\
    back_moves trace s = [(Some 2, Some (NAct 2))].
Proof.
  exists [(1, 2)], [1], [2], [2]. eexists. split; [vm_compute; reflexivity|]. split; [reflexivity|]. split; [reflexivity|]. split.
  - constructor; [left; reflexivity|]. apply ef_step; [left; reflexivity|]. constructor. left. reflexivity.
  - split; [|reflexivity]. intros w Hw. inversion Hw as [a w' Ha He]; subst. destruct Ha as [<-|[]].
    inversion He as [a Ha|a b w'' Hb He']; subst; [destruct Ha as [?|[]]; discriminate|]. destruct Hb as [[= <-]|[]].
    inversion He' as [a Ha|a b w3 Hb He3]; subst; [reflexivity|]. destruct Hb as [[=]|[]].
Qed.
Theorem C57_moves_after_end_lost_refuted :
  exists edges sa ea trace s, align_dfg 10 edges sa ea trace heap_pop (fun l => l) 100 = Found s /\
    a_real s = 10 /\ trace = [1; 1] /\
    back_moves trace s = [(Some 1, Some (NAct 1)); (Some 1, Some NEnd)].
Proof. exists [], [1], [1], [1; 1]. eexists. split; [vm_compute; reflexivity|]. repeat split. Qed.

(** Concrete cases (with K = 10 for 10000, to keep the unary numbers small): a graph with a choice and a loop; unknown activities, moves on both sides. *)
Example align_example :
  let edges := [(1, 2); (1, 3); (2, 4); (3, 4); (4, 1)] in
  match align_dfg 10 edges [1] [4] [1; 9; 4; 1; 3; 2; 4] heap_pop (fun l => l) 1000 with
  | Found s => a_real s = 30 /\ a_f s = 20
  | _ => False
  end.
Proof. vm_compute. split; reflexivity. Qed.
Example align_moves_example :
  match align_dfg 10 [(1, 2); (1, 3); (2, 4); (3, 4); (4, 1)] [1] [4] [1; 9; 4; 1; 3; 2; 4] heap_pop (fun l => l) 1000 with
  | Found s => back_moves [1; 9; 4; 1; 3; 2; 4] s =
     [(Some 1, Some (NAct 1)); (Some 9, None); (None, Some (NAct 2)); (Some 4, Some (NAct 4)); (Some 1, Some (NAct 1));
      (Some 3, Some (NAct 3)); (Some 2, None); (Some 4, Some (NAct 4))]
  | _ => False
  end.
Proof. vm_compute. reflexivity. Qed.
Example align_log_example :
  let edges := [(1, 2); (1, 3); (2, 4); (3, 4); (4, 1)] in
  option_map (map fst) (align_dfg_log 10 edges [1] [4] heap_pop (fun l => l) 1000 [[1; 2; 4]; [1; 9; 4]; [1; 2; 4]; []])
    = Some [(0, 60); (20, 60); (0, 60); (30, 30)].
Proof. vm_compute. reflexivity. Qed.
Example no_trace_example : align_dfg 10 [(1, 2)] [1] [3] [1; 2] heap_pop (fun l => l) 1000 = Exhausted.
Proof. vm_compute. reflexivity. Qed.
Print Assumptions C57_cost_optimal.
Print Assumptions C57_none_only_without_traces.
Print Assumptions C57_terminates.
Print Assumptions C57_alignment_found.
Print Assumptions C57_cost_zero.
Print Assumptions C58_log_results.
Print Assumptions C58_log_total.
Print Assumptions C57_moves_before_first_event_lost_refuted.
Print Assumptions C57_moves_after_end_lost_refuted.
Print Assumptions C57_moves.
