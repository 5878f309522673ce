(** C109: encodings of activities. *)
From Coq Require Import List Arith Bool Permutation Sorting.Sorted Lia.
From Verif Require Import Model_Encode Spec_Encode Proofs_Encode.
Import ListNotations.

(** the codes are the words over the alphabet, each once, in the order of length and then of the dictionary *)
Theorem C109_codes : (forall i, word (code i)) /\ (forall w, word w -> exists i, code i = w) /\ forall i j, i < j <-> shortlex (code i) (code j).
Proof. split; [apply code_word|]. split; [apply code_onto|apply code_order]. Qed.
Print Assumptions C109_codes.

(** every activity of the column gets a code, others none; different activities get different codes, the more frequent one the earlier one; no word that comes before the
    code of an activity is left unused *)
Theorem C109_mapping (col : list nat) : let d := remap_dict col in
  (forall a, In a col <-> exists w, get Nat.eqb d a = Some w) /\ (forall a w, get Nat.eqb d a = Some w -> word w) /\
  (forall a b w, get Nat.eqb d a = Some w -> get Nat.eqb d b = Some w -> a = b) /\
  (forall a b w v, get Nat.eqb d a = Some w -> get Nat.eqb d b = Some v -> count col b < count col a -> shortlex w v) /\
  (forall a w v, get Nat.eqb d a = Some w -> word v -> shortlex v w -> exists b, get Nat.eqb d b = Some v).
Proof.
  intros d. unfold d. split; [|split; [|split; [|split]]].
  - intros a. rewrite <- vc_in. split; [intros H; apply In_nth_error in H as (i & H); exists (code i); apply remap_get; eauto|intros (w & H); apply remap_get in H as (i & H & _); eapply nth_error_In; eauto].
  - intros a w H. apply remap_get in H as (i & _ & ->). apply code_word.
  - intros a b w Ha Hb. apply remap_get in Ha as (i & Hi & ->). apply remap_get in Hb as (j & Hj & E). apply code_inj in E. congruence.
  - intros a b w v Ha Hb L. apply remap_get in Ha as (i & Hi & ->). apply remap_get in Hb as (j & Hj & ->). apply code_order. destruct (lt_eq_lt_dec i j) as [[Q|Q]|Q]; auto; exfalso; [subst j; assert (a = b) by congruence; subst; lia|].
    assert (G : forall l i j x y, StronglySorted (fun a b => count col b <= count col a) l -> i < j -> nth_error l i = Some x -> nth_error l j = Some y -> count col y <= count col x).
    { clear. intros l i j x y S. revert i j. induction S as [|z l S IH F]; intros [|i] [|j] L Hi Hj; try discriminate; try lia; cbn in *; [injection Hi as <-; rewrite Forall_forall in F; apply F; eapply nth_error_In; eauto|apply (IH i j); auto; lia]. }
    specialize (G _ j i b a (sort_sorted (count col) (firsts [] col)) Q Hj Hi). lia.
  - intros a w v Ha V L. apply remap_get in Ha as (i & Hi & ->). destruct (code_onto v V) as (j & <-). apply code_order in L. assert (H : j < length (value_counts col)) by (apply (Nat.lt_trans _ i); auto; apply nth_error_Some; congruence).
    apply nth_error_Some in H. destruct (nth_error (value_counts col) j) as [b|] eqn:E; [|congruence]. exists b. apply remap_get. eauto.
Qed.
Print Assumptions C109_mapping.
(** [shortlex] bounds the length *)
Theorem C109_shorter (u w : list nat) : shortlex u w -> length u <= length w.
Proof. intros [H|[H _]]; lia. Qed.
Print Assumptions C109_shorter.

(** the new column has no missing values and the returned mapping gives the old one back *)
Theorem C109_back (col : list nat) : forall new back, to_alphabet col = (new, back) -> length new = length col /\
  forall i a, nth_error col i = Some a -> exists w, nth_error new i = Some (Some w) /\ get Nat.eqb (remap_dict col) a = Some w /\ get word_eqb back w = Some a.
Proof.
  intros new back E. unfold to_alphabet in E. injection E as <- <-. split; [apply map_length|]. intros i a H. rewrite nth_error_map, H. cbn [option_map]. destruct (proj1 (proj1 (C109_mapping col) a)) as (w & G); [eapply nth_error_In; eauto|].
  exists w. rewrite G. split; auto. split; auto. apply inverse_get. exact G.
Qed.
Print Assumptions C109_back.

(** single characters: all activities of both logs get different characters that have no meaning in regular expressions, so that two traces of the logs have the same encoding
    only if they are the same *)
Theorem C109_characters (acts1 acts2 : list nat) : let m := from_two_logs acts1 acts2 in
  (forall a, In a acts1 \/ In a acts2 <-> exists c, get Nat.eqb m a = Some c) /\
  (forall a b c, get Nat.eqb m a = Some c -> get Nat.eqb m b = Some c -> a = b) /\ (forall a c, get Nat.eqb m a = Some c -> 0 < c /\ ~ In c list_to_avoid) /\
  forall t u, incl t (acts1 ++ acts2) -> incl u (acts1 ++ acts2) -> encoded_trace m t = encoded_trace m u -> t = u.
Proof.
  intros m. destruct (add_ok acts1 ([], 0) ok_nil) as [O1 I1]. destruct (add_ok acts2 _ O1) as [O2 I2]. unfold from_two_logs in m. destruct (fold_left add_activity acts2 (fold_left add_activity acts1 ([], 0))) as [m' n]. cbn [fst] in *. subst m. destruct O2 as (N1 & N2 & B). cbn [fst snd] in *.
  assert (I : forall a, In a (map fst m') <-> In a acts1 \/ In a acts2) by (intros a; rewrite I2, I1; cbn; tauto).
  assert (G : forall a c, get Nat.eqb m' a = Some c <-> In (a, c) m') by (intros; apply get_iff; auto; apply Nat.eqb_eq). split; [|split; [|split]].
  - intros a. rewrite <- I, in_map_iff. split; [intros ((x & c) & <- & H); exists c; apply G; auto|intros (c & H); apply G in H; exists (a, c); auto].
  - intros a b c Ha Hb. apply G in Ha. apply G in Hb. eapply NoDup_snd_inj; eauto.
  - intros a c H. apply G in H. apply B in H. tauto.
  - intros t u Ht Hu. apply (encoded_inj m' n); [split; auto| |]; intros a Ha; apply I, in_app_or; auto.
Qed.
Print Assumptions C109_characters.
(** the same for one log, whose activities are given once each *)
Theorem C109_characters_of_one_log (acts : list nat) : NoDup acts -> let m := from_log acts in
  (forall a, In a acts <-> exists c, get Nat.eqb m a = Some c) /\ (forall a c, get Nat.eqb m a = Some c -> 0 < c /\ ~ In c list_to_avoid) /\
  forall t u, incl t acts -> incl u acts -> encoded_trace m t = encoded_trace m u -> t = u.
Proof.
  intros N m. destruct (new_all_ok acts ([], 0) ok_nil N) as [O I]; [intros a _ []|]. unfold from_log in m. destruct (fold_left get_new_char acts ([], 0)) as [m' n]. cbn [fst] in *. subst m.
  assert (I' : forall a, In a (map fst m') <-> In a acts) by (intros a; rewrite I; cbn; tauto). destruct O as (N1 & N2 & B). cbn [fst snd] in *.
  assert (G : forall a c, get Nat.eqb m' a = Some c <-> In (a, c) m') by (intros; apply get_iff; auto; apply Nat.eqb_eq). split; [|split].
  - intros a. rewrite <- I', in_map_iff. split; [intros ((x & c) & <- & H); exists c; apply G; auto|intros (c & H); apply G in H; exists (a, c); auto].
  - intros a c H. apply G in H. apply B in H. tauto.
  - intros t u Ht Hu. apply (encoded_inj m' n); [split; auto| |]; intros a Ha; apply I'; auto.
Qed.
Print Assumptions C109_characters_of_one_log.

(** ** concrete cases *)
Example C109_example : map code [0; 25; 26; 27; 701; 702] = [[0]; [25]; [0; 0]; [0; 1]; [25; 25]; [0; 0; 0]] /\
  to_alphabet [7; 8; 8; 9; 8; 9] = ([Some [2]; Some [0]; Some [0]; Some [1]; Some [0]; Some [1]], [([0], 8); ([1], 9); ([2], 7)]).
Proof. split; vm_compute; reflexivity. Qed.
Example C109_example_characters : from_two_logs [5; 6; 7; 8; 4; 3; 2; 1] [9; 5; 10] = [(10, 12); (9, 11); (1, 8); (2, 7); (3, 6); (4, 5); (8, 4); (7, 3); (6, 2); (5, 1)].
Proof. vm_compute. reflexivity. Qed.

(** The characters are not any of those that mean something in a regular expression, nor white space, quotes, slashes or separators: *)
From Coq Require Import String Ascii.
Definition reserved : list nat := map nat_of_ascii (list_ascii_of_string "[]()*+^?$|.\{}"" !#&%,;-'/") ++ [9; 10; 13].
Theorem C109_reserved : (forall acts1 acts2 a c, Model_Encode.get Nat.eqb (from_two_logs acts1 acts2) a = Some c -> ~ In c reserved) /\ forall acts a c, NoDup acts -> Model_Encode.get Nat.eqb (from_log acts) a = Some c -> ~ In c reserved.
Proof.
  assert (G : forall c, In c reserved -> In c list_to_avoid). { assert (A : Forall (fun c => In c list_to_avoid) reserved) by (vm_compute; repeat (constructor; [tauto|]); constructor). rewrite Forall_forall in A. exact A. }
  split.
  - intros acts1 acts2 a c H I. destruct (C109_characters acts1 acts2) as (_ & _ & B & _). apply (proj2 (B a c H)). auto.
  - intros acts a c N H I. destruct (C109_characters_of_one_log acts N) as (_ & B & _). apply (proj2 (B a c H)). auto.
Qed.
Print Assumptions C109_reserved.
