(** Token counting lemmas for token-based replay. *)
From stdpp Require Import gmap.
From Coq Require Import ZArith QArith Lia.
From Verif Require Import Model_Petri Spec_Petri Proofs_Petri Model_Replay Spec_Replay.
Local Open Scope Z_scope.

Lemma zsum_app {A} (f : A -> Z) l k : zsum f (l ++ k) = zsum f l + zsum f k.
Proof. induction l as [|x l IH]; cbn [app zsum]; [reflexivity|rewrite IH; lia]. Qed.
Lemma zsum_perm {A} (f : A -> Z) l k : Permutation l k -> zsum f l = zsum f k.
Proof. induction 1; cbn [zsum]; lia. Qed.
Lemma zsum_ext {A} (f g : A -> Z) l : (forall x, In x l -> f x = g x) -> zsum f l = zsum g l.
Proof.
  induction l as [|x l IH]; intros H; cbn [zsum]; [reflexivity|].
  rewrite (H x (or_introl eq_refl)), IH; [reflexivity|]. intros y Hy. apply H. right. exact Hy.
Qed.
Lemma zsum_nonneg {A} (f : A -> Z) l : (forall x, In x l -> 0 <= f x) -> 0 <= zsum f l.
Proof.
  induction l as [|x l IH]; intros H; cbn [zsum]; [lia|].
  pose proof (H x (or_introl eq_refl)). assert (0 <= zsum f l) by (apply IH; intros y Hy; apply H; right; exact Hy). lia.
Qed.
Lemma zsum_le {A} (f g : A -> Z) l : (forall x, In x l -> f x <= g x) -> zsum f l <= zsum g l.
Proof.
  induction l as [|x l IH]; intros H; cbn [zsum]; [lia|].
  pose proof (H x (or_introl eq_refl)).
  assert (zsum f l <= zsum g l) by (apply IH; intros y Hy; apply H; right; exact Hy). lia.
Qed.
Lemma fold_add {A} (f : A -> Z) l z : fold_left (fun s x => s + f x) l z = z + zsum f l.
Proof. revert z. induction l as [|x l IH]; intros z; cbn [fold_left zsum]; [lia|]. rewrite IH. lia. Qed.

Lemma arc_sum_total arcs : arc_sum arcs = arcs_total arcs.
Proof. unfold arc_sum, arcs_total. rewrite (fold_add snd). lia. Qed.
Lemma m_sum_total m : m_sum m = total m.
Proof. unfold m_sum, total. rewrite (fold_add snd). lia. Qed.

(** Sums over the entries of a marking. *)
Definition entries (f : nat -> Z -> Z) (m : marking) : Z := zsum (fun kv : nat * Z => f kv.1 kv.2) (map_to_list m).
Lemma entries_insert_none f (m : marking) p v : m !! p = None -> entries f (<[p := v]> m) = f p v + entries f m.
Proof.
  intros H. unfold entries. rewrite (zsum_perm _ _ _ (map_to_list_insert m p v H)). reflexivity.
Qed.
Lemma entries_delete f (m : marking) p v : m !! p = Some v -> entries f m = f p v + entries f (delete p m).
Proof.
  intros H. unfold entries. rewrite <- (zsum_perm _ _ _ (map_to_list_delete m p v H)). reflexivity.
Qed.
Lemma entries_insert f (m : marking) p v :
  entries f (<[p := v]> m) = entries f m + f p v - match m !! p with Some w => f p w | None => 0 end.
Proof.
  destruct (m !! p) as [w|] eqn:E.
  - rewrite <- (insert_delete_insert m), entries_insert_none by apply lookup_delete.
    rewrite (entries_delete f m p w E). lia.
  - rewrite entries_insert_none by exact E. lia.
Qed.
Lemma entries_empty f : entries f ∅ = 0.
Proof. unfold entries. rewrite map_to_list_empty. reflexivity. Qed.
Lemma entries_ext f g (m : marking) : (forall p v, m !! p = Some v -> f p v = g p v) -> entries f m = entries g m.
Proof.
  intros H. unfold entries. apply zsum_ext. intros [p v] Hin. cbn. apply H.
  apply elem_of_map_to_list, elem_of_list_In. exact Hin.
Qed.
Lemma entries_le f g (m : marking) : (forall p v, m !! p = Some v -> f p v <= g p v) -> entries f m <= entries g m.
Proof.
  intros H. unfold entries. apply zsum_le. intros [p v] Hin. cbn. apply H.
  apply elem_of_map_to_list, elem_of_list_In. exact Hin.
Qed.
Lemma entries_nonneg f (m : marking) : (forall p v, m !! p = Some v -> 0 <= f p v) -> 0 <= entries f m.
Proof.
  intros H. unfold entries. apply zsum_nonneg. intros [p v] Hin. cbn. apply H.
  apply elem_of_map_to_list, elem_of_list_In. exact Hin.
Qed.
Lemma entries_zero f (m : marking) : (forall p v, m !! p = Some v -> 0 <= f p v) -> entries f m = 0 ->
  forall p v, m !! p = Some v -> f p v = 0.
Proof.
  intros H E p v Hp. rewrite (entries_delete f m p v Hp) in E.
  assert (0 <= entries f (delete p m)).
  { apply entries_nonneg. intros q w Hq. apply H. apply lookup_delete_Some in Hq. apply Hq. }
  specialize (H p v Hp). lia.
Qed.
Lemma total_entries m : total m = entries (fun _ v => v) m.
Proof. reflexivity. Qed.
Lemma excess_entries m n : excess m n = entries (fun p v => Z.max 0 (v - tokens n p)) m.
Proof. reflexivity. Qed.

Lemma total_insert m p v : total (<[p := v]> m) = total m - tokens m p + v.
Proof. rewrite (total_entries (<[p:=v]> m)), (total_entries m), entries_insert. unfold tokens; cbv beta. destruct (m !! p); lia. Qed.
Lemma total_delete m p : total (delete p m) = total m - tokens m p.
Proof.
  unfold tokens. destruct (m !! p) as [v|] eqn:E.
  - pose proof (entries_delete (fun _ v => v) m p v E) as H; cbv beta in H. rewrite (total_entries (delete p m)), (total_entries m). lia.
  - rewrite delete_notin by exact E. lia.
Qed.
Lemma total_nonneg m : proper m -> 0 <= total m.
Proof. intros H. rewrite total_entries. apply entries_nonneg. intros p v Hp. specialize (H p v Hp). lia. Qed.
Lemma total_consume m a : total (consume m a) = total m - a.2.
Proof.
  unfold consume. change mget with tokens. destruct (Z.eqb_spec (tokens m a.1 - a.2) 0).
  - rewrite total_delete. lia.
  - rewrite total_insert. lia.
Qed.
Lemma total_produce m a : total (produce m a) = total m + a.2.
Proof. unfold produce. rewrite total_insert. change mget with tokens. lia. Qed.
Lemma total_fold_consume arcs m : total (fold_left consume arcs m) = total m - arcs_total arcs.
Proof.
  unfold arcs_total. revert m. induction arcs as [|a arcs IH]; intros m; cbn [fold_left zsum]; [lia|].
  rewrite IH, total_consume. lia.
Qed.
Lemma total_fold_produce arcs m : total (fold_left produce arcs m) = total m + arcs_total arcs.
Proof.
  unfold arcs_total. revert m. induction arcs as [|a arcs IH]; intros m; cbn [fold_left zsum]; [lia|].
  rewrite IH, total_produce. lia.
Qed.
(** the total only depends on the token counts (for proper markings) *)
Lemma total_fires {L} (pn : petri_net L) t m m' :
  simple_net pn -> proper m -> fires pn t m m' -> total m' = total m - arcs_total (t_in t) + arcs_total (t_out t).
Proof.
  intros Hs Hm (Hin & He & Hp & Ht).
  assert (E : m' = fold_left produce (t_out t) (fold_left consume (t_in t) m)).
  { apply proper_ext; [exact Hp|apply fired_proper; [apply Hs, Hin|exact Hm|exact He]|].
    intros p. rewrite Ht, fired_marking. reflexivity. }
  rewrite E, total_fold_produce, total_fold_consume. lia.
Qed.

(** add_missing_tokens *)
Lemma add_missing_fold arcs : simple_arcs arcs -> forall m miss added,
  proper m ->
  (forall p, In p (map fst arcs) -> added !! p = None) ->
  let '(m', miss', added') := fold_left add_missing_arc arcs (m, miss, added) in
  proper m' /\
  (forall p, tokens m' p = tokens m p + (if tokens m p <? weight arcs p then weight arcs p else 0)) /\
  miss <= miss' /\ miss' - miss <= total m' - total m /\ total m' - total m <= arcs_total arcs /\
  ((forall p w, In (p, w) arcs -> w = 1) -> miss' - miss = total m' - total m) /\
  (forall p, tokens added' p = tokens added p + (if tokens m p <? weight arcs p then weight arcs p - tokens m p else 0)) /\
  ((exists p, tokens m p < weight arcs p) -> miss < miss').
Proof.
  induction arcs as [|[q w] arcs IH]; intros [Hnd Hpos] m miss added Hm Ha.
  - cbn. split; [exact Hm|]. split; [intros p; pose proof (proper_nonneg m p Hm); destruct (Z.ltb_spec (tokens m p) 0); lia|].
    repeat split; try lia.
    + intros p. pose proof (proper_nonneg m p Hm). destruct (Z.ltb_spec (tokens m p) 0); lia.
    + intros [p Hp]. pose proof (proper_nonneg m p Hm). lia.
  - cbn [fold_left]. unfold add_missing_arc at 2. cbn [fst snd]. change mget with tokens.
    inversion Hnd as [|x l Hni Hnd']; subst. cbn [map fst] in *.
    assert (Hw : 0 < w) by (apply (Hpos q w); left; reflexivity).
    assert (Hsa : simple_arcs arcs) by (split; [exact Hnd'|intros p v Hin; apply (Hpos p v); right; exact Hin]).
    assert (Hq : weight arcs q = 0) by (apply weight_notin; exact Hni).
    pose proof (proper_nonneg m q Hm) as Hmq.
    destruct (Z.ltb_spec (tokens m q) w) as [Hlt|Hge].
    + specialize (IH Hsa (<[q := tokens m q + w]> m) (miss + (w - tokens m q)) (<[q := w - tokens m q]> added)).
      destruct (fold_left add_missing_arc arcs _) as [[m' miss'] added'].
      destruct IH as (Hp & Ht & Hmi & Hle & Htot & Hu & Had & Hs).
      { apply proper_insert; [exact Hm|lia]. }
      { intros p Hin. rewrite lookup_insert_ne; [apply Ha; right; exact Hin|]. intros ->. contradiction. }
      rewrite total_insert in Hle, Htot, Hu. unfold arcs_total. cbn [zsum snd]. fold (arcs_total arcs).
      split; [exact Hp|]. split.
      { intros p. rewrite Ht, !tokens_insert. cbn [weight]. destruct (Nat.eqb_spec q p) as [<-|Hne].
        - rewrite Hq. destruct (Z.ltb_spec (tokens m q + w) 0); [lia|].
          destruct (Z.ltb_spec (tokens m q) (w + 0)); lia.
        - rewrite Z.add_0_l. reflexivity. }
      split; [lia|]. split; [lia|]. split; [lia|]. split.
      { intros H1. specialize (Hu (fun p v Hin => H1 p v (or_intror Hin))).
        assert (w = 1) by (apply (H1 q w); left; reflexivity). lia. }
      split; [|intros _; lia].
      intros p. rewrite Had, !tokens_insert. cbn [weight]. destruct (Nat.eqb_spec q p) as [<-|Hne].
      * rewrite Hq. assert (Ea : tokens added q = 0) by (unfold tokens; rewrite Ha; [reflexivity|left; reflexivity]).
        rewrite Ea. destruct (Z.ltb_spec (tokens m q + w) 0); [lia|]. destruct (Z.ltb_spec (tokens m q) (w + 0)); lia.
      * rewrite Z.add_0_l. reflexivity.
    + specialize (IH Hsa m miss added Hm (fun p Hin => Ha p (or_intror Hin))).
      destruct (fold_left add_missing_arc arcs _) as [[m' miss'] added'].
      destruct IH as (Hp & Ht & Hmi & Hle & Htot & Hu & Had & Hs).
      unfold arcs_total. cbn [zsum snd]. fold (arcs_total arcs).
      assert (HW : forall p, (if tokens m p <? (if Nat.eqb q p then w else 0) + weight arcs p then (if Nat.eqb q p then w else 0) + weight arcs p else 0)
                     = (if tokens m p <? weight arcs p then weight arcs p else 0)).
      { intros p. destruct (Nat.eqb_spec q p) as [<-|Hne]; [|rewrite Z.add_0_l; reflexivity].
        rewrite Hq. destruct (Z.ltb_spec (tokens m q) (w + 0)), (Z.ltb_spec (tokens m q) 0); lia. }
      split; [exact Hp|]. split; [intros p; cbn [weight]; rewrite HW; apply Ht|].
      split; [lia|]. split; [lia|]. split; [lia|]. split; [intros H1; apply Hu; intros p v Hin; apply (H1 p v); right; exact Hin|].
      split.
      * intros p. rewrite Had. cbn [weight]. destruct (Nat.eqb_spec q p) as [<-|Hne]; [|rewrite Z.add_0_l; reflexivity].
        rewrite Hq. destruct (Z.ltb_spec (tokens m q) (w + 0)), (Z.ltb_spec (tokens m q) 0); lia.
      * intros [p Hlt]. apply Hs. exists p. cbn [weight] in Hlt. destruct (Nat.eqb_spec q p) as [E|Hne]; [rewrite <- E in *; lia|lia].
Qed.

Lemma add_missing_spec t m : simple_trans t -> proper m ->
  let '(m', miss, added) := add_missing_tokens t m in
  proper m' /\
  (forall p, tokens m' p = tokens m p + (if tokens m p <? weight (t_in t) p then weight (t_in t) p else 0)) /\
  0 <= miss /\ miss <= total m' - total m /\ total m' - total m <= arcs_total (t_in t) /\
  ((forall p w, In (p, w) (t_in t) -> w = 1) -> miss = total m' - total m) /\
  (forall p, tokens added p = if tokens m p <? weight (t_in t) p then weight (t_in t) p - tokens m p else 0) /\
  ((exists p, tokens m p < weight (t_in t) p) -> 0 < miss).
Proof.
  intros [Hs _] Hm. unfold add_missing_tokens.
  pose proof (add_missing_fold (t_in t) Hs m 0 ∅ Hm (fun p _ => lookup_empty p)) as H.
  destruct (fold_left add_missing_arc (t_in t) (m, 0, ∅)) as [[m' miss] added].
  destruct H as (Hp & Ht & Hmi & Hle & Htot & Hu & Had & Hs').
  split; [exact Hp|]. split; [exact Ht|]. split; [lia|]. split; [lia|]. split; [lia|].
  split; [intros H1; specialize (Hu H1); lia|]. split; [|exact Hs'].
  intros p. rewrite Had, tokens_empty. lia.
Qed.

(** place counters *)
Lemma tokens_bump c p v q : tokens (bump c p v) q = tokens c q + (if Nat.eqb p q then v else 0).
Proof. unfold bump. change mget with tokens. rewrite tokens_insert. destruct (Nat.eqb_spec p q) as [->|]; lia. Qed.
Lemma tokens_bump_list (g : nat -> Z -> Z) l c q :
  tokens (fold_left (fun c (kv : nat * Z) => bump c kv.1 (g kv.1 kv.2)) l c) q
  = tokens c q + zsum (fun kv : nat * Z => if Nat.eqb kv.1 q then g kv.1 kv.2 else 0) l.
Proof.
  revert c. induction l as [|kv l IH]; intros c; cbn [fold_left zsum]; [lia|].
  rewrite IH, tokens_bump. lia.
Qed.
Lemma entries_at (g : nat -> Z -> Z) (m : marking) q :
  zsum (fun kv : nat * Z => if Nat.eqb kv.1 q then g kv.1 kv.2 else 0) (map_to_list m)
  = match m !! q with Some v => g q v | None => 0 end.
Proof.
  fold (entries (fun p v => if Nat.eqb p q then g p v else 0) m).
  induction m as [|p v m Hn IH] using map_ind.
  - rewrite entries_empty, lookup_empty. reflexivity.
  - rewrite entries_insert_none by exact Hn. destruct (Nat.eqb_spec p q) as [<-|Hne].
    + rewrite IH, Hn, lookup_insert. lia.
    + rewrite IH, lookup_insert_ne by congruence. lia.
Qed.
Lemma tokens_bump_all k c add q : tokens (bump_all k c add) q = tokens c q + tokens add q * k.
Proof.
  unfold bump_all. rewrite (tokens_bump_list (fun _ v => v * k)), (entries_at (fun _ v => v * k)).
  unfold tokens. destruct (add !! q); lia.
Qed.
Lemma arc_map_fold arcs (d : marking) q : List.NoDup (map fst arcs) -> (forall p, In p (map fst arcs) -> d !! p = None) ->
  tokens (fold_left (fun (d : marking) (a : nat * Z) => <[a.1 := a.2]> d) arcs d) q = tokens d q + weight arcs q.
Proof.
  revert d. induction arcs as [|[p w] arcs IH]; intros d Hnd Hd; cbn [fold_left weight]; [lia|].
  inversion Hnd as [|x l Hni Hnd']; subst. cbn [map fst snd] in *.
  rewrite IH; [|exact Hnd'|].
  - rewrite tokens_insert. destruct (Nat.eqb_spec p q) as [<-|Hne]; [|lia].
    assert (E : tokens d p = 0) by (unfold tokens; rewrite Hd; [reflexivity|left; reflexivity]). lia.
  - intros r Hr. rewrite lookup_insert_ne; [apply Hd; right; exact Hr|]. intros ->. contradiction.
Qed.
Lemma tokens_arc_map arcs q : List.NoDup (map fst arcs) -> tokens (arc_map arcs) q = weight arcs q.
Proof. intros H. unfold arc_map. rewrite arc_map_fold; [rewrite tokens_empty; lia|exact H|]. intros. apply lookup_empty. Qed.

(** final accounting *)
Lemma final_missing_tokens m fm q : proper fm ->
  tokens (final_missing m fm) q = Z.max 0 (tokens fm q - tokens m q) * (if bool_decide (is_Some (fm !! q)) then 1 else 0).
Proof.
  intros Hf. unfold final_missing. change mget with tokens.
  set (f := fun (d : marking) (kv : nat * Z) => if 0 <? kv.2 - tokens m kv.1 then <[kv.1 := kv.2 - tokens m kv.1]> d else d).
  assert (H : forall l (d : marking), List.NoDup (map fst l) -> (forall p, In p (map fst l) -> d !! p = None) ->
    tokens (fold_left f l d) q = tokens d q + zsum (fun kv : nat * Z => if Nat.eqb kv.1 q then Z.max 0 (kv.2 - tokens m kv.1) else 0) l).
  { induction l as [|[p w] l IH]; intros d Hnd Hd; cbn [fold_left zsum]; [lia|].
    inversion Hnd as [|x l' Hni Hnd']; subst. cbn [map fst snd] in *.
    assert (Ed : tokens d p = 0) by (unfold tokens; rewrite Hd; [reflexivity|left; reflexivity]).
    unfold f at 2. cbn [fst snd]. destruct (Z.ltb_spec 0 (w - tokens m p)).
    - rewrite IH; [|exact Hnd'|].
      + rewrite tokens_insert. destruct (Nat.eqb_spec p q) as [<-|]; [rewrite Ed|]; lia.
      + intros r Hr. rewrite lookup_insert_ne; [apply Hd; right; exact Hr|]. intros ->. contradiction.
    - rewrite IH; [|exact Hnd'|intros r Hr; apply Hd; right; exact Hr].
      destruct (Nat.eqb_spec p q) as [<-|]; lia. }
  rewrite H.
  - rewrite tokens_empty, (entries_at (fun p v => Z.max 0 (v - tokens m p))).
    destruct (fm !! q) as [v|] eqn:E.
    + assert (Ef : tokens fm q = v) by (unfold tokens; rewrite E; reflexivity).
      rewrite bool_decide_eq_true_2 by eauto. rewrite Ef. lia.
    + rewrite bool_decide_eq_false_2 by (intros [x Hx]; discriminate). lia.
  - pose proof (NoDup_fst_map_to_list fm) as Hn. apply NoDup_ListNoDup in Hn. exact Hn.
  - intros. apply lookup_empty.
Qed.
Lemma final_missing_total m fm : total (final_missing m fm) = excess fm m.
Proof.
  unfold final_missing, excess. change mget with tokens.
  set (f := fun (d : marking) (kv : nat * Z) => if 0 <? kv.2 - tokens m kv.1 then <[kv.1 := kv.2 - tokens m kv.1]> d else d).
  assert (H : forall l (d : marking), List.NoDup (map fst l) -> (forall p, In p (map fst l) -> d !! p = None) ->
    total (fold_left f l d) = total d + zsum (fun kv : nat * Z => Z.max 0 (kv.2 - tokens m kv.1)) l).
  { induction l as [|[p w] l IH]; intros d Hnd Hd; cbn [fold_left zsum]; [lia|].
    inversion Hnd as [|x l' Hni Hnd']; subst. cbn [map fst snd] in *.
    assert (Ed : tokens d p = 0) by (unfold tokens; rewrite Hd; [reflexivity|left; reflexivity]).
    unfold f at 2. cbn [fst snd]. destruct (Z.ltb_spec 0 (w - tokens m p)).
    - rewrite IH; [|exact Hnd'|].
      + rewrite total_insert, Ed. lia.
      + intros r Hr. rewrite lookup_insert_ne; [apply Hd; right; exact Hr|]. intros ->. contradiction.
    - rewrite IH; [|exact Hnd'|intros r Hr; apply Hd; right; exact Hr]. lia. }
  rewrite H.
  - rewrite total_entries, entries_empty. lia.
  - pose proof (NoDup_fst_map_to_list fm) as Hn. apply NoDup_ListNoDup in Hn. exact Hn.
  - intros. apply lookup_empty.
Qed.
Lemma left_over_tokens m fm p v : proper m -> m !! p = Some v -> left_over fm p v = Z.max 0 (v - tokens fm p).
Proof. intros Hm Hp. specialize (Hm p v Hp). unfold left_over, tokens. destruct (fm !! p); lia. Qed.
Lemma remaining_excess m fm : proper m ->
  fold_left (fun r (kv : nat * Z) => r + left_over fm kv.1 kv.2) (map_to_list m) 0 = excess m fm.
Proof.
  intros Hm. rewrite (fold_add (fun kv : nat * Z => left_over fm kv.1 kv.2)). rewrite excess_entries, Z.add_0_l.
  fold (entries (left_over fm) m). apply entries_ext. intros p v Hp. eapply left_over_tokens; eassumption.
Qed.

(** total m - total fm = excess m fm - excess fm m *)
Lemma excess_balance m fm : proper m -> proper fm -> total m - total fm = excess m fm - excess fm m.
Proof.
  intros Hm Hf. rewrite (excess_entries m fm), (excess_entries fm m), (total_entries m), (total_entries fm). revert fm Hf.
  induction m as [|p v m Hn IH] using map_ind; intros fm Hf.
  - rewrite !entries_empty.
    rewrite (entries_ext (fun p v => Z.max 0 (v - tokens ∅ p)) (fun _ v => v)); [lia|].
    intros q w Hq. rewrite tokens_empty. specialize (Hf q w Hq). lia.
  - assert (Hm' : proper m).
    { intros q w Hq. apply (Hm q w). rewrite lookup_insert_ne; [exact Hq|]. intros ->. congruence. }
    assert (Hv : 0 < v) by (apply (Hm p v), lookup_insert).
    rewrite !entries_insert_none by exact Hn. specialize (IH Hm' fm Hf).
    destruct (fm !! p) as [w|] eqn:E.
    + rewrite (entries_delete (fun q u => Z.max 0 (u - tokens (<[p:=v]> m) q)) fm p w E).
      rewrite (entries_delete (fun q u => Z.max 0 (u - tokens m q)) fm p w E) in IH.
      rewrite tokens_insert, Nat.eqb_refl.
      rewrite (entries_ext (fun q u => Z.max 0 (u - tokens (<[p:=v]> m) q)) (fun q u => Z.max 0 (u - tokens m q)) (delete p fm)).
      * assert (Ef : tokens fm p = w) by (unfold tokens; rewrite E; reflexivity).
        assert (Em : tokens m p = 0) by (unfold tokens; rewrite Hn; reflexivity).
        specialize (Hf p w E). rewrite Em in IH. rewrite Ef. lia.
      * intros q u Hq. apply lookup_delete_Some in Hq as [Hne _]. rewrite tokens_insert.
        destruct (Nat.eqb_spec p q); [contradiction|reflexivity].
    + rewrite (entries_ext (fun q u => Z.max 0 (u - tokens (<[p:=v]> m) q)) (fun q u => Z.max 0 (u - tokens m q)) fm).
      * assert (Ef : tokens fm p = 0) by (unfold tokens; rewrite E; reflexivity). rewrite Ef. lia.
      * intros q u Hq. rewrite tokens_insert. destruct (Nat.eqb_spec p q); [congruence|reflexivity].
Qed.
Lemma excess_nonneg m n : 0 <= excess m n.
Proof. rewrite excess_entries. apply entries_nonneg. intros. lia. Qed.
Lemma excess_le_total m n : proper m -> proper n -> excess m n <= total m.
Proof.
  intros Hm Hn. rewrite excess_entries, total_entries. apply entries_le. intros p v Hp.
  pose proof (proper_nonneg n p Hn). specialize (Hm p v Hp). lia.
Qed.
Lemma excess_zero m n : excess m n = 0 <-> forall p v, m !! p = Some v -> v <= tokens n p.
Proof.
  rewrite excess_entries. split.
  - intros H p v Hp. pose proof (entries_zero _ m (fun q w _ => Z.le_max_l 0 (w - tokens n q)) H p v Hp) as E. cbn in E. lia.
  - intros H. rewrite (entries_ext _ (fun _ _ => 0)).
    + unfold entries. induction (map_to_list m); cbn [zsum]; lia.
    + intros p v Hp. specialize (H p v Hp). lia.
Qed.
Lemma excess_eq m n : proper m -> proper n -> excess m n = 0 -> excess n m = 0 -> m = n.
Proof.
  intros Hm Hn H1 H2. apply proper_ext; [exact Hm|exact Hn|]. intros p.
  pose proof (proj1 (excess_zero m n) H1 p) as A. pose proof (proj1 (excess_zero n m) H2 p) as B.
  pose proof (proper_nonneg m p Hm) as Pm. pose proof (proper_nonneg n p Hn) as Pn.
  assert (tokens m p <= tokens n p).
  { unfold tokens at 1. destruct (m !! p) as [v|] eqn:E; [apply A; reflexivity|exact Pn]. }
  assert (tokens n p <= tokens m p).
  { unfold tokens at 1. destruct (n !! p) as [v|] eqn:E; [apply B; reflexivity|exact Pm]. }
  lia.
Qed.
