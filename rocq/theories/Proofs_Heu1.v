(** Matrices, cleaning of the DFG, and counts. *)
From Coq Require Import List Arith Bool ZArith QArith Lia.
Import ListNotations.
From Verif Require Import Model_Dict Proofs_Dict Model_Dfg Spec_Dfg Proofs_Dfg Model_Heu Spec_Heu.
Local Open Scope nat_scope.
Local Open Scope list_scope.

Section Matrix.
Context {V : Type}.
Definition m_ok (m : matrix V) : Prop := NoDup (d_keys m) /\ forall a r, d_get m a = Some r -> NoDup (d_keys r).
Lemma m_row_set (m : matrix V) a b v x : m_row (m_set m a b v) x = if Nat.eqb a x then d_set (m_row m a) b v else m_row m x.
Proof. unfold m_set, m_row at 1. rewrite d_get_set. cbn [keqb key_nat]. destruct (Nat.eqb_spec a x) as [->|]; reflexivity. Qed.
Lemma m_get_set (m : matrix V) a b v x y : m_get (m_set m a b v) x y = if Nat.eqb a x && Nat.eqb b y then Some v else m_get m x y.
Proof.
  unfold m_get. rewrite m_row_set. destruct (Nat.eqb_spec a x) as [->|]; cbn [andb]; [|reflexivity]. rewrite d_get_set. reflexivity.
Qed.
Lemma m_row_nodup (m : matrix V) a : m_ok m -> NoDup (d_keys (m_row m a)).
Proof. intros [_ H]. unfold m_row. destruct (d_get m a) eqn:E; [now apply (H a)|constructor]. Qed.
Lemma m_ok_set (m : matrix V) a b v : m_ok m -> m_ok (m_set m a b v).
Proof.
  intros H. split; [apply d_nodup_set, H|]. intros x r E. unfold m_set in E. rewrite d_get_set in E. cbn [keqb key_nat] in E.
  destruct (Nat.eqb_spec a x); [injection E as <-; apply d_nodup_set; now apply m_row_nodup|]. destruct H as [_ H]. now apply (H x).
Qed.
Lemma m_ok_nil : m_ok ([] : matrix V).
Proof. split; [constructor|discriminate]. Qed.
Lemma m_pairs_in (m : matrix V) a b : m_ok m -> (In (a, b) (m_pairs m) <-> m_get m a b <> None).
Proof.
  intros [N R]. unfold m_pairs. rewrite in_concat. split.
  - intros (w & W & I). apply in_map_iff in W as ([x r] & <- & J). apply in_map_iff in I as ([y v] & [= <- <-] & K).
    cbn in *. apply (d_in_get m x r N) in J. unfold m_get, m_row. rewrite J. apply d_get_keys. apply in_map_iff. now exists (y, v).
  - intros H. unfold m_get, m_row in H. destruct (d_get m a) as [r|] eqn:E; [|easy]. apply d_get_keys in H.
    exists (map (fun bv => (a, fst bv)) r). split; [apply in_map_iff; exists (a, r); split; auto; now apply d_get_in|].
    apply in_map_iff in H as ([y v] & <- & K). apply in_map_iff. now exists (y, v).
Qed.
Lemma m_pairs_nodup (m : matrix V) : m_ok m -> NoDup (m_pairs m).
Proof.
  intros [N R]. unfold m_pairs.
  assert (R' : forall a r, In (a, r) m -> NoDup (d_keys r)) by (intros a r I; apply (R a); now apply d_in_get).
  clear R. induction m as [|[a r] m IH]; cbn [map concat fst snd]; [constructor|]. inversion N as [|? ? Na N']; subst.
  apply NoDup_app_intro.
  - assert (Nr : NoDup (d_keys r)) by (apply (R' a); now left). clear - Nr. unfold d_keys in Nr.
    rewrite <- (map_map fst (pair a)). apply FinFun.Injective_map_NoDup; auto. intros x y [= ->]. reflexivity.
  - apply IH; auto. intros x s I. apply (R' x). now right.
  - intros [x y] I J. apply in_map_iff in I as ([? ?] & E1 & _). injection E1 as E1 _. apply in_concat in J as (w & W & J).
    apply in_map_iff in W as ([x' r'] & <- & K). apply in_map_iff in J as ([? ?] & E2 & _). cbn in E2. injection E2 as E2 _. subst.
    apply Na. apply in_map_iff. exists (x, r'). auto.
Qed.
Lemma m_fold_ok {E} (f : E -> nat * nat) (v : E -> V) (l : list E) (m : matrix V) :
  m_ok m -> m_ok (fold_left (fun m e => m_set m (fst (f e)) (snd (f e)) (v e)) l m).
Proof. revert m. induction l; intros m H; cbn; auto. apply IHl. now apply m_ok_set. Qed.
End Matrix.

Lemma m_fold_get {V} (v : nat * nat * nat -> V) (g : graph_counts) (m : matrix V) x y : NoDup (d_keys g) ->
  m_get (fold_left (fun m e => m_set m (fst (fst e)) (snd (fst e)) (v e)) g m) x y =
  match d_get g (x, y) with Some c => Some (v (x, y, c)) | None => m_get m x y end.
Proof.
  revert m. induction g as [|[[a b] c] g IH]; intros m N; [reflexivity|]. cbn [fold_left fst snd d_get]. inversion N as [|? ? Na N']; subst.
  rewrite IH by auto. destruct (keqb_spec (a, b) (x, y)) as [E|Ne].
  - injection E as -> ->. assert (G : d_get g (x, y) = None) by now apply d_get_none. rewrite G, m_get_set, !Nat.eqb_refl. reflexivity.
  - destruct (d_get g (x, y)); auto. rewrite m_get_set. destruct (Nat.eqb_spec a x); auto. destruct (Nat.eqb_spec b y); auto. subst. easy.
Qed.
Lemma m_fold_get' (g : graph_counts) (m : matrix nat) x y : NoDup (d_keys g) ->
  m_get (fold_left (fun m e => m_set m (snd (fst e)) (fst (fst e)) (snd e)) g m) x y =
  match d_get g (y, x) with Some c => Some c | None => m_get m x y end.
Proof.
  revert m. induction g as [|[[a b] c] g IH]; intros m N; [reflexivity|]. cbn [fold_left fst snd d_get]. inversion N as [|? ? Na N']; subst.
  rewrite IH by auto. destruct (keqb_spec (a, b) (y, x)) as [E|Ne].
  - injection E as -> ->. assert (G : d_get g (y, x) = None) by now apply d_get_none. rewrite G, m_get_set, !Nat.eqb_refl. reflexivity.
  - destruct (d_get g (y, x)); auto. rewrite m_get_set. destruct (Nat.eqb_spec a y); subst; [|now rewrite andb_false_r || (destruct (Nat.eqb_spec b x); auto; destruct (Nat.eqb_spec a y); auto; subst; easy)].
    destruct (Nat.eqb_spec b x); auto. subst. easy.
Qed.
Lemma out_get g x y : NoDup (d_keys g) -> m_get (get_outgoing_edges g) x y = d_get g (x, y).
Proof. intros N. unfold get_outgoing_edges. rewrite (m_fold_get (fun e => snd e)) by auto. cbn. now destruct (d_get g (x, y)). Qed.
Lemma in_get g x y : NoDup (d_keys g) -> m_get (get_ingoing_edges g) x y = d_get g (y, x).
Proof. intros N. unfold get_ingoing_edges. rewrite m_fold_get' by auto. cbn. now destruct (d_get g (y, x)). Qed.
Lemma out_ok g : m_ok (get_outgoing_edges g).
Proof. apply (m_fold_ok (fun e => fst e)), m_ok_nil. Qed.
Lemma in_ok g : m_ok (get_ingoing_edges g).
Proof. apply (m_fold_ok (fun e => (snd (fst e), fst (fst e)))), m_ok_nil. Qed.
Lemma dep_get g x y : NoDup (d_keys g) -> m_get (dependency_matrix g) x y = match d_get g (x, y) with Some c => Some (dependency g (x, y, c)) | None => None end.
Proof. intros N. unfold dependency_matrix. rewrite (m_fold_get (dependency g)) by auto. reflexivity. Qed.
Lemma dep_ok_m g : m_ok (dependency_matrix g).
Proof. apply (m_fold_ok (fun e => fst e)), m_ok_nil. Qed.

(** ** The maximum *)
Definition zmax_step (m : Z) (bv : nat * nat) : Z := if (m <? Z.of_nat (snd bv))%Z then Z.of_nat (snd bv) else m.
Lemma zmax_spec (l : list (nat * nat)) m : let r := fold_left zmax_step l m in
  (m <= r)%Z /\ (forall b c, In (b, c) l -> (Z.of_nat c <= r)%Z) /\ (r = m \/ exists b c, In (b, c) l /\ r = Z.of_nat c).
Proof.
  revert m. induction l as [|[b c] l IH]; intros m; cbn [fold_left].
  - cbn. split; [lia|]. split; [intros ? ? []|now left].
  - specialize (IH (zmax_step m (b, c))). cbn zeta in *. destruct IH as (A & B & C). unfold zmax_step in *; cbn [snd] in *.
    destruct (Z.ltb_spec m (Z.of_nat c)); (split; [lia|]; split; [intros x y [[= <- <-]|I]; [lia|eauto]|]);
      (destruct C as [C|(x & y & I & C)]; [|right; exists x, y; split; [now right|exact C]]); [right; exists b, c; split; [now left|exact C]|now left].
Qed.
Lemma max_count_spec g a : NoDup (d_keys g) -> let r := get_max_activity_count g a in
  (forall b c, d_get g (a, b) = Some c \/ d_get g (b, a) = Some c -> (Z.of_nat c <= r)%Z) /\
  (r = (-1)%Z \/ exists b c, (d_get g (a, b) = Some c \/ d_get g (b, a) = Some c) /\ r = Z.of_nat c).
Proof.
  intros N. cbn zeta. unfold get_max_activity_count. fold zmax_step.
  change (fun (m : Z) (bv : nat * nat) => if (m <? Z.of_nat (snd bv))%Z then Z.of_nat (snd bv) else m) with zmax_step.
  destruct (zmax_spec (m_row (get_ingoing_edges g) a) (-1)%Z) as (A1 & B1 & C1).
  destruct (zmax_spec (m_row (get_outgoing_edges g) a) (fold_left zmax_step (m_row (get_ingoing_edges g) a) (-1)%Z)) as (A2 & B2 & C2).
  cbn zeta in *. set (r := fold_left zmax_step (m_row (get_outgoing_edges g) a) _) in *. set (r1 := fold_left zmax_step (m_row (get_ingoing_edges g) a) _) in *.
  split.
  - intros b c [H|H].
    + rewrite <- out_get in H by auto. apply d_get_in in H. eauto.
    + rewrite <- in_get in H by auto. apply d_get_in in H. specialize (B1 _ _ H). lia.
  - destruct C2 as [E|(b & c & I & E)].
    + destruct C1 as [E1|(b & c & I & E1)]; [left; congruence|]. right. exists b, c. split; [|congruence]. right.
      rewrite <- in_get by auto. apply d_in_get; auto. apply m_row_nodup, in_ok.
    + right. exists b, c. split; auto. left. rewrite <- out_get by auto. apply d_in_get; auto. apply m_row_nodup, out_ok.
Qed.

(** ** Counts of the log *)
Lemma occ_count a l : occ a l = count_occ Nat.eq_dec l a.
Proof.
  induction l as [|x l IH]; [reflexivity|]. rewrite occ_cons. cbn [count_occ keqb key_nat]. rewrite IH. destruct (Nat.eqb_spec x a), (Nat.eq_dec x a); easy.
Qed.
Lemma follows_get l a b : c_get (native 1 false l) (a, b) = follows l a b.
Proof.
  rewrite native1, c_get_of, occ_concat, map_map. unfold follows. f_equal. apply map_ext. intros t. induction t as [|x [|y r] IH]; [reflexivity|reflexivity|].
  change (adj (x :: y :: r)) with ((x, y) :: adj (y :: r)). rewrite occ_cons, IH. reflexivity.
Qed.
Lemma native_get l a b : d_get (native 1 false l) (a, b) = if Nat.eqb (follows l a b) 0 then None else Some (follows l a b).
Proof. rewrite <- follows_get. rewrite native1. rewrite d_get_c_of, c_get_of. reflexivity. Qed.
Lemma native_nodup l : NoDup (d_keys (native 1 false l)).
Proof. rewrite native1. apply c_of_nodup. Qed.
Lemma follows_in l a b : 0 < follows l a b -> In a (concat l) /\ In b (concat l).
Proof.
  unfold follows. induction l as [|t l IH]; cbn [map list_sum fold_right concat]; [lia|]. change (fold_right Nat.add 0 (map (fun t => in_trace t a b) l)) with (list_sum (map (fun t => in_trace t a b) l)). intros H.
  rewrite !in_app_iff. destruct (Nat.eq_dec (in_trace t a b) 0) as [E|E]; [destruct IH; [lia|tauto]|].
  assert (0 < in_trace t a b) by lia. clear - H0. assert (In a t /\ In b t); [|tauto].
  induction t as [|x [|y r] IH]; cbn [in_trace] in H0; try lia. destruct (Nat.eqb_spec x a); cbn [andb] in H0.
  - destruct (Nat.eqb_spec y b); [subst; cbn; auto|]. destruct IH; [exact H0|]. split; right; auto.
  - destruct IH; [exact H0|]. split; right; auto.
Qed.
Lemma busiest_spec l a : (forall b, follows l a b <= busiest l a /\ follows l b a <= busiest l a) /\
  (0 < busiest l a -> exists b, busiest l a = follows l a b \/ busiest l a = follows l b a).
Proof.
  unfold busiest. set (L := concat (map _ _)). split.
  - intros b. assert (G : forall n, In n L -> n <= list_max L) by (apply Forall_forall, list_max_le; lia).
    assert (M : In b (concat l) -> follows l a b <= list_max L /\ follows l b a <= list_max L).
    { intros I. split; apply G; apply in_concat; exists [follows l a b; follows l b a]; (split; [apply in_map_iff; now exists b|cbn; auto]). }
    split; (destruct (Nat.eq_dec (follows l a b) 0) as [E|E]; destruct (Nat.eq_dec (follows l b a) 0) as [E'|E']); try lia;
      try (apply M; apply (follows_in l a b); lia); try (apply M; apply (follows_in l b a); lia).
  - intros H. assert (I : In (list_max L) L).
    { clearbody L. induction L as [|x L IH]; [cbn in H; lia|]. change (list_max (x :: L)) with (Nat.max x (list_max L)) in *.
      destruct (Nat.max_spec x (list_max L)) as [[A B]|[A B]]; rewrite B in *; [right; apply IH; lia|now left]. }
    apply in_concat in I as (w & W & I). apply in_map_iff in W as (b & <- & _). exists b. cbn in I. destruct I as [I|[I|[]]]; auto.
Qed.
Lemma max_busiest l a : (exists b, 0 < follows l a b \/ 0 < follows l b a) -> get_max_activity_count (native 1 false l) a = Z.of_nat (busiest l a).
Proof.
  intros (b & H). destruct (max_count_spec _ a (native_nodup l)) as [A B]. cbn zeta in *. destruct (busiest_spec l a) as [C D].
  set (r := get_max_activity_count _ a) in *.
  assert (U : forall x, (Z.of_nat (follows l a x) <= Z.max 0 r)%Z /\ (Z.of_nat (follows l x a) <= Z.max 0 r)%Z).
  { intros x. specialize (A x). rewrite !native_get in A. split.
    - destruct (Nat.eqb_spec (follows l a x) 0); [lia|]. specialize (A _ (or_introl eq_refl)). lia.
    - destruct (Nat.eqb_spec (follows l x a) 0); [lia|]. specialize (A _ (or_intror eq_refl)). lia. }
  assert (R : (1 <= r)%Z).
  { specialize (A b). rewrite !native_get in A. destruct H as [H|H].
    - rewrite (proj2 (Nat.eqb_neq _ _)) in A by lia. specialize (A _ (or_introl eq_refl)). lia.
    - destruct (Nat.eqb_spec (follows l b a) 0); [lia|]. specialize (A _ (or_intror eq_refl)). lia. }
  assert (Lo : (Z.of_nat (busiest l a) <= r)%Z).
  { destruct D as (x & [E|E]); [destruct (C b); lia| |]; rewrite E; destruct (U x); lia. }
  destruct B as [B|(x & c & [E|E] & B)]; [lia| |]; rewrite native_get in E; destruct (Nat.eqb _ 0); try discriminate; injection E as <-; rewrite B; destruct (C x); lia.
Qed.

(** ** Cleaning *)
Lemma qlt_iff x y : qlt x y = true <-> (x < y)%Q.
Proof. unfold qlt. rewrite negb_true_iff. split; intros H; [apply Qnot_le_lt; intros L; apply Qle_bool_iff in L; congruence|]. destruct (Qle_bool y x) eqn:E; auto. apply Qle_bool_iff in E. exfalso. now apply (Qlt_not_le _ _ H). Qed.
Lemma qmin_lt x y z : (x < qmin y z)%Q <-> (x < y)%Q /\ (x < z)%Q.
Proof.
  unfold qmin. destruct (qlt z y) eqn:E.
  - apply qlt_iff in E. split; [intros H; split; auto; eapply Qlt_trans; eauto|tauto].
  - assert (y <= z)%Q by (apply Qnot_lt_le; intros H; apply qlt_iff in H; congruence). split; [intros H'; split; auto; eapply Qlt_le_trans; eauto|tauto].
Qed.
Definition final_dfg (P : params) (l : log) : graph_counts := let g := native 1 false l in if qlt 0 (noise_t P) then clean_dfg g (noise_t P) else g.
Lemma qn_nonneg n : (0 <= qn n)%Q.
Proof. unfold qn, inject_Z, Qle. cbn. lia. Qed.
Lemma noisy_dec P l a b : {noisy P l a b} + {~ noisy P l a b}.
Proof.
  unfold noisy. destruct (Qlt_le_dec (qn (follows l a b)) (qn (busiest l a) * noise_t P)) as [A|A];
  destruct (Qlt_le_dec (qn (follows l a b)) (qn (busiest l b) * noise_t P)) as [B|B]; [left; auto| | |];
    right; intros [X Y]; [apply (Qlt_not_le _ _ Y B)|apply (Qlt_not_le _ _ X A)|apply (Qlt_not_le _ _ X A)].
Qed.
Lemma filter_get (g : graph_counts) f a b : NoDup (d_keys g) ->
  d_get (filter f g) (a, b) = match d_get g (a, b) with Some c => if f (a, b, c) then Some c else None | None => None end.
Proof.
  induction g as [|[k c] g IH]; intros N; [reflexivity|]. inversion N as [|? ? Nk N']; subst. cbn [filter d_get]. destruct (f (k, c)) eqn:E.
  - cbn [d_get]. destruct (keqb_spec k (a, b)) as [->|]; [now rewrite E|auto].
  - destruct (keqb_spec k (a, b)) as [->|]; [|auto]. rewrite E. rewrite IH by auto. assert (G : d_get g (a, b) = None) by now apply d_get_none. now rewrite G.
Qed.
Lemma nodup_filter {V} f (g : dict (nat * nat) V) : NoDup (d_keys g) -> NoDup (d_keys (filter f g)).
Proof.
  intros N. induction g as [|[k c] g IH]; [constructor|]. inversion N as [|? ? Nk N']; subst. cbn [filter]. destruct (f (k, c)); [|auto]. cbn. constructor; auto.
  intros I. apply Nk. apply in_map_iff in I as (e & E & I). apply filter_In in I as [I _]. apply in_map_iff. eauto.
Qed.
Lemma final_nodup P l : NoDup (d_keys (final_dfg P l)).
Proof. unfold final_dfg. cbn zeta. destruct (qlt _ _); [|apply native_nodup]. unfold clean_dfg. apply nodup_filter, native_nodup. Qed.
Definition fin (P : params) (l : log) (a b : nat) : nat := if noisy_dec P l a b then 0 else follows l a b.
Lemma final_get P l a b : d_get (final_dfg P l) (a, b) = if Nat.eqb (fin P l a b) 0 then None else Some (fin P l a b).
Proof.
  unfold final_dfg, fin. destruct (qlt 0 (noise_t P)) eqn:T.
  - unfold clean_dfg. rewrite filter_get by apply native_nodup. rewrite native_get. destruct (Nat.eqb_spec (follows l a b) 0) as [E|E].
    + destruct (noisy_dec P l a b); [reflexivity|]. rewrite E. reflexivity.
    + cbn [fst snd]. rewrite (max_busiest l a) by (exists b; left; lia). rewrite (max_busiest l b) by (exists a; right; lia).
      destruct (noisy_dec P l a b) as [Y|Nn].
      * assert (H : qlt (qn (follows l a b)) (qmin (inject_Z (Z.of_nat (busiest l a)) * noise_t P)%Q (inject_Z (Z.of_nat (busiest l b)) * noise_t P)%Q) = true) by (apply qlt_iff, qmin_lt; exact Y).
        rewrite H. reflexivity.
      * match goal with |- context [negb ?q] => destruct q eqn:H end; [apply qlt_iff in H; apply (proj1 (qmin_lt _ _ _)) in H; exfalso; exact (Nn H)|]. cbn [negb]. rewrite (proj2 (Nat.eqb_neq _ _)) by auto. reflexivity.
  - rewrite native_get. destruct (noisy_dec P l a b) as [[Y _]|Nn]; [|reflexivity]. exfalso.
    assert (noise_t P <= 0)%Q by (apply Qnot_lt_le; intros H; apply qlt_iff in H; congruence).
    assert (qn (busiest l a) * noise_t P <= 0)%Q.
    { setoid_replace (0%Q) with (qn (busiest l a) * 0)%Q by ring. destruct (Qeq_dec (qn (busiest l a)) 0) as [E|E]; [rewrite E; ring_simplify; apply Qle_refl|].
      apply Qmult_le_l; auto. apply Qnot_le_lt. intros L. apply E. apply Qle_antisym; auto. apply qn_nonneg. }
    apply (Qlt_not_le _ _ Y). eapply Qle_trans; [exact H0|apply qn_nonneg].
Qed.
Lemma fin_spec P l a b c : counted_follows P l a b c <-> c = fin P l a b.
Proof. unfold counted_follows, fin. destruct (noisy_dec P l a b); tauto. Qed.
Lemma dependency_spec P l a b : 0 < fin P l a b -> (dependency (final_dfg P l) (a, b, fin P l a b) == dependency_of a b (fin P l a b) (fin P l b a))%Q.
Proof.
  intros H. unfold dependency, dependency_of. destruct (Nat.eqb_spec a b) as [->|Ne]; cbn [negb]; [reflexivity|].
  rewrite final_get. destruct (Nat.eqb_spec (fin P l b a) 0) as [->|]; [|reflexivity].
  assert (Z : (qn 0 == 0)%Q) by reflexivity. generalize (qn (fin P l a b)). intros q. setoid_replace (q - qn 0)%Q with q by (rewrite Z; ring).
  reflexivity.
Qed.

(** ** Triples *)
Lemma triples_get l a b : m_nat (triples_matrix (freq_triples l)) a b = if Nat.eqb a b then 0 else back_and_forth l a b.
Proof.
  unfold triples_matrix, m_nat.
  assert (G : forall f m, NoDup (d_keys f) -> m_get (fold_left (fun m (e : nat * nat * nat * nat) => let '(a, b, c) := fst e in if Nat.eqb a c && negb (Nat.eqb a b) then m_set m a b (snd e) else m) f m) a b
     = if Nat.eqb a b then m_get m a b else match d_get f (a, b, a) with Some v => Some v | None => m_get m a b end).
  { induction f as [|[[[x y] z] v] f IH]; intros m N; [cbn; now destruct (Nat.eqb a b)|]. inversion N as [|? ? Nk N']; subst. cbn [fold_left fst snd d_get].
    rewrite IH by auto. destruct (Nat.eqb_spec a b) as [->|Nab].
    - destruct (Nat.eqb_spec x z), (Nat.eqb_spec x y); cbn [andb negb]; auto. rewrite m_get_set. destruct (Nat.eqb_spec x b), (Nat.eqb_spec y b); subst; auto; easy.
    - destruct (keqb_spec (x, y, z) (a, b, a)) as [[= -> -> ->]|Ne].
      + assert (G : d_get f (a, b, a) = None) by now apply d_get_none. rewrite G, Nat.eqb_refl. rewrite (proj2 (Nat.eqb_neq a b)) by auto. cbn [andb negb]. rewrite m_get_set, !Nat.eqb_refl. reflexivity.
      + destruct (d_get f (a, b, a)); auto. destruct (Nat.eqb_spec x z), (Nat.eqb_spec x y); cbn [andb negb]; auto. rewrite m_get_set.
        destruct (Nat.eqb_spec x a), (Nat.eqb_spec y b); subst; auto. easy. }
  rewrite G by apply c_of_nodup. destruct (Nat.eqb_spec a b); [reflexivity|]. 
  assert (E : d_get (freq_triples l) (a, b, a) = if Nat.eqb (back_and_forth l a b) 0 then None else Some (back_and_forth l a b)).
  { unfold freq_triples. rewrite d_get_c_of. rewrite occ_concat, map_map. replace (list_sum _) with (back_and_forth l a b); [reflexivity|].
    unfold back_and_forth. f_equal. apply map_ext. intros t.
    induction t as [|x [|y [|z r]] IH]; [reflexivity|reflexivity|reflexivity|].
    change (back_in_trace (x :: y :: z :: r) a b) with ((if Nat.eqb x a && Nat.eqb y b && Nat.eqb z a then 1 else 0) + back_in_trace (y :: z :: r) a b).
    cbn [length]. replace (S (S (S (length r))) - 2) with (S (length r)) by lia. cbn [seq map]. rewrite occ_cons. f_equal.
    rewrite IH. cbn [length]. replace (S (S (length r)) - 2) with (length r) by lia. f_equal. rewrite <- (seq_shift _ 2), map_map. apply map_ext_in. intros i Hi. apply in_seq in Hi.
    destruct i as [|[|i]]; [lia|lia|]. cbn. replace (i - 0) with i by lia. reflexivity. }
  rewrite E. destruct (Nat.eqb_spec (back_and_forth l a b) 0) as [->|]; reflexivity.
Qed.
Lemma triples_ok f : m_ok (triples_matrix f).
Proof.
  unfold triples_matrix. generalize (@m_ok_nil nat). generalize ([] : matrix nat). induction f as [|[[[x y] z] v] f IH]; intros m H; cbn [fold_left fst snd]; auto.
  apply IH. destruct (_ && _); auto. now apply m_ok_set.
Qed.
Lemma triples_some l a b : m_get (triples_matrix (freq_triples l)) a b <> None <-> a <> b /\ 0 < back_and_forth l a b.
Proof.
  assert (P : forall v, m_get (triples_matrix (freq_triples l)) a b = Some v -> 0 < v).
  { unfold triples_matrix. assert (Pf : forall e, In e (freq_triples l) -> 0 < snd e).
    { intros [k v] I. apply d_in_get in I; [|apply c_of_nodup]. unfold freq_triples in I. rewrite d_get_c_of in I. destruct (Nat.eqb_spec (occ k (concat (map (fun t => map (fun i => (nth (i - 2) t 0, nth (i - 1) t 0, nth i t 0)) (seq 2 (length t - 2))) l))) 0); [discriminate|]. injection I as <-. cbn. lia. }
    assert (Pm : forall v, m_get ([] : matrix nat) a b = Some v -> 0 < v) by discriminate. revert Pf Pm. generalize (freq_triples l). generalize ([] : matrix nat). intros m f. revert m.
    induction f as [|[[[x y] z] v] f IH]; intros m Pf Pm; cbn [fold_left fst snd]; auto. apply IH; [intros e I; apply Pf; now right|].
    destruct (_ && _); auto. intros w. rewrite m_get_set. destruct (_ && _); auto. intros [= <-]. apply (Pf (x, y, z, v)). now left. }
  assert (G := triples_get l a b). unfold m_nat in G. destruct (m_get _ a b) as [v|] eqn:E.
  - specialize (P _ eq_refl). subst v. destruct (Nat.eqb_spec a b); [lia|]. split; [auto|discriminate].
  - destruct (Nat.eqb_spec a b); [subst; split; [easy|intros [? _]; easy]|]. split; [easy|]. rewrite <- G. intros [_ H]. lia.
Qed.
