(** The playout of a directly-follows graph yields every allowed trace once. *)
From Coq Require Import List Arith QArith Qround Bool Permutation Lia Lqa.
Import ListNotations.
Open Scope nat_scope.
From Verif Require Import Model_DfgPlay Spec_DfgPlay Proofs_DfgPlay1.

Lemma last_snoc {X} (l : list X) x d : last (l ++ [x]) d = x.
Proof. induction l as [|y l IH]; [reflexivity|]. cbn. rewrite IH. destruct (l ++ [x]) eqn:E; [destruct l; discriminate|reflexivity]. Qed.
Lemma last_nth {X} (l : list X) d : l <> [] -> nth_error l (length l - 1) = Some (last l d).
Proof. induction l as [|y l IH]; intros H; [congruence|]. destruct l as [|z l]; [reflexivity|]. cbn [length] in *. replace (S (S (length l)) - 1) with (S (S (length l) - 1)) by lia. change (nth_error (z :: l) (S (length l) - 1) = Some (last (y :: z :: l) d)). rewrite IH by discriminate. reflexivity. Qed.
Lemma hd_app {X} (l k : list X) d : l <> [] -> hd d (l ++ k) = hd d l.
Proof. destruct l; [congruence|reflexivity]. Qed.
Lemma count_snoc (t : list nat) b a : count_occ Nat.eq_dec (t ++ [b]) a = count_occ Nat.eq_dec t a + (if Nat.eq_dec b a then 1 else 0).
Proof. rewrite count_occ_app. cbn. destruct (Nat.eq_dec b a); lia. Qed.
Lemma few_length A max : NoDup A -> forall t, incl t A -> few max t -> length t <= max * length A.
Proof.
  induction 1 as [|a A H N IH]; intros t I F; [destruct t as [|x t]; [cbn; lia|destruct (I x (or_introl eq_refl))]|].
  assert (L : forall t : list nat, length t = count_occ Nat.eq_dec t a + length (remove Nat.eq_dec a t)).
  { clear. induction t as [|x t IH]; [reflexivity|]. cbn. destruct (Nat.eq_dec x a), (Nat.eq_dec a x); cbn; try congruence; lia. }
  rewrite (L t). cbn [length]. assert (length (remove Nat.eq_dec a t) <= max * length A).
  { apply IH.
    - intros x Hx. apply in_remove in Hx as [Hx E]. destruct (I x Hx); [congruence|auto].
    - intros x. specialize (F x). assert (G : forall t : list nat, count_occ Nat.eq_dec (remove Nat.eq_dec a t) x <= count_occ Nat.eq_dec t x).
      { clear. induction t as [|y t IH]; [cbn; lia|]. cbn. destruct (Nat.eq_dec a y); cbn; destruct (Nat.eq_dec y x); lia. }
      specialize (G t). lia. }
  specialize (F a). lia.
Qed.

Lemma filter_length_le {X} (f : X -> bool) l : length (filter f l) <= length l.
Proof. induction l as [|x l IH]; cbn; [lia|]. destruct (f x); cbn; lia. Qed.
Lemma in_len X (y : X) l : In y l -> 1 <= length l.
Proof. destruct l; [easy|cbn; lia]. Qed.
Section G.
  Variable dfg : edges.
  Variables sa ea : freqs.
  Variable max : nat.
  Hypothesis HP : proper_dfg dfg sa ea.
  Hypothesis HC : complete_dfg dfg sa ea.
  Hypothesis HM : 1 <= max.
  Notation tro := (transitions_of dfg ea).
  Notation chn := (chain dfg).
  (** prefixes of traces *)
  Definition good (t : list nat) : Prop := t <> [] /\ In (hd 0 t) (map fst sa) /\ chn t /\ few max t.
  Definition allowed (t : list nat) : Prop := is_trace dfg sa ea t /\ few max t.
  Lemma allowed_good t : allowed t <-> good t /\ In (last t O) (map fst ea).
  Proof. unfold allowed, good, is_trace, chain. tauto. Qed.
  (** the chance of a prefix *)
  Fixpoint steps_chance (a : nat) (r : list nat) : Q := match r with [] => 1%Q | b :: r' => (share (edge_count dfg a b) (out_total dfg ea a) * steps_chance b r')%Q end.
  Definition prefix_chance (t : list nat) : Q := match t with [] => 1%Q | a :: r => (share (count sa a) (total sa) * steps_chance a r)%Q end.
  Lemma steps_snoc r : forall a b, (steps_chance a (r ++ [b]) == steps_chance a r * share (edge_count dfg (last (a :: r) O) b) (out_total dfg ea (last (a :: r) O)))%Q.
  Proof.
    induction r as [|c r IH]; intros a b; [cbn; ring|]. change (last (a :: c :: r) O) with (last (c :: r) O). cbn [app steps_chance]. rewrite IH. ring.
  Qed.
  Lemma prefix_snoc t b : t <> [] -> (prefix_chance (t ++ [b]) == prefix_chance t * share (edge_count dfg (last t O) b) (out_total dfg ea (last t O)))%Q.
  Proof. destruct t as [|a r]; intros H; [congruence|]. cbn [app prefix_chance]. rewrite steps_snoc. ring. Qed.
  Lemma after_steps r : forall a, (chance_after dfg ea a r == steps_chance a r * share (count ea (last (a :: r) O)) (out_total dfg ea (last (a :: r) O)))%Q.
  Proof. induction r as [|c r IH]; intros a; [cbn; ring|]. change (last (a :: c :: r) O) with (last (c :: r) O). cbn [chance_after steps_chance]. rewrite IH. ring. Qed.
  Lemma chance_prefix t : t <> [] -> (chance dfg sa ea t == prefix_chance t * share (count ea (last t O)) (out_total dfg ea (last t O)))%Q.
  Proof. destruct t as [|a r]; intros H; [congruence|]. cbn [chance prefix_chance]. rewrite after_steps. ring. Qed.
  Lemma chain_snoc t b : t <> [] -> (chn (t ++ [b]) <-> chn t /\ In (last t O, b) (map fst dfg)).
  Proof.
    induction t as [|a t IH]; intros H; [congruence|]. destruct t as [|c t].
    - cbn [app last]. rewrite chain_cons. split; intros [A B]; split; auto; apply chain_one.
    - change ((a :: c :: t) ++ [b]) with (a :: c :: (t ++ [b])). rewrite !chain_cons. change (c :: t ++ [b]) with ((c :: t) ++ [b]). rewrite IH by discriminate. change (last (a :: c :: t) O) with (last (c :: t) O). tauto.
  Qed.
  Lemma good_snoc t b : good t -> (good (t ++ [b]) <-> In (last t O, b) (map fst dfg) /\ may_use max t b = true).
  Proof.
    intros (A & B & C & D). unfold good. rewrite hd_app, chain_snoc by auto. unfold may_use. rewrite Nat.ltb_lt. split.
    - intros (_ & _ & [_ E] & F). split; auto. specialize (F b). rewrite count_snoc in F. destruct (Nat.eq_dec b b); [lia|congruence].
    - intros [E F]. split; [destruct t; discriminate|]. split; auto. split; auto. intros a. rewrite count_snoc. specialize (D a). destruct (Nat.eq_dec b a) as [->|]; lia.
  Qed.
  (** every prefix can go on or end *)
  Lemma good_row t : good t -> tro (last t O) = Some (normalised (row dfg ea (last t O))) /\ row dfg ea (last t O) <> [].
  Proof.
    intros (A & B & C & _). assert (R : row dfg ea (last t O) <> []).
    { assert (Q : In (last t O) (map fst sa) \/ In (last t O) (map (fun e => snd (fst e)) dfg)).
      { destruct t as [|a t] using rev_ind; [congruence|]. clear IHt. rewrite last_snoc. destruct t as [|b t]; [left; exact B|]. right. apply chain_snoc in C as [_ C]; [|discriminate]. apply in_map_iff in C as ([e k] & E & C). cbn in E. subst e. apply in_map_iff. exists (last (b :: t) O, a, k). auto. }
      destruct (HC _ Q) as [H|H]; apply in_map_iff in H as (e & E & H).
      - destruct e as [[x y] c]. cbn in E. subst x. apply row_edge with (ea := ea) in H. intros Z. rewrite Z in H. destruct H.
      - destruct e as [x c]. cbn in E. subst x. apply row_end with (dfg := dfg) in H. intros Z. rewrite Z in H. destruct H. }
    split; auto. unfold transitions_of. destruct (row dfg ea (last t O)); [congruence|reflexivity].
  Qed.
  Lemma ext_in x y : good (fst x) -> (In y (extensions max x (normalised (row dfg ea (last (fst x) O)))) <->
    exists b, In (last (fst x) O, b) (map fst dfg) /\ may_use max (fst x) b = true /\ y = (fst x ++ [b], (snd x * share (edge_count dfg (last (fst x) O) b) (out_total dfg ea (last (fst x) O)))%Q)).
  Proof.
    intros G. unfold extensions. rewrite in_flat_map. split.
    - intros ([[b|] q] & H & Hy); cbn [fst snd] in Hy; [|easy]. destruct (may_use max (fst x) b) eqn:M; [|easy]. destruct Hy as [<- |[]]. apply (edge_step dfg sa ea HP) in H as [H ->]. exists b. auto.
    - intros (b & H & M & ->). exists (Some b, share (edge_count dfg (last (fst x) O) b) (out_total dfg ea (last (fst x) O))). split; [apply (edge_step dfg sa ea HP); auto|]. cbn [fst snd]. rewrite M. left; auto.
  Qed.
  Lemma ext_keys x s : NoDup (map fst (extensions max x (normalised (row dfg ea s)))).
  Proof.
    pose proof (row_keys dfg sa ea HP s) as N. rewrite <- norm_keys in N. revert N. generalize (normalised (row dfg ea s)). intros l N. induction l as [|[[b|] q] l IH]; [constructor| |cbn in N; inversion N; subst; exact (IH H2)].
    cbn in N. inversion N as [|? ? N1 N2]; subst. specialize (IH N2). unfold extensions. cbn [flat_map fst]. fold (extensions max x l). destruct (may_use max (fst x) b); [|exact IH]. cbn. constructor; auto.
    intros Q. apply N1. apply in_map_iff in Q as (y & E & Q). unfold extensions in Q. apply in_flat_map in Q as ([[c|] p] & Hc & Q); cbn [fst snd] in Q; [|easy]. destruct (may_use max (fst x) c); [|easy]. destruct Q as [<- |[]]. cbn in E. apply app_inj_tail in E as [_ ->]. apply (in_map fst _ _ Hc).
  Qed.
  Lemma yield_end x : yielded max x (normalised (row dfg ea (last (fst x) O))) =
    (if in_dec Nat.eq_dec (last (fst x) O) (map fst ea) then [(fst x, (snd x * share (count ea (last (fst x) O)) (out_total dfg ea (last (fst x) O)))%Q)] else []).
  Proof.
    set (s := last (fst x) O). pose proof (row_keys dfg sa ea HP s) as N. rewrite <- norm_keys in N. assert (M : 0 <? max = true) by (apply Nat.ltb_lt; lia).
    assert (Z : forall l, ~ In None (map fst l) -> yielded max x l = []).
    { induction l as [|[[b|] q] l IH]; intros H; [reflexivity|apply IH; intros Q; apply H; right; auto|exfalso; apply H; left; auto]. }
    destruct (in_dec Nat.eq_dec s (map fst ea)) as [I|I].
    - assert (Q : In (None, share (count ea s) (out_total dfg ea s)) (normalised (row dfg ea s))) by (apply (end_step dfg sa ea HP); auto).
      apply in_split in Q as (l1 & l2 & E). rewrite E in *. rewrite map_app in N. cbn in N. apply NoDup_remove_2 in N. rewrite in_app_iff in N.
      unfold yielded. rewrite flat_map_app. fold (yielded max x l1). rewrite Z by tauto. cbn [flat_map fst app snd]. fold (yielded max x l2). rewrite Z by tauto. rewrite M. reflexivity.
    - apply Z. intros Q. apply in_map_iff in Q as ([o q] & E & Q). cbn in E. subst o. apply (end_step dfg sa ea HP) in Q. tauto.
  Qed.

  (** ** the invariant *)
  Definition prefixb (t u : list nat) : bool := if list_eq_dec Nat.eq_dec (firstn (length t) u) t then true else false.
  Definition sameb (t u : list nat) : bool := if list_eq_dec Nat.eq_dec t u then true else false.
  Definition hits (q : list nat -> bool) (l : list partial) : nat := length (filter (fun x => q (fst x)) l).
  Lemma hits_app q l k : hits q (l ++ k) = hits q l + hits q k.
  Proof. unfold hits. rewrite filter_app, app_length. reflexivity. Qed.
  Lemma hits_perm q l k : Permutation l k -> hits q l = hits q k.
  Proof. unfold hits. induction 1; cbn; auto; [destruct (q (fst x)); cbn; auto|destruct (q (fst x)), (q (fst y)); reflexivity|congruence]. Qed.
  Lemma hits_none q l : (forall x, In x l -> q (fst x) = false) -> hits q l = 0.
  Proof. unfold hits. induction l as [|x l IH]; intros H; [reflexivity|]. cbn. rewrite (H x) by (left; auto). apply IH. intros; apply H; right; auto. Qed.
  Lemma hits_some q l : 0 < hits q l -> exists x, In x l /\ q (fst x) = true.
  Proof. unfold hits. induction l as [|x l IH]; cbn; [lia|]. destruct (q (fst x)) eqn:E; [eauto|]. intros H. destruct (IH H) as (y & Hy & Q). eauto. Qed.
  Lemma hits_one q l t : NoDup (map fst l) -> In t (map fst l) -> (forall x, In x l -> q (fst x) = true <-> fst x = t) -> hits q l = 1.
  Proof.
    unfold hits. induction l as [|x l IH]; [easy|]. cbn. intros N [E|H] Q; inversion N as [|? ? N1 N2]; subst.
    - rewrite (proj2 (Q x (or_introl eq_refl)) eq_refl). cbn. f_equal. apply hits_none. intros y Hy. destruct (q (fst y)) eqn:Ey; auto. apply Q in Ey; auto. exfalso. apply N1. rewrite <- Ey. now apply in_map.
    - destruct (q (fst x)) eqn:Ex; [|apply IH; auto]. apply Q in Ex; auto. exfalso. apply N1. now rewrite Ex.
  Qed.
  Lemma prefixb_eq t u : prefixb t u = true <-> exists v, u = t ++ v.
  Proof.
    unfold prefixb. destruct (list_eq_dec Nat.eq_dec (firstn (length t) u) t) as [E|E]; split; try discriminate; auto.
    - intros _. exists (skipn (length t) u). rewrite <- E at 1. symmetry. apply firstn_skipn.
    - intros (v & ->). exfalso. apply E. rewrite firstn_app, Nat.sub_diag, firstn_all. cbn. apply app_nil_r.
  Qed.
  Lemma sameb_eq t u : sameb t u = true <-> t = u.
  Proof. unfold sameb. destruct (list_eq_dec Nat.eq_dec t u); split; congruence. Qed.
  Definition Inv (s : list partial * list partial) : Prop :=
    (forall x, In x (fst s) -> good (fst x) /\ (snd x == prefix_chance (fst x))%Q) /\
    (forall y, In y (snd s) -> allowed (fst y) /\ (snd y == chance dfg sa ea (fst y))%Q) /\
    (forall u, allowed u -> hits (fun t => prefixb t u) (fst s) + hits (fun t => sameb t u) (snd s) = 1).
  Lemma inv_start : Inv (first_partials sa, []).
  Proof.
    split; [|split; [easy|]].
    - intros x H. cbn [fst] in H. unfold first_partials in H. apply in_map_iff in H as ([a q] & <- & H). apply (start_step dfg sa ea HP) in H as [H ->]. cbn [fst snd]. split.
      + split; [discriminate|]. split; auto. split; [apply chain_one|]. intros b. cbn. destruct (Nat.eq_dec a b); lia.
      + cbn. ring.
    - intros u Hu. apply allowed_good in Hu as [(A & B & C & D) _]. change (snd (first_partials sa, [])) with (@nil partial). unfold hits at 2. cbn [filter length]. rewrite Nat.add_0_r.
      apply (hits_one _ _ [hd 0 u]).
      + cbn [fst]. unfold first_partials. rewrite map_map. cbn [fst]. rewrite <- (map_map fst (fun a => [a])). rewrite norm_keys. apply nodup_inj; [apply HP|]. intros x y _ _ E. congruence.
      + cbn [fst]. apply in_map_iff. exists ([hd 0 u], share (count sa (hd 0 u)) (total sa)). split; auto. unfold first_partials. apply in_map_iff. exists (hd 0 u, share (count sa (hd 0 u)) (total sa)). split; auto. apply (start_step dfg sa ea HP). auto.
      + cbn [fst]. intros x Hx. unfold first_partials in Hx. apply in_map_iff in Hx as ([a q] & <- & _). cbn [fst]. rewrite prefixb_eq. split; [intros (v & ->); reflexivity|]. intros E. injection E as ->. exists (tl u). destruct u; [congruence|reflexivity].
  Qed.
  Lemma good_prefix t b v : t <> [] -> good (t ++ b :: v) -> good (t ++ [b]).
  Proof.
    intros N. revert b. induction v as [|c v IH] using rev_ind; intros b G; [auto|]. apply IH. replace (t ++ b :: v ++ [c]) with ((t ++ b :: v) ++ [c]) in G by (rewrite <- app_assoc; reflexivity).
    destruct G as (A & B & C & D). assert (N' : t ++ b :: v <> []) by (destruct t; discriminate). split; auto. split; [rewrite hd_app in B; auto|]. apply chain_snoc in C as [C _]; auto. split; auto.
    intros a. specialize (D a). rewrite count_snoc in D. lia.
  Qed.
  Lemma inv_round s s' : Inv s -> round dfg ea max s s' -> Inv s'.
  Proof.
    intros (I1 & I2 & I3) (x & rest & r & P & _ & T & ->). destruct (I1 x) as [G E]; [rewrite P; left; auto|]. destruct (good_row _ G) as [R _]. rewrite R in T. injection T as <-. unfold Inv. cbn [fst snd]. pose proof G as (N & _).
    split; [|split].
    - intros y Hy. apply in_app_iff in Hy as [Hy|Hy]; [|apply I1; rewrite P; right; auto]. apply ext_in in Hy as (b & H1 & H2 & ->); auto. cbn [fst snd]. split; [apply good_snoc; auto|]. rewrite prefix_snoc by auto. rewrite E. reflexivity.
    - intros y Hy. apply in_app_iff in Hy as [Hy|Hy]; [auto|]. rewrite yield_end in Hy. destruct (in_dec _ _ _) as [I|]; [|easy]. destruct Hy as [<- |[]]. cbn [fst snd]. split; [apply allowed_good; auto|]. rewrite chance_prefix, E by auto. reflexivity.
    - intros u Hu. specialize (I3 u Hu). rewrite (hits_perm _ _ _ P) in I3. change (x :: rest) with ([x] ++ rest) in I3. rewrite !hits_app in *. pose proof Hu as Hu'. apply allowed_good in Hu' as [Gu Eu].
      assert (K : hits (fun t => prefixb t u) [x] = hits (fun t => prefixb t u) (extensions max x (normalised (row dfg ea (last (fst x) O)))) + hits (fun t => sameb t u) (yielded max x (normalised (row dfg ea (last (fst x) O))))); [|lia].
      rewrite yield_end. unfold hits at 1. cbn [filter]. destruct (prefixb (fst x) u) eqn:B.
      + cbn [length]. apply prefixb_eq in B as ([|b v] & Ev).
        * rewrite app_nil_r in Ev. subst u. rewrite hits_none; [|intros y Hy; apply ext_in in Hy as (b & _ & _ & ->); auto; cbn [fst]; destruct (prefixb _ _) eqn:Q; auto; apply prefixb_eq in Q as (v & Q); apply (f_equal (@length nat)) in Q; rewrite !app_length in Q; cbn in Q; lia].
          destruct (in_dec _ _ _) as [|Q]; [|tauto]. unfold hits. cbn. rewrite (proj2 (sameb_eq (fst x) (fst x)) eq_refl). reflexivity.
        * assert (Gb : good (fst x ++ [b])) by (subst u; eapply good_prefix; eauto). apply good_snoc in Gb as [Gb1 Gb2]; auto.
          rewrite (hits_one _ _ (fst x ++ [b])); [|apply ext_keys| |].
          -- rewrite hits_none; [reflexivity|]. intros y Hy. destruct (in_dec _ _ _); [|easy]. destruct Hy as [<- |[]]. cbn [fst]. destruct (sameb _ _) eqn:Q; auto. apply sameb_eq in Q. subst u. apply (f_equal (@length nat)) in Q. rewrite app_length in Q. cbn in Q. lia.
          -- apply in_map_iff. eexists. split; [|apply ext_in; auto; exists b; split; [|split]; [exact Gb1|exact Gb2|reflexivity]]. reflexivity.
          -- intros y Hy. apply ext_in in Hy as (c & _ & _ & ->); auto. cbn [fst]. rewrite prefixb_eq. subst u. split.
             ++ intros (w & Q). rewrite <- app_assoc in Q. apply app_inv_head in Q. injection Q as -> _. reflexivity.
             ++ intros Q. apply app_inj_tail in Q as [_ ->]. exists v. rewrite <- app_assoc. reflexivity.
      + assert (NB : forall v, u <> fst x ++ v) by (intros v Q; assert (Z : prefixb (fst x) u = true) by (apply prefixb_eq; eauto); congruence). cbn [length]. rewrite !hits_none; [reflexivity| |].
        * intros y Hy. destruct (in_dec _ _ _); [|easy]. destruct Hy as [<- |[]]. cbn [fst]. destruct (sameb _ _) eqn:Q; auto. apply sameb_eq in Q. exfalso. apply (NB []). rewrite app_nil_r. auto.
        * intros y Hy. apply ext_in in Hy as (b & _ & _ & ->); auto. cbn [fst]. destruct (prefixb (fst x ++ [b]) u) eqn:Q; auto. apply prefixb_eq in Q as (v & Q). exfalso. rewrite <- app_assoc in Q. exact (NB (b :: v) Q).
  Qed.
  Lemma inv_rounds k s s' : Inv s -> rounds dfg ea max k s s' -> Inv s'.
  Proof. intros I H. induction H as [|k s1 s2 s3 H IH R]; [auto|]. exact (inv_round _ _ (IH I) R). Qed.
  (** ** what is yielded *)
  Theorem yields ys : get_traces dfg sa ea max ys -> NoDup (map fst ys) /\ (forall t p, In (t, p) ys -> (p == chance dfg sa ea t)%Q) /\ forall t, In t (map fst ys) <-> is_trace dfg sa ea t /\ few max t.
  Proof.
    intros (k & H). pose proof (inv_rounds _ _ _ inv_start H) as (_ & I2 & I3). cbn [fst snd] in *.
    assert (I3' : forall u, allowed u -> hits (fun t => sameb t u) ys = 1) by (intros u Hu; specialize (I3 u Hu); unfold hits at 1 in I3; cbn in I3; lia).
    split; [|split].
    - assert (G : forall l, (forall y, In y l -> hits (fun t => sameb t (fst y)) l <= 1) -> NoDup (map fst l)).
      { induction l as [|x l IH]; intros Hl; [constructor|]. cbn. constructor.
        - intros Q. apply in_map_iff in Q as (y & E & Q). specialize (Hl x (or_introl eq_refl)). unfold hits in Hl. cbn in Hl. rewrite (proj2 (sameb_eq (fst x) (fst x)) eq_refl) in Hl. cbn in Hl.
          assert (1 <= length (filter (fun z => sameb (fst z) (fst x)) l)); [|lia]. assert (Q' : In y (filter (fun z => sameb (fst z) (fst x)) l)) by (apply filter_In; split; auto; apply sameb_eq; auto). exact (in_len _ _ _ Q').
        - apply IH. intros y Hy. specialize (Hl y (or_intror Hy)). unfold hits in *. cbn in Hl. destruct (sameb (fst x) (fst y)); cbn in Hl; lia. }
      apply G. intros y Hy. rewrite I3'; [lia|]. apply I2. auto.
    - intros t p Hp. apply (I2 (t, p) Hp).
    - intros t. split.
      + intros Ht. apply in_map_iff in Ht as (y & <- & Hy). apply I2. auto.
      + intros Ht. specialize (I3' t Ht). destruct (hits_some _ _ ltac:(rewrite I3'; lia)) as (y & Hy & Q). apply sameb_eq in Q. rewrite <- Q. apply in_map. exact Hy.
  Qed.
  (** ** the loop ends *)
  Definition acts : list nat := nodup Nat.eq_dec (map fst sa ++ map (fun e => snd (fst e)) dfg).
  Definition K := S (max * length acts).
  Definition B := length dfg.
  Definition weight (x : partial) : nat := S B ^ (K - length (fst x)).
  Definition mu (s : list partial * list partial) : nat := list_sum (map weight (fst s)).
  Lemma good_acts t : good t -> incl t acts.
  Proof.
    intros (N & H & C & _) a Ha. apply nodup_In, in_app_iff. apply In_nth_error in Ha as ([|i] & Ha).
    - left. destruct t; cbn in Ha; [discriminate|]. injection Ha as ->. exact H.
    - right. assert (Q : exists b, nth_error t i = Some b). { destruct (nth_error t i) eqn:E; eauto. apply nth_error_None in E. assert (S i < length t) by (apply nth_error_Some; congruence). lia. }
      destruct Q as (b & Hb). pose proof (C i b a Hb Ha) as Q. apply in_map_iff in Q as ([e k] & E & Q). cbn in E. subst e. apply in_map_iff. exists (b, a, k). auto.
  Qed.
  Lemma good_len t : good t -> length t < K.
  Proof. intros G. unfold K. pose proof (few_length acts max (NoDup_nodup _ _) t (good_acts t G)) as Q. destruct G as (_ & _ & _ & F). specialize (Q F). lia. Qed.
  Lemma ext_few x s : length (extensions max x (normalised (row dfg ea s))) <= B.
  Proof.
    assert (G : forall l, length (extensions max x l) <= length (filter (fun y : option nat * Q => match fst y with Some _ => true | None => false end) l)).
    { induction l as [|[[b|] q] l IH]; [cbn; lia| |exact IH]. unfold extensions. cbn [flat_map fst]. fold (extensions max x l). cbn [filter fst length]. rewrite app_length. destruct (may_use _ _ _); cbn [length]; [apply le_n_S; exact IH|apply le_S; exact IH]. }
    rewrite G. unfold B, normalised, row. rewrite map_app, filter_app, app_length, !map_map.
    assert (Z : forall l : list (nat * nat), filter (fun y : option nat * Q => match fst y with Some _ => true | None => false end) (map (fun e : nat * nat => (fst (None : option nat, snd e), ratio (snd (None : option nat, snd e)) (sum_values (map (fun e0 : nat * nat * nat => (Some (snd (fst e0)), snd e0)) (filter (fun e0 => fst (fst e0) =? s) dfg) ++ map (fun e0 : nat * nat => (None, snd e0)) (filter (fun e0 => fst e0 =? s) ea))))) l) = []) by (induction l; auto).
    rewrite Z. cbn [length]. rewrite Nat.add_0_r. etransitivity; [apply filter_length_le|]. rewrite map_length. apply filter_length_le.
  Qed.
  Lemma sum_perm l k : Permutation l k -> list_sum l = list_sum k.
  Proof. unfold list_sum. induction 1 as [|x l k P IH|x y l|l m k P1 IH1 P2 IH2]; cbn; [auto|rewrite IH; auto|lia|congruence]. Qed.
  Lemma mu_round s s' : Inv s -> round dfg ea max s s' -> mu s' < mu s.
  Proof.
    intros (I1 & _ & _) (x & rest & r & P & _ & T & ->). destruct (I1 x) as [G _]; [rewrite P; left; auto|]. destruct (good_row _ G) as [R _]. rewrite R in T. injection T as <-. unfold mu. cbn [fst].
    rewrite (sum_perm _ _ (Permutation_map weight P)), map_app, list_sum_app. cbn [map list_sum fold_right]. change (fold_right Nat.add 0 (map weight rest)) with (list_sum (map weight rest)). apply Nat.add_lt_mono_r.
    pose proof (good_len _ G) as L. set (l := extensions max x (normalised (row dfg ea (last (fst x) O)))). assert (W : forall y, In y l -> weight y = S B ^ (K - S (length (fst x)))).
    { intros y Hy. apply ext_in in Hy as (b & _ & _ & ->); auto. unfold weight. cbn [fst]. rewrite app_length. replace (length (fst x) + length [b]) with (S (length (fst x))) by (cbn [length]; lia). reflexivity. }
    assert (S1 : list_sum (map weight l) = length l * S B ^ (K - S (length (fst x)))).
    { clear -W. induction l as [|y l IH]; [reflexivity|]. cbn [map length]. change (list_sum (weight y :: map weight l)) with (weight y + list_sum (map weight l)). rewrite IH by (intros; apply W; right; auto). rewrite (W y) by (left; auto). cbn. lia. }
    rewrite S1. unfold weight. replace (K - length (fst x)) with (S (K - S (length (fst x)))) by lia. cbn [Nat.pow]. pose proof (ext_few x (last (fst x) O)) as F. fold l in F.
    assert (0 < S B ^ (K - S (length (fst x)))) by (apply Nat.neq_0_lt_0, Nat.pow_nonzero; lia). nia.
  Qed.
  Lemma best (P : list partial) : P <> [] -> exists x rest, Permutation P (x :: rest) /\ forall y, In y rest -> (snd y <= snd x)%Q.
  Proof.
    induction P as [|x P IH]; intros H; [congruence|]. destruct P as [|z P]; [exists x, []; split; [auto|easy]|]. destruct (IH ltac:(discriminate)) as (y & rest & Pm & Hy).
    destruct (Qlt_le_dec (snd x) (snd y)) as [L|L].
    - exists y, (x :: rest). split; [rewrite Pm; apply perm_swap|]. intros w [<- |Hw]; [lra|auto].
    - exists x, (z :: P). split; auto. intros w Hw. rewrite Pm in Hw. destruct Hw as [<- |Hw]; auto. specialize (Hy w Hw). lra.
  Qed.
  Lemma progress s : Inv s -> fst s <> [] -> exists s', round dfg ea max s s'.
  Proof.
    intros (I1 & _) H. destruct (best _ H) as (x & rest & P & Hy). destruct (I1 x) as [G _]; [rewrite P; left; auto|]. destruct (good_row _ G) as [R _]. eexists. exists x, rest, (normalised (row dfg ea (last (fst x) O))). auto.
  Qed.
  Theorem never_stuck k s : rounds dfg ea max k (first_partials sa, []) s -> fst s <> [] -> exists s', round dfg ea max s s'.
  Proof. intros H. apply progress. eapply inv_rounds; [apply inv_start|exact H]. Qed.
  Theorem bounded : exists n, forall k s, rounds dfg ea max k (first_partials sa, []) s -> k <= n.
  Proof.
    exists (mu (first_partials sa, [])). intros k s H. assert (G : mu s + k <= mu (first_partials sa, [])); [|lia]. remember (first_partials sa, []) as s0 eqn:E. induction H as [s|k s1 s2 s3 H IH R]; [lia|]. subst s1. specialize (IH eq_refl).
    pose proof (mu_round s2 s3 (inv_rounds _ _ _ inv_start H) R). lia.
  Qed.
  Theorem gives_traces : exists ys, get_traces dfg sa ea max ys.
  Proof.
    assert (G : forall n k s, mu s < n -> rounds dfg ea max k (first_partials sa, []) s -> exists k' ys, rounds dfg ea max k' (first_partials sa, []) ([], ys)).
    { induction n as [|n IH]; intros k s L H; [lia|]. destruct s as [[|x P] ys]; [eauto|]. destruct (never_stuck k _ H ltac:(discriminate)) as (s' & R). eapply (IH (S k) s'); [|econstructor; eauto]. pose proof (mu_round _ _ (inv_rounds _ _ _ inv_start H) R). lia. }
    destruct (G (S (mu (first_partials sa, []))) 0 _ (Nat.lt_succ_diag_r _) (rounds_0 _ _ _ _)) as (k & ys & H). exists ys, k. exact H.
  Qed.
End G.
