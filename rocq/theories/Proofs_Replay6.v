(** The place statistics of a log. *)
From stdpp Require Import gmap.
From Coq Require Import ZArith QArith Lia Lqa.
From Verif Require Import Model_Petri Spec_Petri Proofs_Petri Model_Lev Proofs_Lev Model_Dict Proofs_Dict Model_Replay Spec_Replay Proofs_Replay1 Proofs_Replay2 Proofs_Replay3 Proofs_Replay4 Proofs_Replay5.
Local Open Scope Z_scope.

Lemma variants_sum (f : list nat -> Z) log :
  zsum (fun vc : list nat * list nat => Z.of_nat (length vc.2) * f vc.1) (variants_of log) = zsum f log.
Proof.
  unfold variants_of.
  set (g := fun vc : list nat * list nat => Z.of_nat (length vc.2) * f vc.1).
  assert (HS : forall (d : dict (list nat) (list nat)) v k, zsum g (d_set d v k) =
     zsum g d + Z.of_nat (length k) * f v - match d_get d v with Some k' => Z.of_nat (length k') * f v | None => 0 end).
  { induction d as [|[v' k'] d IH]; intros v k; cbn [d_set d_get zsum]; [unfold g; cbn; lia|].
    destruct (keqb_spec v' v) as [->|Hne]; cbn [zsum]; [unfold g; cbn; lia|]. rewrite IH. lia. }
  assert (H : forall l b (d : dict (list nat) (list nat)),
    zsum g (fold_left (fun d (it : nat * list nat) =>
      match d_get d it.2 with Some l => d_set d it.2 (l ++ [it.1]) | None => d_set d it.2 [it.1] end)
      (combine (seq b (length l)) l) d) = zsum g d + zsum f l).
  { induction l as [|x l IH]; intros b d; cbn [length seq combine fold_left zsum]; [lia|].
    rewrite IH. cbn [snd fst]. destruct (d_get d x) as [k|] eqn:E; rewrite HS, E.
    - rewrite app_length. cbn [length]. lia.
    - cbn [length]. lia. }
  rewrite H. cbn [zsum]. lia.
Qed.

Section LogPlaces.
  Context (pn : petri_net (option nat)) (lim : limits).
  Context (tord aord : list ptrans -> list ptrans) (pord kord : list nat -> list nat).
  Context (vord : list (list nat * list nat) -> list (list nat * list nat)).
  Hypothesis Hvord : forall l, Permutation (vord l) l.
  Context (im fm : marking) (o : options).
  Hypothesis Hs : simple_net pn.
  Hypothesis Htord : forall l, Permutation (tord l) l.
  Hypothesis Haord : forall l, Permutation (aord l) l.
  Hypothesis Him : proper im.
  Hypothesis Hfm : proper fm.
  Hypothesis Hst : stop_when_unfit o = false.
  Hypothesis Hun : unknown_unfit o = false.
  Let paths := hidden_paths pn lim aord.

  Lemma places_base occ bc bp bm br un tr p :
    let r := fst (apply_trace pn lim tord pord kord paths occ o im fm un (bc, bp, bm, br) tr) in
    let r1 := replay pn lim tord aord pord kord o im fm tr in
    tokens (r_pc r) p = tokens bc p + tokens (r_pc r1) p * occ /\
    tokens (r_pp r) p = tokens bp p + tokens (r_pp r1) p * occ /\
    tokens (r_pr r) p = tokens br p + tokens (r_pr r1) p * occ.
  Proof.
    cbn zeta.
    destruct (places pn lim tord aord pord kord im fm o Hs Htord Haord Him Hfm tr Hst 1 p) as (A & B & C & _).
    pose proof (sim_trace pn lim tord pord kord paths occ 1 o im fm un [] (bc, bp, bm, br) (∅, ∅, ∅, ∅) tr Hun) as HS.
    unfold replay. fold paths in A, B, C |- *. rewrite A, B, C. clear A B C.
    destruct HS as (_ & _ & SA & _ & SR & _). rewrite <- SA, <- SR.
    destruct (apply_trace_state pn lim tord aord pord kord im fm o Hs Htord Haord Him occ bc bp bm br un tr) as (s & un' & E & H).
    fold paths in E. rewrite E in SA, SR |- *. cbn [fst] in *.
    destruct H as [[I _]|(Hx & _)]; [|congruence].
    pose proof (i_proper _ _ _ _ _ _ _ _ I) as Hp.
    pose proof (i_pc _ _ _ _ _ _ _ _ I p) as Hc. pose proof (i_pp _ _ _ _ _ _ _ _ I p) as Hpp.
    pose proof (i_pr _ _ _ _ _ _ _ _ I) as Hpr.
    unfold finish. cbn [r_pc r_pp r_pr r_pm r_act r_reached].
    assert (ER : tokens (fold_left (fun c (kv : nat * Z) => bump c kv.1 (left_over fm kv.1 kv.2 * occ)) (map_to_list (s_mark s)) (s_pr s)) p
      = tokens br p + Z.max 0 (tokens (s_mark s) p - tokens fm p) * occ).
    { rewrite (tokens_bump_list (fun q v => left_over fm q v * occ)), (entries_at (fun q v => left_over fm q v * occ)), Hpr.
      unfold tokens at 3. destruct (s_mark s !! p) as [v|] eqn:Ev.
      - rewrite (left_over_tokens (s_mark s) fm p v Hp Ev). lia.
      - pose proof (proper_nonneg fm p Hfm). rewrite Z.max_l by lia. lia. }
    rewrite ER, !tokens_bump_all, Hc, Hpp. unfold pl_in, pl_out in *. repeat split; lia.
  Qed.

  Lemma log_places log p :
    let '(c, pr, m, r) := snd (apply_log pn lim tord aord pord kord vord o im fm log) in
    let one tr := replay pn lim tord aord pord kord o im fm tr in
    tokens c p = zsum (fun tr => tokens (r_pc (one tr)) p) log /\
    tokens pr p = zsum (fun tr => tokens (r_pp (one tr)) p) log /\
    tokens r p = zsum (fun tr => tokens (r_pr (one tr)) p) log.
  Proof.
    unfold apply_log.
    set (f := fun '(results, unknown, stats) (vc : list nat * list nat) =>
        let '(r, unknown') := apply_trace pn lim tord pord kord (hidden_paths pn lim aord) (Z.of_nat (length vc.2)) o im fm unknown stats vc.1 in
        (fold_left (fun d i => d_set d i r) vc.2 results, unknown', (r_pc r, r_pp r, r_pm r, r_pr r))).
    set (one := replay pn lim tord aord pord kord o im fm).
    assert (HF : forall vs results un bc bp bm br,
      let '(_, _, (c, pr, m, r)) := fold_left f vs (results, un, (bc, bp, bm, br)) in
      tokens c p = tokens bc p + zsum (fun vc => Z.of_nat (length vc.2) * tokens (r_pc (one vc.1)) p) vs /\
      tokens pr p = tokens bp p + zsum (fun vc => Z.of_nat (length vc.2) * tokens (r_pp (one vc.1)) p) vs /\
      tokens r p = tokens br p + zsum (fun vc => Z.of_nat (length vc.2) * tokens (r_pr (one vc.1)) p) vs).
    { induction vs as [|[v k] vs IH]; intros results un bc bp bm br; cbn [fold_left zsum].
      - repeat split; lia.
      - unfold f at 2. cbn [fst snd].
        pose proof (places_base (Z.of_nat (length k)) bc bp bm br un v p) as HB. cbn zeta in HB. unfold paths in HB.
        destruct (apply_trace pn lim tord pord kord (hidden_paths pn lim aord) (Z.of_nat (length k)) o im fm un (bc, bp, bm, br) v) as [r un'].
        cbn [fst] in HB. destruct HB as (B1 & B2 & B3).
        specialize (IH (fold_left (fun d i => d_set d i r) k results) un' (r_pc r) (r_pp r) (r_pm r) (r_pr r)).
        destruct (fold_left f vs _) as [[? ?] [[[c pr] m] r0]]. destruct IH as (I1 & I2 & I3).
        rewrite I1, I2, I3, B1, B2, B3. fold (one v). repeat split; lia. }
    specialize (HF (vord (variants_of log)) [] [] ∅ ∅ ∅ ∅).
    destruct (fold_left f (vord (variants_of log)) ([], [], (∅, ∅, ∅, ∅))) as [[results un] [[[c pr] m] r]] eqn:EF.
    match type of HF with context [fold_left f ?a ?b] => replace (fold_left f a b) with (results, un, (c, pr, m, r)) in HF by (symmetry; exact EF) end.
    destruct HF as (A & B & C). rewrite tokens_empty in A, B, C. cbn [snd].
    pose proof (Hvord (variants_of log)) as HP.
    rewrite (zsum_perm _ _ _ HP) in A. rewrite (zsum_perm _ _ _ HP) in B. rewrite (zsum_perm _ _ _ HP) in C.
    rewrite (variants_sum (fun v => tokens (r_pc (one v)) p)) in A.
    rewrite (variants_sum (fun v => tokens (r_pp (one v)) p)) in B.
    rewrite (variants_sum (fun v => tokens (r_pr (one v)) p)) in C.
    rewrite A, B, C. repeat split; lia.
  Qed.
End LogPlaces.
