(** Inductive Miner: the strict sequence cut never merges everything into one group (the arithmetic of the proof). *)
From Coq Require Import List Arith Bool ZArith Lia.
Import ListNotations.
Local Open Scope nat_scope.

(** [n] groups in a chain, [D i j]: an edge from group i to group j, [S]/[T]: groups with a start/end activity *)
Section Strict.
  Variable n : nat.
  Variable D : nat -> nat -> Prop.
  Variables S T : nat -> Prop.
  Variables mf mt : nat -> Z.
  Hypothesis S_mf : forall j, S j -> (mf j < 0)%Z.
  Hypothesis D_mf : forall i j, D i j -> (mf j <= Z.of_nat i)%Z.
  Hypothesis mf_D : forall i j, j < n -> i < n -> mf j = Z.of_nat i -> D i j.
  Hypothesis T_mt : forall i, T i -> (Z.of_nat n <= mt i)%Z.
  Hypothesis D_mt : forall i j, D i j -> (Z.of_nat j <= mt i)%Z.
  Hypothesis mt_D : forall i j, i < n -> j < n -> mt i = Z.of_nat j -> D i j.
  Hypothesis D_n : forall i j, D i j -> i < n /\ j < n.
  Hypothesis S_n : forall i, S i -> i < n.
  Hypothesis T_n : forall i, T i -> i < n.

  (** [pos x]: the slot that holds group x before step [p] *)
  Record inv (p : nat) (pos : nat -> nat) : Prop := {
    i_n : forall x, x < n -> pos x < n;
    i_mono : forall x y, x <= y -> y < n -> pos x <= pos y;
    i_orig : forall x, x < n -> p <= pos x -> pos x = x;
    i_stop : forall x, x + 1 < n -> pos x < x -> pos (x + 1) = pos x \/ (mf (x + 1) < Z.of_nat (pos x))%Z;
    i_mf : forall x, x < n -> pos x < x -> (Z.of_nat (pos x) <= mf x)%Z;
    i_mt : forall x, x < n -> x < pos x -> (mt x <= Z.of_nat (pos x))%Z;
    i_back : forall z x w, z < p -> x < n -> w < n -> pos x = z -> x <> z -> pos w < z -> exists q, pos w <= q < z /\ (Z.of_nat z < mt q)%Z;
    i_two : exists x y, x < n /\ y < n /\ pos x <> pos y }.

  Lemma inv_init : 2 <= n -> inv 0 (fun x => x).
  Proof. intros H. constructor; try (intros; lia). exists 0, 1. lia. Qed.
  Lemma inv_skip p pos : p < n -> inv p pos -> inv (p + 1) pos.
  Proof.
    intros Hp [H1 H2 H3 H4 H5 H6 H7 H8]. constructor; auto.
    - intros x Hx H. apply H3; lia.
    - intros z x w Hz Hx Hw Ex Nx Hw'. destruct (Nat.eq_dec z p) as [->|N]; [|apply (H7 z x w); auto; lia].
      exfalso. apply Nx. rewrite <- (H3 x Hx); lia.
  Qed.
  Definition reason p (pos : nat -> nat) : Prop :=
    (exists x y, pos x < p /\ p < pos y /\ D x y) \/ (exists y, p < pos y /\ S y) \/ (exists x, pos x < p /\ T x).
  Definition move (lo p hi : nat) (pos : nat -> nat) (x : nat) : nat := if (lo <=? pos x) && (pos x <=? hi) then p else pos x.

  (** walking up from an emptied slot *)
  Lemma walk p pos (I : inv p pos) x y : x <= y -> y < n -> pos x < x -> (forall q, x < q <= y -> (Z.of_nat (pos x) <= mf q)%Z) -> pos y = pos x.
  Proof.
    intros Hxy. induction Hxy as [|y Hxy IH]; intros Hy Hp Hq; auto.
    assert (E : pos y = pos x) by (apply IH; auto; try lia; intros q Hq'; apply Hq; lia).
    destruct (i_stop p pos I y) as [E2|E2]; try lia; rewrite Nat.add_1_r in *; [congruence|].
    specialize (Hq (Datatypes.S y)). rewrite E in E2. lia.
  Qed.
  Lemma inv_move p pos lo hi : p < n -> inv p pos -> reason p pos -> lo <= p -> p <= hi -> hi < n ->
    (forall q, lo <= q < p -> (mt q <= Z.of_nat p)%Z) -> (lo = 0 \/ (Z.of_nat p < mt (lo - 1))%Z) ->
    (forall q, p < q <= hi -> (Z.of_nat p <= mf q)%Z) -> (hi = n - 1 \/ (mf (hi + 1) < Z.of_nat p)%Z) ->
    inv (p + 1) (move lo p hi pos).
  Proof.
    intros Hp I R Hlo Hhi Hn Hb Hb' Hf Hf'. pose proof I as I0. destruct I as [H1 H2 H3 H4 H5 H6 H7 H8].
    assert (M : forall x, (lo <= pos x <= hi /\ move lo p hi pos x = p) \/ (pos x < lo /\ move lo p hi pos x = pos x) \/ (hi < pos x /\ move lo p hi pos x = pos x)).
    { intros x. unfold move. destruct (Nat.leb_spec lo (pos x)), (Nat.leb_spec (pos x) hi); cbn; lia. }
    constructor.
    - intros x Hx. specialize (H1 x Hx). destruct (M x) as [[? ->]|[[? ->]|[? ->]]]; lia.
    - intros x y Hxy Hy. specialize (H2 x y Hxy Hy). destruct (M x) as [[? ->]|[[? ->]|[? ->]]]; destruct (M y) as [[? ->]|[[? ->]|[? ->]]]; lia.
    - intros x Hx H. destruct (M x) as [[? E]|[[? E]|[? E]]]; rewrite E in *; [lia|lia|apply H3; lia].
    - intros x Hx H. destruct (le_lt_dec x (pos x)) as [L|L].
      + (* moved forward now *)
        destruct (M x) as [[G E]|[[? E]|[? E]]]; rewrite E in *; try lia.
        assert (X : pos x = x) by (apply H3; lia). rewrite X in *.
        destruct (Nat.eq_dec x hi) as [->|N]; [right; destruct Hf'; [lia|auto]|]. left.
        assert (Y : pos (x + 1) = x + 1) by (apply H3; [lia|]; specialize (H2 x (x + 1) ltac:(lia) Hx); lia).
        destruct (M (x + 1)) as [[G' E']|[[? E']|[? E']]]; rewrite E'; lia.
      + destruct (H4 x Hx L) as [E|E].
        * left. unfold move. rewrite E. reflexivity.
        * right. assert (pos x < p \/ p <= pos x) as [?|?] by lia; [|specialize (H3 x ltac:(lia) ltac:(lia)); lia].
          destruct (M x) as [[G E']|[[? E']|[? E']]]; rewrite E'; lia.
    - intros x Hx H. destruct (le_lt_dec x (pos x)) as [L|L].
      + destruct (M x) as [[G E]|[[? E]|[? E]]]; rewrite E in *; try lia.
        assert (X : pos x = x) by (apply H3; lia). apply Hf. lia.
      + specialize (H5 x Hx L). assert (pos x < p \/ p <= pos x) as [?|?] by lia; [|specialize (H3 x ltac:(lia) ltac:(lia)); lia].
        destruct (M x) as [[G E]|[[? E]|[? E]]]; rewrite E in *; try lia.
        (* x goes from slot pos x to slot p < x *)
        destruct (Z_le_gt_dec (Z.of_nat p) (mf x)) as [?|Gt]; auto. exfalso.
        assert (Q : D (Z.to_nat (mf x)) x) by (apply mf_D; auto; lia).
        apply D_mt in Q. specialize (Hb (Z.to_nat (mf x)) ltac:(lia)). lia.
    - intros x Hx H. destruct (M x) as [[G E]|[[? E]|[? E]]]; rewrite E in *.
      + destruct (le_lt_dec (pos x) x) as [L|L]; [apply Hb; lia|]. specialize (H6 x Hx L).
        assert (pos x <= p). { destruct (le_lt_dec (pos x) p); auto. rewrite (H3 x) in L; lia. } lia.
      + apply H6; auto.
      + apply H6; auto.
    - intros z x w Hz Hx Hw Ex Nx Hw'. destruct (Nat.eq_dec z p) as [->|N].
      + assert (pos w < lo). { destruct (M w) as [[G E]|[[? E]|[? E]]]; rewrite E in *; lia. }
        exists (lo - 1). destruct (M w) as [[G E]|[[? E]|[? E]]]; rewrite E in *; try lia.
      + assert (Ez : pos x = z). { destruct (M x) as [[G E]|[[? E]|[? E]]]; rewrite E in *; lia. }
        assert (Lz : z < lo). { destruct (M x) as [[G E]|[[? E]|[? E]]]; rewrite E in *; lia. }
        assert (Ew : move lo p hi pos w = pos w). { destruct (M w) as [[G E]|[[? E]|[? E]]]; rewrite E in *; lia. }
        rewrite Ew in *. apply (H7 z x w); auto; lia.
    - (* two slots remain *)
      destruct (le_lt_dec 2 n) as [N2|N2]; [|destruct H8 as (x & y & Hx & Hy & Nxy); exfalso; apply Nxy; f_equal; lia].
      destruct (Nat.eq_dec (move lo p hi pos 0) (move lo p hi pos (n - 1))) as [E01|N01]; [|exists 0, (n - 1); repeat split; auto; lia]. exfalso.
      assert (All : forall x, x < n -> move lo p hi pos x = p).
      { assert (NN : pos 0 <> pos (n - 1)). { intros E. destruct H8 as (x & y & Hx & Hy & Nxy). apply Nxy. pose proof (H2 0 x ltac:(lia) Hx). pose proof (H2 x (n - 1) ltac:(lia) ltac:(lia)). pose proof (H2 0 y ltac:(lia) Hy). pose proof (H2 y (n - 1) ltac:(lia) ltac:(lia)). lia. }
        pose proof (H2 0 (n - 1) ltac:(lia) ltac:(lia)).
        assert (G : lo <= pos 0 /\ pos (n - 1) <= hi).
        { destruct (M 0) as [[G E]|[[? E]|[? E]]], (M (n - 1)) as [[G' E']|[[? E']|[? E']]]; rewrite E, E' in E01; lia. }
        intros x Hx. pose proof (H2 0 x ltac:(lia) Hx). pose proof (H2 x (n - 1) ltac:(lia) ltac:(lia)).
        destruct (M x) as [[G1 E]|[[? E]|[? E]]]; auto; lia. }
      assert (Rng : forall x, x < n -> lo <= pos x <= hi \/ pos x = p). { intros x Hx. specialize (All x Hx). destruct (M x) as [[G1 E]|[[? E]|[? E]]]; lia. }
      assert (Rng' : forall x, x < n -> lo <= pos x <= hi). { intros x Hx. destruct (Rng x Hx); lia. }
      destruct (le_lt_dec (pos (n - 1)) p) as [C|C].
      + (* nothing beyond p *)
        assert (Top : forall x, x < n -> pos x <= p). { intros x Hx. pose proof (H2 x (n - 1) ltac:(lia) ltac:(lia)). lia. }
        assert (exists e, e < n /\ pos e < p /\ T e) as (e & He & Pe & Te).
        { destruct R as [(x & y & R1 & R2 & R3)|[(y & R1 & R2)|(x & R1 & R2)]].
          - apply D_n in R3. specialize (Top y ltac:(tauto)). lia.
          - specialize (Top y (S_n y R2)). lia.
          - exists x. split; auto. }
        assert (Le : p <= e).
        { destruct (le_lt_dec p e); auto. exfalso. pose proof (T_mt e Te). destruct (le_lt_dec (pos e) e) as [L|L].
          - specialize (Hb e). specialize (Rng' e He). lia.
          - specialize (H6 e He L). lia. }
        assert (Top' : forall x, x < n -> pos x < p).
        { intros x Hx. pose proof (Top x Hx). destruct (Nat.eq_dec (pos x) p) as [E|]; [|lia]. exfalso.
          assert (x = p) by (rewrite <- E; symmetry; apply H3; lia). subst x. pose proof (H2 p e Le He). lia. }
        remember (pos (n - 1)) as z eqn:Ez in *. assert (Hz : z < p) by (rewrite Ez; apply Top'; lia).
        assert (Hw : pos 0 < z).
        { destruct H8 as (x & y & Hx & Hy & Nxy). pose proof (H2 0 x ltac:(lia) Hx). pose proof (H2 x (n - 1) ltac:(lia) ltac:(lia)). pose proof (H2 0 y ltac:(lia) Hy). pose proof (H2 y (n - 1) ltac:(lia) ltac:(lia)). lia. }
        destruct (H7 z (n - 1) 0 Hz ltac:(lia) ltac:(lia) ltac:(lia) ltac:(lia) Hw) as (q & Hq & Mq).
        pose proof (Hb q) as Hbq. specialize (Rng' 0 ltac:(lia)).
        assert (Dq : D q (Z.to_nat (mt q))) by (apply mt_D; lia).
        set (y := Z.to_nat (mt q)) in *. assert (Hy : z < y <= p) by lia.
        pose proof (H2 y (n - 1) ltac:(lia) ltac:(lia)) as Hyz.
        pose proof (H5 y ltac:(lia) ltac:(lia)) as My. apply D_mf in Dq.
        assert (W : pos (n - 1) = pos y).
        { assert (G : forall k, y <= k -> k < n -> pos k = pos y).
          { intros k Hk. induction Hk as [|k Hk IH]; auto. intros Hkn. specialize (IH ltac:(lia)).
            destruct (H4 k ltac:(lia) ltac:(lia)) as [E|E]; rewrite Nat.add_1_r in *; [congruence|]. exfalso.
            pose proof (H2 (Datatypes.S k) (n - 1) ltac:(lia) ltac:(lia)) as B.
            pose proof (H5 (Datatypes.S k) Hkn ltac:(lia)). pose proof (H2 k (Datatypes.S k) ltac:(lia) ltac:(lia)). lia. }
          apply G; lia. }
        lia.
      + (* something beyond p *)
        set (j := n - 1) in *. assert (Hj : j < n) by lia. assert (Pj : pos j = j) by (apply H3; lia).
        assert (Orig : forall x, x < n -> p <= x -> pos x = x).
        { intros x Hx Lx. apply H3; auto. destruct (le_lt_dec p (pos x)); auto. exfalso.
          assert (pos j = pos x). { apply (walk p pos I0 x j); auto; try lia. intros q Hq. specialize (Hf q). specialize (Rng' j Hj). lia. } lia. }
        assert (Abs : forall y, y < n -> p < pos y -> (Z.of_nat p <= mf y)%Z).
        { intros y Hy Ly. assert (pos y = y) by (apply H3; lia). apply Hf. specialize (Rng' y Hy). lia. }
        destruct R as [(x & y & R1 & R2 & R3)|[(y & R1 & R2)|(e & R1 & R2)]].
        * pose proof (D_mf _ _ R3). destruct (D_n _ _ R3) as [Hx Hy]. specialize (Abs y Hy R2). specialize (Orig x Hx). lia.
        * pose proof (S_mf _ R2). specialize (Abs y (S_n y R2) R1). lia.
        * pose proof (T_mt e R2). pose proof (T_n e R2) as He. destruct (le_lt_dec p e) as [L|L]; [specialize (Orig e He L); lia|].
          destruct (le_lt_dec (pos e) e) as [L'|L'].
          -- specialize (Hb e). specialize (Rng' e He). lia.
          -- specialize (H6 e He L'). lia.
  Qed.
End Strict.
