From Coq Require Import List Arith Bool ZArith Lia.
Import ListNotations.
From Verif Require Import Model_Dict.

Section Dict.
  Context {K V : Type} {EK : Key K}.
  Implicit Types d : dict K V.
  Lemma keqb_refl (k : K) : keqb k k = true.
  Proof. destruct (keqb_spec k k); congruence. Qed.
  Lemma keqb_neq (a b : K) : a <> b -> keqb a b = false.
  Proof. destruct (keqb_spec a b); congruence. Qed.
  Lemma keqb_true (a b : K) : keqb a b = true <-> a = b.
  Proof. destruct (keqb_spec a b); split; congruence. Qed.
  Lemma keqb_sym (a b : K) : keqb a b = keqb b a.
  Proof. destruct (keqb_spec a b), (keqb_spec b a); congruence. Qed.
  Lemma key_dec (a b : K) : {a = b} + {a <> b}.
  Proof. destruct (keqb_spec a b); auto. Qed.
  Lemma d_get_set d k v k' : d_get (d_set d k v) k' = if keqb k k' then Some v else d_get d k'.
  Proof.
    induction d as [|[a b] d IH]; cbn; [auto|]. destruct (keqb_spec a k) as [->|Hk]; cbn.
    - destruct (keqb k k'); auto.
    - rewrite IH. destruct (keqb_spec a k') as [->|Hk']; [rewrite (keqb_neq k k') by congruence; auto|auto].
  Qed.
  Lemma d_get_set_same d k v : d_get (d_set d k v) k = Some v.
  Proof. rewrite d_get_set, keqb_refl. auto. Qed.
  Lemma d_get_set_other d k v k' : k <> k' -> d_get (d_set d k v) k' = d_get d k'.
  Proof. intros H. rewrite d_get_set, keqb_neq; auto. Qed.
  Lemma d_get_in d k v : d_get d k = Some v -> In (k, v) d.
  Proof. induction d as [|[a b] d IH]; cbn; [discriminate|]. destruct (keqb_spec a k) as [->|]; [intros [= ->]; auto|auto]. Qed.
  Lemma d_get_keys d k : d_get d k <> None <-> In k (d_keys d).
  Proof.
    induction d as [|[a b] d IH]; cbn; [tauto|]. destruct (keqb_spec a k) as [->|H]; [split; [auto|congruence]|].
    rewrite IH. unfold d_keys. split; [auto|intros [?|?]; [congruence|auto]].
  Qed.
  Lemma d_get_none d k : d_get d k = None <-> ~ In k (d_keys d).
  Proof. rewrite <- d_get_keys. destruct (d_get d k); split; try congruence; try tauto. intros H. exfalso. apply H. congruence. Qed.
  Lemma d_in_get d k v : NoDup (d_keys d) -> In (k, v) d -> d_get d k = Some v.
  Proof.
    induction d as [|[a b] d IH]; cbn; [tauto|]. intros Hn. inversion Hn as [|? ? H1 H2]; subst. intros [E|Hin].
    - inversion E; subst. rewrite keqb_refl. auto.
    - destruct (keqb_spec a k) as [->|]; [exfalso; apply H1; apply (in_map fst) in Hin; exact Hin|auto].
  Qed.
  Lemma d_keys_set d k v : d_keys (d_set d k v) = if existsb (fun y => keqb y k) (d_keys d) then d_keys d else d_keys d ++ [k].
  Proof.
    induction d as [|[a b] d IH]; cbn; [auto|]. destruct (keqb_spec a k) as [->|H]; cbn; [auto|]. unfold d_keys in *. rewrite IH.
    destruct (existsb _ _); auto.
  Qed.
  Lemma existsb_keqb (l : list K) k : existsb (fun y => keqb y k) l = true <-> In k l.
  Proof.
    rewrite existsb_exists. split; [intros (x & Hx & E); apply keqb_true in E; subst; auto|intros H; exists k; split; auto; apply keqb_refl].
  Qed.
  Lemma d_nodup_set d k v : NoDup (d_keys d) -> NoDup (d_keys (d_set d k v)).
  Proof.
    intros H. rewrite d_keys_set. destruct (existsb _ _) eqn:E; auto.
    assert (Hk : ~ In k (d_keys d)) by (rewrite <- existsb_keqb; congruence).
    clear E. induction (d_keys d) as [|x l IH]; cbn; [repeat constructor; auto|]. inversion H; subst. constructor.
    - rewrite in_app_iff. intros [?|[<-|[]]]; [auto|apply Hk; left; auto].
    - apply IH; auto. intros ?; apply Hk; right; auto.
  Qed.
  Lemma d_mem_in d k : d_mem d k = true <-> In k (d_keys d).
  Proof. unfold d_mem. rewrite <- d_get_keys. destruct (d_get d k); split; congruence. Qed.
  Lemma d_in_keys_set d k v x : In x (d_keys (d_set d k v)) <-> x = k \/ In x (d_keys d).
  Proof.
    rewrite d_keys_set. destruct (existsb _ _) eqn:E.
    - apply existsb_keqb in E. split; [auto|intros [->|?]; auto].
    - rewrite in_app_iff. cbn. split; [intros [?|[<-|[]]]; auto|intros [->|?]; auto].
  Qed.
  Lemma d_get_del d k k' : d_get (d_del d k) k' = if keqb k k' then None else d_get d k'.
  Proof.
    unfold d_del. induction d as [|[a b] d IH]; cbn; [destruct (keqb k k'); auto|]. destruct (keqb_spec a k) as [->|H]; cbn.
    - rewrite IH. destruct (keqb k k'); auto.
    - destruct (keqb_spec a k') as [->|H']; [rewrite (keqb_neq k k') by congruence; auto|]. exact IH.
  Qed.
End Dict.

Section Dedup.
  Context {K : Type} {EK : Key K}.
  Lemma dedup_gen (l acc : list K) : NoDup acc ->
    let r := fold_left (fun acc x => if existsb (fun y => keqb y x) acc then acc else acc ++ [x]) l acc in
    NoDup r /\ (forall x, In x r <-> In x acc \/ In x l).
  Proof.
    revert acc. induction l as [|x l IH]; intros acc Hn; cbn [fold_left].
    - split; auto. intros x. cbn. tauto.
    - destruct (existsb _ acc) eqn:E.
      + destruct (IH acc Hn) as [H1 H2]. split; auto. intros y. rewrite H2. cbn. apply existsb_keqb in E. split; [tauto|intros [?|[<-|?]]; auto].
      + destruct (IH (acc ++ [x])) as [H1 H2].
        * assert (Hx : ~ In x acc) by (rewrite <- existsb_keqb; congruence). clear - Hn Hx. induction Hn as [|y l Hy Hl IHl]; cbn; [repeat constructor; auto|].
          constructor; [rewrite in_app_iff; intros [?|[<-|[]]]; [auto|apply Hx; left; auto]|apply IHl; intros ?; apply Hx; right; auto].
        * split; auto. intros y. rewrite H2, in_app_iff. cbn. tauto.
  Qed.
  Lemma dedup_nodup (l : list K) : NoDup (dedup l).
  Proof. apply (dedup_gen l []). constructor. Qed.
  Lemma dedup_in (l : list K) x : In x (dedup l) <-> In x l.
  Proof. unfold dedup. destruct (dedup_gen l [] ltac:(constructor)) as [_ H]. rewrite H. cbn. tauto. Qed.
  Lemma dedup_snoc (l : list K) x : dedup (l ++ [x]) = if existsb (fun y => keqb y x) (dedup l) then dedup l else dedup l ++ [x].
  Proof. unfold dedup. rewrite fold_left_app. reflexivity. Qed.
End Dedup.

Section Counter.
  Context {K : Type} {EK : Key K}.
  Implicit Types d : @counter K.
  Definition occ (k : K) (l : list K) : nat := length (filter (fun x => keqb x k) l).
  Lemma occ_app k l l' : occ k (l ++ l') = occ k l + occ k l'.
  Proof. unfold occ. rewrite filter_app, app_length. auto. Qed.
  Lemma occ_cons k x l : occ k (x :: l) = (if keqb x k then 1 else 0) + occ k l.
  Proof. unfold occ. cbn. destruct (keqb x k); auto. Qed.
  Lemma occ_pos k l : 1 <= occ k l <-> In k l.
  Proof.
    induction l as [|x l IH]; [unfold occ; cbn; lia|]. rewrite occ_cons. destruct (keqb_spec x k) as [->|H]; cbn; [split; auto; lia|].
    rewrite IH. split; [auto|intros [?|?]; [congruence|auto]].
  Qed.
  Lemma c_get_add d k n k' : c_get (c_add d k n) k' = c_get d k' + if keqb k k' then n else 0.
  Proof. unfold c_get at 1, c_add. rewrite d_get_set. destruct (keqb_spec k k') as [->|H]; [auto|]. unfold c_get. lia. Qed.
  Lemma c_of_gen l d k : c_get (fold_left (fun d k => c_add d k 1) l d) k = c_get d k + occ k l.
  Proof.
    revert d. induction l as [|x l IH]; intros d; cbn [fold_left]; [unfold occ; cbn; lia|]. rewrite IH, c_get_add, occ_cons. lia.
  Qed.
  Lemma c_get_of l k : c_get (c_of l) k = occ k l.
  Proof. unfold c_of. rewrite c_of_gen. reflexivity. Qed.
  Lemma c_of_snoc l x : c_of (l ++ [x]) = c_add (c_of l) x 1.
  Proof. unfold c_of. rewrite fold_left_app. reflexivity. Qed.
  Lemma c_of_nodup l : NoDup (d_keys (c_of l)).
  Proof.
    unfold c_of. assert (G : forall d, NoDup (d_keys d) -> NoDup (d_keys (fold_left (fun d k => c_add d k 1) l d))).
    { induction l as [|x l IH]; intros d Hd; cbn; auto. apply IH. apply d_nodup_set. auto. }
    apply G. constructor.
  Qed.
  Lemma c_of_keys l k : In k (d_keys (c_of l)) <-> In k l.
  Proof.
    unfold c_of. assert (G : forall d, In k (d_keys (fold_left (fun d k => c_add d k 1) l d)) <-> In k (d_keys d) \/ In k l).
    { induction l as [|x l IH]; intros d; cbn [fold_left]; [cbn; tauto|]. rewrite IH. unfold c_add. rewrite d_in_keys_set. cbn. intuition congruence. }
    rewrite G. cbn. tauto.
  Qed.
  Lemma c_get_d (d : @counter K) k : d_get d k = if d_mem d k then Some (c_get d k) else None.
  Proof. unfold d_mem, c_get. destruct (d_get d k); auto. Qed.
  Lemma d_get_c_of l k : d_get (c_of l) k = if Nat.eqb (occ k l) 0 then None else Some (occ k l).
  Proof.
    destruct (Nat.eqb_spec (occ k l) 0) as [E|E].
    - apply d_get_none. rewrite c_of_keys, <- occ_pos. lia.
    - rewrite c_get_d. replace (d_mem (c_of l) k) with true by (symmetry; apply d_mem_in, c_of_keys, occ_pos; lia). rewrite c_get_of. auto.
  Qed.
  (** sums over the items of a counter *)
  Definition c_sum (P : K -> bool) d : nat := list_sum (map (fun kv => if P (fst kv) then snd kv else 0) d).
  Lemma c_sum_add P d k n : NoDup (d_keys d) -> c_sum P (c_add d k n) = c_sum P d + if P k then n else 0.
  Proof.
    unfold c_sum, c_add. intros Hn.
    assert (G : forall v, c_get d k <= v -> list_sum (map (fun kv : K * nat => if P (fst kv) then snd kv else 0) (d_set d k v)) =
       list_sum (map (fun kv : K * nat => if P (fst kv) then snd kv else 0) d) + if P k then v - c_get d k else 0).
    { clear n. unfold c_get. induction d as [|[a b] d IH]; intros v Hv; cbn in *.
      - destruct (P k); lia.
      - inversion Hn as [|? ? H1 H2]; subst. destruct (keqb_spec a k) as [->|Hk]; cbn.
        + destruct (P k); lia.
        + specialize (IH H2 v Hv). unfold list_sum in *. rewrite IH. destruct (P a), (P k); lia. }
    rewrite G by lia. destruct (P k); lia.
  Qed.
  Lemma c_sum_of P l : c_sum P (c_of l) = length (filter P l).
  Proof.
    induction l as [|x l IH] using rev_ind; [reflexivity|]. rewrite c_of_snoc, c_sum_add by apply c_of_nodup. rewrite IH, filter_app, app_length. cbn. destruct (P x); cbn; lia.
  Qed.
End Counter.
