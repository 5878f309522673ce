(** Python dictionaries and collections.Counter as association lists in insertion order. *)
From Coq Require Import List Arith Bool ZArith.
Import ListNotations.

(** Keys: types with decidable equality (Python __eq__ / __hash__). *)
Class Key (K : Type) := { keqb : K -> K -> bool; keqb_spec : forall a b, reflect (a = b) (keqb a b) }.
#[export] Instance key_nat : Key nat := {| keqb := Nat.eqb; keqb_spec := Nat.eqb_spec |}.
Lemma pair_eqb_spec {A B} {KA : Key A} {KB : Key B} (x y : A * B) :
  reflect (x = y) (keqb (fst x) (fst y) && keqb (snd x) (snd y)).
Proof.
  destruct x as [a b], y as [c d]. cbn. destruct (keqb_spec a c); cbn; [|constructor; congruence].
  destruct (keqb_spec b d); constructor; congruence.
Qed.
#[export] Instance key_pair {A B} {KA : Key A} {KB : Key B} : Key (A * B) :=
  {| keqb := fun x y => keqb (fst x) (fst y) && keqb (snd x) (snd y); keqb_spec := pair_eqb_spec |}.
Fixpoint list_eqb {A} {KA : Key A} (l k : list A) : bool :=
  match l, k with
  | [], [] => true
  | x :: l, y :: k => keqb x y && list_eqb l k
  | _, _ => false
  end.
Lemma list_eqb_spec {A} {KA : Key A} (l k : list A) : reflect (l = k) (list_eqb l k).
Proof.
  revert k. induction l as [|x l IH]; intros [|y k]; cbn; try (constructor; congruence).
  destruct (keqb_spec x y); cbn; [|constructor; congruence]. destruct (IH k); constructor; congruence.
Qed.
#[export] Instance key_list {A} {KA : Key A} : Key (list A) := {| keqb := list_eqb; keqb_spec := list_eqb_spec |}.

Definition dict (K V : Type) := list (K * V).
Section Dict.
  Context {K V : Type} {EK : Key K}.
  (** d.get(k) *)
  Fixpoint d_get (d : dict K V) (k : K) : option V :=
    match d with
    | [] => None
    | (k', v) :: r => if keqb k' k then Some v else d_get r k
    end.
  (** k in d *)
  Definition d_mem (d : dict K V) (k : K) : bool := match d_get d k with Some _ => true | None => false end.
  (** d[k] = v: an existing key keeps its position, a new one goes to the end. *)
  Fixpoint d_set (d : dict K V) (k : K) (v : V) : dict K V :=
    match d with
    | [] => [(k, v)]
    | (k', v') :: r => if keqb k' k then (k', v) :: r else (k', v') :: d_set r k v
    end.
  (** del d[k] *)
  Definition d_del (d : dict K V) (k : K) : dict K V := filter (fun kv => negb (keqb (fst kv) k)) d.
  Definition d_keys (d : dict K V) : list K := map fst d.
  Definition d_values (d : dict K V) : list V := map snd d.
  (** list(dict.fromkeys(l)): the distinct elements, in order of first occurrence. *)
  Definition dedup (l : list K) : list K :=
    fold_left (fun acc x => if existsb (fun y => keqb y x) acc then acc else acc ++ [x]) l [].
End Dict.

(** Counters: a missing key counts 0 (collections.Counter). *)
Section Counter.
  Context {K : Type} {EK : Key K}.
  Definition counter := dict K nat.
  Definition c_get (d : counter) (k : K) : nat := match d_get d k with Some n => n | None => 0 end.
  (** c[k] += n; Counter.update *)
  Definition c_add (d : counter) (k : K) (n : nat) : counter := d_set d k (c_get d k + n).
  (** Counter(iterable) *)
  Definition c_of (l : list K) : counter := fold_left (fun d k => c_add d k 1) l [].
End Counter.
