From Coq Require Import List Arith Reals.
Import ListNotations.
From Verif Require Import Model_Dict Model_Dfg Spec_Dfg Model_Stream.

(** Real numbers: averages and standard deviations as computed by the module statistics (mean, stdev:
    sample standard deviation with divisor n - 1), without rounding. *)
Local Open Scope R_scope.
Definition sumR (l : list R) : R := fold_right Rplus 0 l.
Definition meanR (l : list R) : R := sumR l / INR (length l).
Definition stdevR (l : list R) : R := sqrt (sumR (map (fun x => (x - meanR l) * (x - meanR l)) l) / (INR (length l) - 1)).
Definition lebR (x y : R) : bool := if Rle_dec x y then true else false.
Definition ltbR (x y : R) : bool := if Rlt_dec x y then true else false.
#[export] Instance numR : Num R := {|
  n_zero := 0; n_max := IZR (2 ^ 63 - 1); n_add := Rplus; n_sub := Rminus; n_mul := Rmult; n_div := Rdiv; n_abs := Rabs;
  n_leb := lebR; n_ltb := ltbR; n_mean := meanR; n_stdev := stdevR |}.

(** The delay x between event i and a later event j of trace k, which are occurrences of a and b. *)
Definition delay (l : list (ttrace R)) (k i j : nat) (a b : nat) (x : R) : Prop :=
  exists t ei ej, nth_error l k = Some t /\ nth_error t i = Some ei /\ nth_error t j = Some ej /\ (i < j)%nat /\
    te_act ei = a /\ te_act ej = b /\ te_end ei <= te_start ej /\ x = te_start ej - te_end ei.
