(** Vocabulary for C85 and C86. *)
Require Import List Reals ZArith Permutation.
Require Import Verif.Float_Model Verif.Float_Spec.
Import ListNotations.
Open Scope R_scope.

(** The order [t] adds every entry with destination [s] once. *)
Definition sums_segment (dst : list Z) (s : Z) (t : order) : Prop :=
  Permutation (entries t) (filter (fun i => (nth i dst 0 =? s)%Z) (seq 0 (length dst))).

(** What is assumed about the exponential function for arguments that are not positive. *)
Record float_exp (u tiny : R) (fexp : R -> R) : Prop := {
  fexp_zero : fexp 0 = 1;
  fexp_range : forall x, x <= 0 -> 0 <= fexp x <= 1;
  fexp_error : forall x, x <= 0 -> Rabs (fexp x - exp x) <= 4 * u * exp x + tiny }.
