(** Vocabulary for C89. *)
Require Import Reals.
Require Import Verif.Radial_Spec.
Open Scope R_scope.

(** What is assumed about the logarithms: they are accurate to a few units. *)
Record float_log (u : R) (flog flog1p : R -> R) : Prop := {
  flog_error : forall x, u <= x <= 1 - u -> Rabs (flog x - ln x) <= 4 * u * Rabs (ln x);
  flog1p_error : forall x, u <= x <= 1 - u -> Rabs (flog1p (- x) - ln (1 - x)) <= 4 * u * Rabs (ln (1 - x)) }.

(** The logarithms of the binomial coefficients for degrees up to [N] have the absolute error [beta] at most. *)
Definition float_binomials (beta : R) (N : nat) (lnbinom : nat -> nat -> R) : Prop :=
  forall n v, (v <= n <= N)%nat -> Rabs (lnbinom n v - ln (binom n v)) <= beta.

(** The error of a polynomial of degree [n]. *)
Definition bernstein_error (beta : R) (n : nat) (u : R) : R := 8 * beta + (48 * INR n + 70) * u.
