(** Specification of the activations: the scalar functions printed in the docstrings. *)
Require Import List Reals Bool.
Require Import Verif.Base Verif.Features_Model Verif.Features_Spec.
Open Scope R_scope.

Definition doc_relu (x : R) : R := Rmax x 0.
Definition doc_leaky_relu (alpha x : R) : R := if Rle_dec 0 x then x else alpha * x.
Definition doc_elu (alpha x : R) : R := if Rlt_dec 0 x then x else alpha * (exp x - 1).
Definition doc_selu (x : R) : R :=
  1.0507009873554804934193349852946 * doc_elu 1.6732632423543772848170429916717 x.
Definition doc_celu (alpha x : R) : R := if Rlt_dec 0 x then x else alpha * (exp (x / alpha) - 1).
Definition doc_silu (x : R) : R := x / (1 + exp (- x)).
Definition doc_gelu (erf : R -> R) (x : R) : R := x / 2 * (1 + erf (x / sqrt 2)).
Definition doc_gelu_approximate (x : R) : R := x / 2 * (1 + tanh (sqrt (2 / PI) * (x + 0.044715 * x ^ 3))).
Definition doc_mish (x : R) : R := x * tanh (ln (1 + exp x)).
Definition doc_serf (erf : R -> R) (x : R) : R := x * erf (ln (1 + exp x)).
Definition doc_shifted_softplus (x : R) : R := ln (1 / 2 * (1 + exp x)).
Definition doc_hard_tanh (x : R) : R := if Rlt_dec x (-1) then -1 else if Rlt_dec 1 x then 1 else x.
Definition doc_soft_sign (x : R) : R := x / (Rabs x + 1).
Definition doc_relu6 (x : R) : R := Rmin (Rmax x 0) 6.
Definition doc_hard_silu (x : R) : R := x * (Rmin (Rmax (x + 3) 0) 6 / 6).
Definition doc_bent_identity (x : R) : R := (sqrt (x ^ 2 + 1) - 1) / 2 + x.

(** The activation [act] maps scalar features through [phi], up to [err]: on every feature array
    it returns an array of the same shape whose even scalar entries are phi of the input's. *)
Definition scalar_function (act : feat -> result feat) (phi : R -> R) (err : R -> R) : Prop :=
  forall x, exists y, act x = Ok y
    /\ fB y = fB x /\ fS y = fS x /\ fD y = fD x /\ fF y = fF x /\ fdt y = fdt x
    /\ forall i f, Rabs (fv y i 0%nat 0%nat f - phi (fv x i 0%nat 0%nat f)) <= err (fv x i 0%nat 0%nat f).

Definition exact : R -> R := fun _ => 0.
(** Zero except close to the origin, where a Taylor polynomial replaces the formula. *)
Definition taylor_error (eps c : R) (x : R) : R := if Rle_dec (Rabs x) eps then c * x ^ 4 else 0.
