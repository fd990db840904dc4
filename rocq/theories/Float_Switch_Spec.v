(** Vocabulary for C88. *)
Require Import Reals.
Require Import Verif.Float_Switch_Model.
Open Scope R_scope.

(** A number of the format or an infinity. *)
Definition a_number (rnd : R -> R) (huge : R) (x : num) : Prop :=
  match x with Fin r => rnd r = r /\ Rabs r < huge | Inf _ => True | NaN => False end.

(** What is assumed about the exponential function, for all arguments; [fexp x] may exceed the largest number, and
    the result is then infinite. *)
Record float_exp_all (u tiny : R) (fexp : R -> R) : Prop := {
  fexp_nonneg : forall x, 0 <= fexp x;
  fexp_accurate : forall x, Rabs (fexp x - exp x) <= 4 * u * exp x + tiny }.

(** More about floating point numbers: a number below [q * q] is rounded to zero, and [1 / (u * u * q)] is finite
    (not so in float16). *)
Record graded (u tiny huge q : R) (rnd : R -> R) : Prop := {
  square_zero : forall t, 0 < rnd t -> q * q <= t;
  root_normal : 0 < q /\ 4 * tiny <= q;
  root_finite : 16 <= huge * (u * u * q) }.
