(** Vocabulary for C87. *)
Require Import Reals.
Open Scope R_scope.

(** More about floating point numbers: [1 - u] is the largest number below one, and the squares and
    reciprocals of numbers of the size of [u] are far from underflow and overflow (not so in float16). *)
Record wide (u tiny huge : R) (rnd : R -> R) : Prop := {
  rounded_twice : forall x, rnd (rnd x) = rnd x;
  below_one : forall x, rnd x = x -> x < 1 -> x <= 1 - u;
  one_below : rnd (1 - u) = 1 - u;
  square_normal : 64 * tiny <= u * u;
  square_finite : 1024 <= huge * (u * u) }.
