(** Specifications for the radial functions: the documented formulas and the mathematical notions
    the properties speak about.  Independent of the model. *)
Require Import List Reals ZArith String.
Require Import Verif.Base Verif.Smooth.
Import ListNotations.
Open Scope R_scope.

(** [v] is the value returned by the call [r]. *)
Definition returns {A} (r : result A) (v : A) : Prop := r = Ok v.

(** The call returns [num] basis values and the [k]-th one is [f k]. *)
Definition returns_basis (r : result (list R)) (num : nat) (f : nat -> R) : Prop :=
  exists l, r = Ok l /\ List.length l = num /\ forall k, (k < num)%nat -> nth k l 0 = f k.

(** Documented formulas ([c] cutoff, [l] limit, [K] num). *)
Definition doc_smooth_cutoff (c x : R) : R :=
  if Rlt_dec x c then exp (1 - 1 / (1 - (x / c) ^ 2)) else 0.
Definition doc_cosine_cutoff (c x : R) : R :=
  if Rlt_dec x c then 1 / 2 * cos (PI * (x / c)) + 1 / 2 else 0.

(** The formula in the docstring of smooth_switch (switch.py:46-53), as printed there. *)
Definition doc_smooth_switch (x0 x1 x : R) : R :=
  if Rle_dec x x0 then 0
  else if Rle_dec x1 x then 1
  else / (1 + exp (sqrt 3 / 2 * ((x1 - x0) / (x - x0) - (x1 - x0) / (x - x1)))).
(** The same with the sign of the last fraction corrected. *)
Definition switch_formula (x0 x1 x : R) : R :=
  if Rle_dec x x0 then 0
  else if Rle_dec x1 x then 1
  else / (1 + exp (sqrt 3 / 2 * ((x1 - x0) / (x - x0) - (x1 - x0) / (x1 - x)))).

Definition doc_smooth_damping (gamma x : R) : R := exp (- (1 / (exp (gamma * x) - 1))).

Definition doc_reciprocal_mapping (kind : string) (x : R) : option R :=
  if String.eqb kind "shifted" then Some (1 / (x + 1))
  else if String.eqb kind "damped" then Some ((1 - exp (- x)) / x)
  else if String.eqb kind "cuspless" then Some (1 / (x + exp (- x)))
  else None.

Definition doc_exponential_mapping (gamma : R) (cuspless : bool) (x : R) : R :=
  if cuspless then exp (- gamma * (x + exp (- x) - 1)) else exp (- gamma * x).

Fixpoint binom (n k : nat) : R :=
  match n, k with
  | _, O => 1
  | O, S _ => 0
  | S n, S k => binom n k + binom n (S k)
  end.

(** Bernstein polynomial of degree [n]. *)
Definition bernstein_poly (n v : nat) (x : R) : R := binom n v * x ^ v * (1 - x) ^ (n - v).

Fixpoint chebyshev_pair (n : nat) (x : R) : R * R :=
  match n with
  | O => (1, x)
  | S n => let (a, b) := chebyshev_pair n x in (b, 2 * x * b - a)
  end.
(** Chebyshev polynomial by the three-term recurrence. *)
Definition chebyshev_poly (n : nat) (x : R) : R := fst (chebyshev_pair n x).

Definition doc_triangular_window (K : nat) (l : R) (k : nat) (x : R) : R :=
  Rmax (Rmin (INR K / l * x - INR k - 1) (INR K / l * x + INR k + 1)) 0.
Definition doc_gaussian (K : nat) (l : R) (k : nat) (x : R) : R :=
  exp (- (sqrt (2 * INR K) * (INR K - 1) / l * (x - INR k * l / (INR K - 1)) ^ 2)).
Definition doc_sinc (l : R) (k : nat) (x : R) : R :=
  if Rle_dec x l then sin (INR (k + 1) * PI * x) / (PI * x) else 0.
Definition doc_fourier (l : R) (k : nat) (x : R) : R := cos (INR k * (PI / l) * x).
Definition doc_basic_bernstein (K : nat) (l : R) (k : nat) (x : R) : R :=
  if Rlt_dec x 0 then 0 else if Rlt_dec l x then 0
  else binom (K - 1) k * (x / l) ^ k * (1 - x / l) ^ (K - 1 - k).

(** The softplus function. *)
Definition softplus (y : R) : R := ln (1 + exp y).

(** Sum of all entries. *)
Definition total (l : list R) : R := fold_right Rplus 0 l.

Definition nonincreasing_on (P : R -> Prop) (f : R -> R) : Prop :=
  forall x y, P x -> P y -> x <= y -> f y <= f x.
Definition strictly_increasing_on (P : R -> Prop) (f : R -> R) : Prop :=
  forall x y, P x -> P y -> x < y -> f x < f y.
