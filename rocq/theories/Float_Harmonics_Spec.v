(** Vocabulary for C91: the products that a spherical harmonic is the sum of, and how much their magnitudes exceed the length
    of the vector. *)
Require Import String List Reals ZArith.
Require Import Verif.Base Verif.Common_Model Verif.LUT_Spec Verif.Rotations_Spec Verif.Irreps_Spec Verif.Irreps_Model Verif.Float_Einsum_Model Verif.Float_Einsum_Spec Verif.Float_Harmonics_Model.
Import ListNotations.
Open Scope R_scope.

(** The exponents of all monomials up to degree [L]. *)
Definition all_powers (L : nat) : list (list nat) := flat_map monomial_powers_of_degree (seq 0 (L + 1)).
(** [x^a y^b z^c] as a product of coordinates. *)
Definition factors (p : list nat) : list harmonic_operand :=
  repeat (Coordinate 0) (nth 0 p 0%nat) ++ repeat (Coordinate 1) (nth 1 p 0%nat) ++ repeat (Coordinate 2) (nth 2 p 0%nat).
Definition harmonic_terms (L : nat) : list (list harmonic_operand) :=
  map (fun i => factors (nth i (all_powers L) []) ++ [Table i; Constant]) (seq 0 (length (all_powers L))).

(** The exact operands of entry [k] of degree [l] in the standard order (m = -l, ..., l). *)
Definition exact_operands (L : nat) (constant : R) (r : list R) (l k : nat) : harmonic_operand -> R :=
  harmonic_env r (fun i => coefficient 0 (sph_terms l (Z.of_nat k - Z.of_nat l)) (nth i (all_powers L) [])) constant.

(** Number of roundings when the coordinates have been rounded [c] times, the coefficients and the constant twice. *)
Fixpoint harmonic_roundings (c : nat) (e : expr harmonic_operand) : nat :=
  match e with
  | Nothing => 0
  | Operand (Coordinate _) => c
  | Operand (Table _) | Operand Constant => 2
  | Sum a b => S (Nat.max (harmonic_roundings c a) (harmonic_roundings c b))
  | Product a b => S (harmonic_roundings c a + harmonic_roundings c b)
  end.

(** The magnitudes of the terms of a harmonic polynomial of degree [l] with Racah's normalisation add up to at most this
    factor times the length to the power [l]: the root of binomial(2l, l) / 2^l. *)
Definition amplification (l : nat) : R := sqrt (INR (fact (2 * l)) / (INR (fact l) * INR (fact l)) / 2 ^ l).

(** The effect of underflow. *)
Definition underflow (tiny : R) (env : harmonic_operand -> R) (e : expr harmonic_operand) : R :=
  2 * (magnitude (3 * tiny) env e - magnitude 0 env e).

(** No overflow, and not too many roundings. *)
Definition harmonic_in_range (u tiny huge : R) (c : nat) (env : harmonic_operand -> R) (e : expr harmonic_operand) : Prop :=
  INR (harmonic_roundings c e) * u <= 1 / 64 /\ 2 * peak (3 * tiny) env e < huge.
(** Error bound for entry [k] of degree [l], for a vector [r] whose coordinates have been rounded [c] times. *)
Definition harmonic_error (u tiny : R) (c L : nat) (constant : R) (r : list R) (l k : nat) (e : expr harmonic_operand) : R :=
  2 * (INR (harmonic_roundings c e) * u) * (constant * amplification l * length_of r ^ l) + underflow tiny (exact_operands L constant r l k) e.

(** The entry [computed] for order [m] of degree [l] is a number close to the exact [value] unless intermediate results
    overflow: [r] is the vector, its coordinates go through [c] roundings, and [e] evaluates the entry. *)
Definition close_entry (u tiny huge : R) (c L : nat) (norm : string) (r : list R) (l m : nat) (e : expr harmonic_operand) (value : R) (computed : option R) : Prop :=
  forall constant, documented_constant norm l constant -> harmonic_in_range u tiny huge c (exact_operands L constant r l m) e ->
  exists f, computed = Some f /\ Rabs (f - value) <= harmonic_error u tiny c L constant r l m e.
(** Entry [c] of row [b]. *)
Definition entry_of (fs : list (list (option R))) (b c : nat) : option R := nth c (nth b fs []) None.
(** Number of operands and operations. *)
Fixpoint size {V : Type} (e : expr V) : nat :=
  match e with Nothing => 0 | Operand _ => 1 | Sum a b | Product a b => S (size a + size b) end.
