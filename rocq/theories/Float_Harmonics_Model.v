(** Model of [spherical_harmonics] and [solid_harmonics] (e3x/so3/irreps.py:41-217) in floating point arithmetic; see
    Float_Model for the arithmetic and Float_Einsum_Model for evaluations. *)
Require Import String List Reals ZArith Bool.
Require Import Verif.Base Verif.RSum Verif.Common_Model Verif.LUT_Model Verif.Symbolic_Model Verif.Rotations_Model Verif.Irreps_Model Verif.Float_Model Verif.Float_Einsum_Model.
Import ListNotations.
Open Scope R_scope.

(** The operands of an entry: the coordinates of the vector, the column of the coefficient matrix, and the normalisation
    constant of its degree. *)
Inductive harmonic_operand : Type := Coordinate (c : nat) | Table (i : nat) | Constant.
Definition harmonic_env (r : list R) (coefficients : nat -> R) (constant : R) (v : harmonic_operand) : R :=
  match v with Coordinate c => nth c r 0 | Table i => coefficients i | Constant => constant end.

Section Arithmetic.
Variables (rnd : R -> R) (tiny huge : R).
(** The lookup table and the normalisation constants are stored in double precision before they are converted. *)
Variable store : R -> R.

(** Constant of the degree of column [j]; an invalid name is an error before it is used. *)
Definition column_constant (norm : string) (j : nat) : R := match normalization_constant norm (Nat.sqrt j) with Ok c => c | Err _ => 0 end.

(** All entries of a row are numbers. *)
Fixpoint numbers (g : list (option R)) : option (list R) :=
  match g with [] => Some [] | x :: g => fbind x (fun a => match numbers g with Some l => Some (a :: l) | None => None end) end.

(** [spherical_harmonics] (41-170); structure as in Irreps_Model.  [t] is the order in which [normalize] adds the squares and
    [E b j] evaluates column [j] of the table in the product of the monomials of row [b] with the coefficient matrix: the coefficients
    times the normalisation constants (146-149), the powers (cumulative products, 162), the monomials (163-167) and the
    matrix product (170).  Factors of one (powers with exponent zero) are left out: multiplying by one is exact.  The table has [num_car L] rows.  The
    coordinates that [normalize] returns are rounded once more in [float_eval], which does not change numbers of the format. *)
Definition float_spherical_harmonics (t : list R -> order) (E : nat -> nat -> expr harmonic_operand) (empty : nat) (w : world (sh_file R)) (s : schedule) (o : io)
    (dim : nat) (r : list (list R)) (max_degree : Z) (r_is_normalized cartesian_order : bool) (normalization : string)
    : world (sh_file R) * result (list (list (option R))) :=
  if negb (dim =? 3)%nat then (w, Err ValueError)
  else match check_degree max_degree with
  | Err e => (w, Err e)
  | Ok L =>
      let '(w, table) := spherical_harmonics_table w max_degree s o in
      (w, bind table (fun tab =>
          bind (normalize_columns normalization L (sh_cm R tab)) (fun _ =>
          let cols := if cartesian_order then cartesian_permutation empty L else seq 0 ((L + 1) ^ 2) in
          bind (if r_is_normalized then Ok (map (map Some) r)
                else match normalize tiny r with Err e => Err e | Ok _ => Ok (float_normalize rnd tiny huge t r) end) (fun rs =>
          Ok (map (fun bg => map (fun j => match numbers (snd bg) with
                                             | Some g => float_eval rnd huge (harmonic_env g (fun i => store (if (i <? num_car L)%nat then sh_cm R tab (i, j) else 0)) (store (column_constant normalization j))) (E (fst bg) j)
                                             | None => None
                                             end) cols) (combine (seq 0 (length rs)) rs))))))
  end.

(** [solid_harmonics] (173-217) *)
Definition float_solid_harmonics (t : list R -> order) (E : nat -> nat -> expr harmonic_operand) (empty : nat) (w : world (sh_file R)) (s : schedule) (o : io)
    (dim : nat) (r : list (list R)) (max_degree : Z) (cartesian_order : bool) : world (sh_file R) * result (list (list (option R))) :=
  float_spherical_harmonics t E empty w s o dim r max_degree true cartesian_order "racah".
End Arithmetic.
