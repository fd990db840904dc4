(** Vocabulary for the statements about spherical harmonics, Wigner-D matrices and Clebsch-Gordan
    arrays (C21-C25, C59, C60). *)
Require Import String List Reals ZArith Bool.
Require Import Verif.Base Verif.Symbolic_Model Verif.LUT_Model Verif.LUT_Spec Verif.Rotations_Model Verif.Rotations_Spec Verif.Irreps_Model.
Import ListNotations.
Open Scope R_scope.

(** A state of the table cache that can occur: some history of requests and path changes on a fresh
    installation, in which no save is interrupted half way. *)
Definition sh_ready (w : world (sh_file R)) : Prop :=
  exists w0 h, fresh_install (sh_generate R 0 rzero sph_terms) (sh_compress R rzero) w0 /\
    Forall uninterrupted h /\ w = fst (sh_run R 0 rzero sph_terms w0 h).
Definition wd_ready (w : world (wd_file R)) : Prop :=
  exists w0 h, fresh_install (wd_generate R 0 rzero poly39 sph_poly rotate_xyz_polynomial dot_terms) (wd_compress R rzero) w0 /\
    Forall uninterrupted h /\ w = fst (wd_run R 0 rzero poly39 sph_poly rotate_xyz_polynomial dot_terms w0 h).
Definition cg_ready (A : Type) (zero : A) is_zero value (w : world (cg_file A)) : Prop :=
  exists w0 h, fresh_install (cg_generate A zero is_zero value) (cg_compress A is_zero) w0 /\
    Forall uninterrupted h /\ w = fst (cg_run A zero is_zero value w0 h).

(** The process pool runs every task once and a save either succeeds or does not touch the file. *)
Definition call_ok (s : schedule) (o : io) : Prop := valid_schedule s /\ (o = IoOk \/ o = IoOpenFails).

(** [ys] is what some call of [spherical_harmonics] for the batch [rs] returns. *)
Definition spherical_returns (tiny : R) (rs : list vec) (L : Z) (r_is_normalized cartesian : bool) (norm : string)
    (ys : list (list R)) : Prop :=
  exists empty w s o, sh_ready w /\ call_ok s o /\
    snd (spherical_harmonics empty tiny w s o 3 (map vlist rs) L r_is_normalized cartesian norm) = Ok ys.
Definition solid_returns (rs : list vec) (L : Z) (cartesian : bool) (ys : list (list R)) : Prop :=
  exists empty tiny w s o, sh_ready w /\ call_ok s o /\
    snd (solid_harmonics empty tiny w s o 3 (map vlist rs) L cartesian) = Ok ys.

(** A 3x3 matrix as a list of rows. *)
Definition mlist (m : mat) : list (list R) := map (fun i => vlist (row m i)) [0; 1; 2]%nat.
Definition wigner_returns (ms : list mat) (L : Z) (cartesian : bool) (ds : list (list (list R))) : Prop :=
  exists empty w s o, wd_ready w /\ call_ok s o /\
    snd (wigner_d empty w s o (3, 3)%nat (map mlist ms) L cartesian) = Ok ds.

(** Entry c of row b; entry (i, j) of matrix b. *)
Definition at2 (y : list (list R)) (b c : nat) : R := nth c (nth b y []) 0.
Definition at3 {A : Type} (d : A) (y : list (list (list A))) (a b c : nat) : A := nth c (nth b (nth a y []) []) d.

(** Number of degrees 0..L, for a non-negative L. *)
Definition degrees (L : Z) : nat := Z.to_nat L + 1.

(** An orthogonal matrix (proper or improper): rows and columns are orthonormal. *)
Definition orthogonal (m : mat) : Prop :=
  forall i j, (i < 3)%nat -> (j < 3)%nat ->
    dot (row m i) (row m j) = (if Nat.eqb i j then 1 else 0) /\
    entry m 0 i * entry m 0 j + entry m 1 i * entry m 1 j + entry m 2 i * entry m 2 j = (if Nat.eqb i j then 1 else 0).
Definition unit_matrix : mat := (e1, e2, e3).
(** [a @ b]: every row of [a] times [b]. *)
Definition matmul (a b : mat) : mat := (act (row a 0) b, act (row a 1) b, act (row a 2) b).
Definition negative (m : mat) : mat := (times (-1) (row m 0), times (-1) (row m 1), times (-1) (row m 2)).

(** Second partial derivatives exist everywhere and their sum is zero. *)
Definition harmonic (f : R -> R -> R -> R) : Prop :=
  exists fx fy fz fxx fyy fzz : R -> R -> R -> R,
    (forall x y z, derivable_pt_lim (fun t => f t y z) x (fx x y z) /\
                   derivable_pt_lim (fun t => f x t z) y (fy x y z) /\
                   derivable_pt_lim (fun t => f x y t) z (fz x y z)) /\
    (forall x y z, derivable_pt_lim (fun t => fx t y z) x (fxx x y z) /\
                   derivable_pt_lim (fun t => fy x t z) y (fyy x y z) /\
                   derivable_pt_lim (fun t => fz x y t) z (fzz x y z)) /\
    forall x y z, fxx x y z + fyy x y z + fzz x y z = 0.

(** All exponents (a, b, c) with a + b + c = d. *)
Definition exponents (d : nat) : list (nat * nat * nat) :=
  flat_map (fun a => map (fun b => (a, b, d - a - b)%nat) (seq 0 (d - a + 1))) (seq 0 (d + 1)).
Fixpoint total {X : Type} (f : X -> R) (l : list X) : R := match l with [] => 0 | x :: t => f x + total f t end.
(** The homogeneous polynomial of degree d with coefficients [c]. *)
Definition form_value (d : nat) (c : nat * nat * nat -> R) (x y z : R) : R :=
  total (fun k => let '(a, b, e) := k in c k * (x ^ a * y ^ b * z ^ e)) (exponents d).
(** Inner product of coefficients: 2^d / binomial(2d, d) * sum of products over trinomial coefficients
    d! / (a! b! e!). *)
Definition coefficient_product (d : nat) (c c' : nat * nat * nat -> R) : R :=
  2 ^ d / (INR (fact (2 * d)) / (INR (fact d) * INR (fact d))) *
  total (fun k => let '(a, b, e) := k in
           c k * c' k / (INR (fact d) / (INR (fact a) * INR (fact b) * INR (fact e)))) (exponents d).

(** The documented normalisation constants. *)
Definition documented_constant (norm : string) (l : nat) (c : R) : Prop :=
  ((norm = "racah"%string \/ norm = "schmidt"%string) /\ c = 1) \/
  (norm = "4pi"%string /\ c = sqrt (2 * INR l + 1)) \/
  (norm = "orthonormal"%string /\ c = sqrt ((2 * INR l + 1) / (4 * PI))).
Definition known_normalization (norm : string) : Prop := In norm ["racah"; "schmidt"; "4pi"; "orthonormal"]%string.

(** What some call of [clebsch_gordan] or [clebsch_gordan_for_degrees] returns, for the coefficients
    [value] computed by [_clebsch_gordan]. *)
Definition cg_returns (A : Type) (zero : A) is_zero (value : cg_key -> A) (L1 L2 L3 : Z) (cartesian : bool) (c : list (list (list A))) : Prop :=
  exists empty w s o, cg_ready A zero is_zero value w /\ call_ok s o /\
    snd (clebsch_gordan A zero is_zero value empty w s o L1 L2 L3 cartesian) = Ok c.
Definition cg_degrees_return (A : Type) (zero : A) is_zero (value : cg_key -> A) (l1 l2 l3 : Z) (cartesian : bool) (c : list (list (list A))) : Prop :=
  exists empty w s o, cg_ready A zero is_zero value w /\ call_ok s o /\
    snd (clebsch_gordan_for_degrees A zero is_zero value empty w s o l1 l2 l3 cartesian) = Ok c.
Definition shape3 {A : Type} (n1 n2 n3 : nat) (c : list (list (list A))) : Prop :=
  length c = n1 /\ Forall (fun x => length x = n2 /\ Forall (fun y => length y = n3) x) c.
