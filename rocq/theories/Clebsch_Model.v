(** Model of the Clebsch-Gordan coefficients of real spherical harmonics
    (e3x/so3/_symbolic.py:80-129).

    [sympy.physics.wigner.clebsch_gordan] is not part of the repository.  It is modelled by the closed
    formula it documents (Racah's formula, e.g. DLMF 34.2.4), with 1/n! read as 0 for negative n.
    Symbolic numbers are modelled by exact complex numbers, [sp.simplify] is the identity. *)
Require Import Reals ZArith Bool.
Require Import Verif.Base Verif.RSum Verif.LUT_Model.
Open Scope R_scope.

(** * sympy.physics.wigner.clebsch_gordan *)

(** 1 / z!, zero for negative z. *)
Definition rfact (z : Z) : R := if (z <? 0)%Z then 0 else / INR (fact (Z.to_nat z)).

Definition zfact (z : Z) : R := INR (fact (Z.to_nat z)).

(** The sum of Racah's formula: over all k for which no argument of a factorial is negative. *)
Definition racah_sum (n : nat) (a b c d : Z) : R :=
  rsum (n + 1) (fun k => let k' := Z.of_nat k in
    (-1) ^ k * rfact k' * rfact (Z.of_nat n - k') * rfact (a - k') * rfact (b - k') * rfact (c + k') * rfact (d + k')).

(** [_complex_cg(l1, l2, l3, m1, m2, m3)] *)
Definition complex_cg (l1 l2 l3 : nat) (m1 m2 m3 : Z) : R :=
  let L1 := Z.of_nat l1 in let L2 := Z.of_nat l2 in let L3 := Z.of_nat l3 in
  if negb (m1 + m2 =? m3)%Z then 0
  else if (L1 + L2 <? L3)%Z || (L1 <? L2 - L3)%Z || (L2 <? L1 - L3)%Z then 0
  else if (L1 <? Z.abs m1)%Z || (L2 <? Z.abs m2)%Z || (L3 <? Z.abs m3)%Z then 0
  else sqrt ((2 * INR l3 + 1) * zfact (L1 + L2 - L3) * zfact (L1 - L2 + L3) * zfact (L2 - L1 + L3) / zfact (L1 + L2 + L3 + 1))
       * sqrt (zfact (L1 + m1) * zfact (L1 - m1)) * sqrt (zfact (L2 + m2) * zfact (L2 - m2))
       * sqrt (zfact (L3 + m3) * zfact (L3 - m3))
       * racah_sum (l1 + l2 - l3) (L1 - m1) (L2 + m2) (L3 - L2 + m1) (L3 - L1 - m2).

(** * Complex numbers *)

Definition cplx : Type := (R * R)%type.
Definition c_add (u v : cplx) : cplx := (fst u + fst v, snd u + snd v).
Definition c_mul (u v : cplx) : cplx := (fst u * fst v - snd u * snd v, fst u * snd v + snd u * fst v).
Definition c_real (x : R) : cplx := (x, 0).
Definition conjugate (u : cplx) : cplx := (fst u, - snd u).

(** [sp.I ** z] *)
Definition i_pow (z : Z) : cplx :=
  match (z mod 4)%Z with 0%Z => (1, 0) | 1%Z => (0, 1) | 2%Z => (-1, 0) | _ => (0, -1) end.

(** * [_clebsch_gordan] (80-129) *)

(** [a_b] (101-114) *)
Definition a_b (m : Z) : cplx * cplx :=
  if (m <? 0)%Z then
    if (m mod 2 =? 0)%Z then ((0, 1 / sqrt 2), (0, - 1 / sqrt 2)) else ((0, 1 / sqrt 2), (0, 1 / sqrt 2))
  else if (0 <? m)%Z then
    if (m mod 2 =? 0)%Z then ((1 / sqrt 2, 0), (1 / sqrt 2, 0)) else ((- 1 / sqrt 2, 0), (1 / sqrt 2, 0))
  else ((1 / 2, 0), (1 / 2, 0)).

(** (116-129) *)
Definition clebsch_gordan_complex (l1 : nat) (m1 : Z) (l2 : nat) (m2 : Z) (l3 : nat) (m3 : Z) : cplx :=
  let (a1, b1) := a_b m1 in
  let (a2, b2) := a_b m2 in
  let (a3, b3) := a_b m3 in
  let term u v w n1 n2 n3 := c_mul (c_mul (c_mul u v) (conjugate w)) (c_real (complex_cg l1 l2 l3 n1 n2 n3)) in
  c_mul (i_pow (Z.of_nat l1 + Z.of_nat l2 - Z.of_nat l3))
    (c_add (c_add (c_add (c_add (c_add (c_add (c_add
      (term a1 a2 a3 m1 m2 m3)
      (term a1 a2 b3 m1 m2 (- m3)%Z))
      (term a1 b2 a3 m1 (- m2)%Z m3))
      (term a1 b2 b3 m1 (- m2)%Z (- m3)%Z))
      (term b1 a2 a3 (- m1)%Z m2 m3))
      (term b1 a2 b3 (- m1)%Z m2 (- m3)%Z))
      (term b1 b2 a3 (- m1)%Z (- m2)%Z m3))
      (term b1 b2 b3 (- m1)%Z (- m2)%Z (- m3)%Z)).

(** The value that is stored in a table of real numbers (_clebsch_gordan_lut.py:178-181).  numpy raises
    an error for a number with an imaginary part; that this part is always 0 is a theorem (C66). *)
Definition real_clebsch_gordan (k : cg_key) : R :=
  let '(l1, m1, l2, m2, l3, m3) := k in fst (clebsch_gordan_complex l1 m1 l2 m2 l3 m3).
