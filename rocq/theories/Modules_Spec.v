(** Specification vocabulary for the layers (C35-C39): irreducible components, rotations and
    reflections, couplings.  Does not mention the functions of Modules_Model. *)
Require Import List Reals ZArith Bool.
Require Import Verif.Base Verif.RSum Verif.Features_Model Verif.Features_Spec.
Import ListNotations.
Open Scope R_scope.

(** Matrices for each batch element that act on the components of each degree separately, keep
    scalars and are orthogonal.  Wigner-D matrices of rotations are such matrices. *)
Definition orthogonal_blocks (D : list nat -> nat -> nat -> R) : Prop :=
  forall b l k k', (k < 2 * l + 1)%nat -> (k' < 2 * l + 1)%nat ->
    rsum (2 * l + 1) (fun j => D b (l * l + k)%nat (l * l + j)%nat * D b (l * l + k')%nat (l * l + j)%nat) = (if (k =? k')%nat then 1 else 0)
    /\ rsum (2 * l + 1) (fun j => D b (l * l + j)%nat (l * l + k)%nat * D b (l * l + j)%nat (l * l + k')%nat) = (if (k =? k')%nat then 1 else 0).

Definition keeps_scalars (D : list nat -> nat -> nat -> R) : Prop := forall b, D b 0%nat 0%nat = 1.

(** Coupling coefficients commute with the action of a matrix: transforming both factors of
    degrees l1, l2 transforms the part of degree l3 of their product.  This is the defining
    property of Clebsch-Gordan coefficients for the Wigner-D matrices. *)
Definition intertwines (n1 n2 n3 : nat) (C : nat -> nat -> nat -> R) (D : nat -> nat -> R) : Prop :=
  forall l1 l2 l3 a b c, (l1 < n1)%nat -> (l2 < n2)%nat -> (l3 < n3)%nat ->
    (a < 2 * l1 + 1)%nat -> (b < 2 * l2 + 1)%nat -> (c < 2 * l3 + 1)%nat ->
    rsum (2 * l1 + 1) (fun k1 => rsum (2 * l2 + 1) (fun k2 =>
      D (l1 * l1 + a)%nat (l1 * l1 + k1)%nat * D (l2 * l2 + b)%nat (l2 * l2 + k2)%nat
      * C (l1 * l1 + k1)%nat (l2 * l2 + k2)%nat (l3 * l3 + c)%nat))
    = rsum (2 * l3 + 1) (fun k3 =>
        C (l1 * l1 + a)%nat (l2 * l2 + b)%nat (l3 * l3 + k3)%nat * D (l3 * l3 + k3)%nat (l3 * l3 + c)%nat).

(** All coefficients that [clebsch_gordan] returns commute with the action of the matrices D. *)
Definition cg_commutes (clebsch_gordan : Z -> Z -> Z -> result (nat -> nat -> nat -> R))
    (D : list nat -> nat -> nat -> R) : Prop :=
  forall L1 L2 L3 C b, clebsch_gordan L1 L2 L3 = Ok C ->
    intertwines (Z.to_nat (L1 + 1)) (Z.to_nat (L2 + 1)) (Z.to_nat (L3 + 1)) C (D b).

(** Factor that parity p contributes: s = 1 for rotations, s = -1 if combined with a reflection. *)
Definition parity_sign (s : R) (p : nat) : R := if (p =? 1)%nat then s else 1.

(** x' is x, every component multiplied by the matrix D (for its batch index) and the factor of
    its parity.  Same shape. *)
Definition transformed (s : R) (D : list nat -> nat -> nat -> R) (x x' : feat) : Prop :=
  fB x' = fB x /\ fS x' = fS x /\ fD x' = fD x /\ fF x' = fF x /\ fdt x' = fdt x
  /\ forall i p l k f, (p < 2)%nat -> (k < 2 * l + 1)%nat ->
       comp x' i p l k f =
       parity_sign s p * rsum (2 * l + 1) (fun k' => comp x i p l k' f * D i (l * l + k')%nat (l * l + k)%nat).

(** The (l, k) component of the product of the (p1, l1) part of x and the (p2, l2) part of y. *)
Definition coupled (C : nat -> nat -> nat -> R) (u v : nat -> R) (l1 l2 l k : nat) : R :=
  rsum (2 * l1 + 1) (fun k1 => rsum (2 * l2 + 1) (fun k2 =>
    u k1 * v k2 * C (l1 * l1 + k1)%nat (l2 * l2 + k2)%nat (l * l + k)%nat)).

(** z is a weighted sum over all pairs of parts of x and y whose parities multiply to that of
    the result, with weights W p1 l1 p2 l2 p l f.  [a], [b] map a batch index of z to those of x, y. *)
Definition weighted_couplings (n1 n2 : nat) (C : nat -> nat -> nat -> R)
    (W : nat -> nat -> nat -> nat -> nat -> nat -> nat -> R) (a b : list nat -> list nat) (x y z : feat) : Prop :=
  forall i p l k f, (p < 2)%nat -> (k < 2 * l + 1)%nat -> has_slot z p l ->
    comp z i p l k f =
    rsum 2 (fun p1 => rsum n1 (fun l1 => rsum 2 (fun p2 => rsum n2 (fun l2 =>
      if ((p1 + p2) mod 2 =? p)%nat
      then W p1 l1 p2 l2 p l f
           * coupled C (fun k1 => comp x (a i) p1 l1 k1 f) (fun k2 => comp y (b i) p2 l2 k2 f) l1 l2 l k
      else 0)))).

(** Position along the parity axis of an array with S parity channels. *)
Definition channel (S p : nat) : nat := if (S =? 2)%nat then p else 0%nat.

(** Sum of all entries over features, parities, degrees and orders of the product of two arrays. *)
Definition component_sum (n : nat) (g : nat -> nat -> nat -> R) : R :=
  rsum 2 (fun p => rsum n (fun l => rsum (2 * l + 1) (fun k => g p l k))).

(** [clebsch_gordan] raises for negative degrees. *)
Definition cg_checked (clebsch_gordan : Z -> Z -> Z -> result (nat -> nat -> nat -> R)) : Prop :=
  forall L1 L2 L3, (L1 < 0 \/ L2 < 0 \/ L3 < 0)%Z -> clebsch_gordan L1 L2 L3 = Err ValueError.
