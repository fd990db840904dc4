(** Specification vocabulary for feature arrays: irreducible components by parity, degree and
    order.  Does not mention the functions of the model. *)
Require Import List Reals ZArith Bool.
Require Import Verif.Base Verif.RSum Verif.Features_Model.
Import ListNotations.
Open Scope R_scope.

(** A well-formed feature array with degrees 0..n-1: one parity channel (proper tensors) or two
    (even and odd parity), and one entry for every degree l < n and order. *)
Definition valid (n : nat) (x : feat) : Prop := (fS x = 1%nat \/ fS x = 2%nat) /\ fD x = (n * n)%nat.

Definition well_formed (x : feat) : Prop := exists n, valid n x.

(** The array has a slot for components of degree l and parity p (0 even, 1 odd).  With one
    parity channel only proper tensors are stored: parity p equals that of the degree. *)
Definition has_slot (x : feat) (p l : nat) : Prop :=
  ((l + 1) * (l + 1) <= fD x)%nat /\ (fS x = 2%nat \/ (fS x = 1%nat /\ p = (l mod 2)%nat)).

(** The component of parity p, degree l and order k - l (k = 0..2l), batch index i, feature f;
    zero if the array has no slot for it. *)
Definition comp (x : feat) (i : list nat) (p l k f : nat) : R :=
  if ((l + 1) * (l + 1) <=? fD x)%nat then
    if (fS x =? 2)%nat then fv x i p (l * l + k) f
    else if (p =? l mod 2)%nat then fv x i 0%nat (l * l + k)%nat f else 0
  else 0.

(** Same shape, dtype and entries. *)
Definition same_feature (x y : feat) : Prop :=
  fB x = fB y /\ fS x = fS y /\ fD x = fD y /\ fF x = fF y /\ fdt x = fdt y
  /\ forall i s d f, (s < fS x)%nat -> (d < fD x)%nat -> fv x i s d f = fv y i s d f.

(** Matrices without entries between different degrees. *)
Definition block_diagonal (D : list nat -> nat -> nat -> R) : Prop :=
  forall b l k l' k', (k < 2 * l + 1)%nat -> (k' < 2 * l' + 1)%nat -> l <> l' ->
    D b (l * l + k)%nat (l' * l' + k')%nat = 0.

(** The leading square part of a (batched or shared) Wigner-D matrix that fits a feature array. *)
Definition wigner_for (shared : bool) (D : list nat -> nat -> nat -> R) (x : feat) : wig :=
  mkWig (if shared then None else Some (fB x)) (fD x) (fD x) D.

(** Batch index seen by a shared or batched matrix. *)
Definition wigner_batch (shared : bool) (b : list nat) : list nat := if shared then [] else b.

(** Inputs that [add] must accept, relative to the first one. *)
Definition compatible (x0 x : feat) : Prop :=
  fB x = fB x0 /\ fF x = fF x0 /\ fdt x = fdt x0 /\ well_formed x.

Definition sum_R (l : list R) : R := fold_right Rplus 0 l.
