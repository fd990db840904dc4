(** Vocabulary for C101: vectors and linear maps that do not depend on how the coordinate system is turned. *)
Require Import List Reals ZArith.
Require Import Verif.Base Verif.RSum Verif.Rotations_Model Verif.Rotations_Spec Verif.Irreps_Model Verif.Irreps_Spec.
Import ListNotations.
Open Scope R_scope.

(** [block cartesian m l d]: [d] is the block of degree [l] of what [wigner_d] returns for [m], for some maximum degree and state
    of the cache. *)
Definition block (cartesian : bool) (m : mat) (l : nat) (d : nat -> nat -> R) : Prop :=
  exists L ds, wigner_returns [m] L cartesian ds /\ (l < degrees L)%nat /\ forall i j, d i j = at3 0 ds 0 (l * l + i) (l * l + j).

(** The irrep [b] of degree [l] stays the same in all rotations. *)
Definition invariant (cartesian : bool) (l : nat) (b : nat -> R) : Prop :=
  forall m d, proper_rotation m -> block cartesian m l d ->
    forall j, (j < 2 * l + 1)%nat -> rsum (2 * l + 1) (fun i => b i * d i j) = b j.

(** Irreps of degree [l] are mapped linearly to irreps of degree [l'], and rotating before is rotating afterwards. *)
Definition equivariant_linear (cartesian : bool) (l l' : nat) (A : nat -> nat -> R) : Prop :=
  forall m d d', proper_rotation m -> block cartesian m l d -> block cartesian m l' d' ->
    forall i j, (i < 2 * l + 1)%nat -> (j < 2 * l' + 1)%nat ->
      rsum (2 * l + 1) (fun k => d i k * A k j) = rsum (2 * l' + 1) (fun k => A i k * d' k j).

(** A product of irreps of degrees [l1] and [l2] that gives an irrep of degree [l3], linear in both factors: rotating both
    factors rotates the product. *)
Definition equivariant_product (cartesian : bool) (l1 l2 l3 : nat) (B : nat -> nat -> nat -> R) : Prop :=
  forall m d1 d2 d3, proper_rotation m -> block cartesian m l1 d1 -> block cartesian m l2 d2 -> block cartesian m l3 d3 ->
    forall i j k, (i < 2 * l1 + 1)%nat -> (j < 2 * l2 + 1)%nat -> (k < 2 * l3 + 1)%nat ->
      rsum (2 * l1 + 1) (fun i' => rsum (2 * l2 + 1) (fun j' => d1 i i' * d2 j j' * B i' j' k)) =
      rsum (2 * l3 + 1) (fun k' => B i j k' * d3 k' k).

(** A linear layer on features: component (p', l', k') of output channel [f] is the sum over components (p, l, k) of input channels [a]
    with the weights [W p l k a p' l' k' f] (parity, degree, order, channel).  It is equivariant if rotating the features, and
    reflecting them (odd parity changes sign), before and afterwards is the same. *)
Definition parity_sign (p : nat) : R := if (p =? 0)%nat then 1 else -1.
Definition equivariant_layer (cartesian : bool) (n channels features : nat) (W : nat -> nat -> nat -> nat -> nat -> nat -> nat -> nat -> R) : Prop :=
  forall p l a p' l' f, (p < 2)%nat -> (l < n)%nat -> (a < channels)%nat -> (p' < 2)%nat -> (l' < n)%nat -> (f < features)%nat ->
    equivariant_linear cartesian l l' (fun k k' => W p l k a p' l' k' f) /\
    forall k k', (k < 2 * l + 1)%nat -> (k' < 2 * l' + 1)%nat -> parity_sign p * W p l k a p' l' k' f = W p l k a p' l' k' f * parity_sign p'.

(** A layer that is linear in two inputs and acts on every channel [f] separately: component (p, l, k) of its output is the sum over
    pairs of components (p1, l1, k1) of the first and (p2, l2, k2) of the second input with the weights
    [W p1 l1 k1 p2 l2 k2 p l k f].  It is equivariant if rotating, or reflecting, both inputs does the same to the output. *)
Definition equivariant_pairing (cartesian : bool) (n1 n2 n3 features : nat)
    (W : nat -> nat -> nat -> nat -> nat -> nat -> nat -> nat -> nat -> nat -> R) : Prop :=
  forall p1 l1 p2 l2 p l f, (p1 < 2)%nat -> (l1 < n1)%nat -> (p2 < 2)%nat -> (l2 < n2)%nat -> (p < 2)%nat -> (l < n3)%nat -> (f < features)%nat ->
    equivariant_product cartesian l1 l2 l (fun k1 k2 k => W p1 l1 k1 p2 l2 k2 p l k f) /\
    forall k1 k2 k, (k1 < 2 * l1 + 1)%nat -> (k2 < 2 * l2 + 1)%nat -> (k < 2 * l + 1)%nat ->
      parity_sign p1 * parity_sign p2 * W p1 l1 k1 p2 l2 k2 p l k f = W p1 l1 k1 p2 l2 k2 p l k f * parity_sign p.
