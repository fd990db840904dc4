(** Specification vocabulary for kernel initialisation (C40): coupling paths allowed by parity and
    the triangle rule, and how many there are.  Does not mention the functions of the model. *)
Require Import List Reals ZArith Bool.
Import ListNotations.
Open Scope R_scope.

(** Parity of the features of degree l in channel p of an array with S parity channels: channels
    0 and 1 are even and odd; a single channel stores proper tensors. *)
Definition entry_parity (S p l : nat) : nat := if (S =? 2)%nat then p else (l mod 2)%nat.

(** Two features can couple to a third: parities multiply, degrees satisfy the triangle rule. *)
Definition path_allowed (S1 S2 S3 p1 l1 p2 l2 p3 l3 : nat) : Prop :=
  ((entry_parity S1 p1 l1 + entry_parity S2 p2 l2) mod 2)%nat = entry_parity S3 p3 l3
  /\ (l1 <= l2 + l3 /\ l2 <= l1 + l3 /\ l3 <= l1 + l2)%nat.

(** There are exactly n elements with a property. *)
Definition exactly {A : Type} (n : nat) (P : A -> Prop) : Prop :=
  exists l, NoDup l /\ length l = n /\ forall a, In a l <-> P a.

(** Coefficients are zero unless the degrees satisfy the triangle rule. *)
Definition triangle_rule (C : nat -> nat -> nat -> R) : Prop :=
  forall l1 l2 l3 k1 k2 k3, (k1 < 2 * l1 + 1)%nat -> (k2 < 2 * l2 + 1)%nat -> (k3 < 2 * l3 + 1)%nat ->
    ~ (l1 <= l2 + l3 /\ l2 <= l1 + l3 /\ l3 <= l1 + l2)%nat -> C (l1 * l1 + k1)%nat (l2 * l2 + k2)%nat (l3 * l3 + k3)%nat = 0.

(** Coupling two tensors of the same degree M: the part of degree l is symmetric for even and
    antisymmetric for odd l, and the scalar part is proportional to the trace. *)
Definition swap_rule (M : nat) (C : nat -> nat -> nat -> R) : Prop :=
  (forall u v l k, (u < 2 * M + 1)%nat -> (v < 2 * M + 1)%nat -> (k < 2 * l + 1)%nat -> (l <= 2 * M)%nat ->
    C (M * M + u)%nat (M * M + v)%nat (l * l + k)%nat
    = (if (l mod 2 =? 0)%nat then 1 else -1) * C (M * M + v)%nat (M * M + u)%nat (l * l + k)%nat)
  /\ exists c, forall u v, (u < 2 * M + 1)%nat -> (v < 2 * M + 1)%nat ->
    C (M * M + u)%nat (M * M + v)%nat 0%nat = if (u =? v)%nat then c else 0.
