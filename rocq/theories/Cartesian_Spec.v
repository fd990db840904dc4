(** Vocabulary for C99: indices of tensors, tensors in rotated coordinates, and the irreps in the coupling of a tensor's indices. *)
Require Import List Reals.
Require Import Verif.RSum.
Import ListNotations.
Open Scope R_scope.

(** Indices of a tensor of degree n. *)
Definition is_index (n : nat) (index : list nat) : Prop := length index = n /\ Forall (fun i => (i < 3)%nat) index.

(** Every index of the tensor multiplied with the matrix: the sum of T a b ... * E a i * E b j ... *)
Fixpoint turned_tensor (E : nat -> nat -> R) (T : list nat -> R) (index : list nat) : R :=
  match index with [] => T [] | i :: r => rsum 3 (fun a => E a i * turned_tensor E (fun index => T (a :: index)) r) end.

(** The irreps in a tensor: the first index has degree 1, every further one is coupled with the Clebsch-Gordan coefficients. *)
Fixpoint irreps_of (c : nat -> nat -> nat -> R) (T : list nat -> R) (path : list nat) (p : nat) : R :=
  match path with
  | [] => 0
  | l2 :: q =>
      match q with
      | [] => T [p]
      | l1 :: _ => rsum 3 (fun o => rsum (2 * l1 + 1) (fun n => irreps_of c (fun index => T (o :: index)) q n * c (l1 * l1 + n)%nat (1 + o)%nat (l2 * l2 + p)%nat))
      end
  end.
