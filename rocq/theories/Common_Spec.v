(** Independent vocabulary for broadcasting, configuration histories and index orders. *)
Require Import String List ZArith Bool Reals.
Require Import Verif.Common_Model.
Import ListNotations.

(** NumPy broadcasting of shape [s] to shape [t]: axes are aligned from the right,
    every axis of [s] has the size of the matching axis of [t] or size one. *)
Definition broadcasts_to (s t : list Z) : Prop :=
  (length s <= length t)%nat /\
  forall i, (i < length s)%nat ->
    nth i (rev s) 1%Z = nth i (rev t) 1%Z \/ nth i (rev s) 1%Z = 1%Z.

(** Value of the last call selected by [sel] in a history, or the initial value. *)
Definition last_value {V : Type} (sel : setter_call -> option V) (init : V) (h : list setter_call) : V :=
  fold_left (fun v s => match sel s with Some x => x | None => v end) h init.

Definition sel_cartesian (s : setter_call) := match s with SetCartesianOrder b => Some b | _ => None end.
Definition sel_fused (s : setter_call) := match s with SetUseFusedTensor b => Some b | _ => None end.
Definition sel_normalization (s : setter_call) :=
  match s with
  | SetNormalization n =>
      if in_dec string_dec n ["4pi"; "orthonormal"; "racah"; "schmidt"]%string then Some n else None
  | _ => None end.
Definition sel_sph (s : setter_call) := match s with SetSphericalHarmonicsCache p => Some p | _ => None end.
Definition sel_cg (s : setter_call) := match s with SetClebschGordanCache p => Some p | _ => None end.
Definition sel_wig (s : setter_call) := match s with SetWignerDCache p => Some p | _ => None end.
Definition sel_ten (s : setter_call) := match s with SetTensorConversionCache p => Some p | _ => None end.

(** The documented Cartesian order of the orders [m] of one degree:
    l, -l, l-1, -(l-1), ..., 1, -1, 0. *)
Fixpoint documented_orders (l : nat) : list Z :=
  match l with
  | O => [0%Z]
  | S k => Z.of_nat l :: (- Z.of_nat l)%Z :: documented_orders k
  end.

Fixpoint sum_nat (n : nat) (f : nat -> nat) : nat :=
  match n with O => 0 | S k => sum_nat k f + f k end.

Fixpoint sum_list (l : list nat) : nat := match l with [] => 0 | a :: t => a + sum_list t end.
