(** Specification of derivatives computed by reverse-mode differentiation. *)
Require Import Reals.
Require Import Verif.AutoDiff_Model.
Open Scope R_scope.

(** [e] computes the real function [g] of its input, its gradient is a finite number for every
    input in [domain], and it is the derivative of [g] unless the input is one of [exceptions]. *)
Definition differentiates (e : expr) (g : R -> R) (domain exceptions : R -> Prop) : Prop :=
  forall r, domain (r 0%nat) ->
    value e r = Some (g (r 0%nat)) /\
    exists d, gradient e r 0 = Some d /\
      (~ exceptions (r 0%nat) -> derivable_pt_lim g (r 0%nat) d).

(** The inputs [r] with input [i] replaced by [t]. *)
Definition replace (r : nat -> R) (i : nat) (t : R) : nat -> R :=
  fun j => if Nat.eqb j i then t else r j.

(** [F] is finite near [r] along input [i], and has the partial derivative [d] there. *)
Definition partial_derivative (F : (nat -> R) -> option R) (r : nat -> R) (i : nat) (d : R) : Prop :=
  exists f delta, 0 < delta /\
    (forall t, Rabs (t - r i) < delta -> F (replace r i t) = Some (f t)) /\
    derivable_pt_lim f (r i) d.

(** A function of one number is differentiable with derivative [d] at [u]. *)
Definition has_derivative (F : R -> option R) (u d : R) : Prop :=
  exists f delta, 0 < delta /\
    (forall t, Rabs (t - u) < delta -> F t = Some (f t)) /\
    derivable_pt_lim f u d.

(** The outcome of a comparison does not change near [r] along input [i]. *)
Definition steady (c : cond) (r : nat -> R) (i : nat) : Prop :=
  exists delta, 0 < delta /\
    forall t, Rabs (t - r i) < delta -> holds c (replace r i t) = holds c r.

(** [r] is not a point where [e] changes its formula: comparisons are steady, no maximum or
    minimum ties, no absolute value, sign or norm is taken of zero, and functions with their own
    derivative rule are given a correct one. *)
Fixpoint settled (e : expr) (r : nat -> R) (i : nat) : Prop :=
  match e with
  | Var _ | Const _ => True
  | Un op a =>
      settled a r i /\
      forall u, value a r = Some u ->
        match op with
        | Abs | Sign => u <> 0
        | Custom f df => forall d, df u = Some d -> has_derivative f u d
        | _ => True
        end
  | Bin op a b =>
      settled a r i /\ settled b r i /\
      match op with
      | Max | Min => value a r <> value b r
      | _ => True
      end
  | Norm a b c =>
      settled a r i /\ settled b r i /\ settled c r i /\
      ~ (value a r = Some 0 /\ value b r = Some 0 /\ value c r = Some 0)
  | Where c a b =>
      steady c r i /\
      match holds c r with Some true => settled a r i | Some false => settled b r i | None => True end
  end.
