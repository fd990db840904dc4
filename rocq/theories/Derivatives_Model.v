(** Model of [evaluate_derivatives] in e3x/ops/helpers.py (32-60).  Arrays are functions from
    positions to real numbers. *)
Require Import List Reals ZArith.
Require Import Verif.Base.
Import ListNotations.
Open Scope R_scope.

Definition arr := nat -> R.

Section Evaluate.
(** [jax.jvp(f, (x,), (v,))[1]] *)
Variable jvp : (arr -> arr) -> arr -> arr -> arr.

(** The inner function [derivative] (50-52): the tangent is [jnp.ones_like(x)]. *)
Definition derivative (f : arr -> arr) : arr -> arr := fun x => jvp f x (fun _ => 1).

(** The loop (56-58), starting with the function whose value is already stored. *)
Fixpoint derivative_loop (n : nat) (f : arr -> arr) (x : arr) : list arr :=
  match n with
  | O => []
  | S n => let f' := derivative f in f' x :: derivative_loop n f' x
  end.

Definition evaluate_derivatives (f : arr -> arr) (x : arr) (max_order : Z) : result (list arr) :=
  if (max_order <? 0)%Z then Err ValueError
  else Ok (f x :: derivative_loop (Z.to_nat max_order) f x).
End Evaluate.
