(** Model of [smooth_switch] and its derivative rule (e3x/nn/functions/switch.py) in floating point arithmetic
    with infinities: the exponential function overflows for arguments near [x0], and the code relies on
    [1 / (1 + inf) = 0] and on masking [inf * 0].

    Simplification: the sign of zero is not modelled, and a division by zero gives NaN (in IEEE arithmetic it is an
    infinity), so a program that divides by zero counts as failing. *)
Require Import Reals Bool.
Require Import Verif.Base Verif.Radial_Model.
Open Scope R_scope.

Inductive num : Type := Fin (r : R) | Inf (positive : bool) | NaN.

Section Arithmetic.
Variables (rnd : R -> R) (huge : R).
(** [jnp.exp] of a finite number is [fexp x], or infinity if that is too large. *)
Variable fexp : R -> R.

Definition xbound (r : R) : num := if Rltb (Rabs r) huge then Fin r else Inf (Rltb 0 r).
Definition xround (r : R) : num := xbound (rnd r).
Definition xneg (a : num) : num := match a with Fin x => Fin (- x) | Inf s => Inf (negb s) | NaN => NaN end.
Definition xadd (a b : num) : num :=
  match a, b with
  | Fin x, Fin y => xround (x + y)
  | Inf s, Inf t => if eqb s t then Inf s else NaN
  | Inf s, Fin _ | Fin _, Inf s => Inf s
  | NaN, _ | _, NaN => NaN
  end.
Definition xsub (a b : num) : num := xadd a (xneg b).
Definition xmul (a b : num) : num :=
  match a, b with
  | Fin x, Fin y => xround (x * y)
  | Inf s, Inf t => Inf (eqb s t)
  | Inf s, Fin x | Fin x, Inf s => if Reqb x 0 then NaN else Inf (eqb s (Rltb 0 x))
  | NaN, _ | _, NaN => NaN
  end.
Definition xdiv (a b : num) : num :=
  match a, b with
  | Fin x, Fin y => if Reqb y 0 then NaN else xround (x / y)
  | Fin _, Inf _ => Fin 0
  | Inf s, Fin y => if Reqb y 0 then NaN else Inf (eqb s (Rltb 0 y))
  | Inf _, Inf _ => NaN
  | NaN, _ | _, NaN => NaN
  end.
Definition xexp (a : num) : num :=
  match a with Fin x => xbound (fexp x) | Inf true => Inf true | Inf false => Fin 0 | NaN => NaN end.
(** [a < b]; comparisons with NaN are false. *)
Definition xltb (a b : num) : bool :=
  match a, b with
  | Fin x, Fin y => Rltb x y
  | Fin _, Inf s => s
  | Inf s, Fin _ => negb s
  | Inf s, Inf t => negb s && t
  | NaN, _ | _, NaN => false
  end.
(** [a == 0]. *)
Definition xzero (a : num) : bool := match a with Fin x => Reqb x 0 | _ => false end.

(** [_SMOOTH_SWITCH_SLOPE] (switch.py:32) in the format, and [_smooth_switch_exp] (35-37). *)
Definition float_slope : num := Fin (rnd smooth_switch_slope).
Definition float_switch_exp (x : num) : num :=
  xexp (xmul float_slope (xsub (xdiv (Fin 1) x) (xdiv (Fin 1) (xsub (Fin 1) x)))).

(** The rescaling of an array [a] by [x1 - x0] (switch.py:92-93 and 121-122). *)
Definition is_rescaled (x0 x1 : R) : bool := negb (Reqb x0 0) || negb (Reqb x1 1).
Definition float_rescale (x : num) (x0 x1 : R) : num :=
  if is_rescaled x0 x1 then xdiv (xsub x (Fin x0)) (xround (x1 - x0)) else x.

(** [smooth_switch] (92-105); [eps] is [jnp.finfo(x.dtype).epsneg].  The check of the limits is in Radial_Model. *)
Definition float_smooth_switch (eps : R) (x : num) (x0 x1 : R) : num :=
  let x := float_rescale x x0 x1 in
  let small := xltb x (Fin eps) in
  let large := xltb (xsub (Fin 1) (Fin eps)) x in
  let safe_x := if small || large then Fin 0.5 else x in
  if small then Fin 0 else if large then Fin 1 else xdiv (Fin 1) (xadd (Fin 1) (float_switch_exp safe_x)).

(** [_smooth_switch_jvp_impl] (108-151): the factor of [x_dot] ([jnp.where(mask, 0, raw_tangent)], 124-150) at the
    rescaled argument. *)
Definition float_switch_factor (eps : R) (x : num) : num :=
  let small := xltb x (Fin eps) in
  let large := xltb (xsub (Fin 1) (Fin eps)) x in
  let safe_x := if small || large then Fin 0.5 else x in
  let e := float_switch_exp safe_x in
  let primal_out := if small then Fin 0 else if large then Fin 1 else xdiv (Fin 1) (xadd (Fin 1) e) in
  let primal_out2 := xmul primal_out primal_out in
  let y := xsub (Fin 1) safe_x in
  let raw_tangent :=
    xmul (xmul (xmul (xneg float_slope) (xsub (xdiv (Fin (-1)) (xmul safe_x safe_x)) (xdiv (Fin 1) (xmul y y)))) e) primal_out2 in
  if (small || large) || (xzero primal_out2 || xzero e) then Fin 0 else raw_tangent.
(** The tangent (118-151). *)
Definition float_switch_tangent (eps x0 x1 : R) (x x_dot : num) : num :=
  let x_dot := if is_rescaled x0 x1 then xdiv x_dot (xround (x1 - x0)) else x_dot in
  xmul (float_switch_factor eps (float_rescale x x0 x1)) x_dot.
End Arithmetic.
