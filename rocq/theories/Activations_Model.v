(** Model of e3x/nn/activations.py.

    [eps] stands for jnp.finfo(dtype).eps.  The error function jax.lax.erf is an argument [erf];
    tanh, expm1, logaddexp, softplus, expit and jax.nn.hard_sigmoid are the exact real functions
    they approximate. *)
Require Import List Reals ZArith Bool.
Require Import Verif.Base Verif.Features_Model Verif.Radial_Model.
Import ListNotations.
Open Scope R_scope.

(** The check at the start of [_gated_linear] (63-67), on the shape of the argument. *)
Definition check_ndim (shape : list nat) : result unit :=
  if (length shape <? 3)%nat then Err ValueError else Ok tt.

(** [_gated_linear] (49-68): g(x[..., 0:1, 0:1, :]) * x, with g applied elementwise. *)
Definition gated_linear (g : R -> R) (x : feat) : result feat :=
  bind (check_ndim (shape_of x)) (fun _ =>
    Ok (mkFeat (fB x) (fS x) (fD x) (fF x) (fdt x)
          (fun i s d f => g (fv x i 0%nat 0%nat f) * fv x i s d f))).

(** jnp.sign. *)
Definition jsign (x : R) : R := if Rltb x 0 then -1 else if Reqb x 0 then 0 else 1.

(** [relu] (71-112). *)
Definition relu_gate (x : R) : R := Rmax (jsign x) 0.
Definition relu := gated_linear relu_gate.

(** [leaky_relu] (115-169). *)
Definition leaky_relu_gate (negative_slope x : R) : R := if Rleb 0 x then 1 else negative_slope.
Definition leaky_relu (negative_slope : R) := gated_linear (leaky_relu_gate negative_slope).

(** [elu] (172-242). *)
Definition elu_gate (eps alpha x : R) : R :=
  let not_tiny := Rltb eps (Rabs x) in
  let expm1_safe_x := if Rltb 0 x then 0 else x in
  let div_safe_x := if not_tiny then x else 1 in
  if Rltb 0 x then 1
  else if not_tiny then alpha * expm1 expm1_safe_x / div_safe_x
  else alpha * (x * x / 6 + x / 2 + 1).
Definition elu (eps alpha : R) := gated_linear (elu_gate eps alpha).

(** [selu] (245-300). *)
Definition selu_alpha : R := 1.6732632423543772848170429916717.
Definition selu_scale : R := 1.0507009873554804934193349852946.
Definition selu (eps : R) (x : feat) : result feat :=
  rmap (fun y => mkFeat (fB y) (fS y) (fD y) (fF y) (fdt y) (fun i s d f => selu_scale * fv y i s d f))
    (elu eps selu_alpha x).

(** [celu] (303-377). *)
Definition celu_gate (eps alpha x : R) : R :=
  let not_tiny := Rltb eps (Rabs x) in
  let expm1_safe_x := if Rltb 0 x then 0 else x in
  let div_safe_x := if not_tiny then x else 1 in
  if Rltb 0 x then 1
  else if not_tiny then alpha * expm1 (expm1_safe_x / alpha) / div_safe_x
  else x * x / (6 * alpha * alpha) + x / (2 * alpha) + 1.
Definition celu (eps alpha : R) := gated_linear (celu_gate eps alpha).

(** [silu] (380-423): jax.scipy.special.expit. *)
Definition expit (x : R) : R := 1 / (1 + exp (- x)).
Definition silu := gated_linear expit.

(** [gelu] (426-501). *)
Definition gelu_gate (erf : R -> R) (approximate : bool) (x : R) : R :=
  if approximate then
    let sqrt_2_over_pi := sqrt (2 / PI) in
    0.5 * (1 + tanh (sqrt_2_over_pi * (x + 0.044715 * x ^ 3)))
  else (erf (x / sqrt 2) + 1) / 2.
Definition gelu (erf : R -> R) (approximate : bool) := gated_linear (gelu_gate erf approximate).

(** jax.nn.softplus and jnp.logaddexp. *)
Definition logaddexp (a b : R) : R := ln (exp a + exp b).
Definition jsoftplus (x : R) : R := logaddexp x 0.

(** [mish] (504-560). *)
Definition mish_gate (fast : bool) (x : R) : R :=
  if fast then
    let y := exp (- x) in
    let z := 2 * y + 1 in
    z / (z + 2 * y * y)
  else tanh (jsoftplus x).
Definition mish (fast : bool) := gated_linear (mish_gate fast).

(** [serf] (563-608). *)
Definition serf_gate (erf : R -> R) (x : R) : R := erf (jsoftplus x).
Definition serf (erf : R -> R) := gated_linear (serf_gate erf).

(** [shifted_softplus] (611-663). *)
Definition shifted_softplus_gate (eps x : R) : R :=
  let not_tiny := Rltb eps (Rabs x) in
  let safe_x := if not_tiny then x else 1 in
  if not_tiny then (logaddexp x 0 - ln 2) / safe_x else x / 8 + 1 / 2.
Definition shifted_softplus (eps : R) := gated_linear (shifted_softplus_gate eps).

(** [hard_tanh] (666-721). *)
Definition hard_tanh_gate (x : R) : R :=
  let safe_x := if Rltb 0.1 (Rabs x) then x else 1 in
  if Rltb 1 x then 1 / safe_x else if Rltb x (-1) then -1 / safe_x else 1.
Definition hard_tanh := gated_linear hard_tanh_gate.

(** [soft_sign] (724-765). *)
Definition soft_sign_gate (x : R) : R := 1 / (Rabs x + 1).
Definition soft_sign := gated_linear soft_sign_gate.

(** [relu6] (768-815). *)
Definition relu6_gate (x : R) : R :=
  let safe_x := if Rltb 1 x then x else 1 in
  Rmin (Rmax (jsign x) 0) (6 / safe_x).
Definition relu6 := gated_linear relu6_gate.

(** [hard_silu] (818-857): jax.nn.hard_sigmoid(x) = relu6(x + 3) / 6. *)
Definition hard_sigmoid (x : R) : R := Rmin (Rmax (x + 3) 0) 6 / 6.
Definition hard_silu := gated_linear hard_sigmoid.

(** [bent_identity] (860-912). *)
Definition bent_identity_gate (eps x : R) : R :=
  let not_tiny := Rltb eps (Rabs x) in
  let safe_x := if not_tiny then x else 1 in
  if not_tiny then (sqrt (x * x + 1) - 1) / (2 * safe_x) + 1 else x / 4 + 1.
Definition bent_identity (eps : R) := gated_linear (bent_identity_gate eps).
