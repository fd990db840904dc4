(** Model of [smooth_cutoff] (e3x/nn/functions/cutoff.py) and [smooth_damping] (damping.py) and of their
    gradients in floating point arithmetic; see Float_Model for the arithmetic and AutoDiff_Model for
    how jax.grad differentiates.  [g] is the cotangent of the result, and the gradient functions return the
    cotangent of the argument.  The check [cutoff <= 0] is in Radial_Model. *)
Require Import Reals.
Require Import Verif.Base Verif.Radial_Model Verif.Float_Model.
Open Scope R_scope.

Section Arithmetic.
Variables (rnd : R -> R) (huge : R).
(** [jnp.exp] returns [fexp x] for arguments that are not positive, the only ones that occur. *)
Variable fexp : R -> R.
Let fl := fl rnd huge.
Let fadd := fadd rnd huge.
Let fmul := fmul rnd huge.
Let fdiv := fdiv rnd huge.

(** [x / cutoff] (cutoff.py:74-75, division by a constant). *)
Definition float_scaled (x c : R) : option R := if Reqb c 1 then Some x else fdiv x c.

(** [jnp.exp(1 - 1 / (1 - safe_x * safe_x))] (cutoff.py:78), with its intermediate results: the
    difference in the denominator and the value. *)
Definition float_bump (s : R) : option (R * R) :=
  fbind (fmul s s) (fun p => fbind (fl (1 - p)) (fun y => fbind (fdiv 1 y) (fun z => fbind (fl (1 - z)) (fun w =>
    Some (y, fexp w))))).

(** [smooth_cutoff] (cutoff.py:74-78). *)
Definition float_smooth_cutoff (x c : R) : option R :=
  fbind (float_scaled x c) (fun x =>
    let inside := Rltb x 1 in
    let safe_x := if inside then x else 0 in
    if inside then match float_bump safe_x with Some (_, v) => Some v | None => None end else Some 0).

(** [y ** -2] in the derivative rule of division ([lax.integer_pow]): the reciprocal of the square. *)
Definition float_pow_m2 (y : R) : option R := fbind (fmul y y) (fun q => fdiv 1 q).

(** The reverse pass through [smooth_cutoff].  In [jnp.where(inside, a, b)] the branch that was not
    selected gets a cotangent of zero. *)
Definition float_smooth_cutoff_gradient (x c g : R) : option R :=
  fbind (float_scaled x c) (fun x =>
    let inside := Rltb x 1 in
    let safe_x := if inside then x else 0 in
    match float_bump safe_x with
    | None => None
    | Some (y, v) =>
      let gv := if inside then g else 0 in
      fbind (fmul gv v) (fun gw =>
      fbind (float_pow_m2 y) (fun y2 =>
      fbind (fmul (- gw) y2) (fun gy =>
      fbind (fmul (- - gy) safe_x) (fun h =>
      fbind (fadd h h) (fun gs =>
      let gx := if inside then gs else 0 in
      if Reqb c 1 then Some gx else fdiv gx c)))))
    end).

(** [exp = jnp.exp(-gamma * x)] and [div = 1 - exp] (damping.py:67-68). *)
Definition float_damping_parts (x gamma : R) : option (R * R) :=
  fbind (fmul (- gamma) x) (fun m => let e := fexp m in fbind (fl (1 - e)) (fun d => Some (e, d))).

(** [smooth_damping] (damping.py:67-70). *)
Definition float_smooth_damping (x gamma : R) : option R :=
  match float_damping_parts x gamma with
  | None => None
  | Some (e, d) => fbind (fmul d d) (fun q =>
      let mask := Rltb 0 q in
      let safe := if mask then d else 1 in
      if mask then fbind (fdiv (- e) safe) (fun r => Some (fexp r)) else Some 0)
  end.

(** The reverse pass through [smooth_damping].  The comparison has no cotangent. *)
Definition float_smooth_damping_gradient (x gamma g : R) : option R :=
  match float_damping_parts x gamma with
  | None => None
  | Some (e, d) => fbind (fmul d d) (fun q =>
      let mask := Rltb 0 q in
      let safe := if mask then d else 1 in
      fbind (fdiv (- e) safe) (fun r =>
      let gv := if mask then g else 0 in
      fbind (fmul gv (fexp r)) (fun gr =>
      fbind (fdiv gr safe) (fun gn =>
      fbind (float_pow_m2 safe) (fun y2 =>
      fbind (fmul gr y2) (fun t =>
      fbind (fmul t (- e)) (fun t =>
      let gd := if mask then - t else 0 in
      fbind (fadd (- gn) (- gd)) (fun ge =>
      fbind (fmul ge e) (fun gm => fmul gm (- gamma)))))))))
      )
  end.
End Arithmetic.
