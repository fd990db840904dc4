(** Model of [_bernstein], its derivative rule and [basic_bernstein] (e3x/nn/functions/bernstein.py) in floating point
    arithmetic, for one entry of the input array; see Float_Model for the arithmetic. *)
Require Import List Reals ZArith Bool.
Require Import Verif.Base Verif.Radial_Model Verif.Float_Model.
Import ListNotations.
Open Scope R_scope.

Section Arithmetic.
Variables (rnd : R -> R) (huge : R).
(** [jnp.exp], [jnp.log] and [jnp.log1p] of finite numbers. *)
Variables (fexp flog flog1p : R -> R).
(** [binomln[v]] for [n] (51): logarithms of binomial coefficients, computed at compile time with [betaln]. *)
Variable lnbinom : nat -> nat -> R.
Let fl := fl rnd huge.
Let fadd := fadd rnd huge.
Let fmul := fmul rnd huge.

(** A result that is not finite is a failure. *)
Definition fcheck (r : R) : option R := if Rltb (Rabs r) huge then Some r else None.

(** [jnp.exp(binomln + v * jnp.log(safe_x) + (n - v) * jnp.log1p(-safe_x))] (60). *)
Definition float_bernstein_log (x : R) (n v : nat) : option R :=
  fbind (fmul (INR v) (flog x)) (fun a => fbind (fadd (lnbinom n v) a) (fun s =>
  fbind (fmul (INR (n - v)) (flog1p (- x))) (fun b => fadd s b))).

(** Entry [v] of [_bernstein] for num = n + 1 >= 2 (48-65); [eps] is [jnp.finfo(x.dtype).epsneg]. *)
Definition float_bernstein_entry (eps x : R) (n v : nat) : option R :=
  fbind (fl (1 - eps)) (fun above =>
  let mask0 := Rltb x eps in
  let mask1 := Rltb above x in
  let mask := mask0 || mask1 in
  let safe_x := if mask then 0.5 else x in
  let y := if mask then Some 0 else fbind (float_bernstein_log safe_x n v) (fun e => fcheck (fexp e)) in
  let y := if mask0 && (v =? 0)%nat then Some 1 else y in
  if mask1 && (v =? n)%nat then Some 1 else y).

(** [_bernstein] (28-65). *)
Definition float_bernstein (eps x : R) (num : Z) : result (list (option R)) :=
  if (num <? 1)%Z then Err ValueError
  else if (num =? 1)%Z then Ok [Some 1]
  else
    let n := Z.to_nat (num - 1) in
    Ok (map (float_bernstein_entry eps x n) (seq 0 (n + 1))).

(** [jnp.roll(l, shift=1, axis=-1)]. *)
Definition roll {A : Type} (l : list A) : list A := match rev l with [] => [] | a :: t => a :: rev t end.

(** [_bernstein_jvp_impl] (68-85): primal and tangent output. *)
Definition float_bernstein_jvp (eps : R) (num : Z) (x x_dot : R) : result (list (option R) * list (option R)) :=
  bind (float_bernstein eps x num) (fun primal_out =>
    if (1 <? num)%Z then
      bind (float_bernstein eps x (num - 1)) (fun lower0 =>
        let lower := lower0 ++ [Some 0] in
        let shift := roll lower in
        let shift := match shift with [] => [] | _ :: t => Some 0 :: t end in
        Ok (primal_out, map (fun p => fbind (fmul x_dot (IZR (num - 1))) (fun c => fbind (fst p) (fun a => fbind (snd p) (fun b => fbind (fl (a - b)) (fun d => fmul c d)))))
                          (combine shift lower)))
    else Ok (primal_out, [fmul 0 x_dot])).

(** [basic_bernstein] (88-132).  A quotient that is not finite is not followed further. *)
Definition float_basic_bernstein (eps x : R) (num : Z) (limit : R) : result (list (option R)) :=
  match fdiv rnd huge x limit with
  | Some t => float_bernstein eps t num
  | None => Ok (repeat None (Z.to_nat num))
  end.
End Arithmetic.
