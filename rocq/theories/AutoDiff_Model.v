(** Model of how jax.grad differentiates the elementwise functions of e3x.

    e3x computes forces and training gradients with reverse-mode differentiation.  There, both
    branches of a [jnp.where] receive a cotangent (the discarded one receives zero), and zero times
    an infinite partial derivative is NaN.  This is why the code guards the arguments of divisions,
    logarithms and square roots (the names [safe_x], [div_safe_x] and so on).  The model makes this
    visible: a program is a tree of jax.numpy operations, [value] runs it, and [back] carries a
    cotangent from the result to an input.  A number is [option R]; [None] stands for a value that
    is not finite (NaN or infinity) and is contagious, also when it is multiplied by zero.

    Simplifications: arithmetic on finite numbers is exact; a shared intermediate result is a
    repeated subtree, so its cotangents are propagated before they are added (for finite results
    this makes no difference, and a result that is not finite is never hidden by it); infinity is
    not told apart from NaN, so that a program that recovers from an intermediate infinity counts
    as failing.  The derivative rules of the operations are those of jax.lax and jax.numpy, which
    are outside /repo. *)
Require Import List Reals ZArith Bool String.
Require Import Verif.Base Verif.Radial_Model Verif.Activations_Model.
Import ListNotations.
Open Scope R_scope.

(** * Numbers that may fail to be finite *)

Definition lift1 (f : R -> R) (a : option R) : option R :=
  match a with Some u => Some (f u) | None => None end.
Definition lift2 (f : R -> R -> R) (a b : option R) : option R :=
  match a, b with Some u, Some v => Some (f u v) | _, _ => None end.
Definition oadd := lift2 Rplus.
Definition omul := lift2 Rmult.

(** * Operations *)

(** Operations with one argument; [Custom f df] is a function with its own derivative rule
    (jax.custom_jvp). *)
Inductive unary :=
| Neg | Exp | Expm1 | Log | Log1p | Sqrt | Cos | Arccos | Tanh | Logistic | Abs | Sign
| IntegerPow (n : nat)
| Sinc
| Custom (f df : R -> option R).

(** Their values: log is finite for positive arguments only, and so on. *)
Definition unary_value (op : unary) (u : R) : option R :=
  match op with
  | Neg => Some (- u)
  | Exp => Some (exp u)
  | Expm1 => Some (expm1 u)
  | Log => if Rltb 0 u then Some (ln u) else None
  | Log1p => if Rltb 0 (1 + u) then Some (log1p u) else None
  | Sqrt => if Rleb 0 u then Some (sqrt u) else None
  | Cos => Some (cos u)
  | Arccos => if Rleb (-1) u && Rleb u 1 then Some (acos u) else None
  | Tanh => Some (tanh u)
  | Logistic => Some (expit u)
  | Abs => Some (Rabs u)
  | Sign => Some (jsign u)
  | IntegerPow n => Some (u ^ n)
  | Sinc => Some (sinc1 u)
  | Custom f _ => f u
  end.

(** Their partial derivatives as jax computes them. *)
Definition unary_partial (op : unary) (u : R) : option R :=
  match op with
  | Neg => Some (-1)
  | Exp => Some (exp u)
  | Expm1 => Some (expm1 u + 1)
  | Log => if Rltb 0 u then Some (1 / u) else None
  | Log1p => if Rltb 0 (1 + u) then Some (1 / (1 + u)) else None
  | Sqrt => if Rltb 0 u then Some (0.5 / sqrt u) else None
  | Cos => Some (- sin u)
  | Arccos => if Rltb (-1) u && Rltb u 1 then Some (- (1 / sqrt (1 - u * u))) else None
  | Tanh => Some (1 - tanh u * tanh u)
  | Logistic => Some (expit u * (1 - expit u))
  | Abs => Some (jsign u)
  | Sign => Some 0
  | IntegerPow n => Some (INR n * u ^ (n - 1))
  | Sinc => Some (if Req_EM_T u 0 then 0 else (cos (PI * u) - sinc1 u) / u)
  | Custom _ df => df u
  end.

(** Operations with two arguments. *)
Inductive binary := Add | Sub | Mul | Div | Max | Min | LogAddExp.

Definition binary_value (op : binary) (u v : R) : option R :=
  match op with
  | Add => Some (u + v)
  | Sub => Some (u - v)
  | Mul => Some (u * v)
  | Div => if Reqb v 0 then None else Some (u / v)
  | Max => Some (Rmax u v)
  | Min => Some (Rmin u v)
  | LogAddExp => Some (logaddexp u v)
  end.

(** jax splits the derivative of a maximum or minimum equally when the arguments tie. *)
Definition balanced (u v : R) : R := if Rltb u v then 0 else if Reqb u v then 0.5 else 1.

Definition binary_partial1 (op : binary) (u v : R) : option R :=
  match op with
  | Add => Some 1
  | Sub => Some 1
  | Mul => Some v
  | Div => if Reqb v 0 then None else Some (1 / v)
  | Max => Some (balanced u v)
  | Min => Some (balanced v u)
  | LogAddExp => Some (exp (u - logaddexp u v))
  end.

Definition binary_partial2 (op : binary) (u v : R) : option R :=
  match op with
  | Add => Some 1
  | Sub => Some (-1)
  | Mul => Some u
  | Div => if Reqb v 0 then None else Some (- u / (v * v))
  | Max => Some (balanced v u)
  | Min => Some (balanced u v)
  | LogAddExp => Some (exp (v - logaddexp u v))
  end.

(** [e3x.ops.norm] of a vector with three components (ops/safe.py:30-62; the scaling by the
    largest component cancels in exact arithmetic, see C30), and the coefficient of the tangent of
    component [x] in its derivative rule (65-85). *)
Definition norm3 (x y z : R) : R := sqrt (x * x + y * y + z * z).
Definition norm3_partial (x n : R) : R := x / (if Rltb 0 n then n else 1).

(** * Programs *)

Inductive expr :=
| Var (k : nat)
| Const (c : R)
| Un (op : unary) (a : expr)
| Bin (op : binary) (a b : expr)
| Norm (a b c : expr)
| Where (c : cond) (a b : expr)
with cond :=
| Less (a b : expr)
| LessEq (a b : expr)
| Or (c d : cond).

Definition obind {A B : Type} (a : option A) (f : A -> option B) : option B :=
  match a with Some u => f u | None => None end.

(** Running a program on inputs [r].  [jnp.where] returns the selected branch. *)
Fixpoint value (e : expr) (r : nat -> R) : option R :=
  match e with
  | Var k => Some (r k)
  | Const c => Some c
  | Un op a => obind (value a r) (unary_value op)
  | Bin op a b => obind (value a r) (fun u => obind (value b r) (binary_value op u))
  | Norm a b c =>
      obind (value a r) (fun x => obind (value b r) (fun y => obind (value c r) (fun z =>
        Some (norm3 x y z))))
  | Where c a b => obind (holds c r) (fun t => if t then value a r else value b r)
  end
with holds (c : cond) (r : nat -> R) : option bool :=
  match c with
  | Less a b => obind (value a r) (fun u => obind (value b r) (fun v => Some (Rltb u v)))
  | LessEq a b => obind (value a r) (fun u => obind (value b r) (fun v => Some (Rleb u v)))
  | Or c d => obind (holds c r) (fun s => obind (holds d r) (fun t => Some (s || t)%bool))
  end.

(** Reverse-mode differentiation: the cotangent of input [i] when the result has cotangent [ct].
    Both branches of [jnp.where] are differentiated, the discarded one with cotangent zero. *)
Fixpoint back (e : expr) (r : nat -> R) (i : nat) (ct : option R) : option R :=
  match e with
  | Var k => if (k =? i)%nat then ct else omul ct (Some 0)
  | Const _ => omul ct (Some 0)
  | Un op a => back a r i (omul ct (obind (value a r) (unary_partial op)))
  | Bin op a b =>
      oadd
        (back a r i (omul ct (obind (value a r) (fun u => obind (value b r) (binary_partial1 op u)))))
        (back b r i (omul ct (obind (value a r) (fun u => obind (value b r) (binary_partial2 op u)))))
  | Norm a b c =>
      let part (pick : R -> R -> R -> R) :=
        omul ct (obind (value a r) (fun x => obind (value b r) (fun y => obind (value c r) (fun z =>
          Some (norm3_partial (pick x y z) (norm3 x y z)))))) in
      oadd (oadd (back a r i (part (fun x _ _ => x))) (back b r i (part (fun _ y _ => y))))
           (back c r i (part (fun _ _ z => z)))
  | Where c a b =>
      obind (holds c r) (fun t =>
        oadd (back a r i (if t then ct else omul ct (Some 0)))
             (back b r i (if t then omul ct (Some 0) else ct)))
  end.

(** jax.grad with respect to input [i]. *)
Definition gradient (e : expr) (r : nat -> R) (i : nat) : option R := back e r i (Some 1).

(** * The programs of e3x

    [X] is the argument.  Python arithmetic on parameters that are plain numbers is evaluated
    before the program runs, so it appears inside [Const]. *)

Notation X := (Var 0).
Notation "a +! b" := (Bin Add a b) (at level 50, left associativity).
Notation "a -! b" := (Bin Sub a b) (at level 50, left associativity).
Notation "a *! b" := (Bin Mul a b) (at level 40, left associativity).
Notation "a /! b" := (Bin Div a b) (at level 40, left associativity).

(** ** activations.py: the gates *)

(** [relu] (111). *)
Definition relu_prog : expr := Bin Max (Un Sign X) (Const 0).

(** [leaky_relu] (168). *)
Definition leaky_relu_prog (negative_slope : R) : expr :=
  Where (LessEq (Const 0) X) (Const 1) (Const negative_slope).

(** [elu] (228-240). *)
Definition elu_prog (eps alpha : R) : expr :=
  let not_tiny := Less (Const eps) (Un Abs X) in
  let expm1_safe_x := Where (Less (Const 0) X) (Const 0) X in
  let div_safe_x := Where not_tiny X (Const 1) in
  Where (Less (Const 0) X) (Const 1)
    (Where not_tiny (Const alpha *! Un Expm1 expm1_safe_x /! div_safe_x)
       (Const alpha *! (X *! X /! Const 6 +! X /! Const 2 +! Const 1))).

(** [celu] (363-375). *)
Definition celu_prog (eps alpha : R) : expr :=
  let not_tiny := Less (Const eps) (Un Abs X) in
  let expm1_safe_x := Where (Less (Const 0) X) (Const 0) X in
  let div_safe_x := Where not_tiny X (Const 1) in
  Where (Less (Const 0) X) (Const 1)
    (Where not_tiny (Const alpha *! Un Expm1 (expm1_safe_x /! Const alpha) /! div_safe_x)
       (X *! X /! Const (6 * alpha * alpha) +! X /! Const (2 * alpha) +! Const 1)).

(** [silu] (420). *)
Definition silu_prog : expr := Un Logistic X.

(** jax.lax.erf and its derivative rule, both arguments of the model. *)
Definition Erf (erf derf : R -> R) : unary :=
  Custom (fun u => Some (erf u)) (fun u => Some (derf u)).

(** [gelu] (493-500). *)
Definition gelu_prog (erf derf : R -> R) (approximate : bool) : expr :=
  if approximate then
    Const 0.5 *! (Const 1 +! Un Tanh (Const (sqrt (2 / PI)) *!
       (X +! Const 0.044715 *! Un (IntegerPow 3) X)))
  else (Un (Erf erf derf) (X /! Const (sqrt 2)) +! Const 1) /! Const 2.

(** [mish] (552-558). *)
Definition mish_prog (fast : bool) : expr :=
  if fast then
    let y := Un Exp (Un Neg X) in
    let z := Const 2 *! y +! Const 1 in
    z /! (z +! Const 2 *! y *! y)
  else Un Tanh (Bin LogAddExp X (Const 0)).

(** [serf] (607). *)
Definition serf_prog (erf derf : R -> R) : expr := Un (Erf erf derf) (Bin LogAddExp X (Const 0)).

(** [shifted_softplus] (654-661). *)
Definition shifted_softplus_prog (eps : R) : expr :=
  let not_tiny := Less (Const eps) (Un Abs X) in
  let safe_x := Where not_tiny X (Const 1) in
  Where not_tiny ((Bin LogAddExp X (Const 0) -! Const (ln 2)) /! safe_x)
    (X /! Const 8 +! Const (1 / 2)).

(** [hard_tanh] (717-719). *)
Definition hard_tanh_prog : expr :=
  let safe_x := Where (Less (Const 0.1) (Un Abs X)) X (Const 1) in
  Where (Less (Const 1) X) (Const 1 /! safe_x)
    (Where (Less X (Const (-1))) (Const (-1) /! safe_x) (Const 1)).

(** [soft_sign] (764). *)
Definition soft_sign_prog : expr := Const 1 /! (Un Abs X +! Const 1).

(** [relu6] (811-813). *)
Definition relu6_prog : expr :=
  let safe_x := Where (Less (Const 1) X) X (Const 1) in
  Bin Min (Bin Max (Un Sign X) (Const 0)) (Const 6 /! safe_x).

(** [hard_silu] (854): jax.nn.hard_sigmoid. *)
Definition hard_silu_prog : expr := Bin Min (Bin Max (X +! Const 3) (Const 0)) (Const 6) /! Const 6.

(** [bent_identity] (903-910). *)
Definition bent_identity_prog (eps : R) : expr :=
  let not_tiny := Less (Const eps) (Un Abs X) in
  let safe_x := Where not_tiny X (Const 1) in
  Where not_tiny ((Un Sqrt (X *! X +! Const 1) -! Const 1) /! (Const 2 *! safe_x) +! Const 1)
    (X /! Const 4 +! Const 1).

(** ** functions/: cutoffs, damping and mappings

    [a] is the argument of the function (a distance, or the result of another program). *)

(** [x / cutoff] unless the cutoff is one (cutoff.py:74-75, 126-127). *)
Definition scaled_prog (cutoff : R) (a : expr) : expr :=
  if negb (Reqb cutoff 1) then a /! Const cutoff else a.

(** [smooth_cutoff] (cutoff.py:74-78). *)
Definition smooth_cutoff_prog (cutoff : R) (a : expr) : expr :=
  let x := scaled_prog cutoff a in
  let inside_cutoff := Less x (Const 1) in
  let safe_x := Where inside_cutoff x (Const 0) in
  Where inside_cutoff (Un Exp (Const 1 -! Const 1 /! (Const 1 -! safe_x *! safe_x))) (Const 0).

(** [cosine_cutoff] (cutoff.py:126-128). *)
Definition cosine_cutoff_prog (cutoff : R) (a : expr) : expr :=
  let x := scaled_prog cutoff a in
  Where (Less x (Const 1)) (Const 0.5 *! Un Cos (Const PI *! x) +! Const 0.5) (Const 0).

(** [smooth_damping] (damping.py:67-70). *)
Definition smooth_damping_prog (gamma : R) (a : expr) : expr :=
  let exp_ := Un Exp (Const (- gamma) *! a) in
  let div := Const 1 -! exp_ in
  let mask := Less (Const 0) (div *! div) in
  Where mask (Un Exp (Un Neg exp_ /! Where mask div (Const 1))) (Const 0).

(** [reciprocal_mapping] (mappings.py:89-98). *)
Definition reciprocal_mapping_prog (eps : R) (kind : string) (a : expr) : result expr :=
  if String.eqb kind "shifted" then Ok (Const 1 /! (a +! Const 1))
  else if String.eqb kind "damped" then
    let small := Less a (Const eps) in
    let safe_x := Where small (Const 1) a in
    Ok (Where small (Const 1 -! a /! Const 2 +! a *! a /! Const 6)
          (Un Neg (Un Expm1 (Un Neg safe_x)) /! safe_x))
  else if String.eqb kind "cuspless" then Ok (Const 1 /! (a +! Un Exp (Un Neg a)))
  else Err ValueError.

(** [exponential_mapping] (mappings.py:165-167). *)
Definition exponential_mapping_prog (gamma : R) (cuspless : bool) (a : expr) : expr :=
  let x := if cuspless then a +! Un Exp (Un Neg a) -! Const 1 else a in
  Un Exp (Const (- gamma) *! x).

(** ** switch.py *)

(** [_smooth_switch_exp] (37) of a program. *)
Definition switch_exp_prog (x : expr) : expr :=
  Un Exp (Const smooth_switch_slope *! (Const 1 /! x -! Const 1 /! (Const 1 -! x))).

(** [smooth_switch] (92-105) at the rescaled argument X. *)
Definition switch_primal_prog (eps : R) : expr :=
  let small := Less X (Const eps) in
  let large := Less (Const (1 - eps)) X in
  let safe_x := Where (Or small large) (Const 0.5) X in
  Where small (Const 0) (Where large (Const 1) (Const 1 /! (Const 1 +! switch_exp_prog safe_x))).

(** The factor of [x_dot] in [_smooth_switch_jvp_impl] (125-150).  [primal_out2 == 0] and
    [exp == 0] are [<= 0], as neither is negative. *)
Definition switch_tangent_prog (eps : R) : expr :=
  let small := Less X (Const eps) in
  let large := Less (Const (1 - eps)) X in
  let safe_x := Where (Or small large) (Const 0.5) X in
  let exp_ := switch_exp_prog safe_x in
  let primal_out := Where small (Const 0) (Where large (Const 1) (Const 1 /! (Const 1 +! exp_))) in
  let primal_out2 := primal_out *! primal_out in
  let raw_tangent :=
    Const (- smooth_switch_slope)
      *! (Const (-1) /! Un (IntegerPow 2) safe_x -! Const 1 /! Un (IntegerPow 2) (Const 1 -! safe_x))
      *! exp_ *! primal_out2 in
  let zero_factors := Or (LessEq primal_out2 (Const 0)) (LessEq exp_ (Const 0)) in
  Where (Or (Or small large) zero_factors) (Const 0) raw_tangent.

(** [smooth_switch] with its derivative rule (40-151).  The rescaling (92-93, 120-122) divides
    both the argument and its tangent. *)
Definition switch_op (eps : R) : unary :=
  Custom (fun u => value (switch_primal_prog eps) (fun _ => u))
         (fun u => value (switch_tangent_prog eps) (fun _ => u)).
Definition smooth_switch_prog (eps x0 x1 : R) (a : expr) : expr :=
  Un (switch_op eps)
    (if negb (Reqb x0 0) || negb (Reqb x1 1) then (a -! Const x0) /! Const (x1 - x0) else a).

(** ** window.py: window [k] *)

(** [rectangular_window] (75-80). *)
Definition rectangular_window_prog (num : nat) (limit : R) (k : nat) (a : expr) : expr :=
  Where (Less a (Const (linspace0 limit num k))) (Const 0)
    (Where (Less (Const (linspace0 limit num (k + 1))) a) (Const 0) (Const 1)).

(** [triangular_window] (123-131). *)
Definition triangular_window_prog (num : nat) (limit : R) (k : nat) (a : expr) : expr :=
  let width := limit / INR num in
  let lower := linspace0 limit num k - width in
  let upper := linspace0 limit num k + width in
  Bin Max (Bin Min ((a -! Const lower) /! Const width) (Un Neg (a -! Const upper) /! Const width))
    (Const 0).

(** [smooth_window] (176-179). *)
Definition smooth_window_prog (eps : R) (num : nat) (limit : R) (k : nat) (a : expr) : expr :=
  let x_1 := Const (INR num / limit) *! (a -! Const (linspace0 limit num k)) in
  smooth_switch_prog eps 0 1 (x_1 +! Const 1) -! smooth_switch_prog eps 0 1 x_1.

(** ** Basis functions: function [k] of [num] *)

(** [_bernstein] (bernstein.py:44-65) at X, for [num = n + 1]; [binomln] is a constant. *)
Definition bernstein_primal_prog (eps : R) (n v : nat) : expr :=
  if (n =? 0)%nat then Const 1
  else
    let mask0 := Less X (Const eps) in
    let mask1 := Less (Const (1 - eps)) X in
    let mask := Or mask0 mask1 in
    let safe_x := Where mask (Const 0.5) X in
    let y := Where mask (Const 0)
               (Un Exp (Const (binomln n v) +! Const (INR v) *! Un Log safe_x
                        +! Const (INR (n - v)) *! Un Log1p (Un Neg safe_x))) in
    let y := if (v =? 0)%nat then Where mask0 (Const 1) y else y in
    if (v =? n)%nat then Where mask1 (Const 1) y else y.

(** The factor of [x_dot] in [_bernstein_jvp_impl] (68-85). *)
Definition bernstein_tangent_prog (eps : R) (n v : nat) : expr :=
  if (n =? 0)%nat then Const 0
  else
    let lower := if (v <? n)%nat then bernstein_primal_prog eps (n - 1) v else Const 0 in
    let shift := if (v =? 0)%nat then Const 0 else bernstein_primal_prog eps (n - 1) (v - 1) in
    Const (INR n) *! (shift -! lower).

Definition bernstein_prog (eps : R) (n v : nat) (a : expr) : expr :=
  Un (Custom (fun u => value (bernstein_primal_prog eps n v) (fun _ => u))
             (fun u => value (bernstein_tangent_prog eps n v) (fun _ => u))) a.

(** [_chebyshev] (chebyshev.py:42-64) for [num] functions. *)
Definition chebyshev_prog (eps : R) (num n : nat) (x : expr) : expr :=
  if (num =? 1)%nat then Const 1
  else
    let n2 := INR n * INR n in
    let one_minus_eps := 1 - eps in
    let small := Less x (Const (- one_minus_eps)) in
    let large := Less (Const one_minus_eps) x in
    let safe_x := Where (Or small large) (Const 0) x in
    let xm1 := x -! Const 1 in
    let xp1 := x +! Const 1 in
    let limit_small := Const ((-1) ^ n) *!
      (Const 1 -! Const n2 *! xp1 +! Const (1 / 6 * n2 * (n2 - 1)) *! xp1 *! xp1) in
    let limit_large :=
      Const 1 +! Const n2 *! xm1 +! Const (1 / 6 * n2 * (n2 - 1)) *! xm1 *! xm1 in
    Where small limit_small
      (Where large limit_large (Un Cos (Const (INR n) *! Un Arccos safe_x))).

(** [basic_chebyshev] (chebyshev.py:112-123). *)
Definition basic_chebyshev_prog (eps : R) (num : nat) (limit : R) (n : nat) (a : expr) : expr :=
  let x := Const 2 *! a /! Const limit -! Const 1 in
  Where (LessEq (Un Abs x) (Const 1)) (chebyshev_prog eps num n x)
    (Un (IntegerPow n) (Un Sign x)).

(** [_gaussian] (gaussian.py:31-35). *)
Definition gaussian_prog (num k : nat) (x : expr) : expr :=
  let gamma := sqrt (2 * INR num) * (INR num - 1) in
  let mu := if (num =? 1)%nat then 0 else INR k / (INR num - 1) in
  Un Exp (Const (- gamma) *! Un (IntegerPow 2) (x -! Const mu)).

(** [sinc] (trigonometric.py:72-73); function [k] is for [k + 1]. *)
Definition sinc_prog (limit : R) (k : nat) (a : expr) : expr :=
  let x := a /! Const limit in
  Where (LessEq x (Const 1)) (Un Sinc (Const (INR (k + 1)) *! x)) (Const 0).

(** [_fourier] (trigonometric.py:93-95). *)
Definition fourier_prog (k : nat) (x : expr) : expr := Un Cos (Const (PI * INR k) *! x).

(** Weighting by the value of the mapping (for example gaussian.py:210-211). *)
Definition weighted_prog (use_weighting : bool) (mapping basis : expr) : expr :=
  if use_weighting then basis *! mapping else basis.

(** The families of basis functions, [basic] excepted: [inner] is applied to a mapping
    (bernstein.py:265-269, 376-380; chebyshev.py:244-248, 355-359; gaussian.py:208-212, 320-324;
    trigonometric.py:261-265, 372-376).  Bernstein, Gaussian and Fourier functions are evaluated
    at [1 - mapping], Chebyshev polynomials at [2 * mapping - 1]. *)
Definition family := string.
Definition inner_prog (eps : R) (f : family) (num k : nat) (mapping : expr) : result expr :=
  if String.eqb f "bernstein" then Ok (bernstein_prog eps (num - 1) k (Const 1 -! mapping))
  else if String.eqb f "chebyshev" then
    Ok (chebyshev_prog eps num k (Const 2 *! mapping -! Const 1))
  else if String.eqb f "gaussian" then Ok (gaussian_prog num k (Const 1 -! mapping))
  else if String.eqb f "fourier" then Ok (fourier_prog k (Const 1 -! mapping))
  else Err ValueError.

Definition basic_prog (eps : R) (f : family) (num k : nat) (limit : R) (a : expr) : result expr :=
  if String.eqb f "bernstein" then Ok (bernstein_prog eps (num - 1) k (a /! Const limit))
  else if String.eqb f "chebyshev" then Ok (basic_chebyshev_prog eps num limit k a)
  else if String.eqb f "gaussian" then Ok (gaussian_prog num k (a /! Const limit))
  else if String.eqb f "fourier" then Ok (fourier_prog k (a /! Const limit))
  else Err ValueError.
Definition reciprocal_prog (eps : R) (f : family) (num k : nat) (kind : string) (weighting : bool)
    (a : expr) : result expr :=
  bind (reciprocal_mapping_prog eps kind a) (fun mapping =>
    rmap (weighted_prog weighting mapping) (inner_prog eps f num k mapping)).
Definition exponential_prog (eps : R) (f : family) (num k : nat) (gamma : R)
    (cuspless weighting : bool) (a : expr) : result expr :=
  let mapping := exponential_mapping_prog gamma cuspless a in
  rmap (weighted_prog weighting mapping) (inner_prog eps f num k mapping).
