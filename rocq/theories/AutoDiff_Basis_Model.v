(** Model of how jax.grad differentiates [basis] (nn/wrappers.py:46-224) with respect to the
    displacement vector; see AutoDiff_Model. *)
Require Import List Reals ZArith Bool.
Require Import Verif.Base Verif.AutoDiff_Model.
Import ListNotations.
Open Scope R_scope.

(** A call of a function of one argument (the [radial_fn], [cutoff_fn] and [damping_fn] that are
    given to [basis]).  Reverse-mode differentiation passes the cotangent through the function;
    since this is linear it is multiplied by the gradient of the function. *)
Definition call (f a : expr) : expr :=
  Un (Custom (fun u => value f (fun _ => u)) (fun u => gradient f (fun _ => u) 0)) a.

(** [_integer_powers] (so3/_common.py:154-164): a cumulative product of one and copies of [a]. *)
Fixpoint power_prog (a : expr) (n : nat) : expr :=
  match n with O => Const 1 | S n => power_prog a n *! a end.

(** [monomials] (so3/irreps.py:162-167) for the exponents [p]. *)
Definition monomial_prog (x y z : expr) (p : list nat) : expr :=
  power_prog x (nth 0 p 0%nat) *! power_prog y (nth 1 p 0%nat) *! power_prog z (nth 2 p 0%nat).

(** One column of [jnp.matmul(monomials, cm)] (irreps.py:170): [n] monomials with exponents
    [ls i] and coefficients [column i]. *)
Fixpoint sum_prog (n : nat) (f : nat -> expr) : expr :=
  match n with O => Const 0 | S n => sum_prog n f +! f n end.
Definition angular_prog (n : nat) (ls : nat -> list nat) (column : nat -> R) (x y z : expr) : expr :=
  sum_prog n (fun i => monomial_prog x y z (ls i) *! Const (column i)).

(** The length of the displacement and the normalized displacement (wrappers.py:181-182). *)
Definition length_prog : expr := Norm (Var 0) (Var 1) (Var 2).
Definition direction_prog (k : nat) : expr :=
  Var k /! Where (Less (Const 0) length_prog) length_prog (Const 1).

(** Entry [c] of the angular axis and one radial function (186-211).  [column] are the coefficients
    of spherical harmonic [c]. *)
Definition basis_prog (n : nat) (ls : nat -> list nat) (column : nat -> R) (c : nat)
    (radial : expr) (cutoff damping : option expr) : expr :=
  let norm := length_prog in
  let rbf := call radial norm in
  let rbf := match cutoff with Some f => rbf *! call f norm | None => rbf end in
  let ylm := angular_prog n ls column (direction_prog 0) (direction_prog 1) (direction_prog 2) in
  let out := ylm *! rbf in
  match damping with
  | Some f => if (c =? 0)%nat then out else out *! call f norm
  | None => out
  end.

(** [normalize] (ops/safe.py:88-139) of a vector with three components.  Its threshold differs from
    the one in [basis]: the square of the length is compared with [tiny]. *)
Definition normalize_prog (tiny : R) (k : nat) : expr :=
  Var k /! Where (Less (Const tiny) (length_prog *! length_prog)) length_prog (Const 1).
