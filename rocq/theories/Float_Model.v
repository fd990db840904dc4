(** Model of [norm] and [normalize] (e3x/ops/safe.py) in floating point arithmetic.

    Every operation computes the exact result and rounds it with [rnd]; a number whose magnitude is at
    least [huge] after rounding is not finite ([None], as is everything computed from it).  [tiny] is
    [jnp.finfo(dtype).tiny].  Simplifications: infinities and NaN are not distinguished, and the
    compiler does not change the operations (it may choose the order of summation). *)
Require Import List Reals.
Require Import Verif.Base Verif.Radial_Model Verif.Rotations_Model.
Import ListNotations.
Open Scope R_scope.

Section Arithmetic.
Variables (rnd : R -> R) (tiny huge : R).

Definition fl (x : R) : option R := if Rltb (Rabs (rnd x)) huge then Some (rnd x) else None.
Definition fbind {A : Type} (a : option R) (f : R -> option A) : option A := match a with Some v => f v | None => None end.
Definition fadd (x y : R) : option R := fl (x + y).
Definition fmul (x y : R) : option R := fl (x * y).
Definition fdiv (x y : R) : option R := if Req_EM_T y 0 then None else fl (x / y).
Definition fsqrt (x : R) : option R := if Rle_dec 0 x then fl (sqrt x) else None.

(** [jnp.sum]: XLA does not specify the order in which the entries are added.  An order is a binary
    tree of additions, which may start from zeros. *)
Inductive order : Type := Zero | Entry (i : nat) | Plus (l r : order).
Fixpoint reduce (q : nat -> option R) (t : order) : option R :=
  match t with
  | Zero => Some 0
  | Entry i => q i
  | Plus l r => fbind (reduce q l) (fun x => fbind (reduce q r) (fun y => fadd x y))
  end.

(** The scale (ops/safe.py:60): the maximum over the whole array.  Taking absolute values and maxima is
    exact. *)
Definition scale_of (x : list (list R)) : R := Rmax (max_abs (concat x)) tiny.

(** [norm] of one group of entries (61-62). *)
Definition group_norm (a : R) (t : order) (g : list R) : option R :=
  fbind (reduce (fun i => fbind (fdiv (nth i g 0) a) (fun b => fmul b b)) t) (fun s =>
  fbind (fsqrt s) (fun r => fmul a r)).

(** [norm] (32-62), for the orders [t] in which the groups are summed up. *)
Definition float_norm (t : list R -> order) (x : list (list R)) : list (option R) :=
  map (fun g => group_norm (scale_of x) (t g) g) x.

(** [n * n > tiny] (ops/safe.py:110): an overflow gives infinity, which is greater. *)
Definition above_tiny (n : R) : bool := match fmul n n with Some q => Rltb tiny q | None => true end.

(** [normalize] (88-139) *)
Definition float_normalize (t : list R -> order) (x : list (list R)) : list (list (option R)) :=
  map (fun g => map (fun v => fbind (group_norm (scale_of x) (t g) g) (fun n => fdiv v (if above_tiny n then n else 1))) g) x.

(** For comparison: the textbook formula. *)
Definition plain_norm (t : order) (g : list R) : option R :=
  fbind (reduce (fun i => fmul (nth i g 0) (nth i g 0)) t) fsqrt.
End Arithmetic.
