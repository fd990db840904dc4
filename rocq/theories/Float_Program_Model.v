(** Model of the elementwise functions of e3x (activations, cutoffs, damping, mappings, switches, windows and radial basis
    functions) in floating point arithmetic: the programs of AutoDiff_Model are run on a machine.  See Float_Model for the
    arithmetic.

    Simplifications: additions, subtractions, multiplications, divisions and square roots are rounded; exp, log, cos, erf and
    so on are functions of the machine, as are integer powers, [jnp.logaddexp], [jnp.sinc] and [e3x.ops.norm] (see C83 for its
    accuracy).  Constants are stored with rounding.  [None] is a result that is not finite. *)
Require Import List Reals ZArith Bool.
Require Import Verif.Base Verif.Radial_Model Verif.AutoDiff_Model Verif.Float_Model.
Import ListNotations.
Open Scope R_scope.

Definition program : Type := AutoDiff_Model.expr.
Definition condition : Type := AutoDiff_Model.cond.

(** Rounding, the numbers that overflow, and the functions of the mathematical library. *)
Record machine : Type := mkMachine {
  m_round : R -> R;
  m_huge : R;
  m_unary : unary -> R -> option R;
  m_logaddexp : R -> R -> option R;
  m_norm : R -> R -> R -> option R }.

Section Machine.
Variable m : machine.
Let rnd := m_round m.
Let huge := m_huge m.

(** Signs and absolute values are exact. *)
Definition float_unary (op : unary) (x : R) : option R :=
  match op with
  | Neg | Abs | Sign => unary_value op x
  | Sqrt => fsqrt rnd huge x
  | _ => m_unary m op x
  end.

(** So are maxima and minima. *)
Definition float_binary (op : binary) (x y : R) : option R :=
  match op with
  | Add => fadd rnd huge x y
  | Sub => fl rnd huge (x - y)
  | Mul => fmul rnd huge x y
  | Div => fdiv rnd huge x y
  | Max | Min => binary_value op x y
  | LogAddExp => m_logaddexp m x y
  end.

(** Running a program on inputs [r] that are numbers of the machine; comparisons are exact. *)
Fixpoint float_value (e : program) (r : nat -> option R) : option R :=
  match e with
  | Var k => r k
  | Const c => fl rnd huge c
  | Un op a => obind (float_value a r) (float_unary op)
  | Bin op a b => obind (float_value a r) (fun x => obind (float_value b r) (float_binary op x))
  | Norm a b c => obind (float_value a r) (fun x => obind (float_value b r) (fun y => obind (float_value c r) (fun z => m_norm m x y z)))
  | Where c a b => obind (float_holds c r) (fun t => if t then float_value a r else float_value b r)
  end
with float_holds (c : condition) (r : nat -> option R) : option bool :=
  match c with
  | Less a b => obind (float_value a r) (fun x => obind (float_value b r) (fun y => Some (Rltb x y)))
  | LessEq a b => obind (float_value a r) (fun x => obind (float_value b r) (fun y => Some (Rleb x y)))
  | Or c d => obind (float_holds c r) (fun s => obind (float_holds d r) (fun t => Some (s || t)%bool))
  end.
End Machine.

(** [smooth_switch] (switch.py:85-105) and [_bernstein] (bernstein.py:44-65) have derivative rules of their own; their values
    are those of programs. *)
Definition float_smooth_switch (eps x0 x1 : R) (m : machine) (a : option R) : option R :=
  float_value m (switch_primal_prog eps) (fun _ =>
    float_value m (if negb (Reqb x0 0) || negb (Reqb x1 1) then Bin Div (Bin Sub (Var 0) (Const x0)) (Const (x1 - x0)) else Var 0) (fun _ => a)).
Definition float_bernstein_function (eps : R) (n v : nat) (m : machine) (a : option R) : option R :=
  float_value m (bernstein_primal_prog eps n v) (fun _ => a).
