(** Vocabulary for C94: what precise machines are, what it means that a result approaches a number when the precision grows,
    and at which inputs a program does not change its formula. *)
Require Import Reals.
Require Import Verif.AutoDiff_Model Verif.Float_Program_Model.
Local Open Scope R_scope.

(** Functions that the library of the machine computes. *)
Definition elementary (op : unary) : Prop := match op with Neg | Abs | Sign | Sqrt => False | _ => True end.

(** Rounding and all library functions have an error of at most [delta], relative to results above 1 and absolute to results
    below, and numbers below [bound] do not overflow. *)
Definition within (delta v : R) (y : R) : Prop := Rabs (y - v) <= delta * (Rabs v + 1).
Definition precise (delta bound : R) (m : machine) : Prop :=
  bound <= m_huge m /\ (forall x, within delta x (m_round m x)) /\
  (forall op x v, elementary op -> unary_value op x = Some v -> Rabs v <= bound -> exists y, m_unary m op x = Some y /\ within delta v y) /\
  (forall a b v, binary_value LogAddExp a b = Some v -> Rabs v <= bound -> exists y, m_logaddexp m a b = Some y /\ within delta v y) /\
  (forall a b c, norm3 a b c <= bound -> exists y, m_norm m a b c = Some y /\ within delta (norm3 a b c) y).

(** For all machines that are precise enough. *)
Definition eventually (P : machine -> Prop) : Prop := exists delta bound, 0 < delta /\ forall m, precise delta bound m -> P m.

(** The result [x m] of machine [m] is finite and as close to [v] as desired if the machine is precise enough. *)
Definition approaches (x : machine -> option R) (v : R) : Prop :=
  forall eps, 0 < eps -> eventually (fun m => exists y, x m = Some y /\ Rabs (y - v) < eps).

(** [F] is finite and continuous at [u]. *)
Definition continuous_at (F : R -> option R) (u : R) : Prop :=
  exists v, F u = Some v /\ forall eps, 0 < eps -> exists d, 0 < d /\ forall t, Rabs (t - u) < d -> exists y, F t = Some y /\ Rabs (y - v) < eps.

(** The numbers that are compared are different. *)
Fixpoint decided (c : condition) (r : nat -> R) : Prop :=
  match c with
  | Less a b | LessEq a b => value a r <> value b r
  | Or c d => decided c r /\ decided d r
  end.

(** Where rounding errors of intermediate results have small effects: signs are not taken of zero, divisors are not zero, logarithms
    and so on are not taken at the end of their domain, and either comparisons are decided or both branches have the same value. *)
Fixpoint stable (e : program) (r : nat -> R) : Prop :=
  match e with
  | Var _ | Const _ => True
  | Un op a => stable a r /\ exists u, value a r = Some u /\
      match op with
      | Sign => u <> 0
      | Log | Sqrt => 0 < u
      | Log1p => -1 < u
      | Arccos => -1 < u < 1
      | Custom f _ => continuous_at f u
      | _ => True
      end
  | Bin op a b => stable a r /\ stable b r /\ match op with Div => value b r <> Some 0 | _ => True end
  | Norm a b c => stable a r /\ stable b r /\ stable c r
  | Where c a b => stable_condition c r /\
      ((decided c r /\ (holds c r = Some true -> stable a r) /\ (holds c r = Some false -> stable b r)) \/
       (stable a r /\ stable b r /\ value a r = value b r))
  end
with stable_condition (c : condition) (r : nat -> R) : Prop :=
  match c with
  | Less a b | LessEq a b => stable a r /\ stable b r
  | Or c d => stable_condition c r /\ stable_condition d r
  end.
