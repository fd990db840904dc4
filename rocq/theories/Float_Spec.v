(** Vocabulary for C83 and C84: floating point numbers. *)
Require Import List Reals Permutation.
Require Import Verif.Float_Model.
Import ListNotations.
Open Scope R_scope.

(** What is assumed about rounding: numbers of magnitude [tiny] or more have the relative error [u] at
    most; smaller numbers may lose all their digits (they may be flushed to zero). *)
Record rounding (u tiny : R) (rnd : R -> R) : Prop := {
  unit_bounds : 0 < u <= 1 / 64;
  tiny_bounds : 0 < tiny /\ 16 * tiny <= u;
  rnd_opp : forall x, rnd (- x) = - rnd x;
  rnd_one : rnd 1 = 1;
  rnd_tiny : rnd tiny = tiny;
  rnd_mono : forall x y, x <= y -> rnd x <= rnd y;
  rnd_error : forall x, tiny <= Rabs x -> Rabs (rnd x - x) <= u * Rabs x;
  rnd_small : forall x, Rabs x < tiny -> Rabs (rnd x - x) <= tiny }.

(** The entries that are added in the order [t], and the number of summands, zeros included. *)
Fixpoint entries (t : order) : list nat :=
  match t with Zero => [] | Entry i => [i] | Plus l r => entries l ++ entries r end.
Fixpoint summands (t : order) : nat :=
  match t with Zero | Entry _ => 1 | Plus l r => summands l + summands r end.
(** Every entry of an array with [n] entries is added once. *)
Definition sums_up (n : nat) (t : order) : Prop := Permutation (entries t) (seq 0 n).
