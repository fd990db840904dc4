(** Vocabulary for C90: which evaluations of a sum of products are allowed, and how large their errors are. *)
Require Import List Reals Permutation.
Require Import Verif.Float_Einsum_Model.
Import ListNotations.
Open Scope R_scope.

(** The sum of products that an expression expands to. *)
Fixpoint expansion {V : Type} (e : expr V) : list (list V) :=
  match e with
  | Nothing => []
  | Operand v => [[v]]
  | Sum a b => expansion a ++ expansion b
  | Product a b => flat_map (fun s => map (fun t => s ++ t) (expansion b)) (expansion a)
  end.

(** [e] evaluates the sum of the products [ts], in some order of the terms and of the factors. *)
Definition evaluates {V : Type} (e : expr V) (ts : list (list V)) : Prop :=
  exists l, Permutation (expansion e) l /\ Forall2 (@Permutation V) l ts.

(** The products of an einsum: of Dense, of Tensor, and of Tensor for one combination of parities. *)
Definition dense_terms (F : nat) : list (list dense_operand) := map (fun a => [Input a; Weight a]) (seq 0 F).
Definition coupling_terms (D1 D2 p q : nat) : list (list tensor_operand) :=
  flat_map (fun l => map (fun m => [First p l; Second q m; Kernel p l q m; Coefficient l m]) (seq 0 D2)) (seq 0 D1).
Definition tensor_terms (S1 D1 S2 D2 : nat) : list (list tensor_operand) :=
  flat_map (fun p => flat_map (fun l => flat_map (fun q => map (fun m => [First p l; Second q m; Kernel p l q m; Coefficient l m]) (seq 0 D2)) (seq 0 S2)) (seq 0 D1)) (seq 0 S1).

(** The first and the second einsum for an entry with parity [r] of the product of two inputs with both parities, and the
    einsum for all other inputs. *)
Definition first_terms (mixed : bool) (S1 D1 S2 D2 r : nat) : list (list tensor_operand) :=
  if mixed then tensor_terms S1 D1 S2 D2 else if (r =? 0)%nat then coupling_terms D1 D2 0 0 else coupling_terms D1 D2 0 1.
Definition second_terms (D1 D2 r : nat) : list (list tensor_operand) := if (r =? 0)%nat then coupling_terms D1 D2 1 1 else coupling_terms D1 D2 1 0.

(** The largest number of roundings that a term goes through. *)
Fixpoint roundings {V : Type} (e : expr V) : nat :=
  match e with
  | Nothing => 0
  | Operand _ => 1
  | Sum a b => S (Nat.max (roundings a) (roundings b))
  | Product a b => S (roundings a + roundings b)
  end.

(** Size of the terms: absolute values, and [tiny] more for every operation, which may underflow. *)
Fixpoint magnitude {V : Type} (tiny : R) (env : V -> R) (e : expr V) : R :=
  match e with
  | Nothing => 0
  | Operand v => Rabs (env v) + tiny
  | Sum a b => magnitude tiny env a + magnitude tiny env b + tiny
  | Product a b => magnitude tiny env a * magnitude tiny env b + tiny
  end.
(** The largest intermediate result. *)
Fixpoint peak {V : Type} (tiny : R) (env : V -> R) (e : expr V) : R :=
  match e with
  | Nothing | Operand _ => magnitude tiny env e
  | Sum a b | Product a b => Rmax (magnitude tiny env e) (Rmax (peak tiny env a) (peak tiny env b))
  end.

(** The result of the evaluation [e] is finite and has an error of [2 k u] relative to the sum of the magnitudes of the terms
    for [k] roundings, and the effect of underflow. *)
Definition evaluation_error {V : Type} (u tiny : R) (env : V -> R) (e : expr V) : R :=
  2 * (INR (roundings e) * u) * magnitude 0 env e + 2 * (magnitude tiny env e - magnitude 0 env e).

(** No overflow, and not too many roundings. *)
Definition in_range {V : Type} (u tiny huge : R) (env : V -> R) (e : expr V) : Prop :=
  INR (roundings e) * u <= 1 / 64 /\ 2 * peak tiny env e < huge.

(** Sum of products of numbers. *)
Definition sum_of_products {V : Type} (env : V -> R) (ts : list (list V)) : R :=
  fold_right Rplus 0 (map (fun t => fold_right Rmult 1 (map env t)) ts).
