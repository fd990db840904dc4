(** Model of [indexed_sum] and [indexed_softmax] (e3x/ops/indexed.py) in floating point arithmetic, for one
    batch element; see Float_Model.  [t s] is the order in which the entries of segment [s] are added
    (scatter-add on accelerators: any order). *)
Require Import List Reals ZArith.
Require Import Verif.Base Verif.Indexed_Model Verif.Float_Model.
Import ListNotations.
Open Scope R_scope.

Section Arithmetic.
Variables (rnd : R -> R) (huge : R).
(** [jnp.exp] returns [fexp x]. *)
Variable fexp : R -> R.

(** [indexed_sum] with sparse indices (indexed.py:547-552, 580-585). *)
Definition float_segment_sums (t : nat -> order) (num_segments : nat) (vals : list (option R)) : list (option R) :=
  map (fun s => reduce rnd huge (fun i => nth i vals None) (t s)) (seq 0 num_segments).
Definition float_indexed_sum (t : nat -> order) (num_segments : nat) (vals : list R) : list (option R) :=
  float_segment_sums t num_segments (map Some vals).

(** [indexed_softmax] with sparse indices (794-815).  The maximum is exact ([-huge] is a bound below all
    numbers); [dst] is in range. *)
Definition float_numerators (num_segments : nat) (dst : list Z) (vals : list R) (mult : option (list R)) : list (option R) :=
  let maximum := gather_sparse 0 (reduce_sparse (- huge) huge RMax num_segments dst vals) dst in
  let numerator := map (fun p => fbind (fl rnd huge (fst p - snd p)) (fun d => Some (fexp d))) (combine vals maximum) in
  match mult with
  | None => numerator
  | Some mk => map (fun p => fbind (fst p) (fun e => fmul rnd huge e (snd p))) (combine numerator mk)
  end.
Definition float_softmax (t : nat -> order) (num_segments : nat) (dst : list Z) (vals : list R) (mult : option (list R)) : list (option R) :=
  let numerator := float_numerators num_segments dst vals mult in
  let denominator := gather_sparse None (float_segment_sums t num_segments numerator) dst in
  map (fun p => fbind (fst p) (fun a => fbind (snd p) (fun b => fdiv rnd huge a b))) (combine numerator denominator).
End Arithmetic.
