(** Vocabulary for C69: networks, i.e. programs that apply the layers of the library one after the
    other to features of the nodes of a graph. *)
Require Import List Reals ZArith Bool.
Require Import Verif.Base Verif.Features_Model Verif.Features_Spec Verif.Activations_Model Verif.Activations_Props Verif.Modules_Model Verif.Rotations_Model Verif.Rotations_Spec Verif.Wrappers_Model.
Import ListNotations.
Open Scope R_scope.

(** One call.  The numbers select the inputs among all arrays that exist so far. *)
Inductive call : Type :=
| UseDense (i features : nat) (use_bias : bool) (P : dense_params)
| UseTensor (i j : nat) (max_degree : option Z) (include : bool) (P : tensor_params)
| UseTensorDense (i : nat) (features : option nat) (max_degree : option Z) (include use_bias : bool) (Pd : dense_params) (Pt : tensor_params)
| UseMessagePass (i : nat) (max_degree : option Z) (include use_basis_bias : bool) (P : conv_params)
| UseAttention (i j : nat) (o : attention_options) (P : attention_params)
| UseActivation (i : nat) (act : feat -> result feat)
| UseChange (i : nat) (max_degree : option Z) (include : option bool)
| UseAdd (is : list nat).

(** Maximum degrees are not negative, activations are those of the library. *)
Definition degree_ok (max_degree : option Z) : Prop := forall d, max_degree = Some d -> (0 <= d)%Z.
Definition proper_call (c : call) : Prop :=
  match c with
  | UseDense _ _ _ _ | UseAdd _ => True
  | UseTensor _ _ d _ _ | UseTensorDense _ _ d _ _ _ _ | UseMessagePass _ d _ _ _ | UseChange _ d _ => degree_ok d
  | UseAttention _ _ o _ => degree_ok (o_max_degree o)
  | UseActivation _ act => exists erf eps alpha, In act (activations erf eps alpha)
  end.

Definition select (xs : list feat) (i : nat) : result feat :=
  match nth_error xs i with Some x => Ok x | None => Err IndexError end.
Fixpoint select_all (xs : list feat) (is : list nat) : result (list feat) :=
  match is with [] => Ok [] | i :: is => bind (select xs i) (fun x => rmap (cons x) (select_all xs is)) end.

Section Run.
(** Coefficients, the number range of the softmax, basis functions and cutoffs of the edges, and the graph. *)
Variables (cgf : Z -> Z -> Z -> result (nat -> nat -> nat -> R)) (lo hi : R) (basis : option feat) (cutoff : option (list nat -> R)) (g : graph).

Definition perform (xs : list feat) (c : call) : result feat :=
  match c with
  | UseDense i features use_bias P => bind (select xs i) (dense features use_bias P)
  | UseTensor i j d include P => bind (select xs i) (fun x => bind (select xs j) (any_tensor cgf d include P x))
  | UseTensorDense i features d include use_bias Pd Pt => bind (select xs i) (tensor_dense cgf features d include use_bias Pd Pt)
  | UseMessagePass i d include use_bias P => bind (select xs i) (fun x => message_pass cgf d include use_bias P x basis None g)
  | UseAttention i j o P => bind (select xs i) (fun x => bind (select xs j) (fun y => multi_head_attention cgf lo hi o P x y basis cutoff g))
  | UseActivation i act => bind (select xs i) act
  | UseChange i d include => bind (select xs i) (fun x => change_max_degree_or_type x d include)
  | UseAdd is => bind (select_all xs is) add
  end.

(** All arrays after the calls [cs]: every result is put at the end of the list. *)
Fixpoint run (xs : list feat) (cs : list call) : result (list feat) :=
  match cs with
  | [] => Ok xs
  | c :: cs => bind (perform xs c) (fun y => run (xs ++ [y]) cs)
  end.
End Run.

(** A feature array with at least the scalars. *)
Definition has_scalars (x : feat) : Prop := exists n, valid (S n) x.

(** The three components of degree 1 and parity p in Cartesian order. *)
Definition vector_at (x : feat) (i : list nat) (p f : nat) : vec := (comp x i p 1 0 f, comp x i p 1 1 f, comp x i p 1 2 f).

(** Displacement vectors from the first to the second atom of each pair. *)
Definition displacements (positions : nat -> vec) (pairs : list (nat * nat)) : list vec :=
  map (fun e => plus (positions (snd e)) (times (-1) (positions (fst e)))) pairs.

(** The cutoffs that [basis] returns for a sparse list of edges. *)
Definition edge_cutoffs (y : basis_output) : option (list nat -> R) :=
  match cutoffs y with Some c => Some (fun i => match i with [e] => nth e c 0 | _ => 0 end) | None => None end.

(** Features of the nodes that are only scalars, like embeddings of atomic numbers. *)
Definition only_scalars (x : feat) : Prop := fS x = 1%nat /\ fD x = 1%nat.
