(** Vocabulary for the statements about tensors (C55, C56, C60). *)
Require Import String List Reals ZArith Permutation Sorting.Sorted.
Require Import Verif.Base Verif.RSum Verif.LUT_Model Verif.LUT_Spec Verif.Irreps_Spec Verif.Tensor_Model.
Import ListNotations.
Open Scope R_scope.

(** An index tuple of a tensor of the given rank: every index is 0, 1 or 2. *)
Definition tensor_index (rank : nat) (t : list nat) : Prop := length t = rank /\ Forall (fun i => (i < 3)%nat) t.
(** The index tuples in non-decreasing order. *)
Definition sorted_index (rank : nat) (t : list nat) : Prop := tensor_index rank t /\ StronglySorted le t.
Definition symmetric {V : Type} (rank : nat) (T : list nat -> V) : Prop :=
  forall t t', tensor_index rank t -> Permutation t t' -> T t = T t'.
(** All traces vanish: summing over two equal indices at any two places gives zero. *)
Definition traceless (rank : nat) (T : list nat -> R) : Prop :=
  forall t1 t2 t3, tensor_index rank (t1 ++ [0%nat] ++ t2 ++ [0%nat] ++ t3) ->
    T (t1 ++ [0%nat] ++ t2 ++ [0%nat] ++ t3) + T (t1 ++ [1%nat] ++ t2 ++ [1%nat] ++ t3) + T (t1 ++ [2%nat] ++ t2 ++ [2%nat] ++ t3) = 0.
(** Row-major position of an index tuple in a (3, ..., 3) array. *)
Fixpoint row_major (t : list nat) : nat := match t with [] => 0 | i :: t => i * 3 ^ length t + row_major t end%nat.

(** Arrays with the same shape and the same entries. *)
Definition same_array (x y : array) : Prop :=
  shape x = shape y /\ forall q, Forall2 lt q (shape x) -> get x q = get y q.

(** Dimensions of a tensor of the given degree. *)
Definition tensor_shape (degree : Z) : list nat := if (degree =? 0)%Z then [1%nat] else repeat 3%nat (Z.to_nat degree).

(** What is assumed of sympy: [LUsolve] finds the solution of every system that has exactly one, and
    the inverse of every matrix that has one is found. *)
Definition solves_systems (lu_solve : nat -> nat -> matrix -> (nat -> R) -> result (nat -> R)) : Prop :=
  forall m n a b x, (n <= m)%nat ->
    (forall r, (r < m)%nat -> rsum n (fun j => a r j * x j) = b r) ->
    (forall y, (forall r, (r < m)%nat -> rsum n (fun j => a r j * y j) = 0) -> forall j, (j < n)%nat -> y j = 0) ->
    exists y, lu_solve m n a b = Ok y /\ forall j, (j < n)%nat -> y j = x j.
Definition inverts_matrices (inverse : nat -> matrix -> result matrix) : Prop :=
  forall n a b,
    (forall i j, (i < n)%nat -> (j < n)%nat -> rsum n (fun k => a i k * b k j) = if (i =? j)%nat then 1 else 0) ->
    (forall i j, (i < n)%nat -> (j < n)%nat -> rsum n (fun k => b i k * a k j) = if (i =? j)%nat then 1 else 0) ->
    exists c, inverse n a = Ok c /\ forall i j, (i < n)%nat -> (j < n)%nat -> c i j = b i j.

(** A reachable state of the table cache, as in [Irreps_Spec]. *)
Definition tc_ready lu_solve inverse (w : world (tc_file matrix)) : Prop :=
  exists w0 h, fresh_install (tensor_conversion_table lu_solve inverse) (tc_unpack matrix) w0 /\
    Forall uninterrupted h /\ w = fst (tc_run matrix (conversion lu_solve inverse) w0 h).

(** [y] is what some call of [irreps_to_tensor] or [tensor_to_irreps] returns. *)
Definition tensor_returns lu_solve inverse (x : array) (degree : Z) (cartesian : bool) (norm : string) (y : array) : Prop :=
  exists empty empty_indices w s o, tc_ready lu_solve inverse w /\ call_ok s o /\
    snd (irreps_to_tensor lu_solve inverse empty empty_indices w s o x degree cartesian norm) = Ok y.
Definition irreps_returns lu_solve inverse (x : array) (degree : Z) (cartesian : bool) (norm : string) (y : array) : Prop :=
  exists empty w s o, tc_ready lu_solve inverse w /\ call_ok s o /\
    snd (tensor_to_irreps lu_solve inverse empty w s o x degree cartesian norm) = Ok y.

(** All index tuples of a rank. *)
Fixpoint index_tuples (rank : nat) : list (list nat) :=
  match rank with O => [[]] | S n => flat_map (fun i => map (cons i) (index_tuples n)) [0; 1; 2]%nat end.
(** The factor of entry t in the product of several vectors or matrices: product of [f i j] over the
    corresponding indices. *)
Fixpoint factors (f : nat -> nat -> R) (t t' : list nat) : R :=
  match t, t' with i :: t, j :: t' => f i j * factors f t t' | _, _ => 1 end.
