(** Models of the recipes in docs/source/constructing_cartesian_tensors.rst: Cartesian tensors from irreps.  [c] is the array that
    [clebsch_gordan] returns; irreps are functions of their order. *)
Require Import List Reals Bool.
Require Import Verif.RSum Verif.Irreps_Model.
Import ListNotations.
Open Scope R_scope.

(** 170-192: the three irreps of a tensor of degree 2, [x l] for degree l, and their sum. *)
Definition matrix_part (c : nat -> nat -> nat -> R) (l : nat) (x : nat -> R) (i j : nat) : R :=
  rsum (2 * l + 1) (fun n => x n * c (1 + i)%nat (1 + j)%nat (l * l + n)%nat).
Definition general_matrix (c : nat -> nat -> nat -> R) (x : nat -> nat -> R) (i j : nat) : R :=
  matrix_part c 0 (x 0%nat) i j + matrix_part c 1 (x 1%nat) i j + matrix_part c 2 (x 2%nat) i j.

(** 269-296: the seven irreps of a tensor of degree 3, [x (l1, l2)] for the coupling path (l1, l2), and their sum. *)
Definition coupling_paths : list (nat * nat) := [(1, 0); (0, 1); (1, 1); (2, 1); (1, 2); (2, 2); (2, 3)]%nat.
Definition path_part (c : nat -> nat -> nat -> R) (path : nat * nat) (x : nat -> R) (i j o : nat) : R :=
  let '(l1, l2) := path in
  rsum (2 * l2 + 1) (fun p => rsum (2 * l1 + 1) (fun n => x p * c (1 + i)%nat (1 + j)%nat (l1 * l1 + n)%nat * c (l1 * l1 + n)%nat (1 + o)%nat (l2 * l2 + p)%nat)).
Definition general_tensor (c : nat -> nat -> nat -> R) (x : nat * nat -> nat -> R) (i j o : nat) : R :=
  fold_right (fun path t => path_part c path (x path) i j o + t) 0 coupling_paths.

(** 299: "Tensors with even higher degrees can be constructed analogously."  A path is the list of the intermediate degrees, the last one
    first, from 1 for the first factor; indices of tensors are lists in the same order (so the last index is first). *)
Definition next_degrees (l : nat) : list nat := filter (fun l' => (l <=? 1 + l')%nat && (1 <=? l + l')%nat) (seq 0 (l + 2)).
Fixpoint paths (n : nat) : list (list nat) :=
  match n with
  | O => [[1%nat]]
  | S n => flat_map (fun q => map (fun l => l :: q) (next_degrees (hd 1%nat q))) (paths n)
  end.
Fixpoint contribution (c : nat -> nat -> nat -> R) (path : list nat) (x : nat -> R) (index : list nat) : R :=
  match path with
  | [] => 0
  | l2 :: q =>
      match q with
      | [] => match index with [i] => x i | _ => 0 end
      | l1 :: _ => match index with
                   | [] => 0
                   | o :: index => contribution c q (fun n => rsum (2 * l2 + 1) (fun p => x p * c (l1 * l1 + n)%nat (1 + o)%nat (l2 * l2 + p)%nat)) index
                   end
      end
  end.
(** A tensor with n + 1 indices. *)
Definition tensor_of (c : nat -> nat -> nat -> R) (n : nat) (x : list nat -> nat -> R) (index : list nat) : R :=
  fold_right (fun path t => contribution c path (x path) index + t) 0 (paths n).
