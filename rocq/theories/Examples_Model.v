(** Models of two networks in the documentation of e3x: docs/source/examples/moment_of_inertia.ipynb and
    docs/source/examples/tetracubes.ipynb.  Layers, [basis] and [clebsch_gordan] are those of the other model files. *)
Require Import List Reals ZArith Bool.
Require Import Verif.Base Verif.RSum Verif.Features_Model Verif.Rotations_Model Verif.Rotations_Spec Verif.Modules_Model Verif.Wrappers_Model Verif.Wrappers_Spec
  Verif.Equivariance_Spec Verif.Network_Spec Verif.Locality_Spec.
Import ListNotations.
Open Scope R_scope.

(** * moment_of_inertia.ipynb:120-146
    Points are pairs of a mass and a position (in the code two arrays); there is one batch. *)
Definition no_edges : graph := sparse_graph [] [].

(** 127-128: masses as features of degree 0, positions as features of degree 1. *)
Definition point_features (dtype : nat) (points : list (R * vec)) : feat :=
  mkFeat [length points] 1 4 1 dtype (fun i _ d f =>
    match i with
    | [n] => if ((n <? length points) && (f <? 1))%nat
             then match d with O => fst (nth n points (0, (0, 0, 0))) | S k => if (k <? 3)%nat then coord (snd (nth n points (0, (0, 0, 0)))) k else 0 end
             else 0
    | _ => 0
    end).

(** 131-138: array [k] after the calls [cs]. *)
Definition point_array (cgf : Z -> Z -> Z -> result (nat -> nat -> nat -> R)) (dtype : nat) (cs : list call) (k : nat) (points : list (R * vec)) : result feat :=
  bind (run cgf 0 0 None None no_edges [point_features dtype points] cs) (fun ys => select ys k).

(** 141-146: even irreps of feature channel 0, summed over the points, as a matrix.  Other numbers of irreps than 9 are an error in
    einsum (the code would also accept one, which einsum repeats). *)
Definition matrix_of (c : nat -> nat -> nat -> R) (x : nat -> R) (i j : nat) : R := rsum 9 (fun l => x l * c (1 + i)%nat (1 + j)%nat l).
Definition point_sum (points : nat) (z : feat) (l : nat) : R := rsum points (fun n => fv z [n] 0 l 0).
Definition read_matrix (cgf : Z -> Z -> Z -> result (nat -> nat -> nat -> R)) (points : nat) (z : feat) : result (nat -> nat -> R) :=
  if (fF z =? 0)%nat then Err IndexError
  else bind (cgf 1 1 2)%Z (fun c => if (fD z =? 9)%nat then Ok (matrix_of c (point_sum points z)) else Err ValueError).
Definition point_model cgf (dtype : nat) (cs : list call) (k : nat) (points : list (R * vec)) : result (nat -> nat -> R) :=
  bind (point_array cgf dtype cs k points) (read_matrix cgf (length points)).

(** * tetracubes.ipynb:152-184 *)
(** 159 *)
Definition total_vec (ps : list vec) : vec := fold_right plus (0, 0, 0) ps.
Definition centered (ps : list vec) : list vec := map (fun p => plus p (times (-1) (times (/ INR (length ps)) (total_vec ps)))) ps.
(** 168 *)
Definition mean_features (n : nat) (x : feat) : feat :=
  mkFeat [] (fS x) (fD x) (fF x) (fdt x) (fun i p d f => match i with [] => rsum n (fun e => fv x [e] p d f) / INR n | _ => 0 end).
(** 182-183: all features in one row, and an ordinary Dense layer with kernel [W] and bias [b]. *)
Definition flattened (z : feat) (j : nat) : R := fv z [] (j / (fD z * fF z)) ((j / fF z) mod fD z) (j mod fF z).
Definition logit (W : nat -> nat -> R) (b : nat -> R) (z : feat) (k : nat) : R := rsum (fS z * (fD z * fF z)) (fun j => flattened z j * W j k) + b k.

(** Features of a shape after step 3, for array [k] of the network [cs]. *)
Definition shape_features cgf (tiny : R) (dtype : nat) (L num : Z) (radial_fn : list R -> Z -> result (list (list R))) (cs : list call) (k : nat) (ps : list vec) (z : feat) : Prop :=
  exists y ys, basis_returns tiny (centered ps) L num radial_fn None false false None true y
    /\ run cgf 0 0 None None no_edges [mean_features (length ps) (edge_features dtype (length ps) L num y)] cs = Ok ys /\ nth_error ys k = Some z.

(** The networks as the notebooks write them: moment_of_inertia.ipynb:131-136 and tetracubes.ipynb:171-172 (with [include] = false the
    variant of the comment below these lines). *)
Definition inertia_network (P : dense_params) (Pd1 : dense_params) (Pt1 : tensor_params) (Pd2 : dense_params) (Pt2 : tensor_params) : list call :=
  [UseDense 0 8 true P; UseTensorDense 1 None (Some 1%Z) true true Pd1 Pt1; UseTensorDense 2 (Some 1%nat) (Some 2%Z) true true Pd2 Pt2].
Definition shape_network (include : bool) (Pd1 : dense_params) (Pt1 : tensor_params) (Pd2 : dense_params) (Pt2 : tensor_params) : list call :=
  [UseTensorDense 0 None None true true Pd1 Pt1; UseTensorDense 1 None (Some 0%Z) include true Pd2 Pt2].
