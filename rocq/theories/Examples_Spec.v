(** Vocabulary for C98: matrices in rotated coordinates, and points and shapes that are moved. *)
Require Import List Reals.
Require Import Verif.RSum Verif.Rotations_Model Verif.Rotations_Spec Verif.Structure_Props.
Import ListNotations.
Open Scope R_scope.

(** [transpose(m) @ T @ m], the matrix T in the coordinates of points [p @ m]. *)
Definition turned_matrix (m : mat) (T : nat -> nat -> R) (i j : nat) : R :=
  rsum 3 (fun a => rsum 3 (fun b => entry m a i * T a b * entry m b j)).

(** Masses stay, positions are multiplied with the matrix and, for s = -1, inverted. *)
Definition turned_points (s : R) (m : mat) (points : list (R * vec)) : list (R * vec) :=
  map (fun q => (fst q, turned_by s m (snd q))) points.
(** Shapes are turned (and inverted) and then shifted. *)
Definition moved_shape (s : R) (m : mat) (t : vec) (ps : list vec) : list vec := map (fun p => plus (turned_by s m p) t) ps.
