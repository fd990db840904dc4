(** Vocabulary for the statements about [basis]. *)
Require Import List Reals ZArith.
Require Import Verif.Base Verif.LUT_Model Verif.LUT_Spec Verif.Rotations_Model Verif.Rotations_Spec Verif.Irreps_Model Verif.Irreps_Spec Verif.Wrappers_Model.
Import ListNotations.
Open Scope R_scope.

(** The unit vector in the direction of [v]; the zero vector has no direction and is kept. *)
Definition heading (v : vec) : vec := if Req_EM_T (size v) 0 then v else unit_of v.

(** [g] are the [num] radial functions at the lengths of the vectors. *)
Definition radial_values (radial_fn : list R -> Z -> result (list (list R))) (num : Z) (rs : list vec) (g : list (list R)) : Prop :=
  radial_fn (map size rs) num = Ok g /\ length g = length rs /\ Forall (fun row => length row = Z.to_nat num) g.
(** [c] are the values of a cutoff or damping function at the lengths, or ones without such a function. *)
Definition factor_values (f : option (list R -> result (list R))) (rs : list vec) (c : list R) : Prop :=
  match f with Some f => f (map size rs) = Ok c /\ length c = length rs | None => c = map (fun _ => 1) rs end.

(** [y] is what some call of [basis] with the default angular function returns. *)
Definition basis_returns (tiny : R) (rs : list vec) (L num : Z) radial_fn cutoff_fn return_cutoff return_norm damping_fn cartesian (y : basis_output) : Prop :=
  exists empty w s o, sh_ready w /\ call_ok s o /\
    snd (basis _ tiny w 3 (map vlist rs) L num radial_fn (default_angular_fn empty tiny s o) cutoff_fn return_cutoff return_norm damping_fn cartesian) = Ok y.

(** Entry of the values for vector b, parity axis 0, angular index i and radial function f. *)
Definition entry_of (y : basis_output) (b i f : nat) : R := nth f (nth i (nth 0 (nth b (values y) []) []) []) 0.

(** Elementwise application of a function that may raise. *)
Definition elementwise (f : R -> result R) (x : list R) : result (list R) := rmapM f x.
