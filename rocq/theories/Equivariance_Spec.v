(** Vocabulary for C67 and C68: layers that use the coefficients of [clebsch_gordan], and features
    that are rotated with the matrices of [wigner_d]. *)
Require Import List Reals ZArith Bool.
Require Import Verif.Base Verif.Features_Model Verif.LUT_Model Verif.Symbolic_Model Verif.Rotations_Model Verif.Rotations_Spec Verif.Irreps_Model Verif.Irreps_Spec
  Verif.Clebsch_Model Verif.Wrappers_Model Verif.Wrappers_Spec.
Import ListNotations.
Open Scope R_scope.

(** [cgf] gives, as functions of three indices, the results of calls of [clebsch_gordan] (in any order of
    the calls, each in some state of the table cache), including the errors. *)
Definition uses_package (cartesian : bool) (cgf : Z -> Z -> Z -> result (nat -> nat -> nat -> R)) : Prop :=
  forall L1 L2 L3, exists empty w s o, cg_ready R 0 rzero real_clebsch_gordan w /\ call_ok s o /\
    cgf L1 L2 L3 = rmap (at3 0) (snd (clebsch_gordan R 0 rzero real_clebsch_gordan empty w s o L1 L2 L3 cartesian)).

(** [D] is the matrix that [wigner_d] returns for [m], for every maximum degree. *)
Definition wigner_matrix (cartesian : bool) (m : mat) (D : nat -> nat -> R) : Prop :=
  forall L, (0 <= L)%Z -> exists ms a ds, nth_error ms a = Some m /\ wigner_returns ms L cartesian ds /\
    forall i j, (i < degrees L * degrees L)%nat -> (j < degrees L * degrees L)%nat -> D i j = at3 0 ds a i j.

(** A proper rotation for every batch index, with its Wigner-D matrices. *)
Definition rotations (cartesian : bool) (m : list nat -> mat) (D : list nat -> nat -> nat -> R) : Prop :=
  forall b, proper_rotation (m b) /\ wigner_matrix cartesian (m b) (D b).

(** The values of [basis] for the n displacement vectors of a sparse list of edges, as features of the
    edges. *)
Definition edge_features (dtype n : nat) (L num : Z) (y : basis_output) : feat :=
  mkFeat [n] 1 (degrees L * degrees L) (Z.to_nat num) dtype
    (fun i _ d f => match i with [e] => if ((e <? n) && (f <? Z.to_nat num))%nat then entry_of y e d f else 0 | _ => 0 end).
