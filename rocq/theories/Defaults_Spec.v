(** What docs/source/changing_defaults.rst says about [Config]: "to change the default normalization of spherical_harmonics from 'racah'
    to 'orthonormal' you could simply call e3x.Config.set_normalization('orthonormal') at the start of your script". *)
Require Import String List Reals ZArith Bool.
Require Import Verif.Base Verif.Common_Model Verif.Common_Spec Verif.LUT_Model Verif.Rotations_Model Verif.Rotations_Spec Verif.Irreps_Model Verif.Irreps_Spec
  Verif.Defaults_Model.
Import ListNotations.

(** After the setter calls [h], a call that leaves out a keyword does what the call with the value that was set last does. *)
Definition setters_change_defaults (h : list setter_call) : Prop :=
  (forall tiny rs L r_is_normalized ys,
     (exists empty w s o, sh_ready w /\ call_ok s o /\
        snd (call_spherical_harmonics (after h) empty tiny w s o 3 (map vlist rs) L r_is_normalized None None) = Ok ys) ->
     spherical_returns tiny rs L r_is_normalized (last_value sel_cartesian true h) (last_value sel_normalization "racah"%string h) ys) /\
  make_module (after h) None None = (last_value sel_cartesian true h, last_value sel_fused false h).

(** The setter call that names a path for a cache. *)
Definition names_path (k : cache_kind) (s : setter_call) : option (option string) :=
  match k, s with
  | SphericalHarmonicsCache, SetSphericalHarmonicsCache p => Some p
  | ClebschGordanCache, SetClebschGordanCache p => Some p
  | WignerDCache, SetWignerDCache p => Some p
  | TensorConversionCache, SetTensorConversionCache p => Some p
  | _, _ => None
  end.
