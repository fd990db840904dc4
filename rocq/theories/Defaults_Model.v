(** Model of how keyword arguments get their defaults from [Config] (e3x/config.py), and of calls without these keywords. *)
Require Import String List Reals ZArith Bool.
Require Import Verif.Base Verif.Common_Model Verif.LUT_Model Verif.Irreps_Model.
Import ListNotations.

(** The defaults that function and class objects hold.  Python evaluates the default of a keyword argument, and of a field of a module,
    once, when the [def] or [class] statement is executed.
    [cartesian_order=Config.cartesian_order]: so3/irreps.py:45,176,224,277,426,512, so3/rotations.py:376, nn/wrappers.py:61 and
    nn/modules.py:412,743,1145,1242.
    [normalization=Config.normalization]: so3/irreps.py:46,427,513.
    [use_fused_tensor=Config.use_fused_tensor]: nn/modules.py:1146,1243.
    All of these statements are executed by [import e3x], so they see one configuration. *)
Record defaults := mkDefaults { held_cartesian_order : bool; held_use_fused_tensor : bool; held_normalization : string }.

Definition define_functions (c : config) : defaults := mkDefaults (cartesian_order c) (use_fused_tensor c) (normalization c).

(** The state of the interpreter: the attributes of [Config] and the defaults of the functions. *)
Definition session : Type := config * defaults.

(** [import e3x]: [Config] (config.py:43-49) exists before the other modules of the package, which import it; a program can only reach
    [Config] through the package. *)
Definition import_package : session := (default_config, define_functions default_config).

(** A call of a setter (config.py:51-127), which changes an attribute of [Config].  Exceptions are caught by the caller. *)
Definition call_setter (st : session) (s : setter_call) : session := (fst (run_setter (fst st) s), snd st).
Definition after (h : list setter_call) : session := fold_left call_setter h import_package.

(** The value of a keyword argument, [None] when the call does not give it. *)
Definition keyword {A : Type} (given : option A) (default : A) : A := match given with Some a => a | None => default end.

(** [spherical_harmonics(r, max_degree, r_is_normalized[, cartesian_order=..][, normalization=..])] (irreps.py:41-47) *)
Definition call_spherical_harmonics (st : session) (empty : nat) (tiny : R) (w : world (sh_file R)) (s : schedule) (o : io)
    (dim : nat) (r : list (list R)) (max_degree : Z) (r_is_normalized : bool) (order : option bool) (norm : option string)
    : world (sh_file R) * result (list (list R)) :=
  spherical_harmonics empty tiny w s o dim r max_degree r_is_normalized
    (keyword order (held_cartesian_order (snd st))) (keyword norm (held_normalization (snd st))).

(** [solid_harmonics(r, max_degree[, cartesian_order=..])] (irreps.py:173-177) *)
Definition call_solid_harmonics (st : session) (empty : nat) (tiny : R) (w : world (sh_file R)) (s : schedule) (o : io)
    (dim : nat) (r : list (list R)) (max_degree : Z) (order : option bool) : world (sh_file R) * result (list (list R)) :=
  solid_harmonics empty tiny w s o dim r max_degree (keyword order (held_cartesian_order (snd st))).

(** [wigner_d(rot, max_degree[, cartesian_order=..])] (rotations.py:373-377) *)
Definition call_wigner_d (st : session) (empty : nat) (w : world (wd_file R)) (s : schedule) (o : io)
    (dims : nat * nat) (rot : list (list (list R))) (max_degree : Z) (order : option bool) : world (wd_file R) * result (list (list (list R))) :=
  wigner_d empty w s o dims rot max_degree (keyword order (held_cartesian_order (snd st))).

(** The fields [cartesian_order] and [use_fused_tensor] of a [TensorDense] or [MessagePass] made with the keywords given
    (modules.py:1145-1146, 1242-1243). *)
Definition make_module (st : session) (order fused : option bool) : bool * bool :=
  (keyword order (held_cartesian_order (snd st)), keyword fused (held_use_fused_tensor (snd st))).

(** The paths of the disk caches that the functions for lookup tables use; they read [Config] when they are called
    (so3/_spherical_harmonics_lut.py:148,165,206, so3/_clebsch_gordan_lut.py:131,148,187, so3/_wigner_d_lut.py:129,146,213,
    so3/_tensor_conversion_lut.py:274,291,314). *)
Inductive cache_kind := SphericalHarmonicsCache | ClebschGordanCache | WignerDCache | TensorConversionCache.
Definition path_used (st : session) (k : cache_kind) : option string :=
  match k with
  | SphericalHarmonicsCache => spherical_harmonics_cache (fst st)
  | ClebschGordanCache => clebsch_gordan_cache (fst st)
  | WignerDCache => wigner_d_cache (fst st)
  | TensorConversionCache => tensor_conversion_cache (fst st)
  end.
