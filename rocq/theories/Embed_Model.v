(** Model of the embedding of integers (nn/modules.py 53-109). *)
Require Import List Reals ZArith Bool.
Require Import Verif.Base Verif.Initializers_Model.
Import ListNotations.
Open Scope R_scope.

(** Result of the call: batch shape, features, dtype, and the entry for index i and feature f.  The axes
    of size 1 are left out.  None is NaN. *)
Record embedded : Type := mkEmbedded { e_batch : list nat; e_features : nat; e_dtype : nat; e_value : list nat -> nat -> option R }.
Definition embedded_shape (e : embedded) : list nat := e_batch e ++ [1; 1; e_features e]%nat.

(** [jnp.take] along axis 0 with n > 0 rows, in the default mode 'fill': negative indices count from the
    end, rows outside of the array are NaN.  (JAX, not in /repo; called at 109.) *)
Definition take_row (n : nat) (z : Z) : option nat :=
  let z := if (z <? 0)%Z then (z + Z.of_nat n)%Z else z in
  if ((0 <=? z) && (z <? Z.of_nat n))%Z then Some (Z.to_nat z) else None.

(** [Embed.__call__] (87-109).  [integer] says whether the dtype of the inputs is an integer one;
    [param_dtype] is the dtype of the parameters; [embedding] are the parameters, without the axes of size 1. *)
Definition embed (num_embeddings features : nat) (dtype : option nat) (param_dtype : nat) (embedding : nat -> nat -> R)
    (integer : bool) (batch : list nat) (inputs : list nat -> Z) : result embedded :=
  if negb integer then Err ValueError                                                      (* 104-105 *)
  else
    let dtype := match dtype with Some d => d | None => param_dtype end in                 (* 106-108 *)
    Ok (mkEmbedded batch features dtype                                                    (* 109 *)
          (fun i f => match take_row num_embeddings (inputs i) with Some k => Some (embedding k f) | None => None end)).

(** Fan-in of [jax.nn.initializers.variance_scaling] (JAX, not in /repo): the size of the input axis
    times the size of all axes that are neither the input nor the output axis. *)
Definition jax_fan_in (shape : list nat) (in_axis out_axis : nat) : R :=
  INR (nth in_axis shape 0%nat) * (INR (fold_right Nat.mul 1%nat shape) / INR (nth in_axis shape 0%nat) / INR (nth out_axis shape 0%nat)).

(** [default_embed_init] (53-55) for the shape of [Embed.setup] (79-85), one entry; the input axis is -2
    by default.  [draw] is the entry of the array of standard normal numbers. *)
Definition embed_init (num_embeddings features : nat) (draw : R) : result R :=
  random_array Normal (1 / jax_fan_in [num_embeddings; 1; 1; features]%nat 2 0) draw.
