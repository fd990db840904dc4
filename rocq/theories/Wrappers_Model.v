(** Model of e3x/nn/wrappers.py.

    Simplifications.  Numbers are real.  Leading batch dimensions are flattened to one: an array of
    shape (..., n) is a list of rows of length n.  Callables take and return such arrays and may raise;
    [angular_fn] also changes a state (the table cache).  [tiny] is [jnp.finfo(dtype).tiny]. *)
Require Import String List Reals ZArith Bool.
Require Import Verif.Base Verif.LUT_Model Verif.Radial_Model Verif.Rotations_Model Verif.Irreps_Model.
Import ListNotations.
Open Scope R_scope.

(** What [basis] returns: the values with shape (..., 1, (L+1)**2, num), and optionally the cutoff
    values and the norms. *)
Record basis_output : Type := mkBasis { values : list (list (list (list R))); cutoffs : option (list R); norms : option (list R) }.

(** [_default_angular_fn] (32-34) *)
Definition default_angular_fn (empty : nat) (tiny : R) (s : schedule) (o : io) (w : world (sh_file R)) (r : list (list R))
    (max_degree : Z) (cartesian_order : bool) : world (sh_file R) * result (list (list R)) :=
  spherical_harmonics empty tiny w s o 3 r max_degree true cartesian_order "racah".

(** [x * jnp.expand_dims(c, -1)] *)
Definition scale_rows (x : list (list R)) (c : list R) : list (list R) :=
  map (fun p => map (fun v => v * snd p) (fst p)) (combine x c).

(** [out.at[..., 1:, :].multiply(d)] for one batch entry *)
Definition damp (out : list (list R)) (d : R) : list (list R) :=
  match out with [] => [] | row :: rest => row :: map (map (fun v => v * d)) rest end.

Section Basis.
Variable W : Type.

(** [basis] (46-224); [dim] is [r.shape[-1]]. *)
Definition basis (tiny : R) (w : W) (dim : nat) (r : list (list R)) (max_degree num : Z)
    (radial_fn : list R -> Z -> result (list (list R)))
    (angular_fn : W -> list (list R) -> Z -> bool -> W * result (list (list R)))
    (cutoff_fn : option (list R -> result (list R))) (return_cutoff return_norm : bool)
    (damping_fn : option (list R -> result (list R))) (cartesian_order : bool) : W * result basis_output :=
  if negb (dim =? 3)%nat then (w, Err ValueError)                                          (* 173-174 *)
  else if return_cutoff && (match cutoff_fn with None => true | Some _ => false end)       (* 177-178 *)
  then (w, Err ValueError)
  else
    match
      bind (norm tiny r) (fun norm =>                                                      (* 181 *)
      bind (radial_fn norm num) (fun rbf =>                                                (* 186 *)
      match cutoff_fn with                                                                 (* 189-193 *)
      | Some cutoff_fn => bind (cutoff_fn norm) (fun cut => Ok (norm, scale_rows rbf cut, cut))
      | None => Ok (norm, rbf, map (fun _ => 1) norm)
      end))
    with
    | Err e => (w, Err e)
    | Ok (norm, rbf, cut) =>
        let u := map (fun p => map (fun v => v / (if Rltb 0 (snd p) then snd p else 1)) (fst p)) (combine r norm) in   (* 182 *)
        let '(w, ylm) := angular_fn w u max_degree cartesian_order in                      (* 196-200 *)
        (w, bind ylm (fun ylm =>
            let out := map (fun p => map (fun y => map (fun g => y * g) (snd p)) (fst p)) (combine ylm rbf) in   (* 203-205 *)
            bind (match damping_fn with                                                    (* 208-211 *)
                  | Some damping_fn => bind (damping_fn norm) (fun d => Ok (map (fun p => damp (fst p) (snd p)) (combine out d)))
                  | None => Ok out
                  end) (fun out =>
            Ok (mkBasis (map (fun x => [x]) out)                                           (* 214 *)
                  (if return_cutoff then match cutoff_fn with Some _ => Some cut | None => None end else None)   (* 217-223 *)
                  (if return_norm then Some norm else None)))))
    end.
End Basis.

(** [jax.nn.softplus] *)
Definition jax_softplus (x : R) : R := ln (1 + exp x).

(** [ExponentialBasis] (227-254).  The parameter is drawn by [exponential_basis_init] when the module is
    initialised; [radial_fn] takes the keyword [gamma]. *)
Definition exponential_basis_init (initial_gamma : R) : R := inverse_softplus initial_gamma.
Definition exponential_basis (param : R) (W : Type) (tiny : R) (w : W) (dim : nat) (r : list (list R)) (max_degree num : Z)
    (radial_fn : R -> list R -> Z -> result (list (list R)))
    (angular_fn : W -> list (list R) -> Z -> bool -> W * result (list (list R)))
    (cutoff_fn : option (list R -> result (list R))) (return_cutoff return_norm : bool)
    (damping_fn : option (list R -> result (list R))) (cartesian_order : bool) : W * result basis_output :=
  let gamma := jax_softplus param in
  basis W tiny w dim r max_degree num (radial_fn gamma) angular_fn cutoff_fn return_cutoff return_norm damping_fn cartesian_order.
