(** Vocabulary for C96: routines that compute functions, machines that run a molecular model, and predictions that approach those
    without rounding. *)
Require Import List Reals ZArith.
Require Import Verif.Base Verif.LUT_Model Verif.LUT_Spec Verif.Irreps_Model Verif.Irreps_Spec Verif.Wrappers_Model Verif.Wrappers_Spec Verif.Embed_Model Verif.Embed_Spec Verif.Equivariance_Spec Verif.Network_Spec Verif.Locality_Spec Verif.Molecule_Spec Verif.Features_Model Verif.Features_Spec Verif.Modules_Model
  Verif.Float_Einsum_Model Verif.Float_Einsum_Spec Verif.Float_Harmonics_Model Verif.Float_Harmonics_Spec Verif.Float_Network_Model Verif.Float_Program_Model Verif.Float_Program_Spec Verif.Float_Deep_Model Verif.Float_Deep_Spec Verif.Float_Molecule_Model.
Import ListNotations.
Local Open Scope R_scope.

(** Without rounding the routine [F] computes [f], and on precise machines its results are close if its argument is, for all distances
    but the exceptions. *)
Definition realizes (F : routine) (f : R -> R) (exceptions : R -> Prop) : Prop :=
  forall t, 0 <= exact t -> ~ exceptions (exact t) -> converges t -> converges (F t) /\ exact (F t) = f (exact t).
Definition realizes_factor (F : option routine) (f : option (R -> R)) (exceptions : R -> Prop) : Prop :=
  match F, f with Some F, Some f => realizes F f exceptions | None, None => True | _, _ => False end.

(** The machine runs the model [f_model FM]: the routines compute its functions, and the steps of the network are its calls, with allowed
    orders of evaluation. *)
Definition runs_model (erf : R -> R) (eps : R) (FM : float_model) (exceptions : R -> Prop) : Prop :=
  let M := f_model FM in
  m_calls M = map (call_of erf eps) (f_steps FM) /\ Forall proper_step (f_steps FM)
  /\ (forall k, (k < Z.to_nat (m_num M))%nat -> realizes (f_radial FM k) (fun x => nth k (m_radial M x) 0) exceptions)
  /\ realizes_factor (f_cutoff FM) (m_cutoff M) exceptions /\ realizes_factor (f_damping FM) (m_damping M) exceptions
  /\ forall e j, evaluates (f_harmonics FM e j) (harmonic_terms (Z.to_nat (m_degree M))).

(** A table of spherical harmonics that was read, from whatever state of the cache and in whatever schedule. *)
Definition table_read (L : Z) (table : result (sh_table R)) : Prop :=
  exists w s o, sh_ready w /\ call_ok s o /\ snd (spherical_harmonics_table w L s o) = table.

(** No two interacting atoms have the same position, and no distance is an exception. *)
Definition apart (A : molecule) (exceptions : R -> Prop) : Prop :=
  forall e, In e (pairs A) -> 0 < Molecule_Spec.distance A e /\ ~ exceptions (Molecule_Spec.distance A e).

(** Without rounding the inputs of all gates avoid the points where gates jump or change their formula, and the cutoffs in attention
    are as in [regular]. *)
Definition regular_molecule (erf : R -> R) (eps : R) (FM : float_model) (A : molecule) : Prop :=
  let M := f_model FM in
  forall e x y,
    embed (m_species M) (m_features M) None (m_dtype M) (m_embedding M) true [atoms A] (fun i => Molecule_Spec.number A (nth 0 i 0%nat)) = Ok e -> as_features e x ->
    basis_returns (m_tiny M) (displacements (position A) (pairs A)) (m_degree M) (m_num M) (fun x _ => Ok (map (m_radial M) x))
      (option_map everywhere (m_cutoff M)) (m_return_cutoff M) false (option_map everywhere (m_damping M)) (m_cartesian M) y ->
    regular erf eps (m_cg M) (m_low M) (m_high M) (Some (edge_features (m_dtype M) (length (pairs A)) (m_degree M) (m_num M) y)) (edge_cutoffs y)
      (sparse_graph (map fst (pairs A)) (map snd (pairs A))) [x] (f_steps FM).

(** On precise machines the features [t] of all atoms are finite and close to those of [y]. *)
Definition approaches_atoms (N : nat) (t : tree_feat number) (y : feat) : Prop :=
  tfS t = fS y /\ tfD t = fD y /\ tfF t = fF y /\
  forall n p l k f, (n < N)%nat -> (p < 2)%nat -> (k < 2 * l + 1)%nat -> approaches (fun m => on m (tree_comp t [n] p l k f)) (comp y [n] p l k f).

(** An order of adding what belongs to the atoms 0, ..., N - 1. *)
Definition adds_atoms (N : nat) (e : expr nat) : Prop := evaluates e (map (fun n => [n]) (seq 0 N)).

(** The conditions of C96: a model and a molecule with meaningful arguments, and a machine that runs the model. *)
Definition admissible (erf : R -> R) (eps : R) (FM : float_model) (exceptions : R -> Prop) (table : result (sh_table R)) (A : molecule) : Prop :=
  let M := f_model FM in
  proper_model M /\ runs_model erf eps FM exceptions /\ table_read (m_degree M) table /\ proper_molecule M A /\ close_enough M A /\ apart A exceptions /\ regular_molecule erf eps FM A.

(** The array that a function returned. *)
Definition entries (r : result (list R)) : list R := match r with Ok l => l | Err _ => [] end.
