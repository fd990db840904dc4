(** Model of whole molecular models on machines with rounding: from stored positions and atomic numbers to the features that
    the network computes.  [basis] is e3x/nn/wrappers.py:46-224, [Embed] e3x/nn/modules.py:58-109; the network is that of
    Float_Deep_Model.  Sums of products are evaluated in any order; functions of the distance are run as programs (AutoDiff_Model). *)
Require Import String List Reals ZArith Bool.
Require Import Verif.Base Verif.Common_Model Verif.LUT_Model Verif.Rotations_Model Verif.Irreps_Model Verif.Irreps_Spec Verif.Embed_Model Verif.Network_Spec Verif.Locality_Spec Verif.Molecule_Spec Verif.Features_Model Verif.Modules_Model
  Verif.AutoDiff_Model Verif.AutoDiff_Basis_Model Verif.Float_Einsum_Model Verif.Float_Harmonics_Model Verif.Float_Network_Model Verif.Float_Program_Model Verif.Float_Deep_Model.
Import ListNotations.
Open Scope R_scope.

(** A function of one computed number, which may be a composition of programs. *)
Definition routine : Type := tree number -> tree number.
Definition run_program (e : program) : routine := fun t => apply e (fun _ => t).

(** A molecular model: its parameters ([f_model], of which the functions of the distance and the calls of the network are not used by
    the machine), the steps of the network, entry [k] of [radial_fn], [cutoff_fn], [damping_fn], and the order of evaluation of the
    spherical harmonics for pair [e] and column [j] of the table. *)
Record float_model : Type := mkFloatModel {
  f_model : model; f_steps : list step;
  f_radial : nat -> routine; f_cutoff : option routine; f_damping : option routine; f_harmonics : nat -> nat -> expr harmonic_operand }.

Section Machine.
Variables (erf derf : R -> R) (eps : R).
(** The initial contents of an array of integers ([jnp.empty] in _common.py:37, 53). *)
Variable empty : nat.
Variable FM : float_model.
Let M := f_model FM.

(** Positions are rounded when they are stored; displacements are differences of positions ([r = positions[src] - positions[dst]] in the
    documentation of e3x). *)
Definition stored_position (A : molecule) (n k : nat) : tree number := Operand (stored (nth k (vlist (position A n)) 0)).
Definition displacement (A : molecule) (e : nat * nat) (k : nat) : tree number :=
  apply (Bin Sub (Var 0) (Var 1)) (both (stored_position A (snd e) k) (stored_position A (fst e) k)).

(** The norm and [u = r / jnp.where(norm > 0, norm, 1)] (wrappers.py:181-182). *)
Definition vector_norm (r : nat -> tree number) : tree number := apply length_prog r.
Definition safe_quotient : program := Var 0 /! Where (Less (Const 0) (Var 1)) (Var 1) (Const 1).
Definition unit_vector (r : nat -> tree number) (k : nat) : tree number := apply safe_quotient (both (r k) (vector_norm r)).

(** Entry [c] of [angular_fn] (wrappers.py:32-34, 196-200, irreps.py:128-170) for the table [tab] that was read: the operands are the
    components of the unit vector, a column of the table and the normalization constant; see Float_Harmonics_Model.  The table is rounded
    once (in the code first to double precision). *)
Definition harmonic_column (c : nat) : nat :=
  let L := Z.to_nat (m_degree M) in
  nth c (if m_cartesian M then cartesian_permutation empty L else seq 0 ((L + 1) ^ 2)) 0%nat.
Definition harmonic (tab : sh_table R) (r : nat -> tree number) (e c : nat) : tree number :=
  let j := harmonic_column c in
  subst (fun v => match v with
                  | Coordinate k => unit_vector r k
                  | Table i => Operand (stored (if (i <? num_car (Z.to_nat (m_degree M)))%nat then sh_cm R tab (i, j) else 0))
                  | Constant => Operand (stored (column_constant "racah" j))
                  end) (f_harmonics FM e j).

(** Entry [c, f] of the result for pair [e] (wrappers.py:186-211). *)
Definition basis_entry (tab : sh_table R) (r : nat -> tree number) (e c f : nat) : tree number :=
  let norm := vector_norm r in
  let rbf := f_radial FM f norm in
  let rbf := match f_cutoff FM with Some g => Product rbf (g norm) | None => rbf end in
  let out := Product (harmonic tab r e c) rbf in
  match f_damping FM with
  | Some g => if (c =? 0)%nat then out else Product out (g norm)
  | None => out
  end.
Definition float_basis (tab : sh_table R) (A : molecule) : tree_feat number :=
  let D := (degrees (m_degree M) * degrees (m_degree M))%nat in
  mkTree [length (pairs A)] 1 D (Z.to_nat (m_num M)) (m_dtype M) (fun i _ d f =>
    match i with
    | [e] => match nth_error (pairs A) e with
             | Some p => if ((d <? D) && (f <? Z.to_nat (m_num M)))%nat then basis_entry tab (displacement A p) e d f else Nothing
             | None => Nothing
             end
    | _ => Nothing
    end).
(** The cutoffs that are returned (wrappers.py:217-221). *)
Definition float_cutoffs (A : molecule) : option (list nat -> tree number) :=
  if m_return_cutoff M then
    option_map (fun g i => match i with
                           | [e] => match nth_error (pairs A) e with Some p => g (vector_norm (displacement A p)) | None => Nothing end
                           | _ => Nothing
                           end) (f_cutoff FM)
  else None.

(** [Embed] looks up stored parameters; rows outside of the array are NaN. *)
Definition float_embedding (e : embedded) : tree_feat number :=
  mkTree (e_batch e) 1 1 (e_features e) (e_dtype e) (fun i _ _ f =>
    if in_batch (e_batch e) i then match e_value e i f with Some v => Operand (stored v) | None => Operand (mkNumber 0 (fun _ => None)) end else Nothing).

(** What the machine computes for a molecule.  [table] is what was read from the cache of tables, and no cutoff function is an error
    if cutoffs are to be returned (wrappers.py:177-178). *)
Definition float_predict (table : result (sh_table R)) (A : molecule) : result (list (tree_feat number)) :=
  bind (embed (m_species M) (m_features M) None (m_dtype M) (m_embedding M) true [atoms A] (fun i => Molecule_Spec.number A (nth 0 i 0%nat))) (fun x =>
  if m_return_cutoff M && match f_cutoff FM with None => true | Some _ => false end then Err ValueError
  else bind (check_degree (m_degree M)) (fun _ => bind table (fun tab =>
    deep_run erf derf eps (m_cg M) (m_low M) (m_high M) (Some (float_basis tab A)) (float_cutoffs A)
      (sparse_graph (map fst (pairs A)) (map snd (pairs A))) [float_embedding x] (f_steps FM)))).
End Machine.

(** The sum of a scalar feature over all atoms, in an order of evaluation [e]. *)
Definition float_total (e : expr nat) (t : tree_feat number) (f : nat) : tree number := subst (fun n => tree_comp t [n] 0 0 0 f) e.

(** * Radial functions as compositions of programs
    The functions of the families Bernstein, Chebyshev, Gaussian and Fourier of a mapping (see [inner_prog]); Bernstein polynomials have a
    derivative rule of their own, their values are those of [bernstein_primal_prog]. *)
Definition inner_routine (eps : R) (f : string) (num k : nat) : routine := fun t =>
  if String.eqb f "bernstein" then run_program (bernstein_primal_prog eps (num - 1) k) (run_program (Const 1 -! X) t)
  else match inner_prog eps f num k X with Ok e => run_program e t | Err _ => Nothing end.
(** bernstein.py:265-269 and 376-380 (and the other families): the inner function, and the mapping as a factor. *)
Definition weighted_routine (weighting : bool) (inner mapping : routine) : routine := fun t =>
  if weighting then Product (inner (mapping t)) (mapping t) else inner (mapping t).
Definition reciprocal_routine (eps : R) (f : string) (num k : nat) (kind : string) (weighting : bool) : routine :=
  match reciprocal_mapping_prog eps kind X with Ok e => weighted_routine weighting (inner_routine eps f num k) (run_program e) | Err _ => fun _ => Nothing end.
Definition exponential_routine (eps : R) (f : string) (num k : nat) (gamma : R) (cuspless weighting : bool) : routine :=
  weighted_routine weighting (inner_routine eps f num k) (run_program (exponential_mapping_prog gamma cuspless X)).
Definition basic_routine (eps : R) (f : string) (num k : nat) (limit : R) : routine := fun t =>
  if String.eqb f "bernstein" then run_program (bernstein_primal_prog eps (num - 1) k) (run_program (X /! Const limit) t)
  else match basic_prog eps f num k limit X with Ok e => run_program e t | Err _ => Nothing end.
