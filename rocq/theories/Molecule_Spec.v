(** Vocabulary for C72 and C73: from the atoms of a molecule to the predictions of a model. *)
Require Import List Reals ZArith Bool.
Require Import Verif.Base Verif.RSum Verif.Features_Model Verif.Features_Spec Verif.Modules_Model Verif.Modules_Spec Verif.Modules_Graph_Spec Verif.Rotations_Model Verif.Rotations_Spec Verif.Wrappers_Model Verif.Wrappers_Spec
  Verif.Embed_Model Verif.Embed_Spec Verif.Equivariance_Spec Verif.Network_Spec Verif.Locality_Spec Verif.Structure_Props.
Import ListNotations.
Open Scope R_scope.

(** Atoms 0, ..., atoms - 1 with their atomic numbers and positions, and the pairs (destination, source)
    of atoms that interact. *)
Record molecule : Type := mkMolecule { atoms : nat; number : nat -> Z; position : nat -> vec; pairs : list (nat * nat) }.

(** A model: the parameters of the embedding, the arguments of [basis], and the calls of a network. *)
Record model : Type := mkModel {
  m_cartesian : bool; m_cg : Z -> Z -> Z -> result (nat -> nat -> nat -> R); m_low : R; m_high : R;
  m_species : nat; m_features : nat; m_dtype : nat; m_embedding : nat -> nat -> R;
  m_tiny : R; m_degree : Z; m_num : Z; m_radial : R -> list R; m_cutoff : option (R -> R); m_damping : option (R -> R); m_return_cutoff : bool;
  m_calls : list call }.

(** Functions that are applied to every element. *)
Definition everywhere (f : R -> R) (x : list R) : result (list R) := Ok (map f x).

(** The features that the model computes: atomic numbers are embedded, displacement vectors expanded in
    basis functions, and the network is applied to both. *)
Definition predicts (M : model) (A : molecule) (ys : list feat) : Prop :=
  exists e x y,
    embed (m_species M) (m_features M) None (m_dtype M) (m_embedding M) true [atoms A] (fun i => number A (nth 0 i 0%nat)) = Ok e /\ as_features e x /\
    basis_returns (m_tiny M) (displacements (position A) (pairs A)) (m_degree M) (m_num M) (fun x _ => Ok (map (m_radial M) x))
      (option_map everywhere (m_cutoff M)) (m_return_cutoff M) false (option_map everywhere (m_damping M)) (m_cartesian M) y /\
    run (m_cg M) (m_low M) (m_high M) (Some (edge_features (m_dtype M) (length (pairs A)) (m_degree M) (m_num M) y)) (edge_cutoffs y)
      (sparse_graph (map fst (pairs A)) (map snd (pairs A))) [x] (m_calls M) = Ok ys.

(** The arguments are meaningful. *)
Definition proper_model (M : model) : Prop :=
  uses_package (m_cartesian M) (m_cg M) /\ Forall proper_call (m_calls M) /\ 0 < m_tiny M /\ (0 <= m_degree M)%Z
  /\ (forall x, length (m_radial M x) = Z.to_nat (m_num M)) /\ (m_return_cutoff M = true -> m_cutoff M <> None).

(** There are interactions, they are interactions between atoms, and the numbers of the atoms are known to the model. *)
Definition proper_molecule (M : model) (A : molecule) : Prop :=
  pairs A <> [] /\ Forall (fun e => (fst e < atoms A)%nat /\ (snd e < atoms A)%nat) (pairs A)
  /\ forall n, (n < atoms A)%nat -> (0 <= number A n < Z.of_nat (m_species M))%Z.

Definition distance (A : molecule) (e : nat * nat) : R := size (plus (position A (snd e)) (times (-1) (position A (fst e)))).

(** For attention that is weighted with cutoffs: they are not negative, and an atom that has
    neighbours has one within the cutoff. *)
Definition close_enough (M : model) (A : molecule) : Prop :=
  m_return_cutoff M = true -> has_attention (m_calls M) -> forall c, m_cutoff M = Some c ->
    (forall x, 0 <= c x) /\ forall e, In e (pairs A) -> exists e', In e' (pairs A) /\ fst e' = fst e /\ 0 < c (distance A e').

(** B is A with other numbers for atoms (n becomes h n) and pairs (e becomes r e), turned by m, reflected
    if s = -1, and shifted by t. *)
Definition moved (s : R) (m : mat) (t : vec) (h r : nat -> nat) (A B : molecule) : Prop :=
  atoms B = atoms A /\ length (pairs B) = length (pairs A)
  /\ (forall n, (n < atoms A)%nat -> number B (h n) = number A n /\ position B (h n) = plus (turned_by s m (position A n)) t)
  /\ forall e a b, nth_error (pairs A) e = Some (a, b) -> nth_error (pairs B) (r e) = Some (h a, h b).

(** The sum of a scalar feature of array k over all atoms, e.g. an energy. *)
Definition total (M : model) (A : molecule) (k f : nat) (v : R) : Prop :=
  exists ys y, predicts M A ys /\ nth_error ys k = Some y /\ v = rsum (atoms A) (fun n => comp y [n] 0 0 0 f).

(** The forces: minus the gradient of the energy with respect to the positions of all N atoms.  If the atoms are
    displaced by small vectors d n, the energy changes by minus the sum of the scalar products of the forces and the
    displacements, up to terms that are small compared to the displacements. *)
Definition displaced (p d : nat -> vec) : nat -> vec := fun n => plus (p n) (d n).
Definition extent (N : nat) (d : nat -> vec) : R := rsum N (fun n => size (d n)).
Definition forces (N : nat) (energy : (nat -> vec) -> R) (p force : nat -> vec) : Prop :=
  forall eps, 0 < eps -> exists delta, 0 < delta /\ forall d, extent N d < delta ->
    Rabs (energy (displaced p d) - energy p + rsum N (fun n => dot (force n) (d n))) <= eps * extent N d.

(** The molecule with other positions. *)
Definition with_positions (A : molecule) (p : nat -> vec) : molecule := mkMolecule (atoms A) (number A) p (pairs A).
(** The energy as a function of the positions: the sum of the scalar feature f of array k over the atoms. *)
Definition energy_function (M : model) (A : molecule) (k f : nat) (energy : (nat -> vec) -> R) : Prop :=
  forall p, total M (with_positions A p) k f (energy p).
(** [close_enough] also holds after small displacements. *)
Definition stays_close (M : model) (A : molecule) : Prop :=
  exists delta, 0 < delta /\ forall d, extent (atoms A) d < delta -> close_enough M (with_positions A (displaced (position A) d)).

(** The sum of N vectors. *)
Definition vsum (N : nat) (v : nat -> vec) : vec := (rsum N (fun n => coord (v n) 0), rsum N (fun n => coord (v n) 1), rsum N (fun n => coord (v n) 2)).
