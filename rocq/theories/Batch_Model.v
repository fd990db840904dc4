(** Model of batches of molecules as in docs/source/examples/md17_ethanol.ipynb: the atoms of all molecules are in one array, and
    every atom carries the index of its molecule.  Arrays are lists. *)
Require Import List Reals ZArith Bool.
Require Import Verif.Base Verif.Features_Model Verif.Features_Spec Verif.Rotations_Model Verif.Rotations_Spec Verif.Molecule_Spec.
Import ListNotations.
Open Scope R_scope.

(** [jax.ops.segment_sum(data, segment_ids, num_segments)]: sums of the entries with the same id; other ids are ignored. *)
Definition add_all (l : list R) : R := fold_right Rplus 0 l.
Definition segment_sum (data : list R) (ids : list nat) (num : nat) : list R :=
  map (fun k => add_all (map fst (filter (fun p => (snd p =? k)%nat) (combine data ids)))) (seq 0 num).

(** [jnp.repeat(jnp.arange(n), k)], [jnp.tile(l, n)] and [(idx + offsets[:, None]).reshape(-1)] with
    [offsets = jnp.arange(n) * size]. *)
Definition repeat_range (n k : nat) : list nat := concat (map (fun j => repeat j k) (seq 0 n)).
Definition tile {A : Type} (l : list A) (n : nat) : list A := concat (repeat l n).
Definition with_offsets (idx : list nat) (n size : nat) : list nat := concat (map (fun j => map (fun i => (i + j * size)%nat) idx) (seq 0 n)).

(** The entries of a batch (md17_ethanol.ipynb:248-266), for configurations [positions] of one molecule with atomic numbers
    [numbers] and pairs of atoms [dst], [src]. *)
Record prepared : Type := mkPrepared { b_numbers : list Z; b_positions : list vec; b_dst : list nat; b_src : list nat; b_segments : list nat }.
Definition prepare_batch (numbers : list Z) (dst src : list nat) (positions : list (list vec)) : prepared :=
  let size := length numbers in let n := length positions in
  mkPrepared (tile numbers n) (concat positions) (with_offsets dst n size) (with_offsets src n size) (repeat_range n size).

(** What the model is applied to: atomic numbers, positions, and pairs of atoms. *)
Definition arrays_molecule (numbers : list Z) (positions : list vec) (dst src : list nat) : molecule :=
  mkMolecule (length numbers) (fun n => nth n numbers 0%Z) (fun n => nth n positions (0, 0, 0)) (combine dst src).

(** The energies of the molecules (195-201): atomic energies are a scalar feature plus a bias that depends on the atomic number. *)
Definition atomic_energies (bias : Z -> R) (A : molecule) (y : feat) (f : nat) : list R :=
  map (fun n => comp y [n] 0 0 0 f + bias (number A n)) (seq 0 (atoms A)).
Definition energies (bias : Z -> R) (A : molecule) (y : feat) (f : nat) (segments : list nat) (batch_size : nat) : list R :=
  segment_sum (atomic_energies bias A y f) segments batch_size.
