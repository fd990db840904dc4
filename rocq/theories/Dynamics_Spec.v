(** Vocabulary for C80: neighbour lists that follow the atoms. *)
Require Import List Reals ZArith Bool.
Require Import Verif.Base Verif.Rotations_Model Verif.Rotations_Spec Verif.Network_Spec Verif.Locality_Spec Verif.Molecule_Spec Verif.Cutoff_Spec.
Import ListNotations.
Open Scope R_scope.

(** A list of pairs of different atoms without repetitions, which contains all pairs closer than r. *)
Definition neighbour_list (r : R) (N : nat) (p : nat -> vec) (ps : list (nat * nat)) : Prop :=
  NoDup ps /\ (forall a b, In (a, b) ps -> (a < N)%nat /\ (b < N)%nat /\ a <> b)
  /\ forall a b, (a < N)%nat -> (b < N)%nat -> a <> b -> size (plus (p b) (times (-1) (p a))) < r -> In (a, b) ps.

(** No two of the N atoms coincide. *)
Definition all_apart (N : nat) (p : nat -> vec) : Prop := forall a b, (a < N)%nat -> (b < N)%nat -> a <> b -> p a <> p b.

(** All pairs of different atoms. *)
Definition all_pairs (N : nat) : list (nat * nat) := filter (fun e => negb (fst e =? snd e)%nat) (list_prod (seq 0 N) (seq 0 N)).

(** A model in which atoms at distance r or more do not interact directly. *)
Definition short_ranged (M : model) (r : R) : Prop :=
  exists c, m_cutoff M = Some c /\ (forall x, r <= x -> c x = 0) /\ (has_attention (m_calls M) -> m_return_cutoff M = true) /\ Forall no_basis_bias (m_calls M).

(** No atoms coincide; if there are attention layers with a cutoff, every atom has another one within the cutoff. *)
Definition regular_positions (M : model) (N : nat) (Z0 : nat -> Z) (p : nat -> vec) : Prop := all_apart N p /\ close_enough M (mkMolecule N Z0 p (all_pairs N)).
