(** Vocabulary for C97: batches of molecules. *)
Require Import List Reals ZArith Bool.
Require Import Verif.Base Verif.Rotations_Model Verif.Rotations_Spec Verif.Molecule_Spec.
Import ListNotations.
Open Scope R_scope.

(** The atoms of A are the atoms o, o + 1, ... of C, and pairs that end in them are the pairs of A. *)
Definition part (o : nat) (A C : molecule) : Prop :=
  (o + atoms A <= atoms C)%nat
  /\ (forall n, (n < atoms A)%nat -> number C (o + n) = number A n /\ position C (o + n) = position A n)
  /\ exists before after, pairs C = before ++ map (fun e => (o + fst e, o + snd e)%nat) (pairs A) ++ after
       /\ Forall (fun e => ~ (o <= fst e < o + atoms A)%nat) (before ++ after).

(** The index of the first atom of molecule j of a batch. *)
Fixpoint offset (As : list molecule) (j : nat) : nat :=
  match As, j with A :: As, S j => (atoms A + offset As j)%nat | _, _ => 0%nat end.

(** All atoms of a list of molecules in one array, without pairs between different molecules. *)
Definition nowhere : molecule := mkMolecule 0 (fun _ => 0%Z) (fun _ => (0, 0, 0)) [].
Definition beside (A B : molecule) : molecule :=
  mkMolecule (atoms A + atoms B) (fun n => if (n <? atoms A)%nat then number A n else number B (n - atoms A))
    (fun n => if (n <? atoms A)%nat then position A n else position B (n - atoms A))
    (pairs A ++ map (fun e => (atoms A + fst e, atoms A + snd e)%nat) (pairs B)).
Definition batch (As : list molecule) : molecule := fold_right beside nowhere As.

(** Every atom carries the index of its molecule. *)
Definition labels (As : list molecule) (ids : list nat) : Prop :=
  length ids = atoms (batch As) /\ forall j A n, nth_error As j = Some A -> (n < atoms A)%nat -> nth_error ids (offset As j + n) = Some j.

(** Pairs are pairs of atoms, and the numbers of the atoms are known to the model; there may be no pairs. *)
Definition sound_molecule (M : model) (A : molecule) : Prop :=
  Forall (fun e => (fst e < atoms A)%nat /\ (snd e < atoms A)%nat) (pairs A)
  /\ forall n, (n < atoms A)%nat -> (0 <= number A n < Z.of_nat (m_species M))%Z.

(** The same arrays: equal numbers of atoms and pairs, and for all atoms equal atomic numbers and positions. *)
Definition same_molecule (A B : molecule) : Prop :=
  atoms B = atoms A /\ pairs B = pairs A /\ forall n, (n < atoms A)%nat -> number B n = number A n /\ position B n = position A n.
