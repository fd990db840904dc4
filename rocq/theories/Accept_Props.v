(** C75: a model that accepts one molecule accepts all molecules. *)
Require Import List Reals ZArith Bool Lia Lra.
Require Import ZifyNat.
Require Import Verif.Base Verif.RSum Verif.Features_Model Verif.Features_Spec Verif.Modules_Model Verif.Modules_Spec Verif.Modules_Graph_Spec
  Verif.Rotations_Model Verif.Rotations_Spec Verif.Wrappers_Model Verif.Wrappers_Spec Verif.Wrappers_Props Verif.Embed_Model Verif.Embed_Spec Verif.Embed_Props
  Verif.Equivariance_Spec Verif.Equivariance_Props Verif.Structure_Props Verif.Network_Spec Verif.Network_Props Verif.Shapes_Proofs Verif.Locality_Spec Verif.Locality_Proofs Verif.Locality_Props Verif.Molecule_Spec Verif.Molecule_Props Verif.Accept_Proofs.
Import ListNotations.
Open Scope R_scope.

(** y and y' contain one entry for each of N and N' atoms, with the same degrees, parities, number of features and type. *)
Definition atoms_alike (N N' : nat) (y y' : feat) : Prop :=
  fB y = [N] /\ fB y' = [N'] /\ fS y' = fS y /\ fD y' = fD y /\ fF y' = fF y /\ fdt y' = fdt y.

(** If the model runs for one molecule, it runs for every other one, whatever the number of atoms and pairs, and the
    predictions have the same format. *)
Theorem C75_every_molecule : forall M A A' ys, proper_model M -> proper_molecule M A -> proper_molecule M A' -> predicts M A ys ->
  (exists ys', predicts M A' ys') /\ forall ys', predicts M A' ys' -> Forall2 (atoms_alike (atoms A) (atoms A')) ys ys'.
Proof.
  intros M A A' ys [HP [Hc [Ht [HL [Hg Hrc]]]]] [Hne _] [Hne' [_ Hz']] [e [x [y [Ee [Ax [Hy H]]]]]].
  assert (KEY : forall e' x' y', embed (m_species M) (m_features M) None (m_dtype M) (m_embedding M) true [atoms A'] (fun i => number A' (nth 0 i 0%nat)) = Ok e' -> as_features e' x' ->
    exists ys', run (m_cg M) (m_low M) (m_high M) (Some (edge_features (m_dtype M) (length (pairs A')) (m_degree M) (m_num M) y')) (edge_cutoffs y')
      (sparse_graph (map fst (pairs A')) (map snd (pairs A'))) [x'] (m_calls M) = Ok ys' /\ Forall2 (atoms_alike (atoms A) (atoms A')) ys ys').
  { intros e' x' y' Ee' Ax'. destruct (embed_part _ _ _ _ Ee Ax) as [X1 [X2 [X3 [X4 [X5 _]]]]]. destruct (embed_part _ _ _ _ Ee' Ax') as [Y1 [Y2 [Y3 [Y4 [Y5 _]]]]].
    refine (run_sized (m_cg M) (m_low M) (m_high M) (map fst (pairs A)) (map snd (pairs A)) (map fst (pairs A')) (map snd (pairs A')) (atoms A) (atoms A') _ _ (C67_checked _ _ HP) _ _ _ (edge_cutoffs y') (m_calls M) [x] [x'] ys Hc _ _ _ H).
    - now rewrite !map_length.
    - now rewrite !map_length.
    - constructor; [|constructor]. exists 0%nat. split; [now left|exact X3].
    - constructor; [|constructor]. repeat split; congruence.
    - cbn [sized_opt]. rewrite !map_length. repeat split. }
  split.
  - assert (Hd : displacements (position A') (pairs A') <> []) by (destruct (pairs A'); [contradiction|discriminate]).
    destruct (basis_exists (m_tiny M) (displacements (position A') (pairs A')) (m_degree M) (m_num M) (m_radial M) (m_cutoff M) (m_damping M) (m_return_cutoff M) false (m_cartesian M) Ht Hd HL Hg Hrc) as [y' Hy'].
    destruct (C71_scalars (m_species M) (m_features M) None (m_dtype M) (m_embedding M) [atoms A'] (fun i => number A' (nth 0 i 0%nat))) as [e' [x' [Ee' [Ax' _]]]].
    { intros [|n [|? ?]]; cbn [inside]; try tauto. intros [Hn _]. now apply Hz'. }
    destruct (KEY e' x' y' Ee' Ax') as [ys' [H' _]]. exists ys', e', x', y'. auto.
  - intros ys' [e' [x' [y' [Ee' [Ax' [Hy' H']]]]]]. destruct (KEY e' x' y' Ee' Ax') as [ys'' [H'' F]]. replace ys' with ys'' by congruence. exact F.
Qed.
Print Assumptions C75_every_molecule.

(** A case: the model of the dumbbell accepts a chain of any length. *)
Definition chain (n : nat) : molecule := mkMolecule (S (S n)) (fun k => Z.of_nat (k mod 2)) (fun k => (INR k, 0, 0)) (map (fun k => (k, S k)) (seq 0 (S n))).
Lemma chain_proper : forall n, proper_molecule spring (chain n).
Proof.
  intros n. split; [discriminate|]. split.
  - apply Forall_map, Forall_forall. intros k Hk. apply in_seq in Hk. cbn [chain atoms fst snd]. lia.
  - intros k _. cbn [chain number spring m_species]. pose proof (Nat.mod_upper_bound k 2). lia.
Qed.
Example C75_case : forall n, exists ys, predicts spring (chain n) ys /\ length ys = 2%nat /\ Forall (fun y => fB y = [S (S n)]) ys.
Proof.
  intros n. destruct (spring_total two_positions) as [ys [y [H _]]].
  destruct (C75_every_molecule spring (dumbbell two_positions) (chain n) ys spring_proper (dumbbell_proper _) (chain_proper n) H) as [[ys' H'] F]. exists ys'. split; [exact H'|]. specialize (F ys' H').
  split.
  - destruct H' as [? [? [? [_ [_ [_ H']]]]]]. apply run_length in H'. exact H'.
  - clear -F. induction F as [|a b l l' [_ [E _]] _ IH]; constructor; assumption.
Qed.
