(** C96: what predictions on a machine do with invalid input: the errors, and atomic numbers without an embedding. *)
Require Import String List Reals ZArith Bool Lia Lra.
Require Import Verif.Base Verif.Common_Model Verif.LUT_Model Verif.Irreps_Model Verif.Embed_Model Verif.Embed_Props Verif.Locality_Spec Verif.Molecule_Spec Verif.Molecule_Props Verif.Features_Model
  Verif.AutoDiff_Model Verif.Float_Einsum_Model Verif.Float_Network_Model Verif.Float_Program_Model Verif.Float_Program_Spec Verif.Float_Deep_Model Verif.Float_Deep_Spec Verif.Float_Molecule_Model.
Import ListNotations.
Open Scope R_scope.

(** Cutoffs that are to be returned need a cutoff function, and degrees are not negative. *)
Theorem C96_rejected : forall erf derf eps empty FM table A,
  ((m_return_cutoff (f_model FM) = true /\ f_cutoff FM = None) \/ (m_degree (f_model FM) < 0)%Z) ->
  float_predict erf derf eps empty FM table A = Err ValueError.
Proof.
  intros erf derf eps empty FM table A H. unfold float_predict, embed. cbn [negb bind]. destruct (m_return_cutoff (f_model FM) && _) eqn:E; [reflexivity|].
  destruct H as [[H1 H2]|H]; [rewrite H1, H2 in E; discriminate|]. unfold check_degree. destruct (Z.ltb_spec (m_degree (f_model FM)) 0); [reflexivity|lia].
Qed.
Print Assumptions C96_rejected.

(** Otherwise an error of the table is returned. *)
Theorem C96_table_error : forall erf derf eps empty FM A x,
  (m_return_cutoff (f_model FM) = true -> f_cutoff FM <> None) -> (0 <= m_degree (f_model FM))%Z ->
  float_predict erf derf eps empty FM (Err x) A = Err x.
Proof.
  intros erf derf eps empty FM A x H1 H2. unfold float_predict, embed. cbn [negb bind].
  assert (E : m_return_cutoff (f_model FM) && match f_cutoff FM with None => true | Some _ => false end = false) by (destruct (m_return_cutoff (f_model FM)); [|reflexivity]; destruct (f_cutoff FM); [reflexivity|now specialize (H1 eq_refl)]).
  rewrite E. unfold check_degree. destruct (Z.ltb_spec (m_degree (f_model FM)) 0); [lia|reflexivity].
Qed.
Print Assumptions C96_table_error.

(** The features of an atom whose number is not in the table of embeddings are not numbers on any machine. *)
Theorem C96_unknown : forall M A x m n f,
  embed (m_species M) (m_features M) None (m_dtype M) (m_embedding M) true [atoms A] (fun i => Molecule_Spec.number A (nth 0 i 0%nat)) = Ok x ->
  (n < atoms A)%nat -> (f < m_features M)%nat ->
  (Molecule_Spec.number A n < - Z.of_nat (m_species M) \/ Z.of_nat (m_species M) <= Molecule_Spec.number A n)%Z ->
  on m (tfv (float_embedding x) [n] 0 0 f) = None.
Proof.
  intros M A x m n f E Hn Hf HZ. pose proof (proj2 (proj2 (C71_other_numbers _ _ _ _ _ _ _ _ [n] f E)) HZ) as V.
  assert (B : e_batch x = [atoms A]) by (injection E as <-; reflexivity). unfold float_embedding. cbn [tfv]. rewrite B. cbn [in_batch].
  destruct (Nat.ltb_spec n (atoms A)); [|lia]. cbn [andb]. rewrite V. reflexivity.
Qed.
Print Assumptions C96_unknown.

(** Atomic number 7 in a model with two embeddings, and a negative degree. *)
Example C96_errors_case : (exists x, embed (m_species spring) (m_features spring) None (m_dtype spring) (m_embedding spring) true [1%nat] (fun i => Molecule_Spec.number (mkMolecule 1 (fun _ => 7%Z) (fun _ => (0, 0, 0)%R) []) (nth 0 i 0%nat)) = Ok x
     /\ forall m, on m (tfv (float_embedding x) [0%nat] 0 0 0) = None)
  /\ (Molecule_Spec.number (mkMolecule 1 (fun _ => 7%Z) (fun _ => (0, 0, 0)%R) []) 0 >= Z.of_nat (m_species spring))%Z
  /\ (forall erf derf eps empty table A, float_predict erf derf eps empty
        (mkFloatModel (mkModel true (m_cg spring) 0 0 2 1 0 (fun _ _ => 1) 1 (-1) 1 (fun x => [x * x]) None None false []) [] (fun _ t => t) None None (fun _ _ => Nothing)) table A = Err ValueError).
Proof.
  split; [|split].
  - eexists. split; [reflexivity|]. intros m. reflexivity.
  - cbn. lia.
  - intros. apply C96_rejected. right. cbn. lia.
Qed.
