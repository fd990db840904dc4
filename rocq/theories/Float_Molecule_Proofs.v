(** Lemmas for C96. *)
Require Import String List Reals ZArith Bool Lia Lra FunctionalExtensionality.
Require Import Verif.Base Verif.RSum Verif.Common_Model Verif.Common_Proofs Verif.LUT_Model Verif.LUT_Spec Verif.Rotations_Model Verif.Rotations_Spec Verif.Rotations_Proofs Verif.Irreps_Model Verif.Irreps_Spec Verif.Irreps_Proofs Verif.Irreps_Laws_Proofs
  Verif.Symbolic_Model Verif.Wrappers_Model Verif.Wrappers_Spec Verif.Wrappers_Proofs Verif.Wrappers_Props Verif.Embed_Model Verif.Embed_Spec Verif.Embed_Props Verif.Equivariance_Spec Verif.Network_Spec Verif.Locality_Spec Verif.Features_Model Verif.Features_Spec Verif.Modules_Model Verif.Modules_Spec
  Verif.Radial_Model Verif.AutoDiff_Model Verif.AutoDiff_Basis_Model Verif.AutoDiff_Basis_Props Verif.Molecule_Spec Verif.Molecule_Props Verif.Float_Einsum_Model Verif.Float_Einsum_Spec Verif.Float_Harmonics_Model Verif.Float_Harmonics_Spec Verif.Float_Harmonics_Proofs Verif.Float_Harmonics_Props
  Verif.Float_Network_Model Verif.Float_Network_Spec Verif.Float_Network_Proofs Verif.Float_Program_Model Verif.Float_Program_Spec Verif.Float_Program_Proofs Verif.Float_Program_Props Verif.Float_Deep_Model Verif.Float_Deep_Spec Verif.Float_Deep_Proofs Verif.Float_Deep_Props Verif.Float_Molecule_Model Verif.Float_Molecule_Spec.
Import ListNotations.
Open Scope R_scope.

Notation exact := Float_Network_Model.exact.
Notation size := Rotations_Spec.size.
Notation entry_of := Wrappers_Spec.entry_of.

(** * Displacements *)
Lemma displacement_converges A e k : converges (displacement A e k) /\ exact (displacement A e k) = components (plus (position A (snd e)) (times (-1) (position A (fst e)))) k.
Proof.
  unfold displacement. apply apply_both; [apply converges_stored|apply converges_stored|cbn; auto|].
  cbn [AutoDiff_Model.value obind both binary_value]. f_equal. unfold stored_position. cbn [Float_Network_Model.exact]. rewrite !ideal_stored. unfold components.
  destruct (position A (snd e)) as [[x y] z], (position A (fst e)) as [[x' y'] z']. destruct k as [|[|[|k]]]; cbn; try ring. destruct k; ring.
Qed.

Section Vector.
Variables (r : nat -> tree number) (v : vec).
Hypothesis R1 : forall k, converges (r k).
Hypothesis R2 : forall k, exact (r k) = components v k.

Lemma norm_converges : converges (vector_norm r) /\ exact (vector_norm r) = size v.
Proof using R1 R2.
  apply converges_apply; [exact R1|cbn; auto|]. cbn. rewrite !R2. f_equal. rewrite <- distance_size. reflexivity.
Qed.

Lemma unit_converges k : 0 < size v -> converges (unit_vector r k) /\ exact (unit_vector r k) = components (heading v) k.
Proof using R1 R2.
  intro P. destruct norm_converges as [N1 N2]. unfold unit_vector. set (n := vector_norm r) in *. clearbody n. specialize (R1 k). specialize (R2 k). set (rk := r k) in *. clearbody rk. apply apply_both; [exact R1|exact N1| |].
  - cbn -[Float_Network_Model.exact]. rewrite N2. unfold Rltb. destruct (Rlt_dec 0 (size v)); [|contradiction]. cbn. split; [exact I|]. split; [|intro Q; injection Q as Q; lra].
    split; [auto|]. left. split; [intro Q; injection Q as Q; lra|]. auto.
  - cbn -[Float_Network_Model.exact]. rewrite N2, R2. unfold Rltb. destruct (Rlt_dec 0 (size v)); [|contradiction]. cbn. unfold Reqb. destruct (Req_EM_T (size v) 0); [lra|]. f_equal.
    unfold heading. destruct (Req_EM_T (size v) 0); [lra|]. unfold unit_of, components. destruct v as [[x y] z]. destruct k as [|[|[|k]]]; cbn; try (field; assumption). destruct k; field; assumption.
Qed.
End Vector.

(** * Spherical harmonics *)
Section Basis.
Variables (erf : R -> R) (eps : R) (empty : nat) (FM : float_model) (exceptions : R -> Prop).
Notation M := (f_model FM).
Hypothesis RM : runs_model erf eps FM exceptions.
Hypothesis DEG : (0 <= m_degree M)%Z.
Variable tab : sh_table R.
Hypothesis TR : table_read (m_degree M) (Ok tab).

Lemma harmonic_converges r v e c ys b : (forall k, converges (r k)) -> (forall k, exact (r k) = components v k) -> 0 < size v ->
  forall rs, solid_returns (map heading rs) (m_degree M) (m_cartesian M) ys -> nth_error rs b = Some v -> (c < degrees (m_degree M) * degrees (m_degree M))%nat ->
  converges (harmonic empty FM tab r e c) /\ exact (harmonic empty FM tab r e c) = at2 ys b c.
Proof using RM DEG TR.
  intros R1 R2 P rs SR NB HC. destruct RM as (_ & _ & _ & _ & _ & HH). split.
  - unfold harmonic. apply converges_subst. intros [k|i|]; [exact (proj1 (unit_converges r v R1 R2 k P))|apply converges_stored|apply converges_stored].
  - unfold harmonic. rewrite (subst_sum _ _ _ _ (HH e (harmonic_column empty FM c))). set (L := Z.to_nat (m_degree M)) in *.
    destruct TR as (w & s & o & Hw & Hc & ET). destruct (table_entries w (m_degree M) s o Hw Hc DEG) as (t & E & Hv). rewrite ET in E. injection E as <-. fold L in Hv.
    destruct (block_decomp c) as (l & k & -> & Hk & _). unfold degrees in HC. fold L in HC. assert (Hl : (l <= L)%nat) by nia.
    assert (HM : (pos (m_cartesian M) l k < 2 * l + 1)%nat) by now apply pos_lt. set (m := pos (m_cartesian M) l k) in *.
    assert (CO : harmonic_column empty FM (l * l + k) = (l * l + m)%nat).
    { unfold harmonic_column. fold L. unfold m, pos. destruct (m_cartesian M); [now apply cart_perm_nth|]. rewrite seq_nth; [reflexivity|]. cbn. nia. }
    rewrite CO. destruct (normalization_known "racah" l racah_known) as [NK _].
    assert (CC : column_constant "racah" (l * l + m) = const_of "racah" l) by (unfold column_constant; now rewrite sqrt_position, NK).
    apply solid_inv in SR as [_ F]. assert (NB' : nth_error (map heading rs) b = Some (heading v)) by (rewrite nth_error_map, NB; reflexivity).
    destruct (Forall2_get _ _ _ _ _ [] _ _ F NB') as [[_ RW] _]. unfold at2. rewrite RW by assumption. fold m. destruct (heading v) as [[x y] z] eqn:HV.
    rewrite <- (exact_value L l m Hl HM (const_of "racah" l) x y z). unfold sum_of_products. f_equal. apply map_ext_in. intros p IP. f_equal. apply map_ext_in. intros a IA.
    destruct a as [j|i|]; unfold exact_operands; cbn [harmonic_env].
    + rewrite (proj2 (unit_converges r v R1 R2 j P)), HV. reflexivity.
    + cbn [Float_Network_Model.exact]. rewrite ideal_stored. destruct (Nat.ltb_spec i (num_car L)) as [HI|HI]; [now apply Hv|].
      exfalso. unfold harmonic_terms in IP. apply in_map_iff in IP as (q & <- & IQ). apply in_seq in IQ. apply in_app_or in IA as [IA|[IA|[IA|[]]]]; [|injection IA as <-; rewrite <- all_powers_length in HI; lia|discriminate].
      unfold factors in IA. repeat (apply in_app_or in IA as [IA|IA]); apply repeat_spec in IA; discriminate.
    + cbn [Float_Network_Model.exact]. rewrite ideal_stored. exact CC.
Qed.

(** * The arrays that [basis] returns *)
Variable A : molecule.
Hypothesis PM : proper_model M.
Hypothesis NE : pairs A <> [].
Hypothesis AP : Float_Molecule_Spec.apart A exceptions.
Variable y : basis_output.
Hypothesis HY : basis_returns (m_tiny M) (displacements (position A) (pairs A)) (m_degree M) (m_num M) (fun x _ => Ok (map (m_radial M) x))
  (option_map Molecule_Spec.everywhere (m_cutoff M)) (m_return_cutoff M) false (option_map Molecule_Spec.everywhere (m_damping M)) (m_cartesian M) y.

Lemma pair_size p : In p (pairs A) -> let v := plus (position A (snd p)) (times (-1) (position A (fst p))) in 0 < size v /\ ~ exceptions (size v).
Proof using AP. intro I. exact (AP p I). Qed.

Lemma routine_converges F f p : realizes F f exceptions -> In p (pairs A) ->
  let n := vector_norm (displacement A p) in converges (F n) /\ exact (F n) = f (Molecule_Spec.distance A p).
Proof using AP.
  intros H I n. destruct (norm_converges (displacement A p) _ (fun k => proj1 (displacement_converges A p k)) (fun k => proj2 (displacement_converges A p k))) as [N1 N2].
  destruct (pair_size p I) as [P X]. unfold Molecule_Spec.distance. rewrite <- N2. apply H; rewrite ?N2; [lra|exact X|exact N1].
Qed.

Lemma entry_converges e p c f : nth_error (pairs A) e = Some p -> (c < degrees (m_degree M) * degrees (m_degree M))%nat -> (f < Z.to_nat (m_num M))%nat ->
  converges (basis_entry empty FM tab (displacement A p) e c f) /\ exact (basis_entry empty FM tab (displacement A p) e c f) = entry_of y e c f.
Proof using RM DEG TR PM NE AP HY.
  intros NP HC HF. pose proof (nth_error_In _ _ NP) as I. destruct PM as (_ & _ & Ht & _ & Hg & Hrc). assert (Hne' : displacements (position A) (pairs A) <> []) by (destruct (pairs A); [contradiction|discriminate]).
  destruct (basis_values _ _ _ _ _ _ _ _ _ _ _ Ht Hne' DEG Hg Hrc HY) as [_ (ys & SR & V)]. set (v := plus (position A (snd p)) (times (-1) (position A (fst p)))).
  assert (NV : nth_error (displacements (position A) (pairs A)) e = Some v) by (unfold displacements; rewrite nth_error_map, NP; reflexivity).
  rewrite (V e v c f NV HC HF). destruct (pair_size p I) as [P _].
  destruct (harmonic_converges _ v e c ys e (fun k => proj1 (displacement_converges A p k)) (fun k => proj2 (displacement_converges A p k)) P _ SR NV HC) as [H1 H2].
  pose proof RM as (_ & _ & RR & RC & RD & _). destruct (routine_converges _ _ p (RR f HF) I) as [R1 R2]. change (Molecule_Spec.distance A p) with (size v) in R2. cbv beta in R2.
  unfold basis_entry. set (n := vector_norm (displacement A p)) in *.
  set (rbf := match f_cutoff FM with Some g => Product (f_radial FM f n) (g n) | None => f_radial FM f n end).
  assert (RB : converges rbf /\ exact rbf = nth f (m_radial M (size v)) 0 * Molecule_Props.factor (m_cutoff M) (size v)).
  { unfold rbf. destruct (f_cutoff FM) as [F|], (m_cutoff M) as [g|]; try contradiction; cbn [Molecule_Props.factor].
    - destruct (routine_converges _ _ p RC I) as [C1 C2]. split; [now apply converges_product|]. cbn [Float_Network_Model.exact]. fold n in C2. now rewrite R2, C2.
    - split; [exact R1|]. rewrite R2. ring. }
  clearbody rbf. destruct RB as [B1 B2]. destruct (f_damping FM) as [F|], (m_damping M) as [g|]; try contradiction; cbn [Molecule_Props.factor].
  - destruct (routine_converges _ _ p RD I) as [C1 C2]. fold n in C1, C2. change (Molecule_Spec.distance A p) with (size v) in C2. destruct (c =? 0)%nat.
    + split; [now apply converges_product|]. cbn [Float_Network_Model.exact]. rewrite H2, B2. ring.
    + split; [now repeat apply converges_product|]. cbn [Float_Network_Model.exact]. rewrite H2, B2, C2. ring.
  - split; [now apply converges_product|]. cbn [Float_Network_Model.exact]. rewrite H2, B2. destruct (c =? 0)%nat; ring.
Qed.

Lemma basis_value : Float_Network_Model.value (float_basis empty FM tab A) = edge_features (m_dtype M) (length (pairs A)) (m_degree M) (m_num M) y.
Proof using RM DEG TR PM NE AP HY.
  unfold Float_Network_Model.value, float_basis, edge_features. cbn [tfB tfS tfD tfF tfdt tfv]. f_equal. extensionality i. extensionality q. extensionality d. extensionality f.
  destruct i as [|e [|? ?]]; [reflexivity| |reflexivity]. destruct (nth_error (pairs A) e) as [p|] eqn:NP.
  - assert (Le : (e < length (pairs A))%nat) by (apply nth_error_Some; congruence). destruct (Nat.ltb_spec e (length (pairs A))); [|lia]. cbn [andb].
    destruct (Nat.ltb_spec f (Z.to_nat (m_num M))) as [HF|HF]; [|rewrite andb_false_r; reflexivity]. rewrite andb_true_r.
    destruct (Nat.ltb_spec d (degrees (m_degree M) * degrees (m_degree M))) as [HD|HD]; [exact (proj2 (entry_converges e p d f NP HD HF))|].
    destruct PM as (_ & _ & Ht & _ & Hg & Hrc). assert (Hne' : displacements (position A) (pairs A) <> []) by (destruct (pairs A); [contradiction|discriminate]).
    assert (Hrc' : m_return_cutoff M = true -> option_map Molecule_Spec.everywhere (m_cutoff M) <> None) by (intros X; specialize (Hrc X); destruct (m_cutoff M); [discriminate|contradiction]).
    destruct (basis_inv _ _ _ _ _ _ _ _ _ _ _ _ _ _ Ht Hne' DEG (radial_everywhere _ _ _ Hg) (factor_everywhere _ _) (factor_everywhere _ _) Hrc' HY) as (ys & _ & _ & _ & LV & SH & _).
    unfold Wrappers_Spec.entry_of. unfold displacements in LV. rewrite map_length in LV. rewrite Forall_forall in SH. destruct (SH (nth e (values y) [])) as (mm & -> & LM & _); [apply nth_In; lia|].
    cbn [nth]. rewrite (nth_overflow mm) by lia. destruct f; reflexivity.
  - apply nth_error_None in NP. destruct (Nat.ltb_spec e (length (pairs A))); [lia|]. reflexivity.
Qed.

Lemma basis_converging : converging (float_basis empty FM tab A).
Proof using RM DEG TR PM NE AP HY.
  intros i s d f. cbn [float_basis tfv]. destruct i as [|e [|? ?]]; try apply converges_nothing. destruct (nth_error (pairs A) e) as [p|] eqn:NP; [|apply converges_nothing].
  destruct (Nat.ltb_spec d (degrees (m_degree M) * degrees (m_degree M))) as [HD|]; [|apply converges_nothing]. destruct (Nat.ltb_spec f (Z.to_nat (m_num M))) as [HF|]; [|apply converges_nothing].
  exact (proj1 (entry_converges e p d f NP HD HF)).
Qed.

Lemma cutoffs_value : option_map (fun c i => exact (c i)) (float_cutoffs FM A) = edge_cutoffs y.
Proof using RM DEG PM NE AP HY.
  destruct PM as (_ & _ & Ht & _ & Hg & Hrc). assert (Hne' : displacements (position A) (pairs A) <> []) by (destruct (pairs A); [contradiction|discriminate]).
  destruct (basis_values _ _ _ _ _ _ _ _ _ _ _ Ht Hne' DEG Hg Hrc HY) as [EC _]. unfold edge_cutoffs, float_cutoffs. rewrite EC. destruct (m_return_cutoff M); [|reflexivity].
  destruct RM as (_ & _ & _ & RC & _ & _). destruct (f_cutoff FM) as [F|], (m_cutoff M) as [g|]; try contradiction; [|destruct (Hrc eq_refl eq_refl)]. cbn [option_map Molecule_Props.factor]. f_equal. extensionality i.
  destruct i as [|e [|? ?]]; try reflexivity. destruct (nth_error (pairs A) e) as [p|] eqn:NP.
  - rewrite (proj2 (routine_converges _ _ p RC (nth_error_In _ _ NP))). symmetry. apply nth_error_nth. unfold displacements. rewrite map_map, nth_error_map, NP. reflexivity.
  - apply nth_error_None in NP. rewrite nth_overflow; [reflexivity|]. unfold displacements. now rewrite !map_length.
Qed.

Lemma cutoffs_converge c : float_cutoffs FM A = Some c -> forall i, converges (c i).
Proof using RM AP.
  clear PM HY. unfold float_cutoffs. destruct (m_return_cutoff M); [|discriminate]. destruct RM as (_ & _ & _ & RC & _ & _). destruct (f_cutoff FM) as [F|], (m_cutoff M) as [g|]; try contradiction; [|discriminate]. intro E. injection E as <-. intro i.
  destruct i as [|e [|? ?]]; try apply converges_nothing. destruct (nth_error (pairs A) e) as [p|] eqn:NP; [|apply converges_nothing]. exact (proj1 (routine_converges _ _ p RC (nth_error_In _ _ NP))).
Qed.
End Basis.

(** * Embeddings *)
Lemma embedding_good M A e : proper_molecule M A -> embed (m_species M) (m_features M) None (m_dtype M) (m_embedding M) true [atoms A] (fun i => Molecule_Spec.number A (nth 0 i 0%nat)) = Ok e ->
  converging (float_embedding e) /\ as_features e (Float_Network_Model.value (float_embedding e)) /\ has_scalars (Float_Network_Model.value (float_embedding e)).
Proof.
  intros (_ & _ & HN) E. injection E as <-. unfold float_embedding. cbn [e_batch e_features e_dtype e_value].
  assert (V : forall i f, in_batch [atoms A] i = true -> exists v, match take_row (m_species M) (Molecule_Spec.number A (nth 0 i 0%nat)) with Some k => Some (m_embedding M k f) | None => None end = Some v).
  { intros [|n [|? ?]] f IB; cbn [in_batch] in IB; try discriminate; [|rewrite andb_false_r in IB; discriminate]. rewrite andb_true_r in IB. apply Nat.ltb_lt in IB. specialize (HN n IB). cbn [nth].
    rewrite (proj2 (take_row_spec (m_species M) (Molecule_Spec.number A n) (Z.to_nat (Molecule_Spec.number A n)))) by (split; [lia|left; lia]). eauto. }
  split; [|split].
  - intros i s d f. cbn [tfv]. destruct (in_batch [atoms A] i) eqn:IB; [|apply converges_nothing]. destruct (V i f IB) as [v ->]. apply converges_stored.
  - repeat (split; [reflexivity|]). intros i f IN. cbn [e_batch e_value Float_Network_Model.value fv tfv] in *.
    assert (IB : in_batch [atoms A] i = true). { destruct i as [|n [|? ?]]; cbn [inside] in IN; try tauto. destruct IN as [IN _]. cbn. rewrite andb_true_r. now apply Nat.ltb_lt. }
    rewrite IB. destruct (V i f IB) as [v ->]. cbn. reflexivity.
  - exists 0%nat. split; [now left|reflexivity].
Qed.
