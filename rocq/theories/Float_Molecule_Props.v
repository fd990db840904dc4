(** Property C96: predictions for molecules on machines approach the predictions without rounding when the precision grows. *)
Require Import String List Reals ZArith Bool Lia Lra FunctionalExtensionality.
Require Import Verif.Base Verif.RSum Verif.Common_Model Verif.Common_Proofs Verif.LUT_Model Verif.LUT_Spec Verif.Rotations_Model Verif.Rotations_Spec Verif.Rotations_Proofs Verif.Irreps_Model Verif.Irreps_Spec Verif.Irreps_Proofs Verif.Irreps_Laws_Proofs
  Verif.Symbolic_Model Verif.Wrappers_Model Verif.Wrappers_Spec Verif.Wrappers_Proofs Verif.Wrappers_Props Verif.Embed_Model Verif.Embed_Spec Verif.Embed_Props Verif.Equivariance_Spec Verif.Equivariance_Props Verif.Network_Spec Verif.Network_Props Verif.Shapes_Proofs Verif.Locality_Spec Verif.Features_Model Verif.Features_Spec Verif.Features_Proofs Verif.Modules_Model Verif.Modules_Spec Verif.Modules_Graph_Spec Verif.Structure_Props
  Verif.Radial_Model Verif.AutoDiff_Model Verif.AutoDiff_Spec Verif.AutoDiff_Proofs Verif.AutoDiff_Radial_Proofs Verif.AutoDiff_Radial_Props Verif.AutoDiff_Basis_Model Verif.AutoDiff_Basis_Props Verif.AutoDiff_Props Verif.Molecule_Spec Verif.Molecule_Props Verif.Float_Einsum_Model Verif.Float_Einsum_Spec Verif.Float_Einsum_Props Verif.Float_Harmonics_Model Verif.Float_Harmonics_Spec Verif.Float_Harmonics_Proofs Verif.Float_Harmonics_Props
  Verif.Float_Network_Model Verif.Float_Network_Spec Verif.Float_Network_Proofs Verif.Float_Network_Props Verif.Float_Program_Model Verif.Float_Program_Spec Verif.Float_Program_Proofs Verif.Float_Program_Props Verif.Float_Deep_Model Verif.Float_Deep_Spec Verif.Float_Deep_Proofs Verif.Float_Deep_Props Verif.Float_Molecule_Model Verif.Float_Molecule_Spec Verif.Float_Molecule_Proofs.
Import ListNotations.
Open Scope R_scope.

(** * Predictions without rounding are unique *)
Lemma same_molecule A : moved 1 unit_matrix (0, 0, 0) same_numbers same_numbers A A.
Proof.
  split; [reflexivity|]. split; [reflexivity|]. split; [|auto]. intros n _. split; [reflexivity|]. unfold same_numbers, turned_by. rewrite act_unit. destruct (position A n) as [[x y] z]. cbn. repeat apply f_equal2; ring.
Qed.
Lemma predictions_unique M A ys ys' : proper_model M -> proper_molecule M A -> close_enough M A -> predicts M A ys -> predicts M A ys' ->
  Forall2 (fun y y' => fS y' = fS y /\ fD y' = fD y /\ fF y' = fF y /\ forall n p l k f, (n < atoms A)%nat -> (p < 2)%nat -> (k < 2 * l + 1)%nat -> comp y' [n] p l k f = comp y [n] p l k f)
    ys ys' \/ atoms A = 0%nat.
Proof.
  intros PM PA CE P P'. destruct (Nat.eq_dec (atoms A) 0) as [Z|NZ]; [now right|left].
  destruct (C72_molecule M A A 1 unit_matrix (0, 0, 0) _ same_numbers same_numbers same_numbers same_numbers PM PA CE Molecule_Props.unit_rotation (wigner_entries_matrix (m_cartesian M) unit_matrix) (or_introl eq_refl) (renumbering_same _) (renumbering_same _) (same_molecule A)) as [_ H].
  specialize (H ys ys' P P'). clear - H NZ. induction H as [|y y' ys ys' H _ IH]; constructor; [|exact IH]. destruct (H 0%nat ltac:(lia)) as (S & D & F & _). repeat (split; [assumption|]).
  intros n p l k f N P K. destruct (H n N) as (_ & _ & _ & Q). destruct (Q f) as (_ & _ & E). unfold same_numbers in E. rewrite (E p l k P K), (rsum_single _ _ k K).
  - rewrite unit_entries, Nat.eqb_refl. unfold parity_sign. destruct (p =? 1)%nat; ring.
  - intros j J N'. rewrite unit_entries. destruct (Nat.eqb_spec (l * l + j) (l * l + k)); [lia|ring].
Qed.

(** * The main lemma *)
Section Limits.
Variables (erf derf : R -> R) (eps : R) (empty : nat) (FM : float_model) (exceptions : R -> Prop) (table : result (sh_table R)) (A : molecule).
Notation M := (f_model FM).
Hypothesis rule : erf_rule erf derf.
Hypothesis positive : 0 < eps.
Hypothesis PM : proper_model M.
Hypothesis RM : runs_model erf eps FM exceptions.
Hypothesis TR : table_read (m_degree M) table.
Hypothesis PA : proper_molecule M A.
Hypothesis AP : Float_Molecule_Spec.apart A exceptions.
Hypothesis RG : regular_molecule erf eps FM A.

Lemma molecule_limits :
  match float_predict erf derf eps empty FM table A with
  | Ok us => exists ys, predicts M A ys /\ Forall has_scalars ys /\ Forall2 same_feature (map Float_Network_Model.value us) ys /\ Forall converging us
  | Err _ => ~ exists ys, predicts M A ys
  end.
Proof using rule positive PM RM TR PA AP RG.
  pose proof PM as (UP & PC & Ht & HL & Hg & Hrc). pose proof PA as (Hne & _ & Hz). pose proof RM as (EC & PS & _ & RCU & _).
  assert (Hne' : displacements (position A) (pairs A) <> []) by (destruct (pairs A); [contradiction|discriminate]).
  assert (TT : exists tab, table = Ok tab). { destruct TR as (w & s & o & Hw & Hc & ET). destruct (table_entries w (m_degree M) s o Hw Hc HL) as (t & E & _). exists t. congruence. }
  destruct TT as [tab ->].
  destruct (basis_exists (m_tiny M) (displacements (position A) (pairs A)) (m_degree M) (m_num M) (m_radial M) (m_cutoff M) (m_damping M) (m_return_cutoff M) false (m_cartesian M) Ht Hne' HL Hg Hrc) as [y HY].
  unfold float_predict. destruct (embed (m_species M) (m_features M) None (m_dtype M) (m_embedding M) true [atoms A] (fun i => Molecule_Spec.number A (nth 0 i 0%nat))) as [e|er] eqn:EE.
  2: { intros (ys & e & x & y' & E & _). congruence. }
  cbn [bind]. destruct (embedding_good M A e PA EE) as (CE & AE & SE).
  assert (RC : (m_return_cutoff M && match f_cutoff FM with None => true | Some _ => false end)%bool = false).
  { destruct (m_return_cutoff M) eqn:ER; [|reflexivity]. specialize (Hrc eq_refl). destruct (f_cutoff FM), (m_cutoff M); try reflexivity; contradiction. }
  rewrite RC. assert (CD : check_degree (m_degree M) = Ok (Z.to_nat (m_degree M))) by (unfold check_degree; destruct (Z.ltb_spec (m_degree M) 0); [lia|reflexivity]). rewrite CD. cbn [bind].
  pose proof (basis_value erf eps empty FM exceptions RM HL tab TR A PM Hne AP y HY) as BV. pose proof (cutoffs_value erf eps FM exceptions RM HL A PM Hne AP y HY) as CV.
  assert (HB : edge_basis (Some (float_basis empty FM tab A))).
  { intros bs E. injection E as <-. split; [cbn [float_basis tfD]; unfold degrees; nia|]. exists (degrees (m_degree M)). split; [now left|reflexivity]. }
  pose proof (deep_run_limits (m_cartesian M) (m_cg M) erf derf eps UP rule positive (m_low M) (m_high M) (float_cutoffs FM A) (Some (float_basis empty FM tab A)) (sparse_graph (map fst (pairs A)) (map snd (pairs A))) (f_steps FM) HB) as Q.
  cbn [option_map] in Q. rewrite BV, CV in Q. specialize (Q ltac:(intros bs E; injection E as <-; exact (basis_converging erf eps empty FM exceptions RM HL tab TR A PM Hne AP y HY)) (cutoffs_converge erf eps FM exceptions RM A AP) PS [float_embedding e] [Float_Network_Model.value (float_embedding e)]).
  specialize (Q ltac:(constructor; [exact SE|constructor]) ltac:(constructor; [apply same_refl|constructor]) ltac:(constructor; [exact CE|constructor]) (RG e _ y EE AE HY)). rewrite <- EC in Q.
  set (x := Float_Network_Model.value (float_embedding e)) in *. set (us0 := deep_run _ _ _ _ _ _ _ _ _ _ _) in *.
  destruct us0 as [us|er], (run _ _ _ _ _ _ [x] (m_calls M)) as [ys|er2] eqn:RY; try contradiction.
  - destruct Q as [SU CU]. exists ys. split; [exists e, x, y; auto|]. split; [|auto]. refine (run_scalars _ _ _ (C67_checked _ _ UP) _ _ _ _ _ _ PC _ RY). constructor; [exact SE|constructor].
  - intros (ys & e' & x' & y' & EE' & AE' & HY' & R'). rewrite EE in EE'. injection EE' as <-.
    destruct (embed_part M A e x' EE AE') as [X1 [X2 [X3 [X4 [X5 _]]]]]. destruct (embed_part M A e x EE AE) as [Y1 [Y2 [Y3 [Y4 [Y5 _]]]]].
    destruct (run_like (m_cg M) (m_low M) (m_high M) (C67_checked _ _ UP) (Some (edge_features (m_dtype M) (length (pairs A)) (m_degree M) (m_num M) y')) (Some (edge_features (m_dtype M) (length (pairs A)) (m_degree M) (m_num M) y))
      (edge_cutoffs y') (edge_cutoffs y) (sparse_graph (map fst (pairs A)) (map snd (pairs A))) (sparse_graph (map fst (pairs A)) (map snd (pairs A))) (m_calls M) [x'] [x] ys PC) as [ys' [H' _]]; [| | | |exact R'|congruence].
    + constructor; [|constructor]. exists 0%nat. split; [now left|exact X3].
    + constructor; [|constructor]. repeat split; congruence.
    + repeat split.
    + repeat split; auto.
Qed.
End Limits.

Lemma atoms_limit N t y : has_scalars y -> same_feature (Float_Network_Model.value t) y -> converging t -> approaches_atoms N t y.
Proof.
  intros HS SF CT. pose proof SF as (_ & S & D & F & _). cbn [Float_Network_Model.value fS fD fF] in S, D, F. repeat (split; [congruence|]). intros n p l k f _ P K.
  destruct (scalars_same _ _ HS (same_sym _ _ SF)) as [d V]. rewrite <- (same_feature_comp _ _ _ V SF [n] p l k f P K), <- tree_comp_exact. now apply comp_converges.
Qed.

(** * The property *)
(** Displacement vectors, distances, radial functions, cutoffs, spherical harmonics, embeddings and the layers of the network are all
    computed with rounding, in any orders of evaluation.  The machine accepts the same molecules as the model without rounding, and all
    features of all atoms approach those without rounding when the precision grows. *)
Theorem C96_molecule erf derf eps empty FM exceptions table A : erf_rule erf derf -> 0 < eps -> admissible erf eps FM exceptions table A ->
  let M := f_model FM in
  ((exists us, float_predict erf derf eps empty FM table A = Ok us) <-> exists ys, predicts M A ys) /\
  forall us ys, float_predict erf derf eps empty FM table A = Ok us -> predicts M A ys -> Forall2 (approaches_atoms (atoms A)) us ys.
Proof.
  intros ER EP (PM & RM & TR & PA & CE & AP & RG) M. pose proof (molecule_limits erf derf eps empty FM exceptions table A ER EP PM RM TR PA AP RG) as Q. fold M in Q.
  destruct (float_predict erf derf eps empty FM table A) as [us|er]; [|split; [split; [intros [us E]; discriminate|intro X; contradiction]|discriminate]].
  destruct Q as (ys0 & P0 & HS & SF & CU). split; [split; eauto|]. intros us' ys E P. injection E as <-.
  assert (L0 : Forall2 (approaches_atoms (atoms A)) us ys0).
  { remember (map Float_Network_Model.value us) as l eqn:El. clear - SF CU HS El. revert us El CU. induction SF as [|x y l ys SX SF IH]; intros [|t us] El CU; try discriminate; constructor; inversion CU; inversion HS; subst; injection El as -> ->; [now apply atoms_limit|now apply IH]. }
  destruct (predictions_unique M A ys0 ys PM PA CE P0 P) as [U|Z]; [|destruct PA as (NE & FA & _); destruct (pairs A) as [|p ps]; [contradiction|]; inversion FA; subst; rewrite Z in *; lia].
  clear - L0 U. revert ys U. induction L0 as [|t y us ys0 H _ IH]; intros ys U; inversion U as [|? y' ? ys' Y U']; subst; constructor; [|now apply IH].
  destruct H as (S & D & F & V), Y as (S' & D' & F' & V'). repeat (split; [congruence|]). intros n p l k f N P K. rewrite V' by assumption. now apply V.
Qed.
Print Assumptions C96_molecule.

(** The sum of a scalar feature over the atoms, for example an energy, in any order of addition. *)
Theorem C96_total erf derf eps empty FM exceptions table A k f v e : erf_rule erf derf -> 0 < eps -> admissible erf eps FM exceptions table A ->
  let M := f_model FM in
  total M A k f v -> adds_atoms (atoms A) e ->
  exists us u, float_predict erf derf eps empty FM table A = Ok us /\ nth_error us k = Some u /\ approaches (fun m => on m (float_total e u f)) v.
Proof.
  intros ER EP (PM & RM & TR & PA & CE & AP & RG) M T AD. pose proof (molecule_limits erf derf eps empty FM exceptions table A ER EP PM RM TR PA AP RG) as Q. fold M in Q.
  destruct (float_predict erf derf eps empty FM table A) as [us|er]; [|destruct T as (ys & y & P & _); destruct Q; now exists ys].
  destruct Q as (ys & P & HS & SF & CU). exists us. 
  assert (ND : exists ys' y', predicts M A ys' /\ nth_error ys' k = Some y' /\ v = rsum (atoms A) (fun n => comp y' [n] 0 0 0 f)) by exact T. destruct ND as (ys' & y' & P' & N' & V').
  destruct (predictions_unique M A ys' ys PM PA CE P' P) as [U|Z]; [|destruct PA as (NE & FA & _); destruct (pairs A) as [|p ps]; [contradiction|]; inversion FA; subst; rewrite Z in *; lia].
  assert (Y : exists y, nth_error ys k = Some y /\ forall n, (n < atoms A)%nat -> comp y [n] 0 0 0 f = comp y' [n] 0 0 0 f).
  { clear - U N'. revert k N'. induction U as [|a b ys' ys H _ IH]; intros [|k] N'; try discriminate; [injection N' as ->; exists b; split; [reflexivity|]; intros n N; apply H; lia|exact (IH k N')]. }
  destruct Y as (y & NY & VY).
  assert (UU : exists u, nth_error us k = Some u /\ same_feature (Float_Network_Model.value u) y /\ converging u /\ has_scalars y).
  { remember (map Float_Network_Model.value us) as l eqn:El. clear - SF CU HS El NY. revert us k NY El CU. induction SF as [|x z l ys SX SF IH]; intros [|t us] [|k] NY El CU; try discriminate; inversion CU; inversion HS; subst; injection El as -> El; [injection NY as ->; exists t; auto|exact (IH ltac:(assumption) us k NY El ltac:(assumption))]. }
  destruct UU as (u & NU & SU & CO & HY). exists u. split; [reflexivity|]. split; [exact NU|].
  assert (EX : exact (float_total e u f) = v).
  { unfold float_total. rewrite (subst_sum _ _ _ _ AD). rewrite sop_map, V'. apply rsum_ext. intros n I. cbn [map fold_right]. rewrite tree_comp_exact.
    destruct (scalars_same _ _ HY (same_sym _ _ SU)) as [d VA]. rewrite (same_feature_comp _ _ _ VA SU [n] 0 0 0 f) by lia. rewrite (VY n) by lia. ring. }
  rewrite <- EX. apply converges_subst. intro n. now apply comp_converges.
Qed.
Print Assumptions C96_total.

(** * The basis functions *)
(** What [basis] returns for the pairs of a molecule: basis functions and cutoffs. *)
Theorem C96_basis erf eps empty FM exceptions tab A y : admissible erf eps FM exceptions (Ok tab) A ->
  let M := f_model FM in
  basis_returns (m_tiny M) (displacements (position A) (pairs A)) (m_degree M) (m_num M) (fun x _ => Ok (map (m_radial M) x))
    (option_map Molecule_Spec.everywhere (m_cutoff M)) (m_return_cutoff M) false (option_map Molecule_Spec.everywhere (m_damping M)) (m_cartesian M) y ->
  (forall e c f, (e < length (pairs A))%nat -> (c < (Z.to_nat (m_degree M) + 1) * (Z.to_nat (m_degree M) + 1))%nat -> (f < Z.to_nat (m_num M))%nat ->
     approaches (fun m => on m (tfv (float_basis empty FM tab A) [e] 0%nat c f)) (entry_of y e c f)) /\
  match float_cutoffs FM A, cutoffs y with
  | Some c, Some l => forall e, (e < length (pairs A))%nat -> approaches (fun m => on m (c [e])) (nth e l 0)
  | None, None => True
  | _, _ => False
  end.
Proof.
  intros (PM & RM & TR & PA & CE & AP & RG) M HY. pose proof PM as (_ & _ & _ & HL & _). pose proof PA as (NE & _).
  pose proof (basis_value erf eps empty FM exceptions RM HL tab TR A PM NE AP y HY) as BV. pose proof (basis_converging erf eps empty FM exceptions RM HL tab TR A PM NE AP y HY) as BC. split.
  - intros e c f E C F. pose proof (BC [e] 0%nat c f) as Q. unfold converges in Q.
    assert (V : exact (tfv (float_basis empty FM tab A) [e] 0%nat c f) = fv (edge_features (m_dtype M) (length (pairs A)) (m_degree M) (m_num M) y) [e] 0%nat c f) by (unfold M; rewrite <- BV; reflexivity).
    rewrite V in Q. cbn [edge_features fv] in Q. destruct (Nat.ltb_spec e (length (pairs A))); [|lia]. destruct (Nat.ltb_spec f (Z.to_nat (m_num M))); [|lia]. exact Q.
  - pose proof (cutoffs_value erf eps FM exceptions RM HL A PM NE AP y HY) as CV. pose proof (cutoffs_converge erf eps FM exceptions RM A AP) as CC. unfold edge_cutoffs in CV.
    destruct (float_cutoffs FM A) as [c|], (cutoffs y) as [l|]; cbn [option_map] in CV; try discriminate; [|exact I]. injection CV as CV. intros e _. pose proof (CC c eq_refl [e]) as Q. unfold converges in Q.
    assert (V : exact (c [e]) = nth e l 0) by (pose proof (f_equal (fun h => h [e]) CV) as V; exact V). now rewrite V in Q.
Qed.
Print Assumptions C96_basis.

(** * Moved molecules *)
Lemma sum_close n c d v (D : nat -> R) e : 0 <= e -> (forall k, (k < n)%nat -> Rabs (v k - c k) <= e) -> d = rsum n (fun k => c k * D k) ->
  Rabs (rsum n (fun k => v k * D k) - d) <= e * rsum n (fun k => Rabs (D k)).
Proof.
  intros E H ->. rewrite <- rsum_minus. induction n as [|n IH]; [cbn; rewrite Rabs_R0; lra|]. cbn [rsum]. eapply Rle_trans; [apply Rabs_triang|]. rewrite Rmult_plus_distr_l. apply Rplus_le_compat; [apply IH; intros k K; apply H; lia|].
  replace (v n * D n - c n * D n) with ((v n - c n) * D n) by ring. rewrite Rabs_mult. apply Rmult_le_compat_r; [apply Rabs_pos|apply H; lia].
Qed.

(** A molecule that is turned, reflected, shifted and numbered in another way, on the same machine but with other orders of evaluation
    and other tables: the features of the atoms are turned up to any error if the machine is precise enough. *)
Theorem C96_moved erf derf eps empty empty' FM FM' exceptions exceptions' table table' A B s m t D h h' r r' us us' : erf_rule erf derf -> 0 < eps ->
  admissible erf eps FM exceptions table A -> admissible erf eps FM' exceptions' table' B -> f_model FM' = f_model FM ->
  proper_rotation m -> wigner_matrix (m_cartesian (f_model FM)) m D -> s = 1 \/ s = -1 ->
  renumbering (atoms A) h h' -> renumbering (length (pairs A)) r r' -> moved s m t h r A B ->
  float_predict erf derf eps empty FM table A = Ok us -> float_predict erf derf eps empty' FM' table' B = Ok us' ->
  Forall2 (fun u u' => forall n p l k f, (n < atoms A)%nat -> (p < 2)%nat -> (k < 2 * l + 1)%nat -> forall error, 0 < error ->
    eventually (fun mc => exists v v', (forall k', (k' < 2 * l + 1)%nat -> on mc (tree_comp u [n] p l k' f) = Some (v k')) /\ on mc (tree_comp u' [h n] p l k f) = Some v' /\
      Rabs (v' - parity_sign s p * rsum (2 * l + 1) (fun k' => v k' * D (l * l + k')%nat (l * l + k)%nat)) < error)) us us'.
Proof.
  intros ER EP AA AB EM PR WM SG RH RR MV RU RU'. destruct (C96_molecule erf derf eps empty FM exceptions table A ER EP AA) as [IA LA]. destruct (C96_molecule erf derf eps empty' FM' exceptions' table' B ER EP AB) as [IB LB]. rewrite EM in IB, LB.
  destruct AA as (PM & _ & _ & PA & CE & _). destruct (C72_molecule (f_model FM) A B s m t D h h' r r' PM PA CE PR WM SG RH RR MV) as [_ T].
  destruct (proj1 IA ltac:(eauto)) as (ys & PY). destruct (proj1 IB ltac:(eauto)) as (ys' & PY'). specialize (LA us ys RU PY). specialize (LB us' ys' RU' PY'). specialize (T ys ys' PY PY'). destruct MV as (EN & _). rewrite EN in LB.
  assert (HN : forall n, (n < atoms A)%nat -> (h n < atoms A)%nat) by (intros n N; destruct (RH n N) as (Q & _); exact Q).
  clear - LA LB T SG HN. revert us' ys' LB T. induction LA as [|u y us ys Q LA IH]; intros us' ys' LB T.
  - inversion T; subst. inversion LB; subst. constructor.
  - inversion T as [|? y' ? ys1 TY T1]; subst. inversion LB as [|u' ? us1 ? Q' LB1]; subst. constructor; [|exact (IH us1 ys1 LB1 T1)]. clear IH T1 LB1 T LB LA.
    intros n p l k f N P K error E0. destruct Q as (_ & _ & _ & Q), Q' as (_ & _ & _ & Q'), (TY n N) as (_ & _ & _ & TF). destruct (TF f) as (_ & _ & TC). specialize (TC p l k P K).
    set (W := 1 + rsum (2 * l + 1) (fun k' => Rabs (D (l * l + k')%nat (l * l + k)%nat))). assert (WP : 1 <= W) by (unfold W; pose proof (rsum_nonneg (2 * l + 1) (fun k' => Rabs (D (l * l + k')%nat (l * l + k)%nat)) ltac:(intros; apply Rabs_pos)); lra).
    set (e := error / (2 * W)). assert (EP : 0 < e) by (unfold e; apply Rdiv_lt_0_compat; lra).
    assert (EV : eventually (fun mc => (exists v', on mc (tree_comp u' [h n] p l k f) = Some v' /\ Rabs (v' - comp y' [h n] p l k f) < e) /\
      forall k', (k' < 2 * l + 1)%nat -> exists v, on mc (tree_comp u [n] p l k' f) = Some v /\ Rabs (v - comp y [n] p l k' f) < e)).
    { apply eventually_and; [exact (Q' (h n) p l k f (HN n N) P K e EP)|]. apply eventually_below. intros k' K'. exact (Q n p l k' f N P K' e EP). }
    revert EV. apply eventually_mono. intros mc [(v' & E' & BV') H].
    exists (fun k' => match on mc (tree_comp u [n] p l k' f) with Some q => q | None => 0 end), v'. split; [|split; [exact E'|]].
    + intros k' K'. destruct (H k' K') as (q & -> & _). reflexivity.
    + set (v := fun k' => match on mc (tree_comp u [n] p l k' f) with Some q => q | None => 0 end). set (DD := fun k' => D (l * l + k')%nat (l * l + k)%nat).
      assert (SC : Rabs (rsum (2 * l + 1) (fun k' => v k' * DD k') - rsum (2 * l + 1) (fun k' => comp y [n] p l k' f * DD k')) <= e * rsum (2 * l + 1) (fun k' => Rabs (DD k'))).
      { apply (sum_close _ (fun k' => comp y [n] p l k' f)); [lra| |reflexivity]. intros k' K'. unfold v. destruct (H k' K') as (q & -> & BQ). lra. }
      fold (DD : nat -> R) in W. change (rsum (2 * l + 1) (fun k' => v k' * D (l * l + k')%nat (l * l + k)%nat)) with (rsum (2 * l + 1) (fun k' => v k' * DD k')).
      change (rsum (2 * l + 1) (fun k' => comp y [n] p l k' f * D (l * l + k')%nat (l * l + k)%nat)) with (rsum (2 * l + 1) (fun k' => comp y [n] p l k' f * DD k')) in TC. rewrite TC in BV'.
      set (a := rsum (2 * l + 1) (fun k' => v k' * DD k')) in *. set (b := rsum (2 * l + 1) (fun k' => comp y [n] p l k' f * DD k')) in *. change (rsum (2 * l + 1) (fun k' => Rabs (D (l * l + k')%nat (l * l + k)%nat))) with (rsum (2 * l + 1) (fun k' => Rabs (DD k'))) in W. set (w := rsum (2 * l + 1) (fun k' => Rabs (DD k'))) in *.
      assert (WE : e * W < error) by (unfold e; replace (error / (2 * W) * W) with (error / 2) by (field; lra); lra). unfold W in WE.
      assert (PS : Rabs (parity_sign s p * b - parity_sign s p * a) = Rabs (a - b)).
      { rewrite <- Rmult_minus_distr_l, Rabs_mult, (Rabs_minus_sym b a). replace (Rabs (parity_sign s p)) with 1; [ring|]. unfold parity_sign. destruct (p =? 1)%nat; [|now rewrite Rabs_R1]. destruct SG as [-> | ->]; [now rewrite Rabs_R1|rewrite Rabs_left; lra]. }
      assert (GO : Rabs (v' - parity_sign s p * a) < error); [|exact GO]. replace (v' - parity_sign s p * a) with ((v' - parity_sign s p * b) + (parity_sign s p * b - parity_sign s p * a)) by ring.
      apply Rle_lt_trans with (1 := Rabs_triang _ _). rewrite PS. lra.
Qed.
Print Assumptions C96_moved.

(** Energies of moved molecules agree up to any error. *)
Theorem C96_moved_total erf derf eps empty empty' FM FM' exceptions exceptions' table table' A B s m t h h' r r' k f v e e' : erf_rule erf derf -> 0 < eps ->
  admissible erf eps FM exceptions table A -> admissible erf eps FM' exceptions' table' B -> f_model FM' = f_model FM ->
  proper_rotation m -> s = 1 \/ s = -1 -> renumbering (atoms A) h h' -> renumbering (length (pairs A)) r r' -> moved s m t h r A B ->
  total (f_model FM) A k f v -> adds_atoms (atoms A) e -> adds_atoms (atoms B) e' ->
  exists us us' u u', float_predict erf derf eps empty FM table A = Ok us /\ float_predict erf derf eps empty' FM' table' B = Ok us' /\ nth_error us k = Some u /\ nth_error us' k = Some u' /\
    forall error, 0 < error -> eventually (fun mc => exists x x', on mc (float_total e u f) = Some x /\ on mc (float_total e' u' f) = Some x' /\ Rabs (x' - x) < error).
Proof.
  intros ER EP AA AB EM PR SG RH RR MV TV AE AE'. destruct (C96_total erf derf eps empty FM exceptions table A k f v e ER EP AA TV AE) as (us & u & RU & NU & Q). pose proof AA as (PM & _ & _ & PA & CE & _).
  destruct (C72_total (f_model FM) A B s m t h h' r r' k f v PM PA CE PR SG RH RR MV TV) as [TB _].
  destruct (C96_total erf derf eps empty' FM' exceptions' table' B k f v e' ER EP AB) as (us' & u' & RU' & NU' & Q'); [now rewrite EM|exact AE'|]. exists us, us', u, u'. repeat (split; [assumption|]).
  intros error E0. eapply eventually_mono; [|exact (eventually_and _ _ (Q (error / 2) ltac:(lra)) (Q' (error / 2) ltac:(lra)))]. intros mc [(x & X & BX) (x' & X' & BX')]. exists x, x'. repeat (split; [assumption|]).
  replace (x' - x) with ((x' - v) - (x - v)) by ring. unfold Rminus at 1. eapply Rle_lt_trans; [apply Rabs_triang|]. rewrite Rabs_Ropp. lra.
Qed.
Print Assumptions C96_moved_total.
