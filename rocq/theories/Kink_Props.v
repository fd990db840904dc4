(** C79, continued: activations whose gates jump make predictions jump. *)
Require Import List Reals ZArith Bool Lia Lra Permutation.
Require Import ZifyNat FunctionalExtensionality.
Require Import Verif.Base Verif.RSum Verif.Common_Proofs Verif.Features_Model Verif.Features_Spec Verif.Features_Proofs Verif.Modules_Model Verif.Modules_Spec Verif.Modules_Graph_Spec Verif.Modules_Relabel_Proofs
  Verif.Modules_Graph_Props Verif.Rotations_Model Verif.Rotations_Spec Verif.Rotations_Proofs Verif.LUT_Model Verif.LUT_Spec Verif.Irreps_Model Verif.Irreps_Spec Verif.Irreps_Proofs Verif.Irreps_Laws_Proofs Verif.Irreps_Props
  Verif.Wrappers_Model Verif.Wrappers_Spec Verif.Wrappers_Proofs Verif.Wrappers_Props Verif.Embed_Model Verif.Embed_Spec Verif.Embed_Props
  Verif.Equivariance_Spec Verif.Equivariance_Props Verif.Structure_Props Verif.Network_Spec Verif.Network_Props Verif.Shapes_Proofs Verif.Locality_Spec Verif.Locality_Proofs Verif.Locality_Props Verif.Molecule_Spec Verif.Molecule_Props Verif.Accept_Props
  Verif.Symbolic_Model Verif.Clebsch_Model Verif.CGTable_Proofs Verif.Clebsch_Props Verif.Cutoff_Spec Verif.Cutoff_Proofs Verif.Radial_Model Verif.Radial_Props
  Verif.Activations_Model Verif.Activations_Proofs Verif.Cutoff_Props Verif.Regular_Spec Verif.Regular_Class_Proofs Verif.Regular_Props Verif.Parts_Props.
Import ListNotations.
Open Scope R_scope.

(** A vector on every atom that points to the neighbour, and a scalar that is the distance minus two. *)
Definition kink_network : list call :=
  [UseMessagePass 0 (Some 1%Z) false false (mkConv (mkDense (fun l _ a _ => if (l =? a)%nat then 1 else 0) (fun _ => 0)) (PTensor (fun _ m _ _ _ n _ => if (m =? n)%nat then 1 else 0)))].
Definition kink (act : feat -> result feat) : model := mkModel true (package_cg true) 0 0 2 1 0 (fun _ _ => 1) 1 1 2 (fun x => [x - 2; 1]) None None false (kink_network ++ [UseActivation 1 act]).
Definition separation (p : nat -> vec) : vec := plus (p 1%nat) (times (-1) (p 0%nat)).

Lemma kink_step : forall cgf C x b, cgf 1%Z 0%Z 1%Z = Ok C -> fB x = [2%nat] -> fS x = 1%nat -> fD x = 1%nat -> fF x = 1%nat -> fdt x = 0%nat -> exists z,
  run cgf 0 0 (Some (mkFeat [2%nat] 1 4 2 0 b)) None (sparse_graph [0; 1]%nat [1; 0]%nat) [x] kink_network = Ok [x; z] /\ fS z = 1%nat /\ fD z = 4%nat /\ fF z = 1%nat
  /\ fv z [0%nat] 0%nat 0%nat 0%nat = b [0%nat] 0%nat 0%nat 0%nat * fv x [1%nat] 0%nat 0%nat 0%nat * C 0%nat 0%nat 0%nat
  /\ fv z [0%nat] 0%nat 1%nat 0%nat = fv x [1%nat] 0%nat 0%nat 0%nat * (b [0%nat] 0%nat 1%nat 1%nat * C 1%nat 0%nat 1%nat + b [0%nat] 0%nat 2%nat 1%nat * C 2%nat 0%nat 1%nat + b [0%nat] 0%nat 3%nat 1%nat * C 3%nat 0%nat 1%nat).
Proof.
  intros cgf C [xB xS xD xF xd xv] b H. cbn [fB fS fD fF fdt fv]. intros -> -> -> -> ->. eexists. split.
  - unfold kink_network. cbv -[Rplus Rmult IZR Rminus]. rewrite H. cbv -[Rplus Rmult IZR Rminus]. reflexivity.
  - cbn [fS fD fF fv]. split; [reflexivity|]. split; [reflexivity|]. split; [reflexivity|]. cbv -[Rplus Rmult IZR Rminus]. split; ring.
Qed.

Definition kink_molecule (p : nat -> vec) : molecule := mkMolecule 2 (fun n => Z.of_nat n) p [(0, 1); (1, 0)]%nat.
Definition first_coordinate (v : vec) : R := let '(x, _, _) := v in x.

Lemma kink_predicted : forall g p, predicted (kink (gated_linear g)) (kink_molecule p) 2 0 0 1 0 (g (size (separation p) - 2) * first_coordinate (heading (separation p))).
Proof.
  intros g p. set (rs := displacements p [(0, 1); (1, 0)]%nat).
  destruct (C71_scalars 2 1 None 0%nat (fun _ _ => 1) [2%nat] (fun i => Z.of_nat (nth 0 i 0%nat))) as [e [x [Ee [Ax _]]]].
  { intros [|n [|? ?]]; cbn [inside]; try tauto. intros [Hn _]. cbn [nth]. lia. }
  destruct (embed_part (kink (gated_linear g)) (kink_molecule p) e x Ee Ax) as [X1 [X2 [X3 [X4 [X5 XV]]]]]. cbn [kink kink_molecule m_features m_dtype m_species m_embedding atoms number] in X1, X2, X3, X4, X5, XV.
  destruct (basis_exists 1 rs 1 2 (fun x => [x - 2; 1]) None None false false true ltac:(lra) ltac:(discriminate) ltac:(lia) ltac:(reflexivity) ltac:(discriminate)) as [y Hy].
  destruct (basis_values 1 rs 1 2 (fun x => [x - 2; 1]) None None false false true y ltac:(lra) ltac:(discriminate) ltac:(lia) ltac:(reflexivity) ltac:(discriminate) Hy) as [CY [ys [SY VY]]].
  assert (E0 : nth_error rs 0 = Some (separation p)) by reflexivity. destruct (heading (separation p)) as [[h1 h2] h3] eqn:Eh.
  destruct (C21_low_degrees _ _ _ 0%nat h1 h2 h3 _ SY ltac:(rewrite nth_error_map, E0; cbn [option_map]; now rewrite Eh)) as [Y0 Y1]. destruct (Y1 ltac:(lia)) as [Y2 [Y3 Y4]].
  assert (V : forall i f, (i < 4)%nat -> (f < 2)%nat -> entry_of y 0 i f = at2 ys 0 i * nth f [size (separation p) - 2; 1] 0).
  { intros i f Hi Hf. rewrite (VY 0%nat _ i f E0) by (cbn; lia). cbn [factor]. destruct (i =? 0)%nat; ring. }
  destruct (C59_entries R 0 rzero real_clebsch_gordan 0 empty_world None IoOk 1 0 1 true rzero_test (cg_ready_empty _ _ _ _) call_ok_serial ltac:(lia) ltac:(lia) ltac:(lia)) as [c [Ec _]].
  assert (Hc : cg_array 1 0 1 true c) by (exists 0%nat, empty_world, None, IoOk; auto using cg_ready_empty, call_ok_serial).
  assert (C0 : at3 0 c 0 0 0 = 1) by (destruct (C66_scalar_factor 1 0 1 true c 0 0 0 Hc ltac:(cbn; lia) ltac:(lia) ltac:(lia)) as [Q _]; exact (Q ltac:(cbn; lia))).
  assert (C1 : forall i, (i < 3)%nat -> at3 0 c (1 + i) 0 1 = if (i =? 0)%nat then 1 else 0).
  { intros i Hi. destruct (C66_scalar_factor 1 0 1 true c 1 i 0 Hc ltac:(cbn; lia) ltac:(lia) ltac:(lia)) as [Q _]. exact (Q ltac:(cbn; lia)). }
  assert (EC : package_cg true 1 0 1 = Ok (at3 0 c)) by (unfold package_cg; now rewrite Ec).
  destruct (kink_step (package_cg true) (at3 0 c) x (fv (edge_features 0 2 1 2 y)) EC X1 X2 X3 X4 X5) as [z [RZ [Z1 [Z2 [Z3 [Z4 Z5]]]]]].
  exists ([x; z] ++ [gated g z]), (gated g z). split; [|split; [reflexivity|split; [cbn; lia|cbn [gated fS fD fF fv]; rewrite Z1, Z2, Z3; split; [lia|split; [lia|split; [lia|]]]]]].
  - exists e, x, y. split; [exact Ee|]. split; [exact Ax|]. split; [exact Hy|].
    cbn [kink kink_molecule m_cg m_low m_high m_dtype m_degree m_num m_calls pairs length map fst snd]. unfold edge_cutoffs. rewrite CY.
    apply (run_snoc _ _ _ _ _ _ _ _ _ _ _ RZ). cbn [perform]. unfold select. cbn [nth_error bind]. apply gated_ok.
  - rewrite Z4, Z5, XV by lia. rewrite C0. pose proof (C1 0%nat ltac:(lia)) as K1. pose proof (C1 1%nat ltac:(lia)) as K2. pose proof (C1 2%nat ltac:(lia)) as K3. cbn [Nat.add Nat.eqb] in K1, K2, K3. rewrite K1, K2, K3.
    cbn [edge_features fv]. change (Z.to_nat 1) with 1%nat. change (Z.to_nat 2) with 2%nat. rewrite !V by lia. rewrite Y0, Y2. cbn [nth first_coordinate Nat.ltb Nat.leb Nat.add Nat.mul andb]. f_equal; [|ring]. f_equal. ring.
Qed.

Lemma kink_proper : forall act, In act [relu; relu6; leaky_relu 0; elu 0 0; selu 0] -> proper_model (kink act).
Proof.
  intros act H. split; [apply package_cg_uses|]. split; [constructor; [intros d E; injection E as <-; lia|]; constructor; [|constructor]; exists (fun x => x), 0, 0; cbn in H |- *; tauto|].
  split; [cbn; lra|]. split; [cbn; lia|]. split; [reflexivity|discriminate].
Qed.
Lemma kink_molecule_proper : forall act p, proper_molecule (kink act) (kink_molecule p).
Proof. intros act p. split; [discriminate|]. split; [repeat constructor|]. cbn [kink_molecule atoms number kink m_species]. intros n Hn. lia. Qed.

(** With relu all other parts can be smooth, and still a prediction is not a continuous function of the positions: the
    theorems C76-C78 need their condition on the gates. *)
Theorem C79_relu_jumps : exists M A U v, proper_model M /\ proper_molecule M A /\ allowed M A U /\ built_from smooth_positive (fun _ => True) M
  /\ (forall i act, In (UseActivation i act) (m_calls M) -> act = relu) /\ (forall p, U p -> predicted M (with_positions A p) 2 0 0 1 0 (v p)) /\ exists p, U p /\ ~ continuous_at (atoms A) v p.
Proof.
  set (p0 := fun n => match n with O => (0, 0, 0) | _ => (2, 0, 0) end : vec).
  pose (A := kink_molecule p0). exists (kink relu), A, (fun p => (forall e, In e (pairs A) -> distance (with_positions A p) e <> 0) /\ close_enough (kink relu) (with_positions A p)),
    (fun p => relu_gate (size (separation p) - 2) * first_coordinate (heading (separation p))).
  split; [apply kink_proper; cbn; tauto|]. split; [apply kink_molecule_proper|]. split; [apply C76_positions; [apply kink_molecule_proper|discriminate]|]. split; [|split; [|split]].
  - split; [intros [|[|[|f]]]; cbn|split; [discriminate|split; [discriminate|]]].
    + apply sp_minus; [apply sp_id|apply sp_const].
    + apply sp_const.
    + apply sp_const.
    + apply sp_const.
    + cbn. intros i act [H|[H|[]]]; [discriminate|]. injection H as <- <-. exists relu_gate. split; [apply gate_gated|exact I].
  - cbn. intros i act [H|[H|[]]]; [discriminate|]. now injection H.
  - intros p _. apply (kink_predicted relu_gate p).
  - assert (SE : forall t, 0 <= t -> size (separation (fun n => match n with O => (0, 0, 0) | _ => (t, 0, 0) end)) = t) by (intros t Ht; exact (proj1 (size_axis t Ht))).
    assert (HE : forall t, 0 < t -> first_coordinate (heading (separation (fun n => match n with O => (0, 0, 0) | _ => (t, 0, 0) end))) = 1).
    { intros t Ht. pose proof (SE t ltac:(lra)) as E. unfold heading. destruct (Req_EM_T (size _) 0); [lra|]. unfold unit_of. rewrite E. cbn. field. lra. }
    exists p0. split; [split|].
    + intros e He. unfold distance. cbn in He. destruct He as [<-|[<-|[]]]; cbn [with_positions position A kink_molecule fst snd p0]; [rewrite (proj1 (size_axis 2 ltac:(lra)))|rewrite (proj2 (size_axis 2 ltac:(lra)))]; lra.
    + intros X. discriminate.
    + intros C. destruct (C 1 ltac:(lra)) as [dl [D1 D2]]. specialize (D2 (fun n => match n with O => (0, 0, 0) | _ => (dl / 2, 0, 0) end)).
      assert (S0 : size (0, 0, 0) = 0) by (unfold size; replace (dot (0, 0, 0) (0, 0, 0)) with 0 by (cbn; ring); apply sqrt_0).
      assert (S1 : size (dl / 2, 0, 0) = dl / 2) by (unfold size; replace (dot (dl / 2, 0, 0) (dl / 2, 0, 0)) with (dl / 2 * (dl / 2)) by (cbn; ring); apply sqrt_square; lra).
      assert (EX : displaced p0 (fun n => match n with O => (0, 0, 0) | _ => (dl / 2, 0, 0) end) = (fun n => match n with O => (0, 0, 0) | _ => (2 + dl / 2, 0, 0) end)).
      { apply functional_extensionality. intros [|n]; unfold displaced, p0; cbn; apply triple_eq; ring. }
      rewrite EX in D2. unfold p0 in D2 at 1 2. rewrite !HE, !SE in D2 by lra. unfold extent in D2. cbn [A kink_molecule atoms rsum] in D2. rewrite S0, S1 in D2. specialize (D2 ltac:(lra)). revert D2.
      unfold relu_gate, jsign, Rltb, Reqb. replace (2 + dl / 2 - 2) with (dl / 2) by ring. replace (2 - 2) with 0 by ring.
      destruct (Rlt_dec 0 0); [lra|]. destruct (Req_EM_T 0 0); [|lra]. destruct (Rlt_dec (dl / 2) 0); [lra|]. destruct (Req_EM_T (dl / 2) 0); [lra|]. unfold Rmax. destruct (Rle_dec 1 0); [lra|]. destruct (Rle_dec 0 0); [|lra].
      rewrite Rabs_right by lra. lra.
Qed.
Print Assumptions C79_relu_jumps.
