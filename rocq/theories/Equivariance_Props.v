(** Properties C67 and C68: equivariance of the layers with the coefficients and rotation matrices that
    the package computes. *)
Require Import String List Reals ZArith Bool Lia Lra.
Require Import Verif.Base Verif.RSum Verif.Matmat_Model Verif.Matmat_Spec Verif.Matmat_Props.
Require Import Verif.Features_Model Verif.Features_Spec Verif.Features_Proofs Verif.Common_Proofs Verif.Modules_Model Verif.Modules_Spec Verif.Modules_Graph_Spec
  Verif.Modules_Props Verif.Modules_Graph_Props.
Require Import Verif.LUT_Model Verif.LUT_Spec Verif.LUT_Props Verif.Symbolic_Model Verif.Symbolic_Proofs Verif.Rotations_Model Verif.Rotations_Spec
  Verif.Harmonics_Basis_Proofs Verif.Irreps_Model Verif.Irreps_Spec Verif.Irreps_Proofs Verif.Irreps_Wigner_Proofs Verif.Irreps_Laws_Proofs Verif.Irreps_Props
  Verif.Clebsch_Model Verif.CGTable_Proofs Verif.Clebsch_Props Verif.Wrappers_Model Verif.Wrappers_Spec Verif.Wrappers_Props Verif.Equivariance_Spec.
Import ListNotations.
Open Scope R_scope.
Open Scope list_scope.
Arguments Nat.mul : simpl never.

(** * The hypotheses of C35-C39, C54 and C63 hold *)

Lemma package_array : forall ca cgf L1 L2 L3 C, uses_package ca cgf -> cgf L1 L2 L3 = Ok C -> exists c, cg_array L1 L2 L3 ca c /\ C = at3 0 c.
Proof.
  intros ca cgf L1 L2 L3 C H E. destruct (H L1 L2 L3) as [empty [w [s [o [Hw [Hc Q]]]]]]. rewrite E in Q.
  destruct (snd (clebsch_gordan _ _ _ _ _ _ _ _ _ _ _ _)) as [c|e] eqn:R; [|discriminate]. cbn in Q. injection Q as ->. exists c. split; [|reflexivity].
  exists empty, w, s, o. auto.
Qed.

(** Negative degrees raise ValueError. *)
Theorem C67_checked : forall cartesian cgf, uses_package cartesian cgf -> cg_checked cgf.
Proof.
  intros ca cgf H L1 L2 L3 N. destruct (H L1 L2 L3) as [empty [w [s [o [_ [_ ->]]]]]].
  destruct (C59_rejected R 0 rzero real_clebsch_gordan empty w s o L1 L2 L3 ca N) as [-> _]. reflexivity.
Qed.
Print Assumptions C67_checked.

(** The coefficients commute with the Wigner-D matrices. *)
Theorem C67_commutes : forall cartesian cgf m D, uses_package cartesian cgf -> rotations cartesian m D -> cg_commutes cgf D.
Proof.
  intros ca cgf m D H HD L1 L2 L3 C b E l1 l2 l3 i j k H1 H2 H3 Hi Hj Hk.
  destruct (package_array _ _ _ _ _ _ H E) as [c [Hc ->]]. destruct (HD b) as [Hm HW].
  destruct (table_inv _ _ _ _ _ Hc) as [[P1 [P2 P3]] _].
  set (L := Z.of_nat (Nat.max l1 (Nat.max l2 l3))). destruct (HW L ltac:(unfold L; lia)) as [ms [a [ds [Em [Hd V]]]]].
  assert (B1 : (l1 < degrees L)%nat) by (unfold degrees, L; lia). assert (B2 : (l2 < degrees L)%nat) by (unfold degrees, L; lia). assert (B3 : (l3 < degrees L)%nat) by (unfold degrees, L; lia).
  assert (VV : forall l x y, (l < degrees L)%nat -> (x < 2 * l + 1)%nat -> (y < 2 * l + 1)%nat -> D b (l * l + x)%nat (l * l + y)%nat = at3 0 ds a (l * l + x) (l * l + y)) by (intros; apply V; nia).
  assert (Q1 : (l1 < degrees L1)%nat) by (unfold degrees; lia). assert (Q2 : (l2 < degrees L2)%nat) by (unfold degrees; lia). assert (Q3 : (l3 < degrees L3)%nat) by (unfold degrees; lia).
  pose proof (C66_rotate _ _ _ _ _ _ _ _ _ _ l1 l2 l3 i j k Hc Hd Em Hm Q1 Q2 Q3 B1 B2 B3 Hi Hj Hk) as I.
  transitivity (rsum (2 * l1 + 1) (fun i' => rsum (2 * l2 + 1) (fun j' =>
    at3 0 ds a (l1 * l1 + i) (l1 * l1 + i') * at3 0 ds a (l2 * l2 + j) (l2 * l2 + j') * at3 0 c (l1 * l1 + i') (l2 * l2 + j') (l3 * l3 + k)))).
  - apply rsum_ext; intros x Hx. apply rsum_ext; intros y Hy. rewrite (VV l1 i x), (VV l2 j y) by assumption. reflexivity.
  - rewrite I. apply rsum_ext; intros z Hz. rewrite (VV l3 z k) by assumption. reflexivity.
Qed.
Print Assumptions C67_commutes.

(** The Wigner-D matrices keep scalars, do not mix degrees, and are orthogonal in every degree. *)
Lemma block_sum : forall L l (f : nat -> R), (l < degrees L)%nat -> (forall l' k, (l' < degrees L)%nat -> (k < 2 * l' + 1)%nat -> l' <> l -> f (l' * l' + k)%nat = 0) ->
  rsum (degrees L * degrees L) f = rsum (2 * l + 1) (fun k => f (l * l + k)%nat).
Proof.
  intros L l f Hl Z. rewrite rsum_degrees. apply (rsum_single _ (fun l => rsum (2 * l + 1) (fun k => f (l * l + k)%nat)) l Hl).
  intros l' Hl' N. apply rsum_zero. intros k Hk. now apply Z.
Qed.

Theorem C67_matrices : forall cartesian m D, rotations cartesian m D -> keeps_scalars D /\ block_diagonal D /\ orthogonal_blocks D.
Proof.
  intros ca m D HD. split; [|split].
  - intros b. destruct (HD b) as [Hm HW]. destruct (HW 0%Z ltac:(lia)) as [ms [a [ds [Em [Hd V]]]]]. rewrite V by (cbn; lia). now destruct (C25_block_diagonal _ _ _ _ _ _ Hd Em).
  - intros b l k l' k' Hk Hk' N. destruct (HD b) as [Hm HW]. set (L := Z.of_nat (Nat.max l l')). destruct (HW L ltac:(unfold L; lia)) as [ms [a [ds [Em [Hd V]]]]].
    assert (Hl : (l < degrees L)%nat) by (unfold degrees, L; lia). assert (Hl' : (l' < degrees L)%nat) by (unfold degrees, L; lia).
    rewrite V by nia. destruct (C25_block_diagonal _ _ _ _ _ _ Hd Em) as [_ Z]. now apply Z.
  - intros b l k k' Hk Hk'. destruct (HD b) as [Hm HW]. set (L := Z.of_nat l). destruct (HW L ltac:(unfold L; lia)) as [ms [a [ds [Em [Hd V]]]]].
    assert (Hl : (l < degrees L)%nat) by (unfold degrees, L; lia). destruct (C25_block_diagonal _ _ _ _ _ _ Hd Em) as [_ Z].
    destruct (C25_orthogonal _ _ _ _ _ _ (l * l + k)%nat (l * l + k')%nat Hd Em (rotation_orthogonal _ Hm) ltac:(nia) ltac:(nia)) as [O1 O2].
    replace (l * l + k =? l * l + k')%nat with (k =? k')%nat in O1, O2 by (destruct (Nat.eqb_spec k k'), (Nat.eqb_spec (l * l + k) (l * l + k')); try reflexivity; lia).
    split.
    + rewrite <- O1. rewrite (block_sum L l) by (exact Hl || (intros l' x Hl' Hx N; rewrite (Z l l' k x) by (assumption || congruence); ring)).
      apply rsum_ext; intros x Hx. rewrite !V by nia. reflexivity.
    + rewrite <- O2. rewrite (block_sum L l) by (exact Hl || (intros l' x Hl' Hx N; rewrite (Z l' l x k) by assumption; ring)).
      apply rsum_ext; intros x Hx. rewrite !V by nia. reflexivity.
Qed.
Print Assumptions C67_matrices.

(** Such functions and matrices exist. *)
Definition package_cg (cartesian : bool) (L1 L2 L3 : Z) : result (nat -> nat -> nat -> R) :=
  rmap (at3 0) (snd (clebsch_gordan R 0 rzero real_clebsch_gordan 0 empty_world None IoOk L1 L2 L3 cartesian)).
Lemma package_cg_uses : forall ca, uses_package ca (package_cg ca).
Proof. intros ca L1 L2 L3. exists 0%nat, empty_world, None, IoOk. auto using cg_ready_empty, call_ok_serial. Qed.

Definition wigner_entries (ca : bool) (m : mat) (i j : nat) : R :=
  let l := Nat.sqrt i in let l' := Nat.sqrt j in
  if Nat.eq_dec l l' then dmat (entry m) l (pos ca l (i - l * l)) (pos ca l (j - l * l)) else 0.
Lemma wigner_entries_matrix : forall ca m, wigner_matrix ca m (wigner_entries ca m).
Proof.
  intros ca m L HL. destruct (wigner_exists [m] L ca HL) as [ds Hd]. exists [m], 0%nat, ds. split; [reflexivity|]. split; [exact Hd|].
  intros i j Hi Hj. apply wigner_inv in Hd as [_ Hd]. destruct (Forall2_get _ _ _ _ _ [] 0%nat m Hd eq_refl) as [[_ [_ E]] _].
  destruct (block_decomp i) as [l [p [Ei [Hp Hl]]]]. destruct (block_decomp j) as [l' [q [Ej [Hq Hl']]]]. unfold wigner_entries. rewrite <- Hl, <- Hl'.
  unfold degrees in *. pose proof (E l l' p q ltac:(nia) ltac:(nia) Hp Hq) as Q. rewrite <- Ei, <- Ej in Q. unfold at3, at2 in *. rewrite Q.
  destruct (Nat.eq_dec l l') as [<-|]; [|reflexivity]. replace (i - l * l)%nat with p by lia. replace (j - l * l)%nat with q by lia. reflexivity.
Qed.
Example C67_case : uses_package true (package_cg true) /\ rotations true (fun _ => quarter_turn) (fun _ => wigner_entries true quarter_turn)
  /\ (exists C, package_cg true 1%Z 1%Z 1%Z = Ok C /\ C 1%nat 2%nat 3%nat = 1 / sqrt 2) /\ wigner_entries true quarter_turn 1 2 = 1.
Proof.
  split; [apply package_cg_uses|]. split; [intros b; split; [exact quarter_turn_rotation|apply wigner_entries_matrix]|]. split.
  - unfold package_cg.
    destruct (C59_entries R 0 rzero real_clebsch_gordan 0 empty_world None IoOk 1 1 1 true rzero_test (cg_ready_empty _ _ _ _) call_ok_serial ltac:(lia) ltac:(lia) ltac:(lia)) as [c [E _]].
    rewrite E. exists (at3 0 c). split; [reflexivity|].
    assert (Hc : cg_array 1 1 1 true c) by (exists 0%nat, empty_world, None, IoOk; auto using cg_ready_empty, call_ok_serial).
    pose proof (C66_cross_product 1 1 1 c (1, 0, 0) (0, 1, 0) 2 Hc ltac:(lia) ltac:(lia) ltac:(lia) ltac:(lia)) as A.
    cbn [rsum coord outer Nat.add] in A. pose proof RealCG_Proofs.sqrt2_pos. transitivity ((1 * 1 - 0 * 0) / sqrt 2); [rewrite <- A; ring|field; lra].
  - destruct (wigner_entries_matrix true quarter_turn 1%Z ltac:(lia)) as [ms [a [ds [Em [Hd V]]]]]. rewrite V by (cbn; lia).
    exact (C25_degree_one _ _ _ a quarter_turn 0%nat 1%nat Hd Em (rotation_orthogonal _ quarter_turn_rotation) ltac:(lia) ltac:(lia) ltac:(lia)).
Qed.

(** * C67: the layers *)

Section Layers.
Variables (cartesian : bool) (cgf : Z -> Z -> Z -> result (nat -> nat -> nat -> R)) (m : list nat -> mat) (D : list nat -> nat -> nat -> R).
Hypothesis package : uses_package cartesian cgf.
Hypothesis rotated : rotations cartesian m D.

Theorem C67_tensor : forall s Dx Dy max_degree include K x y x' y' z, s * s = 1 ->
  (forall B i, broadcast_shapes (fB x) (fB y) = Ok B -> Dx (bidx (fB x) B i) = D i /\ Dy (bidx (fB y) B i) = D i) ->
  transformed s Dx x x' -> transformed s Dy y y' -> tensor cgf max_degree include K x y = Ok z ->
  exists z', tensor cgf max_degree include K x' y' = Ok z' /\ transformed s D z z'.
Proof.
  intros s Dx Dy md incl K x y x' y' z Hs. apply C36_tensor_equivariant; [exact (C67_checked _ _ package)|exact Hs|exact (C67_commutes _ _ _ _ package rotated)].
Qed.

Theorem C67_tensor_rotate : forall max_degree include K x y x' y' z,
  rotate x (wigner_for true D x) = Ok x' -> rotate y (wigner_for true D y) = Ok y' -> tensor cgf max_degree include K x y = Ok z ->
  exists z1 z2, tensor cgf max_degree include K x' y' = Ok z1 /\ rotate z (wigner_for true D z) = Ok z2 /\ same_feature z1 z2.
Proof.
  intros md incl K x y x' y' z. apply C36_tensor_rotate; [exact (C67_checked _ _ package)|apply (C67_matrices _ _ _ rotated)|exact (C67_commutes _ _ _ _ package rotated)].
Qed.

Theorem C67_fused_tensor : forall s Dx Dy max_degree include P x y x' y' z, s * s = 1 -> (forall d, max_degree = Some d -> (0 <= d)%Z) ->
  (forall B i, broadcast_shapes (fB x) (fB y) = Ok B -> Dx (bidx (fB x) B i) = D i /\ Dy (bidx (fB y) B i) = D i) ->
  transformed s Dx x x' -> transformed s Dy y y' -> fused_tensor cgf max_degree include P x y = Ok z ->
  exists z', fused_tensor cgf max_degree include P x' y' = Ok z' /\ transformed s D z z'.
Proof.
  intros s Dx Dy md incl P x y x' y' z Hs Hmd. apply C37_fused_equivariant; [exact (C67_checked _ _ package)|exact Hs|exact Hmd|apply (C67_matrices _ _ _ rotated)|exact (C67_commutes _ _ _ _ package rotated)].
Qed.

Theorem C67_fused_tensor_rotate : forall max_degree include P x y x' y' z, (forall d, max_degree = Some d -> (0 <= d)%Z) ->
  rotate x (wigner_for true D x) = Ok x' -> rotate y (wigner_for true D y) = Ok y' -> fused_tensor cgf max_degree include P x y = Ok z ->
  exists z1 z2, fused_tensor cgf max_degree include P x' y' = Ok z1 /\ rotate z (wigner_for true D z) = Ok z2 /\ same_feature z1 z2.
Proof.
  intros md incl P x y x' y' z Hmd. apply C37_fused_rotate; [exact (C67_checked _ _ package)|exact Hmd|apply (C67_matrices _ _ _ rotated)|apply (C67_matrices _ _ _ rotated)|exact (C67_commutes _ _ _ _ package rotated)].
Qed.

Theorem C67_tensor_dense : forall s features max_degree include use_bias Pd Pt x x' z, s * s = 1 -> (forall d, max_degree = Some d -> (0 <= d)%Z) ->
  transformed s D x x' -> tensor_dense cgf features max_degree include use_bias Pd Pt x = Ok z ->
  exists z', tensor_dense cgf features max_degree include use_bias Pd Pt x' = Ok z' /\ transformed s D z z'.
Proof.
  intros s F md incl ub Pd Pt x x' z Hs Hmd. destruct (C67_matrices _ _ _ rotated) as [A [_ B]].
  apply C38_tensor_dense_equivariant; [exact (C67_checked _ _ package)|exact Hs|exact Hmd|exact A|exact B|exact (C67_commutes _ _ _ _ package rotated)].
Qed.

Theorem C67_message_pass : forall s max_degree include use_basis_bias P x x' basis basis' w g y, s * s = 1 -> (forall d, max_degree = Some d -> (0 <= d)%Z) ->
  well_formed x -> (forall w0, w = Some w0 -> scalar_weights g x w0) -> transformed s (on_nodes D) x x' ->
  match basis, basis' with Some bs, Some bs' => transformed s (on_edges g D) bs bs' | None, None => True | _, _ => False end ->
  message_pass cgf max_degree include use_basis_bias P x basis w g = Ok y ->
  exists y', message_pass cgf max_degree include use_basis_bias P x' basis' w g = Ok y' /\ transformed s (on_nodes D) y y'.
Proof.
  intros s md incl ub P x x' basis basis' w g y Hs Hmd. destruct (C67_matrices _ _ _ rotated) as [A [_ B]].
  apply C38_message_pass_equivariant; [exact (C67_checked _ _ package)|exact Hs|exact Hmd|exact A|exact B|exact (C67_commutes _ _ _ _ package rotated)].
Qed.

Theorem C67_attention : forall lo hi s o P xq xq' xkv xkv' basis basis' cutoff g y, s * s = 1 -> (forall d, o_max_degree o = Some d -> (0 <= d)%Z) ->
  (forall bs, basis = Some bs -> (0 < fD bs)%nat) -> transformed s (on_nodes D) xq xq' -> transformed s (on_nodes D) xkv xkv' ->
  match basis, basis' with Some bs, Some bs' => transformed s (on_edges g D) bs bs' | None, None => True | _, _ => False end ->
  multi_head_attention cgf lo hi o P xq xkv basis cutoff g = Ok y ->
  exists y', multi_head_attention cgf lo hi o P xq' xkv' basis' cutoff g = Ok y' /\ transformed s (on_nodes D) y y'.
Proof.
  intros lo hi s o P xq xq' xkv xkv' basis basis' cutoff g y Hs Hmd. destruct (C67_matrices _ _ _ rotated) as [A [_ B]].
  apply C39_attention_equivariant; [exact (C67_checked _ _ package)|exact Hs|exact Hmd|exact A|exact B|exact (C67_commutes _ _ _ _ package rotated)].
Qed.

Theorem C67_self_attention : forall lo hi s o P x x' basis basis' cutoff g y, s * s = 1 -> (forall d, o_max_degree o = Some d -> (0 <= d)%Z) ->
  (forall bs, basis = Some bs -> (0 < fD bs)%nat) -> transformed s (on_nodes D) x x' ->
  match basis, basis' with Some bs, Some bs' => transformed s (on_edges g D) bs bs' | None, None => True | _, _ => False end ->
  self_attention cgf lo hi o P x basis cutoff g = Ok y ->
  exists y', self_attention cgf lo hi o P x' basis' cutoff g = Ok y' /\ transformed s (on_nodes D) y y'.
Proof.
  intros lo hi s o P x x' basis basis' cutoff g y Hs Hmd. destruct (C67_matrices _ _ _ rotated) as [A [_ B]].
  apply C39_self_attention_equivariant; [exact (C67_checked _ _ package)|exact Hs|exact Hmd|exact A|exact B|exact (C67_commutes _ _ _ _ package rotated)].
Qed.

(** Matrices of matrices: rotation and traces. *)
Theorem C67_matrix : forall b irreps irreps' N number degrees mult L md shift M,
  irreps_shape N number irreps -> (0 < N <= md + 1)%nat -> max_of degrees L -> (L <= md)%nat ->
  irreps_transformed (D b) irreps irreps' -> make_square_matrix cgf irreps degrees mult md shift = Ok M ->
  exists M', make_square_matrix cgf irreps' degrees mult md shift = Ok M'
  /\ Matmat_Model.rows M' = Matmat_Model.rows M /\ Matmat_Model.cols M' = Matmat_Model.cols M
  /\ forall A i u B j v, in_group degrees mult A i u -> in_group degrees mult B j v ->
     let la := degree_at degrees A in let lb := degree_at degrees B in
     Matmat_Model.val M' (position degrees mult A i u) (position degrees mult B j v)
     = rsum (2 * la + 1) (fun u' => rsum (2 * lb + 1) (fun v' =>
         D b (la * la + u')%nat (la * la + u)%nat * Matmat_Model.val M (position degrees mult A i u') (position degrees mult B j v') * D b (lb * lb + v')%nat (lb * lb + v)%nat)).
Proof.
  intros b irreps irreps' N number dg mult L md shift M HS HN HM HL HT EM.
  destruct (package (Z.of_nat L) (Z.of_nat L) (Z.of_nat md)) as [empty [w [s [o [Hw [Hc Q]]]]]].
  destruct (C59_entries R 0 rzero real_clebsch_gordan empty w s o (Z.of_nat L) (Z.of_nat L) (Z.of_nat md) cartesian rzero_test Hw Hc ltac:(lia) ltac:(lia) ltac:(lia)) as [c [E _]].
  rewrite E in Q. cbn in Q. apply (C63_matrix_equivariant cgf irreps irreps' N number dg mult L md shift (at3 0 c) (D b) M HS HN HM HL Q); try assumption.
  - pose proof (C67_commutes _ _ _ _ package rotated (Z.of_nat L) (Z.of_nat L) (Z.of_nat md) (at3 0 c) b Q) as I.
    replace (L + 1)%nat with (Z.to_nat (Z.of_nat L + 1)) by lia. replace (md + 1)%nat with (Z.to_nat (Z.of_nat md + 1)) by lia. exact I.
  - intros l x y _ Hx Hy. destruct (C67_matrices _ _ _ rotated) as [_ [_ O]]. exact (O b l x y Hx Hy).
Qed.

Theorem C67_traces : forall irreps N number degrees mult L md shift M,
  irreps_shape N number irreps -> (0 < N <= md + 1)%nat -> max_of degrees L -> (L <= md)%nat ->
  make_square_matrix cgf irreps degrees mult md shift = Ok M ->
  length (get_traces M degrees mult shift) = (length degrees * (mult * mult))%nat
  /\ forall A i j, (A < length degrees)%nat -> (i < mult)%nat -> (j < mult)%nat ->
     nth_error (get_traces M degrees mult shift) (A * (mult * mult) + (i * mult + j))
     = Some (sqrt (INR (2 * degree_at degrees A + 1)) * irrep irreps 0 0 (column degrees mult 0 A A i j)).
Proof.
  intros irreps N number dg mult L md shift M HS HN HM HL EM.
  destruct (package (Z.of_nat L) (Z.of_nat L) (Z.of_nat md)) as [empty [w [s [o [Hw [Hc Q]]]]]].
  destruct (C59_entries R 0 rzero real_clebsch_gordan empty w s o (Z.of_nat L) (Z.of_nat L) (Z.of_nat md) cartesian rzero_test Hw Hc ltac:(lia) ltac:(lia) ltac:(lia)) as [c [E _]].
  assert (Ha : cg_array (Z.of_nat L) (Z.of_nat L) (Z.of_nat md) cartesian c) by (exists empty, w, s, o; auto).
  rewrite E in Q. cbn in Q. apply (C54_traces cgf irreps N number dg mult L md shift (at3 0 c) M HS HN HM HL Q); try assumption.
  - intros la l l' k k' H1 H2 H3 H4 H5 H6 H7. apply (C66_orthonormal _ _ _ _ _ la la l l' k k' Ha); try assumption; unfold degrees; lia.
  - intros la u v H1 H2 H3. apply (C66_scalar_product _ _ _ _ _ la u v Ha); try assumption; unfold degrees; lia.
Qed.
End Layers.
Print Assumptions C67_tensor.
Print Assumptions C67_tensor_rotate.
Print Assumptions C67_fused_tensor.
Print Assumptions C67_fused_tensor_rotate.
Print Assumptions C67_tensor_dense.
Print Assumptions C67_message_pass.
Print Assumptions C67_attention.
Print Assumptions C67_self_attention.
Print Assumptions C67_matrix.
Print Assumptions C67_traces.
