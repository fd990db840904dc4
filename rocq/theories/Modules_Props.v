(** Properties C35-C39: Dense, Tensor, FusedTensor, TensorDense, message passing and attention. *)
Require Import List Reals ZArith Bool Lia Lra.
Require Import ZifyNat.
Require Import Verif.Base Verif.RSum Verif.Features_Model Verif.Features_Spec Verif.Features_Proofs
  Verif.Indexed_Model Verif.Modules_Model Verif.Modules_Spec Verif.Modules_Graph_Spec Verif.Modules_Proofs
  Verif.Modules_Tensor_Proofs Verif.Modules_Fused_Proofs Verif.Modules_Equiv_Proofs Verif.Modules_Graph_Proofs
  Verif.Modules_Conv_Proofs Verif.Modules_Attention_Proofs Verif.Modules_Message_Proofs Verif.Modules_Relabel_Proofs.
Import ListNotations.
Open Scope R_scope.
Arguments Nat.modulo : simpl never.
Arguments Nat.mul : simpl never.

(** * A concrete case of the hypotheses

    Scalars and vectors in Cartesian order, the rotation by an angle t about the z-axis, and the
    couplings "product", "dot product" and "cross product" between them. *)

Definition case_wigner (t : R) (_ : list nat) (r c : nat) : R :=
  match r, c with
  | 1%nat, 1%nat => cos t | 1%nat, 2%nat => sin t
  | 2%nat, 1%nat => - sin t | 2%nat, 2%nat => cos t
  | _, _ => if (r =? c)%nat then 1 else 0
  end.

Definition case_coupling (a b c : nat) : R :=
  match a, b, c with
  | O, _, _ => if (b =? c)%nat then 1 else 0
  | _, O, _ => if (a =? c)%nat then 1 else 0
  | _, _, O => if (a =? b)%nat then / sqrt 3 else 0
  | 1%nat, 2%nat, 3%nat => / sqrt 2 | 2%nat, 3%nat, 1%nat => / sqrt 2 | 3%nat, 1%nat, 2%nat => / sqrt 2
  | 2%nat, 1%nat, 3%nat => - / sqrt 2 | 3%nat, 2%nat, 1%nat => - / sqrt 2 | 1%nat, 3%nat, 2%nat => - / sqrt 2
  | _, _, _ => 0
  end.

Definition case_cg (L1 L2 L3 : Z) : result (nat -> nat -> nat -> R) :=
  if ((L1 <? 0) || (L2 <? 0) || (L3 <? 0))%Z then Err ValueError
  else if ((L1 <=? 1) && (L2 <=? 1) && (L3 <=? 1))%Z then Ok case_coupling else Err KeyError.

Lemma case_checked : cg_checked case_cg.
Proof.
  intros L1 L2 L3 H. unfold case_cg.
  destruct (Z.ltb_spec L1 0), (Z.ltb_spec L2 0), (Z.ltb_spec L3 0); cbn [orb]; reflexivity || lia.
Qed.

Lemma case_keeps : forall t, keeps_scalars (case_wigner t).
Proof. intros t b. reflexivity. Qed.

Ltac three k := destruct k as [|[|[|k]]]; [| | |lia].

Lemma high_identity : forall t b l k k', (2 <= l)%nat ->
  case_wigner t b (l * l + k) (l * l + k') = if (k =? k')%nat then 1 else 0.
Proof.
  intros t b l k k' H. assert (E : exists a, (l * l + k = S (S (S a)))%nat) by (exists (l * l + k - 3)%nat; nia).
  destruct E as [a E]. rewrite E. unfold case_wigner. rewrite <- E.
  destruct (Nat.eqb_spec (l * l + k) (l * l + k')), (Nat.eqb_spec k k'); try lia; reflexivity.
Qed.

Lemma case_orthogonal : forall t, orthogonal_blocks (case_wigner t).
Proof.
  intros t b l k k' Hk Hk'. pose proof (sin2_cos2 t) as E. unfold Rsqr in E.
  destruct l as [|[|l]].
  - assert (k = 0%nat) by lia. assert (k' = 0%nat) by lia. subst. change (2 * 0 + 1)%nat with 1%nat. change (0 * 0)%nat with 0%nat. cbn. split; ring.
  - change (2 * 1 + 1)%nat with 3%nat in *. change (1 * 1)%nat with 1%nat. three k; three k'; cbn; split; lra.
  - split; (etransitivity; [apply rsum_ext; intros j Hj; rewrite !high_identity by lia; reflexivity|]);
      rewrite (rsum_single _ _ k) by (assumption || (intros j Hj Hne; destruct (Nat.eqb_spec k j), (Nat.eqb_spec j k); try lia; ring));
      rewrite Nat.eqb_refl; destruct (Nat.eqb_spec k k'), (Nat.eqb_spec k' k); try lia; ring.
Qed.

Lemma case_commutes : forall t, cg_commutes case_cg (case_wigner t).
Proof.
  intros t L1 L2 L3 C b H. unfold case_cg in H.
  destruct ((L1 <? 0) || (L2 <? 0) || (L3 <? 0))%Z eqn:E0; [discriminate|].
  destruct ((L1 <=? 1) && (L2 <=? 1) && (L3 <=? 1))%Z eqn:E1; [|discriminate]. injection H as <-.
  apply andb_prop in E1. destruct E1 as [E1 E3]. apply andb_prop in E1. destruct E1 as [E1 E2].
  apply Z.leb_le in E1, E2, E3. intros l1 l2 l3 i j k H1 H2 H3 Hi Hj Hk.
  pose proof (sin2_cos2 t) as E. unfold Rsqr in E.
  assert (E' : cos t * cos t = 1 - sin t * sin t) by lra.
  destruct l1 as [|[|?]]; [| |lia]; destruct l2 as [|[|?]]; [| |lia| | |lia]; destruct l3 as [|[|?]]; try lia;
    change (2 * 0 + 1)%nat with 1%nat in *; change (2 * 1 + 1)%nat with 3%nat in *; change (1 * 1)%nat with 1%nat; change (0 * 0)%nat with 0%nat;
    try (assert (i = 0%nat) by lia; subst i); try (assert (j = 0%nat) by lia; subst j); try (assert (k = 0%nat) by lia; subst k);
    try (three i); try (three j); try (three k); cbn; try ring; ring [E'].
Qed.

(** Features of two nodes: one parity channel, degrees 0 and 1, two features. *)
Definition case_nodes : feat :=
  mkFeat [2%nat] 1 4 2 0 (fun i p d f => INR (1 + nth 0 i 0 + 2 * d + 3 * f)%nat).

(** * C35: Dense *)

(** The result for each parity, degree and order is a linear combination over the features of the
    same parity, degree and order; the bias is added to true scalars (degree 0, even parity) only.
    Arrays without any degree, or that are not feature arrays, raise. *)
Theorem C35_dense_formula : forall features use_bias P x,
  (forall n, valid (S n) x ->
    exists y, dense features use_bias P x = Ok y /\ valid (S n) y
      /\ fB y = fB x /\ fS y = fS x /\ fF y = features /\ fdt y = fdt x
      /\ forall i p l k f, (p < 2)%nat -> (k < 2 * l + 1)%nat -> has_slot y p l ->
         comp y i p l k f = rsum (fF x) (fun a => comp x i p l k a * dk P l p a f)
                            + (if use_bias && (l =? 0)%nat && (p =? 0)%nat then db P f else 0))
  /\ (~ (exists n, valid (S n) x) -> exists e, dense features use_bias P x = Err e).
Proof.
  intros F ub P x. split.
  - intros n V. apply (dense_comp (S n) x F ub P V). lia.
  - intros H. destruct (dense F ub P x) as [y|e] eqn:E; [|eauto]. exfalso. apply H.
    destruct (dense_ok_inv F ub P x y E) as [[|n] [V Hn]]; [lia|]. exists n. exact V.
Qed.
Print Assumptions C35_dense_formula.

Example C35_dense_formula_case : valid 2 case_nodes.
Proof. split; [left|]; reflexivity. Qed.

(** Dense commutes with every transformation of the components by matrices that act on each
    degree separately and keep scalars, in combination with a factor s for odd parity. *)
Theorem C35_dense_equivariant : forall s D features use_bias P x x' y, keeps_scalars D ->
  transformed s D x x' -> dense features use_bias P x = Ok y ->
  exists y', dense features use_bias P x' = Ok y' /\ transformed s D y y'.
Proof. exact dense_transformed. Qed.
Print Assumptions C35_dense_equivariant.

(** In terms of the library's functions: rotating with [rotate] (Wigner-D matrices shared or one
    for each batch entry) or reflecting with [reflect] before or after makes no difference. *)
Theorem C35_dense_rotate : forall shared D features use_bias P x x' y, keeps_scalars D -> block_diagonal D ->
  rotate x (wigner_for shared D x) = Ok x' -> dense features use_bias P x = Ok y ->
  exists y1 y2, dense features use_bias P x' = Ok y1 /\ rotate y (wigner_for shared D y) = Ok y2 /\ same_feature y1 y2.
Proof.
  intros shared D F ub P x x' y HK HB HR H. destruct (dense_ok_inv F ub P x y H) as [n [V Hn]].
  destruct (dense_comp n x F ub P V Hn) as [y0 [E [Vy _]]]. assert (y0 = y) by congruence. subst y0.
  destruct (rotate_transformed n x shared D V HB) as [x0 [E0 T0]]. assert (x0 = x') by congruence. subst x0.
  destruct (dense_transformed 1 (fun i => D (wigner_batch shared i)) F ub P x x' y (fun b => HK _) T0 H) as [y1 [E1 T1]].
  destruct (rotate_transformed n y shared D Vy HB) as [y2 [E2 T2]].
  exists y1, y2. split; [exact E1|]. split; [exact E2|]. exact (transformed_unique n _ _ _ _ _ Vy T1 T2).
Qed.
Print Assumptions C35_dense_rotate.

Theorem C35_dense_reflect : forall features use_bias P x x' y,
  reflect x = Ok x' -> dense features use_bias P x = Ok y ->
  exists y1 y2, dense features use_bias P x' = Ok y1 /\ reflect y = Ok y2 /\ same_feature y1 y2.
Proof.
  intros F ub P x x' y HR H. destruct (dense_ok_inv F ub P x y H) as [n [V Hn]].
  destruct (dense_comp n x F ub P V Hn) as [y0 [E [Vy _]]]. assert (y0 = y) by congruence. subst y0.
  destruct (reflect_transformed n x V) as [x0 [E0 T0]]. assert (x0 = x') by congruence. subst x0.
  destruct (dense_transformed (-1) identity_matrices F ub P x x' y identity_keeps T0 H) as [y1 [E1 T1]].
  destruct (reflect_transformed n y Vy) as [y2 [E2 T2]].
  exists y1, y2. split; [exact E1|]. split; [exact E2|]. exact (transformed_unique n _ _ _ _ _ Vy T1 T2).
Qed.
Print Assumptions C35_dense_reflect.

Lemma case_block_diagonal : forall t, block_diagonal (case_wigner t).
Proof.
  intros t b l k l' k' Hk Hk' Hne.
  assert (Hd : (l * l + k <> l' * l' + k')%nat) by nia.
  assert (H1 : ~ (l * l + k = 1 /\ l' * l' + k' = 2)%nat).
  { intros [A B]. apply Hne. destruct l as [|[|l]], l' as [|[|l']]; nia. }
  assert (H2 : ~ (l * l + k = 2 /\ l' * l' + k' = 1)%nat).
  { intros [A B]. apply Hne. destruct l as [|[|l]], l' as [|[|l']]; nia. }
  revert Hd H1 H2. generalize (l * l + k)%nat (l' * l' + k')%nat. intros r c Hd H1 H2.
  unfold case_wigner. assert (E : (r =? c)%nat = false) by (apply Nat.eqb_neq; exact Hd).
  destruct r as [|[|[|r]]], c as [|[|[|c]]]; rewrite ?E; try reflexivity; exfalso; lia.
Qed.

Example C35_dense_rotate_case : forall t P, keeps_scalars (case_wigner t) /\ block_diagonal (case_wigner t)
  /\ (exists x', rotate case_nodes (wigner_for true (case_wigner t) case_nodes) = Ok x')
  /\ (exists x', reflect case_nodes = Ok x') /\ exists y, dense 3 true P case_nodes = Ok y.
Proof.
  intros t P. split; [apply case_keeps|]. split; [apply case_block_diagonal|].
  assert (V : valid 2 case_nodes) by apply C35_dense_formula_case.
  destruct (rotate_transformed 2 case_nodes true (case_wigner t) V (case_block_diagonal t)) as [x' [E _]].
  destruct (reflect_transformed 2 case_nodes V) as [x2 [E2 _]].
  destruct (proj1 (C35_dense_formula 3 true P case_nodes) 1%nat V) as [y [Ey _]]. eauto 10.
Qed.

(** * C36: Tensor *)

Section Tensors.
Variable cgf : Z -> Z -> Z -> result (nat -> nat -> nat -> R).

(** Which inputs are accepted and what is computed, in all code paths: degrees and parity channels
    of the result, and every component as the weighted sum over all pairs of components whose
    parities multiply to that of the result (there is one weight for each coupling path). *)
Theorem C36_tensor_formula : forall n1 n2 x1 x2 max_degree include K L3 C B,
  valid n1 x1 -> valid n2 x2 -> fF x1 = fF x2 ->
  L3 = match max_degree with Some d => d | None => Z.max (Z.of_nat n1 - 1) (Z.of_nat n2 - 1) end ->
  (L3 <= (Z.of_nat n1 - 1) + (Z.of_nat n2 - 1))%Z -> cg_checked cgf ->
  cgf (Z.of_nat n1 - 1)%Z (Z.of_nat n2 - 1)%Z L3 = Ok C -> broadcast_shapes (fB x1) (fB x2) = Ok B ->
  exists z n3, tensor cgf max_degree include K x1 x2 = Ok z /\ Z.of_nat n3 = (L3 + 1)%Z /\ valid n3 z
    /\ fB z = B /\ fF z = fF x1 /\ fdt z = fdt x1
    /\ fS z = (if include && negb ((fS x1 =? 1)%nat && (fS x2 =? 1)%nat && ((n1 =? 1)%nat || (n2 =? 1)%nat || (n3 =? 1)%nat)) then 2%nat else 1%nat)
    /\ weighted_couplings n1 n2 C
         (fun p1 l1 p2 l2 p l f => K (channel (fS x1) p1) l1 (channel (fS x2) p2) l2 (channel (fS z) p) l f)
         (bidx (fB x1) B) (bidx (fB x2) B) x1 x2 z.
Proof.
  intros n1 n2 x1 x2 md incl K L3 C B V1 V2 HF HL Hle Hcg HC HB.
  assert (Hok : exists z, tensor cgf md incl K x1 x2 = Ok z).
  { unfold tensor. rewrite (extract_valid x1 n1 V1), (extract_valid x2 n2 V2). cbn [bind].
    assert (EL : output_degree md (Z.of_nat n1 - 1) (Z.of_nat n2 - 1) = L3) by (rewrite HL; reflexivity). rewrite EL.
    destruct (Z.ltb_spec (Z.of_nat n1 - 1 + (Z.of_nat n2 - 1)) L3); [lia|]. rewrite HF, Nat.eqb_refl. cbn [negb].
    rewrite HC. cbn [bind]. rewrite HB. cbn [bind]. destruct (negb _); eexists; reflexivity. }
  destruct Hok as [z Hz]. destruct (tensor_couplings cgf n1 n2 x1 x2 md incl K z Hcg V1 V2 Hz) as
    [n3 [C' [B' [EC [P1 [P2 [P3 [P4 [EO [EB [EBz [Vz [ES [EF [EF2 [Ed W]]]]]]]]]]]]]]]].
  assert (E3 : L3 = (Z.of_nat n3 - 1)%Z) by (rewrite <- EO, HL; reflexivity).
  exists z, n3. rewrite E3 in HC. assert (EC' : C' = C) by congruence. assert (EB' : B' = B) by congruence. rewrite EB' in EBz, W. rewrite EC' in W.
  split; [exact Hz|]. split; [lia|]. split; [exact Vz|]. split; [exact EBz|]. split; [exact EF|]. split; [exact Ed|].
  split; [|exact W]. rewrite ES. unfold output_pseudotensors.
  assert (H1 : (Z.of_nat n1 - 1 =? 0)%Z = (n1 =? 1)%nat) by (destruct (Z.eqb_spec (Z.of_nat n1 - 1) 0), (Nat.eqb_spec n1 1); lia).
  assert (H2 : (Z.of_nat n2 - 1 =? 0)%Z = (n2 =? 1)%nat) by (destruct (Z.eqb_spec (Z.of_nat n2 - 1) 0), (Nat.eqb_spec n2 1); lia).
  assert (H3 : (Z.of_nat n3 - 1 =? 0)%Z = (n3 =? 1)%nat) by (destruct (Z.eqb_spec (Z.of_nat n3 - 1) 0), (Nat.eqb_spec n3 1); lia).
  rewrite H1, H2, H3. destruct ((fS x1 =? 1)%nat && (fS x2 =? 1)%nat && _)%bool; destruct incl; reflexivity.
Qed.

(** Everything else raises. *)
Theorem C36_tensor_errors : forall x1 x2 max_degree include K, cg_checked cgf ->
  (~ well_formed x1 \/ ~ well_formed x2 -> exists e, tensor cgf max_degree include K x1 x2 = Err e)
  /\ forall n1 n2, valid n1 x1 -> valid n2 x2 ->
     let L3 := match max_degree with Some d => d | None => Z.max (Z.of_nat n1 - 1) (Z.of_nat n2 - 1) end in
     ((Z.of_nat n1 - 1) + (Z.of_nat n2 - 1) < L3)%Z \/ fF x1 <> fF x2 \/ (L3 < 0)%Z \/ n1 = 0%nat \/ n2 = 0%nat ->
     tensor cgf max_degree include K x1 x2 = Err ValueError.
Proof.
  intros x1 x2 md incl K Hcg. split.
  - intros H. destruct (tensor cgf md incl K x1 x2) as [z|e] eqn:E; [|eauto]. exfalso. unfold tensor in E.
    destruct (extract_max_degree_and_check_shape (shape_of x1)) as [L1|] eqn:E1; [|discriminate].
    destruct (extract_max_degree_and_check_shape (shape_of x2)) as [L2|] eqn:E2; [|discriminate].
    destruct (extract_ok x1 L1 E1) as [m1 [W1 _]]. destruct (extract_ok x2 L2 E2) as [m2 [W2 _]].
    destruct H as [H|H]; apply H; eexists; eassumption.
  - intros n1 n2 V1 V2 L3 H. unfold tensor. rewrite (extract_valid x1 n1 V1), (extract_valid x2 n2 V2). cbn [bind].
    change (output_degree md (Z.of_nat n1 - 1) (Z.of_nat n2 - 1)) with L3.
    destruct (Z.ltb_spec (Z.of_nat n1 - 1 + (Z.of_nat n2 - 1)) L3); [reflexivity|].
    destruct (Nat.eqb_spec (fF x1) (fF x2)); [|reflexivity]. cbn [negb]. rewrite Hcg by lia. reflexivity.
Qed.

(** Tensor commutes with simultaneous rotation (s = 1) and rotation with reflection (s = -1) of
    both inputs by matrices that commute with the coupling coefficients. *)
Theorem C36_tensor_equivariant : forall s Dx Dy D max_degree include K x y x' y' z, cg_checked cgf -> s * s = 1 ->
  cg_commutes cgf D ->
  (forall B i, broadcast_shapes (fB x) (fB y) = Ok B -> Dx (bidx (fB x) B i) = D i /\ Dy (bidx (fB y) B i) = D i) ->
  transformed s Dx x x' -> transformed s Dy y y' -> tensor cgf max_degree include K x y = Ok z ->
  exists z', tensor cgf max_degree include K x' y' = Ok z' /\ transformed s D z z'.
Proof.
  intros s Dx Dy D md incl K x y x' y' z Hcg Hs HC Hb. apply tensor_transformed; try assumption.
  intros B E i. apply Hb. exact E.
Qed.

(** In terms of the library's functions, for one rotation of everything. *)
Theorem C36_tensor_rotate : forall D max_degree include K x y x' y' z, cg_checked cgf -> block_diagonal D ->
  cg_commutes cgf D -> rotate x (wigner_for true D x) = Ok x' -> rotate y (wigner_for true D y) = Ok y' ->
  tensor cgf max_degree include K x y = Ok z ->
  exists z1 z2, tensor cgf max_degree include K x' y' = Ok z1 /\ rotate z (wigner_for true D z) = Ok z2 /\ same_feature z1 z2.
Proof.
  intros D md incl K x y x' y' z Hcg HB HC Hx Hy H.
  assert (V : exists n1 n2, valid n1 x /\ valid n2 y).
  { pose proof H as H0. unfold tensor in H0.
    destruct (extract_max_degree_and_check_shape (shape_of x)) as [L1|] eqn:E1; [|discriminate].
    destruct (extract_max_degree_and_check_shape (shape_of y)) as [L2|] eqn:E2; [|discriminate].
    destruct (extract_ok x L1 E1) as [n1 [V1 _]]. destruct (extract_ok y L2 E2) as [n2 [V2 _]]. eauto. }
  destruct V as [n1 [n2 [V1 V2]]].
  destruct (tensor_couplings cgf n1 n2 x y md incl K z Hcg V1 V2 H) as [n3 [C [B0 [_ [_ [_ [_ [_ [_ [_ [_ [Vz _]]]]]]]]]]]].
  destruct (rotate_transformed n1 x true D V1 HB) as [x0 [E0 T0]]. assert (x0 = x') by congruence. subst x0.
  destruct (rotate_transformed n2 y true D V2 HB) as [y0 [E1 T1]]. assert (y0 = y') by congruence. subst y0.
  cbn [wigner_batch] in *.
  destruct (tensor_transformed cgf 1 (fun _ => D []) (fun _ => D []) (fun _ => D []) md incl K x y x' y' z Hcg) as [z1 [Ez T2]]; auto; try ring.
  - intros L1 L2 L3 C' b HCC. apply (HC L1 L2 L3 C' [] HCC).
  - apply batch_agrees_const.
  - destruct (rotate_transformed n3 z true D Vz HB) as [z2 [E2 T3]]. exists z1, z2. split; [exact Ez|]. split; [exact E2|].
    exact (transformed_unique n3 _ _ _ _ _ Vz T2 T3).
Qed.

Theorem C36_tensor_reflect : forall max_degree include K x y x' y' z, cg_checked cgf ->
  reflect x = Ok x' -> reflect y = Ok y' -> tensor cgf max_degree include K x y = Ok z ->
  exists z1 z2, tensor cgf max_degree include K x' y' = Ok z1 /\ reflect z = Ok z2 /\ same_feature z1 z2.
Proof.
  intros md incl K x y x' y' z Hcg Hx Hy H.
  assert (V : exists n1 n2, valid n1 x /\ valid n2 y).
  { pose proof H as H0. unfold tensor in H0.
    destruct (extract_max_degree_and_check_shape (shape_of x)) as [L1|] eqn:E1; [|discriminate].
    destruct (extract_max_degree_and_check_shape (shape_of y)) as [L2|] eqn:E2; [|discriminate].
    destruct (extract_ok x L1 E1) as [n1 [V1 _]]. destruct (extract_ok y L2 E2) as [n2 [V2 _]]. eauto. }
  destruct V as [n1 [n2 [V1 V2]]].
  destruct (tensor_couplings cgf n1 n2 x y md incl K z Hcg V1 V2 H) as [n3 [C [B0 [_ [_ [_ [_ [_ [_ [_ [_ [Vz _]]]]]]]]]]]].
  destruct (reflect_transformed n1 x V1) as [x0 [E0 T0]]. assert (x0 = x') by congruence. subst x0.
  destruct (reflect_transformed n2 y V2) as [y0 [E1 T1]]. assert (y0 = y') by congruence. subst y0.
  destruct (tensor_transformed cgf (-1) identity_matrices identity_matrices identity_matrices md incl K x y x' y' z Hcg) as [z1 [Ez T2]]; auto; try ring.
  - apply identity_cg_commutes.
  - apply (batch_agrees_const (identity_matrices [])).
  - destruct (reflect_transformed n3 z Vz) as [z2 [E2 T3]]. exists z1, z2. split; [exact Ez|]. split; [exact E2|].
    exact (transformed_unique n3 _ _ _ _ _ Vz T2 T3).
Qed.

(** Weights of paths that violate parity conservation have no effect. *)
Theorem C36_forbidden_paths_irrelevant : forall n1 n2 x y max_degree include K K' z z', cg_checked cgf ->
  valid n1 x -> valid n2 y ->
  tensor cgf max_degree include K x y = Ok z -> tensor cgf max_degree include K' x y = Ok z' ->
  (forall p1 l1 p2 l2 p l f, ((p1 + p2) mod 2 = p)%nat -> has_slot x p1 l1 -> has_slot y p2 l2 -> has_slot z p l ->
     K (channel (fS x) p1) l1 (channel (fS y) p2) l2 (channel (fS z) p) l f
     = K' (channel (fS x) p1) l1 (channel (fS y) p2) l2 (channel (fS z) p) l f) ->
  same_feature z z'.
Proof.
  intros n1 n2 x y md incl K K' z z' Hcg V1 V2 H H' HK.
  destruct (tensor_couplings cgf n1 n2 x y md incl K z Hcg V1 V2 H) as
    [n3 [C [B [EC [P1 [P2 [P3 [P4 [EO [EB [EBz [Vz [ES [EF [EF2 [Ed W]]]]]]]]]]]]]]]].
  destruct (tensor_couplings cgf n1 n2 x y md incl K' z' Hcg V1 V2 H') as
    [n3' [C' [B' [EC' [P1' [P2' [P3' [P4' [EO' [EB' [EBz' [Vz' [ES' [EF' [EF2' [Ed' W']]]]]]]]]]]]]]]].
  assert (n3' = n3) by lia. subst n3'. assert (C' = C) by congruence. subst C'. assert (EBB : B' = B) by congruence. rewrite EBB in EBz', W'.
  assert (SS : fS z' = fS z) by congruence.
  apply (comp_determines n3); try assumption; try congruence. intros i p l k f Hp Hl Hk.
  destruct (slot_dec z p l) as [Hs|Hs].
  - rewrite W by assumption. rewrite W'; [|assumption|assumption|apply (has_slot_ext z z'); auto; rewrite (proj2 Vz), (proj2 Vz'); reflexivity].
    apply rsum_ext. intros p1 Hp1. apply rsum_ext. intros l1 Hl1. apply rsum_ext. intros p2 Hp2. apply rsum_ext. intros l2 Hl2.
    destruct (Nat.eqb_spec ((p1 + p2) mod 2) p) as [Ep|Ep]; [|reflexivity].
    destruct (slot_dec x p1 l1) as [S1|S1].
    + destruct (slot_dec y p2 l2) as [S2|S2].
      * rewrite SS. rewrite (HK p1 l1 p2 l2 p l f Ep S1 S2 Hs). reflexivity.
      * assert (Z0 : forall k0, comp y (bidx (fB y) B i) p2 l2 k0 f = 0) by (intros k0; apply (no_slot n2); assumption).
        unfold coupled. rewrite (rsum_zero (2 * l1 + 1)); [ring|]. intros k1 _. apply rsum_zero. intros k2 _. rewrite Z0. ring.
    + assert (Z0 : forall k0, comp x (bidx (fB x) B i) p1 l1 k0 f = 0) by (intros k0; apply (no_slot n1); assumption).
      unfold coupled. rewrite (rsum_zero (2 * l1 + 1)); [ring|]. intros k1 _. apply rsum_zero. intros k2 _. rewrite Z0. ring.
  - rewrite (no_slot n3 z) by assumption. symmetry. apply (no_slot n3); try assumption.
    intros Hs'. apply Hs. apply (has_slot_ext z' z); auto. rewrite (proj2 Vz), (proj2 Vz'). reflexivity.
Qed.

(** ** Bilinearity *)

(** x = a u + b v, component by component. *)
Definition combination (a : R) (u : feat) (b : R) (v x : feat) : Prop :=
  like u v /\ like u x /\ forall i p l k f, comp x i p l k f = a * comp u i p l k f + b * comp v i p l k f.

Lemma coupled_left : forall C a b u u1 u2 v l1 l2 l k, (forall k1, u k1 = a * u1 k1 + b * u2 k1) ->
  coupled C u v l1 l2 l k = a * coupled C u1 v l1 l2 l k + b * coupled C u2 v l1 l2 l k.
Proof.
  intros C a b u u1 u2 v l1 l2 l k H. unfold coupled. rewrite <- !rsum_scal_l, <- rsum_plus. apply rsum_ext. intros k1 _.
  rewrite <- !rsum_scal_l, <- rsum_plus. apply rsum_ext. intros k2 _. rewrite H. ring.
Qed.

Lemma coupled_right : forall C a b u v v1 v2 l1 l2 l k, (forall k1, v k1 = a * v1 k1 + b * v2 k1) ->
  coupled C u v l1 l2 l k = a * coupled C u v1 l1 l2 l k + b * coupled C u v2 l1 l2 l k.
Proof.
  intros C a b u v v1 v2 l1 l2 l k H. unfold coupled. rewrite <- !rsum_scal_l, <- rsum_plus. apply rsum_ext. intros k1 _.
  rewrite <- !rsum_scal_l, <- rsum_plus. apply rsum_ext. intros k2 _. rewrite H. ring.
Qed.

Lemma couplings_linear : forall n1 n2 n3 C W ia ib a b x u v y yu yv z zu zv, like zu zv -> like zu z -> valid n3 zu ->
  weighted_couplings n1 n2 C W ia ib x y z -> weighted_couplings n1 n2 C W ia ib u yu zu -> weighted_couplings n1 n2 C W ia ib v yv zv ->
  (forall i p1 l1 p2 l2 l k f, coupled C (fun k1 => comp x (ia i) p1 l1 k1 f) (fun k2 => comp y (ib i) p2 l2 k2 f) l1 l2 l k
     = a * coupled C (fun k1 => comp u (ia i) p1 l1 k1 f) (fun k2 => comp yu (ib i) p2 l2 k2 f) l1 l2 l k
     + b * coupled C (fun k1 => comp v (ia i) p1 l1 k1 f) (fun k2 => comp yv (ib i) p2 l2 k2 f) l1 l2 l k) ->
  forall i p l k f, (p < 2)%nat -> (k < 2 * l + 1)%nat -> comp z i p l k f = a * comp zu i p l k f + b * comp zv i p l k f.
Proof.
  intros n1 n2 n3 C W ia ib a b x u v y yu yv z zu zv Lv Lz Vu Wz Wu Wv HC i p l k f Hp Hk.
  assert (Vv : valid n3 zv) by (destruct Lv as [_ [? [? _]]], Vu; split; congruence).
  assert (Vz : valid n3 z) by (destruct Lz as [_ [? [? _]]], Vu; split; congruence).
  destruct (slot_dec zu p l) as [Hs|Hs].
  - assert (Hsv : has_slot zv p l) by (apply (has_slot_ext zu zv); [destruct Lv as [_ [? [? _]]]; congruence..|assumption]).
    assert (Hsz : has_slot z p l) by (apply (has_slot_ext zu z); [destruct Lz as [_ [? [? _]]]; congruence..|assumption]).
    rewrite Wz, Wu, Wv by assumption. rewrite <- !rsum_scal_l, <- rsum_plus. apply rsum_ext. intros p1 _.
    rewrite <- !rsum_scal_l, <- rsum_plus. apply rsum_ext. intros l1 _. rewrite <- !rsum_scal_l, <- rsum_plus. apply rsum_ext. intros p2 _.
    rewrite <- !rsum_scal_l, <- rsum_plus. apply rsum_ext. intros l2 _. destruct (_ =? _)%nat; [|ring]. rewrite HC. ring.
  - assert (Hsv : ~ has_slot zv p l) by (intros c; apply Hs; apply (has_slot_ext zu zv); [destruct Lv as [_ [? [? _]]]; congruence..|assumption]).
    assert (Hsz : ~ has_slot z p l) by (intros c; apply Hs; apply (has_slot_ext zu z); [destruct Lz as [_ [? [? _]]]; congruence..|assumption]).
    rewrite (no_slot n3 z), (no_slot n3 zu), (no_slot n3 zv) by assumption. ring.
Qed.

Theorem C36_tensor_bilinear : forall a b u v x y max_degree include K zu zv, cg_checked cgf -> combination a u b v x ->
  (tensor cgf max_degree include K u y = Ok zu -> tensor cgf max_degree include K v y = Ok zv ->
   exists z, tensor cgf max_degree include K x y = Ok z /\ like zu z /\
     forall i p l k f, (p < 2)%nat -> (k < 2 * l + 1)%nat -> comp z i p l k f = a * comp zu i p l k f + b * comp zv i p l k f)
  /\
  (tensor cgf max_degree include K y u = Ok zu -> tensor cgf max_degree include K y v = Ok zv ->
   exists z, tensor cgf max_degree include K y x = Ok z /\ like zu z /\
     forall i p l k f, (p < 2)%nat -> (k < 2 * l + 1)%nat -> comp z i p l k f = a * comp zu i p l k f + b * comp zv i p l k f).
Proof.
  intros a b u v x y md incl K zu zv Hcg [Lv [Lx HC]].
  assert (VV : forall p q z, tensor cgf md incl K p q = Ok z -> exists n1 n2, valid n1 p /\ valid n2 q).
  { intros p q z H0. unfold tensor in H0.
    destruct (extract_max_degree_and_check_shape (shape_of p)) as [L1|] eqn:E1; [|discriminate].
    destruct (extract_max_degree_and_check_shape (shape_of q)) as [L2|] eqn:E2; [|discriminate].
    destruct (extract_ok p L1 E1) as [n1 [V1 _]]. destruct (extract_ok q L2 E2) as [n2 [V2 _]]. eauto. }
  assert (refl : forall q, like q q) by (intros; repeat split).
  assert (TV : forall n p q, like p q -> valid n p -> valid n q) by (intros n p q [_ [? [? _]]] [? ?]; split; congruence).
  split; intros Hu Hv.
  - destruct (VV _ _ _ Hu) as [n1 [n2 [V1 V2]]].
    destruct (tensor_shapes cgf md incl K u y x y zu Lx (refl y) Hu) as [z [Hz Sz]].
    destruct (tensor_shapes cgf md incl K u y v y zu Lv (refl y) Hu) as [zv' [Hv' Sv]]. assert (zv' = zv) by congruence. subst zv'.
    exists z. split; [exact Hz|]. split; [exact Sz|].
    destruct (tensor_couplings cgf n1 n2 u y md incl K zu Hcg V1 V2 Hu) as [n3 [C [B [EC [P1 [P2 [P3 [P4 [EO [EB [EBz [Vz [ES [EF [EF2 [Ed W]]]]]]]]]]]]]]]].
    destruct (tensor_couplings cgf n1 n2 v y md incl K zv Hcg (TV _ _ _ Lv V1) V2 Hv) as [n4 [C1 [B1 [EC1 [_ [_ [_ [_ [EO1 [EB1 [_ [_ [_ [_ [_ [_ W1]]]]]]]]]]]]]]]].
    destruct (tensor_couplings cgf n1 n2 x y md incl K z Hcg (TV _ _ _ Lx V1) V2 Hz) as [n5 [C2 [B2 [EC2 [_ [_ [_ [_ [EO2 [EB2 [_ [_ [_ [_ [_ [_ W2]]]]]]]]]]]]]]]].
    assert (n4 = n3) by lia. assert (n5 = n3) by lia. subst n4 n5. assert (C1 = C) by congruence. assert (C2 = C) by congruence. subst C1 C2.
    pose proof Lv as [LB [LS _]]. pose proof Lx as [XB [XS _]]. pose proof Sv as [_ [SS _]]. pose proof Sz as [_ [ZS _]].
    rewrite LB in EB1. rewrite XB in EB2. assert (EB3 : B1 = B) by congruence. assert (EB4 : B2 = B) by congruence. rewrite EB3 in W1. rewrite EB4 in W2.
    rewrite LB, LS, SS in W1. rewrite XB, XS, ZS in W2.
    apply (couplings_linear n1 n2 n3 C _ _ _ a b x u v y y y z zu zv Sv Sz Vz W2 W W1).
    intros. apply coupled_left. intros. apply HC.
  - destruct (VV _ _ _ Hu) as [n1 [n2 [V1 V2]]].
    destruct (tensor_shapes cgf md incl K y u y x zu (refl y) Lx Hu) as [z [Hz Sz]].
    destruct (tensor_shapes cgf md incl K y u y v zu (refl y) Lv Hu) as [zv' [Hv' Sv]]. assert (zv' = zv) by congruence. subst zv'.
    exists z. split; [exact Hz|]. split; [exact Sz|].
    destruct (tensor_couplings cgf n1 n2 y u md incl K zu Hcg V1 V2 Hu) as [n3 [C [B [EC [P1 [P2 [P3 [P4 [EO [EB [EBz [Vz [ES [EF [EF2 [Ed W]]]]]]]]]]]]]]]].
    destruct (tensor_couplings cgf n1 n2 y v md incl K zv Hcg V1 (TV _ _ _ Lv V2) Hv) as [n4 [C1 [B1 [EC1 [_ [_ [_ [_ [EO1 [EB1 [_ [_ [_ [_ [_ [_ W1]]]]]]]]]]]]]]]].
    destruct (tensor_couplings cgf n1 n2 y x md incl K z Hcg V1 (TV _ _ _ Lx V2) Hz) as [n5 [C2 [B2 [EC2 [_ [_ [_ [_ [EO2 [EB2 [_ [_ [_ [_ [_ [_ W2]]]]]]]]]]]]]]]].
    assert (n4 = n3) by lia. assert (n5 = n3) by lia. subst n4 n5. assert (C1 = C) by congruence. assert (C2 = C) by congruence. subst C1 C2.
    pose proof Lv as [LB [LS _]]. pose proof Lx as [XB [XS _]]. pose proof Sv as [_ [SS _]]. pose proof Sz as [_ [ZS _]].
    rewrite LB in EB1. rewrite XB in EB2. assert (EB3 : B1 = B) by congruence. assert (EB4 : B2 = B) by congruence. rewrite EB3 in W1. rewrite EB4 in W2.
    rewrite LB, LS, SS in W1. rewrite XB, XS, ZS in W2.
    apply (couplings_linear n1 n2 n3 C _ _ _ a b y y y x u v z zu zv Sv Sz Vz W2 W W1).
    intros. apply coupled_right. intros. apply HC.
Qed.

End Tensors.
Print Assumptions C36_tensor_formula.
Print Assumptions C36_tensor_errors.
Print Assumptions C36_tensor_equivariant.
Print Assumptions C36_tensor_rotate.
Print Assumptions C36_tensor_reflect.
Print Assumptions C36_forbidden_paths_irrelevant.
Print Assumptions C36_tensor_bilinear.

(** Two single features: the unit vectors along x and y. *)
Definition case_ex : feat := mkFeat [] 1 4 1 0 (fun _ _ d _ => if (d =? 1)%nat then 1 else 0).
Definition case_ey : feat := mkFeat [] 1 4 1 0 (fun _ _ d _ => if (d =? 2)%nat then 1 else 0).

(** With all weights 1 their product contains the cross product, an even-parity vector along z. *)
Example C36_tensor_formula_case : exists z, tensor case_cg None true (fun _ _ _ _ _ _ _ => 1) case_ex case_ey = Ok z
  /\ fS z = 2%nat /\ fD z = 4%nat /\ comp z [] 0 1 2 0 = / sqrt 2 /\ comp z [] 0 1 0 0 = 0 /\ comp z [] 0 0 0 0 = 0
  /\ comp z [] 1 1 2 0 = 0.
Proof.
  assert (V1 : valid 2 case_ex) by (split; [left|]; reflexivity).
  assert (V2 : valid 2 case_ey) by (split; [left|]; reflexivity).
  destruct (C36_tensor_formula case_cg 2 2 case_ex case_ey None true (fun _ _ _ _ _ _ _ => 1) 1 case_coupling [] V1 V2
    eq_refl eq_refl ltac:(lia) case_checked eq_refl eq_refl) as [z [n3 [E [E3 [Vz [_ [_ [_ [ES W]]]]]]]]].
  assert (n3 = 2%nat) by lia. subst n3. cbn in ES. exists z. split; [exact E|]. split; [exact ES|]. split; [apply Vz|].
  assert (Hs : forall p l, (l < 2)%nat -> has_slot z p l) by (intros p l Hl; apply (has_slot_valid 2); auto).
  rewrite !W by (auto; lia).
  cbv -[Rplus Rmult Ropp Rinv sqrt IZR]. repeat split; ring.
Qed.

Example C36_tensor_equivariant_case : forall t, exists x' y' z,
  rotate case_ex (wigner_for true (case_wigner t) case_ex) = Ok x' /\ rotate case_ey (wigner_for true (case_wigner t) case_ey) = Ok y'
  /\ tensor case_cg None true (fun _ _ _ _ _ _ _ => 1) case_ex case_ey = Ok z
  /\ cg_checked case_cg /\ block_diagonal (case_wigner t) /\ cg_commutes case_cg (case_wigner t).
Proof.
  intros t.
  assert (V1 : valid 2 case_ex) by (split; [left|]; reflexivity).
  assert (V2 : valid 2 case_ey) by (split; [left|]; reflexivity).
  destruct (rotate_transformed 2 case_ex true (case_wigner t) V1 (case_block_diagonal t)) as [x' [E1 _]].
  destruct (rotate_transformed 2 case_ey true (case_wigner t) V2 (case_block_diagonal t)) as [y' [E2 _]].
  destruct C36_tensor_formula_case as [z [E3 _]].
  exists x', y', z. split; [exact E1|]. split; [exact E2|]. split; [exact E3|].
  split; [apply case_checked|]. split; [apply case_block_diagonal|apply case_commutes].
Qed.

(** * C37: FusedTensor *)

Section Fused.
Variable cgf : Z -> Z -> Z -> result (nat -> nat -> nat -> R).

(** What is computed: as for Tensor, with weights that are products of one for each factor and one
    for the result, and coefficients made from those that couple two tensors of degree M, half of
    the largest degree (rounded up). *)
Theorem C37_fused_formula : forall n1 n2 n3 n x1 x2 max_degree include P C B,
  valid n1 x1 -> valid n2 x2 -> fF x1 = fF x2 -> (0 < n1)%nat -> (0 < n2)%nat -> (0 < n3)%nat ->
  (Z.of_nat n3 - 1)%Z = match max_degree with Some d => d | None => Z.max (Z.of_nat n1 - 1) (Z.of_nat n2 - 1) end ->
  (n3 + 1 <= n1 + n2)%nat -> cg_checked cgf -> n = Nat.max n1 (Nat.max n2 n3) ->
  let M := (n / 2)%nat in
  cgf (Z.of_nat M) (Z.of_nat M) (Z.of_nat n - 1)%Z = Ok C -> broadcast_shapes (fB x1) (fB x2) = Ok B ->
  exists z, fused_tensor cgf max_degree include P x1 x2 = Ok z /\ valid n3 z
    /\ fB z = B /\ fF z = fF x1 /\ fdt z = fdt x1
    /\ fS z = (if include && negb ((fS x1 =? 1)%nat && (fS x2 =? 1)%nat && ((n1 =? 1)%nat || (n2 =? 1)%nat || (n3 =? 1)%nat)) then 2%nat else 1%nat)
    /\ weighted_couplings n1 n2
         (fun d1 d2 d3 => rsum (2 * M + 1) (fun u => rsum (2 * M + 1) (fun v => rsum (2 * M + 1) (fun t =>
            C (M * M + u)%nat (M * M + v)%nat d1 * C (M * M + v)%nat (M * M + t)%nat d2 * C (M * M + u)%nat (M * M + t)%nat d3))))
         (fun p1 l1 p2 l2 p l f =>
            (if (p1 =? 1)%nat then k_o1 P l1 f else k_e1 P l1 f) * (if (p2 =? 1)%nat then k_o2 P l2 f else k_e2 P l2 f)
            * (match p1, p2 with O, O => k_eee P l f | O, _ => k_eoo P l f | _, O => k_oeo P l f | _, _ => k_ooe P l f end))
         (bidx (fB x1) B) (bidx (fB x2) B) x1 x2 z.
Proof.
  intros n1 n2 n3 n x1 x2 md incl P C B V1 V2 HF Hn1 Hn2 Hn3 HL Hle Hcg Hn M HC HB.
  assert (Hmd : forall d, md = Some d -> (0 <= d)%Z) by (intros d ->; lia).
  assert (Hok : exists z, fused_tensor cgf md incl P x1 x2 = Ok z).
  { unfold fused_tensor. rewrite (extract_valid x1 n1 V1), (extract_valid x2 n2 V2). cbn [bind].
    assert (EL : output_degree md (Z.of_nat n1 - 1) (Z.of_nat n2 - 1) = (Z.of_nat n3 - 1)%Z) by (rewrite HL; reflexivity). rewrite EL.
    destruct (Z.ltb_spec (Z.of_nat n1 - 1 + (Z.of_nat n2 - 1)) (Z.of_nat n3 - 1)); [lia|]. rewrite HF, Nat.eqb_refl. cbn [negb].
    replace (Z.max (Z.of_nat n1 - 1) (Z.max (Z.of_nat n2 - 1) (Z.of_nat n3 - 1)))%Z with (Z.of_nat n - 1)%Z by lia.
    replace ((Z.of_nat n - 1 + 1) / 2)%Z with (Z.of_nat M) by (unfold M; rewrite Nat2Z.inj_div; f_equal; lia).
    rewrite HC. cbn [bind]. rewrite HB. cbn [bind]. destruct (output_pseudotensors _ _ _ _ _ _); eexists; reflexivity. }
  destruct Hok as [z Hz]. destruct (fused_couplings cgf n1 n2 x1 x2 md incl P z Hcg Hmd V1 V2 Hz) as
    [m3 [m [M' [C' [B' [EC [P1 [P2 [P3 [P4 [EO [EB [EBz [Vz [ES [EF [EF2 [Ed W]]]]]]]]]]]]]]]]]].
  assert (E3 : m3 = n3) by (assert (H : (Z.of_nat m3 - 1 = Z.of_nat n3 - 1)%Z) by (rewrite <- EO, HL; reflexivity); lia).
  subst m3. rewrite <- Hn in P1. rewrite P1 in P3, EC. change (M' = M) in P3. rewrite P3 in EC, W.
  assert (EC' : C' = C) by congruence. assert (EB' : B' = B) by congruence. rewrite EC', EB' in W. rewrite EB' in EBz.
  exists z. split; [exact Hz|]. split; [exact Vz|]. split; [exact EBz|]. split; [exact EF|]. split; [exact Ed|].
  split.
  - rewrite ES. unfold output_pseudotensors.
    assert (H1 : (Z.of_nat n1 - 1 =? 0)%Z = (n1 =? 1)%nat) by (destruct (Z.eqb_spec (Z.of_nat n1 - 1) 0), (Nat.eqb_spec n1 1); lia).
    assert (H2 : (Z.of_nat n2 - 1 =? 0)%Z = (n2 =? 1)%nat) by (destruct (Z.eqb_spec (Z.of_nat n2 - 1) 0), (Nat.eqb_spec n2 1); lia).
    assert (H3 : (Z.of_nat n3 - 1 =? 0)%Z = (n3 =? 1)%nat) by (destruct (Z.eqb_spec (Z.of_nat n3 - 1) 0), (Nat.eqb_spec n3 1); lia).
    rewrite H1, H2, H3. destruct ((fS x1 =? 1)%nat && (fS x2 =? 1)%nat && _)%bool; destruct incl; reflexivity.
  - intros i p l k f Hp Hk Hs. rewrite (W i p l k f Hp Hk Hs).
    apply rsum_ext. intros p1 _. apply rsum_ext. intros l1 _. apply rsum_ext. intros p2 _. apply rsum_ext. intros l2 _.
    destruct (_ =? _)%nat; [|reflexivity]. f_equal. f_equal; [f_equal|].
    + unfold kin1. destruct (p1 =? 1)%nat; reflexivity.
    + unfold kin2. destruct (p2 =? 1)%nat; reflexivity.
    + unfold kout. destruct p1, p2; reflexivity.
Qed.

Theorem C37_fused_errors : forall x1 x2 max_degree include P,
  (~ well_formed x1 \/ ~ well_formed x2 -> exists e, fused_tensor cgf max_degree include P x1 x2 = Err e)
  /\ forall n1 n2, valid n1 x1 -> valid n2 x2 ->
     let L3 := match max_degree with Some d => d | None => Z.max (Z.of_nat n1 - 1) (Z.of_nat n2 - 1) end in
     ((Z.of_nat n1 - 1) + (Z.of_nat n2 - 1) < L3)%Z \/ fF x1 <> fF x2 ->
     fused_tensor cgf max_degree include P x1 x2 = Err ValueError.
Proof.
  intros x1 x2 md incl K. split.
  - intros H. destruct (fused_tensor cgf md incl K x1 x2) as [z|e] eqn:E; [|eauto]. exfalso. unfold fused_tensor in E.
    destruct (extract_max_degree_and_check_shape (shape_of x1)) as [L1|] eqn:E1; [|discriminate].
    destruct (extract_max_degree_and_check_shape (shape_of x2)) as [L2|] eqn:E2; [|discriminate].
    destruct (extract_ok x1 L1 E1) as [m1 [W1 _]]. destruct (extract_ok x2 L2 E2) as [m2 [W2 _]].
    destruct H as [H|H]; apply H; eexists; eassumption.
  - intros n1 n2 V1 V2 L3 H. unfold fused_tensor. rewrite (extract_valid x1 n1 V1), (extract_valid x2 n2 V2). cbn [bind].
    change (output_degree md (Z.of_nat n1 - 1) (Z.of_nat n2 - 1)) with L3.
    destruct (Z.ltb_spec (Z.of_nat n1 - 1 + (Z.of_nat n2 - 1)) L3); [reflexivity|].
    destruct (Nat.eqb_spec (fF x1) (fF x2)); [|reflexivity]. lia.
Qed.

Theorem C37_fused_equivariant : forall s Dx Dy D max_degree include P x y x' y' z, cg_checked cgf -> s * s = 1 ->
  (forall d, max_degree = Some d -> (0 <= d)%Z) -> orthogonal_blocks D -> cg_commutes cgf D ->
  (forall B i, broadcast_shapes (fB x) (fB y) = Ok B -> Dx (bidx (fB x) B i) = D i /\ Dy (bidx (fB y) B i) = D i) ->
  transformed s Dx x x' -> transformed s Dy y y' -> fused_tensor cgf max_degree include P x y = Ok z ->
  exists z', fused_tensor cgf max_degree include P x' y' = Ok z' /\ transformed s D z z'.
Proof.
  intros s Dx Dy D md incl K x y x' y' z Hcg Hs Hmd HO HC Hb. apply fused_transformed; try assumption.
  intros B E i. apply Hb. exact E.
Qed.

Lemma fused_valid : forall md incl P x y z, cg_checked cgf -> (forall d, md = Some d -> (0 <= d)%Z) ->
  fused_tensor cgf md incl P x y = Ok z -> exists n1 n2 n3, valid n1 x /\ valid n2 y /\ valid n3 z.
Proof.
  intros md incl P x y z Hcg Hmd H. pose proof H as H0. unfold fused_tensor in H0.
  destruct (extract_max_degree_and_check_shape (shape_of x)) as [L1|] eqn:E1; [|discriminate].
  destruct (extract_max_degree_and_check_shape (shape_of y)) as [L2|] eqn:E2; [|discriminate].
  destruct (extract_ok x L1 E1) as [n1 [V1 _]]. destruct (extract_ok y L2 E2) as [n2 [V2 _]].
  destruct (fused_couplings cgf n1 n2 x y md incl P z Hcg Hmd V1 V2 H) as [n3 [n' [M [C [B0 [_ [_ [_ [_ [_ [_ [_ [_ [Vz _]]]]]]]]]]]]]].
  exists n1, n2, n3. auto.
Qed.

Theorem C37_fused_rotate : forall D max_degree include P x y x' y' z, cg_checked cgf ->
  (forall d, max_degree = Some d -> (0 <= d)%Z) -> block_diagonal D -> orthogonal_blocks D -> cg_commutes cgf D ->
  rotate x (wigner_for true D x) = Ok x' -> rotate y (wigner_for true D y) = Ok y' ->
  fused_tensor cgf max_degree include P x y = Ok z ->
  exists z1 z2, fused_tensor cgf max_degree include P x' y' = Ok z1 /\ rotate z (wigner_for true D z) = Ok z2 /\ same_feature z1 z2.
Proof.
  intros D md incl K x y x' y' z Hcg Hmd HB HO HC Hx Hy H.
  destruct (fused_valid md incl K x y z Hcg Hmd H) as [n1 [n2 [n3 [V1 [V2 Vz]]]]].
  destruct (rotate_transformed n1 x true D V1 HB) as [x0 [E0 T0]]. assert (x0 = x') by congruence. subst x0.
  destruct (rotate_transformed n2 y true D V2 HB) as [y0 [E1 T1]]. assert (y0 = y') by congruence. subst y0.
  cbn [wigner_batch] in *.
  destruct (fused_transformed cgf 1 (fun _ => D []) (fun _ => D []) (fun _ => D []) md incl K x y x' y' z Hcg) as [z1 [Ez T2]]; auto; try ring.
  - intros b. apply HO.
  - intros L1 L2 L3 C' b HCC. apply (HC L1 L2 L3 C' [] HCC).
  - apply batch_agrees_const.
  - destruct (rotate_transformed n3 z true D Vz HB) as [z2 [E2 T3]]. exists z1, z2. split; [exact Ez|]. split; [exact E2|].
    exact (transformed_unique n3 _ _ _ _ _ Vz T2 T3).
Qed.

Theorem C37_fused_reflect : forall max_degree include P x y x' y' z, cg_checked cgf ->
  (forall d, max_degree = Some d -> (0 <= d)%Z) ->
  reflect x = Ok x' -> reflect y = Ok y' -> fused_tensor cgf max_degree include P x y = Ok z ->
  exists z1 z2, fused_tensor cgf max_degree include P x' y' = Ok z1 /\ reflect z = Ok z2 /\ same_feature z1 z2.
Proof.
  intros md incl K x y x' y' z Hcg Hmd Hx Hy H.
  destruct (fused_valid md incl K x y z Hcg Hmd H) as [n1 [n2 [n3 [V1 [V2 Vz]]]]].
  destruct (reflect_transformed n1 x V1) as [x0 [E0 T0]]. assert (x0 = x') by congruence. subst x0.
  destruct (reflect_transformed n2 y V2) as [y0 [E1 T1]]. assert (y0 = y') by congruence. subst y0.
  destruct (fused_transformed cgf (-1) identity_matrices identity_matrices identity_matrices md incl K x y x' y' z Hcg) as [z1 [Ez T2]]; auto; try ring.
  - apply identity_orthogonal.
  - apply identity_cg_commutes.
  - apply (batch_agrees_const (identity_matrices [])).
  - destruct (reflect_transformed n3 z Vz) as [z2 [E2 T3]]. exists z1, z2. split; [exact Ez|]. split; [exact E2|].
    exact (transformed_unique n3 _ _ _ _ _ Vz T2 T3).
Qed.

End Fused.
Print Assumptions C37_fused_formula.
Print Assumptions C37_fused_errors.
Print Assumptions C37_fused_equivariant.
Print Assumptions C37_fused_rotate.
Print Assumptions C37_fused_reflect.

Definition case_fused : fused_params :=
  mkFused (fun _ _ => 1) (fun _ _ => 1) (fun _ _ => 1) (fun _ _ => 1) (fun _ _ => 1) (fun _ _ => 1) (fun _ _ => 1) (fun _ _ => 1).

(** The hypotheses hold for vectors; the result has an even-parity vector along z, proportional to
    the cross product. *)
Example C37_fused_case : forall t, exists x' y' z,
  rotate case_ex (wigner_for true (case_wigner t) case_ex) = Ok x' /\ rotate case_ey (wigner_for true (case_wigner t) case_ey) = Ok y'
  /\ fused_tensor case_cg None true case_fused case_ex case_ey = Ok z /\ comp z [] 0 1 2 0 <> 0 /\ comp z [] 0 1 0 0 = 0
  /\ cg_checked case_cg /\ block_diagonal (case_wigner t) /\ orthogonal_blocks (case_wigner t) /\ cg_commutes case_cg (case_wigner t).
Proof.
  intros t.
  assert (V1 : valid 2 case_ex) by (split; [left|]; reflexivity).
  assert (V2 : valid 2 case_ey) by (split; [left|]; reflexivity).
  destruct (rotate_transformed 2 case_ex true (case_wigner t) V1 (case_block_diagonal t)) as [x' [E1 _]].
  destruct (rotate_transformed 2 case_ey true (case_wigner t) V2 (case_block_diagonal t)) as [y' [E2 _]].
  destruct (C37_fused_formula case_cg 2 2 2 2 case_ex case_ey None true case_fused case_coupling [] V1 V2
    eq_refl ltac:(lia) ltac:(lia) ltac:(lia) eq_refl ltac:(lia) case_checked eq_refl eq_refl eq_refl) as [z [E [Vz [_ [_ [_ [ES W]]]]]]].
  cbn in ES. exists x', y', z. split; [exact E1|]. split; [exact E2|]. split; [exact E|].
  assert (Hs : forall p l, (l < 2)%nat -> has_slot z p l) by (intros p l Hl; apply (has_slot_valid 2); auto).
  rewrite !W by (auto; lia).
  assert (Hq : / sqrt 2 * / sqrt 2 = / 2).
  { rewrite <- Rinv_mult. rewrite sqrt_sqrt by lra. reflexivity. }
  assert (Hp : 0 < / sqrt 2) by (apply Rinv_0_lt_compat, sqrt_lt_R0; lra).
  split.
  - intros H. cbv -[Rplus Rmult Ropp Rinv sqrt IZR] in H. ring_simplify in H. 
    replace ((/ sqrt 2) ^ 3) with (/ 2 * / sqrt 2) in H by (rewrite <- Hq; ring). nra.
  - split; [cbv -[Rplus Rmult Ropp Rinv sqrt IZR]; ring|].
    split; [apply case_checked|]. split; [apply case_block_diagonal|]. split; [apply case_orthogonal|apply case_commutes].
Qed.
