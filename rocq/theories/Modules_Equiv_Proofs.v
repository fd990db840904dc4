(** Equivariance of the tensor products. *)
Require Import List Reals ZArith Bool Lia Lra.
Require Import ZifyNat.
Require Import Verif.Base Verif.RSum Verif.Features_Model Verif.Features_Spec Verif.Features_Proofs
  Verif.Modules_Model Verif.Modules_Spec Verif.Modules_Proofs Verif.Modules_Tensor_Proofs Verif.Modules_Fused_Proofs.
Import ListNotations.
Open Scope R_scope.
Arguments Nat.modulo : simpl never.
Arguments Nat.mul : simpl never.

Definition same_shape (x x' : feat) : Prop := fB x' = fB x /\ fS x' = fS x /\ fD x' = fD x /\ fF x' = fF x /\ fdt x' = fdt x.

Lemma transformed_shape : forall s D x x', transformed s D x x' -> same_shape x x'.
Proof. intros s D x x' [? [? [? [? [? _]]]]]. unfold same_shape. auto. Qed.

Lemma shape_of_same : forall x x', same_shape x x' -> shape_of x' = shape_of x.
Proof. intros x x' [HB [HS [HD [HF _]]]]. unfold shape_of. congruence. Qed.

Section Tensors.
Variable cgf : Z -> Z -> Z -> result (nat -> nat -> nat -> R).

Lemma tensor_shapes : forall md incl K x y x' y' z, same_shape x x' -> same_shape y y' ->
  tensor cgf md incl K x y = Ok z -> exists z', tensor cgf md incl K x' y' = Ok z' /\ same_shape z z'.
Proof.
  intros md incl K x y x' y' z Hx Hy H. unfold tensor in *.
  rewrite (shape_of_same x x' Hx), (shape_of_same y y' Hy).
  destruct Hx as [XB [XS [XD [XF Xd]]]]. destruct Hy as [YB [YS [YD [YF Yd]]]].
  rewrite XB, XS, XD, XF, Xd, YB, YS, YD, YF.
  destruct (extract_max_degree_and_check_shape (shape_of x)) as [L1|]; [|discriminate].
  destruct (extract_max_degree_and_check_shape (shape_of y)) as [L2|]; [|discriminate]. cbn [bind] in *.
  destruct (_ <? _)%Z; [discriminate|]. destruct (negb (fF x =? fF y)%nat); [discriminate|].
  destruct (cgf L1 L2 _); [|discriminate]. cbn [bind] in *.
  destruct (broadcast_shapes (fB x) (fB y)); [|discriminate]. cbn [bind] in *.
  destruct (negb (_ && _)); injection H as <-; eexists; (split; [reflexivity|]); repeat split; reflexivity.
Qed.

Lemma fused_shapes : forall md incl K x y x' y' z, same_shape x x' -> same_shape y y' ->
  fused_tensor cgf md incl K x y = Ok z -> exists z', fused_tensor cgf md incl K x' y' = Ok z' /\ same_shape z z'.
Proof.
  intros md incl K x y x' y' z Hx Hy H. unfold fused_tensor in *.
  rewrite (shape_of_same x x' Hx), (shape_of_same y y' Hy).
  destruct Hx as [XB [XS [XD [XF Xd]]]]. destruct Hy as [YB [YS [YD [YF Yd]]]].
  rewrite XB, XS, XF, Xd, YB, YS, YF.
  destruct (extract_max_degree_and_check_shape (shape_of x)) as [L1|]; [|discriminate].
  destruct (extract_max_degree_and_check_shape (shape_of y)) as [L2|]; [|discriminate]. cbn [bind] in *.
  destruct (_ <? _)%Z; [discriminate|]. destruct (negb (fF x =? fF y)%nat); [discriminate|].
  match goal with |- context [cgf ?a ?b ?c] => destruct (cgf a b c) as [C|]; [|discriminate] end. cbn [bind] in *.
  destruct (broadcast_shapes (fB x) (fB y)); [|discriminate]. cbn [bind] in *.
  destruct (output_pseudotensors _ _ _ _ _ _); injection H as <-; eexists; (split; [reflexivity|]); repeat split; reflexivity.
Qed.

(** The inputs of the two calls are transformed by the matrices of the batch element of the
    result that they contribute to. *)
Definition batch_agrees (Dx Dy D : list nat -> nat -> nat -> R) (Bx By : list nat) : Prop :=
  forall B, broadcast_shapes Bx By = Ok B -> forall i, Dx (bidx Bx B i) = D i /\ Dy (bidx By B i) = D i.

Lemma cg_commutes_nat : forall D n1 n2 n3 C b, cg_commutes cgf D ->
  cgf (Z.of_nat n1 - 1) (Z.of_nat n2 - 1) (Z.of_nat n3 - 1) = Ok C -> intertwines n1 n2 n3 C (D b).
Proof.
  intros D n1 n2 n3 C b HC H. specialize (HC _ _ _ C b H).
  replace (Z.to_nat (Z.of_nat n1 - 1 + 1)) with n1 in HC by lia.
  replace (Z.to_nat (Z.of_nat n2 - 1 + 1)) with n2 in HC by lia.
  replace (Z.to_nat (Z.of_nat n3 - 1 + 1)) with n3 in HC by lia. exact HC.
Qed.

Lemma tensor_transformed : forall s Dx Dy D md incl K x y x' y' z, cg_checked cgf -> s * s = 1 ->
  cg_commutes cgf D -> batch_agrees Dx Dy D (fB x) (fB y) ->
  transformed s Dx x x' -> transformed s Dy y y' -> tensor cgf md incl K x y = Ok z ->
  exists z', tensor cgf md incl K x' y' = Ok z' /\ transformed s D z z'.
Proof.
  intros s Dx Dy D md incl K x y x' y' z Hcg Hs HC Hb Tx Ty H.
  assert (V : exists n1 n2, valid n1 x /\ valid n2 y).
  { pose proof H as H0. unfold tensor in H0.
    destruct (extract_max_degree_and_check_shape (shape_of x)) as [L1|] eqn:E1; [|discriminate].
    destruct (extract_max_degree_and_check_shape (shape_of y)) as [L2|] eqn:E2; [|discriminate].
    destruct (extract_ok x L1 E1) as [n1 [V1 _]]. destruct (extract_ok y L2 E2) as [n2 [V2 _]]. eauto. }
  destruct V as [n1 [n2 [V1 V2]]].
  pose proof (transformed_shape _ _ _ _ Tx) as Sx. pose proof (transformed_shape _ _ _ _ Ty) as Sy.
  destruct (tensor_shapes md incl K x y x' y' z Sx Sy H) as [z' [H' Sz]].
  exists z'. split; [exact H'|].
  destruct (tensor_couplings cgf n1 n2 x y md incl K z Hcg V1 V2 H) as
    [n3 [C [B [EC [P1 [P2 [P3 [P4 [EO [EB [EBz [Vz [ES [EF [EF2 [Ed W]]]]]]]]]]]]]]]].
  destruct (tensor_couplings cgf n1 n2 x' y' md incl K z' Hcg (transformed_valid _ _ _ _ _ V1 Tx) (transformed_valid _ _ _ _ _ V2 Ty) H') as
    [n3' [C' [B' [EC' [P1' [P2' [P3' [P4' [EO' [EB' [EBz' [Vz' [ES' [EF' [EF2' [Ed' W']]]]]]]]]]]]]]]].
  assert (n3' = n3) by lia. subst n3'. assert (C' = C) by congruence. subst C'.
  pose proof Sx as [XB [XS _]]. pose proof Sy as [YB [YS _]]. pose proof Sz as [ZB [ZS [ZD [ZF Zd]]]].
  rewrite XB, YB in EB'. assert (EBB : B' = B) by congruence. rewrite EBB in W'.
  rewrite XB, YB, XS, YS, ZS in W'.
  match type of W with weighted_couplings _ _ _ ?w _ _ _ _ _ =>
    apply (couplings_transformed n1 n2 n3 C w (bidx (fB x) B) (bidx (fB y) B) x y z x' y' z' s Dx Dy D); auto end.
  - intros i. apply cg_commutes_nat; assumption.
  - intros i. apply (Hb B EB i).
  - intros i. apply (Hb B EB i).
Qed.

Lemma fused_transformed : forall s Dx Dy D md incl K x y x' y' z, cg_checked cgf -> s * s = 1 ->
  (forall d, md = Some d -> (0 <= d)%Z) -> orthogonal_blocks D ->
  cg_commutes cgf D -> batch_agrees Dx Dy D (fB x) (fB y) ->
  transformed s Dx x x' -> transformed s Dy y y' -> fused_tensor cgf md incl K x y = Ok z ->
  exists z', fused_tensor cgf md incl K x' y' = Ok z' /\ transformed s D z z'.
Proof.
  intros s Dx Dy D md incl K x y x' y' z Hcg Hs Hmd HO HC Hb Tx Ty H.
  assert (V : exists n1 n2, valid n1 x /\ valid n2 y).
  { pose proof H as H0. unfold fused_tensor in H0.
    destruct (extract_max_degree_and_check_shape (shape_of x)) as [L1|] eqn:E1; [|discriminate].
    destruct (extract_max_degree_and_check_shape (shape_of y)) as [L2|] eqn:E2; [|discriminate].
    destruct (extract_ok x L1 E1) as [n1 [V1 _]]. destruct (extract_ok y L2 E2) as [n2 [V2 _]]. eauto. }
  destruct V as [n1 [n2 [V1 V2]]].
  pose proof (transformed_shape _ _ _ _ Tx) as Sx. pose proof (transformed_shape _ _ _ _ Ty) as Sy.
  destruct (fused_shapes md incl K x y x' y' z Sx Sy H) as [z' [H' Sz]].
  exists z'. split; [exact H'|].
  destruct (fused_couplings cgf n1 n2 x y md incl K z Hcg Hmd V1 V2 H) as
    [n3 [n [M [C [B [EC [P1 [P2 [P3 [P4 [EO [EB [EBz [Vz [ES [EF [EF2 [Ed W]]]]]]]]]]]]]]]]]].
  destruct (fused_couplings cgf n1 n2 x' y' md incl K z' Hcg Hmd (transformed_valid _ _ _ _ _ V1 Tx) (transformed_valid _ _ _ _ _ V2 Ty) H') as
    [n3' [n' [M' [C' [B' [EC' [P1' [P2' [P3' [P4' [EO' [EB' [EBz' [Vz' [ES' [EF' [EF2' [Ed' W']]]]]]]]]]]]]]]]]].
  assert (n3' = n3) by lia. subst n3'. assert (En : n' = n) by lia. assert (EM : M' = M) by congruence.
  assert (EC2 : C' = C) by congruence. rewrite EM, EC2 in W'.
  pose proof Sx as [XB [XS _]]. pose proof Sy as [YB [YS _]]. pose proof Sz as [ZB [ZS [ZD [ZF Zd]]]].
  rewrite XB, YB in EB'. assert (EBB : B' = B) by congruence. rewrite EBB in W'.
  rewrite XB, YB in W'.
  match type of W with weighted_couplings _ _ ?c ?w _ _ _ _ _ =>
    apply (couplings_transformed n1 n2 n3 c w (bidx (fB x) B) (bidx (fB y) B) x y z x' y' z' s Dx Dy D); auto end.
  - intros i. apply (fuse_intertwines M n1 n2 n3 n C D i HO); [|lia|lia|lia].
    apply (cg_commutes_nat D (M + 1) (M + 1) n C i HC).
    replace (Z.of_nat (M + 1) - 1)%Z with (Z.of_nat M) by lia. exact EC.
  - intros i. apply (Hb B EB i).
  - intros i. apply (Hb B EB i).
Qed.

Lemma any_tensor_transformed : forall s Dx Dy D md incl P x y x' y' z, cg_checked cgf -> s * s = 1 ->
  (forall d, md = Some d -> (0 <= d)%Z) -> orthogonal_blocks D ->
  cg_commutes cgf D -> batch_agrees Dx Dy D (fB x) (fB y) ->
  transformed s Dx x x' -> transformed s Dy y y' -> any_tensor cgf md incl P x y = Ok z ->
  exists z', any_tensor cgf md incl P x' y' = Ok z' /\ transformed s D z z'.
Proof.
  intros s Dx Dy D md incl P x y x' y' z Hcg Hs Hmd HO HC Hb Tx Ty H. destruct P as [K|K]; cbn [any_tensor] in *.
  - exact (tensor_transformed s Dx Dy D md incl K x y x' y' z Hcg Hs HC Hb Tx Ty H).
  - exact (fused_transformed s Dx Dy D md incl K x y x' y' z Hcg Hs Hmd HO HC Hb Tx Ty H).
Qed.

Lemma list_nat_eqb_refl : forall l, list_nat_eqb l l = true.
Proof. intros l. apply list_nat_eqb_spec. reflexivity. Qed.

Lemma broadcast_same : forall B, broadcast_shapes B B = Ok B.
Proof.
  intros B. unfold broadcast_shapes.
  assert (H : forall l, broadcast_rev l l = Some l).
  { induction l as [|a l IH]; [reflexivity|]. cbn [broadcast_rev]. rewrite Nat.eqb_refl, IH. reflexivity. }
  rewrite H, rev_involutive. reflexivity.
Qed.

Lemma batch_agrees_same : forall D B, batch_agrees D D D B B.
Proof.
  intros D B B' H i. rewrite broadcast_same in H. injection H as <-. unfold bidx. rewrite list_nat_eqb_refl. auto.
Qed.

Lemma batch_agrees_const : forall D0 Bx By, batch_agrees (fun _ => D0) (fun _ => D0) (fun _ => D0) Bx By.
Proof. intros D0 Bx By B H i. auto. Qed.

Lemma split_transformed : forall s D y y' F off, transformed s D y y' -> transformed s D (split_half y F off) (split_half y' F off).
Proof.
  intros s D y y' F off [HB [HS [HD [HF [Hd HC]]]]]. repeat split; auto.
  intros i p l k f Hp Hk. apply (HC i p l k (off + f)%nat Hp Hk).
Qed.

Lemma tensor_dense_transformed : forall s D features md incl ub Pd Pt x x' z, cg_checked cgf -> s * s = 1 ->
  (forall d, md = Some d -> (0 <= d)%Z) -> keeps_scalars D -> orthogonal_blocks D -> cg_commutes cgf D ->
  transformed s D x x' -> tensor_dense cgf features md incl ub Pd Pt x = Ok z ->
  exists z', tensor_dense cgf features md incl ub Pd Pt x' = Ok z' /\ transformed s D z z'.
Proof.
  intros s D features md incl ub Pd Pt x x' z Hcg Hs Hmd HK HO HC Tx H. unfold tensor_dense in *.
  pose proof (transformed_shape _ _ _ _ Tx) as [_ [_ [_ [EF _]]]]. rewrite EF.
  set (F := match features with None => fF x | Some n => n end) in *.
  destruct (dense (2 * F) ub Pd x) as [y|e] eqn:E; [|discriminate]. cbn [bind] in H.
  destruct (dense_transformed s D (2 * F) ub Pd x x' y HK Tx E) as [y' [E' Ty]]. rewrite E'. cbn [bind].
  apply (any_tensor_transformed s D D D md incl Pt (split_half y F 0) (split_half y F F)); auto.
  - apply batch_agrees_same.
  - apply split_transformed; assumption.
  - apply split_transformed; assumption.
Qed.

End Tensors.
