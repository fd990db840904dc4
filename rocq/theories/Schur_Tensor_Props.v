(** Property C101, continued: every layer that is linear in two inputs, acts on each channel separately and is equivariant is a Tensor layer. *)
Require Import List Reals ZArith Lra Lia Arith Bool Psatz.
Require Import Verif.Base Verif.CGTable_Proofs Verif.Clebsch_Model Verif.Clebsch_Props Verif.Common_Proofs Verif.Equivariance_Spec Verif.Features_Model Verif.Features_Proofs Verif.Features_Spec Verif.Harmonics_Basis_Proofs Verif.Irreps_Laws_Proofs Verif.Irreps_Model Verif.Irreps_Proofs Verif.Irreps_Props Verif.Irreps_Spec Verif.Irreps_Wigner_Proofs Verif.LUT_Model Verif.LUT_Props Verif.LUT_Spec Verif.Matmat_Model Verif.Matmat_Props Verif.Matmat_Spec Verif.Modules_Graph_Props Verif.Modules_Graph_Spec Verif.Modules_Model Verif.Modules_Props Verif.Modules_Spec Verif.RSum Verif.Rotations_Model Verif.Rotations_Spec Verif.Symbolic_Model Verif.Symbolic_Proofs Verif.Wrappers_Model Verif.Wrappers_Props Verif.Wrappers_Spec .
Require Import Verif.Base Verif.RSum Verif.Irreps_Model Verif.Irreps_Spec Verif.Irreps_Props Verif.CGTable_Proofs Verif.Clebsch_Props
  Verif.Features_Model Verif.Features_Spec Verif.Modules_Model Verif.Modules_Spec Verif.Modules_Props Verif.Equivariance_Spec Verif.Equivariance_Props
  Verif.Schur_Spec Verif.Schur_Props.
Import ListNotations.
Open Scope R_scope.
Arguments Nat.mul : simpl never.

(** The factor of a multiple of an array, as a quotient of two sums. *)
Definition sum3 (a b c : nat) (g : nat -> nat -> nat -> R) : R := rsum a (fun i => rsum b (fun j => rsum c (fun k => g i j k))).
Definition factor (a b c : nat) (B C : nat -> nat -> nat -> R) : R :=
  sum3 a b c (fun i j k => B i j k * C i j k) / sum3 a b c (fun i j k => C i j k * C i j k).

Lemma rsum_terms_zero : forall n f, (forall i, (i < n)%nat -> 0 <= f i) -> rsum n f = 0 -> forall i, (i < n)%nat -> f i = 0.
Proof.
  induction n as [|n IH]; intros f Hf E i Hi; [lia|]. cbn [rsum] in E.
  assert (A : 0 <= rsum n f) by (apply rsum_nonneg; intros; apply Hf; lia). assert (B : 0 <= f n) by (apply Hf; lia).
  destruct (Nat.eq_dec i n) as [->|N]; [lra|]. apply IH; [intros; apply Hf; lia|lra|lia].
Qed.

Lemma factor_is a b c B C : (exists w, forall i j k, (i < a)%nat -> (j < b)%nat -> (k < c)%nat -> B i j k = w * C i j k) ->
  forall i j k, (i < a)%nat -> (j < b)%nat -> (k < c)%nat -> B i j k = factor a b c B C * C i j k.
Proof.
  intros [w H] i j k Hi Hj Hk. unfold factor.
  assert (E : sum3 a b c (fun i j k => B i j k * C i j k) = w * sum3 a b c (fun i j k => C i j k * C i j k)).
  { unfold sum3. rewrite <- rsum_scal_l. apply rsum_ext; intros x Hx. rewrite <- rsum_scal_l. apply rsum_ext; intros y Hy.
    rewrite <- rsum_scal_l. apply rsum_ext; intros z Hz. rewrite H by assumption. ring. }
  rewrite E. destruct (Req_dec (sum3 a b c (fun i j k => C i j k * C i j k)) 0) as [Z|N].
  - assert (Q : C i j k * C i j k = 0).
    { unfold sum3 in Z.
      assert (P : forall x y z, 0 <= C x y z * C x y z) by (intros; apply Rle_0_sqr).
      assert (Z1 : rsum b (fun j => rsum c (fun k => C i j k * C i j k)) = 0).
      { apply (rsum_terms_zero a (fun i => rsum b (fun j => rsum c (fun k => C i j k * C i j k)))); [|exact Z|exact Hi].
        intros x _. apply rsum_nonneg; intros y _. apply rsum_nonneg; intros z _. apply P. }
      assert (Z2 : rsum c (fun k => C i j k * C i j k) = 0).
      { apply (rsum_terms_zero b (fun j => rsum c (fun k => C i j k * C i j k))); [|exact Z1|exact Hj].
        intros y _. apply rsum_nonneg; intros z _. apply P. }
      exact (rsum_terms_zero c (fun k => C i j k * C i j k) (fun z _ => P i j z) Z2 k Hk). }
    assert (C i j k = 0) by (destruct (Rmult_integral _ _ Q); assumption). rewrite (H i j k Hi Hj Hk). rewrite H0. ring.
  - rewrite (H i j k Hi Hj Hk). field. exact N.
Qed.

Lemma package_total ca cgf L1 L2 L3 : uses_package ca cgf -> (0 <= L1)%Z -> (0 <= L2)%Z -> (0 <= L3)%Z ->
  exists c, cgf L1 L2 L3 = Ok (at3 0 c) /\ cg_array L1 L2 L3 ca c.
Proof.
  intros H H1 H2 H3. destruct (H L1 L2 L3) as [empty [w [s [o [Hw [Hc Q]]]]]].
  destruct (C59_entries R 0 rzero real_clebsch_gordan empty w s o L1 L2 L3 ca rzero_test Hw Hc H1 H2 H3) as [c [E _]].
  rewrite E in Q. exists c. split; [exact Q|]. exists empty, w, s, o. auto.
Qed.

(** The parity stored at position [q] of the parity axis (of length [S]), for degree [l]. *)
Definition stored (S q l : nat) : nat := if (S =? 2)%nat then q else (l mod 2)%nat.

(** With both parities or with proper tensors only in any of the inputs, and with and without pseudotensors in the output. *)
Theorem C101_tensor : forall cartesian cgf n1 n2 n3 features W S1 S2 include, uses_package cartesian cgf -> (n3 <= n1 + n2)%nat ->
  equivariant_pairing cartesian (S n1) (S n2) (S n3) features W ->
  exists K, forall x1 x2 B, valid (S n1) x1 -> valid (S n2) x2 -> fS x1 = S1 -> fS x2 = S2 -> fF x1 = features -> fF x2 = features ->
    broadcast_shapes (fB x1) (fB x2) = Ok B ->
    exists z, tensor cgf (Some (Z.of_nat n3)) include K x1 x2 = Ok z /\ valid (S n3) z /\ fF z = features /\ fB z = B /\
      (include = true -> S1 = 2%nat \/ S2 = 2%nat -> fS z = 2%nat) /\
      forall i p l k f, (p < 2)%nat -> (k < 2 * l + 1)%nat -> (f < features)%nat -> has_slot z p l ->
        comp z i p l k f =
        rsum 2 (fun p1 => rsum (S n1) (fun l1 => rsum 2 (fun p2 => rsum (S n2) (fun l2 =>
          rsum (2 * l1 + 1) (fun k1 => rsum (2 * l2 + 1) (fun k2 =>
            comp x1 (bidx (fB x1) B i) p1 l1 k1 f * comp x2 (bidx (fB x2) B i) p2 l2 k2 f * W p1 l1 k1 p2 l2 k2 p l k f)))))).
Proof.
  intros ca cgf n1 n2 n3 F W S1 S2 incl U Hn H.
  destruct (package_total ca cgf (Z.of_nat n1) (Z.of_nat n2) (Z.of_nat n3) U ltac:(lia) ltac:(lia) ltac:(lia)) as [c [EC Hc]].
  set (S3 := if (incl && negb ((S1 =? 1)%nat && (S2 =? 1)%nat && ((S n1 =? 1)%nat || (S n2 =? 1)%nat || (S n3 =? 1)%nat)))%bool then 2%nat else 1%nat).
  exists (fun q1 l1 q2 l2 q l f => factor (2 * l1 + 1) (2 * l2 + 1) (2 * l + 1)
           (fun k1 k2 k => W (stored S1 q1 l1) l1 k1 (stored S2 q2 l2) l2 k2 (stored S3 q l) l k f)
           (fun k1 k2 k => at3 0 c (l1 * l1 + k1) (l2 * l2 + k2) (l * l + k))).
  match goal with |- forall x1 x2 B, _ -> _ -> _ -> _ -> _ -> _ -> _ -> exists z, tensor _ _ _ ?k _ _ = _ /\ _ => set (K := k) end.
  intros x1 x2 B V1 V2 E1 E2 F1 F2 HB.
  assert (EC' : cgf (Z.of_nat (S n1) - 1)%Z (Z.of_nat (S n2) - 1)%Z (Z.of_nat n3) = Ok (at3 0 c)).
  { rewrite <- EC. f_equal; lia. }
  destruct (C36_tensor_formula cgf (S n1) (S n2) x1 x2 (Some (Z.of_nat n3)) incl K (Z.of_nat n3) (at3 0 c) B V1 V2 ltac:(congruence) eq_refl ltac:(lia)
    (C67_checked _ _ U) EC' HB) as (z & m & E & Em & Vz & EB & EF & _ & ES & Q).
  assert (m = S n3) by lia. subst m. rewrite E1, E2 in ES. fold S3 in ES.
  exists z. split; [exact E|]. split; [exact Vz|]. split; [congruence|]. split; [exact EB|]. split.
  { intros -> D. rewrite ES. unfold S3. cbn [andb]. destruct D as [-> | ->]; cbn [Nat.eqb andb negb]; [|rewrite andb_false_r]; reflexivity. }
  intros i p l k f Hp Hk Hf Sl. rewrite (Q i p l k f Hp Hk Sl).
  assert (Hl : (l < S n3)%nat). { destruct Sl as [Sl _]. destruct Vz as [_ Vz]. rewrite Vz in Sl. nia. }
  assert (T3 : stored S3 (channel S3 p) l = p).
  { rewrite <- ES. unfold stored, channel. destruct Sl as [_ [e|[e ->]]]; rewrite e; reflexivity. }
  apply rsum_ext; intros p1 Hp1. apply rsum_ext; intros l1 Hl1. apply rsum_ext; intros p2 Hp2. apply rsum_ext; intros l2 Hl2.
  destruct (H p1 l1 p2 l2 p l f Hp1 Hl1 Hp2 Hl2 Hp Hl Hf) as [G P].
  destruct (Nat.eqb_spec ((p1 + p2) mod 2) p) as [e|ne].
  - unfold coupled. rewrite <- rsum_scal_l. apply rsum_ext; intros k1 Hk1. rewrite <- rsum_scal_l. apply rsum_ext; intros k2 Hk2.
    assert (T : forall x q a j u S, fS x = S -> stored S (channel S q) a = q \/ comp x j q a u f = 0).
    { intros x q a j u S' <-. unfold stored, channel, comp. destruct ((a + 1) * (a + 1) <=? fD x)%nat; [|now right].
      destruct (Nat.eqb_spec (fS x) 2); [now left|]. destruct (Nat.eqb_spec q (a mod 2)); [now left|now right]. }
    rewrite E1, E2, ES. unfold K. rewrite T3.
    destruct (T x1 p1 l1 (bidx (fB x1) B i) k1 S1 E1) as [-> | ->]; [|ring]. destruct (T x2 p2 l2 (bidx (fB x2) B i) k2 S2 E2) as [-> | ->]; [|ring].
    assert (D1 : (l1 < degrees (Z.of_nat n1))%nat) by (unfold degrees; lia). assert (D2 : (l2 < degrees (Z.of_nat n2))%nat) by (unfold degrees; lia).
    assert (D3 : (l < degrees (Z.of_nat n3))%nat) by (unfold degrees; lia).
    pose proof (factor_is _ _ _ _ _ (C101_product ca l1 l2 l _ _ _ _ c G Hc D1 D2 D3) k1 k2 k Hk1 Hk2 Hk) as I. cbv beta in I.
    rewrite I at 1. ring.
  - symmetry. apply rsum_zero; intros k1 Hk1. apply rsum_zero; intros k2 Hk2. specialize (P k1 k2 k Hk1 Hk2 Hk).
    replace (W p1 l1 k1 p2 l2 k2 p l k f) with 0; [ring|]. unfold parity_sign in P.
    destruct p1 as [|[|]], p2 as [|[|]], p as [|[|]]; try lia; cbn in ne; try congruence; cbn [Nat.eqb] in P; lra.
Qed.
Print Assumptions C101_tensor.

(** The hypotheses are met: by the layer that adds up all couplings of the two inputs, which is not zero. *)
Example C101_tensor_case : uses_package true (package_cg true) /\ exists W,
  equivariant_pairing true 2 2 2 3 W /\ W 1%nat 1%nat 0%nat 1%nat 1%nat 0%nat 0%nat 0%nat 0%nat 2%nat <> 0.
Proof.
  split; [apply package_cg_uses|]. destruct (C66_total 1 1 1 true ltac:(lia) ltac:(lia) ltac:(lia)) as [c Hc].
  exists (fun p1 l1 k1 p2 l2 k2 p l k _ => if ((p1 + p2) mod 2 =? p)%nat then at3 0 c (l1 * l1 + k1) (l2 * l2 + k2) (l * l + k) else 0). split.
  - intros p1 l1 p2 l2 p l f Hp1 Hl1 Hp2 Hl2 Hp Hl Hf. split.
    + destruct (Nat.eqb_spec ((p1 + p2) mod 2) p) as [e|ne].
      * apply (coupling_equivariant true l1 l2 l 1 1 1 c Hc); unfold degrees; cbn; lia.
      * intros m d1 d2 d3 P D1 D2 D3 i j k Hi Hj Hk. rewrite rsum_zero by (intros; apply rsum_zero; intros; ring). rewrite rsum_zero; [reflexivity|intros; ring].
    + intros k1 k2 k _ _ _. generalize (at3 0 c (l1 * l1 + k1) (l2 * l2 + k2) (l * l + k)). intros v. unfold parity_sign. destruct p1 as [|[|]], p2 as [|[|]], p as [|[|]]; try lia; cbn; change (0 mod 2)%nat with 0%nat; change (1 mod 2)%nat with 1%nat; change (2 mod 2)%nat with 0%nat; cbn; ring.
  - assert (B : (1 < degrees 1)%nat) by (unfold degrees; cbn; lia). change ((1 + 1) mod 2 =? 0)%nat with true. cbv iota.
    pose proof (C66_scalar_product 1 1 1 true c 1 0 0 Hc B B ltac:(lia) ltac:(lia)) as E. change (1 * 1 + 0)%nat with 1%nat in *. change (0 * 0 + 0)%nat with 0%nat in *.
    rewrite E. cbn [Nat.eqb].
    assert (0 < sqrt (INR (2 * 1 + 1))) by (apply sqrt_lt_R0; apply lt_0_INR; lia). apply Rgt_not_eq. apply Rdiv_lt_0_compat; lra.
Qed.
