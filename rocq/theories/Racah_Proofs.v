(** Racah's formula: ladder recursions, reflection of the orders, orthonormality. *)
Require Import Reals ZArith Bool Lra Lia Arith.
Require Import Verif.Base Verif.RSum Verif.LUT_Model Verif.Clebsch_Model.
Open Scope R_scope.

Lemma zfact_pos : forall z, 0 < zfact z. Proof. intros. apply lt_0_INR, lt_O_fact. Qed.
Lemma zfact_step : forall z, (0 <= z)%Z -> zfact (z + 1) = IZR (z + 1) * zfact z.
Proof.
  intros z Hz. unfold zfact. replace (Z.to_nat (z + 1)) with (S (Z.to_nat z)) by lia. rewrite fact_simpl, mult_INR, INR_IZR_INZ.
  replace (Z.of_nat (S (Z.to_nat z))) with (z + 1)%Z by lia. reflexivity.
Qed.
Lemma zfact_prev : forall z, (0 < z)%Z -> zfact z = IZR z * zfact (z - 1).
Proof. intros z Hz. pose proof (zfact_step (z - 1) ltac:(lia)) as E. replace (z - 1 + 1)%Z with z in E by lia. exact E. Qed.
Lemma rfact_zfact : forall z, (0 <= z)%Z -> rfact z = / zfact z.
Proof. intros z Hz. unfold rfact. destruct (Z.ltb_spec z 0); [lia|reflexivity]. Qed.
Lemma rfact_neg : forall z, (z < 0)%Z -> rfact z = 0.
Proof. intros z Hz. unfold rfact. destruct (Z.ltb_spec z 0); [reflexivity|lia]. Qed.
Lemma rfact_pred : forall z, rfact (z - 1) = IZR z * rfact z.
Proof.
  intros z. destruct (Z_lt_le_dec z 0) as [H|H]; [rewrite !rfact_neg by lia; ring|].
  destruct (Z.eq_dec z 0) as [->|N]; [rewrite rfact_neg by lia; ring|].
  rewrite !rfact_zfact by lia. replace z with (z - 1 + 1)%Z at 2 3 by lia. rewrite zfact_step by lia.
  pose proof (zfact_pos (z - 1)). field. split; [lra|]. apply not_0_IZR. lia.
Qed.
Lemma rfact_at : forall y z, (y = z - 1)%Z -> rfact y = IZR z * rfact z. Proof. intros y z ->. apply rfact_pred. Qed.

Lemma rsum_telescope : forall n h, rsum n (fun k => h k - h (S k)) = h 0%nat - h n.
Proof. induction n as [|n IH]; intros h; cbn [rsum]; [ring|]. rewrite IH. ring. Qed.

(** Contiguous sums. *)
Lemma racah_up : forall n a b c d,
  (IZR a + 1) * racah_sum n (a + 1) b (c - 1) d + (INR n + IZR d + 1) * racah_sum n a (b - 1) c (d + 1) = (IZR c + IZR b) * racah_sum n a b c d.
Proof.
  intros n a b c d. unfold racah_sum. cbv zeta.
  set (v := fun k : nat => let k' := Z.of_nat k in (-1) ^ k * rfact k' * rfact (Z.of_nat n - k') * rfact (a + 1 - k') * rfact (b - k') * rfact (c + k') * rfact (d + 1 + k')).
  set (h := fun k : nat => INR k * (IZR c + INR k) * (IZR d + 1 + INR k) * v k).
  assert (H : forall k, h (S k) = - ((INR n - INR k) * (IZR a + 1 - INR k) * (IZR b - INR k) * v k)).
  { intros k. unfold h, v. cbv zeta. set (z := Z.of_nat k). replace (Z.of_nat (S k)) with (z + 1)%Z by lia.
    assert (EK : INR k = IZR z) by (rewrite INR_IZR_INZ; reflexivity).
    rewrite (rfact_at z (z + 1)) by lia. rewrite (rfact_at (Z.of_nat n - (z + 1)) (Z.of_nat n - z)) by lia.
    rewrite (rfact_at (a + 1 - (z + 1)) (a + 1 - z)) by lia. rewrite (rfact_at (b - (z + 1)) (b - z)) by lia.
    rewrite (rfact_at (c + z) (c + (z + 1))) by lia. rewrite (rfact_at (d + 1 + z) (d + 1 + (z + 1))) by lia.
    rewrite S_INR, EK, (INR_IZR_INZ n), !minus_IZR, !plus_IZR. cbn [pow]. ring. }
  rewrite <- !rsum_scal_l. apply Rminus_diag_uniq. rewrite <- rsum_plus, <- rsum_minus.
  rewrite (rsum_ext _ _ (fun k => h k - h (S k))).
  - rewrite rsum_telescope. replace (n + 1)%nat with (S n) by lia. rewrite H. unfold h. cbn [INR]. ring.
  - intros k _. rewrite H. unfold h, v. cbv zeta. set (z := Z.of_nat k).
    assert (EK : INR k = IZR z) by (rewrite INR_IZR_INZ; reflexivity).
    rewrite (rfact_at (a - z) (a + 1 - z)) by lia. rewrite (rfact_at (b - 1 - z) (b - z)) by lia.
    rewrite (rfact_at (c - 1 + z) (c + z)) by lia. rewrite (rfact_at (d + z) (d + 1 + z)) by lia.
    replace (d + 1 + z)%Z with (d + z + 1)%Z by lia.
    rewrite EK, !minus_IZR, !plus_IZR. ring.
Qed.

(** Reversal of the summation. *)
Lemma pow_m1_sub : forall n k, (k <= n)%nat -> (-1) ^ (n - k) = (-1) ^ n * (-1) ^ k.
Proof.
  intros n k H. assert (E : (-1) ^ k * (-1) ^ k = 1) by (rewrite <- Rpow_mult_distr; replace (-1 * -1) with 1 by ring; apply pow1).
  replace ((-1) ^ n) with ((-1) ^ (n - k + k)) by (f_equal; lia). rewrite pow_add, Rmult_assoc, E. ring.
Qed.

Lemma racah_rev : forall n a b c d,
  racah_sum n (c + Z.of_nat n) (d + Z.of_nat n) (a - Z.of_nat n) (b - Z.of_nat n) = (-1) ^ n * racah_sum n a b c d.
Proof.
  intros n a b c d. unfold racah_sum. rewrite (rsum_rev (n + 1)), <- rsum_scal_l. apply rsum_ext. intros k Hk. cbv zeta.
  replace (n + 1 - 1 - k)%nat with (n - k)%nat by lia. rewrite pow_m1_sub, Nat2Z.inj_sub by lia.
  replace (Z.of_nat n - (Z.of_nat n - Z.of_nat k))%Z with (Z.of_nat k) by lia.
  replace (c + Z.of_nat n - (Z.of_nat n - Z.of_nat k))%Z with (c + Z.of_nat k)%Z by lia.
  replace (d + Z.of_nat n - (Z.of_nat n - Z.of_nat k))%Z with (d + Z.of_nat k)%Z by lia.
  replace (a - Z.of_nat n + (Z.of_nat n - Z.of_nat k))%Z with (a - Z.of_nat k)%Z by lia.
  replace (b - Z.of_nat n + (Z.of_nat n - Z.of_nat k))%Z with (b - Z.of_nat k)%Z by lia. ring.
Qed.

Lemma racah_empty : forall n a b c d, (a + d < 0)%Z -> racah_sum n a b c d = 0.
Proof.
  intros n a b c d H. unfold racah_sum. apply rsum_zero. intros k _. cbv zeta.
  destruct (Z_lt_le_dec (a - Z.of_nat k) 0); [rewrite (rfact_neg (a - Z.of_nat k)) by lia; ring|].
  rewrite (rfact_neg (d + Z.of_nat k)) by lia. ring.
Qed.

Lemma racah_empty_c : forall n a b c d, (c + Z.of_nat n < 0)%Z -> racah_sum n a b c d = 0.
Proof.
  intros n a b c d H. unfold racah_sum. apply rsum_zero. intros k Hk. cbv zeta. rewrite (rfact_neg (c + Z.of_nat k)) by lia. ring.
Qed.
Lemma racah_empty_b : forall n a b c d, (b < 0)%Z -> racah_sum n a b c d = 0.
Proof.
  intros n a b c d H. unfold racah_sum. apply rsum_zero. intros k Hk. cbv zeta. rewrite (rfact_neg (b - Z.of_nat k)) by lia. ring.
Qed.

(** * The coefficients *)

Definition triangle (l1 l2 l3 : nat) : Prop := (l3 <= l1 + l2 /\ l2 <= l1 + l3 /\ l1 <= l2 + l3)%nat.
Definition within (l : nat) (m : Z) : Prop := (Z.abs m <= Z.of_nat l)%Z.

Definition gfac (l : nat) (m : Z) : R := sqrt (zfact (Z.of_nat l + m) * zfact (Z.of_nat l - m)).
Definition cnorm (l1 l2 l3 : nat) : R :=
  let L1 := Z.of_nat l1 in let L2 := Z.of_nat l2 in let L3 := Z.of_nat l3 in
  sqrt ((2 * INR l3 + 1) * zfact (L1 + L2 - L3) * zfact (L1 - L2 + L3) * zfact (L2 - L1 + L3) / zfact (L1 + L2 + L3 + 1)).
Definition csum (l1 l2 l3 : nat) (m1 m2 : Z) : R :=
  racah_sum (l1 + l2 - l3) (Z.of_nat l1 - m1) (Z.of_nat l2 + m2) (Z.of_nat l3 - Z.of_nat l2 + m1) (Z.of_nat l3 - Z.of_nat l1 - m2).

Lemma cc_value : forall l1 l2 l3 m1 m2, triangle l1 l2 l3 -> within l1 m1 -> within l2 m2 -> within l3 (m1 + m2) ->
  complex_cg l1 l2 l3 m1 m2 (m1 + m2) = cnorm l1 l2 l3 * gfac l1 m1 * gfac l2 m2 * gfac l3 (m1 + m2) * csum l1 l2 l3 m1 m2.
Proof.
  intros l1 l2 l3 m1 m2 [T1 [T2 T3]] H1 H2 H3. unfold complex_cg, within in *. cbv zeta. rewrite Z.eqb_refl. cbn [negb].
  destruct (Z.ltb_spec (Z.of_nat l1 + Z.of_nat l2) (Z.of_nat l3)); [lia|]. destruct (Z.ltb_spec (Z.of_nat l1) (Z.of_nat l2 - Z.of_nat l3)); [lia|].
  destruct (Z.ltb_spec (Z.of_nat l2) (Z.of_nat l1 - Z.of_nat l3)); [lia|]. cbn [orb].
  destruct (Z.ltb_spec (Z.of_nat l1) (Z.abs m1)); [lia|]. destruct (Z.ltb_spec (Z.of_nat l2) (Z.abs m2)); [lia|].
  destruct (Z.ltb_spec (Z.of_nat l3) (Z.abs (m1 + m2))); [lia|]. reflexivity.
Qed.

Lemma cc_select : forall l1 l2 l3 m1 m2 m3, (m1 + m2 <> m3)%Z -> complex_cg l1 l2 l3 m1 m2 m3 = 0.
Proof. intros. unfold complex_cg. cbv zeta. destruct (Z.eqb_spec (m1 + m2) m3); [contradiction|reflexivity]. Qed.
Lemma cc_triangle : forall l1 l2 l3 m1 m2 m3, ~ triangle l1 l2 l3 -> complex_cg l1 l2 l3 m1 m2 m3 = 0.
Proof.
  intros l1 l2 l3 m1 m2 m3 H. unfold complex_cg, triangle in *. cbv zeta. destruct (m1 + m2 =? m3)%Z; [|reflexivity]. cbn [negb].
  destruct (Z.ltb_spec (Z.of_nat l1 + Z.of_nat l2) (Z.of_nat l3)); [reflexivity|]. destruct (Z.ltb_spec (Z.of_nat l1) (Z.of_nat l2 - Z.of_nat l3)); [reflexivity|].
  destruct (Z.ltb_spec (Z.of_nat l2) (Z.of_nat l1 - Z.of_nat l3)); [reflexivity|]. lia.
Qed.
Lemma cc_within : forall l1 l2 l3 m1 m2 m3, ~ (within l1 m1 /\ within l2 m2 /\ within l3 m3) -> complex_cg l1 l2 l3 m1 m2 m3 = 0.
Proof.
  intros l1 l2 l3 m1 m2 m3 H. unfold complex_cg, within in *. cbv zeta. destruct (m1 + m2 =? m3)%Z; [|reflexivity]. cbn [negb].
  destruct ((Z.of_nat l1 + Z.of_nat l2 <? Z.of_nat l3) || _ || _)%Z; [reflexivity|].
  destruct (Z.ltb_spec (Z.of_nat l1) (Z.abs m1)); [reflexivity|]. destruct (Z.ltb_spec (Z.of_nat l2) (Z.abs m2)); [reflexivity|].
  destruct (Z.ltb_spec (Z.of_nat l3) (Z.abs m3)); [reflexivity|]. lia.
Qed.

Lemma triangle_dec : forall l1 l2 l3, {triangle l1 l2 l3} + {~ triangle l1 l2 l3}.
Proof. intros. unfold triangle. destruct (le_dec l3 (l1 + l2)), (le_dec l2 (l1 + l3)), (le_dec l1 (l2 + l3)); (left; lia) || (right; lia). Qed.

(** Coefficient of the step from m to m + 1. *)
Definition beta (l : nat) (m : Z) : R := sqrt (IZR ((Z.of_nat l - m) * (Z.of_nat l + m + 1))).

Lemma gfac_step : forall l m, within l m -> within l (m + 1) -> beta l m * gfac l m = IZR (Z.of_nat l - m) * gfac l (m + 1).
Proof.
  intros l m H H'. unfold within in *. unfold beta, gfac. rewrite <- (sqrt_square (IZR (Z.of_nat l - m))) by (apply IZR_le; lia).
  rewrite <- !sqrt_mult; try (apply Rmult_le_pos; apply Rlt_le, zfact_pos); [|rewrite <- mult_IZR; apply IZR_le; nia|apply IZR_le; nia].
  f_equal. replace (Z.of_nat l + (m + 1))%Z with (Z.of_nat l + m + 1)%Z by lia. rewrite zfact_step by lia.
  rewrite (zfact_prev (Z.of_nat l - m)) by lia. replace (Z.of_nat l - m - 1)%Z with (Z.of_nat l - (m + 1))%Z by lia. rewrite mult_IZR. ring.
Qed.
Lemma gfac_step_up : forall l m, within l m -> within l (m + 1) -> beta l m * gfac l (m + 1) = IZR (Z.of_nat l + m + 1) * gfac l m.
Proof.
  intros l m H H'. unfold within in *. unfold beta, gfac. rewrite <- (sqrt_square (IZR (Z.of_nat l + m + 1))) by (apply IZR_le; lia).
  rewrite <- !sqrt_mult; try (apply Rmult_le_pos; apply Rlt_le, zfact_pos); [|rewrite <- mult_IZR; apply IZR_le; nia|apply IZR_le; nia].
  f_equal. replace (Z.of_nat l + (m + 1))%Z with (Z.of_nat l + m + 1)%Z by lia. rewrite zfact_step by lia.
  rewrite (zfact_prev (Z.of_nat l - m)) by lia. replace (Z.of_nat l - m - 1)%Z with (Z.of_nat l - (m + 1))%Z by lia. rewrite mult_IZR. ring.
Qed.
Lemma beta_top : forall l, beta l (Z.of_nat l) = 0.
Proof. intros. unfold beta. rewrite Z.sub_diag, Z.mul_0_l. apply sqrt_0. Qed.
Lemma beta_bottom : forall l, beta l (- Z.of_nat l - 1) = 0.
Proof. intros. unfold beta. replace (Z.of_nat l + (- Z.of_nat l - 1) + 1)%Z with 0%Z by lia. rewrite Z.mul_0_r. apply sqrt_0. Qed.
Lemma beta_opp : forall l m, beta l (- m - 1) = beta l m.
Proof. intros. unfold beta. f_equal. f_equal. lia. Qed.

(** The raising recursion. *)
Theorem cc_raise : forall l1 l2 l3 m1 m2 m3, within l1 m1 -> within l2 m2 -> within l3 m3 ->
  beta l1 (m1 - 1) * complex_cg l1 l2 l3 (m1 - 1) m2 m3 + beta l2 (m2 - 1) * complex_cg l1 l2 l3 m1 (m2 - 1) m3
  = beta l3 m3 * complex_cg l1 l2 l3 m1 m2 (m3 + 1).
Proof.
  intros l1 l2 l3 m1 m2 m3 W1 W2 W3.
  destruct (triangle_dec l1 l2 l3) as [T|T]; [|rewrite !(cc_triangle _ _ _ _ _ _ T); ring].
  destruct (Z.eq_dec (m1 + m2) (m3 + 1)) as [E|E]; [|rewrite !cc_select by lia; ring].
  replace m3 with (m1 + m2 - 1)%Z in * by lia. clear E m3.
  replace (m1 + m2 - 1 + 1)%Z with (m1 + m2)%Z by lia.
  set (C := cnorm l1 l2 l3 * gfac l1 m1 * gfac l2 m2 * gfac l3 (m1 + m2 - 1)).
  assert (E1 : beta l1 (m1 - 1) * complex_cg l1 l2 l3 (m1 - 1) m2 (m1 + m2 - 1) = C * (IZR (Z.of_nat l1 - m1 + 1) * csum l1 l2 l3 (m1 - 1) m2)).
  { destruct (Z.eq_dec m1 (- Z.of_nat l1)) as [->|N].
    - rewrite beta_bottom. rewrite Rmult_0_l. unfold csum. rewrite racah_empty_c; [ring|]. destruct T. unfold within in *. lia.
    - pose proof (cc_value l1 l2 l3 (m1 - 1) m2 T) as V. replace (m1 - 1 + m2)%Z with (m1 + m2 - 1)%Z in V by lia. rewrite V by (unfold within in *; lia).
      pose proof (gfac_step l1 (m1 - 1)) as G. replace (m1 - 1 + 1)%Z with m1 in G by lia. unfold C. unfold within in *. specialize (G ltac:(lia) ltac:(lia)).
      replace (Z.of_nat l1 - m1 + 1)%Z with (Z.of_nat l1 - (m1 - 1))%Z by lia.
      transitivity (cnorm l1 l2 l3 * (beta l1 (m1 - 1) * gfac l1 (m1 - 1)) * gfac l2 m2 * gfac l3 (m1 + m2 - 1) * csum l1 l2 l3 (m1 - 1) m2); [ring|]. rewrite G. ring. }
  assert (E2 : beta l2 (m2 - 1) * complex_cg l1 l2 l3 m1 (m2 - 1) (m1 + m2 - 1) = C * (IZR (Z.of_nat l2 - m2 + 1) * csum l1 l2 l3 m1 (m2 - 1))).
  { destruct (Z.eq_dec m2 (- Z.of_nat l2)) as [->|N].
    - rewrite beta_bottom. rewrite Rmult_0_l. unfold csum. rewrite racah_empty_b; [ring|]. lia.
    - pose proof (cc_value l1 l2 l3 m1 (m2 - 1) T) as V. replace (m1 + (m2 - 1))%Z with (m1 + m2 - 1)%Z in V by lia. rewrite V by (unfold within in *; lia).
      pose proof (gfac_step l2 (m2 - 1)) as G. replace (m2 - 1 + 1)%Z with m2 in G by lia. unfold C. unfold within in *. specialize (G ltac:(lia) ltac:(lia)).
      replace (Z.of_nat l2 - m2 + 1)%Z with (Z.of_nat l2 - (m2 - 1))%Z by lia.
      transitivity (cnorm l1 l2 l3 * gfac l1 m1 * (beta l2 (m2 - 1) * gfac l2 (m2 - 1)) * gfac l3 (m1 + m2 - 1) * csum l1 l2 l3 m1 (m2 - 1)); [ring|]. rewrite G. ring. }
  assert (E3 : beta l3 (m1 + m2 - 1) * complex_cg l1 l2 l3 m1 m2 (m1 + m2) = C * (IZR (Z.of_nat l3 + m1 + m2) * csum l1 l2 l3 m1 m2)).
  { destruct (Z.eq_dec (m1 + m2 - 1) (Z.of_nat l3)) as [N|N].
    - rewrite N, beta_top, Rmult_0_l. unfold csum. rewrite racah_empty; [ring|]. lia.
    - rewrite cc_value by (unfold within in *; lia || exact T). pose proof (gfac_step_up l3 (m1 + m2 - 1)) as G.
      replace (m1 + m2 - 1 + 1)%Z with (m1 + m2)%Z in G by lia. unfold C. unfold within in *. specialize (G ltac:(lia) ltac:(lia)).
      replace (Z.of_nat l3 + m1 + m2)%Z with (Z.of_nat l3 + (m1 + m2 - 1) + 1)%Z by lia.
      transitivity (cnorm l1 l2 l3 * gfac l1 m1 * gfac l2 m2 * (beta l3 (m1 + m2 - 1) * gfac l3 (m1 + m2)) * csum l1 l2 l3 m1 m2); [ring|]. rewrite G. ring. }
  rewrite E1, E2, E3, <- Rmult_plus_distr_l. f_equal. destruct T as [T1 [T2 T3]].
  pose proof (racah_up (l1 + l2 - l3) (Z.of_nat l1 - m1) (Z.of_nat l2 + m2) (Z.of_nat l3 - Z.of_nat l2 + m1) (Z.of_nat l3 - Z.of_nat l1 - m2)) as P.
  unfold csum. replace (Z.of_nat l1 - (m1 - 1))%Z with (Z.of_nat l1 - m1 + 1)%Z by lia. replace (Z.of_nat l2 + (m2 - 1))%Z with (Z.of_nat l2 + m2 - 1)%Z by lia.
  replace (Z.of_nat l3 - Z.of_nat l2 + (m1 - 1))%Z with (Z.of_nat l3 - Z.of_nat l2 + m1 - 1)%Z by lia.
  replace (Z.of_nat l3 - Z.of_nat l1 - (m2 - 1))%Z with (Z.of_nat l3 - Z.of_nat l1 - m2 + 1)%Z by lia.
  replace (IZR (Z.of_nat l1 - m1 + 1)) with (IZR (Z.of_nat l1 - m1) + 1) by (rewrite <- plus_IZR; reflexivity).
  replace (IZR (Z.of_nat l2 - m2 + 1)) with (INR (l1 + l2 - l3) + IZR (Z.of_nat l3 - Z.of_nat l1 - m2) + 1) by (rewrite INR_IZR_INZ, <- !plus_IZR; f_equal; lia).
  replace (IZR (Z.of_nat l3 + m1 + m2)) with (IZR (Z.of_nat l3 - Z.of_nat l2 + m1) + IZR (Z.of_nat l2 + m2)) by (rewrite <- plus_IZR; f_equal; lia).
  exact P.
Qed.

(** Opposite orders. *)
Theorem cc_opp : forall l1 l2 l3 m1 m2 m3, complex_cg l1 l2 l3 (- m1) (- m2) (- m3) = (-1) ^ (l1 + l2 + l3) * complex_cg l1 l2 l3 m1 m2 m3.
Proof.
  intros l1 l2 l3 m1 m2 m3.
  destruct (triangle_dec l1 l2 l3) as [T|T]; [|rewrite !(cc_triangle _ _ _ _ _ _ T); ring].
  destruct (Z.eq_dec (m1 + m2) m3) as [E|E]; [|rewrite !cc_select by lia; ring]. subst m3.
  destruct (Z_le_gt_dec (Z.abs m1) (Z.of_nat l1)) as [W1|W1]; [|rewrite !cc_within by (unfold within; lia); ring].
  destruct (Z_le_gt_dec (Z.abs m2) (Z.of_nat l2)) as [W2|W2]; [|rewrite !cc_within by (unfold within; lia); ring].
  destruct (Z_le_gt_dec (Z.abs (m1 + m2)) (Z.of_nat l3)) as [W3|W3]; [|rewrite !cc_within by (unfold within; lia); ring].
  replace (- (m1 + m2))%Z with (- m1 + - m2)%Z by lia. rewrite !cc_value by (exact T || (unfold within; lia)).
  assert (G : forall l m, gfac l (- m) = gfac l m).
  { intros l m. unfold gfac. f_equal. replace (Z.of_nat l + - m)%Z with (Z.of_nat l - m)%Z by lia. replace (Z.of_nat l - - m)%Z with (Z.of_nat l + m)%Z by lia. ring. }
  replace (- m1 + - m2)%Z with (- (m1 + m2))%Z by lia. rewrite !G.
  assert (E : csum l1 l2 l3 (- m1) (- m2) = (-1) ^ (l1 + l2 + l3) * csum l1 l2 l3 m1 m2).
  { destruct T as [T1 [T2 T3]]. unfold csum.
    pose proof (racah_rev (l1 + l2 - l3) (Z.of_nat l1 - m1) (Z.of_nat l2 + m2) (Z.of_nat l3 - Z.of_nat l2 + m1) (Z.of_nat l3 - Z.of_nat l1 - m2)) as P.
    rewrite pow_m1_sub in P by lia. rewrite <- pow_add in P. rewrite <- P. f_equal; lia. }
  rewrite E. ring.
Qed.

(** The lowering recursion. *)
Theorem cc_lower : forall l1 l2 l3 m1 m2 m3, within l1 m1 -> within l2 m2 -> within l3 m3 ->
  beta l1 m1 * complex_cg l1 l2 l3 (m1 + 1) m2 m3 + beta l2 m2 * complex_cg l1 l2 l3 m1 (m2 + 1) m3
  = beta l3 (m3 - 1) * complex_cg l1 l2 l3 m1 m2 (m3 - 1).
Proof.
  intros l1 l2 l3 m1 m2 m3 W1 W2 W3. unfold within in *.
  pose proof (cc_raise l1 l2 l3 (- m1) (- m2) (- m3) ltac:(unfold within; lia) ltac:(unfold within; lia) ltac:(unfold within; lia)) as P.
  rewrite !beta_opp in P. replace (- m1 - 1)%Z with (- (m1 + 1))%Z in P by lia. replace (- m2 - 1)%Z with (- (m2 + 1))%Z in P by lia.
  replace (- m3 + 1)%Z with (- (m3 - 1))%Z in P by lia. rewrite !cc_opp in P.
  replace (beta l3 (- m3)) with (beta l3 (m3 - 1)) in P by (rewrite <- (beta_opp l3 (m3 - 1)); f_equal; lia).
  assert (S : (-1) ^ (l1 + l2 + l3) <> 0) by (apply pow_nonzero; lra). apply (Rmult_eq_reg_l ((-1) ^ (l1 + l2 + l3))); [|exact S]. lra.
Qed.

(** * Orthonormality *)

Definition ord (l i : nat) : Z := (Z.of_nat i - Z.of_nat l)%Z.
Lemma ord_within : forall l i, (i < 2 * l + 1)%nat -> within l (ord l i). Proof. unfold within, ord. intros. lia. Qed.

(** Inner product of functions of two orders. *)
Definition ip (l1 l2 : nat) (f g : Z -> Z -> R) : R :=
  rsum (2 * l1 + 1) (fun i => rsum (2 * l2 + 1) (fun j => f (ord l1 i) (ord l2 j) * g (ord l1 i) (ord l2 j))).

Lemma ip_ext : forall l1 l2 f f' g g', (forall m1 m2, within l1 m1 -> within l2 m2 -> f m1 m2 = f' m1 m2) ->
  (forall m1 m2, within l1 m1 -> within l2 m2 -> g m1 m2 = g' m1 m2) -> ip l1 l2 f g = ip l1 l2 f' g'.
Proof. intros. unfold ip. apply rsum_ext; intros i Hi. apply rsum_ext; intros j Hj. now rewrite H, H0 by now apply ord_within. Qed.
Lemma ip_sym : forall l1 l2 f g, ip l1 l2 f g = ip l1 l2 g f.
Proof. intros. unfold ip. apply rsum_ext; intros i Hi. apply rsum_ext; intros j Hj. ring. Qed.
Lemma ip_scal : forall l1 l2 c f g, ip l1 l2 (fun m1 m2 => c * f m1 m2) g = c * ip l1 l2 f g.
Proof. intros. unfold ip. rewrite <- rsum_scal_l. apply rsum_ext; intros i Hi. rewrite <- rsum_scal_l. apply rsum_ext; intros j Hj. ring. Qed.

Lemma shift_sum : forall l (f g : Z -> R),
  rsum (2 * l + 1) (fun i => beta l (ord l i - 1) * f (ord l i - 1)%Z * g (ord l i)) = rsum (2 * l + 1) (fun i => f (ord l i) * (beta l (ord l i) * g (ord l i + 1)%Z)).
Proof.
  intros l f g. rewrite Nat.add_1_r. rewrite rsum_S_l. cbn [rsum].
  replace (ord l 0 - 1)%Z with (- Z.of_nat l - 1)%Z by (unfold ord; lia). rewrite beta_bottom.
  replace (ord l (2 * l)) with (Z.of_nat l) by (unfold ord; lia). rewrite beta_top.
  rewrite !Rmult_0_l, Rmult_0_r, Rplus_0_l, Rplus_0_r. apply rsum_ext. intros i _.
  replace (ord l (S i) - 1)%Z with (ord l i) by (unfold ord; lia). replace (ord l i + 1)%Z with (ord l (S i)) by (unfold ord; lia). ring.
Qed.

Definition raised (l1 l2 : nat) (f : Z -> Z -> R) (m1 m2 : Z) : R := beta l1 (m1 - 1) * f (m1 - 1)%Z m2 + beta l2 (m2 - 1) * f m1 (m2 - 1)%Z.
Definition lowered (l1 l2 : nat) (f : Z -> Z -> R) (m1 m2 : Z) : R := beta l1 m1 * f (m1 + 1)%Z m2 + beta l2 m2 * f m1 (m2 + 1)%Z.

Lemma ip_adjoint : forall l1 l2 f g, ip l1 l2 (raised l1 l2 f) g = ip l1 l2 f (lowered l1 l2 g).
Proof.
  intros l1 l2 f g. unfold ip, raised, lowered.
  transitivity (rsum (2 * l1 + 1) (fun i => rsum (2 * l2 + 1) (fun j => beta l1 (ord l1 i - 1) * f (ord l1 i - 1)%Z (ord l2 j) * g (ord l1 i) (ord l2 j)))
    + rsum (2 * l1 + 1) (fun i => rsum (2 * l2 + 1) (fun j => beta l2 (ord l2 j - 1) * f (ord l1 i) (ord l2 j - 1)%Z * g (ord l1 i) (ord l2 j)))).
  { rewrite <- rsum_plus. apply rsum_ext; intros i _. rewrite <- rsum_plus. apply rsum_ext; intros j _. ring. }
  rewrite rsum_swap.
  rewrite (rsum_ext (2 * l2 + 1) _ (fun j => rsum (2 * l1 + 1) (fun i => f (ord l1 i) (ord l2 j) * (beta l1 (ord l1 i) * g (ord l1 i + 1)%Z (ord l2 j))))).
  2:{ intros j _. apply (shift_sum l1 (fun m => f m (ord l2 j)) (fun m => g m (ord l2 j))). }
  rewrite rsum_swap.
  rewrite (rsum_ext (2 * l1 + 1) (fun i => rsum (2 * l2 + 1) (fun j => beta l2 (ord l2 j - 1) * _ * _)) (fun i => rsum (2 * l2 + 1) (fun j => f (ord l1 i) (ord l2 j) * (beta l2 (ord l2 j) * g (ord l1 i) (ord l2 j + 1)%Z)))).
  2:{ intros i _. apply (shift_sum l2 (fun m => f (ord l1 i) m) (fun m => g (ord l1 i) m)). }
  rewrite <- rsum_plus. apply rsum_ext; intros i _. rewrite <- rsum_plus. apply rsum_ext; intros j _. ring.
Qed.

Definition gram (l1 l2 l l' : nat) (m m' : Z) : R := ip l1 l2 (fun m1 m2 => complex_cg l1 l2 l m1 m2 m) (fun m1 m2 => complex_cg l1 l2 l' m1 m2 m').

Lemma gram_step : forall l1 l2 l l' m, within l m -> within l' (m + 1) ->
  beta l m * gram l1 l2 l l' (m + 1) (m + 1) = beta l' m * gram l1 l2 l l' m m.
Proof.
  intros l1 l2 l l' m W W'. unfold gram.
  rewrite <- ip_scal.
  transitivity (ip l1 l2 (raised l1 l2 (fun m1 m2 => complex_cg l1 l2 l m1 m2 m)) (fun m1 m2 => complex_cg l1 l2 l' m1 m2 (m + 1))).
  { apply ip_ext; [|reflexivity]. intros m1 m2 W1 W2. symmetry. now apply cc_raise. }
  rewrite ip_adjoint, ip_sym, (ip_sym _ _ (fun m1 m2 => complex_cg l1 l2 l m1 m2 m)), <- ip_scal. apply ip_ext; [|reflexivity].
  intros m1 m2 W1 W2. pose proof (cc_lower l1 l2 l' m1 m2 (m + 1) W1 W2 W') as P. replace (m + 1 - 1)%Z with m in P by lia. exact P.
Qed.

Lemma gram_select : forall l1 l2 l l' m m', m <> m' -> gram l1 l2 l l' m m' = 0.
Proof.
  intros l1 l2 l l' m m' N. unfold gram, ip. apply rsum_zero; intros i _. apply rsum_zero; intros j _.
  destruct (Z.eq_dec (ord l1 i + ord l2 j) m) as [E|E]; [rewrite (cc_select _ _ _ _ _ m') by congruence|rewrite cc_select by exact E]; ring.
Qed.

Lemma beta_neq : forall l m, (- Z.of_nat l <= m < Z.of_nat l)%Z -> beta l m <> 0.
Proof.
  intros l m H. unfold beta. assert (0 < sqrt (IZR ((Z.of_nat l - m) * (Z.of_nat l + m + 1)))); [|lra].
  apply sqrt_lt_R0, IZR_lt. nia.
Qed.

Lemma gram_sym : forall l1 l2 l l' m m', gram l1 l2 l l' m m' = gram l1 l2 l' l m' m. Proof. intros. apply ip_sym. Qed.

Lemma gram_less : forall l1 l2 l l', (l < l')%nat -> forall k m, (Z.of_nat k = Z.of_nat l - m)%Z -> within l m -> gram l1 l2 l l' m m = 0.
Proof.
  intros l1 l2 l l' H. unfold within. induction k as [|k IH]; intros m E W.
  - replace m with (Z.of_nat l) in * by lia. pose proof (gram_step l1 l2 l l' (Z.of_nat l) ltac:(unfold within; lia) ltac:(unfold within; lia)) as P.
    rewrite beta_top, Rmult_0_l in P. symmetry in P. apply Rmult_integral in P. destruct P as [P|P]; [|exact P]. exfalso. revert P. apply beta_neq. lia.
  - pose proof (gram_step l1 l2 l l' m ltac:(unfold within; lia) ltac:(unfold within; lia)) as P. rewrite (IH (m + 1)%Z) in P by lia.
    rewrite Rmult_0_r in P. symmetry in P. apply Rmult_integral in P. destruct P as [P|P]; [|exact P]. exfalso. revert P. apply beta_neq. lia.
Qed.

Lemma gram_same : forall l1 l2 l, gram l1 l2 l l (Z.of_nat l) (Z.of_nat l) = 1 -> forall k m, (Z.of_nat k = Z.of_nat l - m)%Z -> within l m -> gram l1 l2 l l m m = 1.
Proof.
  intros l1 l2 l H. unfold within. induction k as [|k IH]; intros m E W; [now replace m with (Z.of_nat l) by lia|].
  pose proof (gram_step l1 l2 l l m ltac:(unfold within; lia) ltac:(unfold within; lia)) as P. rewrite (IH (m + 1)%Z) in P by lia.
  apply (Rmult_eq_reg_l (beta l m)); [lra|]. apply beta_neq. lia.
Qed.

(** Convolution of binomial coefficients. *)
Definition mch (p n : nat) : R := INR (fact (p + n)) / (INR (fact p) * INR (fact n)).
Lemma fact_neq : forall n, INR (fact n) <> 0. Proof. intros. apply not_0_INR, fact_neq_0. Qed.
Lemma mch_0 : forall p, mch p 0 = 1. Proof. intros. unfold mch. rewrite Nat.add_0_r. cbn [fact]. change (INR 1) with 1. field. apply fact_neq. Qed.
Lemma mch_1 : forall n, mch 0 n = 1. Proof. intros. unfold mch. cbn [fact Nat.add]. change (INR 1) with 1. field. apply fact_neq. Qed.
Lemma mch_S : forall p n, mch (S p) (S n) = mch p (S n) + mch (S p) n.
Proof.
  intros p n. unfold mch. replace (p + S n)%nat with (S (p + n)) by lia. replace (S p + S n)%nat with (S (S (p + n))) by lia. replace (S p + n)%nat with (S (p + n)) by lia.
  rewrite !fact_simpl, !mult_INR, !S_INR, plus_INR.
  pose proof (fact_neq p). pose proof (fact_neq n). pose proof (fact_neq (p + n)). pose proof (pos_INR p). pose proof (pos_INR n). field. repeat split; lra.
Qed.
Lemma mch_conv : forall p q n, rsum (S n) (fun a => mch p (n - a) * mch q a) = mch (S (p + q)) n.
Proof.
  induction p as [|p IHp]; intros q n.
  - cbn [Nat.add]. induction n as [|n IHn]; [cbn [rsum]; rewrite !mch_0; ring|].
    rewrite mch_S, <- IHn. rewrite (rsum_ext (S (S n)) _ (mch q)) by (intros; rewrite mch_1; ring).
    rewrite (rsum_ext (S n) _ (mch q)) by (intros; rewrite mch_1; ring). cbn [rsum]. ring.
  - induction n as [|n IHn]; [cbn [rsum]; rewrite !mch_0; ring|].
    change (S p + q)%nat with (S (p + q)) in *. rewrite mch_S, <- IHn, <- IHp.
    rewrite (rsum_ext (S n) (fun a => mch (S p) (n - a) * mch q a) (fun a => mch (S p) (S n - a) * mch q a - mch p (S n - a) * mch q a)).
    + rewrite rsum_minus. change (rsum (S (S n)) ?f) with (rsum (S n) f + f (S n)). cbv beta. rewrite Nat.sub_diag, !mch_0. ring.
    + intros a Ha. replace (S n - a)%nat with (S (n - a)) by lia. rewrite mch_S. ring.
Qed.

Lemma gfac_sqr : forall l m, gfac l m * gfac l m = zfact (Z.of_nat l + m) * zfact (Z.of_nat l - m).
Proof. intros. unfold gfac. apply sqrt_sqrt. apply Rmult_le_pos; apply Rlt_le, zfact_pos. Qed.
Lemma cnorm_sqr : forall l1 l2 l3, cnorm l1 l2 l3 * cnorm l1 l2 l3 =
  let L1 := Z.of_nat l1 in let L2 := Z.of_nat l2 in let L3 := Z.of_nat l3 in
  (2 * INR l3 + 1) * zfact (L1 + L2 - L3) * zfact (L1 - L2 + L3) * zfact (L2 - L1 + L3) / zfact (L1 + L2 + L3 + 1).
Proof.
  intros. unfold cnorm. cbv zeta. apply sqrt_sqrt. unfold Rdiv. pose proof (pos_INR l3).
  repeat apply Rmult_le_pos; try (apply Rlt_le, zfact_pos); [lra|]. apply Rlt_le, Rinv_0_lt_compat, zfact_pos.
Qed.

Lemma pow_m1_sqr : forall k, (-1) ^ k * (-1) ^ k = 1.
Proof. intros. rewrite <- Rpow_mult_distr. replace (-1 * -1) with 1 by ring. apply pow1. Qed.

Lemma zfact_nat : forall z n, z = Z.of_nat n -> zfact z = INR (fact n). Proof. intros z n ->. unfold zfact. now rewrite Nat2Z.id. Qed.

(** Coefficients of the highest order. *)
Lemma cc_highest : forall l1 l2 l3 a, triangle l1 l2 l3 -> (a <= l1 + l2 - l3)%nat ->
  let c := complex_cg l1 l2 l3 (Z.of_nat l1 - Z.of_nat a) (Z.of_nat l3 - (Z.of_nat l1 - Z.of_nat a)) (Z.of_nat l3) in
  c * c = INR (fact (S (2 * l3))) * INR (fact (l1 + l2 - l3)) / INR (fact (l1 + l2 + l3 + 1)) * (mch (l1 + l3 - l2) (l1 + l2 - l3 - a) * mch (l2 + l3 - l1) a).
Proof.
  intros l1 l2 l3 a T Ha. cbv zeta. set (m1 := (Z.of_nat l1 - Z.of_nat a)%Z). set (m2 := (Z.of_nat l3 - m1)%Z).
  replace (Z.of_nat l3) with (m1 + m2)%Z by lia. pose proof T as [T1 [T2 T3]].
  rewrite cc_value by (exact T || (unfold within; lia)).
  assert (S : csum l1 l2 l3 m1 m2 = (-1) ^ a * / (INR (fact a) * INR (fact (l1 + l2 - l3 - a)) * INR (fact (l2 + l3 - l1)) * INR (fact (l1 + l3 - l2)))).
  { unfold csum, racah_sum. rewrite (rsum_single _ _ a); [|lia|intros k Hk N; cbv zeta;
      destruct (lt_dec a k); [rewrite (rfact_neg (Z.of_nat l1 - m1 - Z.of_nat k)) by lia|rewrite (rfact_neg (Z.of_nat l3 - Z.of_nat l1 - m2 + Z.of_nat k)) by lia]; ring].
    cbv zeta. rewrite !rfact_zfact by lia.
    rewrite (zfact_nat (Z.of_nat a) a), (zfact_nat (Z.of_nat (l1 + l2 - l3) - Z.of_nat a) (l1 + l2 - l3 - a)), (zfact_nat (Z.of_nat l1 - m1 - Z.of_nat a) 0),
      (zfact_nat (Z.of_nat l2 + m2 - Z.of_nat a) (l2 + l3 - l1)), (zfact_nat (Z.of_nat l3 - Z.of_nat l2 + m1 + Z.of_nat a) (l1 + l3 - l2)), (zfact_nat (Z.of_nat l3 - Z.of_nat l1 - m2 + Z.of_nat a) 0) by lia.
    cbn [fact]. change (INR 1) with 1. field. repeat split; apply fact_neq. }
  rewrite S. set (n := (l1 + l2 - l3)%nat) in *. set (p := (l1 + l3 - l2)%nat) in *. set (q := (l2 + l3 - l1)%nat) in *.
  transitivity (cnorm l1 l2 l3 * cnorm l1 l2 l3 * (gfac l1 m1 * gfac l1 m1) * (gfac l2 m2 * gfac l2 m2) * (gfac l3 (m1 + m2) * gfac l3 (m1 + m2)) *
    ((-1) ^ a * (-1) ^ a) * (/ (INR (fact a) * INR (fact (n - a)) * INR (fact q) * INR (fact p)) * / (INR (fact a) * INR (fact (n - a)) * INR (fact q) * INR (fact p)))); [ring|].
  rewrite cnorm_sqr, !gfac_sqr, pow_m1_sqr. cbv zeta.
  rewrite (zfact_nat (Z.of_nat l1 + Z.of_nat l2 - Z.of_nat l3) n), (zfact_nat (Z.of_nat l1 - Z.of_nat l2 + Z.of_nat l3) p), (zfact_nat (Z.of_nat l2 - Z.of_nat l1 + Z.of_nat l3) q),
    (zfact_nat (Z.of_nat l1 + Z.of_nat l2 + Z.of_nat l3 + 1) (l1 + l2 + l3 + 1)), (zfact_nat (Z.of_nat l1 + m1) (p + (n - a))), (zfact_nat (Z.of_nat l1 - m1) a),
    (zfact_nat (Z.of_nat l2 + m2) (q + a)), (zfact_nat (Z.of_nat l2 - m2) (n - a)), (zfact_nat (Z.of_nat l3 + (m1 + m2)) (2 * l3)), (zfact_nat (Z.of_nat l3 - (m1 + m2)) 0) by lia.
  rewrite (fact_simpl (2 * l3)), mult_INR, S_INR, mult_INR. change (INR 2) with 2. unfold mch. change (INR (fact 0)) with 1.
  field. repeat split; apply fact_neq.
Qed.

Lemma gram_highest : forall l1 l2 l3, triangle l1 l2 l3 -> gram l1 l2 l3 l3 (Z.of_nat l3) (Z.of_nat l3) = 1.
Proof.
  intros l1 l2 l3 T. pose proof T as [T1 [T2 T3]]. unfold gram, ip.
  transitivity (rsum (2 * l1 + 1) (fun i => let c := complex_cg l1 l2 l3 (ord l1 i) (Z.of_nat l3 - ord l1 i) (Z.of_nat l3) in c * c)).
  { apply rsum_ext. intros i Hi. cbv zeta. set (m1 := ord l1 i).
    destruct (Z_le_gt_dec (Z.abs (Z.of_nat l3 - m1)) (Z.of_nat l2)) as [W|W].
    - rewrite (rsum_single _ _ (Z.to_nat (Z.of_nat l3 - m1 + Z.of_nat l2))); [|lia|].
      + unfold ord. replace (Z.of_nat (Z.to_nat (Z.of_nat l3 - m1 + Z.of_nat l2)) - Z.of_nat l2)%Z with (Z.of_nat l3 - m1)%Z by lia. reflexivity.
      + intros j Hj N. rewrite cc_select; [ring|]. unfold ord. lia.
    - rewrite (cc_within _ _ _ _ (Z.of_nat l3 - m1)) by (unfold within; lia). rewrite rsum_zero; [ring|].
      intros j Hj. rewrite cc_select; [ring|]. unfold ord in *. lia. }
  rewrite rsum_rev. rewrite (rsum_extend (S (l1 + l2 - l3)) (2 * l1 + 1)) by (try lia; intros i Hi; cbv zeta;
    rewrite cc_within by (unfold within, ord; lia); ring).
  rewrite (rsum_ext _ _ (fun a => INR (fact (S (2 * l3))) * INR (fact (l1 + l2 - l3)) / INR (fact (l1 + l2 + l3 + 1)) * (mch (l1 + l3 - l2) (l1 + l2 - l3 - a) * mch (l2 + l3 - l1) a))).
  - rewrite rsum_scal_l, mch_conv. unfold mch. replace (S (l1 + l3 - l2 + (l2 + l3 - l1)))%nat with (S (2 * l3)) by lia.
    replace (S (2 * l3) + (l1 + l2 - l3))%nat with (l1 + l2 + l3 + 1)%nat by lia. field. repeat split; apply fact_neq.
  - intros a Ha. rewrite <- (cc_highest l1 l2 l3 a T) by lia. cbv zeta. unfold ord. replace (Z.of_nat (2 * l1 + 1 - 1 - a) - Z.of_nat l1)%Z with (Z.of_nat l1 - Z.of_nat a)%Z by lia. reflexivity.
Qed.

(** Orthonormality. *)
Theorem cc_orthonormal : forall l1 l2 l l' m m', triangle l1 l2 l -> triangle l1 l2 l' -> within l m -> within l' m' ->
  gram l1 l2 l l' m m' = if ((l =? l')%nat && (m =? m')%Z)%bool then 1 else 0.
Proof.
  intros l1 l2 l l' m m' T T' W W'. destruct (Z.eqb_spec m m') as [->|N]; [|rewrite andb_false_r; now apply gram_select]. rewrite andb_true_r.
  unfold within in *. destruct (Nat.eqb_spec l l') as [->|N].
  - apply (gram_same _ _ _ (gram_highest l1 l2 l' T') (Z.to_nat (Z.of_nat l' - m'))); [lia|exact W].
  - destruct (lt_dec l l').
    + apply (gram_less _ _ _ _ l0 (Z.to_nat (Z.of_nat l - m'))); [lia|exact W].
    + rewrite gram_sym. apply (gram_less _ _ l' l ltac:(lia) (Z.to_nat (Z.of_nat l' - m'))); [lia|exact W'].
Qed.
