(** The real spherical harmonics of one degree: orthonormal, complete, and closed under orthogonal
    substitutions. *)
Require Import List Reals ZArith Bool Arith Lra Lia Setoid Morphisms Ring Field.
Require Import Verif.Base Verif.RSum Verif.Common_Model Verif.Symbolic_Model Verif.Poly_Proofs Verif.PolyDiff_Proofs Verif.Harmonics_Proofs.
Import ListNotations.
Open Scope R_scope.

Lemma pow2_pos : forall n, 0 < 2 ^ n. Proof. intros. apply pow_lt. lra. Qed.

Lemma planar_one : planar 0 pone.
Proof.
  split; [apply homogeneous_const|]. split; [|apply pd_one]. unfold lap. rewrite !pd_one. reflexivity.
Qed.

(** The factor in x and y, its order and its scale. *)
Definition hT (m : Z) : poly3 := if (0 <? m)%Z then sh_a (Z.to_nat m) else if (m <? 0)%Z then sh_b (Z.to_nat (- m)) else pone.
Definition hN (l m : nat) : R := sqrt (INR (fact (l - m)) / INR (fact (l + m))).
Definition hS (m : Z) : R := if (m =? 0)%Z then 1 else sqrt 2.

Lemma planar_hT : forall m, planar (Z.abs_nat m) (hT m).
Proof.
  intros m. unfold hT. destruct (Z.ltb_spec 0 m) as [H|H]; [replace (Z.abs_nat m) with (Z.to_nat m) by lia; apply planar_a|].
  destruct (Z.ltb_spec m 0) as [H'|H']; [replace (Z.abs_nat m) with (Z.to_nat (- m)) by lia; apply planar_b|].
  replace m with 0%Z by lia. exact planar_one.
Qed.

Lemma sh_pi_piT : forall l m T, p3_mul (sh_pi l m) T == p3_scal (hN l m) (piT l m T).
Proof.
  intros l m T. unfold sh_pi. rewrite scal_mul, <- pmul_assoc, <- psum_mul_r, <- scal_mul.
  apply pscal_proper; [reflexivity|]. apply psum_ext. intros k _. unfold zrT, coeff. rewrite !scal_mul. ring.
Qed.

Lemma Y_form : forall l m, spherical_harmonics_poly l m == p3_scal (hS m * hN l (Z.abs_nat m)) (piT l (Z.abs_nat m) (hT m)).
Proof.
  intros l m. unfold spherical_harmonics_poly, hS, hT.
  destruct (Z.ltb_spec 0 m) as [H|H].
  - destruct (Z.eqb_spec m 0); [lia|]. rewrite sh_pi_piT. replace (Z.abs_nat m) with (Z.to_nat m) by lia.
    rewrite !scal_mul, const_mul. ring.
  - destruct (Z.ltb_spec m 0) as [H'|H'].
    + destruct (Z.eqb_spec m 0); [lia|]. rewrite sh_pi_piT. replace (Z.abs_nat m) with (Z.to_nat (- m)) by lia.
      rewrite !scal_mul, const_mul. ring.
    + replace m with 0%Z by lia. cbn [Z.eqb Z.abs_nat]. rewrite Rmult_1_l, <- sh_pi_piT. ring.
Qed.

Lemma lap_Y : forall l m, (Z.abs m <= Z.of_nat l)%Z -> lap (spherical_harmonics_poly l m) == pzero.
Proof.
  intros l m H. rewrite Y_form, lap_scal, lap_piT; [rewrite scal_mul; ring|lia|apply planar_hT].
Qed.

Lemma homogeneous_Y : forall l m, (Z.abs m <= Z.of_nat l)%Z -> homogeneous l (spherical_harmonics_poly l m).
Proof.
  intros l m H.
  assert (P : forall n, (n <= l)%nat -> homogeneous (l - n) (sh_pi l n)).
  { intros n Hn. unfold sh_pi. apply homogeneous_scal, homogeneous_sum. intros k Hk. apply half in Hk. apply homogeneous_scal.
    replace (l - n)%nat with ((l - 2 * k - n) * 1 + k * 2)%nat by lia.
    apply homogeneous_mul; apply homogeneous_pow; [apply homogeneous_z|apply homogeneous_r2]. }
  unfold spherical_harmonics_poly. destruct (Z.ltb_spec 0 m) as [Hm|Hm]; [|destruct (Z.ltb_spec m 0) as [Hm'|Hm']].
  - apply homogeneous_scal. replace l with (l - Z.to_nat m + Z.to_nat m)%nat at 1 by lia.
    apply homogeneous_mul; [apply P; lia|apply (homogeneous_g cos)].
  - apply homogeneous_scal. replace l with (l - Z.to_nat (- m) + Z.to_nat (- m))%nat at 1 by lia.
    apply homogeneous_mul; [apply P; lia|apply (homogeneous_g sin)].
  - replace l with (l - 0)%nat at 1 by lia. apply P. lia.
Qed.

(** * Orthonormality *)

(** The common norm of all solid harmonics of degree l. *)
Definition ynorm (l : nat) : R := / 2 ^ l * INR (fact (2 * l)) / INR (fact l).
Lemma ynorm_pos : forall l, 0 < ynorm l.
Proof.
  intros l. unfold ynorm, Rdiv. apply Rmult_lt_0_compat; [apply Rmult_lt_0_compat|];
    [apply Rinv_0_lt_compat, pow2_pos|apply INR_fact_pos|apply Rinv_0_lt_compat, INR_fact_pos].
Qed.

Lemma hN_sqr : forall l m, hN l m * hN l m = INR (fact (l - m)) / INR (fact (l + m)).
Proof.
  intros. unfold hN. apply sqrt_sqrt. apply Rlt_le. unfold Rdiv. apply Rmult_lt_0_compat; [apply INR_fact_pos|apply Rinv_0_lt_compat, INR_fact_pos].
Qed.

Lemma fischer_hT : forall m, fischer (hT m) (hT m) = if (m =? 0)%Z then 1 else 2 ^ (Z.abs_nat m - 1) * INR (fact (Z.abs_nat m)).
Proof.
  intros m. unfold hT. destruct (Z.ltb_spec 0 m) as [H|H].
  - destruct (Z.eqb_spec m 0); [lia|]. replace (Z.abs_nat m) with (Z.to_nat m) by lia. apply fischer_aa. lia.
  - destruct (Z.ltb_spec m 0) as [H'|H'].
    + destruct (Z.eqb_spec m 0); [lia|]. replace (Z.abs_nat m) with (Z.to_nat (- m)) by lia. apply fischer_bb. lia.
    + destruct (Z.eqb_spec m 0); [|lia]. change pone with (mono (0, 0, 0)%nat). rewrite fischer_mono, coef_lin, lin_mono. cbn. ring.
Qed.

Lemma fischer_hT_opp : forall m, (m <> 0)%Z -> fischer (hT m) (hT (- m)) = 0.
Proof.
  intros m Hm. unfold hT. destruct (Z.ltb_spec 0 m); destruct (Z.ltb_spec 0 (- m)); try lia;
    destruct (Z.ltb_spec m 0); try lia; destruct (Z.ltb_spec (- m) 0); try lia.
  - rewrite Z.opp_involutive. apply fischer_ab_0.
  - rewrite fischer_sym. apply fischer_ab_0.
Qed.

Lemma fischer_Y : forall l m m', (Z.abs m <= Z.of_nat l)%Z -> (Z.abs m' <= Z.of_nat l)%Z ->
  fischer (spherical_harmonics_poly l m) (spherical_harmonics_poly l m') = if (m =? m')%Z then ynorm l else 0.
Proof.
  intros l m m' Hm Hm'. rewrite !Y_form, fischer_scal_l, fischer_scal_r.
  destruct (lt_eq_lt_dec (Z.abs_nat m) (Z.abs_nat m')) as [[L|E]|L].
  - destruct (Z.eqb_spec m m'); [lia|]. rewrite fischer_piT_diff; [ring|lia|apply planar_hT|apply planar_hT].
  - destruct (Z.eqb_spec m m') as [->|N].
    + rewrite fischer_piT_same by (lia || apply planar_hT). rewrite fischer_hT.
      set (n := Z.abs_nat m') in *. replace (hS m' * hN l n * (hS m' * hN l n * (/ 2 ^ l * INR (fact (2 * l)) / INR (fact l) *
         (INR (fact (l + n)) / INR (fact (l - n))) * (/ 2 ^ n / INR (fact n)) *
         (if (m' =? 0)%Z then 1 else 2 ^ (n - 1) * INR (fact n)))))
       with ((hN l n * hN l n) * (hS m' * hS m') * (ynorm l * (INR (fact (l + n)) / INR (fact (l - n))) * (/ 2 ^ n / INR (fact n)) *
         (if (m' =? 0)%Z then 1 else 2 ^ (n - 1) * INR (fact n)))) by (unfold ynorm; ring).
      rewrite hN_sqr. unfold hS. destruct (Z.eqb_spec m' 0) as [->|Z0].
      * subst n. cbn [Z.abs_nat]. rewrite Nat.add_0_r, Nat.sub_0_r. cbn [pow fact]. change (INR 1) with 1. field. apply INR_fact_neq.
      * rewrite sqrt_sqrt by lra. replace (2 ^ n) with (2 * 2 ^ (n - 1)).
        -- field. repeat split; try apply INR_fact_neq; apply pow_nonzero; lra.
        -- replace n with (S (n - 1)) at 2 by lia. reflexivity.
    + assert (m' = - m)%Z as -> by lia. replace (Z.abs_nat (- m)) with (Z.abs_nat m) by lia.
      assert (HP : planar (Z.abs_nat m) (hT (- m))) by (replace (Z.abs_nat m) with (Z.abs_nat (- m)) by lia; apply planar_hT).
      rewrite fischer_piT_same by (lia || apply planar_hT || exact HP). rewrite fischer_hT_opp by lia. ring.
  - destruct (Z.eqb_spec m m'); [lia|]. rewrite fischer_sym, fischer_piT_diff; [ring|lia|apply planar_hT|apply planar_hT].
Qed.

(** * Completeness *)

(** Polynomials of degree l that are combinations of z^(l-m) a_m and z^(l-m) b_m, modulo r^2. *)
Inductive span (l : nat) : poly3 -> Prop :=
| span_eq : forall p q, p == q -> span l p -> span l q
| span_add : forall p q, span l p -> span l q -> span l (p3_add p q)
| span_scal : forall c p, span l p -> span l (p3_scal c p)
| span_a : forall m, (m <= l)%nat -> span l (p3_mul (p3_pow p3_z (l - m)) (sh_a m))
| span_b : forall m, (m <= l)%nat -> span l (p3_mul (p3_pow p3_z (l - m)) (sh_b m))
| span_r2 : forall q, span l (p3_mul sh_r2 q).

Lemma r2_sub : forall q, p3_mul (p3_add (p3_mul p3_x p3_x) (p3_mul p3_y p3_y)) q
  == p3_add (p3_mul sh_r2 q) (popp (p3_mul (p3_mul p3_z p3_z) q)).
Proof. intros q. unfold sh_r2. rewrite !ppow_S, !ppow_0. ring. Qed.

Lemma halves : forall p, p == p3_scal (/ 2) (p3_add p p).
Proof. intros p w. rewrite lin_scal, lin_add. field. Qed.

Lemma span_neg : forall l p, span l p -> span l (popp p). Proof. intros. now apply span_scal. Qed.

(** z^2 times the span of degree l - 1 with lower m *)
Lemma span_step : forall l i p, (i < 3)%nat -> span l p -> span (S l) (p3_mul (pvar i) p).
Proof.
  intros l i p Hi H. induction H as [p q E H IH|p q _ IH1 _ IH2|c p _ IH|m Hm|m Hm|q].
  - apply (span_eq _ (p3_mul (pvar i) p)); [now rewrite E|exact IH].
  - apply (span_eq _ (p3_add (p3_mul (pvar i) p) (p3_mul (pvar i) q))); [ring|]. now apply span_add.
  - apply (span_eq _ (p3_scal c (p3_mul (pvar i) p))); [rewrite !scal_mul; ring|]. now apply span_scal.
  - (* a *)
    destruct i as [|[|[|i]]]; try lia; cbn [pvar].
    + destruct m as [|m].
      * apply (span_eq _ (p3_mul (p3_pow p3_z (S l - 1)) (sh_a 1))); [|apply span_a; lia].
        rewrite a_S, a_0, b_0. replace (S l - 1)%nat with (l - 0)%nat by lia. ring.
      * apply (span_eq _ (p3_scal (/ 2) (p3_add (p3_mul (p3_pow p3_z (S l - S (S m))) (sh_a (S (S m))))
             (p3_add (p3_mul sh_r2 (p3_mul (p3_pow p3_z (l - S m)) (sh_a m))) (popp (p3_mul (p3_pow p3_z (S l - m)) (sh_a m))))))).
        -- rewrite (halves (p3_mul p3_x _)). apply pscal_proper; [reflexivity|]. replace (S l - m)%nat with (S (S (l - S m))) by lia.
           replace (S l - S (S m))%nat with (l - S m)%nat by lia. rewrite !a_S, !b_S, !(ppow_S p3_z). unfold sh_r2. rewrite !ppow_S, !ppow_0. ring.
        -- apply span_scal, span_add; [apply span_a; lia|]. apply span_add; [apply span_r2|]. apply span_neg, span_a. lia.
    + destruct m as [|m].
      * apply (span_eq _ (p3_mul (p3_pow p3_z (S l - 1)) (sh_b 1))); [|apply span_b; lia].
        rewrite b_S, a_0, b_0. replace (S l - 1)%nat with (l - 0)%nat by lia. ring.
      * apply (span_eq _ (p3_scal (/ 2) (p3_add (p3_mul (p3_pow p3_z (S l - S (S m))) (sh_b (S (S m))))
             (popp (p3_add (p3_mul sh_r2 (p3_mul (p3_pow p3_z (l - S m)) (sh_b m))) (popp (p3_mul (p3_pow p3_z (S l - m)) (sh_b m)))))))).
        -- rewrite (halves (p3_mul p3_y _)). apply pscal_proper; [reflexivity|]. replace (S l - m)%nat with (S (S (l - S m))) by lia.
           replace (S l - S (S m))%nat with (l - S m)%nat by lia. rewrite !b_S, !a_S, !(ppow_S p3_z). unfold sh_r2. rewrite !ppow_S, !ppow_0. ring.
        -- apply span_scal, span_add; [apply span_b; lia|]. apply span_neg, span_add; [apply span_r2|]. apply span_neg, span_b. lia.
    + apply (span_eq _ (p3_mul (p3_pow p3_z (S l - m)) (sh_a m))); [|apply span_a; lia].
      replace (S l - m)%nat with (S (l - m)) by lia. rewrite (ppow_S p3_z). ring.
  - (* b *)
    destruct i as [|[|[|i]]]; try lia; cbn [pvar].
    + destruct m as [|m].
      * apply (span_eq _ (p3_scal 0 (p3_mul (p3_pow p3_z (S l - 0)) (sh_a 0)))); [|apply span_scal, span_a; lia].
        rewrite b_0, scal_mul, const_0. ring.
      * apply (span_eq _ (p3_scal (/ 2) (p3_add (p3_mul (p3_pow p3_z (S l - S (S m))) (sh_b (S (S m))))
             (p3_add (p3_mul sh_r2 (p3_mul (p3_pow p3_z (l - S m)) (sh_b m))) (popp (p3_mul (p3_pow p3_z (S l - m)) (sh_b m))))))).
        -- rewrite (halves (p3_mul p3_x _)). apply pscal_proper; [reflexivity|]. replace (S l - m)%nat with (S (S (l - S m))) by lia.
           replace (S l - S (S m))%nat with (l - S m)%nat by lia. rewrite !b_S, !a_S, !(ppow_S p3_z). unfold sh_r2. rewrite !ppow_S, !ppow_0. ring.
        -- apply span_scal, span_add; [apply span_b; lia|]. apply span_add; [apply span_r2|]. apply span_neg, span_b. lia.
    + destruct m as [|m].
      * apply (span_eq _ (p3_scal 0 (p3_mul (p3_pow p3_z (S l - 0)) (sh_a 0)))); [|apply span_scal, span_a; lia].
        rewrite b_0, scal_mul, const_0. ring.
      * apply (span_eq _ (p3_scal (/ 2) (p3_add (popp (p3_mul (p3_pow p3_z (S l - S (S m))) (sh_a (S (S m)))))
             (p3_add (p3_mul sh_r2 (p3_mul (p3_pow p3_z (l - S m)) (sh_a m))) (popp (p3_mul (p3_pow p3_z (S l - m)) (sh_a m))))))).
        -- rewrite (halves (p3_mul p3_y _)). apply pscal_proper; [reflexivity|]. replace (S l - m)%nat with (S (S (l - S m))) by lia.
           replace (S l - S (S m))%nat with (l - S m)%nat by lia. rewrite !a_S, !b_S, !(ppow_S p3_z). unfold sh_r2. rewrite !ppow_S, !ppow_0. ring.
        -- apply span_scal, span_add; [apply span_neg, span_a; lia|]. apply span_add; [apply span_r2|]. apply span_neg, span_a. lia.
    + apply (span_eq _ (p3_mul (p3_pow p3_z (S l - m)) (sh_b m))); [|apply span_b; lia].
      replace (S l - m)%nat with (S (l - m)) by lia. rewrite (ppow_S p3_z). ring.
  - apply (span_eq _ (p3_mul sh_r2 (p3_mul (pvar i) q))); [ring|apply span_r2].
Qed.

Lemma span_mono : forall l k, key3_deg k = l -> span l (mono k).
Proof.
  assert (Hz : forall n, span n (p3_pow p3_z n)).
  { induction n as [|n IH]; [apply (span_eq _ (p3_mul (p3_pow p3_z (0 - 0)) (sh_a 0))); [rewrite a_0, !ppow_0; ring|apply span_a; lia]|].
    rewrite ppow_S. apply (span_step n 2); [lia|exact IH]. }
  assert (Hy : forall m n, span (m + n) (p3_mul (p3_pow p3_y m) (p3_pow p3_z n))).
  { induction m as [|m IH]; intros n; [apply (span_eq _ (p3_pow p3_z n)); [rewrite ppow_0; ring|apply Hz]|].
    apply (span_eq _ (p3_mul (pvar 1) (p3_mul (p3_pow p3_y m) (p3_pow p3_z n)))); [rewrite ppow_S; unfold pvar; ring|].
    apply (span_step (m + n) 1); [lia|apply IH]. }
  intros l [[a b] c] E. cbn in E. subst l. apply (span_eq _ _ _ (peq_sym _ _ (mono_split a b c))).
  induction a as [|a IH]; [apply (span_eq _ (p3_mul (p3_pow p3_y b) (p3_pow p3_z c))); [rewrite ppow_0; ring|apply Hy]|].
  apply (span_eq _ (p3_mul (pvar 0) (p3_mul (p3_pow p3_x a) (p3_mul (p3_pow p3_y b) (p3_pow p3_z c))))); [rewrite ppow_S; unfold pvar; ring|].
  apply (span_step (a + b + c) 0); [lia|exact IH].
Qed.

Lemma coeff_0_neq : forall l m, (m <= l)%nat -> coeff l m 0 <> 0.
Proof.
  intros l m H. rewrite coeff_fact by lia. unfold Rdiv. rewrite !Nat.mul_0_r, !Nat.sub_0_r. cbn [pow fact]. change (INR 1) with 1.
  repeat apply Rmult_integral_contrapositive_currified; try apply Rinv_neq_0_compat; repeat apply Rmult_integral_contrapositive_currified;
    try apply INR_fact_neq; try lra. apply pow_nonzero; lra.
Qed.
Lemma hN_neq : forall l m, hN l m <> 0.
Proof.
  intros l m E. pose proof (hN_sqr l m) as H. rewrite E in H. pose proof (INR_fact_pos (l - m)). pose proof (Rinv_0_lt_compat _ (INR_fact_pos (l + m))).
  assert (0 < INR (fact (l - m)) / INR (fact (l + m))) by (unfold Rdiv; now apply Rmult_lt_0_compat). lra.
Qed.
Lemma hS_neq : forall m, hS m <> 0.
Proof. intros m. unfold hS. destruct (m =? 0)%Z; [lra|]. pose proof (sqrt_lt_R0 2 ltac:(lra)). lra. Qed.

(** A harmonic polynomial of degree l orthogonal to all solid harmonics of degree l is zero. *)
Lemma Y_total : forall l h, homogeneous l h -> lap h == pzero ->
  (forall m, (Z.abs m <= Z.of_nat l)%Z -> fischer (spherical_harmonics_poly l m) h = 0) -> h == pzero.
Proof.
  intros l h Hh HL HY. apply fischer_definite.
  assert (HT : forall m, (Z.abs m <= Z.of_nat l)%Z -> fischer (p3_mul (p3_pow p3_z (l - Z.abs_nat m)) (hT m)) h = 0).
  { intros m Hm. specialize (HY m Hm). rewrite Y_form, fischer_scal_l, fischer_lead in HY by assumption.
    apply Rmult_integral in HY as [E|E].
    - apply Rmult_integral in E as [E|E]; [exfalso; now apply (hS_neq m)|exfalso; now apply (hN_neq l (Z.abs_nat m))].
    - apply Rmult_integral in E as [E|E]; [exfalso; apply (coeff_0_neq l (Z.abs_nat m)); [lia|exact E]|exact E]. }
  assert (HS : forall p, span l p -> fischer p h = 0).
  { intros p H. induction H as [p q E H IH|p q _ IH1 _ IH2|c p _ IH|m Hm|m Hm|q].
    - now rewrite <- E.
    - rewrite fischer_add_l, IH1, IH2. ring.
    - rewrite fischer_scal_l, IH. ring.
    - destruct m as [|m].
      + specialize (HT 0%Z ltac:(lia)). unfold hT in HT. cbn [Z.ltb Z.compare Z.abs_nat] in HT. now rewrite a_0.
      + specialize (HT (Z.of_nat (S m)) ltac:(lia)). unfold hT in HT. destruct (Z.ltb_spec 0 (Z.of_nat (S m))); [|lia].
        rewrite Zabs2Nat.id, Nat2Z.id in HT. exact HT.
    - destruct m as [|m].
      + rewrite b_0. transitivity (fischer pzero h); [apply fischer_proper; [ring|reflexivity]|reflexivity].
      + specialize (HT (- Z.of_nat (S m))%Z ltac:(lia)). unfold hT in HT. destruct (Z.ltb_spec 0 (- Z.of_nat (S m))); [lia|].
        destruct (Z.ltb_spec (- Z.of_nat (S m)) 0); [|lia]. replace (Z.abs_nat (- Z.of_nat (S m))) with (S m) in HT by lia.
        rewrite Z.opp_involutive, Nat2Z.id in HT. exact HT.
    - rewrite fischer_r2, HL. apply fischer_zero_r. }
  intros q. transitivity (fischer (plift mono q) h); [now rewrite plift_id|]. unfold fischer at 1. rewrite lin_lift.
  rewrite <- (lin_w_zero q). apply lin_ext. intros k. rewrite lin_mono.
  destruct (Nat.eq_dec (key3_deg k) l) as [E|E].
  - rewrite <- fischer_mono. now apply HS, span_mono.
  - rewrite (coef_homogeneous l h k Hh E). ring.
Qed.

(** Order at position i of a block. *)
Definition order (l i : nat) : Z := (Z.of_nat i - Z.of_nat l)%Z.
Definition Yi (l i : nat) : poly3 := spherical_harmonics_poly l (order l i).

Lemma order_bound : forall l i, (i < 2 * l + 1)%nat -> (Z.abs (order l i) <= Z.of_nat l)%Z. Proof. intros. unfold order. lia. Qed.

Lemma fischer_Yi : forall l i j, (i < 2 * l + 1)%nat -> (j < 2 * l + 1)%nat -> fischer (Yi l i) (Yi l j) = ynorm l * kron i j.
Proof.
  intros l i j Hi Hj. unfold Yi. rewrite fischer_Y by (now apply order_bound). unfold kron, order.
  destruct (Nat.eq_dec i j) as [E|E]; destruct (Z.eqb_spec (Z.of_nat i - Z.of_nat l) (Z.of_nat j - Z.of_nat l)); try lia; ring.
Qed.

Lemma rsum_kron : forall n f j, (j < n)%nat -> rsum n (fun i => f i * kron i j) = f j.
Proof.
  intros n f j Hj. rewrite (rsum_single n _ j Hj).
  - unfold kron. destruct (Nat.eq_dec j j); [ring|congruence].
  - intros i Hi N. unfold kron. destruct (Nat.eq_dec i j); [congruence|ring].
Qed.

(** Expansion of harmonic polynomials. *)
Lemma Y_complete : forall l h, homogeneous l h -> lap h == pzero ->
  h == p3_sum (2 * l + 1) (fun i => p3_scal (fischer (Yi l i) h / ynorm l) (Yi l i)).
Proof.
  intros l h Hh HL.
  set (s := p3_sum (2 * l + 1) (fun i => p3_scal (fischer (Yi l i) h / ynorm l) (Yi l i))).
  assert (E : psub h s == pzero).
  { apply (Y_total l).
    - apply homogeneous_add; [exact Hh|]. apply homogeneous_scal. apply homogeneous_sum. intros i Hi. apply homogeneous_scal.
      unfold Yi. apply homogeneous_Y. now apply order_bound.
    - unfold psub, popp. rewrite lap_add, lap_scal, HL. unfold s. rewrite lap_sum.
      rewrite psum_zero; [rewrite scal_mul; ring|]. intros i Hi. rewrite lap_scal. unfold Yi. rewrite lap_Y by (now apply order_bound). rewrite scal_mul. ring.
    - intros m Hm. set (j := Z.to_nat (m + Z.of_nat l)). assert (Hj : (j < 2 * l + 1)%nat) by lia.
      assert (EY : spherical_harmonics_poly l m = Yi l j) by (unfold Yi, order; f_equal; lia). rewrite EY.
      unfold psub, popp. rewrite fischer_add_r, fischer_scal_r. unfold s. rewrite fischer_sum_r.
      rewrite (rsum_ext _ _ (fun i => fischer (Yi l i) h * kron i j)).
      + rewrite rsum_kron by exact Hj. ring.
      + intros i Hi. rewrite fischer_scal_r, fischer_Yi by assumption. pose proof (ynorm_pos l).
        replace (kron j i) with (kron i j) by (unfold kron; destruct (Nat.eq_dec i j), (Nat.eq_dec j i); congruence). field. lra. }
  transitivity (p3_add (psub h s) s); [ring|]. rewrite E. ring.
Qed.

(** * Orthogonal substitutions *)

(** Matrix of a substitution in the basis of solid harmonics. *)
Definition dmat (M : nat -> nat -> R) (l i j : nat) : R := fischer (Yi l j) (psubst M (Yi l i)) / ynorm l.

Lemma subst_Y : forall M l i, orthonormal_rows M -> (i < 2 * l + 1)%nat ->
  psubst M (Yi l i) == p3_sum (2 * l + 1) (fun j => p3_scal (dmat M l i j) (Yi l j)).
Proof.
  intros M l i HM Hi. apply (Y_complete l).
  - apply homogeneous_subst, homogeneous_Y. now apply order_bound.
  - rewrite lap_subst by exact HM. unfold Yi. rewrite lap_Y by (now apply order_bound). reflexivity.
Qed.

Lemma dmat_unique : forall M l i (c : nat -> R), (i < 2 * l + 1)%nat ->
  psubst M (Yi l i) == p3_sum (2 * l + 1) (fun j => p3_scal (c j) (Yi l j)) ->
  forall j, (j < 2 * l + 1)%nat -> dmat M l i j = c j.
Proof.
  intros M l i c Hi E j Hj. unfold dmat. rewrite E, fischer_sum_r.
  rewrite (rsum_ext _ _ (fun k => c k * ynorm l * kron k j)).
  - rewrite (rsum_kron _ (fun k => c k * ynorm l)) by exact Hj. pose proof (ynorm_pos l). field. lra.
  - intros k Hk. rewrite fischer_scal_r, fischer_Yi by assumption.
    replace (kron j k) with (kron k j) by (unfold kron; destruct (Nat.eq_dec k j), (Nat.eq_dec j k); congruence). ring.
Qed.

(** Products of matrices. *)
Definition mprod (M N : nat -> nat -> R) : nat -> nat -> R :=
  fun i j => M i 0%nat * N 0%nat j + M i 1%nat * N 1%nat j + M i 2%nat * N 2%nat j.
Definition mtrans (M : nat -> nat -> R) : nat -> nat -> R := fun i j => M j i.

Lemma subst_row : forall M N i, psubst M (row N i) == row (mprod N M) i.
Proof.
  intros M N i.
  assert (V : forall k, (k < 3)%nat -> psubst M (pvar k) == row M k).
  { intros k Hk. transitivity (psubst M (p3_mul (pvar k) pone)); [apply psubst_proper; ring|]. rewrite psubst_var_mul, psubst_one by exact Hk. ring. }
  unfold row at 1. change p3_x with (pvar 0). change p3_y with (pvar 1). change p3_z with (pvar 2).
  rewrite !psubst_add, !psubst_scal, !V by lia. unfold row, mprod. rewrite !scal_mul, !const_add, !const_mul. ring.
Qed.

Lemma subst_subst : forall M N p, psubst M (psubst N p) == psubst (mprod N M) p.
Proof.
  intros M N. apply (poly_ind (fun p => psubst M (psubst N p) == psubst (mprod N M) p)).
  - intros p q E H. now rewrite <- E.
  - intros p q H H'. now rewrite !psubst_add, H, H'.
  - intros c p H. now rewrite !psubst_scal, H.
  - now rewrite !psubst_one.
  - intros i p Hi H. rewrite !psubst_var_mul, psubst_mul, H, subst_row by exact Hi. reflexivity.
Qed.

Lemma subst_ext : forall M N p, (forall i j, (i < 3)%nat -> (j < 3)%nat -> M i j = N i j) -> psubst M p == psubst N p.
Proof.
  intros M N p H. unfold psubst. apply plift_ext. intros [[a b] c].
  assert (E : forall i, (i < 3)%nat -> row M i = row N i) by (intros i Hi; unfold row; rewrite !H by lia; reflexivity).
  rewrite !E by lia. reflexivity.
Qed.

Lemma subst_id : forall p, psubst kron p == p.
Proof.
  apply (poly_ind (fun p => psubst kron p == p)).
  - intros p q E H. now rewrite <- E.
  - intros p q H H'. now rewrite psubst_add, H, H'.
  - intros c p H. now rewrite psubst_scal, H.
  - apply psubst_one.
  - intros i p Hi H. rewrite psubst_var_mul, H by exact Hi.
    assert (E : row kron i == pvar i).
    { unfold row, kron. destruct i as [|[|[|i]]]; try lia; repeat match goal with |- context [Nat.eq_dec ?a ?b] => destruct (Nat.eq_dec a b); try lia end;
        unfold pvar; rewrite !scal_mul, const_0; change (p3_const 1) with pone; ring. }
    now rewrite E.
Qed.

Lemma dmat_id : forall l i j, (i < 2 * l + 1)%nat -> (j < 2 * l + 1)%nat -> dmat kron l i j = kron i j.
Proof.
  intros l i j Hi Hj. unfold dmat. rewrite subst_id, fischer_Yi by assumption. pose proof (ynorm_pos l).
  replace (kron j i) with (kron i j) by (unfold kron; destruct (Nat.eq_dec i j), (Nat.eq_dec j i); congruence). field. lra.
Qed.

Lemma dmat_ext : forall M N l i j, (forall a b, (a < 3)%nat -> (b < 3)%nat -> M a b = N a b) -> dmat M l i j = dmat N l i j.
Proof. intros M N l i j H. unfold dmat. now rewrite (subst_ext M N _ H). Qed.

Lemma psum_swap : forall n m f, p3_sum n (fun i => p3_sum m (fun j => f i j)) == p3_sum m (fun j => p3_sum n (fun i => f i j)).
Proof.
  intros n m f w. rewrite !lin_sum. rewrite (rsum_ext n _ (fun i => rsum m (fun j => lin w (f i j)))) by (intros; apply lin_sum).
  rewrite rsum_swap. apply rsum_ext. intros. now rewrite lin_sum.
Qed.

Lemma dmat_mul : forall M N l i k, orthonormal_rows M -> orthonormal_rows N -> (i < 2 * l + 1)%nat -> (k < 2 * l + 1)%nat ->
  dmat (mprod M N) l i k = rsum (2 * l + 1) (fun j => dmat M l i j * dmat N l j k).
Proof.
  intros M N l i k HM HN Hi Hk.
  refine (dmat_unique (mprod M N) l i (fun k => rsum (2 * l + 1) (fun j => dmat M l i j * dmat N l j k)) Hi _ k Hk).
  rewrite <- subst_subst, (subst_Y M l i HM Hi), psubst_sum.
  intros w. rewrite !lin_sum.
  transitivity (rsum (2 * l + 1) (fun j => rsum (2 * l + 1) (fun k0 => dmat M l i j * dmat N l j k0 * lin w (Yi l k0)))).
  - apply rsum_ext. intros j Hj. rewrite psubst_scal, (subst_Y N l j HN Hj), lin_scal, lin_sum, <- rsum_scal_l.
    apply rsum_ext. intros k0 _. rewrite lin_scal. ring.
  - rewrite rsum_swap. apply rsum_ext. intros k0 _. rewrite lin_scal, rsum_scal_r. reflexivity.
Qed.

Lemma dmat_rows : forall M l i k, orthonormal_rows M -> (i < 2 * l + 1)%nat -> (k < 2 * l + 1)%nat ->
  rsum (2 * l + 1) (fun j => dmat M l i j * dmat M l k j) = kron i k.
Proof.
  intros M l i k HM Hi Hk. pose proof (fischer_subst M (Yi l i) (Yi l k) HM) as H.
  rewrite (subst_Y M l i HM Hi) in H. rewrite fischer_sum_l, fischer_Yi in H by assumption.
  rewrite (rsum_ext _ _ (fun j => ynorm l * (dmat M l i j * dmat M l k j))) in H.
  - rewrite rsum_scal_l in H. pose proof (ynorm_pos l). apply (Rmult_eq_reg_l (ynorm l)); lra.
  - intros j Hj. rewrite fischer_scal_l. unfold dmat at 3. pose proof (ynorm_pos l). field. lra.
Qed.

Lemma dmat_trans : forall M l i j, orthonormal_rows M -> orthonormal_rows (mtrans M) ->
  dmat (mtrans M) l i j = dmat M l j i.
Proof.
  intros M l i j HM HM'. unfold dmat. f_equal. rewrite <- (fischer_subst M (Yi l j)) by exact HM. rewrite subst_subst.
  rewrite fischer_sym. apply fischer_proper; [|reflexivity]. transitivity (psubst kron (Yi l i)); [|apply subst_id].
  apply subst_ext. intros a b Ha Hb. exact (HM' a b Ha Hb).
Qed.

Lemma dmat_cols : forall M l i k, orthonormal_rows M -> orthonormal_rows (mtrans M) -> (i < 2 * l + 1)%nat -> (k < 2 * l + 1)%nat ->
  rsum (2 * l + 1) (fun j => dmat M l j i * dmat M l j k) = kron i k.
Proof.
  intros M l i k HM HM' Hi Hk. rewrite <- (dmat_rows (mtrans M) l i k HM' Hi Hk). apply rsum_ext. intros j _. now rewrite !dmat_trans.
Qed.

(** Values: solid harmonics at M v. *)
Lemma Y_rotate : forall M l i v, orthonormal_rows M -> (i < 2 * l + 1)%nat ->
  peval (Yi l i) (mapply M v) = rsum (2 * l + 1) (fun j => dmat M l i j * peval (Yi l j) v).
Proof.
  intros M l i v HM Hi. rewrite <- peval_subst, (subst_Y M l i HM Hi), peval_sum. apply rsum_ext. intros j _. apply peval_scal.
Qed.
