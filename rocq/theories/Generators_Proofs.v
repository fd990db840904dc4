(** Infinitesimal rotations of the solid harmonics. *)
Require Import List Reals ZArith Lra Lia Setoid Morphisms Arith Bool.
Require Import Verif.Base Verif.RSum Verif.Common_Model Verif.Symbolic_Model Verif.Poly_Proofs Verif.PolyDiff_Proofs Verif.Harmonics_Proofs Verif.Harmonics_Basis_Proofs
  Verif.Clebsch_Model Verif.Racah_Proofs.
Import ListNotations.
Open Scope R_scope.

(** Rotations about the y and the z axis. *)
Definition turnY (p : poly3) : poly3 := psub (p3_mul p3_x (pd 2 p)) (p3_mul p3_z (pd 0 p)).
Definition turnZ (p : poly3) : poly3 := psub (p3_mul p3_x (pd 1 p)) (p3_mul p3_y (pd 0 p)).

Global Instance turnY_proper : Proper (peq ==> peq) turnY. Proof. intros p q E. unfold turnY. now rewrite E. Qed.
Global Instance turnZ_proper : Proper (peq ==> peq) turnZ. Proof. intros p q E. unfold turnZ. now rewrite E. Qed.

Lemma turnY_mul : forall p q, turnY (p3_mul p q) == p3_add (p3_mul (turnY p) q) (p3_mul p (turnY q)).
Proof. intros. unfold turnY. rewrite !pd_mul. ring. Qed.
Lemma turnZ_mul : forall p q, turnZ (p3_mul p q) == p3_add (p3_mul (turnZ p) q) (p3_mul p (turnZ q)).
Proof. intros. unfold turnZ. rewrite !pd_mul. ring. Qed.
Lemma turnY_scal : forall c p, turnY (p3_scal c p) == p3_scal c (turnY p).
Proof. intros. unfold turnY. rewrite !pd_scal, !scal_mul. ring. Qed.
Lemma turnZ_scal : forall c p, turnZ (p3_scal c p) == p3_scal c (turnZ p).
Proof. intros. unfold turnZ. rewrite !pd_scal, !scal_mul. ring. Qed.
Lemma turnY_add : forall p q, turnY (p3_add p q) == p3_add (turnY p) (turnY q).
Proof. intros. unfold turnY. rewrite !pd_add. ring. Qed.
Lemma turnZ_add : forall p q, turnZ (p3_add p q) == p3_add (turnZ p) (turnZ q).
Proof. intros. unfold turnZ. rewrite !pd_add. ring. Qed.
Lemma turnY_one : turnY pone == pzero. Proof. unfold turnY. rewrite !pd_one. ring. Qed.
Lemma turnZ_one : turnZ pone == pzero. Proof. unfold turnZ. rewrite !pd_one. ring. Qed.
Lemma turnY_sum : forall n f, turnY (p3_sum n f) == p3_sum n (fun i => turnY (f i)).
Proof. induction n as [|n IH]; intros f; [reflexivity|]. rewrite !psum_S, turnY_add, IH. reflexivity. Qed.
Lemma turnZ_sum : forall n f, turnZ (p3_sum n f) == p3_sum n (fun i => turnZ (f i)).
Proof. induction n as [|n IH]; intros f; [reflexivity|]. rewrite !psum_S, turnZ_add, IH. reflexivity. Qed.

Lemma pd_z : forall i, (i < 3)%nat -> pd i p3_z == p3_const (kron i 2). Proof. intros i Hi. apply (pd_var i 2); lia. Qed.
Lemma turnY_z : turnY p3_z == p3_x. Proof. unfold turnY. rewrite !pd_z by lia. krons. ring. Qed.
Lemma turnZ_z : turnZ p3_z == pzero. Proof. unfold turnZ. rewrite !pd_z by lia. krons. ring. Qed.
Lemma r2_prod : sh_r2 == p3_add (p3_add (p3_mul p3_x p3_x) (p3_mul p3_y p3_y)) (p3_mul p3_z p3_z).
Proof. unfold sh_r2. rewrite !ppow_S, !ppow_0. ring. Qed.
Lemma turnY_r2 : turnY sh_r2 == pzero.
Proof. rewrite r2_prod, !turnY_add, !turnY_mul. unfold turnY. rewrite !pd_x, !pd_y, !pd_z by lia. krons. ring. Qed.
Lemma turnZ_r2 : turnZ sh_r2 == pzero.
Proof. rewrite r2_prod, !turnZ_add, !turnZ_mul. unfold turnZ. rewrite !pd_x, !pd_y, !pd_z by lia. krons. ring. Qed.

Definition zr (j k : nat) : poly3 := p3_mul (p3_pow p3_z j) (p3_pow sh_r2 k).

Lemma turnY_r2k : forall k, turnY (p3_pow sh_r2 k) == pzero.
Proof. induction k as [|k IH]; [rewrite ppow_0; apply turnY_one|]. rewrite ppow_S, turnY_mul, IH, turnY_r2. ring. Qed.
Lemma turnZ_r2k : forall k, turnZ (p3_pow sh_r2 k) == pzero.
Proof. induction k as [|k IH]; [rewrite ppow_0; apply turnZ_one|]. rewrite ppow_S, turnZ_mul, IH, turnZ_r2. ring. Qed.
Lemma turnY_zj : forall j, turnY (p3_pow p3_z j) == p3_scal (INR j) (p3_mul p3_x (p3_pow p3_z (j - 1))).
Proof.
  induction j as [|j IH]; [rewrite ppow_0, turnY_one, scal_mul; cbn [INR]; rewrite const_0; ring|].
  rewrite ppow_S, turnY_mul, turnY_z, IH, !scal_mul, const_S. replace (S j - 1)%nat with j by lia.
  destruct j as [|j]; [cbn [INR Nat.sub]; rewrite const_0, ppow_0; ring|]. replace (S j - 1)%nat with j by lia. rewrite ppow_S. ring.
Qed.
Lemma turnZ_zj : forall j, turnZ (p3_pow p3_z j) == pzero.
Proof. induction j as [|j IH]; [rewrite ppow_0; apply turnZ_one|]. rewrite ppow_S, turnZ_mul, IH, turnZ_z. ring. Qed.
Lemma turnY_zr : forall j k, turnY (zr j k) == p3_scal (INR j) (p3_mul p3_x (zr (j - 1) k)).
Proof. intros. unfold zr. rewrite turnY_mul, turnY_zj, turnY_r2k, !scal_mul. ring. Qed.
Lemma turnZ_zr : forall j k, turnZ (zr j k) == pzero.
Proof. intros. unfold zr. rewrite turnZ_mul, turnZ_zj, turnZ_r2k. ring. Qed.

(** * The polynomials in z and r^2 *)

Definition cf (l m k : nat) : R :=
  (-1) ^ k * / 2 ^ l * INR (fact (2 * l - 2 * k)) * rfact (Z.of_nat k) * rfact (Z.of_nat l - Z.of_nat k) * rfact (Z.of_nat l - 2 * Z.of_nat k - Z.of_nat m).

Definition qz (l m : nat) : poly3 := p3_sum (l + 1) (fun k => p3_scal (cf l m k) (zr (l - 2 * k - m) k)).

Lemma cf_zero : forall l m k, (l < 2 * k + m)%nat -> cf l m k = 0.
Proof. intros. unfold cf. rewrite (rfact_neg (Z.of_nat l - 2 * Z.of_nat k - Z.of_nat m)) by lia. ring. Qed.
Lemma cf_coeff : forall l m k, (2 * k + m <= l)%nat -> cf l m k = coeff l m k.
Proof.
  intros l m k H. rewrite coeff_fact by exact H. unfold cf. rewrite !rfact_zfact by lia.
  rewrite (zfact_nat (Z.of_nat k) k), (zfact_nat (Z.of_nat l - Z.of_nat k) (l - k)), (zfact_nat (Z.of_nat l - 2 * Z.of_nat k - Z.of_nat m) (l - 2 * k - m)) by lia.
  field. repeat split; try apply fact_neq. apply pow_nonzero. lra.
Qed.

Lemma qz_top : forall l m, (l < m)%nat -> qz l m == pzero.
Proof. intros l m H. unfold qz. apply psum_zero. intros k _. rewrite cf_zero by lia. rewrite scal_mul, const_0. ring. Qed.

Lemma piT_qz : forall l m T, (m <= l)%nat -> piT l m T == p3_mul (qz l m) T.
Proof.
  intros l m T H w. unfold piT, qz. rewrite (lin_proper w _ _ (symmetry (psum_mul_r _ _ _))), !lin_sum.
  assert (HK : (2 * ((l - m) / 2) <= l - m <= 2 * ((l - m) / 2) + 1)%nat).
  { pose proof (Nat.div_mod (l - m) 2 ltac:(lia)). pose proof (Nat.mod_upper_bound (l - m) 2 ltac:(lia)). lia. }
  rewrite (rsum_extend ((l - m) / 2 + 1) (l + 1)).
  - apply rsum_ext. intros k Hk. apply lin_proper. rewrite cf_coeff by lia. unfold zrT, zr. rewrite !scal_mul. ring.
  - lia.
  - intros k Hk. rewrite cf_zero by lia. rewrite (lin_proper w _ pzero); [reflexivity|]. rewrite scal_mul, const_0. ring.
Qed.

Lemma cf_next : forall l m k, INR (l - 2 * k - m) * cf l m k = cf l (S m) k.
Proof.
  intros l m k. destruct (le_lt_dec (2 * k + m) l) as [H|H].
  - unfold cf. rewrite (rfact_at (Z.of_nat l - 2 * Z.of_nat k - Z.of_nat (S m)) (Z.of_nat l - 2 * Z.of_nat k - Z.of_nat m)) by lia.
    rewrite INR_IZR_INZ. replace (Z.of_nat (l - 2 * k - m)) with (Z.of_nat l - 2 * Z.of_nat k - Z.of_nat m)%Z by lia. ring.
  - rewrite !cf_zero by lia. ring.
Qed.

Lemma turnY_qz : forall l m, turnY (qz l m) == p3_mul p3_x (qz l (S m)).
Proof.
  intros l m. unfold qz. rewrite turnY_sum, <- psum_mul_l. apply psum_ext. intros k _.
  rewrite turnY_scal, turnY_zr, <- (cf_next l m k), !scal_mul, const_mul. replace (l - 2 * k - S m)%nat with (l - 2 * k - m - 1)%nat by lia. ring.
Qed.
Lemma turnZ_qz : forall l m, turnZ (qz l m) == pzero.
Proof. intros. unfold qz. rewrite turnZ_sum. apply psum_zero. intros k _. rewrite turnZ_scal, turnZ_zr, scal_mul. ring. Qed.

(** Coefficient identity behind Legendre's equation. *)
Lemma cf_legendre : forall l m k, (1 <= m)%nat ->
  (match k with O => 0 | S k' => cf l (S m) k' end) - cf l (S m) k - 2 * INR m * cf l m k + (INR l + INR m) * (INR l - INR m + 1) * cf l (m - 1) k = 0.
Proof.
  intros l m k Hm. destruct (le_lt_dec (2 * k + m) (S l)) as [H|H].
  2:{ rewrite !cf_zero by lia. destruct k as [|k']; [ring|]. rewrite cf_zero by lia. ring. }
  set (L := IZR (Z.of_nat l)). set (M := IZR (Z.of_nat m)). set (K := IZR (Z.of_nat k)).
  assert (E0 : cf l m k = (L - 2 * K - M + 1) * cf l (m - 1) k).
  { unfold cf. rewrite (rfact_at (Z.of_nat l - 2 * Z.of_nat k - Z.of_nat m) (Z.of_nat l - 2 * Z.of_nat k - Z.of_nat (m - 1))) by lia.
    replace (IZR (Z.of_nat l - 2 * Z.of_nat k - Z.of_nat (m - 1))) with (L - 2 * K - M + 1); [ring|].
    unfold L, K, M. rewrite <- (mult_IZR 2), <- !minus_IZR, <- plus_IZR. f_equal. lia. }
  assert (E1 : cf l (S m) k = (L - 2 * K - M) * cf l m k).
  { unfold cf. rewrite (rfact_at (Z.of_nat l - 2 * Z.of_nat k - Z.of_nat (S m)) (Z.of_nat l - 2 * Z.of_nat k - Z.of_nat m)) by lia.
    rewrite !minus_IZR, mult_IZR. fold L K M. ring. }
  rewrite (INR_IZR_INZ l), (INR_IZR_INZ m). fold L M.
  assert (E2 : (match k with O => 0 | S k' => cf l (S m) k' end) = - (2 * K * (2 * L - 2 * K + 1)) * cf l (m - 1) k).
  { destruct k as [|k']; [unfold K; cbn; ring|]. unfold cf.
    rewrite (rfact_at (Z.of_nat k') (Z.of_nat (S k'))) by lia.
    rewrite (rfact_at (Z.of_nat l - Z.of_nat (S k')) (Z.of_nat l - Z.of_nat k')) by lia.
    replace (Z.of_nat l - 2 * Z.of_nat k' - Z.of_nat (S m))%Z with (Z.of_nat l - 2 * Z.of_nat (S k') - Z.of_nat (m - 1))%Z by lia.
    replace (2 * l - 2 * k')%nat with (S (S (2 * l - 2 * S k'))) by lia. rewrite !fact_simpl, !mult_INR, !S_INR.
    replace (INR (2 * l - 2 * S k')) with (2 * L - 2 * K).
    - replace (IZR (Z.of_nat l - Z.of_nat k')) with (L - K + 1). 2:{ unfold L, K. rewrite <- minus_IZR, <- plus_IZR. f_equal. lia. }
      fold K. cbn [pow]. ring.
    - rewrite INR_IZR_INZ. unfold L, K. rewrite <- !mult_IZR, <- minus_IZR. f_equal. lia. }
  rewrite E2, E1, E0. ring.
Qed.

Lemma legendre : forall l m, (1 <= m)%nat ->
  psub (p3_mul (psub sh_r2 (p3_mul p3_z p3_z)) (qz l (S m))) (p3_scal (2 * INR m) (p3_mul p3_z (qz l m)))
  == p3_scal (- ((INR l + INR m) * (INR l - INR m + 1))) (qz l (m - 1)).
Proof.
  intros l m Hm w. set (c := (INR l + INR m) * (INR l - INR m + 1)).
  set (G := fun k => lin w (zr (l + 1 - 2 * k - m) k)).
  assert (S1 : lin w (p3_mul sh_r2 (qz l (S m))) = rsum (l + 1) (fun k => cf l (S m) k * G (S k))).
  { unfold qz. rewrite (lin_proper w _ _ (symmetry (psum_mul_l _ _ _))), lin_sum. apply rsum_ext. intros k Hk.
    destruct (le_lt_dec (2 * k + S m) l) as [H|H].
    - unfold G. replace (l + 1 - 2 * S k - m)%nat with (l - 2 * k - S m)%nat by lia. rewrite <- lin_scal. apply lin_proper. unfold zr. rewrite (ppow_S sh_r2), !scal_mul. ring.
    - rewrite cf_zero by lia. rewrite Rmult_0_l. rewrite (lin_proper w _ pzero); [reflexivity|]. rewrite scal_mul, const_0. ring. }
  assert (S2 : lin w (p3_mul (p3_mul p3_z p3_z) (qz l (S m))) = rsum (l + 1) (fun k => cf l (S m) k * G k)).
  { unfold qz. rewrite (lin_proper w _ _ (symmetry (psum_mul_l _ _ _))), lin_sum. apply rsum_ext. intros k Hk.
    destruct (le_lt_dec (2 * k + S m) l) as [H|H].
    - unfold G. replace (l + 1 - 2 * k - m)%nat with (S (S (l - 2 * k - S m))) by lia. rewrite <- lin_scal. apply lin_proper. unfold zr. rewrite !(ppow_S p3_z), !scal_mul. ring.
    - rewrite cf_zero by lia. rewrite Rmult_0_l. rewrite (lin_proper w _ pzero); [reflexivity|]. rewrite scal_mul, const_0. ring. }
  assert (S3 : lin w (p3_mul p3_z (qz l m)) = rsum (l + 1) (fun k => cf l m k * G k)).
  { unfold qz. rewrite (lin_proper w _ _ (symmetry (psum_mul_l _ _ _))), lin_sum. apply rsum_ext. intros k Hk.
    destruct (le_lt_dec (2 * k + m) l) as [H|H].
    - unfold G. replace (l + 1 - 2 * k - m)%nat with (S (l - 2 * k - m)) by lia. rewrite <- lin_scal. apply lin_proper. unfold zr. rewrite !(ppow_S p3_z), !scal_mul. ring.
    - rewrite cf_zero by lia. rewrite Rmult_0_l. rewrite (lin_proper w _ pzero); [reflexivity|]. rewrite scal_mul, const_0. ring. }
  assert (S4 : lin w (qz l (m - 1)) = rsum (l + 1) (fun k => cf l (m - 1) k * G k)).
  { unfold qz. rewrite lin_sum. apply rsum_ext. intros k Hk. rewrite lin_scal.
    destruct (le_lt_dec (2 * k + (m - 1)) l) as [H|H].
    - unfold G. replace (l + 1 - 2 * k - m)%nat with (l - 2 * k - (m - 1))%nat by lia. reflexivity.
    - rewrite cf_zero by lia. ring. }
  transitivity (lin w (p3_mul sh_r2 (qz l (S m))) - lin w (p3_mul (p3_mul p3_z p3_z) (qz l (S m))) - 2 * INR m * lin w (p3_mul p3_z (qz l m))).
  { rewrite (lin_proper w _ (psub (psub (p3_mul sh_r2 (qz l (S m))) (p3_mul (p3_mul p3_z p3_z) (qz l (S m)))) (p3_scal (2 * INR m) (p3_mul p3_z (qz l m))))).
    - unfold psub, popp. rewrite !lin_add, !lin_scal. ring.
    - apply psub_proper; [ring|reflexivity]. }
  rewrite lin_scal, S1, S2, S3, S4. clear S1 S2 S3 S4.
  set (h := fun k => match k with O => 0 | S k' => cf l (S m) k' * G k end).
  assert (SH : rsum (l + 1) (fun k => cf l (S m) k * G (S k)) = rsum (l + 1) h).
  { rewrite Nat.add_1_r. rewrite (rsum_S_l l h). change (h 0%nat) with 0. change (rsum (S l) ?f) with (rsum l f + f l). cbv beta. rewrite (cf_zero l (S m) l) by lia. unfold h. ring. }
  rewrite SH, <- !rsum_scal_l, <- !rsum_minus. apply rsum_ext. intros k _.
  pose proof (cf_legendre l m k Hm) as P. fold c in P.
  replace (h k) with ((match k with O => 0 | S k' => cf l (S m) k' end) * G k) by (unfold h; destruct k; ring).
  set (A := match k with O => 0 | S k' => cf l (S m) k' end) in *.
  replace A with (cf l (S m) k + 2 * INR m * cf l m k - c * cf l (m - 1) k) by lra. ring.
Qed.

(** * Action on the basis *)

Lemma turnY_a : forall m, turnY (sh_a m) == popp (p3_scal (INR m) (p3_mul p3_z (sh_a (pred m)))).
Proof. intros m. destruct (pd_ab m) as [H1 [_ [_ [_ [H5 _]]]]]. unfold turnY. rewrite H1, H5, !scal_mul. ring. Qed.
Lemma turnY_b : forall m, turnY (sh_b m) == popp (p3_scal (INR m) (p3_mul p3_z (sh_b (pred m)))).
Proof. intros m. destruct (pd_ab m) as [_ [_ [H3 [_ [_ H6]]]]]. unfold turnY. rewrite H3, H6, !scal_mul. ring. Qed.
Lemma turnZ_a : forall m, turnZ (sh_a m) == popp (p3_scal (INR m) (sh_b m)).
Proof.
  intros m. destruct (pd_ab m) as [H1 [H2 _]]. unfold turnZ. rewrite H1, H2, !scal_mul.
  destruct m as [|m]; [cbn [INR]; rewrite const_0; ring|]. cbn [pred]. rewrite b_S. ring.
Qed.
Lemma turnZ_b : forall m, turnZ (sh_b m) == p3_scal (INR m) (sh_a m).
Proof.
  intros m. destruct (pd_ab m) as [_ [_ [H3 [H4 _]]]]. unfold turnZ. rewrite H3, H4, !scal_mul.
  destruct m as [|m]; [cbn [INR]; rewrite const_0; ring|]. cbn [pred]. rewrite a_S. ring.
Qed.

Lemma planar_x : forall m, (1 <= m)%nat ->
  p3_add (p3_mul p3_x (sh_a m)) (p3_mul p3_x (sh_a m)) == p3_add (sh_a (S m)) (p3_mul (psub sh_r2 (p3_mul p3_z p3_z)) (sh_a (m - 1)))
  /\ p3_add (p3_mul p3_x (sh_b m)) (p3_mul p3_x (sh_b m)) == p3_add (sh_b (S m)) (p3_mul (psub sh_r2 (p3_mul p3_z p3_z)) (sh_b (m - 1))).
Proof.
  intros [|m] H; [lia|]. replace (S m - 1)%nat with m by lia. rewrite (a_S (S m)), (b_S (S m)), (a_S m), (b_S m), r2_prod. split; ring.
Qed.

(** One family (a or b) at a time. *)
Lemma turnY_qT : forall (T : nat -> poly3) l m, (1 <= m)%nat ->
  turnY (T m) == popp (p3_scal (INR m) (p3_mul p3_z (T (m - 1)%nat))) ->
  p3_add (p3_mul p3_x (T m)) (p3_mul p3_x (T m)) == p3_add (T (S m)) (p3_mul (psub sh_r2 (p3_mul p3_z p3_z)) (T (m - 1)%nat)) ->
  turnY (p3_mul (qz l m) (T m))
  == p3_add (p3_scal (/ 2) (p3_mul (qz l (S m)) (T (S m)))) (p3_scal (- / 2 * ((INR l + INR m) * (INR l - INR m + 1))) (p3_mul (qz l (m - 1)) (T (m - 1)%nat))).
Proof.
  intros T l m Hm HT HX. rewrite turnY_mul, turnY_qz, HT.
  assert (HL := legendre l m Hm). set (c := (INR l + INR m) * (INR l - INR m + 1)) in *.
  transitivity (p3_scal (/ 2) (p3_add (p3_mul (p3_add (p3_mul p3_x (T m)) (p3_mul p3_x (T m))) (qz l (S m))) (popp (p3_scal (2 * INR m) (p3_mul (p3_mul p3_z (qz l m)) (T (m - 1)%nat)))))).
  { rewrite (halves (p3_add (p3_mul (p3_mul p3_x (qz l (S m))) (T m)) _)). apply pscal_proper; [reflexivity|]. rewrite !scal_mul, const_mul.
    assert (E2 : p3_const 2 == p3_add pone pone) by (intros v; unfold pone; rewrite lin_add, !lin_const; ring). rewrite E2. ring. }
  rewrite HX.
  transitivity (p3_scal (/ 2) (p3_add (p3_mul (qz l (S m)) (T (S m))) (p3_mul (psub (p3_mul (psub sh_r2 (p3_mul p3_z p3_z)) (qz l (S m))) (p3_scal (2 * INR m) (p3_mul p3_z (qz l m)))) (T (m - 1)%nat)))).
  { apply pscal_proper; [reflexivity|]. rewrite !scal_mul. ring. }
  rewrite HL. intros w. rewrite lin_scal, !lin_add, !lin_scal.
  rewrite (lin_proper w (p3_mul (p3_scal (- c) (qz l (m - 1))) (T (m - 1)%nat)) (p3_scal (- c) (p3_mul (qz l (m - 1)) (T (m - 1)%nat)))) by (rewrite !scal_mul; ring).
  rewrite lin_scal. ring.
Qed.

Definition up (l : nat) (m : Z) : R :=
  if (1 <=? m)%Z then beta l m / 2 else if (m =? 0)%Z then beta l 0 / sqrt 2 else if (m =? -1)%Z then 0 else - (beta l m / 2).

Lemma hN_pos : forall l m, 0 < hN l m.
Proof.
  intros. unfold hN. apply sqrt_lt_R0. unfold Rdiv. apply Rmult_lt_0_compat; [apply INR_fact_pos|apply Rinv_0_lt_compat, INR_fact_pos].
Qed.
Lemma beta_nonneg : forall l m, 0 <= beta l m. Proof. intros. unfold beta. apply sqrt_pos. Qed.
Lemma beta_sqr : forall l m, within l m -> beta l m * beta l m = (INR l - IZR m) * (INR l + IZR m + 1).
Proof.
  intros l m H. unfold within in H. unfold beta. rewrite sqrt_sqrt by (apply IZR_le; nia). rewrite mult_IZR, minus_IZR, !plus_IZR, <- INR_IZR_INZ. ring.
Qed.

Lemma hN_step : forall l m, (m < l)%nat -> hN l m = beta l (Z.of_nat m) * hN l (S m).
Proof.
  intros l m H. apply Rsqr_inj; [apply Rlt_le, hN_pos|apply Rmult_le_pos; [apply beta_nonneg|apply Rlt_le, hN_pos]|]. unfold Rsqr.
  rewrite hN_sqr. transitivity (beta l (Z.of_nat m) * beta l (Z.of_nat m) * (hN l (S m) * hN l (S m))); [|ring].
  rewrite beta_sqr, hN_sqr by (unfold within; lia). rewrite <- INR_IZR_INZ.
  replace (l - m)%nat with (S (l - S m)) by lia. replace (l + S m)%nat with (S (l + m)) by lia. rewrite !INR_fact_S.
  replace (INR (l - S m)) with (INR l - INR m - 1) by (rewrite minus_INR by lia; rewrite S_INR; ring). rewrite plus_INR. field.
  split; [apply INR_fact_neq|]. pose proof (pos_INR l). pose proof (pos_INR m). lra.
Qed.

Lemma Y_pos : forall l n, (1 <= n <= l)%nat -> spherical_harmonics_poly l (Z.of_nat n) == p3_scal (sqrt 2 * hN l n) (p3_mul (qz l n) (sh_a n)).
Proof.
  intros l n H. rewrite Y_form. unfold hS, hT. destruct (Z.eqb_spec (Z.of_nat n) 0); [lia|]. destruct (Z.ltb_spec 0 (Z.of_nat n)); [|lia].
  rewrite Nat2Z.id. replace (Z.abs_nat (Z.of_nat n)) with n by lia. now rewrite piT_qz by lia.
Qed.
Lemma Y_neg : forall l n, (1 <= n <= l)%nat -> spherical_harmonics_poly l (- Z.of_nat n) == p3_scal (sqrt 2 * hN l n) (p3_mul (qz l n) (sh_b n)).
Proof.
  intros l n H. rewrite Y_form. unfold hS, hT. destruct (Z.eqb_spec (- Z.of_nat n) 0); [lia|]. destruct (Z.ltb_spec 0 (- Z.of_nat n)); [lia|].
  destruct (Z.ltb_spec (- Z.of_nat n) 0); [|lia]. rewrite Z.opp_involutive, Nat2Z.id. replace (Z.abs_nat (- Z.of_nat n)) with n by lia. now rewrite piT_qz by lia.
Qed.
Lemma Y_zero : forall l, spherical_harmonics_poly l 0 == p3_scal (hN l 0) (qz l 0).
Proof.
  intros l. rewrite Y_form. unfold hS, hT. cbn [Z.eqb Z.ltb Z.compare Z.abs_nat]. rewrite piT_qz by lia. rewrite Rmult_1_l. apply pscal_proper; [reflexivity|ring].
Qed.

Lemma sqrt2 : sqrt 2 * sqrt 2 = 2. Proof. apply sqrt_sqrt. lra. Qed.
Lemma sqrt2_pos : 0 < sqrt 2. Proof. apply sqrt_lt_R0. lra. Qed.
Lemma sqrt2_half : 1 / sqrt 2 = sqrt 2 / 2.
Proof. pose proof sqrt2_pos. pose proof sqrt2. apply (Rmult_eq_reg_l (sqrt 2)); [|lra]. transitivity 1; [field; lra|]. transitivity ((sqrt 2 * sqrt 2) / 2); [rewrite sqrt2; field|field]. Qed.

Lemma scal_zero : forall p, p3_scal 0 p == pzero. Proof. intros p w. rewrite lin_scal. cbn. ring. Qed.
Lemma scal_scal : forall a b p, p3_scal a (p3_scal b p) == p3_scal (a * b) p. Proof. intros a b p w. rewrite !lin_scal. ring. Qed.
Lemma scal_add : forall a p q, p3_scal a (p3_add p q) == p3_add (p3_scal a p) (p3_scal a q). Proof. intros a p q w. rewrite lin_scal, !lin_add, !lin_scal. ring. Qed.
Lemma scal_eq : forall a b p, a = b -> p3_scal a p == p3_scal b p. Proof. intros a b p ->. reflexivity. Qed.
Lemma scal_pz : forall a p, p == pzero -> p3_scal a p == pzero. Proof. intros a p E. rewrite E, scal_mul. ring. Qed.

Lemma padd_comm : forall p q, p3_add p q == p3_add q p. Proof. intros. ring. Qed.

(** Positive and negative orders with the same formula: T is a or b, the sign of m selects. *)
Lemma turnY_side : forall (T : nat -> poly3) (s : Z) l n, (s = 1 \/ s = -1)%Z -> (1 <= n <= l)%nat ->
  (forall k, (1 <= k <= l)%nat -> spherical_harmonics_poly l (s * Z.of_nat k) == p3_scal (sqrt 2 * hN l k) (p3_mul (qz l k) (T k))) ->
  (forall m, (1 <= m)%nat -> turnY (T m) == popp (p3_scal (INR m) (p3_mul p3_z (T (m - 1)%nat)))
     /\ p3_add (p3_mul p3_x (T m)) (p3_mul p3_x (T m)) == p3_add (T (S m)) (p3_mul (psub sh_r2 (p3_mul p3_z p3_z)) (T (m - 1)%nat))) ->
  turnY (spherical_harmonics_poly l (s * Z.of_nat n))
  == p3_add (p3_scal (beta l (Z.of_nat n) / 2) (spherical_harmonics_poly l (s * Z.of_nat (S n))))
       (p3_scal (- (beta l (Z.of_nat (n - 1)) / 2)) (p3_scal (sqrt 2 * hN l (n - 1)) (p3_mul (qz l (n - 1)) (T (n - 1)%nat)))).
Proof.
  intros T s l n Hs Hn HY HT. destruct (HT n ltac:(lia)) as [H1 H2]. rewrite HY, turnY_scal, (turnY_qT T l n ltac:(lia) H1 H2) by lia. rewrite scal_add, !scal_scal.
  apply padd_proper.
  - destruct (Nat.eq_dec n l) as [->|N].
    + rewrite beta_top. unfold Rdiv. rewrite Rmult_0_l, scal_zero. apply scal_pz. rewrite qz_top by lia. ring.
    + rewrite HY by lia. rewrite scal_scal. apply scal_eq. rewrite (hN_step l n) by lia. field.
  - apply scal_eq. rewrite (hN_step l (n - 1)) by lia. replace (S (n - 1)) with n by lia.
    assert (E : (INR l + INR n) * (INR l - INR n + 1) = beta l (Z.of_nat (n - 1)) * beta l (Z.of_nat (n - 1))).
    { rewrite beta_sqr by (unfold within; lia). rewrite <- INR_IZR_INZ, minus_INR by lia. cbn [INR]. ring. }
    rewrite E. field.
Qed.

Theorem turnY_Y : forall l m, within l m ->
  turnY (spherical_harmonics_poly l m) == p3_add (p3_scal (up l m) (spherical_harmonics_poly l (m + 1))) (p3_scal (- up l (m - 1)) (spherical_harmonics_poly l (m - 1))).
Proof.
  intros l m W. unfold within in W. pose proof sqrt2 as S2. pose proof sqrt2_pos as S2p. destruct (Z_lt_le_dec 0 m) as [Hm|Hm].
  - set (n := Z.to_nat m). replace m with (1 * Z.of_nat n)%Z at 1 by lia.
    rewrite (turnY_side sh_a 1 l n); [|now left|lia|intros k Hk; rewrite Z.mul_1_l; now apply Y_pos|].
    2:{ intros k Hk. split; [rewrite turnY_a; now replace (pred k) with (k - 1)%nat by lia|now apply planar_x]. }
    replace (1 * Z.of_nat (S n))%Z with (m + 1)%Z by lia. replace (Z.of_nat n) with m by lia. replace (Z.of_nat (n - 1)) with (m - 1)%Z by lia.
    assert (U : up l m = beta l m / 2) by (unfold up; destruct (Z.leb_spec 1 m); [reflexivity|lia]). rewrite U. apply padd_proper; [reflexivity|].
    destruct (Z.eq_dec m 1) as [E|E].
    + subst n. rewrite E in *. change (1 - 1)%Z with 0%Z. change (Z.to_nat 1 - 1)%nat with 0%nat. rewrite Y_zero, !scal_scal. replace (up l 0) with (beta l 0 / sqrt 2) by reflexivity.
      transitivity (p3_scal (- (beta l 0 / 2) * (sqrt 2 * hN l 0)) (qz l 0)); [apply pscal_proper; [reflexivity|rewrite a_0; ring]|]. apply scal_eq.
      replace (beta l 0 / sqrt 2) with (beta l 0 * (1 / sqrt 2)) by (field; lra). rewrite sqrt2_half. field.
    + replace (m - 1)%Z with (Z.of_nat (n - 1)) by lia. rewrite (Y_pos l (n - 1)), !scal_scal by lia. apply scal_eq. unfold up.
      destruct (Z.leb_spec 1 (Z.of_nat (n - 1))); [reflexivity|lia].
  - destruct (Z.eq_dec m 0) as [->|N].
    + change (0 + 1)%Z with 1%Z. change (0 - 1)%Z with (-1)%Z. 
      replace (up l 0) with (beta l 0 / sqrt 2) by reflexivity. replace (up l (-1)) with 0 by reflexivity. rewrite Ropp_0, scal_zero. rewrite Y_zero, turnY_scal, turnY_qz. destruct l as [|l].
      * rewrite (qz_top 0 1) by lia. change 0%Z with (Z.of_nat 0). rewrite beta_top. unfold Rdiv. rewrite Rmult_0_l, scal_zero, scal_mul. ring.
      * change 1%Z with (Z.of_nat 1). rewrite Y_pos by lia. rewrite scal_scal. rewrite (hN_step (S l) 0) by lia. change (Z.of_nat 0) with 0%Z.
        rewrite (scal_eq (beta (S l) 0 / sqrt 2 * (sqrt 2 * hN (S l) 1)) (beta (S l) 0 * hN (S l) 1)) by (field; lra). rewrite !scal_mul, (a_S 0), a_0, b_0. ring.
    + set (n := Z.to_nat (- m)). replace m with (-1 * Z.of_nat n)%Z at 1 by lia.
      rewrite (turnY_side sh_b (-1) l n); [|now right|lia|intros k Hk; replace (-1 * Z.of_nat k)%Z with (- Z.of_nat k)%Z by lia; now apply Y_neg|].
      2:{ intros k Hk. split; [rewrite turnY_b; now replace (pred k) with (k - 1)%nat by lia|now apply planar_x]. }
      replace (-1 * Z.of_nat (S n))%Z with (m - 1)%Z by lia.
      assert (U : - up l (m - 1) = beta l (Z.of_nat n) / 2).
      { unfold up. destruct (Z.leb_spec 1 (m - 1)); [lia|]. destruct (Z.eqb_spec (m - 1) 0); [lia|]. destruct (Z.eqb_spec (m - 1) (-1)); [lia|].
        rewrite <- (beta_opp l (m - 1)). replace (- (m - 1) - 1)%Z with (Z.of_nat n) by lia. ring. }
      rewrite U. set (P := p3_scal (beta l (Z.of_nat n) / 2) _). transitivity (p3_add (p3_scal (up l m) (spherical_harmonics_poly l (m + 1))) P); [|reflexivity].
      rewrite (padd_comm P). apply padd_proper; [|reflexivity].
      destruct (Z.eq_dec m (-1)) as [E|E].
      * subst n. rewrite E. change (Z.to_nat (- -1) - 1)%nat with 0%nat. replace (up l (-1)) with 0 by reflexivity. rewrite scal_zero, b_0, scal_scal. apply scal_pz. ring.
      * replace (m + 1)%Z with (- Z.of_nat (n - 1))%Z by lia. rewrite (Y_neg l (n - 1)), !scal_scal by lia. apply scal_eq. f_equal. unfold up.
        destruct (Z.leb_spec 1 m); [lia|]. destruct (Z.eqb_spec m 0); [lia|]. destruct (Z.eqb_spec m (-1)); [lia|].
        rewrite <- (beta_opp l m). replace (- m - 1)%Z with (Z.of_nat (n - 1)) by lia. reflexivity.
Qed.

Theorem turnZ_Y : forall l m, within l m -> turnZ (spherical_harmonics_poly l m) == p3_scal (- IZR m) (spherical_harmonics_poly l (- m)).
Proof.
  intros l m W. unfold within in W. destruct (Z_lt_le_dec 0 m) as [Hm|Hm].
  - set (n := Z.to_nat m). replace m with (Z.of_nat n) by lia. rewrite Y_pos, Y_neg by lia.
    rewrite turnZ_scal, turnZ_mul, turnZ_qz, turnZ_a, scal_scal, <- INR_IZR_INZ. rewrite (Rmult_comm (- INR n)), <- (scal_scal (sqrt 2 * hN l n) (- INR n)). apply pscal_proper; [reflexivity|].
    intros w. rewrite lin_scal. rewrite (lin_proper w _ (popp (p3_scal (INR n) (p3_mul (qz l n) (sh_b n))))) by (rewrite !scal_mul; ring).
    unfold popp. rewrite !lin_scal. ring.
  - destruct (Z.eq_dec m 0) as [->|N].
    + change (- 0)%Z with 0%Z. rewrite Ropp_0, scal_zero, Y_zero, turnZ_scal, turnZ_qz, scal_mul. ring.
    + set (n := Z.to_nat (- m)). replace m with (- Z.of_nat n)%Z by lia. rewrite Z.opp_involutive, Y_pos, Y_neg by lia.
      rewrite turnZ_scal, turnZ_mul, turnZ_qz, turnZ_b, scal_scal, opp_IZR, Ropp_involutive, <- INR_IZR_INZ. rewrite (Rmult_comm (INR n)), <- (scal_scal (sqrt 2 * hN l n) (INR n)). apply pscal_proper; [reflexivity|].
      rewrite !scal_mul. ring.
Qed.
