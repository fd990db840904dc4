Require Import List Reals Lra Lia Bool Psatz.
Require Import Verif.Base Verif.Radial_Model Verif.Radial_Proofs Verif.Rotations_Model Verif.Rotations_Spec
  Verif.Rotations_Proofs Verif.Rotations_More_Proofs Verif.Rotations_Euler_Proofs.
Import ListNotations.
Open Scope R_scope.

(** A quaternion that is not normalised: how far the matrix is from a rotation. *)
Definition defect (q : R * R * R * R) : R := let '(r, i, j, k) := q in 1 - (r * r + i * i + j * j + k * k).

Lemma quaternion_gram : forall r i j k p q, (p < 3)%nat -> (q < 3)%nat ->
  exists t, Rabs t <= i * i + j * j + k * k /\
  dot (row (quaternion_matrix (r, i, j, k)) p) (row (quaternion_matrix (r, i, j, k)) q) =
  (if Nat.eqb p q then 1 else 0) + 4 * defect (r, i, j, k) * t.
Proof.
  intros r i j k p q Hp Hq.
  assert (Bnd : forall a b c, Rabs (a * b) <= a * a + b * b + c * c).
  { intros a b c. pose proof (Rle_0_sqr (a - b)) as Q1; pose proof (Rle_0_sqr (a + b)) as Q2; unfold Rsqr in *.
    assert (0 <= c * c) by nra. apply Rabs_both; nra. }
  assert (Sq : forall a b c, Rabs (- (a * a + b * b)) <= c * c + a * a + b * b).
  { intros a b c. apply Rabs_both; nra. }
  destruct p as [|[|[|p]]]; try lia; destruct q as [|[|[|q]]]; try lia.
  - exists (- (j * j + k * k)); split; [pose proof (Sq j k i); lra|].
    unfold quaternion_matrix, stack_last, defect; cbv zeta; cbn [row dot Nat.eqb]; ring.
  - exists (i * j); split; [apply Bnd|].
    unfold quaternion_matrix, stack_last, defect; cbv zeta; cbn [row dot Nat.eqb]; ring.
  - exists (i * k); split; [pose proof (Bnd i k j); lra|].
    unfold quaternion_matrix, stack_last, defect; cbv zeta; cbn [row dot Nat.eqb]; ring.
  - exists (i * j); split; [apply Bnd|].
    unfold quaternion_matrix, stack_last, defect; cbv zeta; cbn [row dot Nat.eqb]; ring.
  - exists (- (i * i + k * k)); split; [pose proof (Sq i k j); lra|].
    unfold quaternion_matrix, stack_last, defect; cbv zeta; cbn [row dot Nat.eqb]; ring.
  - exists (j * k); split; [pose proof (Bnd j k i); lra|].
    unfold quaternion_matrix, stack_last, defect; cbv zeta; cbn [row dot Nat.eqb]; ring.
  - exists (i * k); split; [pose proof (Bnd i k j); lra|].
    unfold quaternion_matrix, stack_last, defect; cbv zeta; cbn [row dot Nat.eqb]; ring.
  - exists (j * k); split; [pose proof (Bnd j k i); lra|].
    unfold quaternion_matrix, stack_last, defect; cbv zeta; cbn [row dot Nat.eqb]; ring.
  - exists (- (i * i + j * j)); split; [pose proof (Sq i j k); lra|].
    unfold quaternion_matrix, stack_last, defect; cbv zeta; cbn [row dot Nat.eqb]; ring.
Qed.

Lemma quaternion_det : forall r i j k,
  let m := quaternion_matrix (r, i, j, k) in
  dot (outer (row m 0) (row m 1)) (row m 2) = 1 - 4 * defect (r, i, j, k) * (i * i + j * j + k * k).
Proof.
  intros; unfold m, quaternion_matrix, stack_last, defect; cbv zeta; cbn [row dot outer]; ring.
Qed.

(** The near-identity branch. *)
Lemma slerp_near : forall p r i j k, 0 <= p <= 1 ->
  r * r + i * i + j * j + k * k = 1 -> 0 <= r <= 1 -> Rabs (sin (acos r)) < / 10 ^ 9 ->
  let q := (1 - p + p * r, p * i, p * j, p * k) in
  Rabs (defect q) <= / 2 * / 10 ^ 18 /\
  p * i * (p * i) + p * j * (p * j) + p * k * (p * k) <= p * p * / 10 ^ 18 /\
  2 * (1 - p + p * r) * (1 - p + p * r) - 1 >= 1 - 4 * p * / 10 ^ 18.
Proof.
  intros p r i j k Hp N B M q.
  assert (C : cos (acos r) = r) by (apply cos_acos; lra).
  pose proof (sc1 (acos r)) as S. rewrite C in S.
  set (s := sin (acos r)) in *.
  assert (e0 : 0 < / 10 ^ 9) by (apply Rinv_0_lt_compat, pow_lt; lra).
  assert (E9 : / 10 ^ 9 * / 10 ^ 9 = / 10 ^ 18).
  { rewrite <- Rinv_mult, <- pow_add. reflexivity. }
  assert (S2 : s * s <= / 10 ^ 18).
  { rewrite <- E9. assert (- / 10 ^ 9 < s < / 10 ^ 9) by (unfold Rabs in M; destruct (Rcase_abs s); lra). nra. }
  set (e := / 10 ^ 18) in *.
  assert (R1 : 1 - r <= e) by nra.
  assert (V : i * i + j * j + k * k = s * s) by lra.
  assert (PP : 0 <= p * (1 - p) <= / 4).
  { split; [nra|]. pose proof (Rle_0_sqr (p - / 2)) as Q; unfold Rsqr in Q. lra. }
  repeat split.
  - unfold q, defect.
    replace (1 - ((1 - p + p * r) * (1 - p + p * r) + p * i * (p * i) + p * j * (p * j) + p * k * (p * k)))
      with (2 * (p * (1 - p)) * (1 - r) + p * p * (1 - (r * r + i * i + j * j + k * k))) by ring.
    rewrite N. replace (2 * (p * (1 - p)) * (1 - r) + p * p * (1 - 1)) with (2 * (p * (1 - p)) * (1 - r)) by ring.
    rewrite Rabs_right; nra.
  - replace (p * i * (p * i) + p * j * (p * j) + p * k * (p * k)) with (p * p * (i * i + j * j + k * k)) by ring.
    rewrite V. assert (0 <= p * p) by nra. apply Rmult_le_compat_l; assumption.
  - set (t := p * (1 - r)). replace (1 - p + p * r) with (1 - t) by (unfold t; ring).
    assert (0 <= t <= p * e) by (unfold t; nra). nra.
Qed.

Lemma sin_quarter_bound : forall x, 0 <= x <= PI / 2 -> x / 4 <= sin x.
Proof.
  intros x H. pose proof PI_4 as P4. pose proof PI_RGT_0 as P0.
  destruct (Rle_or_lt x (PI / 3)) as [X|X].
  - destruct (Req_dec x 0) as [->|N]; [rewrite sin_0; lra|].
    destruct (MVT_cor2 sin cos 0 x) as (c & E & B); [lra | intros; apply derivable_pt_lim_sin |].
    rewrite sin_0 in E.
    assert (/ 2 <= cos c).
    { rewrite <- (Rmult_1_l (/ 2)). fold (1 / 2). rewrite <- cos_PI3. left. apply cos_decreasing_1; lra. }
    nra.
  - assert (/ 2 <= sin x).
    { rewrite <- (Rmult_1_l (/ 2)). fold (1 / 2). rewrite <- sin_PI6. left. apply sin_increasing_1; lra. }
    lra.
Qed.

Lemma cos_below : forall p, 0 <= p <= 1 -> cos (p * PI) <= 1 - p * p / 4.
Proof.
  intros p H. pose proof PI_RGT_0 as P0. assert (3 <= PI).
  { pose proof PI2_3_2. unfold PI2 in *. lra. }
  replace (p * PI) with (2 * (p * PI / 2)) by field. rewrite cos_2a_sin.
  pose proof (sin_quarter_bound (p * PI / 2) ltac:(nra)) as S.
  assert (3 / 8 * p <= sin (p * PI / 2)) by nra. nra.
Qed.
