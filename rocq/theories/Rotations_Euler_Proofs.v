Require Import List Reals Lra Lia Bool Psatz Ratan.
Require Import Verif.Base Verif.Radial_Model Verif.Radial_Proofs Verif.Rotations_Model Verif.Rotations_Spec
  Verif.Rotations_Proofs Verif.Rotations_More_Proofs.
Import ListNotations.
Open Scope R_scope.

(** * atan2 *)
Lemma atan_parts : forall t, 0 < sqrt (1 + t * t) /\ cos (atan t) = / sqrt (1 + t * t) /\ sin (atan t) = t / sqrt (1 + t * t).
Proof.
  intros t. assert (0 < sqrt (1 + t * t)) by (apply sqrt_lt_R0; nra).
  split; [assumption|]. rewrite cos_atan, sin_atan. unfold Rsqr. split; [field; lra | reflexivity].
Qed.

Lemma scaled_root : forall x y, 0 < x -> x * sqrt (1 + y / x * (y / x)) = sqrt (x * x + y * y).
Proof.
  intros x y H. rewrite <- (sqrt_square x) at 1 by lra. rewrite <- sqrt_mult; [|nra|].
  - f_equal. field; lra.
  - pose proof (Rle_0_sqr (y / x)) as Q; unfold Rsqr in Q; lra.
Qed.

Lemma atan2_spec : forall y x, 0 < x * x + y * y ->
  sqrt (x * x + y * y) * cos (atan2 y x) = x /\ sqrt (x * x + y * y) * sin (atan2 y x) = y.
Proof.
  intros y x H. unfold atan2, Rltb.
  destruct (Rlt_dec 0 x) as [P|P].
  - destruct (atan_parts (y / x)) as (S & C & N). rewrite C, N, <- scaled_root by assumption.
    split; field; lra.
  - destruct (Rlt_dec x 0) as [Q|Q].
    + destruct (atan_parts (y / x)) as (S & C & N).
      assert (E : sqrt (x * x + y * y) = - x * sqrt (1 + y / x * (y / x))).
      { replace (y / x * (y / x)) with (y / - x * (y / - x)) by (field; lra).
        rewrite scaled_root by lra. f_equal. ring. }
      rewrite E. destruct (Rlt_dec y 0).
      * unfold Rminus. rewrite cos_plus, sin_plus, cos_neg, sin_neg, cos_PI, sin_PI, C, N. split; field; lra.
      * rewrite neg_cos, neg_sin, C, N. split; field; lra.
    + assert (x = 0) as -> by lra.
      replace (0 * 0 + y * y) with (y * y) by ring.
      destruct (Rlt_dec 0 y).
      * rewrite sqrt_square, cos_PI2, sin_PI2 by lra. split; ring.
      * destruct (Rlt_dec y 0); [|nra].
        replace (- PI / 2) with (- (PI / 2)) by field.
        rewrite cos_neg, sin_neg, cos_PI2, sin_PI2.
        replace (y * y) with (- y * - y) by ring. rewrite sqrt_square by lra. split; ring.
Qed.

Lemma atan2_range : forall y x, - PI <= atan2 y x <= PI.
Proof.
  intros y x; unfold atan2, Rltb. pose proof PI_RGT_0.
  destruct (Rlt_dec 0 x); [pose proof (atan_bound (y / x)); lra|].
  destruct (Rlt_dec x 0).
  - destruct (Rlt_dec y 0).
    + assert (0 < y / x).
      { replace (y / x) with (- y / - x) by (field; lra). apply Rdiv_lt_0_compat; lra. }
      pose proof (atan_bound (y / x)). pose proof (atan_increasing 0 (y / x) ltac:(assumption)) as M.
      rewrite atan_0 in M. lra.
    + assert (y / x <= 0).
      { replace (y / x) with (- (y / - x)) by (field; lra).
        assert (0 <= y / - x); [|lra]. apply Rmult_le_pos; [lra|]. left; apply Rinv_0_lt_compat; lra. }
      pose proof (atan_bound (y / x)).
      assert (atan (y / x) <= 0).
      { destruct (Req_dec (y / x) 0) as [->|]; [rewrite atan_0; lra|].
        left. rewrite <- atan_0. apply atan_increasing; lra. }
      lra.
  - destruct (Rlt_dec 0 y); [lra|]. destruct (Rlt_dec y 0); lra.
Qed.

(** * Proper rotations as nine numbers *)
Lemma unit_close : forall w r, dot w w = 1 -> dot r r = 1 -> dot w r = 1 -> w = r.
Proof.
  intros [[a b] c] [[x y] z] W R D; cbn [dot] in *.
  assert (forall t, t * t = 0 -> t = 0) as Z by (intros t Ht; destruct (Rmult_integral _ _ Ht); assumption).
  assert (S : (a - x) * (a - x) + (b - y) * (b - y) + (c - z) * (c - z) = 0) by nra.
  pose proof (Rle_0_sqr (a - x)) ; unfold Rsqr in *. pose proof (Rle_0_sqr (b - y)) ; unfold Rsqr in *. pose proof (Rle_0_sqr (c - z)) ; unfold Rsqr in *.
  assert (a - x = 0) by (apply Z; lra). assert (b - y = 0) by (apply Z; lra). assert (c - z = 0) by (apply Z; lra).
  apply triple_eq; lra.
Qed.

Lemma outer_unit : forall u v, dot u u = 1 -> dot v v = 1 -> dot u v = 0 -> dot (outer u v) (outer u v) = 1.
Proof.
  intros [[a b] c] [[x y] z] U V D; cbn [dot outer] in *.
  transitivity ((a * a + b * b + c * c) * (x * x + y * y + z * z) - (a * x + b * y + c * z) * (a * x + b * y + c * z)); [ring|].
  rewrite U, V, D; ring.
Qed.

Lemma proper_cofactors : forall r1 r2 r3, proper_rotation (r1, r2, r3) ->
  outer r1 r2 = r3 /\ outer r2 r3 = r1 /\ outer r3 r1 = r2.
Proof.
  intros r1 r2 r3 [O D].
  pose proof (O 0 0 ltac:(lia) ltac:(lia))%nat as O00. pose proof (O 1 1 ltac:(lia) ltac:(lia))%nat as O11.
  pose proof (O 2 2 ltac:(lia) ltac:(lia))%nat as O22. pose proof (O 0 1 ltac:(lia) ltac:(lia))%nat as O01.
  pose proof (O 1 2 ltac:(lia) ltac:(lia))%nat as O12. pose proof (O 2 0 ltac:(lia) ltac:(lia))%nat as O20.
  cbn [row Nat.eqb] in *.
  assert (C1 : dot (outer r2 r3) r1 = 1).
  { rewrite <- D. destruct r1 as [[? ?] ?], r2 as [[? ?] ?], r3 as [[? ?] ?]; cbn [dot outer]; ring. }
  assert (C2 : dot (outer r3 r1) r2 = 1).
  { rewrite <- D. destruct r1 as [[? ?] ?], r2 as [[? ?] ?], r3 as [[? ?] ?]; cbn [dot outer]; ring. }
  repeat split; apply unit_close; try assumption; apply outer_unit; assumption.
Qed.

Definition transpose3 (m : mat) : mat :=
  let '(r1, r2, r3) := m in stack_last r1 r2 r3.

Lemma proper_transpose : forall m, proper_rotation m -> proper_rotation (transpose3 m).
Proof.
  intros [[r1 r2] r3] P. destruct (proper_cofactors _ _ _ P) as (A & B & C). destruct P as [O D]. cbn [row] in D.
  destruct r1 as [[a b] c], r2 as [[d e] f], r3 as [[g h] i]. cbn [outer dot] in *.
  injection A as A1 A2 A3. injection B as B1 B2 B3. injection C as C1 C2 C3.
  assert (K : forall x y z, x * y + 0 * z = x * y) by (intros; ring).
  split.
  - intros p q Hp Hq. unfold transpose3, stack_last.
    destruct p as [|[|[|p]]]; try lia; destruct q as [|[|[|q]]]; try lia; cbn [row dot Nat.eqb].
    + transitivity (a * (e * i - f * h) + d * (h * c - i * b) + g * (b * f - c * e)); [congruence | rewrite <- D; ring].
    + transitivity (a * (f * g - d * i) + d * (i * a - g * c) + g * (c * d - a * f)); [congruence | ring].
    + transitivity (a * (d * h - e * g) + d * (g * b - h * a) + g * (a * e - b * d)); [congruence | ring].
    + transitivity (b * (e * i - f * h) + e * (h * c - i * b) + h * (b * f - c * e)); [congruence | ring].
    + transitivity (b * (f * g - d * i) + e * (i * a - g * c) + h * (c * d - a * f)); [congruence | rewrite <- D; ring].
    + transitivity (b * (d * h - e * g) + e * (g * b - h * a) + h * (a * e - b * d)); [congruence | ring].
    + transitivity (c * (e * i - f * h) + f * (h * c - i * b) + i * (b * f - c * e)); [congruence | ring].
    + transitivity (c * (f * g - d * i) + f * (i * a - g * c) + i * (c * d - a * f)); [congruence | ring].
    + transitivity (c * (d * h - e * g) + f * (g * b - h * a) + i * (a * e - b * d)); [congruence | rewrite <- D; ring].
  - unfold transpose3, stack_last. cbn [row dot outer]. rewrite <- D. ring.
Qed.

Lemma proper_nine : forall a b c d e f g h i, proper_rotation ((a, b, c), (d, e, f), (g, h, i)) ->
  (a*a+b*b+c*c = 1 /\ d*d+e*e+f*f = 1 /\ g*g+h*h+i*i = 1 /\ a*d+b*e+c*f = 0 /\ a*g+b*h+c*i = 0 /\ d*g+e*h+f*i = 0) /\
  (a*a+d*d+g*g = 1 /\ b*b+e*e+h*h = 1 /\ c*c+f*f+i*i = 1 /\ a*b+d*e+g*h = 0 /\ a*c+d*f+g*i = 0 /\ b*c+e*f+h*i = 0) /\
  (a = e*i-f*h /\ b = f*g-d*i /\ c = d*h-e*g /\ d = h*c-i*b /\ e = i*a-g*c /\ f = g*b-h*a /\ g = b*f-c*e /\ h = c*d-a*f /\ i = a*e-b*d).
Proof.
  intros a b c d e f g h i P. pose proof (proper_transpose _ P) as [T _].
  destruct (proper_cofactors _ _ _ P) as (A & B & C). destruct P as [O _].
  pose proof (O 0 0 ltac:(lia) ltac:(lia))%nat. pose proof (O 1 1 ltac:(lia) ltac:(lia))%nat.
  pose proof (O 2 2 ltac:(lia) ltac:(lia))%nat. pose proof (O 0 1 ltac:(lia) ltac:(lia))%nat.
  pose proof (O 1 2 ltac:(lia) ltac:(lia))%nat. pose proof (O 0 2 ltac:(lia) ltac:(lia))%nat.
  pose proof (T 0 0 ltac:(lia) ltac:(lia))%nat. pose proof (T 1 1 ltac:(lia) ltac:(lia))%nat.
  pose proof (T 2 2 ltac:(lia) ltac:(lia))%nat. pose proof (T 0 1 ltac:(lia) ltac:(lia))%nat.
  pose proof (T 1 2 ltac:(lia) ltac:(lia))%nat. pose proof (T 0 2 ltac:(lia) ltac:(lia))%nat.
  unfold transpose3, stack_last in *. cbn [row dot outer Nat.eqb] in *.
  injection A as A1 A2 A3. injection B as B1 B2 B3. injection C as C1 C2 C3.
  repeat split; symmetry; assumption || (symmetry; assumption).
Qed.

(** * Euler angles *)
Lemma euler_turned : forall a b c v,
  act v (rotation_euler a b c) = turned e3 c (turned e2 b (turned e1 a v)).
Proof.
  intros a b c [[x y] z]. unfold rotation_euler, turned, e1, e2, e3, stack_last, act.
  cbv zeta. cbn [times plus outer dot].
  apply triple_eq; ring.
Qed.

Lemma euler_proper : forall a b c, proper_rotation (rotation_euler a b c).
Proof.
  intros a b c; apply proper_intro.
  - intros u v; rewrite !euler_turned, !turned_dot; try reflexivity; unfold e1, e2, e3; cbn [dot]; ring.
  - rewrite !euler_turned, !turned_outer by (unfold e1, e2, e3; cbn [dot]; ring). do 3 f_equal.
    unfold e1, e2, e3; cbn [outer]; apply triple_eq; ring.
Qed.

Lemma euler_inverse_normal : forall epsneg m, 0 < epsneg < 1 -> proper_rotation m ->
  Rabs (entry m 0 2) <= 1 - epsneg ->
  let '(a, b, c) := euler_angles_of epsneg m in
  rotation_euler a b c = m /\ - PI <= a <= PI /\ - (PI / 2) < b < PI / 2 /\ - PI <= c <= PI.
Proof.
  intros eps m He P H. destruct m as [[[[r00 r01] r02] [[r10 r11] r12]] [[r20 r21] r22]].
  unfold entry in H; cbn [row coord] in H.
  pose proof (proper_nine _ _ _ _ _ _ _ _ _ P) as ((A1 & A2 & A3 & A4 & A5 & A6) & (B1 & B2 & B3 & B4 & B5 & B6) & (C1 & C2 & C3 & C4 & C5 & C6 & C7 & C8 & C9)).
  assert (H' : - (1 - eps) <= r02 <= 1 - eps) by (unfold Rabs in H; destruct (Rcase_abs r02); lra).
  unfold euler_angles_of. cbv zeta.
  assert (Rltb (1 - eps) r02 = false) as -> by (unfold Rltb; destruct (Rlt_dec (1 - eps) r02); [lra | reflexivity]).
  assert (Rltb r02 (- (1 - eps)) = false) as -> by (unfold Rltb; destruct (Rlt_dec r02 (- (1 - eps))); [lra | reflexivity]).
  cbn [orb].
  assert (SB : sin (- asin r02) = - r02) by (rewrite sin_neg, sin_asin by lra; reflexivity).
  assert (CB : cos (- asin r02) = sqrt (1 - r02 * r02)) by (rewrite cos_neg, cos_asin by lra; unfold Rsqr; reflexivity).
  pose proof (asin_bound_lt r02 ltac:(lra)) as BB.
  set (b := - asin r02) in *.
  set (s := sqrt (1 - r02 * r02)) in *.
  assert (S0 : 0 < s) by (apply sqrt_lt_R0; nra).
  assert (SS : s * s = 1 - r02 * r02) by (apply sqrt_sqrt; nra).
  rewrite CB.
  assert (Reqb s 0 = false) as -> by (unfold Reqb; destruct (Req_EM_T s 0); [lra | reflexivity]).
  assert (G : forall y x, x * x + y * y = s * s -> cos (atan2 (y / s) (x / s)) = x / s /\ sin (atan2 (y / s) (x / s)) = y / s).
  { intros y x E. assert (E1 : x / s * (x / s) + y / s * (y / s) = 1).
    { transitivity ((x * x + y * y) / (s * s)); [field; lra|]. rewrite E; field; lra. }
    pose proof (atan2_spec (y / s) (x / s)) as Q. rewrite E1, sqrt_1 in Q. destruct Q as [Q1 Q2]; [lra|].
    split; lra. }
  destruct (G r12 r22) as [CA SA]; [lra|]. destruct (G r01 r00) as [CC SC]; [lra|].
  set (a := atan2 (r12 / s) (r22 / s)) in *. set (c := atan2 (r01 / s) (r00 / s)) in *.
  split; [|split; [apply atan2_range | split; [unfold b; lra | apply atan2_range]]].
  unfold rotation_euler. cbv zeta. rewrite SB, CB, CA, SA, CC, SC. fold s. unfold stack_last.
  apply triple_eq'; apply triple_eq; try (field; lra).
  - transitivity ((- r12 * r02 * r00 - r22 * r01) / (s * s)); [field; lra|].
    assert (- r12 * r02 * r00 - r22 * r01 = r10 * (s * s)) as ->; [|field; lra].
    rewrite SS. replace (- r12 * r02 * r00) with (r00 * (r10 * r00 + r11 * r01)) by (replace (- r12 * r02) with (r10 * r00 + r11 * r01) by lra; ring).
    rewrite C9. replace (1 - r02 * r02) with (r00 * r00 + r01 * r01) by lra. ring.
  - transitivity ((- r12 * r02 * r01 + r22 * r00) / (s * s)); [field; lra|].
    assert (- r12 * r02 * r01 + r22 * r00 = r11 * (s * s)) as ->; [|field; lra].
    rewrite SS. replace (- r12 * r02 * r01) with (r01 * (r10 * r00 + r11 * r01)) by (replace (- r12 * r02) with (r10 * r00 + r11 * r01) by lra; ring).
    rewrite C9. replace (1 - r02 * r02) with (r00 * r00 + r01 * r01) by lra. ring.
  - transitivity ((- r22 * r02 * r00 + r12 * r01) / (s * s)); [field; lra|].
    assert (- r22 * r02 * r00 + r12 * r01 = r20 * (s * s)) as ->; [|field; lra].
    rewrite SS. replace (- r22 * r02 * r00) with (r00 * (r20 * r00 + r21 * r01)) by (replace (- r22 * r02) with (r20 * r00 + r21 * r01) by lra; ring).
    rewrite C6. replace (1 - r02 * r02) with (r00 * r00 + r01 * r01) by lra. ring.
  - transitivity ((- r22 * r02 * r01 - r12 * r00) / (s * s)); [field; lra|].
    assert (- r22 * r02 * r01 - r12 * r00 = r21 * (s * s)) as ->; [|field; lra].
    rewrite SS. replace (- r22 * r02 * r01) with (r01 * (r20 * r00 + r21 * r01)) by (replace (- r22 * r02) with (r20 * r00 + r21 * r01) by lra; ring).
    rewrite C6. replace (1 - r02 * r02) with (r00 * r00 + r01 * r01) by lra. ring.
Qed.

Definition gimbal_error (d : R) : R := sqrt (2 * d) + 5 * d.

Lemma sq_le_root : forall x q, 0 <= q -> x * x <= q -> Rabs x <= sqrt q.
Proof.
  intros x q Hq H. rewrite <- sqrt_Rsqr_abs. apply sqrt_le_1_alt. exact H.
Qed.

Lemma Rabs_both : forall x y, - y <= x -> x <= y -> Rabs x <= y.
Proof. intros x y H1 H2; unfold Rabs; destruct (Rcase_abs x); lra. Qed.

(** Shared estimates: [sa], [ca] on the unit circle, [rho] the length of the projected vector. *)
Lemma gimbal_core : forall d r02 r00 rxx rho t ca sa : R,
  0 <= d < / 2 -> r02 = 1 - d ->
  r00 * r00 <= 2 * d -> rxx * rxx <= 2 * d -> rho * rho = 1 - r00 * r00 -> 0 < rho ->
  ca * ca + sa * sa = 1 -> t = rho * ca * r02 + r00 * rxx ->
  Rabs (rho * ca - ca) <= 2 * d /\ Rabs (t - ca) <= 5 * d.
Proof.
  intros d r02 r00 rxx rho t ca sa Hd E2 H0 Hx Hr Hp Hc Et.
  assert (R1 : rho <= 1) by nra.
  assert (R2 : 1 - rho <= 2 * d) by nra.
  assert (Ca : Rabs ca <= 1).
  { apply Rabs_both; nra. }
  assert (F : Rabs (rho * ca - ca) <= 2 * d).
  { replace (rho * ca - ca) with (- ((1 - rho) * ca)) by ring. rewrite Rabs_Ropp, Rabs_mult, (Rabs_right (1 - rho)) by lra.
    pose proof (Rabs_pos ca). nra. }
  split; [exact F|].
  assert (X : Rabs (r00 * rxx) <= 2 * d).
  { pose proof (Rle_0_sqr (r00 - rxx)) as Q1; pose proof (Rle_0_sqr (r00 + rxx)) as Q2. unfold Rsqr in *.
    apply Rabs_both; nra. }
  assert (Y : Rabs (d * (rho * ca)) <= d).
  { rewrite Rabs_mult, (Rabs_right d) by lra. assert (Rabs (rho * ca) <= 1); [|nra].
    rewrite Rabs_mult, (Rabs_right rho) by lra. pose proof (Rabs_pos ca). nra. }
  subst t. rewrite E2.
  replace (rho * ca * (1 - d) + r00 * rxx - ca) with ((rho * ca - ca) + (- (d * (rho * ca)) + r00 * rxx)) by ring.
  eapply Rle_trans; [apply Rabs_triang|]. pose proof (Rabs_triang (- (d * (rho * ca))) (r00 * rxx)) as T.
  rewrite Rabs_Ropp in T. lra.
Qed.

Lemma entry_cases : forall (P : nat -> nat -> Prop),
  (P 0 0 -> P 0 1 -> P 0 2 -> P 1 0 -> P 1 1 -> P 1 2 -> P 2 0 -> P 2 1 -> P 2 2 ->
  forall i j, (i < 3)%nat -> (j < 3) -> P i j)%nat.
Proof. intros P; intros; destruct i as [|[|[|i]]]; try lia; destruct j as [|[|[|j]]]; try lia; assumption. Qed.

Lemma euler_inverse_gimbal : forall epsneg m, 0 < epsneg < / 2 -> proper_rotation m ->
  1 - epsneg < Rabs (entry m 0 2) ->
  let '(a, b, c) := euler_angles_of epsneg m in
  forall i j, (i < 3)%nat -> (j < 3)%nat ->
    Rabs (entry (rotation_euler a b c) i j - entry m i j) <= gimbal_error (1 - Rabs (entry m 0 2)).
Proof.
  intros eps m He P H. destruct m as [[[[r00 r01] r02] [[r10 r11] r12]] [[r20 r21] r22]].
  unfold entry in H |- * at 2; cbn [row coord] in H |- *.
  pose proof (proper_nine _ _ _ _ _ _ _ _ _ P) as ((A1 & A2 & A3 & A4 & A5 & A6) & (B1 & B2 & B3 & B4 & B5 & B6) & (C1 & C2 & C3 & C4 & C5 & C6 & C7 & C8 & C9)).
  assert (U : r02 * r02 <= 1) by nra.
  assert (Rb : Rabs r02 <= 1).
  { apply Rabs_both; nra. }
  set (d := 1 - Rabs r02). assert (Hd : 0 <= d < / 2) by (unfold d; lra).
  assert (D2 : 1 - r02 * r02 <= 2 * d).
  { unfold d. replace (r02 * r02) with (Rabs r02 * Rabs r02) by (rewrite <- Rabs_mult; apply Rabs_right; nra). nra. }
  assert (Q00 : r00 * r00 <= 2 * d) by nra. assert (Q01 : r01 * r01 <= 2 * d) by nra.
  assert (Q12 : r12 * r12 <= 2 * d) by nra. assert (Q22 : r22 * r22 <= 2 * d) by nra.
  assert (K0 : 0 <= sqrt (2 * d)) by apply sqrt_pos.
  assert (K00 : Rabs r00 <= sqrt (2 * d)) by (apply sq_le_root; lra).
  assert (K01 : Rabs r01 <= sqrt (2 * d)) by (apply sq_le_root; lra).
  assert (K12 : Rabs r12 <= sqrt (2 * d)) by (apply sq_le_root; lra).
  assert (K22 : Rabs r22 <= sqrt (2 * d)) by (apply sq_le_root; lra).
  set (rho := sqrt (r20 * r20 + r10 * r10)).
  assert (RR : rho * rho = 1 - r00 * r00) by (unfold rho; rewrite sqrt_sqrt; lra).
  assert (RP : 0 < rho) by (apply sqrt_lt_R0; lra).
  unfold gimbal_error.
  unfold euler_angles_of. cbv zeta.
  destruct (Rle_or_lt 0 r02) as [S|S].
  - assert (Rabs r02 = r02) as AB by (apply Rabs_right; lra).
    assert (Rltb (1 - eps) r02 = true) as -> by (unfold Rltb; destruct (Rlt_dec (1 - eps) r02); [reflexivity | lra]).
    assert (Rltb r02 (- (1 - eps)) = false) as -> by (unfold Rltb; destruct (Rlt_dec r02 (- (1 - eps))); [lra | reflexivity]).
    cbn [orb].
    destruct (atan2_spec (- r10) (- r20)) as [CA SA]; [nra|].
    replace (- r20 * - r20 + - r10 * - r10) with (r20 * r20 + r10 * r10) in CA, SA by ring. fold rho in CA, SA.
    set (a := atan2 (- r10) (- r20)) in *.
    pose proof (sc1 a) as S1. set (ca := cos a) in *. set (sa := sin a) in *.
    assert (E2 : r02 = 1 - d) by (unfold d; lra).
    destruct (gimbal_core d r02 r00 r22 rho r11 ca sa) as [G1 G2]; try assumption; [lra | rewrite C5, CA; ring|].
    destruct (gimbal_core d r02 r00 r12 rho (- r21) sa ca) as [G3 G4]; try assumption; [rewrite C8, SA; ring|].
    unfold rotation_euler. cbv zeta. replace (- PI / 2) with (- (PI / 2)) by field.
    rewrite sin_neg, cos_neg, sin_PI2, cos_PI2, sin_0, cos_0. fold ca sa. unfold stack_last.
    apply entry_cases; unfold entry; cbn [row coord]; fold d.
    + replace (0 * 1 - r00) with (- r00) by ring. rewrite Rabs_Ropp. lra.
    + replace (0 * 0 - r01) with (- r01) by ring. rewrite Rabs_Ropp. lra.
    + replace (- - (1) - r02) with d by lra. rewrite Rabs_right; lra.
    + replace (sa * - (1) * 1 - ca * 0 - r10) with (rho * sa - sa) by lra. lra.
    + replace (sa * - (1) * 0 + ca * 1 - r11) with (- (r11 - ca)) by ring. rewrite Rabs_Ropp. lra.
    + replace (sa * 0 - r12) with (- r12) by ring. rewrite Rabs_Ropp. lra.
    + replace (ca * - (1) * 1 + sa * 0 - r20) with (rho * ca - ca) by lra. lra.
    + replace (ca * - (1) * 0 - sa * 1 - r21) with (- r21 - sa) by ring. lra.
    + replace (ca * 0 - r22) with (- r22) by ring. rewrite Rabs_Ropp. lra.
  - assert (Rabs r02 = - r02) as AB by (apply Rabs_left; lra).
    assert (Rltb (1 - eps) r02 = false) as -> by (unfold Rltb; destruct (Rlt_dec (1 - eps) r02); [lra | reflexivity]).
    assert (Rltb r02 (- (1 - eps)) = true) as -> by (unfold Rltb; destruct (Rlt_dec r02 (- (1 - eps))); [reflexivity | lra]).
    cbn [orb].
    destruct (atan2_spec r10 r20) as [CA SA]; [nra|]. fold rho in CA, SA.
    set (a := atan2 r10 r20) in *.
    pose proof (sc1 a) as S1. set (ca := cos a) in *. set (sa := sin a) in *.
    assert (E2 : - r02 = 1 - d) by (unfold d; lra).
    destruct (gimbal_core d (- r02) r00 r22 rho r11 ca sa) as [G1 G2]; try assumption; [lra | rewrite C5, CA; ring|].
    destruct (gimbal_core d (- r02) r00 r12 rho (- r21) sa ca) as [G3 G4]; try assumption; [rewrite C8, SA; ring|].
    unfold rotation_euler. cbv zeta.
    rewrite sin_PI2, cos_PI2, sin_0, cos_0. fold ca sa. unfold stack_last.
    apply entry_cases; unfold entry; cbn [row coord]; fold d.
    + replace (0 * 1 - r00) with (- r00) by ring. rewrite Rabs_Ropp. lra.
    + replace (0 * 0 - r01) with (- r01) by ring. rewrite Rabs_Ropp. lra.
    + replace (- (1) - r02) with (- d) by lra. rewrite Rabs_Ropp, Rabs_right; lra.
    + replace (sa * 1 * 1 - ca * 0 - r10) with (- (rho * sa - sa)) by lra. rewrite Rabs_Ropp. lra.
    + replace (sa * 1 * 0 + ca * 1 - r11) with (- (r11 - ca)) by ring. rewrite Rabs_Ropp. lra.
    + replace (sa * 0 - r12) with (- r12) by ring. rewrite Rabs_Ropp. lra.
    + replace (ca * 1 * 1 + sa * 0 - r20) with (- (rho * ca - ca)) by lra. rewrite Rabs_Ropp. lra.
    + replace (ca * 1 * 0 - sa * 1 - r21) with (- r21 - sa) by ring. lra.
    + replace (ca * 0 - r22) with (- r22) by ring. rewrite Rabs_Ropp. lra.
Qed.

(** * Random rotations *)
Lemma random_unit : forall u0 u1 u2, 0 <= u0 <= 1 ->
  let '(r, i, j, k) := random_quaternion (u0, u1, u2) in r * r + i * i + j * j + k * k = 1.
Proof.
  intros u0 u1 u2 H; unfold random_quaternion; cbv zeta.
  pose proof (sc1 (2 * PI * u1)) as A; pose proof (sc1 (2 * PI * u2)) as B.
  assert (S1 : sqrt (1 - u0) * sqrt (1 - u0) = 1 - u0) by (apply sqrt_sqrt; lra).
  assert (S2 : sqrt u0 * sqrt u0 = u0) by (apply sqrt_sqrt; lra).
  set (s1 := sin (2 * PI * u1)) in *; set (c1 := cos (2 * PI * u1)) in *.
  set (s2 := sin (2 * PI * u2)) in *; set (c2 := cos (2 * PI * u2)) in *.
  set (q1 := sqrt (1 - u0)) in *; set (q2 := sqrt u0) in *.
  transitivity (q1 * q1 * (s1 * s1 + c1 * c1) + q2 * q2 * (s2 * s2 + c2 * c2)); [ring|].
  rewrite A, B, S1, S2; ring.
Qed.

Lemma clamp_range : forall p, 0 <= clamp 0 p 1 <= 1.
Proof. intros p; unfold clamp, Rmin, Rmax; destruct (Rle_dec p 0), (Rle_dec _ 1); lra. Qed.
Lemma clamp_id : forall p, 0 <= p <= 1 -> clamp 0 p 1 = p.
Proof. intros p H; unfold clamp, Rmin, Rmax; destruct (Rle_dec p 0), (Rle_dec _ 1); lra. Qed.

(** The flipped quaternion. *)
Definition flipped (q : R * R * R * R) : R * R * R * R :=
  let '(r, i, j, k) := q in if Rltb r 0 then (- r, - i, - j, - k) else (r, i, j, k).

Lemma flipped_facts : forall q, let '(r, i, j, k) := q in r * r + i * i + j * j + k * k = 1 ->
  let '(r', i', j', k') := flipped q in r' * r' + i' * i' + j' * j' + k' * k' = 1 /\ 0 <= r' <= 1.
Proof.
  intros [[[r i] j] k] H; unfold flipped, Rltb; destruct (Rlt_dec r 0); split; nra.
Qed.

Lemma slerp_form : forall p q, slerp p q =
  let '(r, i, j, k) := flipped q in
  let phi := acos r in
  let zeromask := Rltb (Rabs (sin phi)) (/ 10 ^ 9) in
  let f1 := if zeromask then 1 - p else sin ((1 - p) * phi) / sin phi in
  let f2 := if zeromask then p else sin (p * phi) / sin phi in
  (f1 + f2 * r, f2 * i, f2 * j, f2 * k).
Proof. intros p [[[r i] j] k]; unfold slerp, flipped. destruct (Rltb r 0); reflexivity. Qed.

(** Outside the near-identity region the interpolation stays on the unit sphere. *)
Lemma slerp_unit : forall p q, let '(r0, i0, j0, k0) := q in r0 * r0 + i0 * i0 + j0 * j0 + k0 * k0 = 1 ->
  let '(r1, i1, j1, k1) := flipped q in
  / 10 ^ 9 <= Rabs (sin (acos r1)) ->
  let '(r, i, j, k) := slerp p q in
  r * r + i * i + j * j + k * k = 1 /\ r = cos (p * acos r1).
Proof.
  intros p q. destruct q as [[[r0 i0] j0] k0] eqn:Eq. intros Hq. pose proof (flipped_facts (r0, i0, j0, k0) Hq) as F. rewrite slerp_form.
  destruct (flipped (r0, i0, j0, k0)) as [[[r i] j] k]. destruct F as [N B]. intros M. cbv zeta.
  unfold Rltb; destruct (Rlt_dec (Rabs (sin (acos r))) (/ 10 ^ 9)); [lra|].
  assert (C : cos (acos r) = r) by (apply cos_acos; lra).
  set (phi := acos r) in *.
  assert (Z : sin phi <> 0).
  { intros Z; rewrite Z, Rabs_R0 in M. assert (0 < / 10 ^ 9) by (apply Rinv_0_lt_compat, pow_lt; lra). lra. }
  replace ((1 - p) * phi) with (phi - p * phi) by ring. rewrite sin_minus, C.
  pose proof (sc1 phi) as S; rewrite C in S. pose proof (sc1 (p * phi)) as T.
  set (s := sin phi) in *. set (sp := sin (p * phi)) in *. set (cp := cos (p * phi)) in *.
  assert (RE : (s * cp - r * sp) / s + sp / s * r = cp) by (field; exact Z).
  rewrite RE. split; [|reflexivity].
  transitivity (cp * cp + (sp / s) * (sp / s) * (i * i + j * j + k * k)); [ring|].
  replace (i * i + j * j + k * k) with (s * s) by lra.
  replace (sp / s * (sp / s) * (s * s)) with (sp * sp) by (field; exact Z). lra.
Qed.

Lemma quaternion_proper : forall r i j k, r * r + i * i + j * j + k * k = 1 ->
  proper_rotation (quaternion_matrix (r, i, j, k)).
Proof.
  intros r i j k H. assert (K : k * k = 1 - r * r - i * i - j * j) by lra.
  apply proper_intro.
  - intros [[x y] z] [[u v] w]. unfold quaternion_matrix, stack_last. cbv zeta. cbn [act times plus dot].
    ring [K].
  - unfold quaternion_matrix, stack_last, e1, e2, e3. cbv zeta. cbn [act times plus outer]. apply triple_eq; ring [K].
Qed.

Lemma quaternion_displacement : forall r i j k v, r * r + i * i + j * j + k * k = 1 ->
  dot v v = 1 -> 2 * r * r - 1 <= dot v (act v (quaternion_matrix (r, i, j, k))).
Proof.
  intros r i j k [[x y] z] H V.
  assert (E : dot (x, y, z) (act (x, y, z) (quaternion_matrix (r, i, j, k))) =
          2 * r * r - 1 + 2 * ((i * x + j * y + k * z) * (i * x + j * y + k * z))).
  { unfold quaternion_matrix, stack_last. cbv zeta. cbn [act times plus dot] in *.
    assert (K : k * k = 1 - r * r - i * i - j * j) by lra.
    assert (Z : z * z = 1 - x * x - y * y) by lra. ring [K Z]. }
  rewrite E. pose proof (Rle_0_sqr (i * x + j * y + k * z)) as Q; unfold Rsqr in Q. lra.
Qed.
