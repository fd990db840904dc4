(** Rounding errors of Bernstein polynomials. *)
Require Import List Reals ZArith Lra Lia Bool.
Require Import Verif.Base Verif.Radial_Model Verif.Radial_Spec Verif.Radial_Proofs Verif.Radial_Basis_Proofs Verif.Float_Model Verif.Float_Spec Verif.Float_Proofs Verif.Float_Radial_Spec Verif.Float_Radial_Proofs Verif.Float_Switch_Spec Verif.Float_Bernstein_Model Verif.Float_Bernstein_Spec.
Import ListNotations.
Open Scope R_scope.

Lemma bernstein_poly_le_one n v x : (v <= n)%nat -> 0 <= x <= 1 -> bernstein_poly n v x <= 1.
Proof.
  intros V X. rewrite <- (bernstein_poly_sum n x). destruct n as [|n].
  - replace v with 0%nat by lia. cbn. lra.
  - assert (exists w, (w <= S n)%nat /\ w <> v) as (w & WL & WN). { destruct (Nat.eq_dec v 0) as [->|N]; [exists 1%nat|exists 0%nat]; lia. }
    pose proof (rsum_ge_pair (S (S n)) (fun v => bernstein_poly (S n) v x) v w (fun k Hk => bernstein_poly_nonneg (S n) k x ltac:(lia) X) ltac:(lia) ltac:(lia) ltac:(lia)) as P.
    pose proof (bernstein_poly_nonneg (S n) w x WL X). cbv beta in P. lra.
Qed.
(** Binomial coefficients are between 1 and 2^n. *)
Lemma binom_bounds n : forall v, (v <= n)%nat -> 1 <= binom n v <= 2 ^ n.
Proof.
  induction n as [|n IH]; intros v V.
  - replace v with 0%nat by lia. cbn. lra.
  - assert (P : 1 <= 2 ^ n) by (apply pow_R1_Rle; lra). destruct v as [|v]; [cbn; lra|]. change (binom (S n) (S v)) with (binom n v + binom n (S v)). destruct (IH v ltac:(lia)) as [A B]. cbn [pow].
    destruct (Nat.eq_dec v n) as [->|N].
    + rewrite (binom_gt n (S n)) by lia. lra.
    + destruct (IH (S v) ltac:(lia)) as [C D]. lra.
Qed.
Lemma ln_binom_bounds n v : (v <= n)%nat -> 0 <= ln (binom n v) <= INR n.
Proof.
  intro V. destruct (binom_bounds n v V) as [A B]. split.
  - rewrite <- ln_1. destruct A as [A|A]; [left; apply ln_increasing; lra|rewrite <- A; lra].
  - apply Rle_trans with (ln (2 ^ n)); [destruct B as [B|B]; [left; apply ln_increasing; lra|rewrite B; lra]|].
    rewrite ln_pow by lra. assert (ln 2 <= 1). { rewrite <- (ln_exp 1). pose proof exp_one_ge as [E|E]; [left; apply ln_increasing; lra|rewrite E; lra]. }
    pose proof (pos_INR n). assert (INR n * ln 2 <= INR n * 1) by (apply Rmult_le_compat_l; lra). lra.
Qed.
Lemma ln_neg x : 0 < x < 1 -> ln x < 0.
Proof. intros [A B]. rewrite <- ln_1. now apply ln_increasing. Qed.
Lemma bernstein_poly_exp n v x : (v <= n)%nat -> 0 < x < 1 -> bernstein_poly n v x = exp (ln (binom n v) + INR v * ln x + INR (n - v) * ln (1 - x)).
Proof.
  intros V X. unfold bernstein_poly. rewrite !exp_plus, exp_ln by now apply binom_pos. rewrite !pow_ln by lra. reflexivity.
Qed.
(** The polynomials are Lipschitz continuous. *)
Lemma bernstein_deriv_bound n v x : (v <= n)%nat -> 0 <= x <= 1 -> Rabs (bernstein_deriv n v x) <= INR n.
Proof.
  intros V X. unfold bernstein_deriv. pose proof (pos_INR n) as N. rewrite Rabs_mult, (Rabs_right (INR n)) by lra.
  assert (A : 0 <= (match v with O => 0 | S v' => bernstein_poly (n - 1) v' x end) <= 1). { destruct v as [|v]; [lra|]. split; [apply bernstein_poly_nonneg|apply bernstein_poly_le_one]; (lia || lra). }
  assert (B : 0 <= (if (v <? n)%nat then bernstein_poly (n - 1) v x else 0) <= 1). { destruct (Nat.ltb_spec v n); [|lra]. split; [apply bernstein_poly_nonneg|apply bernstein_poly_le_one]; (lia || lra). }
  apply Rle_trans with (INR n * 1); [|lra]. apply Rmult_le_compat_l; [exact N|]. apply Rabs_le. lra.
Qed.
Lemma bernstein_poly_lipschitz n v s t : (v <= n)%nat -> 0 <= s <= 1 -> 0 <= t <= 1 -> Rabs (bernstein_poly n v s - bernstein_poly n v t) <= INR n * Rabs (s - t).
Proof.
  intros V. assert (LE : forall s t, 0 <= s <= 1 -> 0 <= t <= 1 -> s < t -> Rabs (bernstein_poly n v s - bernstein_poly n v t) <= INR n * (t - s)).
  { clear s t. intros s t S T L. destruct (MVT_cor2 (bernstein_poly n v) (bernstein_deriv n v) s t L (fun c C => bernstein_poly_deriv n v c V)) as (c & E & C).
    rewrite Rabs_minus_sym, E, Rabs_mult, (Rabs_right (t - s)) by lra. apply Rmult_le_compat_r; [lra|]. apply bernstein_deriv_bound; [exact V|lra]. }
  intros S T. destruct (Rtotal_order s t) as [L|[->|L]].
  - rewrite (Rabs_left (s - t)) by lra. pose proof (LE s t S T L). lra.
  - rewrite !Rminus_eq_0, Rabs_R0. lra.
  - rewrite Rabs_minus_sym, (Rabs_right (s - t)) by lra. now apply LE.
Qed.

Section Bernstein.
Variables (u tiny huge beta : R) (rnd : R -> R) (fexp flog flog1p : R -> R) (lnbinom : nat -> nat -> R) (N : nat).
Hypothesis H : rounding u tiny rnd.
Hypothesis W : wide u tiny huge rnd.
Hypothesis X : float_exp_all u tiny fexp.
Hypothesis L : float_log u flog flog1p.
Hypothesis B : float_binomials beta N lnbinom.

Lemma fl_near x b : Rabs x <= b -> 2 * b + 2 <= huge -> exists z, fl rnd huge x = Some z /\ Rabs (z - x) <= u * b + tiny.
Proof using H W.
  intros XB BB. rewrite (fl_bounded u tiny huge rnd H W x b XB BB). exists (rnd x). split; [reflexivity|]. destruct (size_facts u tiny huge rnd H W) as ([U0 U1] & T0 & T1 & _).
  pose proof (rnd_any u tiny rnd H x) as A. assert (u * Rabs x <= u * b) by (apply Rmult_le_compat_l; lra). lra.
Qed.

(** The error of the logarithm. *)
Lemma log_error x n v : u <= x <= 1 - u -> (v <= n <= N)%nat -> 64 * INR n <= huge * u * u -> 0 <= beta <= 1 / 8 ->
  let ex := ln (binom n v) + INR v * ln x + INR (n - v) * ln (1 - x) in
  exists e, float_bernstein_log rnd huge flog flog1p lnbinom x n v = Some e /\ Rabs (e - ex) <= 2 * beta + u * (12 * INR n + 8 * (- ex) + 1).
Proof using H W L B.
  intros [X0 X1] VN NH [BE0 BE1] ex. assert (V : (v <= n)%nat) by lia. destruct (size_facts u tiny huge rnd H W) as ([U0 U1] & T0 & T1 & HU & HH & HUU).
  destruct (ln_binom_bounds n v V) as [C0 C1]. pose proof (ln_neg x ltac:(lra)) as LX. pose proof (ln_neg (1 - x) ltac:(lra)) as LY.
  pose proof (Rabs_le_inv _ _ (flog_error _ _ _ L x (conj X0 X1))) as EX. rewrite (Rabs_left (ln x)) in EX by lra. pose proof (Rabs_le_inv _ _ (flog1p_error _ _ _ L x (conj X0 X1))) as EY. rewrite (Rabs_left (ln (1 - x))) in EY by lra.
  pose proof (pos_INR n) as N0. pose proof (pos_INR v) as V0. pose proof (pos_INR (n - v)) as W0. assert (NV : INR v + INR (n - v) = INR n) by (rewrite <- plus_INR; f_equal; lia).
  (* sizes of the logarithms *)
  assert (IU : / u <= huge / 1024). { apply (Rmult_le_reg_r u); [lra|]. rewrite Rinv_l by lra. unfold Rdiv. lra. }
  assert (LB : forall y, u <= y -> y < 1 -> - ln y <= / u). { intros y YU Y1. rewrite <- ln_Rinv by lra. apply Rle_trans with (/ y); [|apply Rinv_le_contravar; lra]. pose proof (Rinv_0_lt_compat y ltac:(lra)) as P. pose proof (exp_ineq1_le (ln (/ y))) as I. rewrite exp_ln in I by exact P. lra. }
  pose proof (LB x X0 ltac:(lra)) as LX2. pose proof (LB (1 - x) ltac:(lra) ltac:(lra)) as LY2. assert (IP : 0 < / u) by (apply Rinv_0_lt_compat; lra).
  assert (ULX : u * - ln x <= 1 / 64 * - ln x) by (apply Rmult_le_compat_r; lra). assert (ULY : u * - ln (1 - x) <= 1 / 64 * - ln (1 - x)) by (apply Rmult_le_compat_r; lra).
  set (T1' := INR v * - ln x). set (T2 := INR (n - v) * - ln (1 - x)). assert (T1P : 0 <= T1') by (apply Rmult_le_pos; lra). assert (T2P : 0 <= T2) by (apply Rmult_le_pos; lra).
  assert (NU : 64 * (INR n * / u) <= huge * u). { apply (Rmult_le_reg_r u); [lra|]. replace (64 * (INR n * / u) * u) with (64 * INR n * (/ u * u)) by ring. rewrite Rinv_l by lra. lra. }
  assert (HUH : huge * u <= huge / 64). { unfold Rdiv. apply Rmult_le_compat_l; lra. }
  assert (T1B : T1' <= INR n * / u) by (apply Rmult_le_compat; lra). assert (T2B : T2 <= INR n * / u) by (apply Rmult_le_compat; lra).
  assert (NN : INR n <= INR n * / u). { assert (1 <= / u) by (rewrite <- Rinv_1; apply Rinv_le_contravar; lra). assert (INR n * 1 <= INR n * / u) by (apply Rmult_le_compat_l; lra). lra. }
  assert (EXV : ex = ln (binom n v) - T1' - T2) by (unfold ex, T1', T2; ring).
  unfold float_bernstein_log, fmul, fadd.
  (* products *)
  assert (A1 : Rabs (INR v * flog x - - T1') <= 4 * u * T1'). { replace (INR v * flog x - - T1') with (INR v * (flog x - ln x)) by (unfold T1'; ring). rewrite Rabs_mult, (Rabs_right (INR v)) by lra. replace (4 * u * T1') with (INR v * (4 * u * - ln x)) by (unfold T1'; ring). apply Rmult_le_compat_l; [lra|]. apply Rabs_le. lra. }
  assert (A2 : Rabs (INR (n - v) * flog1p (- x) - - T2) <= 4 * u * T2). { replace (INR (n - v) * flog1p (- x) - - T2) with (INR (n - v) * (flog1p (- x) - ln (1 - x))) by (unfold T2; ring). rewrite Rabs_mult, (Rabs_right (INR (n - v))) by lra. replace (4 * u * T2) with (INR (n - v) * (4 * u * - ln (1 - x))) by (unfold T2; ring). apply Rmult_le_compat_l; [lra|]. apply Rabs_le. lra. }
  apply Rabs_le_inv in A1. apply Rabs_le_inv in A2.
  assert (UT1 : u * T1' <= 1 / 64 * T1') by (apply Rmult_le_compat_r; lra). assert (UT2 : u * T2 <= 1 / 64 * T2) by (apply Rmult_le_compat_r; lra). assert (UT1P : 0 <= u * T1') by (apply Rmult_le_pos; lra). assert (UT2P : 0 <= u * T2) by (apply Rmult_le_pos; lra).
  destruct (fl_near (INR v * flog x) (17 / 16 * T1') ltac:(apply Rabs_le; lra) ltac:(lra)) as (a & Ea & Ba). rewrite Ea. cbn [fbind]. apply Rabs_le_inv in Ba.
  pose proof (Rabs_le_inv _ _ (B n v VN)) as LBN. set (C := ln (binom n v)) in *. assert (UC : u * C <= 1 / 64 * C) by (apply Rmult_le_compat_r; lra). assert (UCP : 0 <= u * C) by (apply Rmult_le_pos; lra). assert (UB : u * beta <= 1 / 64 * beta) by (apply Rmult_le_compat_r; lra). assert (UBP : 0 <= u * beta) by (apply Rmult_le_pos; lra).
  destruct (fl_near (lnbinom n v + a) (C + beta + 9 / 8 * T1' + tiny) ltac:(apply Rabs_le; lra) ltac:(lra)) as (s & Es & Bs). rewrite Es. cbn [fbind]. apply Rabs_le_inv in Bs. assert (UTI : u * tiny <= 1 / 64 * tiny) by (apply Rmult_le_compat_r; lra).
  destruct (fl_near (INR (n - v) * flog1p (- x)) (17 / 16 * T2) ltac:(apply Rabs_le; lra) ltac:(lra)) as (b & Eb & Bb). rewrite Eb. cbn [fbind]. apply Rabs_le_inv in Bb.
  destruct (fl_near (s + b) (17 / 16 * (C + beta) + 5 / 4 * T1' + 9 / 8 * T2 + 8 * tiny) ltac:(apply Rabs_le; lra) ltac:(lra)) as (e & Ee & Be). rewrite Ee. apply Rabs_le_inv in Be.
  exists e. split; [reflexivity|]. rewrite EXV. assert (UCN : u * C <= u * INR n) by (apply Rmult_le_compat_l; lra).
  replace (u * (12 * INR n + 8 * - (C - T1' - T2) + 1)) with (12 * (u * INR n) - 8 * (u * C) + 8 * (u * T1') + 8 * (u * T2) + u) by ring.
  apply Rabs_le. lra.
Qed.

Lemma entry_error t n v : 0 <= t <= 1 -> (v <= n <= N)%nat -> 64 * INR n <= huge * u * u -> 0 <= beta <= 1 / 8 -> 16 * INR n * u <= 1 ->
  exists y, float_bernstein_entry rnd huge fexp flog flog1p lnbinom u t n v = Some y /\ 0 <= y /\ Rabs (y - bernstein_poly n v t) <= 8 * beta + (48 * INR n + 70) * u.
Proof using H W X L B.
  intros T VN NH BE NU. assert (V : (v <= n)%nat) by lia. destruct (size_facts u tiny huge rnd H W) as ([U0 U1] & T0 & T1 & HU & HH & HUU). pose proof (pos_INR n) as N0.
  pose proof (bernstein_clamp_error u t n v ltac:(lra) T V) as CE. assert (NUP : 0 <= INR n * u) by (apply Rmult_le_pos; lra).
  unfold float_bernstein_entry. rewrite fl_some by (rewrite (one_below _ _ _ _ W), Rabs_right; lra). cbn [fbind]. rewrite (one_below _ _ _ _ W). unfold Rltb.
  destruct (Rlt_dec t u) as [S|S].
  { destruct (Rlt_dec (1 - u) t); [lra|]. cbn [andb orb]. rewrite bernstein_entry_low in CE by lra. destruct (v =? 0)%nat; eexists; (split; [reflexivity|]); (split; [lra|]); lra. }
  destruct (Rlt_dec (1 - u) t) as [G|G].
  { cbn [andb orb]. rewrite bernstein_entry_high in CE by lra. destruct (v =? n)%nat; eexists; (split; [reflexivity|]); (split; [lra|]); lra. }
  cbn [andb orb]. destruct (log_error t n v ltac:(lra) VN NH BE) as (e & Ee & Be). rewrite Ee. cbn [fbind].
  set (ex := ln (binom n v) + INR v * ln t + INR (n - v) * ln (1 - t)) in *. pose proof (bernstein_poly_exp n v t V ltac:(lra)) as BP. fold ex in BP. pose proof (bernstein_poly_le_one n v t V T) as B1.
  assert (W0 : 0 <= - ex). { destruct (Rle_lt_dec ex 0) as [|P]; [lra|]. pose proof (exp_ineq1 ex ltac:(lra)). lra. }
  set (w := - ex) in *. set (D := 2 * beta + u * (12 * INR n + 8 * w + 1)) in *. apply Rabs_le_inv in Be.
  assert (UW : u * w <= 1 / 64 * w) by (apply Rmult_le_compat_r; lra). assert (DB : D <= 7 / 8 + 1 / 8 * 1 + 1 / 8 * w + 1 / 8) by (unfold D; lra).
  assert (DB2 : D <= 5 / 4 + 1 / 8 * w) by (unfold D; lra).
  pose proof (exp_gap (- e) (- ex) (7 / 8 * w - 5 / 4) ltac:(unfold w in *; lra) ltac:(unfold w in *; lra)) as GAP. rewrite !Ropp_involutive in GAP. replace (- e - - ex) with (- (e - ex)) in GAP by ring. rewrite Rabs_Ropp in GAP.
  assert (AB : Rabs (e - ex) <= D) by (apply Rabs_le; lra). replace (- (7 / 8 * w - 5 / 4)) with (5 / 4 + - (7 / 8 * w)) in GAP by ring. rewrite exp_plus in GAP.
  assert (E54 : exp (5 / 4) <= 4). { replace (5 / 4) with (1 + 1 / 4) by field. rewrite exp_plus. pose proof exp_le_3. pose proof (exp_pos 1).
    assert (exp (1 / 4) <= 4 / 3). { pose proof (exp_ineq1_le (- (1 / 4))) as I. rewrite exp_Ropp in I. pose proof (exp_pos (1 / 4)). replace (exp (1 / 4)) with (/ / exp (1 / 4)) by (field; lra). replace (4 / 3) with (/ (3 / 4)) by field. apply Rinv_le_contravar; lra. }
    pose proof (exp_pos (1 / 4)). assert (exp 1 * exp (1 / 4) <= 3 * (4 / 3)) by (apply Rmult_le_compat; lra). lra. }
  assert (EW : 0 < exp (- (7 / 8 * w)) <= 1) by (split; [apply exp_pos|apply exp_le_one; lra]).
  assert (WE : w * exp (- (7 / 8 * w)) <= 8 / 7). { rewrite exp_Ropp. pose proof (exp_ineq1_le (7 / 8 * w)) as I. pose proof (exp_pos (7 / 8 * w)) as P. apply (Rmult_le_reg_r (exp (7 / 8 * w))); [exact P|]. rewrite Rmult_assoc, Rinv_l, Rmult_1_r by lra. lra. }
  assert (GB : Rabs (exp e - bernstein_poly n v t) <= 8 * beta + 48 * (INR n * u) + 41 * u).
  { rewrite BP. eapply Rle_trans; [exact GAP|]. apply Rle_trans with (D * (4 * exp (- (7 / 8 * w)))).
    { apply Rmult_le_compat; [apply Rabs_pos|apply Rmult_le_pos; [left; apply exp_pos|lra]|exact AB|]. apply Rmult_le_compat_r; lra. }
    replace (D * (4 * exp (- (7 / 8 * w)))) with ((8 * beta + 48 * (INR n * u) + 4 * u) * exp (- (7 / 8 * w)) + 32 * (u * (w * exp (- (7 / 8 * w))))) by (unfold D; ring).
    assert ((8 * beta + 48 * (INR n * u) + 4 * u) * exp (- (7 / 8 * w)) <= (8 * beta + 48 * (INR n * u) + 4 * u) * 1) by (apply Rmult_le_compat_l; lra).
    assert (u * (w * exp (- (7 / 8 * w))) <= u * (8 / 7)) by (apply Rmult_le_compat_l; lra). lra. }
  apply Rabs_le_inv in GB. pose proof (fexp_accurate _ _ _ X e) as FA. apply Rabs_le_inv in FA. pose proof (fexp_nonneg _ _ _ X e) as FN. pose proof (exp_pos e) as EP.
  pose proof (bernstein_poly_nonneg n v t V T) as BN. assert (E6 : exp e <= 6) by lra. assert (UE : u * exp e <= u * 6) by (apply Rmult_le_compat_l; lra).
  exists (fexp e). split; [|split; [exact FN|apply Rabs_le; lra]]. unfold fcheck, Rltb. rewrite Rabs_right by lra. destruct (Rlt_dec (fexp e) huge) as [|C]; [reflexivity|exfalso; lra].
Qed.
End Bernstein.
