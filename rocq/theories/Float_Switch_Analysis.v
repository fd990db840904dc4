(** The exact function: steepness of the logistic function and of the switch function. *)
Require Import Reals Lra.
Require Import Verif.Base Verif.Radial_Model Verif.Radial_Spec Verif.Radial_Proofs Verif.Float_Proofs Verif.Float_Radial_Proofs.
Open Scope R_scope.

Lemma slope_bounds : 43 / 50 <= smooth_switch_slope <= 87 / 100.
Proof.
  unfold smooth_switch_slope. assert (43 / 25 <= sqrt 3). { rewrite <- (sqrt_square (43 / 25)) by lra. apply sqrt_le_1; lra. }
  assert (sqrt 3 <= 87 / 50). { rewrite <- (sqrt_square (87 / 50)) by lra. apply sqrt_le_1; lra. } lra.
Qed.

Definition logistic (t : R) : R := / (1 + exp t).
Lemma logistic_range t : 0 < logistic t < 1.
Proof. unfold logistic. pose proof (exp_pos t). split; [apply Rinv_0_lt_compat; lra|]. rewrite <- Rinv_1. apply Rinv_lt_contravar; lra. Qed.
Lemma logistic_gap_le s t m : s <= t -> (m <= s \/ m <= - t \/ m <= 0) -> 0 <= logistic s - logistic t <= (t - s) * exp (- m).
Proof.
  intros L M. pose proof (exp_pos s) as S. pose proof (exp_pos t) as T. pose proof (exp_mono s t L) as ST.
  assert (E : logistic s - logistic t = (exp t - exp s) * (/ (1 + exp s) * / (1 + exp t))). { unfold logistic. field. lra. }
  assert (G : exp t - exp s <= (t - s) * exp t). { pose proof (exp_ineq1_le (s - t)) as I. replace s with (t + (s - t)) at 1 by ring. rewrite exp_plus. assert (exp t * (1 + (s - t)) <= exp t * exp (s - t)) by (apply Rmult_le_compat_l; lra). lra. }
  assert (IS : 0 < / (1 + exp s)) by (apply Rinv_0_lt_compat; lra). assert (IT : 0 < / (1 + exp t)) by (apply Rinv_0_lt_compat; lra).
  assert (P : 0 < / (1 + exp s) * / (1 + exp t)) by now apply Rmult_lt_0_compat.
  rewrite E. split; [apply Rmult_le_pos; lra|].
  apply Rle_trans with ((t - s) * exp t * (/ (1 + exp s) * / (1 + exp t))); [apply Rmult_le_compat_r; lra|].
  rewrite Rmult_assoc. apply Rmult_le_compat_l; [lra|].
  assert (Q1 : exp t * / (1 + exp t) <= 1). { apply (Rmult_le_reg_r (1 + exp t)); [lra|]. rewrite Rmult_assoc, Rinv_l by lra. lra. }
  assert (Q2 : / (1 + exp s) <= 1). { rewrite <- Rinv_1. apply Rinv_le_contravar; lra. }
  assert (Q3 : / (1 + exp t) <= 1). { rewrite <- Rinv_1. apply Rinv_le_contravar; lra. }
  assert (Q0 : 0 <= exp t * / (1 + exp t)) by (apply Rmult_le_pos; lra).
  replace (exp t * (/ (1 + exp s) * / (1 + exp t))) with (exp t * / (1 + exp t) * / (1 + exp s)) by ring.
  destruct M as [M|[M|M]].
  - apply Rle_trans with (1 * / (1 + exp s)); [apply Rmult_le_compat_r; lra|]. rewrite Rmult_1_l. apply Rle_trans with (/ exp s); [apply Rinv_le_contravar; lra|]. rewrite <- exp_Ropp. apply exp_mono. lra.
  - apply Rle_trans with (exp t * / (1 + exp t) * 1); [apply Rmult_le_compat_l; lra|]. rewrite Rmult_1_r. apply Rle_trans with (exp t * 1); [apply Rmult_le_compat_l; lra|]. rewrite Rmult_1_r. apply exp_mono. lra.
  - apply Rle_trans with (1 * 1); [apply Rmult_le_compat; lra|]. pose proof (exp_ineq1_le (- m)). lra.
Qed.
Lemma logistic_gap s t m : (m <= s /\ m <= t) \/ (m <= - s /\ m <= - t) \/ m <= 0 -> Rabs (logistic s - logistic t) <= Rabs (s - t) * exp (- m).
Proof.
  intro M. destruct (Rle_lt_dec s t) as [L|L].
  - rewrite (Rabs_left1 (s - t)) by lra. assert (G : 0 <= logistic s - logistic t <= (t - s) * exp (- m)) by (apply logistic_gap_le; [exact L|]; destruct M as [M|[M|M]]; [left|right; left|right; right]; lra). rewrite Rabs_right by lra. lra.
  - rewrite (Rabs_right (s - t)) by lra. assert (G : 0 <= logistic t - logistic s <= (s - t) * exp (- m)) by (apply logistic_gap_le; [lra|]; destruct M as [M|[M|M]]; [left|right; left|right; right]; lra). rewrite Rabs_left1 by lra. lra.
Qed.

(** [A = 1 / t], [B = 1 / (1 - t)]. *)
Lemma reciprocals t : 0 < t < 1 -> let A := 1 / t in let B := 1 / (1 - t) in 1 <= A /\ 1 <= B /\ 4 <= A + B /\ (A <= 2 \/ B <= 2) /\ A + B = A * B.
Proof.
  intros [T0 T1] A B. assert (AT : A * t = 1) by (unfold A; field; lra). assert (BT : B * (1 - t) = 1) by (unfold B; field; lra).
  assert (AP : 0 < A) by (apply Rdiv_lt_0_compat; lra). assert (BP : 0 < B) by (apply Rdiv_lt_0_compat; lra).
  assert (A1 : 1 <= A). { apply (Rmult_le_reg_r t); lra. }
  assert (B1 : 1 <= B). { apply (Rmult_le_reg_r (1 - t)); lra. }
  assert (S : A + B = A * B) by (unfold A, B; field; lra).
  assert (Q : 0 <= (A - B) * (A - B)) by apply Rle_0_sqr.
  repeat split; try lra.
  - apply (Rmult_le_reg_r (A + B)); [lra|]. replace ((A + B) * (A + B)) with ((A - B) * (A - B) + 4 * (A * B)) by ring. lra.
  - destruct (Rle_lt_dec t (1 / 2)); [right|left].
    + apply (Rmult_le_reg_r (1 - t)); lra.
    + apply (Rmult_le_reg_r t); lra.
Qed.
Lemma decay M : 4 <= M -> M * exp (3 - M / 2) <= 18.
Proof.
  intro L. pose proof (exp_ineq1_le (M / 2 - 1)) as I. replace (3 - M / 2) with (1 + 1 + - (M / 2 - 1)) by field. rewrite exp_plus, exp_Ropp, exp_plus. pose proof exp_le_3 as E3. pose proof (exp_pos 1) as E1.
  assert (Q : M / 2 * / exp (M / 2 - 1) <= 1). { pose proof (exp_pos (M / 2 - 1)). apply (Rmult_le_reg_r (exp (M / 2 - 1))); [lra|]. rewrite Rmult_assoc, Rinv_l by lra. lra. }
  assert (exp 1 * exp 1 <= 3 * 3) by (apply Rmult_le_compat; lra). assert (0 <= exp 1 * exp 1) by (apply Rmult_le_pos; lra).
  assert (0 <= M / 2 * / exp (M / 2 - 1)) by (apply Rmult_le_pos; [lra|left; apply Rinv_0_lt_compat, exp_pos]).
  assert (exp 1 * exp 1 * (M / 2 * / exp (M / 2 - 1)) <= 3 * 3 * 1) by (apply Rmult_le_compat; lra). lra.
Qed.

Definition switch_argument (t : R) : R := smooth_switch_slope * (1 / t - 1 / (1 - t)).
Lemma sw_logistic t : sw t = logistic (switch_argument t).
Proof. reflexivity. Qed.
(** The argument of the exponential function is large except in the middle. *)
Lemma argument_size t : 0 < t < 1 -> let M := 1 / t + 1 / (1 - t) in (43 / 50 * (M - 4) <= switch_argument t) \/ (43 / 50 * (M - 4) <= - switch_argument t).
Proof.
  intros T M. destruct (reciprocals t T) as (A1 & B1 & M4 & [A2|B2] & _); unfold switch_argument; destruct slope_bounds as [S0 S1]; fold M in M4.
  - right. assert (0 <= smooth_switch_slope - 43 / 50) by lra. assert (M - 4 <= 1 / (1 - t) - 1 / t) by (unfold M; lra).
    assert (43 / 50 * (M - 4) <= smooth_switch_slope * (1 / (1 - t) - 1 / t)) by (apply Rmult_le_compat; lra). lra.
  - left. assert (M - 4 <= 1 / t - 1 / (1 - t)) by (unfold M; lra). apply Rmult_le_compat; lra.
Qed.
Lemma sw_slope t : 0 < t < 1 -> 0 <= sqrt 3 / 2 * (1 / t ^ 2 + 1 / (1 - t) ^ 2) * exp (sqrt 3 / 2 * (1 / t - 1 / (1 - t))) * (sw t * sw t) <= 21.
Proof.
  intro T. fold smooth_switch_slope. change (smooth_switch_slope * (1 / t - 1 / (1 - t))) with (switch_argument t). rewrite sw_logistic.
  destruct (reciprocals t T) as (A1 & B1 & M4 & _ & _). destruct slope_bounds as [S0 S1]. pose proof (argument_size t T) as AS. cbv zeta in AS.
  replace (1 / t ^ 2 + 1 / (1 - t) ^ 2) with (1 / t * (1 / t) + 1 / (1 - t) * (1 / (1 - t))) by (field; lra).
  set (A := 1 / t) in *. set (B := 1 / (1 - t)) in *. set (a := switch_argument t) in *. pose proof (exp_pos a) as EA. pose proof (logistic_range a) as [L0 L1].
  assert (Q : 0 <= exp a * (logistic a * logistic a) <= exp (2 - (A + B) / 2)).
  { split; [apply Rmult_le_pos; [lra|apply Rmult_le_pos; lra]|]. destruct AS as [AS|AS].
    - assert (E : exp a * logistic a <= 1). { unfold logistic. apply (Rmult_le_reg_r (1 + exp a)); [lra|]. rewrite Rmult_assoc, Rinv_l by lra. lra. }
      assert (F : logistic a <= exp (2 - (A + B) / 2)). { apply Rle_trans with (/ exp a); [apply Rinv_le_contravar; lra|]. rewrite <- exp_Ropp. apply exp_mono. lra. }
      rewrite <- Rmult_assoc. apply Rle_trans with (1 * exp (2 - (A + B) / 2)); [|lra]. apply Rmult_le_compat; try lra. apply Rmult_le_pos; lra.
    - assert (E : logistic a * logistic a <= 1 * 1) by (apply Rmult_le_compat; lra). assert (F : exp a <= exp (2 - (A + B) / 2)) by (apply exp_mono; lra).
      apply Rle_trans with (exp (2 - (A + B) / 2) * (1 * 1)); [|lra]. apply Rmult_le_compat; try lra. apply Rmult_le_pos; lra. }
  assert (AB : 0 <= A * A + B * B <= (A + B) * (A + B)). { assert (0 <= A * A) by (apply Rmult_le_pos; lra). assert (0 <= B * B) by (apply Rmult_le_pos; lra). assert (0 <= A * B) by (apply Rmult_le_pos; lra). split; [lra|]. replace ((A + B) * (A + B)) with (A * A + B * B + 2 * (A * B)) by ring. lra. }
  pose proof (square_exp' ((A + B) / 2) ltac:(lra)) as SE.
  assert (E2 : exp (2 - (A + B) / 2) = exp 1 * exp (1 - (A + B) / 2)) by (rewrite <- exp_plus; f_equal; field).
  assert (BD : (A * A + B * B) * (exp a * (logistic a * logistic a)) <= 24).
  { apply Rle_trans with ((A + B) * (A + B) * exp (2 - (A + B) / 2)); [apply Rmult_le_compat; lra|]. rewrite E2. pose proof exp_le_3. pose proof (exp_pos 1). pose proof (exp_pos (1 - (A + B) / 2)) as EP.
    replace ((A + B) * (A + B) * (exp 1 * exp (1 - (A + B) / 2))) with (4 * (exp 1 * ((A + B) / 2 * ((A + B) / 2) * exp (1 - (A + B) / 2)))) by field.
    assert (0 <= (A + B) / 2 * ((A + B) / 2) * exp (1 - (A + B) / 2)) by (apply Rmult_le_pos; [apply Rmult_le_pos; lra|lra]).
    assert (exp 1 * ((A + B) / 2 * ((A + B) / 2) * exp (1 - (A + B) / 2)) <= 3 * 2) by (apply Rmult_le_compat; lra). lra. }
  assert (BP : 0 <= (A * A + B * B) * (exp a * (logistic a * logistic a))) by (apply Rmult_le_pos; lra).
  replace (smooth_switch_slope * (A * A + B * B) * exp a * (logistic a * logistic a)) with (smooth_switch_slope * ((A * A + B * B) * (exp a * (logistic a * logistic a)))) by ring.
  split; [apply Rmult_le_pos; lra|]. apply Rle_trans with (87 / 100 * 24); [apply Rmult_le_compat; lra|lra].
Qed.

(** The documented function on the unit interval is Lipschitz continuous. *)
Definition switch01 (t : R) : R := if Rle_dec t 0 then 0 else if Rle_dec 1 t then 1 else sw t.
Lemma switch01_near_zero t : 0 < t < 1 -> sw t <= 21 * t.
Proof.
  intros [T0 T1]. pose proof (sw_range t) as [_ S]. destruct (Rle_lt_dec (1 / 21) t) as [L|L]; [lra|].
  eapply Rle_trans; [apply sw_small; lra|]. fold smooth_switch_slope. destruct slope_bounds as [S0 S1]. destruct (reciprocals t (conj T0 T1)) as (A1 & B1 & _).
  assert (B2 : 1 / (1 - t) <= 21 / 20). { apply (Rmult_le_reg_r (1 - t)); [lra|]. unfold Rdiv at 1. rewrite Rmult_assoc, Rinv_l by lra. lra. }
  assert (AT : 1 / t * t = 1) by (field; lra). set (A := 1 / t) in *. set (B := 1 / (1 - t)) in *.
  assert (A21 : 21 <= A). { apply (Rmult_le_reg_r t); lra. }
  assert (E : 43 / 50 * A - 1 <= smooth_switch_slope * (A - B)). { assert (43 / 50 * (A - B) <= smooth_switch_slope * (A - B)) by (apply Rmult_le_compat_r; lra). lra. }
  rewrite exp_Ropp. set (z := smooth_switch_slope * (A - B)) in *. pose proof (exp_ineq1_le z) as I. apply Rle_trans with (/ (43 / 50 * A)); [apply Rinv_le_contravar; lra|].
  apply (Rmult_le_reg_r (43 / 50 * A)); [lra|]. rewrite Rinv_l by lra. replace (21 * t * (43 / 50 * A)) with (21 * (43 / 50) * (A * t)) by ring. lra.
Qed.
Lemma switch01_lipschitz_le s t : s <= t -> Rabs (switch01 s - switch01 t) <= 21 * (t - s).
Proof.
  intro L. unfold switch01. destruct (Rle_dec s 0) as [S0|S0].
  - destruct (Rle_dec t 0) as [T0|T0]; [rewrite Rminus_eq_0, Rabs_R0; lra|]. destruct (Rle_dec 1 t) as [T1|T1]; [rewrite Rabs_left1; lra|].
    pose proof (switch01_near_zero t ltac:(lra)). pose proof (sw_range t). rewrite Rabs_left1; lra.
  - destruct (Rle_dec t 0); [lra|]. destruct (Rle_dec 1 s) as [S1|S1].
    + destruct (Rle_dec 1 t); [rewrite Rminus_eq_0, Rabs_R0; lra|lra].
    + destruct (Rle_dec 1 t) as [T1|T1].
      * pose proof (switch01_near_zero (1 - s) ltac:(lra)) as N. rewrite sw_sym in N. pose proof (sw_range s). rewrite Rabs_left1; lra.
      * destruct (Req_dec s t) as [->|N]; [rewrite Rminus_eq_0, Rabs_R0; lra|].
        destruct (MVT_cor2 sw _ s t ltac:(lra) (fun c C => sw_deriv c ltac:(lra))) as (c & E & C). pose proof (sw_slope c ltac:(lra)) as [D0 D1].
        rewrite Rabs_minus_sym, E. rewrite Rabs_right by (apply Rle_ge, Rmult_le_pos; lra). apply Rmult_le_compat_r; lra.
Qed.
Lemma switch01_lipschitz s t : Rabs (switch01 s - switch01 t) <= 21 * Rabs (s - t).
Proof.
  destruct (Rle_lt_dec s t) as [L|L].
  - rewrite (Rabs_left1 (s - t)) by lra. pose proof (switch01_lipschitz_le s t L). lra.
  - rewrite Rabs_minus_sym, (Rabs_right (s - t)) by lra. apply switch01_lipschitz_le; lra.
Qed.
Lemma switch01_formula x0 x1 x : x0 < x1 -> switch_formula x0 x1 x = switch01 ((x - x0) / (x1 - x0)).
Proof.
  intro L. set (t := (x - x0) / (x1 - x0)). assert (TE : t * (x1 - x0) = x - x0) by (unfold t; field; lra).
  destruct (Rle_dec x x0) as [A|A].
  - unfold switch_formula, switch01. destruct (Rle_dec x x0); [|lra]. destruct (Rle_dec t 0) as [|N]; [reflexivity|]. exfalso. assert (0 < t * (x1 - x0)) by (apply Rmult_lt_0_compat; lra). lra.
  - assert (T0 : 0 < t) by (apply Rdiv_lt_0_compat; lra). destruct (Rle_dec x1 x) as [B|B].
    + unfold switch_formula, switch01. destruct (Rle_dec x x0); [lra|]. destruct (Rle_dec x1 x); [|lra]. destruct (Rle_dec t 0); [lra|]. destruct (Rle_dec 1 t) as [|N]; [reflexivity|]. exfalso.
      assert (t * (x1 - x0) < 1 * (x1 - x0)) by (apply Rmult_lt_compat_r; lra). lra.
    + rewrite switch_formula_sw by lra. fold t. unfold switch01. destruct (Rle_dec t 0); [lra|]. destruct (Rle_dec 1 t) as [N|]; [|reflexivity]. exfalso. assert (1 * (x1 - x0) <= t * (x1 - x0)) by (apply Rmult_le_compat_r; lra). lra.
Qed.
