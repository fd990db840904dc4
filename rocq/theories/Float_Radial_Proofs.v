(** Proofs for C87. *)
Require Import Reals Lra Lia.
Require Import Verif.Base Verif.Radial_Model Verif.Float_Model Verif.Float_Spec Verif.Float_Proofs Verif.Float_Indexed_Spec Verif.Float_Softmax_Proofs Verif.Float_Radial_Model Verif.Float_Radial_Spec.
Open Scope R_scope.

(** Exponentials. *)
Lemma exp_le_one a : 0 <= a -> exp (- a) <= 1.
Proof. intro A. rewrite <- exp_0. destruct A as [A| <-]; [left; apply exp_increasing; lra|rewrite Ropp_0; lra]. Qed.
Lemma exp_mono a b : a <= b -> exp a <= exp b.
Proof. intros [L| ->]; [left; now apply exp_increasing|lra]. Qed.
Lemma exp_gap_le a b m : m <= a -> a <= b -> Rabs (exp (- a) - exp (- b)) <= (b - a) * exp (- m).
Proof.
  intros MA AB. pose proof (exp_pos (- a)) as P. pose proof (exp_mono (- b) (- a) ltac:(lra)) as L. rewrite Rabs_right by lra.
  replace (- b) with (- a + - (b - a)) by ring. rewrite exp_plus. pose proof (exp_ineq1_le (- (b - a))) as I.
  assert (E : exp (- a) * (1 + - (b - a)) <= exp (- a) * exp (- (b - a))) by (apply Rmult_le_compat_l; lra).
  assert (F : (b - a) * exp (- a) <= (b - a) * exp (- m)) by (apply Rmult_le_compat_l; [lra|apply exp_mono; lra]). lra.
Qed.
Lemma exp_gap a b m : m <= a -> m <= b -> Rabs (exp (- a) - exp (- b)) <= Rabs (a - b) * exp (- m).
Proof.
  intros MA MB. destruct (Rle_lt_dec a b) as [L|L].
  - rewrite (Rabs_minus_sym a b), (Rabs_right (b - a)) by lra. now apply exp_gap_le.
  - rewrite Rabs_minus_sym, (Rabs_right (a - b)) by lra. apply exp_gap_le; lra.
Qed.
Lemma exp_one_ge : 2 <= exp 1.
Proof. pose proof (exp_ineq1 1 ltac:(lra)). lra. Qed.
Lemma square_exp z : 0 <= z -> z * z * exp (- (z / 2 - 1)) <= 8.
Proof.
  intro Z. pose proof (exp_ineq1_le (z / 4 - 1)) as I. assert (I0 : 0 <= z / 4) by lra.
  assert (S : z / 4 * (z / 4) <= exp (z / 4 - 1) * exp (z / 4 - 1)) by (apply Rmult_le_compat; lra).
  rewrite <- exp_plus in S. replace (z / 4 - 1 + (z / 4 - 1)) with ((z / 2 - 1) + - (1)) in S by field. rewrite exp_plus, (exp_Ropp 1) in S.
  pose proof exp_one_ge as E1. assert (IE : / exp 1 <= / 2) by (apply Rinv_le_contravar; lra). pose proof (exp_pos (z / 2 - 1)) as P.
  assert (S2 : exp (z / 2 - 1) * / exp 1 <= exp (z / 2 - 1) * / 2) by (apply Rmult_le_compat_l; lra).
  rewrite exp_Ropp. apply (Rmult_le_reg_r (exp (z / 2 - 1))); [exact P|]. rewrite Rmult_assoc, Rinv_l by lra. lra.
Qed.

(** The exact cutoff function of the scaled distance does not change fast. *)
Definition bump (s : R) : R := exp (1 - 1 / (1 - s * s)).
Definition cut (s : R) : R := if Rlt_dec s 1 then bump s else 0.
Lemma square_exp' z : 0 <= z -> z * z * exp (1 - z) <= 2.
Proof. intro Z. pose proof (square_exp (2 * z) ltac:(lra)) as S. replace (- (2 * z / 2 - 1)) with (1 - z) in S by field. lra. Qed.
Lemma bump_slow Y e : 0 < Y <= 1 -> 0 <= e <= Y -> exp (1 - 1 / Y) - (if Rlt_dec e Y then exp (1 - 1 / (Y - e)) else 0) <= 4 * e.
Proof.
  intros [Y0 Y1] [E0 E1]. set (Z := 1 / Y). assert (ZY : Z * Y = 1) by (unfold Z; field; lra).
  assert (Z1 : 1 <= Z). { apply (Rmult_le_reg_r Y); [exact Y0|]. lra. }
  pose proof (square_exp' Z ltac:(lra)) as S. pose proof (exp_pos (1 - Z)) as P.
  destruct (Rle_lt_dec e (Y / 2)) as [L|L].
  - destruct (Rlt_dec e Y) as [_|]; [|lra]. set (Z2 := 1 / (Y - e)).
    assert (ZZ : Z2 - Z = e * (Z * Z2)) by (unfold Z, Z2; field; lra).
    assert (Z2Y : Z2 * (Y - e) = 1) by (unfold Z2; field; lra).
    assert (Z2B : Z2 <= 2 * Z). { apply (Rmult_le_reg_r (Y - e)); [lra|]. assert (Z * (2 * e) <= Z * Y) by (apply Rmult_le_compat_l; lra). lra. }
    assert (Z20 : 0 < Z2) by (unfold Z2; apply Rdiv_lt_0_compat; lra).
    assert (ZB : Z * Z2 <= Z * (2 * Z)) by (apply Rmult_le_compat_l; lra). assert (EB : e * (Z * Z2) <= e * (Z * (2 * Z))) by (apply Rmult_le_compat_l; lra).
    assert (NN : 0 <= e * (Z * Z2)) by (apply Rmult_le_pos; [lra|apply Rmult_le_pos; lra]).
    pose proof (exp_gap (Z - 1) (Z2 - 1) (Z - 1) ltac:(lra) ltac:(lra)) as G. replace (- (Z - 1)) with (1 - Z) in G by ring. replace (- (Z2 - 1)) with (1 - Z2) in G by ring.
    replace (Z - 1 - (Z2 - 1)) with (- (Z2 - Z)) in G by ring. rewrite Rabs_Ropp, (Rabs_right (Z2 - Z)) in G by lra. pose proof (Rle_abs (exp (1 - Z) - exp (1 - Z2))) as A.
    assert (F : (Z2 - Z) * exp (1 - Z) <= e * (Z * (2 * Z)) * exp (1 - Z)) by (apply Rmult_le_compat_r; lra).
    assert (F2 : 2 * e * (Z * Z * exp (1 - Z)) <= 2 * e * 2) by (apply Rmult_le_compat_l; lra). lra.
  - assert (N : 0 <= (if Rlt_dec e Y then exp (1 - 1 / (Y - e)) else 0)) by (destruct Rlt_dec; [left; apply exp_pos|lra]).
    assert (ZZ : Z * 1 <= Z * Z) by (apply Rmult_le_compat_l; lra). assert (F : Z * exp (1 - Z) <= Z * Z * exp (1 - Z)) by (apply Rmult_le_compat_r; lra).
    assert (F2 : Y * (Z * exp (1 - Z)) <= Y * 2) by (apply Rmult_le_compat_l; lra). replace (Y * (Z * exp (1 - Z))) with (Z * Y * exp (1 - Z)) in F2 by ring. rewrite ZY in F2. lra.
Qed.
Lemma cut_slow_le a b : 0 <= a -> a <= b -> 0 <= cut a - cut b <= 8 * (b - a).
Proof.
  intros A AB. unfold cut. destruct (Rlt_dec a 1) as [A1|A1].
  2: { destruct (Rlt_dec b 1); lra. }
  assert (AA : a * a < 1 * 1) by (apply Rmult_le_0_lt_compat; lra). assert (A0 : 0 <= a * a) by (apply Rmult_le_pos; lra). destruct (Rlt_dec b 1) as [B1|B1].
  - assert (BB : b * b < 1 * 1) by (apply Rmult_le_0_lt_compat; lra). assert (D0 : 0 <= (b - a) * (b + a)) by (apply Rmult_le_pos; lra). assert (D1 : (b - a) * (b + a) <= (b - a) * 2) by (apply Rmult_le_compat_l; lra).
    pose proof (bump_slow (1 - a * a) ((b - a) * (b + a)) ltac:(lra) ltac:(lra)) as S. destruct Rlt_dec as [_|N]; [|lra]. unfold bump. replace (1 - a * a - (b - a) * (b + a)) with (1 - b * b) in S by ring. split; [|lra].
    assert (exp (1 - 1 / (1 - b * b)) <= exp (1 - 1 / (1 - a * a))); [|lra]. apply exp_mono. assert (/ (1 - a * a) <= / (1 - b * b)) by (apply Rinv_le_contravar; lra). unfold Rdiv. lra.
  - pose proof (bump_slow (1 - a * a) (1 - a * a) ltac:(lra) ltac:(lra)) as S. destruct Rlt_dec as [N|_]; [lra|]. unfold bump. split; [pose proof (exp_pos (1 - 1 / (1 - a * a))); lra|].
    assert (D1 : (1 - a) * (1 + a) <= (1 - a) * 2) by (apply Rmult_le_compat_l; lra). lra.
Qed.
Lemma cut_slow a b : 0 <= a -> 0 <= b -> Rabs (cut a - cut b) <= 8 * Rabs (a - b).
Proof.
  intros A B. destruct (Rle_lt_dec a b) as [L|L].
  - pose proof (cut_slow_le a b A L). rewrite Rabs_right, (Rabs_left1 (a - b)) by lra. lra.
  - pose proof (cut_slow_le b a B ltac:(lra)). rewrite Rabs_left1, (Rabs_right (a - b)) by lra. lra.
Qed.

Section Rounding.
Variables (u tiny huge : R) (rnd fexp : R -> R).
Hypothesis H : rounding u tiny rnd.
Hypothesis W : wide u tiny huge rnd.
Hypothesis X : float_exp u tiny fexp.

Lemma size_facts : 0 < u <= 1 / 64 /\ 0 < tiny /\ 4096 * tiny <= u /\ 1024 < huge * u /\ 65536 < huge /\ 1024 <= huge * (u * u).
Proof using H W.
  pose proof (unit_bounds _ _ _ H) as [U0 U1]. pose proof (tiny_bounds _ _ _ H) as [T0 T1]. pose proof (square_normal _ _ _ _ W) as N. pose proof (square_finite _ _ _ _ W) as F.
  assert (UU : u * u <= u * (1 / 64)) by (apply Rmult_le_compat_l; lra). assert (UP : 0 < u * u) by (apply Rmult_lt_0_compat; lra).
  assert (HP : 0 < huge). { destruct (Rle_lt_dec huge 0) as [L|L]; [|exact L]. assert (huge * (u * u) <= 0 * (u * u)) by (apply Rmult_le_compat_r; lra). lra. }
  assert (HU : huge * (u * u) <= huge * (u * (1 / 64))) by (apply Rmult_le_compat_l; lra). assert (HV : huge * u <= huge * (1 / 64)) by (apply Rmult_le_compat_l; lra). lra.
Qed.
Lemma rnd_rel x : tiny <= x -> x - u * x <= rnd x <= x + u * x.
Proof using H. intro L. pose proof (tiny_bounds _ _ _ H) as [T0 _]. pose proof (rnd_error _ _ _ H x) as E. rewrite (Rabs_right x) in E by lra. specialize (E L). apply Rabs_le_inv in E. lra. Qed.
Lemma fl_bounded x b : Rabs x <= b -> 2 * b + 2 <= huge -> fl rnd huge x = Some (rnd x).
Proof using H W.
  intros L B. destruct size_facts as ([U0 U1] & T0 & T1 & _). apply fl_some. pose proof (rnd_any u tiny rnd H x) as A. pose proof (Rabs_pos x) as P.
  assert (u * Rabs x <= 1 / 64 * Rabs x) by (apply Rmult_le_compat_r; lra). replace (rnd x) with (x + (rnd x - x)) by ring. eapply Rle_lt_trans; [apply Rabs_triang|]. lra.
Qed.

Lemma bump_error s : rnd s = s -> 0 <= s < 1 ->
  exists y v, float_bump rnd huge fexp s = Some (y, v) /\ 63 / 64 * u <= y <= 1 /\ 0 <= v <= 1 /\ Rabs (v - bump s) <= 64 * u.
Proof using H W X.
  intros SF [S0 S1]. destruct size_facts as ([U0 U1] & T0 & T1 & HU & HH & HUU). pose proof (below_one _ _ _ _ W s SF S1) as SU.
  unfold float_bump.
  (* the square *)
  assert (Q0 : 0 <= s * s) by (apply Rmult_le_pos; lra). assert (Q1 : s * s <= s * (1 - u)) by (apply Rmult_le_compat_l; lra).
  assert (Q2 : s * (1 - u) <= 1 * (1 - u)) by (apply Rmult_le_compat_r; lra).
  assert (Q3 : (1 - u) * (1 - u) <= 1 - 127 / 64 * u). { assert (u * u <= 1 / 64 * u) by (apply Rmult_le_compat_r; lra). lra. }
  assert (Q4 : s * (1 - u) <= (1 - u) * (1 - u)) by (apply Rmult_le_compat_r; lra).
  unfold fmul. rewrite (fl_bounded (s * s) 1) by (rewrite ?Rabs_right; lra). cbn [fbind]. set (p := rnd (s * s)).
  assert (P0 : 0 <= p) by now apply (rnd_nonneg u tiny rnd H).
  assert (P1 : p <= 1 - u). { pose proof (rnd_mono _ _ _ H (s * s) (1 - u) ltac:(lra)) as M. rewrite (one_below _ _ _ _ W) in M. exact M. }
  pose proof (rnd_pos u tiny rnd H (s * s) Q0) as PE. fold p in PE.
  assert (UQ : u * (s * s) <= u * 1) by (apply Rmult_le_compat_l; lra).
  (* the difference *)
  rewrite (fl_bounded (1 - p) 1) by (rewrite ?Rabs_right; lra). cbn [fbind]. set (y := rnd (1 - p)). pose proof (rnd_rel (1 - p) ltac:(lra)) as YE. fold y in YE.
  assert (UY : u * (1 - p) <= 1 / 64 * (1 - p)) by (apply Rmult_le_compat_r; lra).
  assert (Y1 : y <= 1). { pose proof (rnd_mono _ _ _ H (1 - p) 1 ltac:(lra)) as M. rewrite (rnd_one _ _ _ H) in M. exact M. }
  assert (Y0 : 63 / 64 * u <= y) by lra.
  set (Y := 1 - s * s). assert (YB : 127 / 64 * u <= Y <= 1) by (unfold Y; lra).
  assert (YD : Rabs (y - Y) <= 21 / 20 * u).
  { assert (UE : u * (1 - p) <= u * (1 - s * s + u + tiny)) by (apply Rmult_le_compat_l; lra). assert (UU : u * u <= u * (1 / 64)) by (apply Rmult_le_compat_l; lra).
    assert (UT : u * tiny <= 1 * tiny) by (apply Rmult_le_compat_r; lra). apply Rabs_le. unfold Y. lra. }
  (* the reciprocal *)
  assert (YP : 0 < y) by lra. assert (YPP : 0 < Y) by lra. unfold fdiv at 1. destruct (Req_EM_T y 0) as [|_]; [lra|].
  assert (R1 : 1 <= 1 / y). { apply (Rmult_le_reg_r y); [exact YP|]. unfold Rdiv. rewrite Rmult_assoc, Rinv_l by lra. lra. }
  assert (R2 : 1 / y * u <= 64 / 63). { apply (Rmult_le_reg_r y); [exact YP|]. replace (1 / y * u * y) with u by (field; lra). lra. }
  assert (R3 : 1 / y <= huge / 512). { apply (Rmult_le_reg_r u); [exact U0|]. replace (huge / 512 * u) with (huge * u / 512) by field. lra. }
  rewrite (fl_bounded (1 / y) (huge / 512)) by (rewrite ?Rabs_right; lra). cbn [fbind]. set (z := rnd (1 / y)). pose proof (rnd_rel (1 / y) ltac:(lra)) as ZE. fold z in ZE.
  assert (UR : u * (1 / y) <= 1 / 64 * (1 / y)) by (apply Rmult_le_compat_r; lra).
  assert (Z1 : 1 <= z). { pose proof (rnd_mono _ _ _ H 1 (1 / y) R1) as M. rewrite (rnd_one _ _ _ H) in M. exact M. }
  rewrite (fl_bounded (1 - z) (huge / 500)) by (rewrite ?Rabs_left1; lra). cbn [fbind]. set (w := rnd (1 - z)).
  assert (W0 : w <= 0). { pose proof (rnd_mono _ _ _ H (1 - z) 0 ltac:(lra)) as M. rewrite (rnd_zero _ _ _ H) in M. exact M. }
  pose proof (rnd_any u tiny rnd H (1 - z)) as WE. fold w in WE. rewrite (Rabs_left1 (1 - z)) in WE by lra. apply Rabs_le_inv in WE.
  exists y, (fexp w). split; [reflexivity|]. split; [lra|]. pose proof (fexp_range _ _ _ X w W0) as VR. split; [exact VR|].
  (* the error *)
  set (Z := 1 / Y). assert (ZP : 1 <= Z). { unfold Z. apply (Rmult_le_reg_r Y); [exact YPP|]. unfold Rdiv. rewrite Rmult_assoc, Rinv_l by lra. lra. }
  assert (ZU : Z * u <= 64 / 127). { apply (Rmult_le_reg_r Y); [exact YPP|]. unfold Z. replace (1 / Y * u * Y) with u by (field; lra). lra. }
  apply Rabs_le_inv in YD.
  assert (RZ1 : 1 / y <= 11 / 5 * Z).
  { unfold Z. apply (Rmult_le_reg_r (y * Y)); [apply Rmult_lt_0_compat; lra|]. replace (1 / y * (y * Y)) with Y by (field; lra). replace (11 / 5 * (1 / Y) * (y * Y)) with (11 / 5 * y) by (field; lra). lra. }
  assert (RZ2 : 64 / 100 * Z <= 1 / y).
  { unfold Z. apply (Rmult_le_reg_r (y * Y)); [apply Rmult_lt_0_compat; lra|]. replace (1 / y * (y * Y)) with Y by (field; lra). replace (64 / 100 * (1 / Y) * (y * Y)) with (64 / 100 * y) by (field; lra). lra. }
  assert (E1 : Rabs (1 / y - Z) <= 231 / 100 * u * (Z * Z)).
  { unfold Z at 1. replace (1 / y - 1 / Y) with ((Y - y) * (1 / y * (1 / Y))) by (field; lra). fold Z. rewrite Rabs_mult.
    assert (PP : 0 <= 1 / y * Z) by (apply Rmult_le_pos; lra). rewrite (Rabs_right (1 / y * Z)) by lra.
    assert (PQ : 1 / y * Z <= 11 / 5 * Z * Z) by (apply Rmult_le_compat_r; lra).
    assert (PD : Rabs (Y - y) <= 21 / 20 * u) by (apply Rabs_le; lra). eapply Rle_trans; [apply Rmult_le_compat; [apply Rabs_pos|exact PP|exact PD|exact PQ]|]. lra. }
  assert (ZZ : 1 * Z <= Z * Z) by (apply Rmult_le_compat_r; lra). assert (UZ : u * Z <= u * (Z * Z)) by (apply Rmult_le_compat_l; lra). assert (UZ1 : u * 1 <= u * Z) by (apply Rmult_le_compat_l; lra).
  assert (UR' : u * (1 / y) <= u * (11 / 5 * Z)) by (apply Rmult_le_compat_l; lra).
  assert (UZ3 : u * z <= u * (9 / 4 * Z)). { apply Rmult_le_compat_l; [lra|]. lra. }
  apply Rabs_le_inv in E1. assert (AB : Rabs (- w - (Z - 1)) <= 7 * u * (Z * Z)) by (apply Rabs_le; lra).
  assert (UZ4 : u * z <= 1 / 64 * z) by (apply Rmult_le_compat_r; lra).
  assert (M1 : Z / 2 - 1 <= - w) by lra.
  pose proof (exp_gap (- w) (Z - 1) (Z / 2 - 1) M1 ltac:(lra)) as G.
  assert (G2 : Rabs (- w - (Z - 1)) * exp (- (Z / 2 - 1)) <= 7 * u * (Z * Z) * exp (- (Z / 2 - 1))) by (apply Rmult_le_compat_r; [left; apply exp_pos|exact AB]).
  assert (G3 : u * (Z * Z * exp (- (Z / 2 - 1))) <= u * 8) by (apply Rmult_le_compat_l; [lra|apply square_exp; lra]).
  pose proof (fexp_error _ _ _ X w W0) as FE. rewrite Ropp_involutive in G. pose proof (exp_le_one (- w) ltac:(lra)) as EW. rewrite Ropp_involutive in EW.
  assert (FU : u * exp w <= u * 1) by (apply Rmult_le_compat_l; lra).
  unfold bump. fold Y. fold Z. replace (1 - Z) with (- (Z - 1)) by ring.
  replace (fexp w - exp (- (Z - 1))) with ((fexp w - exp w) + (exp w - exp (- (Z - 1)))) by ring. eapply Rle_trans; [apply Rabs_triang|]. lra.
Qed.
Lemma fl_bound x b : Rabs x <= b -> 2 * b + 2 <= huge -> exists z, fl rnd huge x = Some z /\ Rabs z <= 65 / 64 * b + tiny.
Proof using H W.
  intros L B. rewrite (fl_bounded x b L B). exists (rnd x). split; [reflexivity|]. destruct size_facts as ([U0 U1] & T0 & T1 & _). pose proof (rnd_any u tiny rnd H x) as A. pose proof (Rabs_pos x) as P.
  assert (u * Rabs x <= 1 / 64 * Rabs x) by (apply Rmult_le_compat_r; lra). replace (rnd x) with (x + (rnd x - x)) by ring. eapply Rle_trans; [apply Rabs_triang|]. lra.
Qed.
Lemma fmul_bound x y a b : Rabs x <= a -> Rabs y <= b -> 2 * (a * b) + 2 <= huge -> exists z, fmul rnd huge x y = Some z /\ Rabs z <= 65 / 64 * (a * b) + tiny.
Proof using H W. intros A B L. unfold fmul. apply fl_bound; [|exact L]. rewrite Rabs_mult. apply Rmult_le_compat; try apply Rabs_pos; assumption. Qed.

Lemma scaled_error x c : rnd x = x -> 0 <= x -> 0 < c -> 4 * x <= huge * c -> 4 * x <= huge ->
  exists y, float_scaled rnd huge x c = Some y /\ rnd y = y /\ 0 <= y /\ Rabs (y - x / c) <= u * (x / c) + tiny /\ (c <= x -> 1 <= y).
Proof using H W.
  intros XF X0 C XC XH. destruct size_facts as ([U0 U1] & T0 & T1 & HU & HH & HUU). unfold float_scaled, Reqb. destruct (Req_EM_T c 1) as [->|N].
  - exists x. unfold Rdiv. rewrite Rinv_1, Rmult_1_r, Rminus_eq_0, Rabs_R0. assert (0 <= u * x) by (apply Rmult_le_pos; lra). repeat split; try lra; assumption.
  - assert (Q0 : 0 <= x / c) by (apply Rmult_le_pos; [lra|left; now apply Rinv_0_lt_compat]).
    assert (Q1 : x / c <= huge / 4). { apply (Rmult_le_reg_r c); [exact C|]. unfold Rdiv at 1. rewrite Rmult_assoc, Rinv_l by lra. lra. }
    unfold fdiv. destruct (Req_EM_T c 0); [lra|]. rewrite (fl_bounded (x / c) (huge / 4)) by (rewrite ?Rabs_right; lra). exists (rnd (x / c)). split; [reflexivity|].
    split; [apply (rounded_twice _ _ _ _ W)|]. split; [now apply (rnd_nonneg u tiny rnd H)|]. split.
    + pose proof (rnd_any u tiny rnd H (x / c)) as A. rewrite (Rabs_right (x / c)) in A by lra. exact A.
    + intro L. assert (Q2 : 1 <= x / c). { apply (Rmult_le_reg_r c); [exact C|]. unfold Rdiv. rewrite Rmult_assoc, Rinv_l by lra. lra. }
      pose proof (rnd_mono _ _ _ H _ _ Q2) as M. now rewrite (rnd_one _ _ _ H) in M.
Qed.
Lemma smooth_cutoff_cut x c : 0 < c -> smooth_cutoff x c = Ok (cut (x / c)).
Proof using.
  intro C. unfold smooth_cutoff, Rleb. destruct (Rle_dec c 0); [lra|]. f_equal. unfold Reqb. destruct (Req_EM_T c 1) as [->|N]; cbn [negb]; unfold cut, bump, Rltb.
  - replace (x / 1) with x by field. destruct (Rlt_dec x 1); reflexivity.
  - destruct (Rlt_dec (x / c) 1); reflexivity.
Qed.

Lemma float_cutoff_error x c : rnd x = x -> 0 <= x -> 0 < c -> 4 * x <= huge * c -> 4 * x <= huge ->
  exists v, float_smooth_cutoff rnd huge fexp x c = Some v /\ 0 <= v <= 1 /\ (c <= x -> v = 0) /\ Rabs (v - cut (x / c)) <= 73 * u.
Proof using H W X.
  intros XF X0 C XC XH. destruct size_facts as ([U0 U1] & T0 & T1 & HU & HH & HUU). destruct (scaled_error x c XF X0 C XC XH) as (y & E & YF & Y0 & YE & YC).
  unfold float_smooth_cutoff. rewrite E. cbn [fbind].
  assert (Q0 : 0 <= x / c) by (apply Rmult_le_pos; [lra|left; now apply Rinv_0_lt_compat]).
  assert (SLOW : Rabs (cut y - cut (x / c)) <= 8 * (u + tiny) \/ (1 <= x / c /\ 1 <= y)).
  { destruct (Rle_lt_dec 1 (x / c)) as [L|L].
    - right. split; [exact L|]. apply YC. apply (Rmult_le_compat_r c) in L; [|lra]. unfold Rdiv in L. rewrite Rmult_assoc, Rinv_l in L by lra. lra.
    - left. assert (u * (x / c) <= u * 1) by (apply Rmult_le_compat_l; lra). pose proof (cut_slow y (x / c) Y0 Q0). lra. }
  assert (NEAR : forall v, Rabs (v - cut y) <= 64 * u -> Rabs (v - cut (x / c)) <= 73 * u).
  { intros v V. destruct SLOW as [S|[S1 S2]].
    - replace (v - cut (x / c)) with ((v - cut y) + (cut y - cut (x / c))) by ring. eapply Rle_trans; [apply Rabs_triang|]. lra.
    - unfold cut in *. destruct (Rlt_dec (x / c) 1); [lra|]. destruct (Rlt_dec y 1); lra. }
  unfold Rltb. destruct (Rlt_dec y 1) as [L|L].
  - destruct (bump_error y YF (conj Y0 L)) as (y' & v & EB & _ & V & VE). rewrite EB. exists v. split; [reflexivity|]. split; [exact V|]. split; [intro CX; specialize (YC CX); lra|].
    apply NEAR. unfold cut. destruct (Rlt_dec y 1); [exact VE|contradiction].
  - exists 0. split; [reflexivity|]. split; [lra|]. split; [reflexivity|]. apply NEAR. unfold cut. destruct (Rlt_dec y 1); [contradiction|]. rewrite Rminus_eq_0, Rabs_R0. lra.
Qed.

(** The reciprocal of the square in the derivative rule of division. *)
Lemma pow_m2_bound y : 63 / 64 * u <= y <= 1 -> exists z, float_pow_m2 rnd huge y = Some z /\ Rabs z <= 9 / 8 * / (u * u).
Proof using H W.
  intros [Y0 Y1]. destruct size_facts as ([U0 U1] & T0 & T1 & HU & HH & HUU). pose proof (square_normal _ _ _ _ W) as N. assert (UP : 0 < u * u) by (apply Rmult_lt_0_compat; lra).
  assert (YY : 63 / 64 * u * (63 / 64 * u) <= y * y) by (apply Rmult_le_compat; lra). assert (YY1 : y * y <= 1 * 1) by (apply Rmult_le_compat; lra).
  unfold float_pow_m2, fmul. rewrite (fl_bounded (y * y) 1) by (rewrite ?Rabs_right; lra). cbn [fbind]. set (q := rnd (y * y)). pose proof (rnd_rel (y * y) ltac:(lra)) as QE. fold q in QE.
  assert (UY : u * (y * y) <= 1 / 64 * (y * y)) by (apply Rmult_le_compat_r; lra). assert (Q0 : 95 / 100 * (u * u) <= q) by lra.
  unfold fdiv. destruct (Req_EM_T q 0); [lra|]. set (i := / (u * u)). assert (I : u * u * i = 1) by (unfold i; field; lra). assert (I0 : 0 < i) by now apply Rinv_0_lt_compat.
  assert (QI : 1 / q <= 107 / 100 * i). { apply (Rmult_le_reg_r q); [lra|]. unfold Rdiv. rewrite Rmult_assoc, Rinv_l by lra. assert (107 / 100 * i * (95 / 100 * (u * u)) <= 107 / 100 * i * q) by (apply Rmult_le_compat_l; lra). lra. }
  assert (QP : 0 < 1 / q) by (apply Rdiv_lt_0_compat; lra).
  assert (HI : i * 1024 <= huge). { apply (Rmult_le_compat_l i) in HUU; [|lra]. replace (i * (huge * (u * u))) with (huge * (u * u * i)) in HUU by ring. rewrite I in HUU. lra. }
  assert (I1 : 1 <= i). { apply (Rmult_le_reg_l (u * u)); [exact UP|]. rewrite I. assert (u * u <= 1 / 64 * (1 / 64)) by (apply Rmult_le_compat; lra). lra. }
  destruct (fl_bound (1 / q) (107 / 100 * i)) as (z & Ez & Bz); [rewrite Rabs_right; lra|lra|]. exists z. split; [exact Ez|]. lra.
Qed.

Lemma cutoff_gradient_finite x c g : rnd x = x -> 0 <= x -> 0 < c -> 4 * x <= huge * c -> 4 * x <= huge ->
  16 * (Rabs g / (u * u) + 1) <= huge -> 16 * (Rabs g / (u * u) + 1) <= huge * c ->
  exists v, float_smooth_cutoff_gradient rnd huge fexp x c g = Some v /\ (c <= x -> v = 0).
Proof using H W X.
  intros XF X0 C XC XH GH GC. destruct size_facts as ([U0 U1] & T0 & T1 & HU & HH & HUU). destruct (scaled_error x c XF X0 C XC XH) as (y & E & YF & Y0 & _ & YC).
  unfold float_smooth_cutoff_gradient. rewrite E. cbn [fbind]. unfold Rdiv in GH, GC. set (i := / (u * u)) in *. assert (UP : 0 < u * u) by (apply Rmult_lt_0_compat; lra). assert (I0 : 0 < i) by now apply Rinv_0_lt_compat.
  assert (I : u * u * i = 1) by (unfold i; field; lra). pose proof (square_normal _ _ _ _ W) as N. assert (TI : tiny * i <= 1 / 64). { apply (Rmult_le_compat_r i) in N; [|lra]. rewrite I in N. lra. }
  assert (I1 : 4096 <= i). { apply (Rmult_le_reg_l (u * u)); [exact UP|]. rewrite I. assert (u * u <= 1 / 64 * (1 / 64)) by (apply Rmult_le_compat; lra). lra. }
  pose proof (Rabs_pos g) as GP. set (G := Rabs g) in *. assert (GI : G * 4096 <= G * i) by (apply Rmult_le_compat_l; lra). assert (GI0 : 0 <= G * i) by (apply Rmult_le_pos; lra).
  set (s := if Rltb y 1 then y else 0).
  assert (SF : rnd s = s /\ 0 <= s < 1). { unfold s, Rltb. destruct (Rlt_dec y 1); [now repeat split|]. split; [apply (rnd_zero _ _ _ H)|lra]. }
  destruct SF as [SF S01]. destruct (bump_error s SF S01) as (d & v & EB & D & V & _). rewrite EB.
  set (gv := if Rltb y 1 then g else 0). assert (GV : Rabs gv <= G) by (unfold gv; destruct (Rltb y 1); [unfold G; lra|rewrite Rabs_R0; exact GP]).
  destruct (fmul_bound gv v G 1 GV) as (gw & Egw & Bgw); [rewrite Rabs_right; lra|lra|]. rewrite Egw. cbn [fbind].
  destruct (pow_m2_bound d D) as (y2 & Ey2 & By2). rewrite Ey2. cbn [fbind]. fold i in By2.
  destruct (fmul_bound (- gw) y2 (65 / 64 * (G * 1) + tiny) (9 / 8 * i)) as (gy & Egy & Bgy); [rewrite Rabs_Ropp; exact Bgw|exact By2|lra|]. rewrite Egy. cbn [fbind].
  assert (Bgy' : Rabs gy <= 5 / 4 * (G * i) + 1 / 16) by lra.
  destruct (fmul_bound (- - gy) s (5 / 4 * (G * i) + 1 / 16) 1) as (h & Eh & Bh); [rewrite !Rabs_Ropp; exact Bgy'|rewrite Rabs_right; lra|lra|]. rewrite Eh. cbn [fbind].
  assert (BB : Rabs (h + h) <= 3 * (G * i) + 1 / 4). { eapply Rle_trans; [apply Rabs_triang|]. lra. }
  unfold fadd. destruct (fl_bound (h + h) (3 * (G * i) + 1 / 4) BB) as (gs & Egs & Bgs); [lra|]. rewrite Egs. cbn [fbind].
  set (gx := if Rltb y 1 then gs else 0). assert (GX : Rabs gx <= 4 * (G * i) + 1) by (unfold gx; destruct (Rltb y 1); [lra|rewrite Rabs_R0; lra]).
  assert (GZ : c <= x -> gx = 0). { intro CX. specialize (YC CX). unfold gx, Rltb. destruct (Rlt_dec y 1); [lra|reflexivity]. }
  unfold Reqb. destruct (Req_EM_T c 1); [now exists gx|].
  assert (GB : Rabs (gx / c) <= huge / 4).
  { unfold Rdiv. rewrite Rabs_mult, Rabs_inv, (Rabs_right c) by lra. apply (Rmult_le_reg_r c); [exact C|]. rewrite Rmult_assoc, Rinv_l by lra. lra. }
  unfold fdiv. destruct (Req_EM_T c 0); [lra|]. destruct (fl_bound (gx / c) (huge / 4) GB) as (r & Er & _); [lra|]. exists r. split; [exact Er|].
  intro CX. rewrite (GZ CX) in Er. unfold Rdiv in Er. rewrite Rmult_0_l in Er. rewrite fl_some in Er; rewrite (rnd_zero _ _ _ H) in *; [now injection Er|rewrite Rabs_R0; lra].
Qed.
End Rounding.
