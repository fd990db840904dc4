(** The error of [normalize] in floating point arithmetic, for C84. *)
Require Import List Reals Lra Lia.
Require Import Verif.Base Verif.Radial_Model Verif.Rotations_Model Verif.Rotations_Spec Verif.Float_Model Verif.Float_Spec Verif.Float_Proofs Verif.Float_Norm_Proofs.
Import ListNotations.
Open Scope R_scope.

Lemma tiny_root u tiny l : 0 < tiny -> 0 < u -> 0 <= l -> 256 * tiny <= u * u -> tiny <= 4 * (l * l) -> 8 * tiny <= u * l.
Proof.
  intros T U L A B. set (s := sqrt tiny). assert (S : 0 < s) by now apply sqrt_lt_R0. assert (E : s * s = tiny) by (apply sqrt_sqrt; lra).
  assert (S1 : 16 * s <= u). { apply Rsqr_incr_0_var; [|lra]. unfold Rsqr. lra. }
  assert (S2 : s <= 2 * l). { apply Rsqr_incr_0_var; [|lra]. unfold Rsqr. lra. }
  rewrite <- E. assert (16 * s * s <= u * s) by (apply Rmult_le_compat_r; lra). assert (u * s <= u * (2 * l)) by (apply Rmult_le_compat_l; lra). lra.
Qed.

Section Rounding.
Variables (u tiny huge : R) (rnd : R -> R).
Hypothesis H : rounding u tiny rnd.
Hypothesis UT : 256 * tiny <= u * u.

(** A computed norm [n] of a vector of length [l]. *)
Lemma threshold_above k n l : k * u <= 9 / 64 -> 0 <= l -> 4 * tiny <= l * l -> Rabs (n - l) <= k * u * l + tiny -> above_tiny rnd tiny huge n = true.
Proof using H UT.
  intros K L0 L E. pose proof (unit_bounds _ _ _ H) as [U0 U1]. pose proof (tiny_bounds _ _ _ H) as [T0 T1].
  pose proof (tiny_root u tiny l T0 U0 L0 UT ltac:(lra)) as TL.
  assert (KL : k * u * l <= 9 / 64 * l) by (apply Rmult_le_compat_r; lra).
  assert (UL : u * l <= 1 / 64 * l) by (apply Rmult_le_compat_r; lra). apply Rabs_le_inv in E.
  assert (N : 54 / 64 * l <= n) by lra.
  assert (NN : 54 / 64 * l * (54 / 64 * l) <= n * n) by (apply Rmult_le_compat; lra).
  unfold above_tiny, fmul, fl. unfold Rltb at 1. destruct Rlt_dec; [|reflexivity]. unfold Rltb. destruct Rlt_dec as [|NL]; [reflexivity|]. exfalso. apply NL.
  assert (Q0 : 0 <= n * n) by (apply Rmult_le_pos; lra).
  pose proof (rnd_error _ _ _ H (n * n)) as RE. rewrite Rabs_right in RE by lra. specialize (RE ltac:(lra)). apply Rabs_le_inv in RE.
  assert (u * (n * n) <= 1 / 64 * (n * n)) by (apply Rmult_le_compat_r; lra). lra.
Qed.
Lemma threshold_below k n l : k * u <= 9 / 64 -> 1 < huge -> 0 <= n -> 0 <= l -> 4 * (l * l) <= tiny -> n <= l + (k * u * l + tiny) -> above_tiny rnd tiny huge n = false.
Proof using H UT.
  intros K HH N0 L0 L E. pose proof (unit_bounds _ _ _ H) as [U0 U1]. pose proof (tiny_bounds _ _ _ H) as [T0 T1].
  set (s := sqrt tiny). assert (S : 0 < s) by now apply sqrt_lt_R0. assert (ES : s * s = tiny) by (apply sqrt_sqrt; lra).
  assert (LS : l <= s / 2). { apply Rsqr_incr_0_var; [|lra]. unfold Rsqr. lra. }
  assert (S1 : 16 * s <= u). { apply Rsqr_incr_0_var; [|lra]. unfold Rsqr. lra. }
  assert (KL : k * u * l <= 9 / 64 * l) by (apply Rmult_le_compat_r; lra).
  assert (TS : tiny <= s / 64). { rewrite <- ES. assert (s * s <= (1 / 64) * s) by (apply Rmult_le_compat_r; lra). lra. }
  assert (NS : n <= s) by lra. assert (NN : n * n <= s * s) by (apply Rmult_le_compat; lra).
  assert (Q0 : 0 <= n * n) by (apply Rmult_le_pos; lra).
  pose proof (rnd_mono _ _ _ H (n * n) tiny ltac:(lra)) as RM. rewrite (rnd_tiny _ _ _ H) in RM. pose proof (rnd_nonneg _ _ _ H (n * n) Q0) as RP.
  unfold above_tiny, fmul. rewrite fl_some by (rewrite Rabs_right; lra). unfold Rltb. destruct Rlt_dec; [lra|reflexivity].
Qed.

(** Dividing by the computed norm. *)
Lemma quotient_error k n l v : 0 <= k -> k * u <= 9 / 64 -> 2 <= huge -> 0 < l -> 4 * tiny <= l * l -> Rabs (n - l) <= k * u * l + tiny -> Rabs v <= l ->
  exists y, fdiv rnd huge v n = Some y /\ Rabs (y - v / l) <= (6 / 5 * k + 7 / 5) * u * (Rabs v / l) + tiny.
Proof using H UT.
  intros K0 K HH L0 L E V. pose proof (unit_bounds _ _ _ H) as [U0 U1]. pose proof (tiny_bounds _ _ _ H) as [T0 T1].
  pose proof (tiny_root u tiny l T0 U0 ltac:(lra) UT ltac:(lra)) as TL.
  assert (KL : k * u * l <= 9 / 64 * l) by (apply Rmult_le_compat_r; lra).
  assert (UL : u * l <= 1 / 64 * l) by (apply Rmult_le_compat_r; lra). pose proof (Rabs_le_inv _ _ E) as E'.
  assert (N : 6 / 7 * l <= n) by lra. assert (NP : 0 < n) by lra.
  set (w := Rabs v / l). assert (EW : Rabs v = w * l) by (unfold w; field; lra).
  assert (W0 : 0 <= w). { unfold w, Rdiv. apply Rmult_le_pos; [apply Rabs_pos|]. left. now apply Rinv_0_lt_compat. }
  assert (W1 : w <= 1). { apply (Rmult_le_reg_r l); [exact L0|]. lra. }
  assert (Q : Rabs (v / n) <= 7 / 6 * w).
  { unfold Rdiv at 1. rewrite Rabs_mult, Rabs_inv, (Rabs_right n), EW by lra. apply (Rmult_le_reg_r n); [exact NP|]. rewrite Rmult_assoc, Rinv_l by lra.
    assert (w * (6 / 7 * l) <= w * n) by (apply Rmult_le_compat_l; lra). lra. }
  assert (D : Rabs (v / n - v / l) <= (7 / 6 * k + 1 / 6) * u * w).
  { replace (v / n - v / l) with (v / n * ((l - n) / l)) by (field; lra). rewrite Rabs_mult.
    assert (F : Rabs ((l - n) / l) <= (k + 1 / 8) * u).
    { unfold Rdiv. rewrite Rabs_mult, Rabs_inv, (Rabs_right l), Rabs_minus_sym by lra. apply (Rmult_le_reg_r l); [exact L0|]. rewrite Rmult_assoc, Rinv_l by lra. lra. }
    eapply Rle_trans; [apply Rmult_le_compat; [apply Rabs_pos|apply Rabs_pos|exact Q|exact F]|].
    assert (0 <= u * w) by (apply Rmult_le_pos; lra). replace (7 / 6 * w * ((k + 1 / 8) * u)) with ((7 / 6 * k + 7 / 48) * (u * w)) by field.
    rewrite Rmult_assoc. apply Rmult_le_compat_r; lra. }
  pose proof (rnd_any u tiny rnd H (v / n)) as R. exists (rnd (v / n)). split.
  - unfold fdiv. destruct (Req_EM_T n 0); [lra|]. apply fl_some.
    assert (Rabs (rnd (v / n)) <= Rabs (v / n) + (u * Rabs (v / n) + tiny)).
    { replace (rnd (v / n)) with (v / n + (rnd (v / n) - v / n)) at 1 by ring. eapply Rle_trans; [apply Rabs_triang|]. lra. }
    assert (u * Rabs (v / n) <= 1 / 64 * (7 / 6)) by (apply Rmult_le_compat; try lra; apply Rabs_pos). lra.
  - replace (rnd (v / n) - v / l) with ((rnd (v / n) - v / n) + (v / n - v / l)) by ring. eapply Rle_trans; [apply Rabs_triang|].
    assert (u * Rabs (v / n) <= u * (7 / 6 * w)) by (apply Rmult_le_compat_l; lra).
    assert (0 <= u * w) by (apply Rmult_le_pos; lra). assert (0 <= k * (u * w)) by (apply Rmult_le_pos; lra). lra.
Qed.
End Rounding.

(** Numbers close to the entries of a vector of length one. *)
Lemma length_close c d (ys es : list R) : 0 <= c <= 1 / 2 -> 0 <= d -> 4 * (INR (length es) * d) <= 1 ->
  Forall2 (fun y e => Rabs (y - e) <= c * Rabs e + d) ys es -> (forall e, In e es -> Rabs e <= 1) -> length_of es = 1 ->
  Rabs (length_of ys - 1) <= c + 2 * (INR (length es) * d).
Proof.
  intros C D N F E1 EL. set (n := INR (length es)) in *.
  assert (ES : sum_of (map (fun x => x ^ 2) es) = 1).
  { unfold length_of in EL. assert (P : 0 <= sum_of (map (fun x => x ^ 2) es)).
    { clear. induction es as [|e es IH]; cbn [map sum_of]; [lra|]. pose proof (pow2_ge_0 e). lra. }
    rewrite <- (sqrt_sqrt _ P), EL. ring. }
  assert (B : (1 - c) ^ 2 * sum_of (map (fun x => x ^ 2) es) - 2 * (1 - c) * (n * d) <= sum_of (map (fun x => x ^ 2) ys)
      <= (1 + c) ^ 2 * sum_of (map (fun x => x ^ 2) es) + 2 * (1 + c) * (n * d) + n * (d * d)).
  { unfold n. clear n N EL ES. induction F as [|y e ys es Y F IH]; [cbn; lra|].
    specialize (IH (fun z Z => E1 z (or_intror Z))). cbn [map sum_of length]. rewrite S_INR.
    set (n := INR (length es)) in *. set (s := sum_of (map (fun x => x ^ 2) es)) in *. set (s' := sum_of (map (fun x => x ^ 2) ys)) in *.
    pose proof (E1 e (or_introl eq_refl)) as E. pose proof (Rabs_pos e) as E0.
    assert (Y1 : Rabs y <= (1 + c) * Rabs e + d).
    { replace y with (e + (y - e)) by ring. eapply Rle_trans; [apply Rabs_triang|]. lra. }
    assert (Y2 : (1 - c) * Rabs e - d <= Rabs y).
    { pose proof (Rabs_triang y (e - y)) as T. replace (y + (e - y)) with e in T by ring. rewrite (Rabs_minus_sym e y) in T. lra. }
    rewrite <- (pow2_abs y), <- (pow2_abs e). set (z := Rabs e) in *. set (w := Rabs y) in *. assert (W0 : 0 <= w) by apply Rabs_pos.
    clearbody z w n s s'.
    assert (U : w ^ 2 <= (1 + c) ^ 2 * z ^ 2 + 2 * (1 + c) * d + d * d).
    { assert (A : w * w <= ((1 + c) * z + d) * ((1 + c) * z + d)) by (apply Rmult_le_compat; lra).
      assert (A2 : (1 + c) * d * z <= (1 + c) * d * 1) by (apply Rmult_le_compat_l; [apply Rmult_le_pos; lra|exact E]).
      replace (((1 + c) * z + d) * ((1 + c) * z + d)) with ((1 + c) ^ 2 * z ^ 2 + 2 * ((1 + c) * d * z) + d * d) in A by ring. replace (w ^ 2) with (w * w) by ring. lra. }
    assert (L : (1 - c) ^ 2 * z ^ 2 - 2 * (1 - c) * d <= w ^ 2).
    { assert (A2 : (1 - c) * d * z <= (1 - c) * d * 1) by (apply Rmult_le_compat_l; [apply Rmult_le_pos; lra|exact E]).
      replace (w ^ 2) with (w * w) by ring. replace ((1 - c) ^ 2 * z ^ 2) with (((1 - c) * z) * ((1 - c) * z)) by ring.
      destruct (Rle_lt_dec 0 ((1 - c) * z - d)) as [G|G].
      - assert (A : ((1 - c) * z - d) * ((1 - c) * z - d) <= w * w) by (apply Rmult_le_compat; lra).
        replace (((1 - c) * z - d) * ((1 - c) * z - d)) with (((1 - c) * z) * ((1 - c) * z) - 2 * ((1 - c) * d * z) + d * d) in A by ring.
        assert (0 <= d * d) by now apply Rmult_le_pos. lra.
      - assert (P : 0 <= (1 - c) * z) by (apply Rmult_le_pos; lra).
        assert (A : ((1 - c) * z) * ((1 - c) * z) <= ((1 - c) * z) * d) by (apply Rmult_le_compat_l; lra).
        assert (0 <= w * w) by now apply Rmult_le_pos. assert (0 <= (1 - c) * d) by (apply Rmult_le_pos; lra). lra. }
    split; lra. }
  rewrite ES in B. set (s := sum_of (map (fun x => x ^ 2) ys)) in *.
  assert (N1 : 1 <= n). { unfold n. destruct es as [|e es]; [cbn in ES; lra|]. cbn [length]. rewrite S_INR. pose proof (pos_INR (length es)). lra. }
  assert (ND : 0 <= n * d) by (apply Rmult_le_pos; lra).
  unfold length_of. fold s. apply Rabs_le. split.
  - assert (P : 1 - c - 2 * (n * d) <= sqrt s); [|lra].
    rewrite <- (sqrt_Rsqr (1 - c - 2 * (n * d))) by lra. apply sqrt_le_1_alt. unfold Rsqr.
    assert (2 * (n * d) * (n * d) <= (1 - c) * (n * d)) by (apply Rmult_le_compat_r; lra).
    replace ((1 - c - 2 * (n * d)) * (1 - c - 2 * (n * d))) with ((1 - c) ^ 2 * 1 - 4 * ((1 - c) * (n * d)) + 4 * ((n * d) * (n * d))) by ring. lra.
  - assert (P : sqrt s <= 1 + c + n * d); [|lra].
    rewrite <- (sqrt_Rsqr (1 + c + n * d)) by lra. apply sqrt_le_1_alt. unfold Rsqr.
    assert (1 * (n * (d * d)) <= n * (n * (d * d))).
    { apply Rmult_le_compat_r; [apply Rmult_le_pos; [lra|now apply Rmult_le_pos]|exact N1]. }
    replace ((1 + c + n * d) * (1 + c + n * d)) with ((1 + c) ^ 2 * 1 + 2 * (1 + c) * (n * d) + n * (n * (d * d))) by ring. lra.
Qed.
