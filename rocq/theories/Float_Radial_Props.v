(** Property C87: cutoff and damping functions and their gradients in floating point arithmetic. *)
Require Import Reals Lra Lia ZArith.
From Flocq Require Import Core FTZ.
From Coquelicot Require Import Coquelicot.
Require Import Verif.Base Verif.Radial_Model Verif.Float_Model Verif.Float_Spec Verif.Radial_Spec Verif.AutoDiff_Spec Verif.AutoDiff_Model Verif.AutoDiff_Proofs Verif.AutoDiff_Radial_Props Verif.Float_Proofs Verif.Float_Norm_Proofs Verif.Float_Formats Verif.Float_Indexed_Spec Verif.Float_Indexed_Props Verif.Float_Radial_Model Verif.Float_Radial_Spec Verif.Float_Radial_Proofs Verif.Float_Damping_Proofs.
Open Scope R_scope.

(** [smooth_cutoff]: finite, between 0 and 1, exactly 0 from the cutoff on, and accurate everywhere - also near the cutoff, where
    the difference [1 - x * x] has lost its digits. *)
Theorem C87_cutoff u tiny huge rnd fexp x c : rounding u tiny rnd -> wide u tiny huge rnd -> float_exp u tiny fexp ->
  rnd x = x -> 0 <= x -> 0 < c -> 4 * x <= huge * c -> 4 * x <= huge ->
  exists v exact, float_smooth_cutoff rnd huge fexp x c = Some v /\ smooth_cutoff x c = Ok exact /\ 0 <= v <= 1 /\ (c <= x -> v = 0) /\ Rabs (v - exact) <= 73 * u.
Proof.
  intros H W X XF X0 C XC XH. destruct (float_cutoff_error u tiny huge rnd fexp H W X x c XF X0 C XC XH) as (v & E & V & Z & B). exists v, (cut (x / c)).
  split; [exact E|]. split; [now apply smooth_cutoff_cut|]. now repeat split.
Qed.
Print Assumptions C87_cutoff.

(** The gradient is finite and exactly 0 from the cutoff on. *)
Theorem C87_cutoff_gradient u tiny huge rnd fexp x c g : rounding u tiny rnd -> wide u tiny huge rnd -> float_exp u tiny fexp ->
  rnd x = x -> 0 <= x -> 0 < c -> 4 * x <= huge * c -> 4 * x <= huge ->
  16 * (Rabs g / (u * u) + 1) <= huge -> 16 * (Rabs g / (u * u) + 1) <= huge * c ->
  exists v, float_smooth_cutoff_gradient rnd huge fexp x c g = Some v /\ (c <= x -> v = 0).
Proof. intros H W X XF X0 C XC XH G1 G2. now apply (cutoff_gradient_finite u tiny huge rnd fexp H W X). Qed.
Print Assumptions C87_cutoff_gradient.

(** [smooth_damping]: finite, between 0 and 1, and accurate everywhere - also near 0, where the difference
    [1 - exp] has lost its digits or is zero. *)
Theorem C87_damping u tiny huge rnd fexp x gamma : rounding u tiny rnd -> wide u tiny huge rnd -> float_exp u tiny fexp -> (forall t, rnd (fexp t) = fexp t) ->
  0 <= x -> 0 <= gamma -> 4 * (gamma * x) <= huge ->
  exists v, float_smooth_damping rnd huge fexp x gamma = Some v /\ 0 <= v <= 1 /\ Rabs (v - smooth_damping x gamma) <= 192 * u.
Proof. intros H W X XF X0 G XH. now apply (float_damping_error u tiny huge rnd fexp H W X XF). Qed.
Print Assumptions C87_damping.

Theorem C87_damping_gradient u tiny huge rnd fexp x gamma g : rounding u tiny rnd -> wide u tiny huge rnd -> float_exp u tiny fexp -> (forall t, rnd (fexp t) = fexp t) ->
  0 <= x -> 0 <= gamma -> 4 * (gamma * x) <= huge -> 16 * (Rabs g / (u * u) + 1) <= huge -> 16 * (Rabs g / (u * u) + 1) * gamma <= huge ->
  exists v, float_smooth_damping_gradient rnd huge fexp x gamma g = Some v.
Proof. intros H W X XF X0 G XH G1 G2. now apply (damping_gradient_finite u tiny huge rnd fexp H W X XF). Qed.
Print Assumptions C87_damping_gradient.

(** Without rounding the models compute the functions of the other properties and their derivatives. *)
Theorem C87_exact_cutoff c x g : 0 < c -> 0 <= x ->
  exists f d bound, (forall t, smooth_cutoff t c = Ok (f t)) /\ derivable_pt_lim f x d /\
    forall huge, bound < huge ->
      float_smooth_cutoff (fun t => t) huge exp x c = Some (f x) /\ float_smooth_cutoff_gradient (fun t => t) huge exp x c g = Some (g * d).
Proof.
  intros C X0. destruct (C81_cutoffs c C) as (f & _ & F & D & _). exists f.
  assert (FC : forall t, f t = cut (t / c)). { intro t. specialize (F t). rewrite smooth_cutoff_cut in F by exact C. now injection F. }
  destruct (D (fun _ => x) ltac:(cbn; lra)) as (_ & d & _ & DD). specialize (DD (fun n => n)). cbn in DD.
  set (s := x / c). assert (S0 : 0 <= s) by (apply Rmult_le_pos; [lra|left; now apply Rinv_0_lt_compat]).
  exists d, (Rabs s + Rabs (s * s) + Rabs (1 - s * s) + Rabs (1 / (1 - s * s)) + Rabs (1 - 1 / (1 - s * s)) + Rabs (g * bump s) + Rabs ((1 - s * s) * (1 - s * s)) + Rabs (1 / ((1 - s * s) * (1 - s * s)))
    + Rabs (g * bump s * (1 / ((1 - s * s) * (1 - s * s)))) + Rabs (g * bump s * (1 / ((1 - s * s) * (1 - s * s))) * s) + 2 * Rabs (g * bump s * (1 / ((1 - s * s) * (1 - s * s))) * s)
    + Rabs (2 * (g * bump s * (1 / ((1 - s * s) * (1 - s * s))) * s) / c) + 1).
  split; [exact F|]. split; [exact DD|]. intros huge HH.
  pose proof (Rabs_pos s); pose proof (Rabs_pos (s * s)); pose proof (Rabs_pos (1 - s * s)); pose proof (Rabs_pos (1 / (1 - s * s))); pose proof (Rabs_pos (1 - 1 / (1 - s * s))); pose proof (Rabs_pos (g * bump s));
  pose proof (Rabs_pos ((1 - s * s) * (1 - s * s))); pose proof (Rabs_pos (1 / ((1 - s * s) * (1 - s * s)))); pose proof (Rabs_pos (g * bump s * (1 / ((1 - s * s) * (1 - s * s)))));
  pose proof (Rabs_pos (g * bump s * (1 / ((1 - s * s) * (1 - s * s))) * s)); pose proof (Rabs_pos (2 * (g * bump s * (1 / ((1 - s * s) * (1 - s * s))) * s) / c)).
  assert (FL : forall t, Rabs t < huge -> fl (fun t => t) huge t = Some t) by (intros; now apply fl_exact).
  assert (SC : float_scaled (fun t => t) huge x c = Some s).
  { unfold float_scaled, Reqb. destruct (Req_EM_T c 1) as [E|]; [unfold s; rewrite E; f_equal; field|]. unfold fdiv. destruct (Req_EM_T c 0); [lra|]. apply FL. fold s. lra. }
  unfold float_smooth_cutoff, float_smooth_cutoff_gradient. rewrite SC. cbn [fbind]. rewrite FC. fold s. unfold cut, Rltb. destruct (Rlt_dec s 1) as [L|L].
  - assert (YP : 0 < 1 - s * s). { assert (s * s < 1 * 1) by (apply Rmult_le_0_lt_compat; lra). lra. }
    assert (B : float_bump (fun t => t) huge exp s = Some (1 - s * s, bump s)).
    { unfold float_bump, fmul. rewrite FL by lra. cbn [fbind]. rewrite FL by lra. cbn [fbind]. unfold fdiv. destruct (Req_EM_T (1 - s * s) 0); [lra|]. rewrite FL by lra. cbn [fbind]. rewrite FL by lra. reflexivity. }
    rewrite B. split; [reflexivity|]. unfold fmul, fadd, float_pow_m2. rewrite FL by lra. cbn [fbind]. unfold fmul. rewrite FL by lra. cbn [fbind]. unfold fdiv at 1.
    destruct (Req_EM_T ((1 - s * s) * (1 - s * s)) 0) as [Z|_]; [assert (0 < (1 - s * s) * (1 - s * s)) by (apply Rmult_lt_0_compat; lra); lra|]. rewrite FL by lra. cbn [fbind].
    set (y2 := 1 / ((1 - s * s) * (1 - s * s))) in *. set (gy := g * bump s * y2) in *.
    replace (- (g * bump s) * y2) with (- gy) by (unfold gy; ring). rewrite (FL (- gy)) by (rewrite Rabs_Ropp; lra). cbn [fbind]. replace (- - - gy * s) with (- (gy * s)) by ring. rewrite (FL (- (gy * s))) by (rewrite Rabs_Ropp; lra). cbn [fbind].
    replace (- (gy * s) + - (gy * s)) with (- (2 * (gy * s))) by ring. rewrite (FL (- (2 * (gy * s)))) by (rewrite Rabs_Ropp, Rabs_mult, (Rabs_right 2) by lra; lra). cbn [fbind].
    assert (DV : d = - (2 * (bump s * y2 * s)) / c).
    { apply (uniqueness_limite f x); [exact DD|]. apply (local_deriv (fun t => exp (1 - 1 / (1 - t / c * (t / c)))) f x _ (c - x)).
      - unfold s in L. apply (Rmult_lt_compat_r c) in L; [|exact C]. unfold Rdiv in L. rewrite Rmult_assoc, Rinv_l in L by lra. lra.
      - intros t T. rewrite FC. unfold cut, bump. destruct (Rlt_dec (t / c) 1) as [_|N]; [reflexivity|]. exfalso. apply N. apply Rabs_def2 in T. apply (Rmult_lt_reg_r c); [exact C|]. unfold Rdiv. rewrite Rmult_assoc, Rinv_l by lra. lra.
      - apply is_derive_Reals. auto_derive; [fold s; change (x * / c) with s; lra|]. change (x * / c) with s. fold s. unfold bump, y2, Rdiv. replace (1 + - (s * s)) with (1 - s * s) by ring. replace (1 + - (1 * / (1 - s * s))) with (1 - 1 * / (1 - s * s)) by ring. field. lra. }
    rewrite DV. unfold Reqb. destruct (Req_EM_T c 1) as [E|]; [rewrite E; f_equal; unfold gy; field|]. unfold fdiv. destruct (Req_EM_T c 0); [lra|].
    replace (- (2 * (gy * s)) / c) with (- (2 * (gy * s) / c)) by (field; lra). rewrite FL by (rewrite Rabs_Ropp; lra). f_equal. unfold gy. field. lra.
  - split; [reflexivity|].
    assert (DZ : d = 0).
    { apply (derivative_of_minimum f x d DD). exists 1. split; [lra|]. intros t _. rewrite !FC. fold s. unfold cut. destruct (Rlt_dec s 1); [contradiction|]. destruct (Rlt_dec (t / c) 1); [left; apply exp_pos|lra]. }
    rewrite DZ, Rmult_0_r. assert (B : float_bump (fun t => t) huge exp 0 = Some (1, 1)).
    { unfold float_bump, fmul. rewrite Rmult_0_r, FL by (rewrite Rabs_R0; lra). cbn [fbind]. rewrite Rminus_0_r, FL by (rewrite Rabs_R1; lra). cbn [fbind]. unfold fdiv. destruct (Req_EM_T 1 0); [lra|]. replace (1 / 1) with 1 by field. rewrite FL by (rewrite Rabs_R1; lra). cbn [fbind].
      rewrite Rminus_eq_0, FL by (rewrite Rabs_R0; lra). cbn [fbind]. now rewrite exp_0. }
    rewrite B. unfold fmul, fadd, float_pow_m2. rewrite Rmult_0_l, FL by (rewrite Rabs_R0; lra). cbn [fbind]. unfold fmul. rewrite Rmult_1_r, FL by (rewrite Rabs_R1; lra). cbn [fbind]. unfold fdiv at 1. destruct (Req_EM_T 1 0); [lra|].
    replace (1 / 1) with 1 by field. rewrite FL by (rewrite Rabs_R1; lra). cbn [fbind]. rewrite Ropp_0, Rmult_0_l, FL by (rewrite Rabs_R0; lra). cbn [fbind]. rewrite !Ropp_0, Rmult_0_r, FL by (rewrite Rabs_R0; lra). cbn [fbind].
    rewrite Rplus_0_r, FL by (rewrite Rabs_R0; lra). cbn [fbind]. unfold Reqb. destruct (Req_EM_T c 1); [reflexivity|]. unfold fdiv. destruct (Req_EM_T c 0); [lra|]. unfold Rdiv. rewrite Rmult_0_l. apply FL. rewrite Rabs_R0. lra.
Qed.
Print Assumptions C87_exact_cutoff.

Theorem C87_exact_damping gamma x g : 0 < gamma -> 0 < x ->
  exists d bound, derivable_pt_lim (fun t => smooth_damping t gamma) x d /\
    forall huge, bound < huge ->
      float_smooth_damping (fun t => t) huge exp x gamma = Some (smooth_damping x gamma) /\ float_smooth_damping_gradient (fun t => t) huge exp x gamma g = Some (g * d).
Proof.
  intros G X0. set (p := exp (- gamma * x)). set (D := 1 - p). set (v := exp (- p / D)).
  assert (PP : 0 < gamma * x) by (apply Rmult_lt_0_compat; lra).
  assert (P : 0 < p < 1). { split; [apply exp_pos|]. unfold p. rewrite <- exp_0. apply exp_increasing. lra. }
  assert (DP : 0 < D) by (unfold D; lra). assert (DDP : 0 < D * D) by now apply Rmult_lt_0_compat.
  set (gr := g * v). set (y2 := 1 / (D * D)). set (d := - gamma * (p * v * (- (/ D) - p * y2))).
  exists d, (Rabs (- gamma * x) + Rabs D + Rabs (D * D) + Rabs (- p / D) + Rabs gr + Rabs (gr / D) + Rabs y2 + Rabs (gr * y2) + Rabs (gr * y2 * - p) + Rabs (- (gr / D) + - - (gr * y2 * - p)) + Rabs ((- (gr / D) + - - (gr * y2 * - p)) * p) + Rabs ((- (gr / D) + - - (gr * y2 * - p)) * p * - gamma)).
  assert (V : smooth_damping x gamma = v). { rewrite damping_exact by exact DP. fold p. fold D. unfold v. f_equal. unfold D. field. unfold D in DP. lra. }
  split.
  - apply (local_deriv (fun t => exp (- exp (- gamma * t) / (1 - exp (- gamma * t)))) _ x d x X0).
    + intros t T. apply Rabs_def2 in T. assert (0 < gamma * t) by (apply Rmult_lt_0_compat; lra). assert (E : exp (- gamma * t) < 1) by (rewrite <- exp_0; apply exp_increasing; lra). rewrite damping_exact by lra. f_equal. field. lra.
    + apply is_derive_Reals. auto_derive; [fold p; unfold D in DP; lra|]. fold p. unfold d, v, y2, D. unfold D in DP. unfold Rdiv. replace (1 + - p) with (1 - p) by ring. field. lra.
  - intros huge HH.
    pose proof (Rabs_pos (- gamma * x)); pose proof (Rabs_pos D); pose proof (Rabs_pos (D * D)); pose proof (Rabs_pos (- p / D)); pose proof (Rabs_pos gr); pose proof (Rabs_pos (gr / D)); pose proof (Rabs_pos y2); pose proof (Rabs_pos (gr * y2));
    pose proof (Rabs_pos (gr * y2 * - p)); pose proof (Rabs_pos (- (gr / D) + - - (gr * y2 * - p))); pose proof (Rabs_pos ((- (gr / D) + - - (gr * y2 * - p)) * p)); pose proof (Rabs_pos ((- (gr / D) + - - (gr * y2 * - p)) * p * - gamma)).
    assert (FL : forall t, Rabs t < huge -> fl (fun t => t) huge t = Some t) by (intros; now apply fl_exact).
    assert (PA : float_damping_parts (fun t => t) huge exp x gamma = Some (p, D)). { unfold float_damping_parts, fmul. rewrite FL by lra. cbn [fbind]. fold p. fold D. rewrite FL by lra. reflexivity. }
    unfold float_smooth_damping, float_smooth_damping_gradient. rewrite PA, V. unfold fmul. rewrite (FL (D * D)) by lra. cbn [fbind]. unfold Rltb. destruct (Rlt_dec 0 (D * D)) as [_|]; [|contradiction].
    unfold fdiv at 1. destruct (Req_EM_T D 0); [lra|]. rewrite FL by lra. cbn [fbind]. split; [reflexivity|]. unfold fdiv at 1. destruct (Req_EM_T D 0); [lra|]. rewrite FL by lra. cbn [fbind]. fold v. fold gr. rewrite FL by lra. cbn [fbind].
    unfold fdiv at 1. destruct (Req_EM_T D 0); [lra|]. rewrite FL by lra. cbn [fbind]. unfold float_pow_m2, fmul. rewrite FL by lra. cbn [fbind]. unfold fdiv. destruct (Req_EM_T (D * D) 0); [lra|]. fold y2. rewrite FL by lra. cbn [fbind]. rewrite FL by lra. cbn [fbind].
    rewrite FL by lra. cbn [fbind]. unfold fadd. rewrite FL by lra. cbn [fbind]. rewrite FL by lra. cbn [fbind]. rewrite FL by lra. f_equal. unfold d, gr, Rdiv. ring.
Qed.
Print Assumptions C87_exact_damping.

(** The formats. *)
Section Format.
Variables (emin prec : Z) (huge : R).
Hypothesis P : (1 < prec)%Z.
Hypothesis E : (emin + prec <= 0)%Z.
Variable fexp : Z -> Z.
Context `{V : Valid_exp fexp}.
Variable rnd : R -> Z.
Context `{VR : Valid_rnd rnd}.
Hypothesis F0 : fexp 0%Z = (- prec)%Z.
Hypothesis F1 : (fexp 1 <= 0)%Z.
Let r := round radix2 fexp rnd.

Lemma format_one : generic_format radix2 fexp 1.
Proof using F1. change 1 with (bpow radix2 0). apply generic_format_bpow. exact F1. Qed.
Lemma pred_one : pred radix2 fexp 1 = 1 - unit_of_format prec.
Proof using F0 V. change 1 with (bpow radix2 0) at 1. rewrite pred_bpow, F0. reflexivity. Qed.
Lemma wide_format tiny : 64 * tiny <= unit_of_format prec * unit_of_format prec -> 1024 <= huge * (unit_of_format prec * unit_of_format prec) ->
  wide (unit_of_format prec) tiny huge r.
Proof using F0 F1 V VR.
  intros A B. split; [| | |exact A|exact B].
  - intro x. unfold r. apply round_generic; [exact VR|]. now apply generic_format_round.
  - intros x XF L. rewrite <- pred_one. apply pred_ge_gt; [exact V|rewrite <- XF; now apply generic_format_round|apply format_one|exact L].
  - unfold r. apply round_generic; [exact VR|]. rewrite <- pred_one. apply generic_format_pred; [exact V|apply format_one].
Qed.
End Format.

Theorem C87_formats :
  wide (bpow radix2 (-24)) (bpow radix2 (-126)) (bpow radix2 128) (rounded (-149) 24) /\
  wide (bpow radix2 (-53)) (bpow radix2 (-1022)) (bpow radix2 1024) (rounded (-1074) 53) /\
  wide (bpow radix2 (-8)) (bpow radix2 (-126)) (bpow radix2 128) (rounded (-133) 8) /\
  wide (bpow radix2 (-24)) (bpow radix2 (-126)) (bpow radix2 128) (flushed (-149) 24).
Proof.
  assert (S : 64 = bpow radix2 6) by (cbn; lra). assert (T : 1024 = bpow radix2 10) by (cbn; lra).
  assert (P24 : Prec_gt_0 24) by reflexivity. assert (P53 : Prec_gt_0 53) by reflexivity. assert (P8 : Prec_gt_0 8) by reflexivity.
  repeat apply conj.
  - apply (wide_format 24 (bpow radix2 128) (FLT_exp (-149) 24) ZnearestE); try reflexivity; try (vm_compute; discriminate); unfold unit_of_format; rewrite ?S, ?T; rewrite <- !bpow_plus; apply bpow_le; lia.
  - apply (wide_format 53 (bpow radix2 1024) (FLT_exp (-1074) 53) ZnearestE); try reflexivity; try (vm_compute; discriminate); unfold unit_of_format; rewrite ?S, ?T; rewrite <- !bpow_plus; apply bpow_le; lia.
  - apply (wide_format 8 (bpow radix2 128) (FLT_exp (-133) 8) ZnearestE); try reflexivity; try (vm_compute; discriminate); unfold unit_of_format; rewrite ?S, ?T; rewrite <- !bpow_plus; apply bpow_le; lia.
  - apply (wide_format 24 (bpow radix2 128) (FTZ_exp (-149) 24) (Zrnd_FTZ ZnearestE)); try reflexivity; try (vm_compute; discriminate); unfold unit_of_format; rewrite ?S, ?T; rewrite <- !bpow_plus; apply bpow_le; lia.
Qed.
Print Assumptions C87_formats.

(** In float16 the reciprocal of the square overflows, and zero times infinity is not a number: just below the cutoff
    the gradient of [smooth_cutoff] is not finite although its value is. *)
Lemma float16_float k e : (Z.abs k < 2 ^ 11)%Z -> (-24 <= e)%Z -> rounded (-24) 11 (F2R (Float radix2 k e)) = F2R (Float radix2 k e).
Proof. intros K L. unfold rounded. apply round_generic; [typeclasses eauto|]. apply generic_format_FLT. now exists (Float radix2 k e). Qed.
Theorem C87_float16 : let rnd := rounded (-24) 11 in let huge := bpow radix2 16 in let fexp := fun t => rnd (exp t) in let x := 1 - bpow radix2 (-11) in
  rnd x = x /\ float_smooth_cutoff rnd huge fexp x 1 = Some 0 /\ float_smooth_cutoff_gradient rnd huge fexp x 1 1 = None.
Proof.
  intros rnd huge fexp x. assert (P11 : Prec_gt_0 11) by reflexivity.
  assert (XV : x = F2R (Float radix2 2047 (-11))) by (unfold x, F2R; cbn; lra).
  assert (RX : rnd x = x) by (rewrite XV; now apply float16_float).
  assert (HV : huge = 65536) by (unfold huge; cbn; lra).
  assert (SQ : rnd (x * x) = 1 - bpow radix2 (-10)).
  { unfold rnd, rounded, round, scaled_mantissa, cexp. assert (XX : x * x = IZR 4190209 / IZR 4194304) by (unfold x; cbn; lra). rewrite (mag_unique radix2 _ 0).
    - change (FLT_exp (-24) 11 0) with (-11)%Z. change (- -11)%Z with 11%Z.
      assert (ZN : ZnearestE (x * x * bpow radix2 11) = 2046%Z). { apply Znearest_imp. rewrite XX. cbn. rewrite Rabs_right; lra. }
      rewrite ZN. unfold F2R. cbn. lra.
    - rewrite XX, Rabs_right by lra. cbn. lra. }
  assert (RI : forall k e, (Z.abs k < 2 ^ 11)%Z -> (-24 <= e)%Z -> Rabs (F2R (Float radix2 k e)) < huge -> fl rnd huge (F2R (Float radix2 k e)) = Some (F2R (Float radix2 k e))).
  { intros k e K L B. unfold rnd. rewrite fl_some; rewrite float16_float; try assumption. reflexivity. }
  assert (EX : fexp (-1023) = 0).
  { unfold fexp. apply Rle_antisym.
    - assert (R0 : rnd (bpow radix2 (-26)) = 0) by (apply rounded_too_small; lia). rewrite <- R0. unfold rnd, rounded. apply round_le; [typeclasses eauto|typeclasses eauto|].
      replace (-1023) with (- (1023)) by lra. rewrite exp_Ropp. apply Rle_trans with (/ (exp 1 ^ 26)).
      + apply Rinv_le_contravar; [apply pow_lt, exp_pos|]. assert (PW : forall k, exp 1 ^ k = exp (INR k)). { induction k as [|k IH]; [symmetry; apply exp_0|]. rewrite S_INR, Rplus_comm, exp_plus, <- IH. reflexivity. }
        rewrite PW. apply exp_mono. rewrite INR_IZR_INZ. cbn. lra.
      + change (-26)%Z with (- Z.of_nat 26)%Z. rewrite bpow_opp, bpow_powerRZ, <- pow_powerRZ. apply Rinv_le_contravar; [apply pow_lt; cbn; lra|]. apply pow_incr. pose proof exp_one_ge. cbn. lra.
    - replace 0 with (rnd 0); [|unfold rnd, rounded; apply round_0; typeclasses eauto]. unfold rnd, rounded. apply round_le; [typeclasses eauto|typeclasses eauto|]. left. apply exp_pos. }
  assert (B : float_bump rnd huge fexp x = Some (bpow radix2 (-10), 0)).
  { unfold float_bump, fmul. rewrite fl_some by (rewrite SQ, HV, Rabs_right; cbn; lra). rewrite SQ. cbn [fbind].
    replace (1 - (1 - bpow radix2 (-10))) with (F2R (Float radix2 1 (-10))) by (unfold F2R; cbn; lra). rewrite RI; [|cbn; lia|lia|unfold F2R; rewrite HV, Rabs_right; cbn; lra]. cbn [fbind]. unfold fdiv. destruct (Req_EM_T (F2R (Float radix2 1 (-10))) 0) as [Z|_]; [exfalso; revert Z; unfold F2R; cbn; lra|].
    replace (1 / F2R (Float radix2 1 (-10))) with (F2R (Float radix2 1 10)) by (unfold F2R; cbn; lra). rewrite RI; [|cbn; lia|lia|unfold F2R; rewrite HV, Rabs_right; cbn; lra]. cbn [fbind].
    replace (1 - F2R (Float radix2 1 10)) with (F2R (Float radix2 (-1023) 0)) by (unfold F2R; cbn; lra). rewrite RI; [|cbn; lia|lia|unfold F2R; rewrite HV, Rabs_left; cbn; lra]. cbn [fbind].
    replace (F2R (Float radix2 (-1023) 0)) with (-1023) by (unfold F2R; cbn; lra). rewrite EX. f_equal. f_equal. unfold F2R. cbn. lra. }
  split; [exact RX|]. unfold float_smooth_cutoff, float_smooth_cutoff_gradient, float_scaled, Reqb, Rltb. destruct (Req_EM_T 1 1) as [_|]; [|contradiction]. cbn [fbind].
  destruct (Rlt_dec x 1) as [_|N]; [|exfalso; apply N; unfold x; pose proof (bpow_gt_0 radix2 (-11)) as Q; revert Q; generalize (bpow radix2 (-11)); intros; lra]. rewrite B. split; [reflexivity|].
  unfold float_pow_m2, fmul. rewrite Rmult_0_r. assert (F0 : fl rnd huge 0 = Some 0). { assert (R0 : rnd 0 = 0) by (unfold rnd, rounded; apply round_0; typeclasses eauto). rewrite fl_some; rewrite R0; [reflexivity|]. rewrite Rabs_R0, HV. lra. }
  rewrite F0. cbn [fbind]. replace (bpow radix2 (-10) * bpow radix2 (-10)) with (F2R (Float radix2 1 (-20))) by (rewrite <- bpow_plus; unfold F2R; cbn; lra). rewrite RI; [|cbn; lia|lia|unfold F2R; rewrite HV, Rabs_right; cbn; lra]. cbn [fbind].
  unfold fdiv. destruct (Req_EM_T (F2R (Float radix2 1 (-20))) 0) as [Z|_]; [exfalso; revert Z; unfold F2R; cbn; lra|].
  replace (1 / F2R (Float radix2 1 (-20))) with (bpow radix2 20) by (unfold F2R; cbn; lra). unfold fl, Rltb. destruct (Rlt_dec (Rabs (rnd (bpow radix2 20))) huge) as [N|_]; [|reflexivity].
  exfalso. unfold rnd in N. rewrite rounded_power in N by lia. rewrite HV, Rabs_right in N by (apply Rle_ge, bpow_ge_0). cbn in N. lra.
Qed.
Print Assumptions C87_float16.

(** float32: a distance just below the cutoff and one that is almost zero. *)
Example C87_instance : let rnd := rounded (-149) 24 in let fexp := fun t => rnd (exp t) in
  (exists v, float_smooth_cutoff rnd (bpow radix2 128) fexp 1 2 = Some v /\ Rabs (v - exp (-1 / 3)) <= 73 * bpow radix2 (-24)) /\
  (exists v, float_smooth_cutoff_gradient rnd (bpow radix2 128) fexp (1 - bpow radix2 (-24)) 1 1 = Some v) /\
  (exists v, float_smooth_damping_gradient rnd (bpow radix2 128) fexp (bpow radix2 (-100)) 1 1 = Some v).
Proof.
  intros rnd fexp. pose proof rounding_float32 as H. fold rnd in H. destruct C87_formats as (W & _). fold rnd in W. pose proof (float_exp_rounded _ _ _ H) as X. fold fexp in X.
  assert (B0 : bpow radix2 100 <= bpow radix2 128) by (apply bpow_le; lia). assert (B1 : 1000000 <= bpow radix2 100) by (apply Rle_trans with (bpow radix2 20); [cbn; lra|apply bpow_le; lia]).
  assert (G : 16 * (Rabs 1 / (bpow radix2 (-24) * bpow radix2 (-24)) + 1) <= bpow radix2 128).
  { rewrite Rabs_R1. replace (1 / (bpow radix2 (-24) * bpow radix2 (-24))) with (bpow radix2 48) by (rewrite <- bpow_plus; cbn; lra).
    apply Rle_trans with (bpow radix2 100); [|exact B0]. apply Rle_trans with (bpow radix2 60); [cbn; lra|apply bpow_le; lia]. }
  repeat apply conj.
  - destruct (C87_cutoff _ _ _ rnd fexp 1 2 H W X) as (v & e & E & EX & _ & _ & B); try lra; [apply (rnd_one _ _ _ H)|]. exists v. split; [exact E|].
    rewrite smooth_cutoff_cut in EX by lra. injection EX as <-. unfold cut, bump in B. destruct (Rlt_dec (1 / 2) 1); [|lra]. replace (1 - 1 / (1 - 1 / 2 * (1 / 2))) with (-1 / 3) in B by field. exact B.
  - pose proof (bpow_gt_0 radix2 (-24)). assert (bpow radix2 (-24) <= 1) by (change 1 with (bpow radix2 0); apply bpow_le; lia).
    destruct (C87_cutoff_gradient _ _ _ rnd fexp (1 - bpow radix2 (-24)) 1 1 H W X) as (v & E & _); try lra; [apply (one_below _ _ _ _ W)|]. now exists v.
  - pose proof (bpow_gt_0 radix2 (-100)). assert (bpow radix2 (-100) <= 1) by (change 1 with (bpow radix2 0); apply bpow_le; lia).
    destruct (C87_damping_gradient _ _ _ rnd fexp (bpow radix2 (-100)) 1 1 H W X) as (v & E); try lra; [intro t; apply (rounded_twice _ _ _ _ W)|]. now exists v.
Qed.
