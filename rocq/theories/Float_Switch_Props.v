(** Property C88: [smooth_switch] and its derivative rule in floating point arithmetic with infinities. *)
Require Import Reals Lra Lia ZArith Bool.
From Flocq Require Import Core FTZ Relative.
Require Import Verif.Base Verif.Radial_Model Verif.Float_Model Verif.Float_Spec Verif.Radial_Spec Verif.Radial_Proofs Verif.Float_Proofs Verif.Float_Norm_Proofs Verif.Float_Formats Verif.Float_Indexed_Spec Verif.Float_Indexed_Props Verif.Float_Radial_Model Verif.Float_Radial_Spec Verif.Float_Radial_Proofs Verif.Float_Radial_Props Verif.Float_Switch_Model Verif.Float_Switch_Spec Verif.Float_Switch_Analysis Verif.Float_Switch_Proofs.
Open Scope R_scope.

(** The value is a number between 0 and 1 (never infinite or NaN, although the exponential function may overflow), exactly 0 up to
    [x0] and exactly 1 from [x1] on, and close to the documented function everywhere. *)
Theorem C88_value u tiny huge rnd fexp x x0 x1 : rounding u tiny rnd -> wide u tiny huge rnd -> float_exp_all u tiny fexp ->
  rnd x = x -> Rabs x < huge -> x0 < x1 -> 0 < rnd (x1 - x0) < huge -> tiny <= u * (x1 - x0) ->
  exists v, float_smooth_switch rnd huge fexp u (Fin x) x0 x1 = Fin v /\ 0 <= v <= 1 /\ (x <= x0 -> v = 0) /\ (x1 <= x -> v = 1) /\ Rabs (v - switch_formula x0 x1 x) <= 192 * u.
Proof.
  intros H W X XF XH L WB WT. destruct (size_facts u tiny huge rnd H W) as ([U0 U1] & _). rewrite switch01_formula by exact L. change (float_smooth_switch rnd huge fexp u (Fin x) x0 x1) with (value u huge rnd fexp (float_rescale rnd huge (Fin x) x0 x1)).
  assert (TE : (x - x0) / (x1 - x0) * (x1 - x0) = x - x0) by (field; lra).
  destruct (rescale_cases u tiny huge rnd H W x x0 x1 L WB WT XF XH) as [(t & E & B & T0 & T1)|(s & E & B)]; rewrite E.
  - destruct (value_error u tiny huge rnd fexp H W X t) as (v & EV & V & VE & V0 & V1). exists v. split; [exact EV|]. split; [exact V|]. split; [intro C; apply V0; specialize (T0 C); lra|]. split; [intro C; apply V1; specialize (T1 C); lra|].
    replace (v - switch01 ((x - x0) / (x1 - x0))) with ((v - switch01 t) + (switch01 t - switch01 ((x - x0) / (x1 - x0)))) by ring. eapply Rle_trans; [apply Rabs_triang|]. lra.
  - rewrite (value_infinite u tiny huge rnd fexp H W). exists (if s then 1 else 0). split; [reflexivity|]. rewrite B, Rminus_eq_0, Rabs_R0. split; [destruct s; lra|]. split; [|split; [|lra]].
    + intro C. destruct s; [|reflexivity]. exfalso. unfold switch01 in B. destruct (Rle_dec ((x - x0) / (x1 - x0)) 0) as [|N]; [lra|]. assert (0 < (x - x0) / (x1 - x0) * (x1 - x0)) by (apply Rmult_lt_0_compat; lra). lra.
    + intro C. destruct s; [reflexivity|]. exfalso. unfold switch01 in B. destruct (Rle_dec ((x - x0) / (x1 - x0)) 0) as [N|_].
      * assert ((x - x0) / (x1 - x0) * (x1 - x0) <= 0 * (x1 - x0)) by (apply Rmult_le_compat_r; lra). lra.
      * destruct (Rle_dec 1 ((x - x0) / (x1 - x0))) as [|N]; [lra|]. assert ((x - x0) / (x1 - x0) * (x1 - x0) < 1 * (x1 - x0)) by (apply Rmult_lt_compat_r; lra). lra.
Qed.
Print Assumptions C88_value.

(** Also at infinity. *)
Theorem C88_infinite_argument u tiny huge rnd fexp x0 x1 : rounding u tiny rnd -> wide u tiny huge rnd -> 0 < rnd (x1 - x0) < huge ->
  float_smooth_switch rnd huge fexp u (Inf true) x0 x1 = Fin 1 /\ float_smooth_switch rnd huge fexp u (Inf false) x0 x1 = Fin 0.
Proof.
  intros H W WB. change (value u huge rnd fexp (float_rescale rnd huge (Inf true) x0 x1) = Fin 1 /\ value u huge rnd fexp (float_rescale rnd huge (Inf false) x0 x1) = Fin 0).
  rewrite !rescale_infinite by exact WB. split; now rewrite (value_infinite u tiny huge rnd fexp H W).
Qed.
Print Assumptions C88_infinite_argument.

(** The tangent output is finite: no [inf * 0] or [inf / inf] remains. *)
Theorem C88_tangent u tiny huge q rnd fexp x x0 x1 x_dot : rounding u tiny rnd -> wide u tiny huge rnd -> float_exp_all u tiny fexp -> graded u tiny huge q rnd ->
  rnd x = x -> Rabs x < huge -> x0 < x1 -> 0 < rnd (x1 - x0) < huge -> tiny <= u * (x1 - x0) ->
  32 * (Rabs x_dot / (u * u) + 1) <= huge -> 32 * (Rabs x_dot / (u * u) + 1) <= huge * (x1 - x0) ->
  exists t, float_switch_tangent rnd huge fexp u x0 x1 (Fin x) (Fin x_dot) = Fin t.
Proof.
  intros H W X G XF XH L WB WT D1 D2. destruct (size_facts u tiny huge rnd H W) as ([U0 U1] & T0 & T1 & HU & HH & HUU). assert (UU : 0 < u * u) by (apply Rmult_lt_0_compat; lra). assert (UI : 0 < / (u * u)) by now apply Rinv_0_lt_compat.
  assert (AN : a_number rnd huge (float_rescale rnd huge (Fin x) x0 x1)).
  { destruct (rescale_cases u tiny huge rnd H W x x0 x1 L WB WT XF XH) as [(t & E & _)|(s & E & _)]; [|now rewrite E]. revert E. unfold float_rescale. destruct (is_rescaled x0 x1); [|intro E; injection E as <-; now split].
    assert (EW : xround rnd huge (x1 - x0) = Fin (rnd (x1 - x0))) by (apply xbound_fin; rewrite Rabs_right; lra). rewrite EW.
    destruct (xsub rnd huge (Fin x) (Fin x0)) as [a|s|]; cbn [xdiv]; [|now destruct (Reqb _ 0)|discriminate]. destruct (Reqb _ 0); [discriminate|]. unfold xround, xbound, Rltb. destruct (Rlt_dec _ huge) as [F|]; [|discriminate]. intros _. split; [apply (rounded_twice _ _ _ _ W)|exact F]. }
  destruct (factor_bound u tiny huge rnd fexp H W X q G _ AN) as (f & EF & FB). unfold float_switch_tangent. rewrite EF. set (I := / (u * u)) in *. unfold Rdiv in D1, D2. fold I in D1, D2.
  assert (I4 : 1 <= I). { assert (u * u <= 1 / 64 * (1 / 64)) by (apply Rmult_le_compat; lra). unfold I. rewrite <- Rinv_1. apply Rinv_le_contravar; lra. }
  pose proof (Rabs_pos x_dot) as XP. assert (XI : Rabs x_dot <= Rabs x_dot * I). { assert (Rabs x_dot * 1 <= Rabs x_dot * I) by (apply Rmult_le_compat_l; lra). lra. }
  assert (IU : I * (u * u) = 1) by (unfold I; field; lra). assert (I1 : 1024 * I <= huge) by (apply (Rmult_le_reg_r (u * u)); lra).
  assert (K : exists g, (if is_rescaled x0 x1 then xdiv rnd huge (Fin x_dot) (xround rnd huge (x1 - x0)) else Fin x_dot) = Fin g /\ 24 * (Rabs g * I) <= huge).
  { destruct (is_rescaled x0 x1); [|exists x_dot; split; [reflexivity|lra]].
    assert (EW : xround rnd huge (x1 - x0) = Fin (rnd (x1 - x0))) by (apply xbound_fin; rewrite Rabs_right; lra). rewrite EW. set (D := x1 - x0) in *.
    assert (TD : tiny <= D). { assert (u * D <= 1 * D) by (apply Rmult_le_compat_r; unfold D; lra). lra. } pose proof (rnd_rel u tiny rnd H D TD) as WE. set (w := rnd D) in *. assert (UD : u * D <= 1 / 64 * D) by (apply Rmult_le_compat_r; lra).
    cbn [xdiv]. unfold Reqb. destruct (Req_EM_T w 0); [lra|].
    assert (AB : Rabs (x_dot / w) * w = Rabs x_dot). { rewrite <- (Rabs_right w) at 2 by lra. rewrite <- Rabs_mult. f_equal. field. lra. }
    pose proof (Rabs_pos (x_dot / w)) as AP. assert (GB : 31 * (Rabs (x_dot / w) * I) <= huge).
    { apply (Rmult_le_reg_r w); [lra|]. replace (31 * (Rabs (x_dot / w) * I) * w) with (31 * I * (Rabs (x_dot / w) * w)) by ring. rewrite AB. assert (huge * (63 / 64 * D) <= huge * w) by (apply Rmult_le_compat_l; lra). lra. }
    assert (AI : Rabs (x_dot / w) <= Rabs (x_dot / w) * I). { assert (Rabs (x_dot / w) * 1 <= Rabs (x_dot / w) * I) by (apply Rmult_le_compat_l; lra). lra. }
    destruct (xround_bounded u tiny huge rnd H W (x_dot / w) (Rabs (x_dot / w)) ltac:(lra) ltac:(lra)) as (EG & _ & B). exists (rnd (x_dot / w)). split; [exact EG|].
    assert (Rabs (rnd (x_dot / w)) * I <= (65 / 64 * Rabs (x_dot / w) + tiny) * I) by (apply Rmult_le_compat_r; lra). assert (tiny * I <= 1 * I) by (apply Rmult_le_compat_r; lra). lra. }
  destruct K as (g & EG & GB). rewrite EG. cbn [xmul]. pose proof (Rabs_pos g). pose proof (Rabs_pos f).
  assert (FG : Rabs (f * g) <= 8 * (Rabs g * I)). { rewrite Rabs_mult. assert (Rabs f * Rabs g <= 8 * I * Rabs g) by (apply Rmult_le_compat_r; lra). lra. }
  exists (rnd (f * g)). apply (xround_bounded u tiny huge rnd H W (f * g) (8 * (Rabs g * I)) FG). lra.
Qed.
Print Assumptions C88_tangent.

(** Without rounding the models compute the functions of the other properties. *)
Theorem C88_exact eps x x0 x1 x_dot : 0 < eps < 1 / 2 -> x0 < x1 -> exists bound, forall huge, bound < huge ->
  exists v, smooth_switch eps x x0 x1 = Ok v /\ float_smooth_switch (fun t => t) huge exp eps (Fin x) x0 x1 = Fin v /\
    float_switch_tangent (fun t => t) huge exp eps x0 x1 (Fin x) (Fin x_dot) = Fin (snd (smooth_switch_jvp eps x0 x1 x x_dot)).
Proof.
  intros EB L. set (D := x1 - x0). assert (D0 : 0 < D) by (unfold D; lra). set (t := (x - x0) / D). set (g := x_dot / D). set (S := smooth_switch_slope).
  set (s := if Rlt_dec t eps then 1 / 2 else if Rlt_dec (1 - eps) t then 1 / 2 else t).
  assert (SB : eps <= s <= 1 - eps) by (unfold s; destruct (Rlt_dec t eps); [lra|]; destruct (Rlt_dec (1 - eps) t); lra).
  set (e := exp (S * (1 / s - 1 / (1 - s)))). pose proof (exp_pos (S * (1 / s - 1 / (1 - s)))) as EP. fold e in EP. set (p := 1 / (1 + e)).
  set (z := -1 / (s * s) - 1 / ((1 - s) * (1 - s))). set (f := - S * z * e * (p * p)).
  set (v := if Rlt_dec t eps then 0 else if Rlt_dec (1 - eps) t then 1 else p). set (f' := if Rlt_dec t eps then 0 else if Rlt_dec (1 - eps) t then 0 else f).
  exists (1 + Rabs D + Rabs (x - x0) + Rabs t + Rabs g + Rabs (1 / s) + Rabs (1 / (1 - s)) + Rabs (1 / s - 1 / (1 - s)) + Rabs (S * (1 / s - 1 / (1 - s))) + Rabs e + Rabs (1 + e) + Rabs p + Rabs (v * v) + Rabs (s * s) + Rabs ((1 - s) * (1 - s))
    + Rabs (-1 / (s * s)) + Rabs (1 / ((1 - s) * (1 - s))) + Rabs z + Rabs (- S * z) + Rabs (- S * z * e) + Rabs f + Rabs (- S * z * e * (v * v)) + Rabs (f' * g) + Rabs (1 - s)). intros huge HB.
  pose proof (Rabs_pos D). pose proof (Rabs_pos (x - x0)). pose proof (Rabs_pos t). pose proof (Rabs_pos g). pose proof (Rabs_pos (1 / s)). pose proof (Rabs_pos (1 / (1 - s))). pose proof (Rabs_pos (1 / s - 1 / (1 - s))). pose proof (Rabs_pos (S * (1 / s - 1 / (1 - s)))).
  pose proof (Rabs_pos e). pose proof (Rabs_pos (1 + e)). pose proof (Rabs_pos p). pose proof (Rabs_pos (v * v)). pose proof (Rabs_pos (s * s)). pose proof (Rabs_pos ((1 - s) * (1 - s))). pose proof (Rabs_pos (-1 / (s * s))). pose proof (Rabs_pos (1 / ((1 - s) * (1 - s)))).
  pose proof (Rabs_pos z). pose proof (Rabs_pos (- S * z)). pose proof (Rabs_pos (- S * z * e)). pose proof (Rabs_pos f). pose proof (Rabs_pos (f' * g)). pose proof (Rabs_pos (- S * z * e * (v * v))). pose proof (Rabs_pos (1 - s)).
  assert (FL : forall r, Rabs r < huge -> xround (fun t => t) huge r = Fin r) by (intros; now apply xbound_fin).
  assert (RS : float_rescale (fun t => t) huge (Fin x) x0 x1 = Fin t).
  { unfold float_rescale. destruct (is_rescaled x0 x1) eqn:R.
    - cbn [xsub xneg xadd]. replace (x + - x0) with (x - x0) by ring. rewrite !FL by (fold D; lra). cbn [xdiv]. unfold Reqb. fold D. destruct (Req_EM_T D 0); [lra|]. apply FL. fold t. lra.
    - unfold is_rescaled, Reqb in R. destruct (Req_EM_T x0 0) as [E0|]; [|discriminate]. destruct (Req_EM_T x1 1) as [E1|]; [|discriminate]. f_equal. unfold t, D. rewrite E0, E1. field. }
  assert (GS : (if is_rescaled x0 x1 then xdiv (fun t => t) huge (Fin x_dot) (xround (fun t => t) huge (x1 - x0)) else Fin x_dot) = Fin g).
  { destruct (is_rescaled x0 x1) eqn:R.
    - rewrite FL by (fold D; lra). cbn [xdiv]. unfold Reqb. fold D. destruct (Req_EM_T D 0); [lra|]. apply FL. fold g. lra.
    - unfold is_rescaled, Reqb in R. destruct (Req_EM_T x0 0) as [E0|]; [|discriminate]. destruct (Req_EM_T x1 1) as [E1|]; [|discriminate]. f_equal. unfold g, D. rewrite E0, E1. field. }
  assert (LIM : xsub (fun t => t) huge (Fin 1) (Fin eps) = Fin (1 - eps)). { cbn [xsub xneg xadd]. replace (1 + - eps) with (1 - eps) by ring. apply FL. rewrite Rabs_right; lra. }
  assert (ONE : xsub (fun t => t) huge (Fin 1) (Fin s) = Fin (1 - s)). { cbn [xsub xneg xadd]. replace (1 + - s) with (1 - s) by ring. apply FL. lra. }
  assert (EX : float_switch_exp (fun t => t) huge exp (Fin s) = Fin e).
  { unfold float_switch_exp. rewrite ONE. cbn [xdiv]. unfold Reqb. destruct (Req_EM_T s 0); [lra|]. destruct (Req_EM_T (1 - s) 0); [lra|]. rewrite !FL by lra. cbn [xsub xneg xadd]. change (1 / s + - (1 / (1 - s))) with (1 / s - 1 / (1 - s)). rewrite FL by lra.
    unfold float_slope. cbn [xmul]. fold S. rewrite FL by lra. cbn [xexp]. fold e. apply xbound_fin. lra. }
  assert (PR : xdiv (fun t => t) huge (Fin 1) (xadd (fun t => t) huge (Fin 1) (Fin e)) = Fin p).
  { cbn [xadd]. rewrite FL by lra. cbn [xdiv]. unfold Reqb. destruct (Req_EM_T (1 + e) 0); [lra|]. apply FL. fold p. lra. }
  assert (SAFE : (if xltb (Fin t) (Fin eps) || xltb (Fin (1 - eps)) (Fin t) then Fin 0.5 else Fin t) = Fin s).
  { cbn [xltb]. unfold Rltb, s. destruct (Rlt_dec t eps); [cbn [orb]; f_equal; lra|]. destruct (Rlt_dec (1 - eps) t); [cbn [orb]; f_equal; lra|reflexivity]. }
  exists v. split; [rewrite smooth_switch_val by exact L; fold D; fold t; f_equal; unfold switch_val, v, p, e, s, sw; destruct (Rlt_dec t eps); [reflexivity|]; destruct (Rlt_dec (1 - eps) t); [reflexivity|]; symmetry; apply Rmult_1_l|].
  assert (VV : (if xltb (Fin t) (Fin eps) then Fin 0 else if xltb (Fin (1 - eps)) (Fin t) then Fin 1 else Fin p) = Fin v).
  { cbn [xltb]. unfold Rltb, v. destruct (Rlt_dec t eps); [reflexivity|]. now destruct (Rlt_dec (1 - eps) t). }
  split.
  - unfold float_smooth_switch. rewrite RS, LIM, SAFE, EX, PR. exact VV.
  - unfold float_switch_tangent. rewrite GS, RS. unfold float_switch_factor. rewrite LIM, SAFE, EX, PR, VV, ONE. cbn [xmul]. rewrite !FL by lra. cbn [xdiv].
    assert (SS : 0 < s * s) by (apply Rmult_lt_0_compat; lra). assert (YY : 0 < (1 - s) * (1 - s)) by (apply Rmult_lt_0_compat; lra). unfold Reqb at 1 2. destruct (Req_EM_T (s * s) 0); [lra|]. destruct (Req_EM_T ((1 - s) * (1 - s)) 0); [lra|]. rewrite !FL by lra.
    cbn [xsub xneg xadd]. change (-1 / (s * s) + - (1 / ((1 - s) * (1 - s)))) with z. rewrite FL by lra. unfold float_slope. cbn [xneg xmul]. fold S. rewrite FL by lra. cbn [xmul]. rewrite FL by lra. cbn [xmul]. rewrite FL by lra.
    rewrite switch_jvp_tan by exact L. fold D. fold t. fold g.
    assert (XF : (if (xltb (Fin t) (Fin eps) || xltb (Fin (1 - eps)) (Fin t)) || (xzero (Fin (v * v)) || xzero (Fin e)) then Fin 0 else Fin (- S * z * e * (v * v))) = Fin f').
    { cbn [xltb xzero]. unfold Rltb, f', f, v, Reqb. destruct (Rlt_dec t eps); [reflexivity|]. destruct (Rlt_dec (1 - eps) t); [reflexivity|]. cbn [orb].
      assert (PP : 0 < p) by (apply Rdiv_lt_0_compat; lra). assert (0 < p * p) by now apply Rmult_lt_0_compat. destruct (Req_EM_T (p * p) 0); [lra|]. destruct (Req_EM_T e 0); [lra|]. reflexivity. }
    rewrite XF. cbn [xmul]. rewrite FL by lra. f_equal. f_equal. unfold f'. destruct (Rlt_dec t eps) as [|N1] eqn:C1; [reflexivity|]. destruct (Rlt_dec (1 - eps) t) as [|N2] eqn:C2; [reflexivity|].
    assert (ST : s = t) by (unfold s; repeat (destruct Rlt_dec; [contradiction|]); reflexivity). unfold f, sw', z, p, e. rewrite ST in *. unfold sw. fold S. change (sqrt 3 / 2) with S. set (E := exp _) in *. field. unfold e in EP. repeat split; try lra.
Qed.
Print Assumptions C88_exact.

(** The formats; the exponential function may be correctly rounded. *)
Lemma float_exp_all_rounded u tiny rnd : rounding u tiny rnd -> float_exp_all u tiny (fun x => rnd (exp x)).
Proof.
  intro H. pose proof (unit_bounds _ _ _ H) as [U0 U1]. split; intro x; pose proof (exp_pos x) as P.
  - apply (rnd_nonneg _ _ _ H). lra.
  - pose proof (rnd_any u tiny rnd H (exp x)) as A. rewrite (Rabs_right (exp x)) in A by lra. assert (0 <= u * exp x) by (apply Rmult_le_pos; lra). lra.
Qed.
Lemma graded_format u tiny huge k rnd : rounding u tiny rnd -> rnd (bpow radix2 (k + k)) = 0 -> 4 * tiny <= bpow radix2 k -> 16 <= huge * (u * u * bpow radix2 k) -> graded u tiny huge (bpow radix2 k) rnd.
Proof.
  intros H Z T F. split; [|split; [apply bpow_gt_0|exact T]|exact F]. intros t P. rewrite <- bpow_plus. destruct (Rle_lt_dec (bpow radix2 (k + k)) t) as [|L]; [assumption|].
  pose proof (rnd_mono _ _ _ H t (bpow radix2 (k + k)) ltac:(lra)). lra.
Qed.
Theorem C88_formats :
  graded (bpow radix2 (-24)) (bpow radix2 (-126)) (bpow radix2 128) (bpow radix2 (-76)) (rounded (-149) 24) /\
  graded (bpow radix2 (-53)) (bpow radix2 (-1022)) (bpow radix2 1024) (bpow radix2 (-538)) (rounded (-1074) 53) /\
  graded (bpow radix2 (-8)) (bpow radix2 (-126)) (bpow radix2 128) (bpow radix2 (-68)) (rounded (-133) 8) /\
  graded (bpow radix2 (-24)) (bpow radix2 (-126)) (bpow radix2 128) (bpow radix2 (-76)) (flushed (-149) 24).
Proof.
  assert (S : 4 = bpow radix2 2) by (cbn; lra). assert (T : 16 = bpow radix2 4) by (cbn; lra). assert (P24 : Prec_gt_0 24) by reflexivity.
  repeat apply conj; apply graded_format; try (rewrite ?S, ?T; rewrite <- !bpow_plus; apply bpow_le; lia).
  - exact rounding_float32.
  - apply rounded_too_small. lia.
  - exact rounding_float64.
  - apply rounded_too_small. lia.
  - exact rounding_bfloat16.
  - apply rounded_too_small. lia.
  - exact rounding_float32_flushed.
  - unfold flushed. apply round_FTZ_small; [typeclasses eauto|]. rewrite Rabs_right by (apply Rle_ge, bpow_ge_0). apply bpow_lt. lia.
Qed.
Print Assumptions C88_formats.

(** In float16 the derivative is infinite at [x = 3 / 32]: [primal_out2] is not yet zero there, but the product of the other
    factors exceeds the largest number.  (The derivative is about 0.025.) *)
Lemma exp_upper : exp (268 / 32) <= 5000.
Proof.
  assert (Y : exp (1 / 32) <= 32 / 31). { pose proof (exp_ineq1_le (- (1 / 32))) as I. rewrite exp_Ropp in I. pose proof (exp_pos (1 / 32)). replace (exp (1 / 32)) with (/ / exp (1 / 32)) by (field; lra). replace (32 / 31) with (/ (31 / 32)) by field. apply Rinv_le_contravar; lra. }
  assert (PW : forall k, exp (INR k * (1 / 32)) = exp (1 / 32) ^ k). { induction k as [|k IH]; [rewrite Rmult_0_l; apply exp_0|]. rewrite S_INR, Rmult_plus_distr_r, exp_plus, Rmult_1_l, IH. cbn [pow]. ring. }
  replace (268 / 32) with (INR 268 * (1 / 32)) by (rewrite INR_IZR_INZ; cbn; lra). rewrite PW. pose proof (exp_pos (1 / 32)).
  apply Rle_trans with ((32 / 31) ^ 268); [apply pow_incr; lra|]. unfold Rdiv. rewrite Rpow_mult_distr, pow_inv, !pow_IZR. apply (Rmult_le_reg_r (IZR (31 ^ Z.of_nat 268))); [apply IZR_lt; reflexivity|].
  rewrite Rmult_assoc, Rinv_l, Rmult_1_r by (apply IZR_neq; discriminate). rewrite <- mult_IZR. apply IZR_le. vm_compute. discriminate.
Qed.
Lemma exp_lower : 1200 <= exp 8.
Proof.
  pose proof (exp_ineq1_le (1 / 4)) as I. assert (PW : forall k, exp (INR k * (1 / 4)) = exp (1 / 4) ^ k). { induction k as [|k IH]; [rewrite Rmult_0_l; apply exp_0|]. rewrite S_INR, Rmult_plus_distr_r, exp_plus, Rmult_1_l, IH. cbn [pow]. ring. }
  replace 8 with (INR 32 * (1 / 4)) by (rewrite INR_IZR_INZ; cbn; lra). rewrite PW. apply Rle_trans with ((5 / 4) ^ 32); [lra|apply pow_incr; lra].
Qed.
Theorem C88_float16 : let rnd := rounded (-24) 11 in let huge := bpow radix2 16 in let fexp := fun t => rnd (exp t) in let u := bpow radix2 (-11) in
  rnd (3 / 32) = 3 / 32 /\ (exists v, float_smooth_switch rnd huge fexp u (Fin (3 / 32)) 0 1 = Fin v /\ 0 < v < 1 / 1000) /\
  float_switch_tangent rnd huge fexp u 0 1 (Fin (3 / 32)) (Fin 1) = Inf true.
Proof.
  intros rnd huge fexp u. assert (P11 : Prec_gt_0 11) by reflexivity.
  assert (HV : huge = 65536) by (unfold huge; cbn; lra). assert (UV : u = 1 / 2048) by (unfold u; cbn; lra).
  assert (OPP : forall r, rnd (- r) = - rnd r) by (intro r; unfold rnd, rounded; apply round_NE_opp).
  assert (MONO : forall a b, a <= b -> rnd a <= rnd b) by (intros a b L; unfold rnd, rounded; apply round_le; [typeclasses eauto|typeclasses eauto|exact L]).
  assert (REL : forall r, 1 / 16384 <= r -> r - 1 / 2048 * r <= rnd r <= r + 1 / 2048 * r).
  { intros r L. pose proof (relative_error_N_FLT radix2 (-24) 11 ltac:(lia) (fun x => negb (Z.even x)) r) as E. change (round radix2 (FLT_exp (-24) 11) (Znearest (fun x : Z => negb (Z.even x))) r) with (rnd r) in E. cbn in E. rewrite (Rabs_right r) in E by lra. specialize (E ltac:(lra)). apply Rabs_le_inv in E. lra. }
  assert (FIN : forall r, 1 / 16384 <= r <= 60000 -> xround rnd huge r = Fin (rnd r) /\ r - 1 / 2048 * r <= rnd r <= r + 1 / 2048 * r).
  { intros r [L U]. pose proof (REL r L) as E. split; [|exact E]. apply xbound_fin. rewrite HV, Rabs_right; lra. }
  assert (FINN : forall r, 1 / 16384 <= r <= 60000 -> xround rnd huge (- r) = Fin (- rnd r)).
  { intros r [L U]. pose proof (REL r L) as E. unfold xround. rewrite OPP. apply xbound_fin. rewrite Rabs_Ropp, HV, Rabs_right; lra. }
  split; [replace (3 / 32) with (F2R (Float radix2 3 (-5))) by (unfold F2R; cbn; lra); now apply float16_float|].
  (* the argument of the exponential function *)
  assert (NZ : forall r, 0 < r -> Reqb r 0 = false) by (intros r P; unfold Reqb; destruct (Req_EM_T r 0); [lra|reflexivity]).
  destruct (FIN (1 / (3 / 32)) ltac:(lra)) as [EA BA]. set (a := rnd (1 / (3 / 32))) in *.
  destruct (FIN (1 + - (3 / 32)) ltac:(lra)) as [EY BY]. set (y := rnd (1 + - (3 / 32))) in *.
  assert (INV : forall r lo hi, 0 < lo -> lo <= r <= hi -> / hi <= 1 / r <= / lo). { intros r lo hi P [A B]. unfold Rdiv. rewrite Rmult_1_l. split; apply Rinv_le_contravar; lra. }
  assert (MUL : forall r s lo hi lo' hi', 0 < lo -> 0 < lo' -> lo <= r <= hi -> lo' <= s <= hi' -> lo * lo' <= r * s <= hi * hi'). { intros r s lo hi lo' hi' P P' [A B] [A' B']. split; apply Rmult_le_compat; lra. }
  pose proof (INV y (905 / 1000) (907 / 1000) ltac:(lra) ltac:(lra)) as IY.
  destruct (FIN (1 / y) ltac:(lra)) as [EC BC]. set (c := rnd (1 / y)) in *. destruct (FIN (a + - c) ltac:(lra)) as [ED BD]. set (d := rnd (a + - c)) in *.
  destruct slope_bounds as [S0 S1]. pose proof (REL smooth_switch_slope ltac:(lra)) as BS. set (sl := rnd smooth_switch_slope) in *.
  pose proof (MUL sl d (859 / 1000) (871 / 1000) (955 / 100) (958 / 100) ltac:(lra) ltac:(lra) ltac:(lra) ltac:(lra)) as SD.
  destruct (FIN (sl * d) ltac:(lra)) as [EE BE]. set (e := rnd (sl * d)) in *.
  assert (BX : 1200 <= exp e <= 5000). { split; [eapply Rle_trans; [apply exp_lower|]|eapply Rle_trans; [|apply exp_upper]]; apply exp_mono; lra. }
  destruct (FIN (exp e) ltac:(lra)) as [EP BP]. set (p := rnd (exp e)) in *.
  assert (XP : float_switch_exp rnd huge fexp (Fin (3 / 32)) = Fin p).
  { unfold float_switch_exp. cbn [xdiv]. rewrite (NZ (3 / 32)) by lra. rewrite EA. cbn [xsub xneg xadd]. rewrite EY. cbn [xdiv]. rewrite (NZ y) by lra. rewrite EC. cbn [xsub xneg xadd]. rewrite ED. unfold float_slope. cbn [xmul]. fold sl. rewrite EE. cbn [xexp]. unfold fexp. exact EP. }
  (* the value *)
  destruct (FIN (1 + p) ltac:(lra)) as [EDD BDD]. set (D := rnd (1 + p)) in *. pose proof (INV D 1190 5010 ltac:(lra) ltac:(lra)) as ID. destruct (FIN (1 / D) ltac:(lra)) as [EV BV]. set (v := rnd (1 / D)) in *.
  assert (XV : xdiv rnd huge (Fin 1) (xadd rnd huge (Fin 1) (Fin p)) = Fin v). { cbn [xadd]. rewrite EDD. cbn [xdiv]. rewrite (NZ D) by lra. exact EV. }
  assert (LIM : exists l, xsub rnd huge (Fin 1) (Fin u) = Fin l /\ 1 / 2 < l). { cbn [xsub xneg xadd]. destruct (FIN (1 + - u) ltac:(lra)) as [EL BL]. exists (rnd (1 + - u)). split; [exact EL|lra]. }
  destruct LIM as (l & EL & BL).
  assert (SM : xltb (Fin (3 / 32)) (Fin u) = false) by (cbn [xltb]; unfold Rltb; destruct (Rlt_dec (3 / 32) u); [lra|reflexivity]).
  assert (LA : xltb (Fin l) (Fin (3 / 32)) = false) by (cbn [xltb]; unfold Rltb; destruct (Rlt_dec l (3 / 32)); [lra|reflexivity]).
  assert (RS : is_rescaled 0 1 = false) by (unfold is_rescaled, Reqb; destruct (Req_EM_T 0 0); [|lra]; destruct (Req_EM_T 1 1); [reflexivity|lra]).
  split.
  { exists v. split; [|lra]. unfold float_smooth_switch, float_rescale. rewrite RS, EL, SM, LA. cbn [orb]. now rewrite XP, XV. }
  (* its square *)
  pose proof (MUL v v (1 / 5020) (1 / 1000) (1 / 5020) (1 / 1000) ltac:(lra) ltac:(lra) ltac:(lra) ltac:(lra)) as VV.
  assert (BQ : 0 < rnd (v * v) < 1).
  { pose proof (error_le_half_ulp radix2 (FLT_exp (-24) 11) (fun x => negb (Z.even x)) (v * v)) as E. change (round radix2 (FLT_exp (-24) 11) (Znearest (fun x : Z => negb (Z.even x))) (v * v)) with (rnd (v * v)) in E.
    rewrite ulp_FLT_small in E by (rewrite ?Rabs_right by lra; cbn; try lra; reflexivity). cbn in E. apply Rabs_le_inv in E. lra. }
  set (p2 := rnd (v * v)) in *. assert (XQ : xmul rnd huge (Fin v) (Fin v) = Fin p2). { cbn [xmul]. apply xbound_fin. fold p2. rewrite HV, Rabs_right; lra. }
  (* the other factors *)
  destruct (FIN (3 / 32 * (3 / 32)) ltac:(lra)) as [EX2 BX2]. set (x2 := rnd (3 / 32 * (3 / 32))) in *. pose proof (INV x2 (878 / 100000) (88 / 10000) ltac:(lra) ltac:(lra)) as IX2. destruct (FIN (1 / x2) ltac:(lra)) as [_ BZ1]. pose proof (FINN (1 / x2) ltac:(lra)) as EZ1. set (z1 := rnd (1 / x2)) in *.
  pose proof (MUL y y (905 / 1000) (907 / 1000) (905 / 1000) (907 / 1000) ltac:(lra) ltac:(lra) ltac:(lra) ltac:(lra)) as YY. destruct (FIN (y * y) ltac:(lra)) as [EY2 BY2]. set (y2 := rnd (y * y)) in *. pose proof (INV y2 (8 / 10) (9 / 10) ltac:(lra) ltac:(lra)) as IY2. destruct (FIN (1 / y2) ltac:(lra)) as [EZ2 BZ2]. set (z2 := rnd (1 / y2)) in *.
  destruct (FIN (z1 + z2) ltac:(lra)) as [_ BZ]. pose proof (FINN (z1 + z2) ltac:(lra)) as EZ. set (z := rnd (z1 + z2)) in *.
  pose proof (MUL sl z (859 / 1000) (871 / 1000) 114 116 ltac:(lra) ltac:(lra) ltac:(lra) ltac:(lra)) as SZ. destruct (FIN (sl * z) ltac:(lra)) as [EF BF]. set (f := rnd (sl * z)) in *.
  pose proof (MUL f p 97 110 1190 5010 ltac:(lra) ltac:(lra) ltac:(lra) ltac:(lra)) as FP.
  assert (OV : xmul rnd huge (Fin f) (Fin p) = Inf true).
  { cbn [xmul]. assert (B : 65536 <= rnd (f * p)). { replace 65536 with (rnd 65536); [apply MONO; lra|]. replace 65536 with (F2R (Float radix2 1 16)) by (unfold F2R; cbn; lra). now apply float16_float. }
    unfold xround, xbound, Rltb. rewrite HV, Rabs_right by lra. destruct (Rlt_dec (rnd (f * p)) 65536); [lra|]. destruct (Rlt_dec 0 (rnd (f * p))); [reflexivity|lra]. }
  unfold float_switch_tangent, float_rescale. rewrite RS. unfold float_switch_factor. rewrite EL, SM, LA. cbn [orb]. rewrite XP, XV, XQ. cbn [xzero]. rewrite (NZ p2), (NZ p) by lra. cbn [orb].
  assert (XY : xsub rnd huge (Fin 1) (Fin (3 / 32)) = Fin y) by (cbn [xsub xneg xadd]; exact EY). rewrite XY.
  replace (xmul rnd huge (xneg (float_slope rnd)) (xsub rnd huge (xdiv rnd huge (Fin (-1)) (xmul rnd huge (Fin (3 / 32)) (Fin (3 / 32)))) (xdiv rnd huge (Fin 1) (xmul rnd huge (Fin y) (Fin y))))) with (Fin f).
  - rewrite OV. cbn [xmul]. rewrite (NZ p2) by lra. unfold Rltb. destruct (Rlt_dec 0 p2); [|lra]. cbn [eqb xmul]. rewrite (NZ 1) by lra. unfold Rltb. destruct (Rlt_dec 0 1); [reflexivity|lra].
  - cbn [xmul]. rewrite EX2, EY2. cbn [xdiv]. rewrite (NZ x2), (NZ y2) by lra. replace (-1 / x2) with (- (1 / x2)) by (field; lra). rewrite EZ1, EZ2. cbn [xsub xneg xadd]. replace (- z1 + - z2) with (- (z1 + z2)) by ring. rewrite EZ.
    unfold float_slope. fold sl. cbn [xneg xmul]. replace (- sl * - z) with (sl * z) by ring. now rewrite EF.
Qed.
Print Assumptions C88_float16.

(** An instance: float32, the switch function between 1 and 3, at [x = 2] and close to the limits. *)
Example C88_instance : let rnd := rounded (-149) 24 in let fexp := fun t => rnd (exp t) in let u := bpow radix2 (-24) in let huge := bpow radix2 128 in
  (exists v, float_smooth_switch rnd huge fexp u (Fin 2) 1 3 = Fin v /\ Rabs (v - 1 / 2) <= 192 * u) /\
  (exists t, float_switch_tangent rnd huge fexp u 1 3 (Fin (1 + 2 * bpow radix2 (-23))) (Fin 1) = Fin t).
Proof.
  intros rnd fexp u huge. pose proof rounding_float32 as H. fold rnd in H. destruct C87_formats as (W & _). fold rnd in W. pose proof (float_exp_all_rounded _ _ _ H) as X. fold fexp in X. destruct C88_formats as (G & _). fold rnd in G.
  assert (P24 : Prec_gt_0 24) by reflexivity. assert (FR : forall k e, (Z.abs k < 2 ^ 24)%Z -> (-149 <= e)%Z -> rnd (F2R (Float radix2 k e)) = F2R (Float radix2 k e)). { intros k e K L. unfold rnd, rounded. apply round_generic; [typeclasses eauto|]. apply generic_format_FLT. now exists (Float radix2 k e). }
  assert (B0 : bpow radix2 100 <= bpow radix2 128) by (apply bpow_le; lia). assert (B1 : 1000000 <= bpow radix2 100) by (apply Rle_trans with (bpow radix2 20); [cbn; lra|apply bpow_le; lia]).
  assert (R2 : rnd 2 = 2). { replace 2 with (F2R (Float radix2 2 0)) by (unfold F2R; cbn; lra). now apply FR. }
  assert (T : bpow radix2 (-126) <= bpow radix2 (-24) * (3 - 1)). { assert (bpow radix2 (-126) <= bpow radix2 (-24)) by (apply bpow_le; lia). pose proof (bpow_gt_0 radix2 (-24)). lra. }
  assert (GD : 32 * (Rabs 1 / (u * u) + 1) <= huge).
  { rewrite Rabs_R1. unfold u, huge. replace (1 / (bpow radix2 (-24) * bpow radix2 (-24))) with (bpow radix2 48) by (rewrite <- bpow_plus; cbn; lra). apply Rle_trans with (bpow radix2 100); [|exact B0]. apply Rle_trans with (bpow radix2 60); [cbn; lra|apply bpow_le; lia]. }
  split.
  - destruct (C88_value _ _ _ rnd fexp 2 1 3 H W X) as (v & E & _ & _ & _ & B); try lra; [rewrite Rabs_right; lra|replace (3 - 1) with 2 by ring; lra|]. exists v. split; [exact E|].
    unfold switch_formula in B. destruct (Rle_dec 2 1); [lra|]. destruct (Rle_dec 3 2); [lra|]. replace (sqrt 3 / 2 * ((3 - 1) / (2 - 1) - (3 - 1) / (3 - 2))) with 0 in B by field. rewrite exp_0 in B. replace (/ (1 + 1)) with (1 / 2) in B by field. exact B.
  - destruct (C88_tangent _ _ _ _ rnd fexp (1 + 2 * bpow radix2 (-23)) 1 3 1 H W X G) as (t & E); try lra; try exact GD.
    + replace (1 + 2 * bpow radix2 (-23)) with (F2R (Float radix2 4194305 (-22))) by (unfold F2R; cbn; lra). apply FR; [reflexivity|lia].
    + cbn [bpow]. rewrite Rabs_right; [|cbn; lra]. apply Rle_lt_trans with 3; [cbn; lra|]. change (3 < bpow radix2 128). lra.
    + replace (3 - 1) with 2 by ring. lra.
    + unfold u, huge in GD. pose proof (bpow_gt_0 radix2 128). lra.
    + now exists t.
Qed.
