(** Rounding errors of the switch function. *)
Require Import Reals Lra Bool.
Require Import Verif.Base Verif.Radial_Model Verif.Radial_Spec Verif.Radial_Proofs Verif.Float_Model Verif.Float_Spec Verif.Float_Proofs Verif.Float_Radial_Model Verif.Float_Radial_Spec Verif.Float_Radial_Proofs Verif.Float_Switch_Model Verif.Float_Switch_Spec Verif.Float_Switch_Analysis.
Open Scope R_scope.

Section Switch.
Variables (u tiny huge : R) (rnd : R -> R) (fexp : R -> R).
Hypothesis H : rounding u tiny rnd.
Hypothesis W : wide u tiny huge rnd.
Hypothesis X : float_exp_all u tiny fexp.

Lemma xbound_fin r : Rabs r < huge -> xbound huge r = Fin r.
Proof using. intro L. unfold xbound, Rltb. now destruct (Rlt_dec (Rabs r) huge). Qed.
Lemma xround_bounded x b : Rabs x <= b -> 2 * b + 2 <= huge -> xround rnd huge x = Fin (rnd x) /\ Rabs (rnd x - x) <= u * b + tiny /\ Rabs (rnd x) <= 65 / 64 * b + tiny.
Proof using H W.
  intros L B. destruct (size_facts u tiny huge rnd H W) as ([U0 U1] & T0 & T1 & _). pose proof (rnd_any u tiny rnd H x) as A. pose proof (Rabs_pos x) as P.
  assert (u * Rabs x <= 1 / 64 * Rabs x) by (apply Rmult_le_compat_r; lra). assert (u * Rabs x <= u * b) by (apply Rmult_le_compat_l; lra).
  assert (Rabs (rnd x) <= 65 / 64 * b + tiny). { replace (rnd x) with (x + (rnd x - x)) by ring. eapply Rle_trans; [apply Rabs_triang|]. lra. }
  split; [apply xbound_fin; lra|lra].
Qed.
Lemma limit_above : xsub rnd huge (Fin 1) (Fin u) = Fin (1 - u).
Proof using H W.
  destruct (size_facts u tiny huge rnd H W) as ([U0 U1] & T0 & T1 & _ & HH & _). cbn. unfold xround. replace (1 + - u) with (1 - u) by ring. rewrite (one_below _ _ _ _ W). apply xbound_fin. rewrite Rabs_right; lra.
Qed.

(** [1 / x], [1 / (1 - x)] and the argument of the exponential function. *)
Lemma complement x : u <= x <= 1 - u -> exists y, xsub rnd huge (Fin 1) (Fin x) = Fin y /\ Rabs (y - (1 - x)) <= u * (1 - x) /\ 63 / 64 * u <= y <= 1.
Proof using H W.
  intros [X0 X1]. destruct (size_facts u tiny huge rnd H W) as ([U0 U1] & T0 & T1 & _ & HH & _). exists (rnd (1 - x)). pose proof (rnd_rel u tiny rnd H (1 - x) ltac:(lra)) as E.
  assert (YU : 1 / 64 * (1 - x) >= u * (1 - x)) by (apply Rle_ge, Rmult_le_compat_r; lra).
  pose proof (rnd_mono _ _ _ H (1 - x) 1 ltac:(lra)) as M. rewrite (rnd_one _ _ _ H) in M. split; [|split; [|lra]].
  - cbn. replace (1 + - x) with (1 - x) by ring. unfold xround. apply xbound_fin. rewrite Rabs_right; lra.
  - apply Rabs_le. lra.
Qed.
Lemma argument_error x : u <= x <= 1 - u -> exists e, xmul rnd huge (float_slope rnd) (xsub rnd huge (xdiv rnd huge (Fin 1) (Fin x)) (xdiv rnd huge (Fin 1) (xsub rnd huge (Fin 1) (Fin x)))) = Fin e
  /\ Rabs (e - switch_argument x) <= 5 * u * (1 / x + 1 / (1 - x)).
Proof using H W.
  intros XB. destruct (size_facts u tiny huge rnd H W) as ([U0 U1] & T0 & T1 & HU & HH & HUU). destruct (complement x XB) as (y & EY & YE & Y0 & Y1). rewrite EY. destruct XB as [X0 X1].
  destruct (reciprocals x ltac:(lra)) as (A1 & B1 & M4 & _ & _). destruct slope_bounds as [S0 S1].
  assert (AX : 1 / x * x = 1) by (field; lra). assert (BX : 1 / (1 - x) * (1 - x) = 1) by (field; lra). unfold switch_argument. set (A := 1 / x) in *. set (B := 1 / (1 - x)) in *.
  assert (HB : forall z, 0 < z -> z * u <= 100 -> 2 * z + 2 <= huge).
  { intros z Z ZU. apply (Rmult_le_reg_r u); [lra|]. lra. }
  assert (AU : A * u <= 1). { assert (A * u <= A * x) by (apply Rmult_le_compat_l; lra). lra. }
  assert (BU : B * u <= 1). { assert (B * u <= B * (1 - x)) by (apply Rmult_le_compat_l; lra). lra. }
  assert (UA : u * A <= 1 / 64 * A) by (apply Rmult_le_compat_r; lra). assert (UB : u * B <= 1 / 64 * B) by (apply Rmult_le_compat_r; lra).
  (* the first reciprocal *)
  cbn [xdiv]. unfold Reqb. destruct (Req_EM_T x 0); [lra|]. destruct (Req_EM_T y 0); [lra|]. fold A.
  destruct (xround_bounded A A ltac:(rewrite Rabs_right; lra) ltac:(apply HB; lra)) as (EA & _ & _). rewrite EA. set (a := rnd A).
  pose proof (rnd_rel u tiny rnd H A ltac:(lra)) as AE. fold a in AE.
  (* the second one *)
  set (r := 1 / y). assert (RY : r * y = 1) by (unfold r; field; lra). assert (R0 : 0 < r) by (apply Rdiv_lt_0_compat; lra). apply Rabs_le_inv in YE.
  assert (UY : u * (1 - x) <= 1 / 64 * (1 - x)) by (apply Rmult_le_compat_r; lra).
  assert (RB : r <= 64 / 63 * B).
  { apply (Rmult_le_reg_r y); [lra|]. rewrite RY. assert (64 / 63 * B * (63 / 64 * (1 - x)) <= 64 / 63 * B * y) by (apply Rmult_le_compat_l; lra). lra. }
  assert (RE : Rabs (r - B) <= 64 / 63 * (u * B)).
  { replace (r - B) with (r * B * ((1 - x) - y)) by (replace (r * B * ((1 - x) - y)) with (r * (B * (1 - x)) - r * y * B) by ring; rewrite BX, RY; ring).
    rewrite Rabs_mult, (Rabs_right (r * B)) by (apply Rle_ge, Rmult_le_pos; lra).
    assert (Rabs (1 - x - y) <= u * (1 - x)) by (apply Rabs_le; lra).
    apply Rle_trans with (r * B * (u * (1 - x))); [apply Rmult_le_compat_l; [apply Rmult_le_pos; lra|assumption]|].
    replace (r * B * (u * (1 - x))) with (r * u * (B * (1 - x))) by ring. rewrite BX. assert (r * u <= 64 / 63 * B * u) by (apply Rmult_le_compat_r; lra). lra. }
  apply Rabs_le_inv in RE.
  assert (R1 : 1 <= r). { apply (Rmult_le_reg_r y); lra. }
  destruct (xround_bounded r r ltac:(rewrite Rabs_right; lra) ltac:(apply HB; [lra|assert (r * u <= 64 / 63 * B * u) by (apply Rmult_le_compat_r; lra); lra])) as (EC & _ & _). rewrite EC. set (c := rnd r).
  pose proof (rnd_rel u tiny rnd H r ltac:(lra)) as CE. fold c in CE. assert (UR : u * r <= u * (64 / 63 * B)) by (apply Rmult_le_compat_l; lra).
  assert (UAP : 0 < u * A) by (apply Rmult_lt_0_compat; lra). assert (UBP : 0 < u * B) by (apply Rmult_lt_0_compat; lra).
  (* the difference *)
  set (M := A + B) in *. assert (UM : u * M = u * A + u * B) by (unfold M; ring). assert (MU : M * u <= 2) by lra. assert (TM : 16000 * tiny <= u * M). { assert (u * 4 <= u * M) by (apply Rmult_le_compat_l; lra). lra. }
  cbn [xsub xneg xadd]. assert (ACB : Rabs (a + - c) <= 26 / 25 * M). { apply Rabs_le. unfold M. lra. }
  destruct (xround_bounded (a + - c) (26 / 25 * M) ACB ltac:(apply HB; lra)) as (ED & DE & _). rewrite ED. set (d := rnd (a + - c)) in *. apply Rabs_le_inv in DE.
  assert (DD : Rabs (d - (A - B)) <= 31 / 10 * (u * M)). { apply Rabs_le. lra. }
  assert (DM : Rabs d <= 21 / 20 * M). { apply Rabs_le_inv in DD. apply Rabs_le. assert (u * M <= 1 / 64 * M) by (apply Rmult_le_compat_r; lra). unfold M in *. lra. }
  (* the product *)
  unfold float_slope. cbn [xmul]. set (S := rnd smooth_switch_slope). pose proof (rnd_rel u tiny rnd H smooth_switch_slope ltac:(lra)) as SE. fold S in SE.
  assert (US : u * smooth_switch_slope <= u * (87 / 100)) by (apply Rmult_le_compat_l; lra).
  assert (SD : Rabs (S * d) <= 93 / 100 * M). { rewrite Rabs_mult, (Rabs_right S) by lra. pose proof (Rabs_pos d). apply Rle_trans with (885 / 1000 * (21 / 20 * M)); [apply Rmult_le_compat; lra|lra]. }
  destruct (xround_bounded (S * d) (93 / 100 * M) SD ltac:(apply HB; lra)) as (EE & E1 & _). rewrite EE. set (e := rnd (S * d)) in *. exists e. split; [reflexivity|].
  replace (e - smooth_switch_slope * (A - B)) with ((e - S * d) + ((S - smooth_switch_slope) * d + smooth_switch_slope * (d - (A - B)))) by ring.
  eapply Rle_trans; [apply Rabs_triang|]. assert (P1 : Rabs ((S - smooth_switch_slope) * d) <= 87 / 100 * u * (21 / 20 * M)).
  { rewrite Rabs_mult. assert (Rabs (S - smooth_switch_slope) <= 87 / 100 * u) by (apply Rabs_le; lra). apply Rmult_le_compat; try apply Rabs_pos; lra. }
  assert (P2 : Rabs (smooth_switch_slope * (d - (A - B))) <= 87 / 100 * (31 / 10 * (u * M))).
  { rewrite Rabs_mult, (Rabs_right smooth_switch_slope) by lra. apply Rmult_le_compat; try apply Rabs_pos; lra. }
  pose proof (Rabs_triang ((S - smooth_switch_slope) * d) (smooth_switch_slope * (d - (A - B)))). lra.
Qed.

(** [1 / (1 + exp)]. *)
Lemma division_error e : exists v, xdiv rnd huge (Fin 1) (xadd rnd huge (Fin 1) (xexp huge fexp (Fin e))) = Fin v /\ 0 <= v <= 1 /\ Rabs (v - logistic e) <= 8 * u /\
  (v = 0 \/ exists p, xexp huge fexp (Fin e) = Fin p /\ 0 <= p /\ p * (v - tiny) <= 5 / 4).
Proof using H W X.
  destruct (size_facts u tiny huge rnd H W) as ([U0 U1] & T0 & T1 & HU & HH & HUU). pose proof (logistic_range e) as [L0 L1]. pose proof (exp_pos e) as EP.
  pose proof (fexp_nonneg _ _ _ X e) as FP. pose proof (Rabs_le_inv _ _ (fexp_accurate _ _ _ X e)) as FE. assert (UE : u * exp e <= 1 / 64 * exp e) by (apply Rmult_le_compat_r; lra).
  assert (IH : / huge < u). { apply (Rmult_lt_reg_l huge); [lra|]. rewrite Rinv_r by lra. lra. }
  assert (BIG : huge <= 2 * fexp e -> logistic e <= 8 * u).
  { intro B. assert (huge / 4 <= exp e) by lra. apply Rle_trans with (/ (huge / 4)); [apply Rinv_le_contravar; lra|]. replace (/ (huge / 4)) with (4 * / huge) by (field; lra). lra. }
  assert (OVER : huge <= 2 * fexp e -> exists v, Fin 0 = Fin v /\ 0 <= v <= 1 /\ Rabs (v - logistic e) <= 8 * u /\ (v = 0 \/ exists p, xexp huge fexp (Fin e) = Fin p /\ 0 <= p /\ p * (v - tiny) <= 5 / 4)).
  { intro B. exists 0. specialize (BIG B). rewrite Rminus_0_l, Rabs_Ropp, Rabs_right by lra. split; [reflexivity|]. split; [lra|]. split; [lra|]. now left. }
  destruct (Rlt_dec (fexp e) huge) as [F|F].
  2: { assert (EXP : xexp huge fexp (Fin e) = Inf true). { cbn [xexp]. unfold xbound, Rltb. rewrite (Rabs_right (fexp e)) by lra. destruct (Rlt_dec (fexp e) huge); [lra|]. destruct (Rlt_dec 0 (fexp e)); [reflexivity|lra]. }
       rewrite EXP in *. cbn [xadd xdiv]. apply OVER. lra. }
  assert (EXP : xexp huge fexp (Fin e) = Fin (fexp e)) by (cbn [xexp]; apply xbound_fin; rewrite Rabs_right; lra). rewrite EXP in *.
  set (p := fexp e) in *. cbn [xadd]. unfold xround. pose proof (rnd_rel u tiny rnd H (1 + p) ltac:(lra)) as DE. set (D := rnd (1 + p)) in *.
  assert (UP : u * (1 + p) <= 1 / 64 * (1 + p)) by (apply Rmult_le_compat_r; lra).
  assert (D1 : 1 <= D). { pose proof (rnd_mono _ _ _ H 1 (1 + p) ltac:(lra)) as M. now rewrite (rnd_one _ _ _ H) in M. }
  unfold xbound, Rltb. rewrite (Rabs_right D) by lra. destruct (Rlt_dec D huge) as [DF|DF].
  2: { destruct (Rlt_dec 0 D) as [_|N]; [|lra]. cbn [xdiv]. apply OVER. lra. }
  cbn [xdiv]. unfold Reqb. destruct (Req_EM_T D 0); [lra|]. set (g := 1 / D). assert (GD : g * D = 1) by (unfold g; field; lra). assert (G0 : 0 < g) by (apply Rdiv_lt_0_compat; lra).
  assert (G1 : g <= 1). { apply (Rmult_le_reg_r D); lra. }
  destruct (xround_bounded g 1 ltac:(rewrite Rabs_right; lra) ltac:(lra)) as (EV & _ & _). rewrite EV. set (v := rnd g).
  pose proof (rnd_any u tiny rnd H g) as VE. rewrite (Rabs_right g) in VE by lra. apply Rabs_le_inv in VE. fold v in VE.
  assert (UG : 0 <= u * g <= u * 1). { split; [apply Rmult_le_pos; lra|apply Rmult_le_compat_l; lra]. } assert (UG2 : u * g <= 1 / 64 * g) by (apply Rmult_le_compat_r; lra).
  exists v. split; [reflexivity|]. assert (V1 : v <= 1). { pose proof (rnd_mono _ _ _ H g 1 G1) as M. now rewrite (rnd_one _ _ _ H) in M. }
  split; [split; [apply (rnd_nonneg _ _ _ H); lra|exact V1]|]. split.
  - (* g against the logistic function *)
    unfold logistic. set (q := / (1 + exp e)) in *. assert (QE : q * (1 + exp e) = 1) by (unfold q; field; lra). assert (Q0 : 0 < q) by (apply Rinv_0_lt_compat; lra).
    assert (Q1 : q <= 1). { apply (Rmult_le_reg_r (1 + exp e)); lra. } assert (QX : q * exp e <= 1) by lra. assert (QP : 0 < q * exp e) by (apply Rmult_lt_0_compat; lra).
    assert (GQ : Rabs (g - q) <= 6 * u).
    { replace (g - q) with (g * q * ((1 + exp e) - D)) by (replace (g * q * (1 + exp e - D)) with (g * (q * (1 + exp e)) - g * D * q) by ring; rewrite QE, GD; ring).
      assert (DX : Rabs (1 + exp e - D) <= u * (1 + p) + (4 * u * exp e + tiny)) by (apply Rabs_le; lra).
      rewrite Rabs_mult, (Rabs_right (g * q)) by (apply Rle_ge, Rmult_le_pos; lra). apply Rle_trans with (g * q * (u * (1 + p) + (4 * u * exp e + tiny))); [apply Rmult_le_compat_l; [apply Rmult_le_pos; lra|exact DX]|].
      assert (GP : g * (1 + p) <= 64 / 63). { assert (63 / 64 * (1 + p) <= D) by lra. assert (g * (63 / 64 * (1 + p)) <= g * D) by (apply Rmult_le_compat_l; lra). lra. }
      assert (GP0 : 0 <= g * (1 + p)) by (apply Rmult_le_pos; lra).
      replace (g * q * (u * (1 + p) + (4 * u * exp e + tiny))) with (u * (q * (g * (1 + p))) + (4 * u * (g * (q * exp e)) + g * q * tiny)) by ring.
      assert (q * (g * (1 + p)) <= 1 * (64 / 63)) by (apply Rmult_le_compat; lra). assert (g * (q * exp e) <= 1 * 1) by (apply Rmult_le_compat; lra). assert (g * q <= 1 * 1) by (apply Rmult_le_compat; lra).
      assert (u * (q * (g * (1 + p))) <= u * (1 * (64 / 63))) by (apply Rmult_le_compat_l; lra). assert (4 * u * (g * (q * exp e)) <= 4 * u * (1 * 1)) by (apply Rmult_le_compat_l; lra).
      assert (g * q * tiny <= 1 * 1 * tiny) by (apply Rmult_le_compat_r; lra). lra. }
    apply Rabs_le_inv in GQ. apply Rabs_le. lra.
  - right. exists p. split; [reflexivity|]. split; [exact FP|].
    assert (PG : p * g <= 64 / 63). { assert (63 / 64 * p <= D) by lra. assert (g * (63 / 64 * p) <= g * D) by (apply Rmult_le_compat_l; lra). lra. }
    assert (p * (v - tiny) <= p * (65 / 64 * g)) by (apply Rmult_le_compat_l; lra). lra.
Qed.

Lemma inner_error x : u <= x <= 1 - u -> exists e v, float_switch_exp rnd huge fexp (Fin x) = xexp huge fexp (Fin e) /\
  xdiv rnd huge (Fin 1) (xadd rnd huge (Fin 1) (float_switch_exp rnd huge fexp (Fin x))) = Fin v /\ 0 <= v <= 1 /\ Rabs (v - sw x) <= 98 * u /\
  (v = 0 \/ exists p, xexp huge fexp (Fin e) = Fin p /\ 0 <= p /\ p * (v - tiny) <= 5 / 4).
Proof using H W X.
  intro XB. destruct (size_facts u tiny huge rnd H W) as ([U0 U1] & T0 & T1 & HU & HH & HUU). destruct (argument_error x XB) as (e & EE & E1). destruct (division_error e) as (v & EV & V & VL & VP). exists e, v.
  assert (ES : float_switch_exp rnd huge fexp (Fin x) = xexp huge fexp (Fin e)) by (unfold float_switch_exp; now rewrite EE). rewrite ES. split; [reflexivity|]. split; [exact EV|]. split; [exact V|]. split; [|exact VP].
  rewrite sw_logistic. destruct (reciprocals x ltac:(lra)) as (_ & _ & M4 & _ & _). pose proof (argument_size x ltac:(lra)) as AS. cbv zeta in AS. set (M := 1 / x + 1 / (1 - x)) in *. set (s := switch_argument x) in *.
  assert (UM : u * M <= 1 / 64 * M) by (apply Rmult_le_compat_r; lra). assert (UM0 : 0 < u * M) by (apply Rmult_lt_0_compat; lra).
  assert (G : Rabs (logistic e - logistic s) <= Rabs (e - s) * exp (- (M / 2 - 3))).
  { apply logistic_gap. apply Rabs_le_inv in E1. destruct AS as [AS|AS]; [left; lra|right; left; lra]. }
  pose proof (decay M M4) as DC. replace (- (M / 2 - 3)) with (3 - M / 2) in G by ring. pose proof (exp_pos (3 - M / 2)) as EP.
  assert (Rabs (e - s) * exp (3 - M / 2) <= 5 * u * M * exp (3 - M / 2)) by (apply Rmult_le_compat_r; lra).
  assert (u * (M * exp (3 - M / 2)) <= u * 18) by (apply Rmult_le_compat_l; lra).
  replace (v - logistic s) with ((v - logistic e) + (logistic e - logistic s)) by ring. eapply Rle_trans; [apply Rabs_triang|]. lra.
Qed.

(** The value at the rescaled argument. *)
Definition value (x : num) : num :=
  let small := xltb x (Fin u) in
  let large := xltb (xsub rnd huge (Fin 1) (Fin u)) x in
  let safe_x := if small || large then Fin 0.5 else x in
  if small then Fin 0 else if large then Fin 1 else xdiv rnd huge (Fin 1) (xadd rnd huge (Fin 1) (float_switch_exp rnd huge fexp safe_x)).
Lemma value_error t : exists v, value (Fin t) = Fin v /\ 0 <= v <= 1 /\ Rabs (v - switch01 t) <= 98 * u /\ (t < u -> v = 0) /\ (1 - u < t -> v = 1).
Proof using H W X.
  destruct (size_facts u tiny huge rnd H W) as ([U0 U1] & T0 & T1 & HU & HH & HUU). unfold value. rewrite limit_above. cbn [xltb]. unfold Rltb. destruct (Rlt_dec t u) as [S|S].
  - exists 0. split; [reflexivity|]. split; [lra|]. split; [|split; [reflexivity|lra]]. unfold switch01. destruct (Rle_dec t 0); [rewrite Rminus_eq_0, Rabs_R0; lra|]. destruct (Rle_dec 1 t); [lra|].
    pose proof (switch01_near_zero t ltac:(lra)). pose proof (sw_range t). rewrite Rabs_left1; lra.
  - destruct (Rlt_dec (1 - u) t) as [L|L].
    + exists 1. split; [reflexivity|]. split; [lra|]. split; [|split; [lra|reflexivity]]. unfold switch01. destruct (Rle_dec t 0); [lra|]. destruct (Rle_dec 1 t); [rewrite Rminus_eq_0, Rabs_R0; lra|].
      pose proof (switch01_near_zero (1 - t) ltac:(lra)) as N. rewrite sw_sym in N. pose proof (sw_range t). rewrite Rabs_right; lra.
    + cbn [orb]. destruct (inner_error t ltac:(lra)) as (e & v & _ & EV & V & VE & _). exists v. split; [exact EV|]. split; [exact V|]. split; [|split; lra]. unfold switch01. destruct (Rle_dec t 0); [lra|]. destruct (Rle_dec 1 t); [lra|]. exact VE.
Qed.
Lemma value_infinite s : value (Inf s) = Fin (if s then 1 else 0).
Proof using H W. unfold value. rewrite limit_above. now destruct s. Qed.

(** Rescaling. *)
Lemma rescale_cases x x0 x1 : x0 < x1 -> 0 < rnd (x1 - x0) < huge -> tiny <= u * (x1 - x0) -> rnd x = x -> Rabs x < huge ->
  (exists t, float_rescale rnd huge (Fin x) x0 x1 = Fin t /\ Rabs (switch01 t - switch01 ((x - x0) / (x1 - x0))) <= 87 * u /\ (x <= x0 -> t <= 0) /\ (x1 <= x -> 1 <= t)) \/
  (exists s, float_rescale rnd huge (Fin x) x0 x1 = Inf s /\ switch01 ((x - x0) / (x1 - x0)) = if s then 1 else 0).
Proof using H W.
  intros L WB WT XF XH. destruct (size_facts u tiny huge rnd H W) as ([U0 U1] & T0 & T1 & HU & HH & HUU). set (D := x1 - x0) in *. assert (D0 : 0 < D) by (unfold D; lra). set (w := rnd D) in *.
  assert (TE : (x - x0) / D * D = x - x0) by (field; lra). unfold float_rescale. destruct (is_rescaled x0 x1) eqn:R.
  2: { left. exists x. unfold is_rescaled, Reqb in R. destruct (Req_EM_T x0 0) as [E0|]; [|discriminate]. destruct (Req_EM_T x1 1) as [E1|]; [|discriminate]. split; [reflexivity|]. replace ((x - x0) / D) with x by (unfold D; rewrite E0, E1; field).
       rewrite Rminus_eq_0, Rabs_R0. split; lra. }
  fold D. assert (EW : xround rnd huge D = Fin w) by (apply xbound_fin; fold w; rewrite Rabs_right; lra). rewrite !EW. cbn [xsub xneg xadd]. replace (x + - x0) with (x - x0) by ring.
  assert (N0 : (if Reqb w 0 then true else false) = false) by (unfold Reqb; destruct (Req_EM_T w 0); [lra|reflexivity]). assert (NW : Reqb w 0 = false) by (destruct (Reqb w 0); congruence).
  assert (PW : Rltb 0 w = true) by (unfold Rltb; destruct (Rlt_dec 0 w); [reflexivity|lra]).
  set (d := rnd (x - x0)). set (tt := (x - x0) / D) in *. remember (xdiv rnd huge (xround rnd huge (x - x0)) (Fin w)) as FR eqn:EF.
  destruct (Rle_lt_dec x x0) as [C0|C0].
  { (* not above x0 *)
    assert (DN : d <= 0). { pose proof (rnd_mono _ _ _ H (x - x0) 0 ltac:(lra)) as M. now rewrite (rnd_zero _ _ _ H) in M. }
    assert (S0 : switch01 tt = 0). { unfold switch01. destruct (Rle_dec tt 0) as [|N]; [reflexivity|]. exfalso. assert (0 < tt * D) by (apply Rmult_lt_0_compat; lra). lra. }
    unfold xround in EF. fold d in EF. unfold xbound, Rltb in EF. destruct (Rlt_dec (Rabs d) huge) as [F|F].
    - cbn [xdiv] in EF. rewrite NW in EF. assert (Q : d / w <= 0). { assert (0 < / w) by (apply Rinv_0_lt_compat; lra). assert (d * / w <= 0 * / w) by (apply Rmult_le_compat_r; lra). unfold Rdiv. lra. }
      assert (RQ : rnd (d / w) <= 0). { pose proof (rnd_mono _ _ _ H (d / w) 0 Q) as M. now rewrite (rnd_zero _ _ _ H) in M. }
      unfold xround, xbound, Rltb in EF. destruct (Rlt_dec (Rabs (rnd (d / w))) huge).
      + left. exists (rnd (d / w)). split; [exact EF|]. rewrite S0. unfold switch01. destruct (Rle_dec (rnd (d / w)) 0); [|lra]. rewrite Rminus_eq_0, Rabs_R0. split; lra.
      + right. destruct (Rlt_dec 0 (rnd (d / w))); [lra|]. exists false. split; [exact EF|exact S0].
    - destruct (Rlt_dec 0 d); [lra|]. cbn [xdiv] in EF. rewrite NW, PW in EF. right. exists false. split; [exact EF|exact S0]. }
  destruct (Rle_lt_dec x1 x) as [C1|C1].
  { (* not below x1 *)
    assert (DW : w <= d) by (apply (rnd_mono _ _ _ H); unfold D; lra).
    assert (S1 : switch01 tt = 1). { assert (T : 1 <= tt) by (apply (Rmult_le_reg_r D); [lra|]; unfold D in *; lra). unfold switch01. destruct (Rle_dec tt 0); [lra|]. destruct (Rle_dec 1 tt); [reflexivity|lra]. }
    unfold xround in EF. fold d in EF. unfold xbound, Rltb in EF. destruct (Rlt_dec (Rabs d) huge) as [F|F].
    - cbn [xdiv] in EF. rewrite NW in EF. assert (Q : 1 <= d / w). { apply (Rmult_le_reg_r w); [lra|]. replace (d / w * w) with d by (field; lra). lra. }
      assert (RQ : 1 <= rnd (d / w)). { pose proof (rnd_mono _ _ _ H 1 (d / w) Q) as M. now rewrite (rnd_one _ _ _ H) in M. }
      unfold xround, xbound, Rltb in EF. destruct (Rlt_dec (Rabs (rnd (d / w))) huge).
      + left. exists (rnd (d / w)). split; [exact EF|]. rewrite S1. unfold switch01. destruct (Rle_dec (rnd (d / w)) 0); [lra|]. destruct (Rle_dec 1 (rnd (d / w))); [|lra]. rewrite Rminus_eq_0, Rabs_R0. split; lra.
      + right. destruct (Rlt_dec 0 (rnd (d / w))); [|lra]. exists true. split; [exact EF|exact S1].
    - destruct (Rlt_dec 0 d); [|lra]. cbn [xdiv] in EF. rewrite NW, PW in EF. right. exists true. split; [exact EF|exact S1]. }
  (* between *)
  left. assert (DD : 0 <= d <= w). { split; [apply (rnd_nonneg _ _ _ H); lra|apply (rnd_mono _ _ _ H); unfold D; lra]. }
  unfold xround in EF at 1. fold d in EF. rewrite (xbound_fin d) in EF by (rewrite Rabs_right; lra). cbn [xdiv] in EF. rewrite NW in EF. set (g := d / w). assert (GW : g * w = d) by (unfold g; field; lra).
  assert (G0 : 0 <= g) by (apply Rmult_le_pos; [lra|left; apply Rinv_0_lt_compat; lra]). assert (G1 : g <= 1) by (apply (Rmult_le_reg_r w); lra).
  destruct (xround_bounded g 1 ltac:(rewrite Rabs_right; lra) ltac:(lra)) as (ET & EE & _). exists (rnd g). split; [rewrite EF; exact ET|]. split; [|split; lra].
  pose proof (rnd_any u tiny rnd H (x - x0)) as DE. rewrite (Rabs_right (x - x0)) in DE by lra. fold d in DE. apply Rabs_le_inv in DE. assert (UD : u * (x - x0) <= u * D) by (apply Rmult_le_compat_l; unfold D; lra).
  assert (TD : tiny <= D). { assert (u * D <= 1 * D) by (apply Rmult_le_compat_r; lra). lra. }
  pose proof (rnd_rel u tiny rnd H D TD) as WE. fold w in WE. assert (UDD : u * D <= 1 / 64 * D) by (apply Rmult_le_compat_r; lra).
  assert (T1' : 0 <= tt <= 1). { split; [apply Rmult_le_pos; [lra|left; apply Rinv_0_lt_compat; lra]|]. apply (Rmult_le_reg_r D); [lra|]. unfold D in *. lra. }
  assert (GT : Rabs (g - tt) <= 64 / 63 * (3 * u)).
  { apply (Rmult_le_reg_r w); [lra|]. rewrite <- (Rabs_right w) at 1 by lra. rewrite <- Rabs_mult. replace ((g - tt) * w) with ((d - (x - x0)) - tt * (w - D)) by (replace ((g - tt) * w) with (g * w - tt * w) by ring; rewrite GW; replace (x - x0) with (tt * D) by exact TE; ring).
    assert (TW : Rabs (tt * (w - D)) <= 1 * (u * D)). { rewrite Rabs_mult, (Rabs_right tt) by lra. assert (Rabs (w - D) <= u * D) by (apply Rabs_le; lra). apply Rmult_le_compat; try lra. apply Rabs_pos. }
    apply Rabs_le_inv in TW. assert (63 / 64 * D <= w) by lra. assert (64 / 63 * (3 * u) * (63 / 64 * D) <= 64 / 63 * (3 * u) * w) by (apply Rmult_le_compat_l; lra). apply Rabs_le. lra. }
  eapply Rle_trans; [apply switch01_lipschitz|]. apply Rabs_le_inv in GT. apply Rabs_le_inv in EE. assert (Rabs (rnd g - tt) <= 41 / 10 * u) by (apply Rabs_le; lra). lra.
Qed.
Lemma rescale_infinite s x0 x1 : 0 < rnd (x1 - x0) < huge -> float_rescale rnd huge (Inf s) x0 x1 = Inf s.
Proof using.
  intro WB. unfold float_rescale. destruct (is_rescaled x0 x1); [|reflexivity]. unfold xround. rewrite (xbound_fin (rnd (x1 - x0))) by (rewrite Rabs_right; lra). cbn [xsub xneg xadd xdiv]. unfold Reqb. destruct (Req_EM_T (rnd (x1 - x0)) 0); [lra|].
  unfold Rltb. destruct (Rlt_dec 0 (rnd (x1 - x0))); [|lra]. now destruct s.
Qed.

(** The derivative. *)
Variable q : R.
Hypothesis G : graded u tiny huge q rnd.

Lemma fl_xround x z : fl rnd huge x = Some z -> xround rnd huge x = Fin z.
Proof using. unfold fl, xround, xbound, Rltb. destruct (Rlt_dec (Rabs (rnd x)) huge); [intro E; now injection E as ->|discriminate]. Qed.
Lemma inverse_square y : 63 / 64 * u <= y <= 1 -> exists z, xdiv rnd huge (Fin 1) (xmul rnd huge (Fin y) (Fin y)) = Fin z /\ xdiv rnd huge (Fin (-1)) (xmul rnd huge (Fin y) (Fin y)) = Fin (- z) /\ Rabs z <= 9 / 8 * / (u * u).
Proof using H W.
  intro Y. destruct (pow_m2_bound u tiny huge rnd H W y Y) as (z & E & B). exists z. unfold float_pow_m2, fmul in E. destruct (fl rnd huge (y * y)) as [p|] eqn:F; [|discriminate]. cbn [fbind] in E. apply fl_xround in F. cbn [xmul]. rewrite F. cbn [xdiv].
  unfold fdiv in E. unfold Reqb. destruct (Req_EM_T p 0); [discriminate|]. split; [now apply fl_xround|]. split; [|exact B]. replace (-1 / p) with (- (1 / p)) by (field; assumption).
  unfold fl, Rltb in E. unfold xround. rewrite (rnd_opp _ _ _ H). destruct (Rlt_dec (Rabs (rnd (1 / p))) huge) as [L|L]; [|discriminate]. injection E as <-. apply xbound_fin. now rewrite Rabs_Ropp.
Qed.

Lemma factor_bound x : a_number rnd huge x -> exists t, float_switch_factor rnd huge fexp u x = Fin t /\ Rabs t <= 8 * / (u * u).
Proof using H W X G.
  intro AN. destruct (size_facts u tiny huge rnd H W) as ([U0 U1] & T0 & T1 & HU & HH & HUU). assert (UU : 0 < u * u) by (apply Rmult_lt_0_compat; lra). assert (UI : 0 < / (u * u)) by now apply Rinv_0_lt_compat.
  assert (ZERO : exists t, Fin 0 = Fin t /\ Rabs t <= 8 * / (u * u)) by (exists 0; rewrite Rabs_R0; split; [reflexivity|lra]).
  unfold float_switch_factor. rewrite limit_above. destruct x as [x|s|]; [|destruct s; exact ZERO|contradiction]. cbn [xltb]. unfold Rltb. destruct (Rlt_dec x u) as [S|S]; [exact ZERO|]. destruct (Rlt_dec (1 - u) x) as [L|L]; [exact ZERO|]. cbn [orb].
  destruct (inner_error x ltac:(lra)) as (e & v & EE & EV & [V0 V1] & _ & VP). rewrite EV, EE. destruct (complement x ltac:(lra)) as (y & EY & _ & Y). rewrite EY.
  assert (VV : 0 <= v * v <= 1). { split; [now apply Rmult_le_pos|]. assert (v * v <= 1 * 1) by (apply Rmult_le_compat; lra). lra. }
  assert (EP : xmul rnd huge (Fin v) (Fin v) = Fin (rnd (v * v))). { cbn [xmul]. apply (xround_bounded (v * v) 1); [rewrite Rabs_right; lra|lra]. } rewrite EP. set (p2 := rnd (v * v)).
  destruct (root_normal _ _ _ _ _ G) as [Q0 QT]. pose proof (root_finite _ _ _ _ _ G) as QH. assert (P20 : 0 <= p2) by (apply (rnd_nonneg _ _ _ H); lra).
  cbn [xzero]. unfold Reqb at 1. destruct (Req_EM_T p2 0) as [Z|N]; [exact ZERO|]. cbn [orb].
  assert (VQ : q <= v). { pose proof (square_zero _ _ _ _ _ G (v * v) ltac:(fold p2; lra)) as SQ. destruct (Rle_lt_dec q v) as [|LT]; [assumption|]. assert (v * v < q * q) by (apply Rmult_le_0_lt_compat; lra). lra. }
  destruct VP as [V'|(p & XP & P0 & PV)]; [lra|]. rewrite XP. unfold xzero, Reqb. destruct (Req_EM_T p 0) as [Z|PN]; [exact ZERO|].
  assert (PV' : p * v <= 5 / 3). { assert (p * (3 / 4 * v) <= p * (v - tiny)) by (apply Rmult_le_compat_l; lra). lra. }
  assert (PQ : p * q <= 5 / 3). { assert (p * q <= p * v) by (apply Rmult_le_compat_l; lra). lra. }
  set (I := / (u * u)) in *. assert (IU : I * (u * u) = 1) by (unfold I; field; lra). assert (I1 : 1024 * I <= huge). { apply (Rmult_le_reg_r (u * u)); [lra|]. lra. }
  assert (I4 : 4096 <= I). { assert (u * u <= 1 / 64 * (1 / 64)) by (apply Rmult_le_compat; lra). apply (Rmult_le_reg_r (u * u)); lra. }
  (* the reciprocals *)
  destruct (inverse_square x ltac:(lra)) as (z1 & _ & EZ1 & Z1). destruct (inverse_square y Y) as (z2 & EZ2 & _ & Z2). fold I in Z1, Z2. rewrite EZ1, EZ2. cbn [xsub xneg xadd].
  assert (ZZ : Rabs (- z1 + - z2) <= 9 / 4 * I). { eapply Rle_trans; [apply Rabs_triang|]. rewrite !Rabs_Ropp. lra. }
  destruct (xround_bounded (- z1 + - z2) (9 / 4 * I) ZZ ltac:(lra)) as (ET & _ & TB). rewrite ET. set (d := rnd (- z1 + - z2)) in *.
  (* the slope *)
  unfold float_slope. cbn [xneg xmul]. destruct slope_bounds as [S0 S1]. pose proof (rnd_rel u tiny rnd H smooth_switch_slope ltac:(lra)) as SE. set (sl := rnd smooth_switch_slope) in *.
  assert (US : u * smooth_switch_slope <= 1 / 64 * (87 / 100)) by (apply Rmult_le_compat; lra).
  assert (SD : Rabs (- sl * d) <= 21 / 10 * I). { rewrite Rabs_mult, Rabs_Ropp, (Rabs_right sl) by lra. pose proof (Rabs_pos d). apply Rle_trans with (89 / 100 * (65 / 64 * (9 / 4 * I) + tiny)); [apply Rmult_le_compat; lra|lra]. }
  destruct (xround_bounded (- sl * d) (21 / 10 * I) SD ltac:(lra)) as (E2 & _ & B2). rewrite E2. set (f := rnd (- sl * d)) in *. cbn [xmul].
  assert (FB : Rabs f <= 11 / 5 * I) by lra.
  (* the exponential function *)
  assert (PH : 16 * (I * p) <= 5 / 3 * huge).
  { assert (16 * p <= huge * (u * u) * (5 / 3)). { assert (16 * p <= huge * (u * u * q) * p) by (apply Rmult_le_compat_r; lra). assert (huge * (u * u) * (p * q) <= huge * (u * u) * (5 / 3)) by (apply Rmult_le_compat_l; [apply Rmult_le_pos; lra|lra]). lra. }
    assert (I * (16 * p) <= I * (huge * (u * u) * (5 / 3))) by (apply Rmult_le_compat_l; lra). replace (I * (huge * (u * u) * (5 / 3))) with (huge * (5 / 3) * (I * (u * u))) in * by ring. rewrite IU in *. lra. }
  assert (IP : 0 <= I * p) by (apply Rmult_le_pos; lra).
  assert (FP : Rabs (f * p) <= 11 / 5 * (I * p)). { rewrite Rabs_mult, (Rabs_right p) by lra. assert (Rabs f * p <= 11 / 5 * I * p) by (apply Rmult_le_compat_r; lra). lra. }
  destruct (xround_bounded (f * p) (11 / 5 * (I * p)) FP ltac:(lra)) as (E3 & _ & B3). rewrite E3. set (g := rnd (f * p)) in *. cbn [xmul].
  (* the square of the function *)
  pose proof (rnd_any u tiny rnd H (v * v)) as PE. rewrite (Rabs_right (v * v)) in PE by lra. fold p2 in PE. apply Rabs_le_inv in PE. assert (UV : u * (v * v) <= 1 / 64 * (v * v)) by (apply Rmult_le_compat_r; lra).
  assert (PP : p * p2 <= 11 / 5).
  { assert (p * p2 <= p * (65 / 64 * (v * v) + 1 / 4 * q)) by (apply Rmult_le_compat_l; lra). assert (p * v * v <= 5 / 3 * 1) by (apply Rmult_le_compat; try lra; apply Rmult_le_pos; lra). lra. }
  assert (PP0 : 0 <= p * p2) by (apply Rmult_le_pos; lra).
  assert (P21 : p2 <= 1). { pose proof (rnd_mono _ _ _ H (v * v) 1 ltac:(lra)) as M. rewrite (rnd_one _ _ _ H) in M. exact M. }
  assert (GB : Rabs (g * p2) <= 5 * I).
  { rewrite Rabs_mult, (Rabs_right p2) by lra. apply Rle_trans with ((65 / 64 * (11 / 5 * (I * p)) + tiny) * p2); [apply Rmult_le_compat_r; lra|].
    replace ((65 / 64 * (11 / 5 * (I * p)) + tiny) * p2) with (143 / 64 * (I * (p * p2)) + tiny * p2) by field.
    assert (I * (p * p2) <= I * (11 / 5)) by (apply Rmult_le_compat_l; lra). assert (tiny * p2 <= tiny * 1) by (apply Rmult_le_compat_l; lra). lra. }
  destruct (xround_bounded (g * p2) (5 * I) GB ltac:(lra)) as (E4 & _ & B4). rewrite E4. exists (rnd (g * p2)). split; [reflexivity|]. lra.
Qed.
End Switch.
