(** Proofs for C87: [smooth_damping]. *)
Require Import Reals Lra Lia.
Require Import Verif.Base Verif.Radial_Model Verif.Float_Model Verif.Float_Spec Verif.Float_Proofs Verif.Float_Indexed_Spec Verif.Float_Softmax_Proofs Verif.Float_Radial_Model Verif.Float_Radial_Spec Verif.Float_Radial_Proofs.
Open Scope R_scope.

(** The exact function. *)
Lemma exp_le_inv t : 0 <= t -> exp (- t) <= / (1 + t).
Proof. intro T. rewrite exp_Ropp. apply Rinv_le_contravar; [lra|]. apply exp_ineq1_le. Qed.
Lemma damping_exact x gamma : 0 < 1 - exp (- gamma * x) -> smooth_damping x gamma = exp (- (1 / (1 - exp (- gamma * x)) - 1)).
Proof.
  intro D. unfold smooth_damping, Rltb. set (p := exp (- gamma * x)) in *. destruct (Rlt_dec 0 ((1 - p) * (1 - p))) as [_|N]; [|exfalso; apply N; now apply Rmult_lt_0_compat].
  f_equal. field. lra.
Qed.
Lemma damping_small x gamma : 0 <= 1 - exp (- gamma * x) -> 0 <= smooth_damping x gamma <= 1 - exp (- gamma * x).
Proof.
  intros [D|D].
  - rewrite damping_exact by exact D. set (d := 1 - exp (- gamma * x)) in *. assert (D1 : d < 1) by (unfold d; pose proof (exp_pos (- gamma * x)); lra).
    assert (I : 1 <= 1 / d). { apply (Rmult_le_reg_r d); [exact D|]. unfold Rdiv. rewrite Rmult_assoc, Rinv_l by lra. lra. }
    split; [left; apply exp_pos|]. eapply Rle_trans; [apply exp_le_inv; lra|]. replace (1 + (1 / d - 1)) with (/ d) by (field; lra). rewrite Rinv_inv. lra.
  - unfold smooth_damping, Rltb. rewrite <- D, Rmult_0_r. destruct (Rlt_dec 0 0); lra.
Qed.

Section Rounding.
Variables (u tiny huge : R) (rnd fexp : R -> R).
Hypothesis H : rounding u tiny rnd.
Hypothesis W : wide u tiny huge rnd.
Hypothesis X : float_exp u tiny fexp.
Hypothesis XF : forall x, rnd (fexp x) = fexp x.
Let size := size_facts u tiny huge rnd H W.
Let fl_bounded := fl_bounded u tiny huge rnd H W.
Let rnd_rel := rnd_rel u tiny rnd H.

Lemma damping_parts x gamma : 0 <= x -> 0 <= gamma -> 4 * (gamma * x) <= huge ->
  exists e d, float_damping_parts rnd huge fexp x gamma = Some (e, d) /\ 0 <= e <= 1 /\ Rabs (e - exp (- gamma * x)) <= 10 * u /\
    (e = 1 /\ d = 0 \/ e <= 1 - u /\ 63 / 64 * u <= d <= 1 /\ Rabs (d - (1 - e)) <= u * (1 - e)).
Proof using H W X XF size fl_bounded rnd_rel.
  intros X0 G XH. destruct size as ([U0 U1] & T0 & T1 & HU & HH & HUU). unfold float_damping_parts, fmul.
  assert (P : 0 <= gamma * x) by (apply Rmult_le_pos; lra). replace (- gamma * x) with (- (gamma * x)) by ring. set (m := - (gamma * x)).
  rewrite (fl_bounded m (huge / 4)) by (unfold m; rewrite ?Rabs_Ropp, ?Rabs_right; lra). cbn [fbind].
  assert (M0 : rnd m <= 0). { pose proof (rnd_mono _ _ _ H m 0 ltac:(unfold m; lra)) as M. rewrite (rnd_zero _ _ _ H) in M. exact M. }
  set (e := fexp (rnd m)). pose proof (fexp_range _ _ _ X _ M0) as ER. fold e in ER.
  rewrite (fl_bounded (1 - e) 1) by (rewrite ?Rabs_right; lra). cbn [fbind]. exists e, (rnd (1 - e)). split; [reflexivity|]. split; [exact ER|]. split.
  - pose proof (fexp_error _ _ _ X _ M0) as FE. fold e in FE. pose proof (exp_rounded u tiny rnd H m ltac:(unfold m; lra)) as RE. pose proof (exp_le_one (- rnd m) ltac:(lra)) as EL. rewrite Ropp_involutive in EL.
    assert (u * exp (rnd m) <= u * 1) by (apply Rmult_le_compat_l; lra). replace (e - exp m) with ((e - exp (rnd m)) + (exp (rnd m) - exp m)) by ring. eapply Rle_trans; [apply Rabs_triang|]. lra.
  - destruct (Rlt_le_dec e 1) as [L|L].
    + right. pose proof (below_one _ _ _ _ W e (XF _) L) as EU. split; [exact EU|]. pose proof (rnd_rel (1 - e) ltac:(lra)) as DE.
      assert (UE : u * (1 - e) <= 1 / 64 * (1 - e)) by (apply Rmult_le_compat_r; lra). pose proof (rnd_mono _ _ _ H (1 - e) 1 ltac:(lra)) as M. rewrite (rnd_one _ _ _ H) in M.
      split; [lra|]. apply Rabs_le. lra.
    + left. assert (EQ : e = 1) by lra. rewrite EQ. split; [reflexivity|]. rewrite Rminus_eq_0. apply (rnd_zero _ _ _ H).
Qed.

Lemma mask_positive d : 63 / 64 * u <= d <= 1 -> exists q, fmul rnd huge d d = Some q /\ 0 < q.
Proof using H W size fl_bounded rnd_rel.
  intros [D0 D1]. destruct size as ([U0 U1] & T0 & T1 & HU & HH & HUU). pose proof (square_normal _ _ _ _ W) as N. assert (UP : 0 < u * u) by (apply Rmult_lt_0_compat; lra).
  assert (DD : 63 / 64 * u * (63 / 64 * u) <= d * d) by (apply Rmult_le_compat; lra). assert (DD1 : d * d <= 1 * 1) by (apply Rmult_le_compat; lra).
  unfold fmul. rewrite (fl_bounded (d * d) 1) by (rewrite ?Rabs_right; lra). exists (rnd (d * d)). split; [reflexivity|]. pose proof (rnd_rel (d * d) ltac:(lra)) as R.
  assert (UY : u * (d * d) <= 1 / 64 * (d * d)) by (apply Rmult_le_compat_r; lra). lra.
Qed.
Lemma mask_zero : fmul rnd huge 0 0 = Some 0.
Proof using H W size. destruct size as ([U0 U1] & T0 & T1 & HU & HH & HUU). unfold fmul. rewrite Rmult_0_r, fl_some; rewrite (rnd_zero _ _ _ H); [reflexivity|rewrite Rabs_R0; lra]. Qed.

(** The quotient. *)
Lemma quotient_bounds e d : 0 <= e <= 1 - u -> 63 / 64 * u <= d <= 1 -> Rabs (d - (1 - e)) <= u * (1 - e) ->
  exists r, fdiv rnd huge (- e) d = Some r /\ r <= 0 /\ Rabs (- r - e / d) <= u * (e / d) + tiny /\ 49 / 50 / d - 101 / 100 <= - r /\ 0 <= e / d <= / d.
Proof using H W size fl_bounded.
  intros [E0 E1] [D0 D1] DE. destruct size as ([U0 U1] & T0 & T1 & HU & HH & HUU). assert (DP : 0 < d) by lra. unfold fdiv. destruct (Req_EM_T d 0); [lra|].
  assert (ID : 0 < / d) by now apply Rinv_0_lt_compat. assert (DI : d * / d = 1) by (field; lra).
  assert (Q0 : 0 <= e / d) by (apply Rmult_le_pos; lra). assert (Q1 : e / d <= / d). { unfold Rdiv. assert (e * / d <= 1 * / d) by (apply Rmult_le_compat_r; lra). lra. }
  assert (IU : / d * u <= 64 / 63). { apply (Rmult_le_reg_l d); [exact DP|]. rewrite <- Rmult_assoc, DI. lra. }
  assert (IH : / d <= huge / 512). { apply (Rmult_le_reg_r u); [exact U0|]. replace (huge / 512 * u) with (huge * u / 512) by field. lra. }
  replace (- e / d) with (- (e / d)) by (field; lra). rewrite (fl_bounded (- (e / d)) (huge / 512)) by (rewrite ?Rabs_Ropp, ?Rabs_right; lra). exists (rnd (- (e / d))). split; [reflexivity|].
  rewrite (rnd_opp _ _ _ H). pose proof (rnd_nonneg u tiny rnd H _ Q0) as R0. pose proof (rnd_pos u tiny rnd H _ Q0) as RE. split; [lra|]. rewrite Ropp_involutive. split; [apply Rabs_le; lra|]. split; [|lra].
  apply Rabs_le_inv in DE. assert (UE : u * (1 - e) <= 1 / 64 * (1 - e)) by (apply Rmult_le_compat_r; lra).
  assert (EL : 1 - 64 / 63 * d <= e) by lra. assert (EQ : (1 - 64 / 63 * d) * / d <= e * / d) by (apply Rmult_le_compat_r; lra). replace ((1 - 64 / 63 * d) * / d) with (/ d - 64 / 63) in EQ by (field; lra). fold (e / d) in EQ.
  assert (UQ : u * (e / d) <= 1 / 64 * (e / d)) by (apply Rmult_le_compat_r; lra). assert (I1 : 1 <= / d). { apply (Rmult_le_reg_l d); [exact DP|]. rewrite DI. lra. } unfold Rdiv at 1. lra.
Qed.

Lemma float_damping_error x gamma : 0 <= x -> 0 <= gamma -> 4 * (gamma * x) <= huge ->
  exists v, float_smooth_damping rnd huge fexp x gamma = Some v /\ 0 <= v <= 1 /\ Rabs (v - smooth_damping x gamma) <= 192 * u.
Proof using H W X XF size fl_bounded rnd_rel.
  intros X0 G XH. destruct size as ([U0 U1] & T0 & T1 & HU & HH & HUU). destruct (damping_parts x gamma X0 G XH) as (e & d & E & ER & EE & DC). unfold float_smooth_damping. rewrite E.
  set (p := exp (- gamma * x)) in *. assert (P : 0 <= gamma * x) by (apply Rmult_le_pos; lra).
  assert (P1 : 0 < p <= 1). { split; [apply exp_pos|]. unfold p. replace (- gamma * x) with (- (gamma * x)) by ring. now apply exp_le_one. }
  pose proof (damping_small x gamma ltac:(fold p; lra)) as DS. fold p in DS. apply Rabs_le_inv in EE.
  destruct DC as [[-> ->]|(EU & DB & DE)].
  - rewrite mask_zero. cbn [fbind]. unfold Rltb. destruct (Rlt_dec 0 0); [lra|]. exists 0. split; [reflexivity|]. split; [lra|]. apply Rabs_le. lra.
  - destruct (mask_positive d DB) as (q & EQ & QP). rewrite EQ. cbn [fbind]. unfold Rltb. destruct (Rlt_dec 0 q) as [_|]; [|contradiction].
    destruct (quotient_bounds e d (conj (proj1 ER) EU) DB DE) as (r & Er & R0 & RE & RL & QB). rewrite Er. cbn [fbind]. exists (fexp r). split; [reflexivity|].
    pose proof (fexp_range _ _ _ X r R0) as VR. split; [exact VR|]. pose proof (fexp_error _ _ _ X r R0) as FE. pose proof (exp_pos r) as EP. pose proof (exp_le_one (- r) ltac:(lra)) as EL. rewrite Ropp_involutive in EL.
    assert (UE : u * exp r <= u * 1) by (apply Rmult_le_compat_l; lra). apply Rabs_le_inv in DE. set (D := 1 - p) in *.
    assert (UD : u * (1 - e) <= u * 1) by (apply Rmult_le_compat_l; lra). assert (ID : 0 < / d) by (apply Rinv_0_lt_compat; lra). assert (DI : d * / d = 1) by (field; lra).
    assert (I1 : 1 <= / d). { apply (Rmult_le_reg_l d); [lra|]. rewrite DI. lra. }
    destruct (Rle_lt_dec D (24 * u)) as [L|L].
    + (* both values are small *)
      assert (ES : exp r <= 37 * u).
      { pose proof (exp_le_inv (- r) ltac:(lra)) as I. rewrite Ropp_involutive in I. eapply Rle_trans; [exact I|]. assert (DU : d <= 35 * u) by (unfold D in *; lra).
        assert (B : 96 / 100 * / d <= 1 + - r) by (unfold Rdiv in RL; lra).
        apply Rle_trans with (/ (96 / 100 * / d)); [apply Rinv_le_contravar; lra|]. rewrite Rinv_mult, Rinv_inv. lra. }
      assert (UE2 : u * exp r <= 1 / 64 * (37 * u)) by (apply Rmult_le_compat; lra). apply Rabs_le_inv in FE. apply Rabs_le. lra.
    + assert (DP : 0 < D) by lra. rewrite damping_exact by (fold p; exact DP). fold p. fold D. set (Z := 1 / D). assert (ZD : Z * D = 1) by (unfold Z; field; lra). assert (D1 : D <= 1) by (unfold D; lra).
      assert (Z1 : 1 <= Z). { apply (Rmult_le_reg_r D); [exact DP|]. lra. }
      assert (DL : 13 / 24 * D <= d) by (unfold D in *; lra). assert (DH : d <= 35 / 24 * D) by (unfold D in *; lra).
      assert (DZ : / d <= 24 / 13 * Z). { apply (Rmult_le_reg_l d); [lra|]. rewrite DI. assert (13 / 24 * D * (24 / 13 * Z) <= d * (24 / 13 * Z)) by (apply Rmult_le_compat_r; lra). lra. }
      assert (DZ2 : 24 / 35 * Z <= / d). { apply (Rmult_le_reg_l d); [lra|]. rewrite DI. assert (d * (24 / 35 * Z) <= 35 / 24 * D * (24 / 35 * Z)) by (apply Rmult_le_compat_r; lra). lra. }
      assert (QD : Rabs (e / d - (Z - 1)) <= 11 * (24 / 13) * u * (Z * Z)).
      { replace (e / d - (Z - 1)) with ((e * D - p * d) * (/ d * Z)) by (unfold Z, D; field; unfold D in DP; lra). rewrite Rabs_mult.
        assert (PP : 0 <= / d * Z) by (apply Rmult_le_pos; lra). rewrite (Rabs_right (/ d * Z)) by lra.
        assert (N : Rabs (e * D - p * d) <= 11 * u).
        { replace (e * D - p * d) with ((e - p) * D + p * (D - d)) by ring. eapply Rle_trans; [apply Rabs_triang|]. rewrite !Rabs_mult, (Rabs_right D), (Rabs_right p) by lra.
          assert (A1 : Rabs (e - p) <= 10 * u) by (apply Rabs_le; lra). assert (A2 : Rabs (D - d) <= 11 * u) by (apply Rabs_le; unfold D in *; lra).
          assert (Rabs (e - p) * D <= 11 * u * D) by (apply Rmult_le_compat_r; lra). assert (p * Rabs (D - d) <= p * (11 * u)) by (apply Rmult_le_compat_l; lra). replace (11 * u) with (11 * u * D + p * (11 * u)) by (unfold D; ring). lra. }
        assert (PQ : / d * Z <= 24 / 13 * Z * Z) by (apply Rmult_le_compat_r; lra).
        eapply Rle_trans; [apply Rmult_le_compat; [apply Rabs_pos|exact PP|exact N|exact PQ]|]. lra. }
      assert (ZZ : 1 * Z <= Z * Z) by (apply Rmult_le_compat_r; lra). assert (UZ : u * Z <= u * (Z * Z)) by (apply Rmult_le_compat_l; lra). assert (UZ1 : u * 1 <= u * Z) by (apply Rmult_le_compat_l; lra).
      assert (UQ : u * (e / d) <= u * (24 / 13 * Z)) by (apply Rmult_le_compat_l; lra).
      apply Rabs_le_inv in QD. apply Rabs_le_inv in RE. assert (AB : Rabs (- r - (Z - 1)) <= 23 * u * (Z * Z)) by (apply Rabs_le; lra).
      assert (M1 : Z / 2 - 1 <= - r) by (unfold Rdiv in RL; lra).
      pose proof (exp_gap (- r) (Z - 1) (Z / 2 - 1) M1 ltac:(lra)) as GP.
      assert (G2 : Rabs (- r - (Z - 1)) * exp (- (Z / 2 - 1)) <= 23 * u * (Z * Z) * exp (- (Z / 2 - 1))) by (apply Rmult_le_compat_r; [left; apply exp_pos|exact AB]).
      assert (G3 : u * (Z * Z * exp (- (Z / 2 - 1))) <= u * 8) by (apply Rmult_le_compat_l; [lra|apply square_exp; lra]).
      rewrite Ropp_involutive in GP. replace (fexp r - exp (- (Z - 1))) with ((fexp r - exp r) + (exp r - exp (- (Z - 1)))) by ring. eapply Rle_trans; [apply Rabs_triang|]. lra.
Qed.

Lemma damping_gradient_finite x gamma g : 0 <= x -> 0 <= gamma -> 4 * (gamma * x) <= huge ->
  16 * (Rabs g / (u * u) + 1) <= huge -> 16 * (Rabs g / (u * u) + 1) * gamma <= huge ->
  exists v, float_smooth_damping_gradient rnd huge fexp x gamma g = Some v.
Proof using H W X XF size fl_bounded rnd_rel.
  intros X0 G XH GH GC. destruct size as ([U0 U1] & T0 & T1 & HU & HH & HUU). destruct (damping_parts x gamma X0 G XH) as (e & d & E & ER & _ & DC). unfold float_smooth_damping_gradient. rewrite E.
  unfold Rdiv in GH, GC. set (i := / (u * u)) in *. assert (UP : 0 < u * u) by (apply Rmult_lt_0_compat; lra). assert (I0 : 0 < i) by now apply Rinv_0_lt_compat.
  assert (I : u * u * i = 1) by (unfold i; field; lra). pose proof (square_normal _ _ _ _ W) as N. assert (TI : tiny * i <= 1 / 64). { apply (Rmult_le_compat_r i) in N; [|lra]. rewrite I in N. lra. }
  assert (UI : u * i * u = 1) by lra. assert (UI2 : u * i <= 1 / 64 * i) by (apply Rmult_le_compat_r; lra).
  assert (I1 : 4096 <= i). { apply (Rmult_le_reg_l (u * u)); [exact UP|]. rewrite I. assert (u * u <= 1 / 64 * (1 / 64)) by (apply Rmult_le_compat; lra). lra. }
  pose proof (Rabs_pos g) as GP. set (K := Rabs g) in *. assert (GI : K * 4096 <= K * i) by (apply Rmult_le_compat_l; lra). assert (GI0 : 0 <= K * i) by (apply Rmult_le_pos; lra).
  assert (SAFE : exists q, fmul rnd huge d d = Some q /\ let mask := Rltb 0 q in let safe := if mask then d else 1 in 63 / 64 * u <= safe <= 1 /\ exists r, fdiv rnd huge (- e) safe = Some r /\ r <= 0).
  { destruct DC as [[-> ->]|(EU & DB & DE)].
    - exists 0. split; [apply mask_zero|]. cbv zeta. unfold Rltb. destruct (Rlt_dec 0 0); [lra|]. split; [lra|]. exists (-1). split; [|lra]. unfold fdiv. destruct (Req_EM_T 1 0); [lra|].
      replace (- (1) / 1) with (- (1)) by field. assert (R : rnd (- (1)) = -1) by (rewrite (rnd_opp _ _ _ H), (rnd_one _ _ _ H); lra). rewrite fl_some; rewrite R; [reflexivity|]. rewrite Rabs_left; lra.
    - destruct (mask_positive d DB) as (q & EQ & QP). exists q. split; [exact EQ|]. cbv zeta. unfold Rltb. destruct (Rlt_dec 0 q) as [_|]; [|contradiction]. split; [exact DB|].
      destruct (quotient_bounds e d (conj (proj1 ER) EU) DB DE) as (r & Er & R0 & _). now exists r. }
  destruct SAFE as (q & EQ & SB & r & Er & R0). rewrite EQ. cbn [fbind]. cbv zeta in SB, Er. set (mask := Rltb 0 q) in *. set (safe := if mask then d else 1) in *. rewrite Er. cbn [fbind].
  pose proof (fexp_range _ _ _ X r R0) as VR. set (gv := if mask then g else 0). assert (GV : Rabs gv <= K) by (unfold gv; destruct mask; [unfold K; lra|rewrite Rabs_R0; exact GP]).
  destruct (fmul_bound u tiny huge rnd H W gv (fexp r) K 1 GV) as (gr & Egr & Bgr); [rewrite Rabs_right; lra|lra|]. rewrite Egr. cbn [fbind].
  assert (SI : / safe <= 64 / 63 * (u * i)). { apply (Rmult_le_reg_r safe); [lra|]. rewrite Rinv_l by lra. assert (0 < u * i) by (apply Rmult_lt_0_compat; lra). assert (64 / 63 * (u * i) * (63 / 64 * u) <= 64 / 63 * (u * i) * safe) by (apply Rmult_le_compat_l; lra). lra. }
  assert (SP : 0 < / safe) by (apply Rinv_0_lt_compat; lra). assert (SI2 : / safe <= 1 / 63 * i) by lra.
  unfold fdiv at 1. destruct (Req_EM_T safe 0); [lra|].
  assert (BN : Rabs (gr / safe) <= (65 / 64 * (K * 1) + tiny) * (1 / 63 * i)). { unfold Rdiv. rewrite Rabs_mult, (Rabs_right (/ safe)) by lra. apply Rmult_le_compat; try apply Rabs_pos; lra. }
  destruct (fl_bound u tiny huge rnd H W (gr / safe) _ BN) as (gn & Egn & Bgn); [lra|]. rewrite Egn. cbn [fbind].
  destruct (pow_m2_bound u tiny huge rnd H W safe SB) as (y2 & Ey2 & By2). rewrite Ey2. cbn [fbind]. fold i in By2.
  destruct (fmul_bound u tiny huge rnd H W gr y2 (65 / 64 * (K * 1) + tiny) (9 / 8 * i) Bgr By2) as (t & Et & Bt); [lra|]. rewrite Et. cbn [fbind].
  assert (Bt' : Rabs t <= 5 / 4 * (K * i) + 1 / 16) by lra.
  destruct (fmul_bound u tiny huge rnd H W t (- e) (5 / 4 * (K * i) + 1 / 16) 1 Bt') as (t2 & Et2 & Bt2); [rewrite Rabs_Ropp, Rabs_right; lra|lra|]. rewrite Et2. cbn [fbind].
  set (gd := if mask then - t2 else 0). assert (GD : Rabs gd <= 3 / 2 * (K * i) + 1 / 8) by (unfold gd; destruct mask; [rewrite Rabs_Ropp; lra|rewrite Rabs_R0; lra]).
  assert (GN : Rabs gn <= 1 / 16 * (K * i) + 1 / 8) by lra.
  assert (BE : Rabs (- gn + - gd) <= 2 * (K * i) + 1 / 4). { eapply Rle_trans; [apply Rabs_triang|]. rewrite !Rabs_Ropp. lra. }
  unfold fadd. destruct (fl_bound u tiny huge rnd H W (- gn + - gd) _ BE) as (ge & Ege & Bge); [lra|]. rewrite Ege. cbn [fbind].
  assert (Bge' : Rabs ge <= 9 / 4 * (K * i) + 1 / 2) by lra.
  destruct (fmul_bound u tiny huge rnd H W ge e (9 / 4 * (K * i) + 1 / 2) 1 Bge') as (gm & Egm & Bgm); [rewrite Rabs_right; lra|lra|]. rewrite Egm. cbn [fbind].
  assert (Bgm' : Rabs gm <= 4 * (K * i + 1)) by lra.
  destruct (fmul_bound u tiny huge rnd H W gm (- gamma) (4 * (K * i + 1)) gamma Bgm') as (z & Ez & _); [rewrite Rabs_Ropp, Rabs_right; lra|lra|]. now exists z.
Qed.
End Rounding.
