(** Property C89: Bernstein polynomials and their derivatives in floating point arithmetic. *)
Require Import List Reals ZArith Lra Lia Bool.
From Flocq Require Import Core FTZ.
Require Import Verif.Base Verif.Radial_Model Verif.Radial_Spec Verif.Radial_Proofs Verif.Radial_Basis_Proofs Verif.Float_Model Verif.Float_Spec Verif.Float_Proofs Verif.Float_Norm_Proofs Verif.Float_Formats Verif.Float_Indexed_Props Verif.Float_Radial_Spec Verif.Float_Radial_Proofs Verif.Float_Radial_Props Verif.Float_Switch_Spec Verif.Float_Switch_Props Verif.Float_Bernstein_Model Verif.Float_Bernstein_Spec Verif.Float_Bernstein_Proofs Verif.Indexed_Conv_Proofs.
Import ListNotations.
Open Scope R_scope.

Section Facts.
Variables (u tiny huge beta : R) (rnd : R -> R) (fexp flog flog1p : R -> R) (lnbinom : nat -> nat -> R).
Let fb := float_bernstein rnd huge fexp flog flog1p lnbinom.

Lemma float_bernstein_ok eps x num : (1 <= num)%Z -> exists l, fb eps x num = Ok l /\ length l = Z.to_nat num /\
  forall k, (k < Z.to_nat num)%nat -> nth k l None = if (num =? 1)%Z then Some 1 else float_bernstein_entry rnd huge fexp flog flog1p lnbinom eps x (Z.to_nat num - 1) k.
Proof.
  intros HN. unfold fb, float_bernstein. destruct (Z.ltb_spec num 1); [lia|]. destruct (Z.eqb_spec num 1) as [->|N].
  - exists [Some 1]. split; [reflexivity|]. split; [reflexivity|]. intros k K. now replace k with 0%nat by (cbn in K; lia).
  - eexists. split; [reflexivity|]. rewrite map_length, seq_length. split; [lia|]. intros k K.
    replace (Z.to_nat (num - 1)) with (Z.to_nat num - 1)%nat by lia. set (n := (Z.to_nat num - 1)%nat).
    erewrite nth_indep with (d' := float_bernstein_entry rnd huge fexp flog flog1p lnbinom eps x n 0%nat) by (rewrite map_length, seq_length; unfold n; lia). rewrite map_nth, seq_nth by (unfold n; lia). reflexivity.
Qed.

Lemma roll_snoc (A : Type) (l : list A) a : roll (l ++ [a]) = a :: l.
Proof. unfold roll. rewrite rev_app_distr. cbn. now rewrite rev_involutive. Qed.

Definition tangent_entry (num : Z) (x_dot : R) (p : option R * option R) : option R :=
  fbind (fmul rnd huge x_dot (IZR (num - 1))) (fun c => fbind (fst p) (fun a => fbind (snd p) (fun b => fbind (fl rnd huge (a - b)) (fun d => fmul rnd huge c d)))).
Lemma float_jvp_ok eps num x xd : (2 <= num)%Z -> exists l lo t, float_bernstein_jvp rnd huge fexp flog flog1p lnbinom eps num x xd = Ok (l, t) /\ fb eps x num = Ok l /\ fb eps x (num - 1) = Ok lo /\ length lo = (Z.to_nat num - 1)%nat /\ length t = Z.to_nat num /\
  forall k, (k < Z.to_nat num)%nat -> nth k t None = tangent_entry num xd (match k with O => Some 0 | S k' => nth k' lo None end, if (k <? Z.to_nat num - 1)%nat then nth k lo None else Some 0).
Proof.
  intros HN. unfold float_bernstein_jvp. destruct (float_bernstein_ok eps x num ltac:(lia)) as (l & E & LL & _). destruct (float_bernstein_ok eps x (num - 1) ltac:(lia)) as (lo & E0 & L0 & _).
  unfold fb in *. rewrite E. cbn [bind]. destruct (Z.ltb_spec 1 num); [|lia]. rewrite E0. cbn [bind]. rewrite roll_snoc. exists l, lo. eexists. split; [reflexivity|]. split; [reflexivity|]. split; [reflexivity|]. split; [lia|].
  split; [rewrite map_length, combine_length, app_length; cbn [length]; lia|]. intros k K.
  change (fun p : option R * option R => fbind (fmul rnd huge xd (IZR (num - 1))) (fun c => fbind (fst p) (fun a => fbind (snd p) (fun b => fbind (fl rnd huge (a - b)) (fun d => fmul rnd huge c d))))) with (tangent_entry num xd).
  erewrite nth_indep with (d' := tangent_entry num xd (None, None)) by (rewrite map_length, combine_length, app_length; cbn [length]; lia). rewrite map_nth, combine_nth by (rewrite app_length; cbn [length]; lia). f_equal. f_equal.
  destruct (Nat.ltb_spec k (Z.to_nat num - 1)); [now rewrite app_nth1 by lia|]. rewrite app_nth2 by lia. now replace (k - length lo)%nat with 0%nat by lia.
Qed.
End Facts.

(** For every [x] between 0 and 1 all entries of [_bernstein] are finite, not negative and accurate. *)
Theorem C89_value u tiny huge beta rnd fexp flog flog1p lnbinom x n :
  rounding u tiny rnd -> wide u tiny huge rnd -> float_exp_all u tiny fexp -> float_log u flog flog1p -> float_binomials beta n lnbinom ->
  0 <= beta <= 1 / 8 -> 16 * INR n * u <= 1 -> 64 * INR n <= huge * u * u -> 0 <= x <= 1 ->
  exists l, float_bernstein rnd huge fexp flog flog1p lnbinom u x (Z.of_nat n + 1) = Ok l /\ length l = (n + 1)%nat /\
    forall k, (k <= n)%nat -> exists y, nth k l None = Some y /\ 0 <= y /\ Rabs (y - bernstein_poly n k x) <= bernstein_error beta n u.
Proof.
  intros H W X L B BE NU NH XX. destruct (float_bernstein_ok huge rnd fexp flog flog1p lnbinom u x (Z.of_nat n + 1) ltac:(lia)) as (l & E & LL & N). exists l. split; [exact E|]. split; [rewrite LL; lia|]. intros k K. rewrite N by lia.
  replace (Z.to_nat (Z.of_nat n + 1) - 1)%nat with n by lia. destruct (Z.eqb_spec (Z.of_nat n + 1) 1) as [Z1|Z1].
  - assert (n = 0%nat) by lia. subst n. replace k with 0%nat by lia. exists 1. split; [reflexivity|]. split; [lra|]. unfold bernstein_poly, bernstein_error. cbn. pose proof (unit_bounds _ _ _ H). apply Rabs_le. lra.
  - apply (entry_error u tiny huge beta rnd fexp flog flog1p lnbinom n H W X L B); try assumption. lia.
Qed.
Print Assumptions C89_value.

(** At 0 and 1, and everywhere outside of [[0, 1]], the entries are exact: 1 in the first or the last entry, 0 in the others. *)
Theorem C89_outside u tiny huge rnd fexp flog flog1p lnbinom x n : rounding u tiny rnd -> wide u tiny huge rnd -> x <= 0 \/ 1 <= x -> (0 < n)%nat ->
  exists l, float_bernstein rnd huge fexp flog flog1p lnbinom u x (Z.of_nat n + 1) = Ok l /\ length l = (n + 1)%nat /\
    forall k, (k <= n)%nat -> nth k l None = Some (if (k =? (if Rlt_dec x 1 then 0 else n))%nat then 1 else 0).
Proof.
  intros H W XX NP. destruct (float_bernstein_ok huge rnd fexp flog flog1p lnbinom u x (Z.of_nat n + 1) ltac:(lia)) as (l & E & LL & N). exists l. split; [exact E|]. split; [rewrite LL; lia|]. intros k K. rewrite N by lia.
  replace (Z.to_nat (Z.of_nat n + 1) - 1)%nat with n by lia. destruct (Z.eqb_spec (Z.of_nat n + 1) 1) as [Z1|Z1]; [lia|]. destruct (size_facts u tiny huge rnd H W) as ([U0 U1] & T0 & T1 & HU & HH & HUU).
  unfold float_bernstein_entry. rewrite fl_some by (rewrite (one_below _ _ _ _ W), Rabs_right; lra). cbn [fbind]. rewrite (one_below _ _ _ _ W). unfold Rltb.
  destruct (Rlt_dec x 1) as [L|L].
  - destruct (Rlt_dec x u); [|lra]. destruct (Rlt_dec (1 - u) x); [lra|]. cbn [orb andb]. now destruct (k =? 0)%nat.
  - destruct (Rlt_dec x u); [lra|]. destruct (Rlt_dec (1 - u) x); [|lra]. cbn [orb andb]. now destruct (k =? n)%nat.
Qed.
Print Assumptions C89_outside.

(** The derivative rule: all tangents are finite and accurate. *)
Theorem C89_tangent u tiny huge beta rnd fexp flog flog1p lnbinom x x_dot n :
  rounding u tiny rnd -> wide u tiny huge rnd -> float_exp_all u tiny fexp -> float_log u flog flog1p -> float_binomials beta n lnbinom ->
  0 <= beta <= 1 / 8 -> 16 * INR n * u <= 1 -> 64 * INR n <= huge * u * u -> 0 <= x <= 1 -> 32 * (INR n * Rabs x_dot + 1) <= huge ->
  exists l t, float_bernstein_jvp rnd huge fexp flog flog1p lnbinom u (Z.of_nat n + 1) x x_dot = Ok (l, t) /\
    float_bernstein rnd huge fexp flog flog1p lnbinom u x (Z.of_nat n + 1) = Ok l /\ length t = (n + 1)%nat /\
    forall k, (k <= n)%nat -> exists y d, nth k t None = Some y /\ derivable_pt_lim (bernstein_poly n k) x d /\
      Rabs (y - x_dot * d) <= INR n * Rabs x_dot * (2 * bernstein_error beta n u + 24 * u) + 10 * tiny.
Proof.
  intros H W X L B BE NU NH XX XD. destruct (size_facts u tiny huge rnd H W) as ([U0 U1] & T0 & T1 & HU & HH & HUU). destruct n as [|n].
  { unfold float_bernstein_jvp. change (Z.of_nat 0 + 1)%Z with 1%Z. cbn [float_bernstein Z.ltb Z.compare Z.eqb bind Pos.compare Pos.compare_cont]. eexists _, _. split; [reflexivity|]. split; [reflexivity|]. split; [reflexivity|].
    intros k K. replace k with 0%nat by lia. unfold fmul. rewrite Rmult_0_l. rewrite fl_some by (rewrite (rnd_zero _ _ _ H), Rabs_R0; lra). rewrite (rnd_zero _ _ _ H).
    exists 0, (bernstein_deriv 0 0 x). split; [reflexivity|]. split; [apply bernstein_poly_deriv; lia|]. unfold bernstein_deriv. cbn. rewrite !Rmult_0_l, Rmult_0_r, Rminus_eq_0, Rabs_R0. lra. }
  destruct (float_jvp_ok huge rnd fexp flog flog1p lnbinom u (Z.of_nat (S n) + 1) x x_dot ltac:(lia)) as (l & lo & t & E & EL & ELO & LLO & LT & K). exists l, t. split; [exact E|]. split; [exact EL|]. split; [rewrite LT; lia|].
  intros k KN. rewrite K by lia. replace (Z.to_nat (Z.of_nat (S n) + 1) - 1)%nat with (S n) by lia.
  assert (NS : INR n <= INR (S n)) by (rewrite S_INR; lra). pose proof (pos_INR n) as N0. set (de := bernstein_error beta (S n) u).
  assert (NSU : INR n * u <= INR (S n) * u) by (apply Rmult_le_compat_r; lra). assert (DN : bernstein_error beta n u <= de) by (unfold de, bernstein_error; lra).
  assert (NSP : 0 <= INR (S n) * u) by (apply Rmult_le_pos; lra).
  assert (D0 : 0 <= de <= 6) by (unfold de, bernstein_error; lra).
  destruct (C89_value u tiny huge beta rnd fexp flog flog1p lnbinom x n H W X L (fun m v V => B m v ltac:(lia)) BE ltac:(lra) ltac:(lra) XX) as (lo' & E' & _ & V).
  replace (Z.of_nat (S n) + 1 - 1)%Z with (Z.of_nat n + 1)%Z in * by lia. rewrite E' in ELO. injection ELO as ->.
  assert (PA : exists a, match k with O => Some 0 | S k' => nth k' lo None end = Some a /\ 0 <= a /\ Rabs (a - match k with O => 0 | S k' => bernstein_poly n k' x end) <= de).
  { destruct k as [|k]; [exists 0; split; [reflexivity|]; split; [lra|]; rewrite Rminus_0_r, Rabs_R0; lra|]. destruct (V k ltac:(lia)) as (y & Y1 & Y2 & Y3). exists y. repeat split; try assumption. lra. }
  assert (PB : exists b, (if (k <? S n)%nat then nth k lo None else Some 0) = Some b /\ 0 <= b /\ Rabs (b - if (k <? S n)%nat then bernstein_poly n k x else 0) <= de).
  { destruct (Nat.ltb_spec k (S n)); [|exists 0; split; [reflexivity|]; split; [lra|]; rewrite Rminus_0_r, Rabs_R0; lra]. destruct (V k ltac:(lia)) as (y & Y1 & Y2 & Y3). exists y. repeat split; try assumption. lra. }
  destruct PA as (a & EA & A0 & AE). destruct PB as (b & EB & B0 & BER). rewrite EA, EB. unfold tangent_entry. cbn [fst snd].
  pose proof (bernstein_poly_deriv (S n) k x KN) as DER. pose proof (bernstein_deriv_bound (S n) k x KN XX) as DB. set (BD := bernstein_deriv (S n) k x) in *.
  assert (DV : BD = INR (S n) * (match k with O => 0 | S k' => bernstein_poly n k' x end - (if (k <? S n)%nat then bernstein_poly n k x else 0))). { unfold BD, bernstein_deriv. now rewrite Nat.sub_succ, Nat.sub_0_r. }
  assert (PA : 0 <= match k with O => 0 | S k' => bernstein_poly n k' x end <= 1). { destruct k as [|k]; [lra|]. split; [apply bernstein_poly_nonneg|apply bernstein_poly_le_one]; (lia || lra). }
  assert (PB : 0 <= (if (k <? S n)%nat then bernstein_poly n k x else 0) <= 1). { destruct (Nat.ltb_spec k (S n)); [|lra]. split; [apply bernstein_poly_nonneg|apply bernstein_poly_le_one]; (lia || lra). }
  set (PAv := match k with O => 0 | S k' => bernstein_poly n k' x end) in *. set (PBv := if (k <? S n)%nat then bernstein_poly n k x else 0) in *. clearbody PAv PBv.
  apply Rabs_le_inv in AE. apply Rabs_le_inv in BER.
  replace (IZR (Z.of_nat (S n) + 1 - 1)) with (INR (S n)) by (rewrite INR_IZR_INZ; f_equal; lia). set (m := INR (S n)) in *. assert (M0 : 0 <= m) by lra.
  set (c0 := m * Rabs x_dot) in *. assert (C0 : 0 <= c0) by (apply Rmult_le_pos; [lra|apply Rabs_pos]).
  destruct (fl_near u tiny huge rnd H W (x_dot * m) c0) as (c & EC & BC); [rewrite Rabs_mult, (Rabs_right m) by lra; unfold c0; lra|lra|]. unfold fmul. rewrite EC. cbn [fbind].
  destruct (fl_near u tiny huge rnd H W (a - b) 7) as (d & ED & BDD); [apply Rabs_le; lra|lra|]. rewrite ED. cbn [fbind].
  assert (UC : u * c0 <= 1 / 64 * c0) by (apply Rmult_le_compat_r; lra). assert (UCP : 0 <= u * c0) by (apply Rmult_le_pos; lra).
  assert (CA : Rabs c <= 65 / 64 * c0 + tiny). { replace c with ((c - x_dot * m) + x_dot * m) by ring. eapply Rle_trans; [apply Rabs_triang|]. rewrite (Rabs_mult x_dot m), (Rabs_right m) by lra. unfold c0 in *. lra. }
  pose proof (Rabs_le_inv _ _ BDD) as BD2. assert (DA : Rabs d <= 15 / 2) by (apply Rabs_le; lra).
  assert (DE : Rabs (d - (PAv - PBv)) <= 2 * de + 7 * u + tiny) by (apply Rabs_le; lra).
  assert (CD : Rabs (c * d) <= (65 / 64 * c0 + tiny) * (15 / 2)). { rewrite Rabs_mult. apply Rmult_le_compat; try apply Rabs_pos; assumption. }
  destruct (fl_near u tiny huge rnd H W (c * d) ((65 / 64 * c0 + tiny) * (15 / 2)) CD ltac:(lra)) as (y & EY & BY). rewrite EY.
  exists y, BD. split; [reflexivity|]. split; [exact DER|]. rewrite DV.
  replace (y - x_dot * (m * (PAv - PBv))) with ((y - c * d) + ((c - x_dot * m) * d + x_dot * m * (d - (PAv - PBv)))) by ring.
  eapply Rle_trans; [apply Rabs_triang|]. apply Rle_trans with ((u * ((65 / 64 * c0 + tiny) * (15 / 2)) + tiny) + ((u * c0 + tiny) * (15 / 2) + c0 * (2 * de + 7 * u + tiny))).
  - apply Rplus_le_compat; [exact BY|]. eapply Rle_trans; [apply Rabs_triang|]. apply Rplus_le_compat.
    + rewrite Rabs_mult. apply Rmult_le_compat; try apply Rabs_pos; assumption.
    + rewrite Rabs_mult. apply Rmult_le_compat; try apply Rabs_pos; [|assumption]. rewrite Rabs_mult, (Rabs_right m) by lra. unfold c0. lra.
  - assert (UT : u * tiny <= 1 / 64 * tiny) by (apply Rmult_le_compat_r; lra). assert (CT : c0 * tiny <= c0 * (u / 4096)) by (apply Rmult_le_compat_l; lra).
    replace (u * ((65 / 64 * c0 + tiny) * (15 / 2))) with (975 / 128 * (u * c0) + 15 / 2 * (u * tiny)) by field.
    replace (c0 * (2 * de + 7 * u + tiny)) with (c0 * (2 * de) + 7 * (u * c0) + c0 * tiny) by ring. replace (c0 * (u / 4096)) with (u * c0 / 4096) in CT by field.
    replace (c0 * (2 * de + 24 * u)) with (c0 * (2 * de) + 24 * (u * c0)) by ring. lra.
Qed.
Print Assumptions C89_tangent.

(** [basic_bernstein]: the argument is divided by the limit first. *)
Theorem C89_basic u tiny huge beta rnd fexp flog flog1p lnbinom x limit n :
  rounding u tiny rnd -> wide u tiny huge rnd -> float_exp_all u tiny fexp -> float_log u flog flog1p -> float_binomials beta n lnbinom ->
  0 <= beta <= 1 / 8 -> 16 * INR n * u <= 1 -> 64 * INR n <= huge * u * u -> 0 <= x <= limit -> 0 < limit ->
  exists l, float_basic_bernstein rnd huge fexp flog flog1p lnbinom u x (Z.of_nat n + 1) limit = Ok l /\ length l = (n + 1)%nat /\
    forall k, (k <= n)%nat -> exists y, nth k l None = Some y /\ 0 <= y /\ Rabs (y - bernstein_poly n k (x / limit)) <= bernstein_error beta n u + INR n * (u + tiny).
Proof.
  intros H W X L B BE NU NH XX LP. destruct (size_facts u tiny huge rnd H W) as ([U0 U1] & T0 & T1 & HU & HH & HUU).
  assert (T : 0 <= x / limit <= 1). { split; [apply Rmult_le_pos; [lra|left; now apply Rinv_0_lt_compat]|]. apply (Rmult_le_reg_r limit); [exact LP|]. unfold Rdiv. rewrite Rmult_assoc, Rinv_l by lra. lra. }
  assert (RT : 0 <= rnd (x / limit) <= 1). { split; [apply (rnd_nonneg _ _ _ H); lra|]. rewrite <- (rnd_one _ _ _ H). apply (rnd_mono _ _ _ H). lra. }
  unfold float_basic_bernstein, fdiv. destruct (Req_EM_T limit 0); [lra|]. rewrite fl_some by (rewrite Rabs_right; lra).
  destruct (C89_value u tiny huge beta rnd fexp flog flog1p lnbinom (rnd (x / limit)) n H W X L B BE NU NH RT) as (l & E & LL & V). exists l. split; [exact E|]. split; [exact LL|]. intros k K. destruct (V k K) as (y & EY & Y0 & YE). exists y. split; [exact EY|]. split; [exact Y0|].
  pose proof (bernstein_poly_lipschitz n k (rnd (x / limit)) (x / limit) K RT T) as LI. pose proof (rnd_any u tiny rnd H (x / limit)) as RA. rewrite (Rabs_right (x / limit)) in RA by lra. pose proof (pos_INR n) as N0.
  assert (UX : u * (x / limit) <= u * 1) by (apply Rmult_le_compat_l; lra). assert (INR n * Rabs (rnd (x / limit) - x / limit) <= INR n * (u + tiny)) by (apply Rmult_le_compat_l; lra).
  apply Rabs_le_inv in YE. apply Rabs_le_inv in LI. apply Rabs_le. lra.
Qed.
Print Assumptions C89_basic.

(** Too small a number of polynomials is an error, as without rounding. *)
Theorem C89_error rnd huge fexp flog flog1p lnbinom eps x x_dot num : (num < 1)%Z ->
  float_bernstein rnd huge fexp flog flog1p lnbinom eps x num = Err ValueError /\ float_bernstein_jvp rnd huge fexp flog flog1p lnbinom eps num x x_dot = Err ValueError.
Proof. intro N. assert (E : float_bernstein rnd huge fexp flog flog1p lnbinom eps x num = Err ValueError) by (unfold float_bernstein; now destruct (Z.ltb_spec num 1); [|lia]). split; [exact E|]. unfold float_bernstein_jvp. now rewrite E. Qed.
Print Assumptions C89_error.

(** Without rounding the model computes the functions of the other properties. *)
Lemma entry_exact eps x n huge v : 0 < eps < 1 / 2 -> (v <= n)%nat ->
  2 * INR n * (1 + Rabs (ln x) + Rabs (ln (1 - x))) + 2 < huge -> float_bernstein_entry (fun t => t) huge exp ln log1p binomln eps x n v = Some (bernstein_entry eps x n v).
Proof.
  intros EP V HH. pose proof (pos_INR n) as N0. pose proof (Rabs_pos (ln x)) as P1. pose proof (Rabs_pos (ln (1 - x))) as P2.
  assert (Q1 : 0 <= INR n * Rabs (ln x)) by (apply Rmult_le_pos; lra). assert (Q2 : 0 <= INR n * Rabs (ln (1 - x))) by (apply Rmult_le_pos; lra).
  unfold float_bernstein_entry, bernstein_entry. rewrite fl_exact by (rewrite Rabs_right; lra). cbn [fbind]. unfold Rltb. destruct (Rlt_dec x eps) as [S|S].
  - destruct (Rlt_dec (1 - eps) x); [lra|]. cbn [orb andb]. now destruct (v =? 0)%nat.
  - destruct (Rlt_dec (1 - eps) x) as [G|G]; cbn [orb andb]; [now destruct (v =? n)%nat|].
    assert (XI : 0 < x < 1) by lra. pose proof (bernstein_poly_exp n v x V XI) as BP. pose proof (bernstein_poly_le_one n v x V ltac:(lra)) as B1. destruct (ln_binom_bounds n v V) as [C0 C1].
    assert (VN : INR v <= INR n) by (apply le_INR; lia). assert (WN : INR (n - v) <= INR n) by (apply le_INR; lia). pose proof (pos_INR v) as V0. pose proof (pos_INR (n - v)) as W0.
    assert (A1 : Rabs (INR v * ln x) <= INR n * Rabs (ln x)). { rewrite Rabs_mult, (Rabs_right (INR v)) by lra. apply Rmult_le_compat_r; lra. }
    assert (A2 : Rabs (INR (n - v) * ln (1 - x)) <= INR n * Rabs (ln (1 - x))). { rewrite Rabs_mult, (Rabs_right (INR (n - v))) by lra. apply Rmult_le_compat_r; lra. }
    unfold float_bernstein_log, fmul, fadd, log1p. replace (1 + - x) with (1 - x) by ring. rewrite binomln_eq by exact V. apply Rabs_le_inv in A1. apply Rabs_le_inv in A2.
    repeat (rewrite fl_exact by (apply Rle_lt_trans with (INR n + INR n * Rabs (ln x) + INR n * Rabs (ln (1 - x))); [apply Rabs_le; lra|lra]); cbn [fbind]).
    unfold fcheck, Rltb. rewrite BP in B1. pose proof (exp_pos (ln (binom n v) + INR v * ln x + INR (n - v) * ln (1 - x))) as EPS. rewrite (Rabs_right (exp _)) by lra. destruct (Rlt_dec _ huge) as [|C]; [reflexivity|exfalso; lra].
Qed.
Lemma map_some_exact eps x huge num : 0 < eps < 1 / 2 -> 2 * Rabs (IZR num) * (1 + Rabs (ln x) + Rabs (ln (1 - x))) + 2 < huge ->
  float_bernstein (fun t => t) huge exp ln log1p binomln eps x num = rmap (map Some) (bernstein eps x num).
Proof.
  intros EP HH. unfold float_bernstein, bernstein. destruct (Z.ltb_spec num 1); [reflexivity|]. destruct (Z.eqb_spec num 1); [reflexivity|]. cbn [rmap]. f_equal. rewrite map_map. apply map_ext_in. intros v V. apply in_seq in V.
  apply entry_exact; [exact EP|lia|]. eapply Rle_lt_trans; [|exact HH]. apply Rplus_le_compat_r. apply Rmult_le_compat_r; [pose proof (Rabs_pos (ln x)); pose proof (Rabs_pos (ln (1 - x))); lra|]. apply Rmult_le_compat_l; [lra|].
  rewrite INR_IZR_INZ, Rabs_right by (apply Rle_ge, IZR_le; lia). apply IZR_le. lia.
Qed.
Lemma entry_range eps x n v : 0 < eps < 1 / 2 -> (v <= n)%nat -> 0 <= bernstein_entry eps x n v <= 1.
Proof.
  intros EP V. destruct (Rlt_le_dec x eps); [rewrite bernstein_entry_low by lra; destruct (v =? 0)%nat; lra|]. destruct (Rlt_le_dec (1 - eps) x); [rewrite bernstein_entry_high by lra; destruct (v =? n)%nat; lra|].
  rewrite bernstein_entry_interior by (lra || exact V). split; [apply bernstein_poly_nonneg|apply bernstein_poly_le_one]; (exact V || lra).
Qed.
Lemma combine_map (A B : Type) (f : A -> B) l : forall l', combine (map f l) (map f l') = map (fun p => (f (fst p), f (snd p))) (combine l l').
Proof. induction l as [|a l IH]; intros [|b l']; cbn; try reflexivity. now rewrite IH. Qed.
Theorem C89_exact eps x num x_dot : 0 < eps < 1 / 2 -> exists bound, forall huge, bound < huge ->
  float_bernstein (fun t => t) huge exp ln log1p binomln eps x num = rmap (map Some) (bernstein eps x num) /\
  float_bernstein_jvp (fun t => t) huge exp ln log1p binomln eps num x x_dot = rmap (fun p => (map Some (fst p), map Some (snd p))) (bernstein_jvp eps num x x_dot).
Proof.
  intros EP. pose proof (Rabs_pos (ln x)) as P1. pose proof (Rabs_pos (ln (1 - x))) as P2. set (q := 1 + Rabs (ln x) + Rabs (ln (1 - x))). pose proof (Rabs_pos (IZR num)) as P3. pose proof (Rabs_pos (x_dot * IZR (num - 1))) as P4.
  exists (2 * (Rabs (IZR num) + 1) * q + Rabs (x_dot * IZR (num - 1)) + 2). intros huge HH. assert (Q0 : 1 <= q) by (unfold q; lra). assert (Q1 : 0 <= Rabs (IZR num) * q) by (apply Rmult_le_pos; lra).
  assert (E : float_bernstein (fun t => t) huge exp ln log1p binomln eps x num = rmap (map Some) (bernstein eps x num)) by (apply map_some_exact; [exact EP|fold q; lra]).
  split; [exact E|]. unfold float_bernstein_jvp, bernstein_jvp. rewrite E. destruct (bernstein eps x num) as [l|e] eqn:EB; [|reflexivity]. cbn [rmap bind].
  destruct (Z.ltb_spec 1 num) as [LT|LT].
  - rewrite map_some_exact; [|exact EP|].
    2:{ fold q. assert (Rabs (IZR (num - 1)) * q <= Rabs (IZR num) * q). { apply Rmult_le_compat_r; [lra|]. rewrite !Rabs_right by (apply Rle_ge, IZR_le; lia). apply IZR_le. lia. } lra. }
    destruct (bernstein_ok eps x (num - 1) ltac:(lia)) as (lo & ELO & LLO & NLO). rewrite ELO. cbn [rmap bind]. f_equal. f_equal. cbn [snd].
    rewrite roll_snoc, roll1_snoc. replace (map Some lo ++ [Some 0]) with (map (@Some R) (lo ++ [0])) by now rewrite map_app. change (Some 0 :: map Some lo) with (map (@Some R) (0 :: lo)).
    assert (R01 : forall r, In r (lo ++ [0]) -> 0 <= r <= 1).
    { intros r I. apply in_app_or in I. destruct I as [I|[<-|[]]]; [|lra]. apply (In_nth _ _ 0) in I. destruct I as (k & K & <-). rewrite NLO by lia. destruct (num - 1 =? 1)%Z; [lra|]. apply entry_range; [exact EP|lia]. }
    assert (R02 : forall r, In r (0 :: lo) -> 0 <= r <= 1). { intros r [<-|I]; [lra|]. apply R01, in_or_app. now left. }
    rewrite combine_map, map_map. erewrite map_ext_in with (g := fun p => Some (x_dot * IZR (num - 1) * (fst p - snd p))); [now rewrite <- map_map|].
    intros [a b] I. cbn [fst snd]. pose proof (R02 a (in_combine_l _ _ _ _ I)) as A. pose proof (R01 b (in_combine_r _ _ _ _ I)) as B. unfold fmul. rewrite fl_exact by (lra). cbn [fbind].
    assert (AB : Rabs (a - b) <= 1) by (apply Rabs_le; lra). rewrite fl_exact by (lra). cbn [fbind]. apply fl_exact. rewrite Rabs_mult. assert (Rabs (x_dot * IZR (num - 1)) * Rabs (a - b) <= Rabs (x_dot * IZR (num - 1)) * 1) by (apply Rmult_le_compat_l; lra). lra.
  - unfold fmul. rewrite Rmult_0_l, fl_exact by (rewrite Rabs_R0; lra). reflexivity.
Qed.
Print Assumptions C89_exact.
Theorem C89_exact_basic eps x num limit : 0 < eps < 1 / 2 -> limit <> 0 -> exists bound, forall huge, bound < huge ->
  float_basic_bernstein (fun t => t) huge exp ln log1p binomln eps x num limit = rmap (map Some) (basic_bernstein eps x num limit).
Proof.
  intros EP L. destruct (C89_exact eps (x / limit) num 0 EP) as (b & E). exists (Rabs b + Rabs (x / limit)). intros huge HH. pose proof (Rabs_pos b). pose proof (Rabs_pos (x / limit)). pose proof (Rle_abs b).
  unfold float_basic_bernstein, fdiv. destruct (Req_EM_T limit 0); [contradiction|]. rewrite fl_exact by (lra). apply E. lra.
Qed.
Print Assumptions C89_exact_basic.

(** Logarithms that are rounded correctly meet the assumptions. *)
Theorem C89_rounded u tiny rnd : rounding u tiny rnd -> float_log u (fun x => rnd (ln x)) (fun x => rnd (ln (1 + x))) /\ (forall N, float_binomials (INR N * u + tiny) N (fun n v => rnd (ln (binom n v)))).
Proof.
  intro H. pose proof (unit_bounds _ _ _ H) as [U0 U1]. pose proof (tiny_bounds _ _ _ H) as [T0 T1].
  assert (LN : forall y, 0 < y <= 1 - u -> Rabs (rnd (ln y) - ln y) <= 4 * u * Rabs (ln y)).
  { intros y Y. pose proof (ln_neg y ltac:(lra)) as N. assert (u <= - ln y). { pose proof (exp_ineq1_le (ln y)) as I. rewrite exp_ln in I by lra. lra. }
    pose proof (rnd_error _ _ _ H (ln y)) as E. rewrite (Rabs_left (ln y)) in * by lra. specialize (E ltac:(lra)). assert (0 <= u * - ln y) by (apply Rmult_le_pos; lra). lra. }
  split; [split|].
  - intros x X. apply LN. lra.
  - intros x X. replace (1 + - x) with (1 - x) by ring. apply LN. lra.
  - intros N n v V. destruct (ln_binom_bounds n v ltac:(lia)) as [A B]. pose proof (rnd_any u tiny rnd H (ln (binom n v))) as E. rewrite (Rabs_right (ln _)) in E by lra. assert (INR n <= INR N) by (apply le_INR; lia). assert (u * ln (binom n v) <= u * INR N) by (apply Rmult_le_compat_l; lra). lra.
Qed.
Print Assumptions C89_rounded.

(** An instance: float32, 16 polynomials, and the limit 5. *)
Example C89_instance : let rnd := rounded (-149) 24 in let u := bpow radix2 (-24) in let huge := bpow radix2 128 in
  let fb := float_basic_bernstein rnd huge (fun t => rnd (exp t)) (fun t => rnd (ln t)) (fun t => rnd (ln (1 + t))) (fun n v => rnd (ln (binom n v))) u in
  exists l, fb 2 16%Z 5 = Ok l /\ length l = 16%nat /\ forall k, (k <= 15)%nat -> exists y, nth k l None = Some y /\ Rabs (y - bernstein_poly 15 k (2 / 5)) <= 1 / 10000.
Proof.
  intros rnd u huge fb. pose proof rounding_float32 as H. fold rnd in H. destruct C87_formats as (W & _). fold rnd in W. pose proof (float_exp_all_rounded _ _ _ H) as X. destruct (C89_rounded _ _ _ H) as [L B].
  assert (HH : 1024 <= huge * u * u). { unfold huge, u. rewrite <- !bpow_plus. apply Rle_trans with (bpow radix2 20); [cbn; lra|apply bpow_le; lia]. }
  assert (T : bpow radix2 (-126) <= bpow radix2 (-24)) by (apply bpow_le; lia). pose proof (bpow_gt_0 radix2 (-126)) as TP. assert (UV : bpow radix2 (-24) = / 16777216) by (cbn; lra). assert (N15 : INR 15 = 15) by (cbn; lra).
  destruct (C89_basic u (bpow radix2 (-126)) huge _ rnd _ _ _ _ 2 5 15 H W X L (B 15%nat)) as (l & E & LL & V); rewrite ?N15; unfold u in *; try lra.
  exists l. split; [exact E|]. split; [exact LL|]. intros k K. destruct (V k K) as (y & EY & _ & YE). exists y. split; [exact EY|]. unfold bernstein_error, u in YE. rewrite N15 in YE. lra.
Qed.
