(** Rounding errors of [norm]. *)
Require Import List Reals Lra Lia Permutation.
Require Import Verif.Base Verif.Radial_Model Verif.Rotations_Model Verif.Rotations_Spec Verif.Rotations_Proofs Verif.Float_Model Verif.Float_Spec.
Import ListNotations.
Open Scope R_scope.

Lemma Rabs_le_inv x a : Rabs x <= a -> - a <= x <= a.
Proof. unfold Rabs. destruct Rcase_abs; lra. Qed.

(** * Powers of 1 + u *)
Lemma power_bound u m : 0 <= u -> INR m * u <= 1 / 64 -> (1 + u) ^ m * (1 - INR m * u) <= 1 /\ 1 <= (1 + u) ^ m.
Proof.
  intros U. induction m as [|m IH]; intros H; [cbn; lra|].
  rewrite S_INR in *. pose proof (pos_INR m). assert (INR m * u <= 1 / 64) as H' by nra. destruct (IH H') as [A B].
  cbn [pow]. split; [|nra].
  set (p := (1 + u) ^ m) in *. assert (0 < p) by lra.
  replace ((1 + u) * p * (1 - (INR m + 1) * u)) with (p * (1 - INR m * u) - p * ((INR m + 1) * (u * u))) by ring.
  assert (0 <= p * ((INR m + 1) * (u * u))) by (apply Rmult_le_pos; [lra|apply Rmult_le_pos; nra]). lra.
Qed.

Lemma power_small u m : 0 <= u -> INR m * u <= 1 / 64 -> (1 + u) ^ m - 1 <= 64 / 63 * (INR m * u).
Proof.
  intros U H. destruct (power_bound u m U H) as [A B]. pose proof (pos_INR m).
  set (p := (1 + u) ^ m) in *. assert (P : p <= 64 / 63).
  { apply (Rmult_le_reg_r (1 - INR m * u)); [lra|]. nra. }
  assert (0 <= INR m * u) by nra. nra.
Qed.

(** * Sums of entries *)
Definition total (q : nat -> R) (l : list nat) : R := fold_right Rplus 0 (map q l).
Lemma total_app q a b : total q (a ++ b) = total q a + total q b.
Proof. unfold total. induction a as [|i a IH]; cbn; [ring|]. rewrite IH. ring. Qed.
Lemma total_perm q a b : Permutation a b -> total q a = total q b.
Proof. unfold total. intro H. induction H; cbn; lra. Qed.
Lemma total_nonneg q l : (forall i, 0 <= q i) -> 0 <= total q l.
Proof. intro H. unfold total. induction l as [|i l IH]; cbn; [lra|]. specialize (H i). lra. Qed.
Lemma total_bound q l : (forall i, q i <= 1) -> total q l <= INR (length l).
Proof. intro H. unfold total. induction l as [|i l IH]; [cbn; lra|]. cbn [map fold_right length]. rewrite S_INR. specialize (H i). lra. Qed.
Lemma total_close q y c d l : (forall i, Rabs (q i - y i) <= c * y i + d) -> Rabs (total q l - total y l) <= c * total y l + INR (length l) * d.
Proof.
  intro H. unfold total. induction l as [|i l IH]; [cbn; rewrite Rminus_eq_0, Rabs_R0; lra|].
  cbn [map fold_right length]. rewrite S_INR. specialize (H i). set (a := fold_right Rplus 0 (map q l)) in *. set (b := fold_right Rplus 0 (map y l)) in *.
  replace (q i + a - (y i + b)) with ((q i - y i) + (a - b)) by ring. eapply Rle_trans; [apply Rabs_triang|]. lra.
Qed.
Lemma entries_summands t : (length (entries t) <= summands t)%nat.
Proof. induction t; cbn; try lia. rewrite app_length. lia. Qed.
Lemma summands_pos t : (1 <= summands t)%nat.
Proof. induction t; cbn; lia. Qed.

Section Rounding.
Variables (u tiny huge : R) (rnd : R -> R).
Hypothesis H : rounding u tiny rnd.

Lemma rnd_zero : rnd 0 = 0.
Proof using H. pose proof (rnd_opp _ _ _ H 0) as E. rewrite Ropp_0 in E. lra. Qed.
Lemma rnd_nonneg x : 0 <= x -> 0 <= rnd x.
Proof using H. intro X. rewrite <- rnd_zero. now apply (rnd_mono _ _ _ H). Qed.
Lemma rnd_le_one x : Rabs x <= 1 -> Rabs (rnd x) <= 1.
Proof using H.
  intro X. assert (- 1 <= x <= 1) as [X1 X2] by (unfold Rabs in X; destruct Rcase_abs; lra).
  pose proof (rnd_mono _ _ _ H _ _ X1) as A. pose proof (rnd_mono _ _ _ H _ _ X2) as B.
  change (IZR (-1)) with (- (1)) in A. rewrite (rnd_opp _ _ _ H), (rnd_one _ _ _ H) in A. rewrite (rnd_one _ _ _ H) in B.
  apply Rabs_le. lra.
Qed.
Lemma rnd_any x : Rabs (rnd x - x) <= u * Rabs x + tiny.
Proof using H.
  pose proof (unit_bounds _ _ _ H). pose proof (tiny_bounds _ _ _ H). pose proof (Rabs_pos x).
  destruct (Rlt_le_dec (Rabs x) tiny) as [L|L].
  - pose proof (rnd_small _ _ _ H x L). nra.
  - pose proof (rnd_error _ _ _ H x L). lra.
Qed.
Lemma rnd_pos x : 0 <= x -> x - (u * x + tiny) <= rnd x <= x + (u * x + tiny).
Proof using H.
  intro X. pose proof (rnd_any x) as A. rewrite (Rabs_right x) in A by lra. apply Rabs_le_inv in A. lra.
Qed.
Lemma fl_some x : Rabs (rnd x) < huge -> fl rnd huge x = Some (rnd x).
Proof using. intro L. unfold fl, Rltb. destruct Rlt_dec; [reflexivity|contradiction]. Qed.

(** One entry: the square of the scaled entry. *)
Lemma entry_error x a : 1 < huge -> 0 < a -> Rabs x <= a ->
  exists q, fbind (fdiv rnd huge x a) (fun b => fmul rnd huge b b) = Some q /\ 0 <= q <= 1 /\
    Rabs (q - (x / a) * (x / a)) <= 4 * u * ((x / a) * (x / a)) + 4 * tiny.
Proof using H.
  intros HH A X. pose proof (unit_bounds _ _ _ H) as [U0 U1]. pose proof (tiny_bounds _ _ _ H) as [T0 T1].
  set (y := x / a). assert (Y : Rabs y <= 1).
  { unfold y, Rdiv. rewrite Rabs_mult, Rabs_inv, (Rabs_right a) by lra. apply (Rmult_le_reg_r a); [exact A|]. rewrite Rmult_assoc, Rinv_l by lra. lra. }
  pose proof (rnd_le_one y Y) as B1. set (b := rnd y) in *.
  assert (B2 : Rabs (b - y) <= u * Rabs y + tiny) by apply rnd_any.
  assert (BB : 0 <= b * b <= 1) by (apply Rabs_le_inv in B1; nra).
  assert (Q1 : Rabs (rnd (b * b)) <= 1) by (apply rnd_le_one; rewrite Rabs_right; lra).
  exists (rnd (b * b)). split.
  - unfold fdiv. destruct (Req_EM_T a 0); [lra|]. fold y. rewrite fl_some by (fold b; lra). cbn [fbind]. unfold fmul. fold b. apply fl_some. lra.
  - pose proof (rnd_nonneg (b * b) ltac:(lra)) as Q0. split; [apply Rabs_le_inv in Q1; lra|].
    pose proof (rnd_any (b * b)) as E. rewrite (Rabs_right (b * b)) in E by lra.
    assert (D : Rabs (b * b - y * y) <= (2 * u + u * u) * (y * y) + (2 + 2 * u + tiny) * tiny).
    { replace (b * b - y * y) with ((b - y) * (b + y)) by ring. rewrite Rabs_mult.
      assert (S : Rabs (b + y) <= 2 * Rabs y + (u * Rabs y + tiny)).
      { replace (b + y) with ((b - y) + 2 * y) by ring. eapply Rle_trans; [apply Rabs_triang|]. rewrite (Rabs_mult 2), (Rabs_right 2) by lra. lra. }
      pose proof (Rabs_pos y) as P. assert (YY : y * y = Rabs y * Rabs y) by (rewrite <- Rabs_mult, Rabs_right; [reflexivity|nra]). rewrite YY.
      set (z := Rabs y) in *. eapply Rle_trans; [apply Rmult_le_compat; [apply Rabs_pos|apply Rabs_pos|exact B2|exact S]|].
      clearbody z. clear - P Y U0 T0.
      replace ((u * z + tiny) * (2 * z + (u * z + tiny))) with ((2 * u + u * u) * (z * z) + tiny * (z * (2 + 2 * u) + tiny)) by ring.
      apply Rplus_le_compat_l. rewrite (Rmult_comm _ tiny). apply Rmult_le_compat_l; [lra|]. nra. }
    apply Rabs_le_inv in D. apply Rabs_le_inv in E. assert (YP : 0 <= y * y) by nra.
    set (w := y * y) in *. set (c := b * b) in *. set (q := rnd c) in *. clearbody w c q. clear - D E U0 U1 T0 T1 YP.
    assert (UU : u * u <= u / 64) by nra. assert (UT : u * tiny <= tiny / 64) by nra. assert (TT : tiny * tiny <= tiny / 1024) by nra.
    assert (W1 : u * u * w <= u / 64 * w) by (apply Rmult_le_compat_r; lra).
    assert (C : c <= w + (3 * u * w + 3 * tiny)) by nra.
    assert (UC : u * c <= u * w + u / 16 * w + tiny / 16) by nra.
    apply Rabs_le. split; nra.
Qed.

(** Sums in any order. *)
Lemma reduce_error (q : nat -> option R) (p : nat -> R) t :
  (forall i, In i (entries t) -> q i = Some (p i)) -> (forall i, 0 <= p i <= 1) -> INR (summands t) * u <= 1 / 64 -> 4 * INR (summands t) <= huge ->
  exists s, reduce rnd huge q t = Some s /\ 0 <= s /\
    Rabs (s - total p (entries t)) <= ((1 + u) ^ summands t - 1) * total p (entries t) + (INR (summands t) - 1) * ((1 + u) ^ summands t * tiny).
Proof using H.
  intros Q P. pose proof (unit_bounds _ _ _ H) as [U0 U1]. pose proof (tiny_bounds _ _ _ H) as [T0 T1].
  assert (P0 : forall i, 0 <= p i) by (intro i; apply P). assert (P1 : forall i, p i <= 1) by (intro i; apply P).
  induction t as [|i|l IHl r IHr]; intros MU MH.
  - exists 0. split; [reflexivity|]. split; [lra|]. cbn. rewrite Rminus_eq_0, Rabs_R0. lra.
  - exists (p i). split; [apply Q; now left|]. split; [apply P0|]. cbn. rewrite Rplus_0_r, Rminus_eq_0, Rabs_R0. specialize (P0 i). nra.
  - cbn [entries summands] in *. rewrite plus_INR in *.
    pose proof (le_INR _ _ (summands_pos l)) as L1. pose proof (le_INR _ _ (summands_pos r)) as R1. cbn [INR] in L1, R1.
    destruct IHl as (x & EX & X0 & X1); [intros i Hi; apply Q, in_or_app; now left|nra|lra|].
    destruct IHr as (y & EY & Y0 & Y1); [intros i Hi; apply Q, in_or_app; now right|nra|lra|].
    set (m := (summands l + summands r)%nat). assert (EM : INR m = INR (summands l) + INR (summands r)) by apply plus_INR.
    assert (ML : (1 + u) * (1 + u) ^ summands l <= (1 + u) ^ m).
    { change ((1 + u) ^ S (summands l) <= (1 + u) ^ m). apply Rle_pow; [lra|]. pose proof (summands_pos r). unfold m. lia. }
    assert (MR : (1 + u) * (1 + u) ^ summands r <= (1 + u) ^ m).
    { change ((1 + u) ^ S (summands r) <= (1 + u) ^ m). apply Rle_pow; [lra|]. pose proof (summands_pos l). unfold m. lia. }
    destruct (power_bound u m ltac:(lra) ltac:(rewrite EM; lra)) as [_ M1]. pose proof (power_small u m ltac:(lra) ltac:(rewrite EM; lra)) as M2. rewrite EM in M2.
    pose proof (total_nonneg p (entries l) P0) as A0. pose proof (total_nonneg p (entries r) P0) as B0.
    pose proof (total_bound p (entries l) P1) as A1. pose proof (total_bound p (entries r) P1) as B1.
    pose proof (le_INR _ _ (entries_summands l)) as A2. pose proof (le_INR _ _ (entries_summands r)) as B2.
    rewrite total_app. set (a := total p (entries l)) in *. set (b := total p (entries r)) in *. set (ml := INR (summands l)) in *. set (mr := INR (summands r)) in *.
    set (el := (1 + u) ^ summands l) in *. set (er := (1 + u) ^ summands r) in *. set (e := (1 + u) ^ m) in *.
    assert (E1 : 1 <= el) by (apply pow_R1_Rle; lra). assert (E2 : 1 <= er) by (apply pow_R1_Rle; lra).
    clearbody a b ml mr el er e.
    pose proof (rnd_pos (x + y) ltac:(lra)) as [S1 S2]. pose proof (rnd_nonneg (x + y) ltac:(lra)) as S0.
    apply Rabs_le_inv in X1. apply Rabs_le_inv in Y1.
    (* (1 + u) times the errors of the parts *)
    assert (DX : (1 + u) * ((el - 1) * a + (ml - 1) * (el * tiny)) <= (e - 1 - u) * a + (ml - 1) * (e * tiny)).
    { assert (Z1 : ((1 + u) * el) * a <= e * a) by (apply Rmult_le_compat_r; lra).
      assert (Z2 : ((1 + u) * el) * ((ml - 1) * tiny) <= e * ((ml - 1) * tiny)) by (apply Rmult_le_compat_r; [apply Rmult_le_pos; lra|lra]).
      lra. }
    assert (DY : (1 + u) * ((er - 1) * b + (mr - 1) * (er * tiny)) <= (e - 1 - u) * b + (mr - 1) * (e * tiny)).
    { assert (Z1 : ((1 + u) * er) * b <= e * b) by (apply Rmult_le_compat_r; lra).
      assert (Z2 : ((1 + u) * er) * ((mr - 1) * tiny) <= e * ((mr - 1) * tiny)) by (apply Rmult_le_compat_r; [apply Rmult_le_pos; lra|lra]).
      lra. }
    set (dx := (el - 1) * a + (ml - 1) * (el * tiny)) in *. set (dy := (er - 1) * b + (mr - 1) * (er * tiny)) in *.
    assert (ET : tiny <= e * tiny) by nra.
    assert (BOUND : Rabs (rnd (x + y) - (a + b)) <= (e - 1) * (a + b) + (ml + mr - 1) * (e * tiny)).
    { clearbody dx dy. assert (UX : u * x <= u * a + u * dx) by nra. assert (UY : u * y <= u * b + u * dy) by nra. apply Rabs_le. split; lra. }
    exists (rnd (x + y)). split; [|split; [exact S0|exact BOUND]].
    cbn [reduce]. rewrite EX, EY. cbn [fbind]. unfold fadd. apply fl_some. rewrite Rabs_right by lra.
    apply Rabs_le_inv in BOUND. clearbody dx dy.
    assert (e <= 65 / 63) by lra.
    assert (Z1 : (e - 1) * (a + b) <= 2 / 63 * (ml + mr)).
    { apply Rmult_le_compat; lra. }
    assert (Z2 : (ml + mr - 1) * (e * tiny) <= (ml + mr) * 1).
    { apply Rmult_le_compat; try lra; nra. }
    lra.
Qed.
End Rounding.
