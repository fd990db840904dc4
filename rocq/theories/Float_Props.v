(** Properties C83 and C84: [norm] and [normalize] in floating point arithmetic. *)
Require Import List Reals Lra Lia Permutation ZArith.
From Flocq Require Import Core.
Require Import Verif.Base Verif.Radial_Model Verif.Rotations_Model Verif.Rotations_Spec Verif.Rotations_Proofs Verif.Float_Model Verif.Float_Spec Verif.Float_Proofs Verif.Float_Norm_Proofs Verif.Float_Normalize_Proofs Verif.Float_Formats.
Import ListNotations.
Open Scope R_scope.

Lemma scale_bounds tiny rows a : tiny <= a -> (forall row v, In row rows -> In v row -> Rabs v <= a) -> 0 < tiny ->
  tiny <= scale_of tiny rows <= a /\ (forall row v, In row rows -> In v row -> Rabs v <= scale_of tiny rows).
Proof.
  intros T A T0. unfold scale_of. split; [split; [apply Rmax_r|apply Rmax_lub; [|exact T]]|].
  - apply max_abs_le; [lra|]. intros v I. apply in_concat in I. destruct I as (row & I & J). exact (A row v I J).
  - intros row v I J. eapply Rle_trans; [|apply Rmax_l]. apply max_abs_in, in_concat. now exists row.
Qed.

(** * C83: a vector [x] of a batch [rows] whose entries are at most [a] in magnitude *)

(** No overflow, and the relative error is a small multiple of the rounding unit, in whatever order the
    squares are added, unless [x] is shorter than the longest vectors by many orders of magnitude. *)
Theorem C83_norm u tiny huge rnd (t : list R -> order) rows i x a :
  rounding u tiny rnd -> nth_error rows i = Some x -> sums_up (length x) (t x) ->
  tiny <= a -> (forall row v, In row rows -> In v row -> Rabs v <= a) ->
  let m := INR (summands (t x)) in
  m * u <= 1 / 64 -> 4 * m <= huge -> 64 * m * tiny * (a * a) <= u * (length_of x * length_of x) -> 2 * length_of x + 2 * tiny <= huge ->
  exists v, nth_error (float_norm rnd tiny huge t rows) i = Some (Some v) /\
    Rabs (v - length_of x) <= (2 * m + 7) * u * length_of x + tiny.
Proof.
  intros H I SU T A m MU MH L F. pose proof (tiny_bounds _ _ _ H) as [T0 _]. destruct (scale_bounds tiny rows a T A T0) as [[S1 S2] S3].
  destruct (group_norm_error u tiny huge rnd (scale_of tiny rows) (t x) x H S1 (fun v => S3 x v (nth_error_In _ _ I)) SU MU MH) as (v & E & B); [|exact F|].
  - fold m. eapply Rle_trans; [|exact L]. assert (M : 0 <= 64 * m * tiny). { apply Rmult_le_pos; [|lra]. pose proof (pos_INR (summands (t x))). fold m in H0. lra. }
    apply Rmult_le_compat_l; [exact M|]. apply Rmult_le_compat; lra.
  - exists v. split; [|exact B]. unfold float_norm. rewrite nth_error_map, I. cbn. now rewrite E.
Qed.
Print Assumptions C83_norm.

(** One vector with any entries: long and short ones alike, as long as the true length is finite. *)
Theorem C83_single u tiny huge rnd t x :
  rounding u tiny rnd -> sums_up (length x) t -> (exists v, In v x /\ tiny <= Rabs v) ->
  let m := INR (summands t) in
  m * u <= 1 / 64 -> 64 * m * tiny <= u -> 4 * m <= huge -> 2 * length_of x + 2 * tiny <= huge ->
  exists v, float_norm rnd tiny huge (fun _ => t) [x] = [Some v] /\ Rabs (v - length_of x) <= (2 * m + 7) * u * length_of x + tiny.
Proof.
  intros H SU (w & W1 & W2) m MU MT MH F.
  assert (A : forall row v, In row [x] -> In v row -> Rabs v <= length_of x) by (intros row v [<-|[]]; apply length_ge).
  pose proof (A x w (or_introl eq_refl) W1) as L.
  destruct (C83_norm u tiny huge rnd (fun _ => t) [x] 0 x (length_of x) H eq_refl SU ltac:(lra) A MU MH) as (v & E & B); [|exact F|].
  - apply Rmult_le_compat_r; [|exact MT]. pose proof (tiny_bounds _ _ _ H) as [T0 _]. apply Rmult_le_pos; lra.
  - exists v. split; [|exact B]. cbn in *. now injection E as ->.
Qed.
Print Assumptions C83_single.

(** The norm of the zero vector is exactly zero, in any batch. *)
Theorem C83_zero u tiny huge rnd (t : list R -> order) rows i x : rounding u tiny rnd -> 0 < huge -> nth_error rows i = Some x ->
  (forall v, In v x -> v = 0) -> nth_error (float_norm rnd tiny huge t rows) i = Some (Some 0).
Proof.
  intros H HH I Z. unfold float_norm. rewrite nth_error_map, I. cbn. f_equal. apply (group_norm_zero u tiny); [exact H|exact HH| |exact Z].
  pose proof (tiny_bounds _ _ _ H) as [T0 _]. unfold scale_of. eapply Rlt_le_trans; [exact T0|apply Rmax_r].
Qed.
Print Assumptions C83_zero.

(** Without rounding errors this is the function [norm] of the other properties. *)
Theorem C83_exact tiny huge (t : list R -> order) rows n : 0 < tiny -> norm tiny rows = Ok n ->
  (forall x, In x rows -> sums_up (length x) (t x) /\ INR (summands (t x)) < huge /\ length_of x < huge) ->
  float_norm (fun x => x) tiny huge t rows = map Some n.
Proof.
  intros T N S. assert (NE : concat rows <> []) by (intro E; unfold norm in N; rewrite E in N; discriminate).
  rewrite (norm_ok tiny rows T NE) in N. injection N as <-. rewrite map_map. apply map_ext_in. intros x I. destruct (S x I) as (S1 & S2 & S3).
  destruct (scale_bounds tiny rows (scale_of tiny rows)) as [_ B]; [apply Rmax_r| |exact T|].
  - intros row v I1 I2. unfold scale_of. eapply Rle_trans; [|apply Rmax_l]. apply max_abs_in, in_concat. now exists row.
  - apply group_norm_exact; [eapply Rlt_le_trans; [exact T|apply Rmax_r]|intros v; now apply B|exact S1|exact S2|exact S3].
Qed.
Print Assumptions C83_exact.

(** The formats that are used round as assumed (float16 has too small a range). *)
Theorem C83_formats :
  rounding (bpow radix2 (-24)) (bpow radix2 (-126)) (rounded (-149) 24) /\
  rounding (bpow radix2 (-53)) (bpow radix2 (-1022)) (rounded (-1074) 53) /\
  rounding (bpow radix2 (-8)) (bpow radix2 (-126)) (rounded (-133) 8) /\
  rounding (bpow radix2 (-24)) (bpow radix2 (-126)) (flushed (-149) 24).
Proof. exact (conj rounding_float32 (conj rounding_float64 (conj rounding_bfloat16 rounding_float32_flushed))). Qed.
Print Assumptions C83_formats.

(** The textbook formula overflows for a vector whose length is an ordinary float32 number; [norm] does
    not. *)
Lemma Rabs_bpow e : Rabs (bpow radix2 e) = bpow radix2 e.
Proof. apply Rabs_right, Rle_ge, bpow_ge_0. Qed.
Lemma length_one v : length_of [v] = Rabs v.
Proof. unfold length_of. cbn. rewrite Rplus_0_r, Rmult_1_r. apply sqrt_Rsqr_abs. Qed.
Lemma sums_up_one : sums_up 1 (Entry 0).
Proof. apply Permutation_refl. Qed.

Theorem C83_overflow_avoided : let x := [bpow radix2 100] in
  plain_norm (rounded (-149) 24) (bpow radix2 128) (Entry 0) x = None /\
  exists v, float_norm (rounded (-149) 24) (bpow radix2 (-126)) (bpow radix2 128) (fun _ => Entry 0) [x] = [Some v] /\
    Rabs (v - length_of x) <= 9 * bpow radix2 (-24) * length_of x + bpow radix2 (-126).
Proof.
  cbv zeta. split.
  - unfold plain_norm. cbn [reduce nth]. unfold fmul, fl. rewrite <- bpow_plus. rewrite rounded_power, Rabs_bpow by lia.
    unfold Rltb. destruct Rlt_dec as [L|L]; [|reflexivity]. apply lt_bpow in L. lia.
  - destruct (C83_single _ _ (bpow radix2 128) _ (Entry 0) [bpow radix2 100] rounding_float32 sums_up_one) as (v & E & B).
    + exists (bpow radix2 100). split; [now left|]. rewrite Rabs_bpow. apply bpow_le. lia.
    + cbn. lra.
    + cbn [summands]. change (INR 1) with 1. rewrite Rmult_1_r. replace 64 with (bpow radix2 6) by (cbn; lra). rewrite <- bpow_plus. apply bpow_le. lia.
    + cbn [summands]. change (INR 1) with 1. rewrite Rmult_1_r. replace 4 with (bpow radix2 2) by (cbn; lra). apply bpow_le. lia.
    + rewrite length_one, Rabs_bpow. replace 2 with (bpow radix2 1) by (cbn; lra). rewrite <- !bpow_plus.
      assert (bpow radix2 (1 + 100) <= bpow radix2 127) by (apply bpow_le; lia). assert (bpow radix2 (1 + -126) <= bpow radix2 127) by (apply bpow_le; lia).
      replace (bpow radix2 128) with (bpow radix2 127 + bpow radix2 127); [lra|]. replace 128%Z with (127 + 1)%Z by lia. rewrite bpow_plus. change (bpow radix2 1) with 2. lra.
    + exists v. split; [exact E|]. cbn [summands] in B. change (INR 1) with 1 in B. lra.
Qed.
Print Assumptions C83_overflow_avoided.

(** Finding: the scale is the maximum over the whole array, so that in a batch with one very long vector a
    vector of length one gets the norm zero.  The result for a vector depends on the other vectors. *)
Theorem C83_batch_refuted :
  let huge := bpow radix2 128 in let tiny := bpow radix2 (-126) in let rnd := rounded (-149) 24 in
  length_of [1] = 1 /\
  float_norm rnd tiny huge (fun _ => Entry 0) [[1]] = [Some 1] /\
  float_norm rnd tiny huge (fun _ => Entry 0) [[bpow radix2 80]; [1]] = [Some (bpow radix2 80); Some 0].
Proof.
  cbv zeta. assert (FP : forall e, (-126 <= e < 128)%Z -> fl (rounded (-149) 24) (bpow radix2 128) (bpow radix2 e) = Some (bpow radix2 e)).
  { intros e [E1 E2]. unfold fl. rewrite rounded_power, Rabs_bpow by lia. unfold Rltb. destruct Rlt_dec as [L|L]; [reflexivity|]. exfalso. apply L, bpow_lt. exact E2. }
  assert (DIV : forall a b, (-126 <= a - b < 128)%Z -> fdiv (rounded (-149) 24) (bpow radix2 128) (bpow radix2 a) (bpow radix2 b) = Some (bpow radix2 (a - b))).
  { intros a b R. unfold fdiv. destruct (Req_EM_T (bpow radix2 b) 0) as [Z|_]; [pose proof (bpow_gt_0 radix2 b); lra|].
    replace (bpow radix2 a / bpow radix2 b) with (bpow radix2 (a - b)); [now apply FP|]. unfold Zminus. now rewrite bpow_plus, bpow_opp. }
  assert (MUL : forall a b, (-126 <= a + b < 128)%Z -> fmul (rounded (-149) 24) (bpow radix2 128) (bpow radix2 a) (bpow radix2 b) = Some (bpow radix2 (a + b))).
  { intros a b R. unfold fmul. rewrite <- bpow_plus. now apply FP. }
  assert (SQ : forall e, (-126 <= e < 128)%Z -> fsqrt (rounded (-149) 24) (bpow radix2 128) (bpow radix2 (2 * e)) = Some (bpow radix2 e)).
  { intros e R. unfold fsqrt. destruct (Rle_dec 0 (bpow radix2 (2 * e))) as [_|N]; [|pose proof (bpow_ge_0 radix2 (2 * e)); contradiction].
    replace (2 * e)%Z with (e + e)%Z by lia. rewrite bpow_plus, sqrt_square by apply bpow_ge_0. now apply FP. }
  assert (MAX : forall a b, (b <= a)%Z -> Rmax (bpow radix2 a) (bpow radix2 b) = bpow radix2 a) by (intros a b L; now apply Rmax_left, bpow_le).
  assert (SELF : forall e, (-126 <= e < 128)%Z -> group_norm (rounded (-149) 24) (bpow radix2 128) (bpow radix2 e) (Entry 0) [bpow radix2 e] = Some (bpow radix2 e)).
  { intros e R. unfold group_norm. cbn [reduce nth]. rewrite DIV by lia. cbn [fbind]. rewrite MUL by lia. cbn [fbind].
    replace (e - e + (e - e))%Z with (2 * 0)%Z by lia. rewrite SQ by lia. cbn [fbind]. rewrite MUL by lia. now rewrite Z.add_0_r. }
  split; [rewrite length_one; apply Rabs_R1|]. change 1 with (bpow radix2 0). unfold float_norm, scale_of. cbn [map concat app max_abs fold_right]. rewrite !Rabs_bpow.
  rewrite !(Rmax_left _ 0) by apply bpow_ge_0. rewrite !MAX by lia. rewrite (SELF 0%Z), (SELF 80%Z) by lia. split; [reflexivity|].
  f_equal. f_equal. unfold group_norm. cbn [reduce nth]. rewrite DIV by lia. cbn [fbind]. unfold fmul at 1. rewrite <- bpow_plus.
  unfold fl at 1. rewrite rounded_too_small, Rabs_R0 by lia. assert (HH : 0 < bpow radix2 128) by apply bpow_gt_0.
  assert (R0 : fl (rounded (-149) 24) (bpow radix2 128) 0 = Some 0).
  { pose proof (rnd_zero _ _ _ rounding_float32) as E. rewrite fl_some; rewrite E; [reflexivity|now rewrite Rabs_R0]. }
  unfold Rltb. destruct Rlt_dec; [|contradiction]. cbn [fbind]. unfold fsqrt. destruct (Rle_dec 0 0); [|lra]. rewrite sqrt_0, R0. cbn [fbind].
  unfold fmul. now rewrite Rmult_0_r.
Qed.
Print Assumptions C83_batch_refuted.

(** * C84: normalized vectors *)

(** The entries of a normalized vector are finite and close to those of the unit vector. *)
Theorem C84_direction u tiny huge rnd (t : list R -> order) rows i x a :
  rounding u tiny rnd -> nth_error rows i = Some x -> sums_up (length x) (t x) ->
  tiny <= a -> (forall row v, In row rows -> In v row -> Rabs v <= a) ->
  let m := INR (summands (t x)) in
  m * u <= 1 / 64 -> 4 * m <= huge -> 64 * m * tiny * (a * a) <= u * (length_of x * length_of x) -> 2 * length_of x + 2 * tiny <= huge ->
  256 * tiny <= u * u -> 4 * tiny <= length_of x * length_of x ->
  exists ys, nth_error (float_normalize rnd tiny huge t rows) i = Some (map Some ys) /\
    Forall2 (fun y v => Rabs (y - v / length_of x) <= (3 * m + 10) * u * Rabs (v / length_of x) + tiny) ys x.
Proof.
  intros H I SU T A m MU MH L F UT LT. pose proof (unit_bounds _ _ _ H) as [U0 U1]. pose proof (tiny_bounds _ _ _ H) as [T0 T1].
  destruct (C83_norm u tiny huge rnd t rows i x a H I SU T A MU MH L F) as (n & E & B). fold m in B.
  unfold float_norm in E. rewrite nth_error_map, I in E. cbn in E. injection E as E.
  assert (M1 : 1 <= m) by (pose proof (le_INR _ _ (summands_pos (t x))) as Q; exact Q).
  assert (L0 : 0 < length_of x). { pose proof (sqrt_pos (sum_of (map (fun v => v ^ 2) x))) as P. fold (length_of x) in P. destruct P as [P|P]; [exact P|]. rewrite <- P in LT. lra. }
  set (k := 2 * m + 7) in *. assert (K : k * u <= 9 / 64) by (unfold k; lra).
  pose proof (threshold_above u tiny huge rnd H UT k n (length_of x) K ltac:(lra) LT B) as TH.
  assert (Q : forall v, In v x -> exists y, fdiv rnd huge v n = Some y /\ Rabs (y - v / length_of x) <= (3 * m + 10) * u * Rabs (v / length_of x) + tiny).
  { intros v V. destruct (quotient_error u tiny huge rnd H UT k n (length_of x) v ltac:(unfold k; lra) K ltac:(lra) L0 LT B (length_ge x v V)) as (y & Y1 & Y2).
    exists y. split; [exact Y1|]. unfold Rdiv at 2. rewrite Rabs_mult, Rabs_inv, (Rabs_right (length_of x)) by lra. fold (Rabs v / length_of x).
    eapply Rle_trans; [exact Y2|]. apply Rplus_le_compat_r. apply Rmult_le_compat_r.
    - apply Rmult_le_pos; [apply Rabs_pos|]. left. now apply Rinv_0_lt_compat.
    - apply Rmult_le_compat_r; [lra|]. unfold k. lra. }
  unfold float_normalize. rewrite nth_error_map, I. cbn. rewrite E. cbn. rewrite TH.
  clear - Q. set (l := length_of x) in *. clearbody l m. induction x as [|v x IH]; [exists []; split; [reflexivity|constructor]|].
  destruct (Q v (or_introl eq_refl)) as (y & Y1 & Y2). destruct IH as (ys & E & F); [intros w W; apply Q; now right|].
  exists (y :: ys). split; [|now constructor]. cbn. rewrite Y1. injection E as ->. reflexivity.
Qed.
Print Assumptions C84_direction.

(** So its length is one, up to rounding errors. *)
Theorem C84_unit u tiny huge rnd (t : list R -> order) rows i x a :
  rounding u tiny rnd -> nth_error rows i = Some x -> sums_up (length x) (t x) ->
  tiny <= a -> (forall row v, In row rows -> In v row -> Rabs v <= a) ->
  let m := INR (summands (t x)) in
  m * u <= 1 / 64 -> 4 * m <= huge -> 64 * m * tiny * (a * a) <= u * (length_of x * length_of x) -> 2 * length_of x + 2 * tiny <= huge ->
  256 * tiny <= u * u -> 4 * tiny <= length_of x * length_of x ->
  exists ys, nth_error (float_normalize rnd tiny huge t rows) i = Some (map Some ys) /\
    Rabs (length_of ys - 1) <= (3 * m + 11) * u.
Proof.
  intros H I SU T A m MU MH L F UT LT. pose proof (unit_bounds _ _ _ H) as [U0 U1]. pose proof (tiny_bounds _ _ _ H) as [T0 T1].
  destruct (C84_direction u tiny huge rnd t rows i x a H I SU T A MU MH L F UT LT) as (ys & E & B). fold m in B.
  exists ys. split; [exact E|].
  assert (M1 : 1 <= m) by (pose proof (le_INR _ _ (summands_pos (t x))) as Q; exact Q).
  assert (L0 : 0 < length_of x). { pose proof (sqrt_pos (sum_of (map (fun v => v ^ 2) x))) as P. fold (length_of x) in P. destruct P as [P|P]; [exact P|]. rewrite <- P in LT. lra. }
  set (es := map (fun v => v / length_of x) x).
  assert (EN : INR (length es) <= m).
  { unfold es. rewrite map_length. pose proof (Permutation_length SU) as P. rewrite seq_length in P. rewrite <- P. apply le_INR, entries_summands. }
  assert (TU : 256 * tiny <= 1 / 64 * u). { eapply Rle_trans; [exact UT|]. apply Rmult_le_compat_r; lra. }
  assert (MT : INR (length es) * tiny <= m * tiny) by (apply Rmult_le_compat_r; lra).
  assert (MM : m * tiny * 256 <= 1 / 64 * (m * u)). { assert (m * (256 * tiny) <= m * (1 / 64 * u)) by (apply Rmult_le_compat_l; lra). lra. }
  assert (UU : m * tiny * 256 <= 1 / 64 * u).
  { assert (m * (256 * tiny) <= m * (u * u)) by (apply Rmult_le_compat_l; lra). assert ((m * u) * u <= 1 / 64 * u) by (apply Rmult_le_compat_r; lra). lra. }
  assert (C : Rabs (length_of ys - 1) <= (3 * m + 10) * u + 2 * (INR (length es) * tiny)); [|lra].
  apply length_close.
  - split; [apply Rmult_le_pos; lra|lra].
  - lra.
  - lra.
  - unfold es. set (l := length_of x) in *. clearbody m l. clear - B. induction B; cbn [map]; constructor; assumption.
  - unfold es. intros e Ie. apply in_map_iff in Ie. destruct Ie as (v & <- & Iv). pose proof (length_ge x v Iv) as V.
    unfold Rdiv. rewrite Rabs_mult, Rabs_inv, (Rabs_right (length_of x)) by lra. apply (Rmult_le_reg_r (length_of x)); [exact L0|]. rewrite Rmult_assoc, Rinv_l by lra. lra.
  - unfold es. set (l := length_of x) in *. assert (P : 0 <= sum_of (map (fun v => v ^ 2) x)).
    { clear. induction x as [|e es IH]; cbn [map sum_of]; [lra|]. pose proof (pow2_ge_0 e). lra. }
    assert (S : sum_of (map (fun v => v ^ 2) x) = l * l) by (unfold l, length_of; now rewrite sqrt_sqrt by exact P).
    unfold length_of. rewrite map_map. assert (S' : sum_of (map (fun v => (v / l) ^ 2) x) = sum_of (map (fun v => v ^ 2) x) / (l * l)).
    { clearbody l. clear - L0. induction x as [|e es IH]; cbn [map sum_of]; [field; lra|]. rewrite IH. field. lra. }
    rewrite S', S. replace (l * l / (l * l)) with 1 by (field; lra). apply sqrt_1.
Qed.
Print Assumptions C84_unit.

(** Almost zero vectors are left as they are. *)
Theorem C84_short u tiny huge rnd (t : list R -> order) rows i x a :
  rounding u tiny rnd -> nth_error rows i = Some x -> sums_up (length x) (t x) ->
  tiny <= a -> (forall row v, In row rows -> In v row -> Rabs v <= a) ->
  let m := INR (summands (t x)) in
  m * u <= 1 / 64 -> 4 * m <= huge ->
  (forall v, In v x -> v = 0) \/ 64 * m * tiny * (a * a) <= u * (length_of x * length_of x) ->
  256 * tiny <= u * u -> 4 * (length_of x * length_of x) <= tiny ->
  (forall v, In v x -> rnd v = v) ->
  nth_error (float_normalize rnd tiny huge t rows) i = Some (map Some x).
Proof.
  intros H I SU T A m MU MH C UT LT R. pose proof (unit_bounds _ _ _ H) as [U0 U1]. pose proof (tiny_bounds _ _ _ H) as [T0 T1].
  assert (M1 : 1 <= m) by (pose proof (le_INR _ _ (summands_pos (t x))) as Q; exact Q).
  assert (L0 : 0 <= length_of x) by apply sqrt_pos.
  assert (L1 : length_of x <= 1). { apply Rsqr_incr_0_var; [|lra]. unfold Rsqr. lra. }
  assert (N : exists n, nth_error (float_norm rnd tiny huge t rows) i = Some (Some n) /\ 0 <= n /\ n <= length_of x + ((2 * m + 7) * u * length_of x + tiny)).
  { destruct C as [Z|C].
    - exists 0. split; [apply (C83_zero u tiny huge rnd t rows i x H ltac:(lra) I Z)|]. assert (0 <= (2 * m + 7) * u * length_of x) by (apply Rmult_le_pos; [apply Rmult_le_pos; lra|lra]). lra.
    - destruct (C83_norm u tiny huge rnd t rows i x a H I SU T A MU MH C ltac:(lra)) as (n & E & B). fold m in B. exists n. apply Rabs_le_inv in B.
      split; [exact E|]. split; [|lra]. unfold float_norm in E. rewrite nth_error_map, I in E. cbn in E. injection E as E. unfold group_norm in E.
      destruct (reduce rnd huge _ (t x)) as [s|]; [|discriminate]. cbn in E. unfold fsqrt in E. destruct (Rle_dec 0 s) as [S|S]; [|discriminate].
      pose proof (rnd_nonneg u tiny rnd H (sqrt s) (sqrt_pos s)) as S0. unfold fl in E. destruct Rltb; [|discriminate]. cbn in E. unfold fmul, fl in E. destruct Rltb; [|discriminate].
      injection E as <-. apply (rnd_nonneg u tiny rnd H). apply Rmult_le_pos; [|exact S0]. eapply Rle_trans; [|apply Rmax_r]. lra. }
  destruct N as (n & E & N0 & N1). unfold float_norm in E. rewrite nth_error_map, I in E. cbn in E. injection E as E.
  pose proof (threshold_below u tiny huge rnd H UT (2 * m + 7) n (length_of x) ltac:(lra) ltac:(lra) N0 L0 LT N1) as TH.
  unfold float_normalize. rewrite nth_error_map, I. cbn. rewrite E. cbn. rewrite TH. f_equal. apply map_ext_in. intros v V.
  unfold fdiv. destruct (Req_EM_T 1 0); [lra|]. replace (v / 1) with v by field. rewrite fl_some; rewrite (R v V); [reflexivity|].
  pose proof (length_ge x v V). lra.
Qed.
Print Assumptions C84_short.

(** Examples: the hypotheses hold for a vector with three entries in float32, added from left to right. *)
Definition left_to_right : order := Plus (Plus (Plus Zero (Entry 0)) (Entry 1)) (Entry 2).
Example C84_instance : let x := [3; 0; 4] in
  exists ys, float_normalize (rounded (-149) 24) (bpow radix2 (-126)) (bpow radix2 128) (fun _ => left_to_right) [x] = [map Some ys] /\
    Rabs (length_of ys - 1) <= 23 * bpow radix2 (-24).
Proof.
  cbv zeta. assert (L : length_of [3; 0; 4] = 5).
  { unfold length_of. cbn. replace (3 * (3 * 1) + (0 * (0 * 1) + (4 * (4 * 1) + 0))) with (5 * 5) by ring. apply sqrt_square. lra. }
  assert (SM : INR (summands left_to_right) = 4) by (cbn; lra).
  assert (B1 : bpow radix2 (-126) <= bpow radix2 (-100)) by (apply bpow_le; lia).
  assert (B2 : bpow radix2 (-100) * 1000000 <= bpow radix2 (-24) * bpow radix2 (-24)).
  { rewrite <- bpow_plus. apply Rle_trans with (bpow radix2 (-100) * bpow radix2 20); [|rewrite <- bpow_plus; apply bpow_le; lia].
    apply Rmult_le_compat_l; [apply bpow_ge_0|]. cbn. lra. }
  assert (B3 : bpow radix2 (-24) <= / 1000000) by (cbn; lra). assert (B4 : 0 < bpow radix2 (-24)) by apply bpow_gt_0. assert (B5 : 0 < bpow radix2 (-126)) by apply bpow_gt_0.
  assert (B6 : 100 <= bpow radix2 128) by (apply Rle_trans with (bpow radix2 7); [cbn; lra|apply bpow_le; lia]).
  assert (B7 : bpow radix2 (-24) * bpow radix2 (-24) <= bpow radix2 (-24) * / 1000000) by (apply Rmult_le_compat_l; lra).
  destruct (C84_unit _ _ (bpow radix2 128) _ (fun _ => left_to_right) [[3; 0; 4]] 0 [3; 0; 4] 4 rounding_float32 eq_refl) as (ys & E & B); rewrite ?L, ?SM; try lra.
  - apply Permutation_refl.
  - intros row v [<-|[]] [<-|[<-|[<-|[]]]]; unfold Rabs; destruct Rcase_abs; lra.
  - exists ys. rewrite SM in B. split; [|lra].
    set (r := float_normalize _ _ _ _ _) in *. assert (LR : length r = 1%nat) by reflexivity. clearbody r.
    destruct r as [|g [|? ?]]; [discriminate| |discriminate]. cbn in E. injection E as ->. reflexivity.
Qed.
Example C83_instance : exists v, float_norm (rounded (-1074) 53) (bpow radix2 (-1022)) (bpow radix2 1024) (fun _ => Entry 0) [[bpow radix2 700]] = [Some v] /\
  Rabs (v - bpow radix2 700) <= 9 * bpow radix2 (-53) * bpow radix2 700 + bpow radix2 (-1022).
Proof.
  destruct (C83_single _ _ (bpow radix2 1024) _ (Entry 0) [bpow radix2 700] rounding_float64 sums_up_one) as (v & E & B).
  - exists (bpow radix2 700). split; [now left|]. rewrite Rabs_bpow. apply bpow_le. lia.
  - cbn [summands]. change (INR 1) with 1. rewrite Rmult_1_l. apply Rle_trans with (bpow radix2 (-6)); [apply bpow_le; lia|cbn; lra].
  - cbn [summands]. change (INR 1) with 1. rewrite Rmult_1_r. replace 64 with (bpow radix2 6) by (cbn; lra). rewrite <- bpow_plus. apply bpow_le. lia.
  - cbn [summands]. change (INR 1) with 1. rewrite Rmult_1_r. replace 4 with (bpow radix2 2) by (cbn; lra). apply bpow_le. lia.
  - rewrite length_one, Rabs_bpow. replace 2 with (bpow radix2 1) by (cbn; lra). rewrite <- !bpow_plus.
    assert (bpow radix2 (1 + 700) <= bpow radix2 1023) by (apply bpow_le; lia). assert (bpow radix2 (1 + -1022) <= bpow radix2 1023) by (apply bpow_le; lia).
    replace (bpow radix2 1024) with (bpow radix2 1023 + bpow radix2 1023); [lra|]. replace 1024%Z with (1023 + 1)%Z by lia. rewrite bpow_plus. change (bpow radix2 1) with 2. lra.
  - exists v. split; [exact E|]. cbn [summands] in B. change (INR 1) with 1 in B. rewrite length_one, Rabs_bpow in B. lra.
Qed.
