(** The error of [norm] in floating point arithmetic, for C83 and C84. *)
Require Import List Reals Lra Lia Permutation ZArith.
Require Import Verif.Base Verif.Radial_Model Verif.Rotations_Model Verif.Rotations_Spec Verif.Rotations_Proofs Verif.Float_Model Verif.Float_Spec Verif.Float_Proofs.
Import ListNotations.
Open Scope R_scope.

Lemma sum_of_total (f : R -> R) (g : list R) : sum_of (map f g) = total (fun i => f (nth i g 0)) (seq 0 (length g)).
Proof.
  unfold total. induction g as [|x g IH]; [reflexivity|]. cbn [map length seq]. rewrite <- seq_shift, map_map. cbn [fold_right nth].
  rewrite <- IH. reflexivity.
Qed.

Lemma total_scale q c l : total (fun i => c * q i) l = c * total q l.
Proof. unfold total. induction l as [|i l IH]; cbn; [ring|]. rewrite IH. ring. Qed.
Lemma total_ext q p l : (forall i, q i = p i) -> total q l = total p l.
Proof. intro E. unfold total. now rewrite (map_ext q p E). Qed.

Lemma sqrt_close s y d : 0 <= s -> 0 < y -> 0 <= d -> Rabs (s - y) <= d * y -> Rabs (sqrt s - sqrt y) <= d * sqrt y.
Proof.
  intros S Y D E. pose proof (sqrt_lt_R0 y Y) as P. pose proof (sqrt_pos s) as P'.
  assert (F : (sqrt s - sqrt y) * (sqrt s + sqrt y) = s - y).
  { replace ((sqrt s - sqrt y) * (sqrt s + sqrt y)) with (sqrt s * sqrt s - sqrt y * sqrt y) by ring. rewrite !sqrt_sqrt by lra. reflexivity. }
  apply (Rmult_le_reg_r (sqrt s + sqrt y)); [lra|].
  rewrite <- (Rabs_right (sqrt s + sqrt y)) at 1 by lra. rewrite <- Rabs_mult, F.
  eapply Rle_trans; [exact E|]. rewrite <- (sqrt_sqrt y) at 1 by lra.
  assert (0 <= d * sqrt y * sqrt s) by (apply Rmult_le_pos; [apply Rmult_le_pos; lra|lra]). lra.
Qed.

(** One group of entries, scaled by [a]. *)

Lemma group_norm_error u tiny huge rnd a t g : rounding u tiny rnd ->
  tiny <= a -> (forall v, In v g -> Rabs v <= a) -> sums_up (length g) t ->
  let m := INR (summands t) in let norm := length_of g in
  m * u <= 1 / 64 -> 4 * m <= huge -> 64 * m * tiny * (a * a) <= u * (norm * norm) -> 2 * norm + 2 * tiny <= huge ->
  exists v, group_norm rnd huge a t g = Some v /\ Rabs (v - norm) <= (2 * m + 7) * u * norm + tiny.
Proof.
  intros H TA X SU m norm MU MH LARGE FIT.
  pose proof (unit_bounds _ _ _ H) as [U0 U1]. pose proof (tiny_bounds _ _ _ H) as [T0 T1].
  assert (A : 0 < a) by lra. assert (M1 : 1 <= m) by (pose proof (le_INR _ _ (summands_pos t)) as L; exact L).
  set (y := fun i => nth i g 0 / a * (nth i g 0 / a)).
  assert (XA : forall i, Rabs (nth i g 0) <= a).
  { intro i. destruct (le_lt_dec (length g) i) as [L|L]; [rewrite nth_overflow, Rabs_R0 by exact L; lra|]. apply X, nth_In, L. }
  pose proof (fun i => entry_error u tiny huge rnd H (nth i g 0) a ltac:(lra) A (XA i)) as EE.
  set (q := fun i => fbind (fdiv rnd huge (nth i g 0) a) (fun b => fmul rnd huge b b)) in *.
  set (p := fun i => match q i with Some v => v | None => 0 end).
  assert (QP : forall i, q i = Some (p i)) by (intro i; unfold p; destruct (EE i) as (z & E & _); fold (q i) in E; now rewrite E).
  assert (P1 : forall i, 0 <= p i <= 1) by (intro i; unfold p; destruct (EE i) as (z & E & B & _); fold (q i) in E; now rewrite E).
  assert (PE : forall i, Rabs (p i - y i) <= 4 * u * y i + 4 * tiny) by (intro i; unfold p; destruct (EE i) as (z & E & _ & B); fold (q i) in E; rewrite E; exact B).
  destruct (reduce_error u tiny huge rnd H q p t (fun i _ => QP i) P1 MU MH) as (s & ES & S0 & SE). fold m in SE.
  pose proof (power_small u (summands t) ltac:(lra) MU) as PW. fold m in PW.
  destruct (power_bound u (summands t) ltac:(lra) MU) as [_ PW1].
  pose proof (total_close p y (4 * u) (4 * tiny) (entries t) PE) as TE.
  assert (LE : INR (length (entries t)) <= m) by (apply le_INR, entries_summands).
  set (Y := total y (entries t)) in *. set (Q := total p (entries t)) in *.
  assert (EY : a * a * Y = norm * norm).
  { unfold norm, length_of. rewrite sqrt_sqrt.
    - rewrite (sum_of_total (fun x => x ^ 2)). unfold Y. rewrite (total_perm y _ _ SU), <- total_scale. apply total_ext. intro i. unfold y. field. lra.
    - rewrite (sum_of_total (fun x => x ^ 2)). apply total_nonneg. intro i. apply pow2_ge_0. }
  assert (NN : 0 <= norm) by apply sqrt_pos.
  assert (YM : 64 * m * tiny <= u * Y).
  { rewrite <- EY in LARGE. apply (Rmult_le_reg_r (a * a)); [now apply Rmult_lt_0_compat|]. lra. }
  assert (YP : 0 < Y). { assert (0 < 64 * m * tiny) by (apply Rmult_lt_0_compat; lra). apply (Rmult_lt_reg_l u); lra. }
  assert (EN : norm = a * sqrt Y).
  { assert (SY : 0 <= a * sqrt Y) by (apply Rmult_le_pos; [lra|apply sqrt_pos]).
    apply Rsqr_inj; [exact NN|exact SY|]. unfold Rsqr. rewrite <- EY. rewrite <- (sqrt_sqrt Y) at 1 by lra. ring. }
  (* the error of the sum *)
  set (e := (1 + u) ^ summands t) in *.
  assert (D : Rabs (s - Y) <= (3 / 2 * m + 9 / 2) * u * Y).
  { clearbody e Q Y. clear - SE TE PW PW1 LE YM YP U0 U1 T0 T1 MU M1.
    set (k := INR (length (entries t))) in *. clearbody k m.
    assert (K : k * (4 * tiny) <= u * Y / 16) by nra.
    apply Rabs_le_inv in TE. apply Rabs_le_inv in SE.
    assert (Q0 : Q <= (1 + 5 * u) * Y) by lra.
    assert (EB : 0 <= e - 1) by lra.
    assert (E1 : (e - 1) * Q <= (64 / 63 * (m * u)) * ((1 + 5 * u) * Y)).
    { eapply Rle_trans; [apply Rmult_le_compat_l; [exact EB|exact Q0]|]. apply Rmult_le_compat_r; [|exact PW].
      apply Rmult_le_pos; lra. }
    assert (E2 : (64 / 63 * (m * u)) * ((1 + 5 * u) * Y) <= 5 / 4 * (m * u * Y)).
    { assert (MUY : 0 <= m * u * Y) by (apply Rmult_le_pos; [apply Rmult_le_pos; lra|lra]).
      replace ((64 / 63 * (m * u)) * ((1 + 5 * u) * Y)) with (64 / 63 * (1 + 5 * u) * (m * u * Y)) by ring. apply Rmult_le_compat_r; lra. }
    assert (E3 : (m - 1) * (e * tiny) <= u * Y / 32).
    { assert (e <= 2) by lra. assert ((m - 1) * (e * tiny) <= m * (2 * tiny)); [|lra].
      apply Rmult_le_compat; try lra; [apply Rmult_le_pos; lra|apply Rmult_le_compat_r; lra]. }
    assert (UY : 0 < u * Y) by now apply Rmult_lt_0_compat.
    apply Rabs_le. split; lra. }
  set (d := (3 / 2 * m + 9 / 2) * u) in *.
  assert (D1 : 0 <= d <= 1 / 8) by (unfold d; split; [apply Rmult_le_pos; lra|lra]).
  pose proof (sqrt_close s Y d S0 YP (proj1 D1) D) as SQ.
  pose proof (sqrt_lt_R0 Y YP) as RY. pose proof (sqrt_pos s) as RS.
  pose proof (rnd_pos u tiny rnd H (sqrt s) RS) as [R1 R2]. pose proof (rnd_nonneg u tiny rnd H (sqrt s) RS) as R0.
  (* tiny is small compared to the root *)
  assert (TR : tiny <= u * sqrt Y / 16).
  { destruct (Rlt_le_dec 1 (sqrt Y)) as [L|L]; [assert (u * 1 <= u * sqrt Y) by (apply Rmult_le_compat_l; lra); lra|].
    assert (Y <= sqrt Y * 1). { rewrite <- (sqrt_sqrt Y) at 1 by lra. apply Rmult_le_compat_l; lra. }
    assert (u * Y <= u * (sqrt Y * 1)) by (apply Rmult_le_compat_l; lra). assert (1 * tiny <= m * tiny) by (apply Rmult_le_compat_r; lra). lra. }
  set (r := rnd (sqrt s)) in *. apply Rabs_le_inv in SQ.
  assert (RE : Rabs (r - sqrt Y) <= (d + 5 / 4 * u) * sqrt Y).
  { assert (DS : d * sqrt Y <= 1 / 8 * sqrt Y) by (apply Rmult_le_compat_r; lra). assert (sqrt s <= 9 / 8 * sqrt Y) by lra.
    assert (US : u * sqrt s <= u * (9 / 8 * sqrt Y)) by (apply Rmult_le_compat_l; lra). apply Rabs_le. split; lra. }
  pose proof (Rabs_le_inv _ _ RE) as RE'.
  assert (DU : (d + 5 / 4 * u) * sqrt Y <= 1 / 4 * sqrt Y) by (apply Rmult_le_compat_r; lra). assert (RB : r <= 5 / 4 * sqrt Y) by lra.
  assert (AR : 0 <= a * r) by (apply Rmult_le_pos; lra).
  pose proof (rnd_pos u tiny rnd H (a * r) AR) as [V1 V2]. pose proof (rnd_nonneg u tiny rnd H (a * r) AR) as V0.
  assert (AB : a * r <= a * (5 / 4 * sqrt Y)) by (apply Rmult_le_compat_l; lra). replace (a * (5 / 4 * sqrt Y)) with (5 / 4 * norm) in AB by (rewrite EN; ring).
  assert (AD1 : a * (r - sqrt Y) <= a * ((d + 5 / 4 * u) * sqrt Y)) by (apply Rmult_le_compat_l; lra).
  assert (AD2 : a * (sqrt Y - r) <= a * ((d + 5 / 4 * u) * sqrt Y)) by (apply Rmult_le_compat_l; lra).
  replace (a * ((d + 5 / 4 * u) * sqrt Y)) with ((d + 5 / 4 * u) * norm) in AD1, AD2 by (rewrite EN; ring).
  replace (a * (r - sqrt Y)) with (a * r - norm) in AD1 by (rewrite EN; ring). replace (a * (sqrt Y - r)) with (norm - a * r) in AD2 by (rewrite EN; ring).
  assert (UAR : u * (a * r) <= u * (5 / 4 * norm)) by (apply Rmult_le_compat_l; lra). assert (UN : u * norm <= 1 / 64 * norm) by (apply Rmult_le_compat_r; lra).
  assert (DN : (d + 5 / 4 * u + 5 / 4 * u) * norm <= (2 * m + 7) * u * norm).
  { apply Rmult_le_compat_r; [exact NN|]. unfold d. assert (0 <= m * u) by (apply Rmult_le_pos; lra). lra. }
  exists (rnd (a * r)). split.
  - unfold group_norm. fold q. rewrite ES. cbn [fbind]. unfold fsqrt. destruct (Rle_dec 0 s); [|lra].
    assert (YB : sqrt Y <= m).
    { assert (Y <= m).
      { unfold Y. eapply Rle_trans; [apply total_bound|exact LE]. intro i. unfold y. specialize (XA i).
        assert (Rabs (nth i g 0 / a) <= 1).
        { unfold Rdiv. rewrite Rabs_mult, Rabs_inv, (Rabs_right a) by lra. apply (Rmult_le_reg_r a); [exact A|]. rewrite Rmult_assoc, Rinv_l by lra. lra. }
        apply Rabs_le_inv in H0. clear - H0. nra. }
      destruct (Rlt_le_dec 1 (sqrt Y)) as [L|L]; [|lra]. rewrite <- (sqrt_sqrt Y) in H0 by lra. assert (sqrt Y * 1 <= sqrt Y * sqrt Y) by (apply Rmult_le_compat_l; lra). lra. }
    rewrite fl_some; fold r; [|rewrite Rabs_right by lra; lra]. cbn [fbind]. unfold fmul. apply fl_some.
    rewrite Rabs_right by lra. lra.
  - apply Rabs_le. split; lra.
Qed.

Lemma max_abs_in l v : In v l -> Rabs v <= max_abs l.
Proof.
  induction l as [|w l IH]; cbn; [easy|]. intros [->|I]; [apply Rmax_l|]. eapply Rle_trans; [exact (IH I)|apply Rmax_r].
Qed.
Lemma max_abs_le l a : 0 <= a -> (forall v, In v l -> Rabs v <= a) -> max_abs l <= a.
Proof.
  intros A L. induction l as [|w l IH]; cbn; [exact A|]. apply Rmax_lub; [apply L; now left|]. apply IH. intros v I. apply L. now right.
Qed.

Lemma length_ge g v : In v g -> Rabs v <= length_of g.
Proof.
  intro I. rewrite <- sqrt_Rsqr_abs. apply sqrt_le_1_alt. unfold Rsqr.
  induction g as [|w g IH]; [easy|]. cbn. assert (N : 0 <= sum_of (map (fun x => x * (x * 1)) g)).
  { clear. induction g as [|z g IH]; cbn; [lra|]. pose proof (pow2_ge_0 z). cbn in *. lra. }
  pose proof (pow2_ge_0 w). cbn in *. destruct I as [->|I]; [lra|]. specialize (IH I). lra.
Qed.

(** All entries zero. *)
Lemma reduce_zero rnd huge q t : rnd 0 = 0 -> 0 < huge -> (forall i, q i = Some 0) -> reduce rnd huge q t = Some 0.
Proof.
  intros Z HH Q. induction t as [|i|l IHl r IHr]; cbn; [reflexivity|apply Q|]. rewrite IHl, IHr. cbn. unfold fadd, fl, Rltb.
  rewrite Rplus_0_r, Z, Rabs_R0. destruct Rlt_dec; [reflexivity|contradiction].
Qed.
Lemma group_norm_zero u tiny huge rnd a t g : rounding u tiny rnd -> 0 < huge -> 0 < a -> (forall v, In v g -> v = 0) ->
  group_norm rnd huge a t g = Some 0.
Proof.
  intros H HH A G. pose proof (rnd_zero _ _ _ H) as Z. unfold group_norm.
  assert (F : fl rnd huge 0 = Some 0) by (rewrite fl_some; rewrite Z; [reflexivity|rewrite Rabs_R0; exact HH]).
  rewrite reduce_zero; [|exact Z|exact HH|].
  - cbn. unfold fsqrt. destruct (Rle_dec 0 0); [|lra]. rewrite sqrt_0, F. cbn. unfold fmul. now rewrite Rmult_0_r.
  - intro i. assert (E : nth i g 0 = 0). { destruct (le_lt_dec (length g) i) as [L|L]; [now apply nth_overflow|]. now apply G, nth_In. }
    rewrite E. unfold fdiv. destruct (Req_EM_T a 0); [lra|]. unfold Rdiv. rewrite Rmult_0_l, F. cbn. unfold fmul. now rewrite Rmult_0_l.
Qed.

(** Without rounding. *)
Lemma fl_exact huge x : Rabs x < huge -> fl (fun x => x) huge x = Some x.
Proof. exact (fl_some huge (fun x => x) x). Qed.
Lemma reduce_exact huge q p t : (forall i, q i = Some (p i)) -> (forall i, 0 <= p i <= 1) -> INR (summands t) < huge ->
  reduce (fun x => x) huge q t = Some (total p (entries t)).
Proof.
  intros Q P. assert (P0 : forall i, 0 <= p i) by (intro i; apply P). assert (P1 : forall i, p i <= 1) by (intro i; apply P).
  induction t as [|i|l IHl r IHr]; intro HH; cbn [reduce entries summands] in *; [reflexivity| |].
  - rewrite Q. unfold total. cbn. now rewrite Rplus_0_r.
  - rewrite plus_INR in HH. pose proof (pos_INR (summands l)). pose proof (pos_INR (summands r)).
    rewrite IHl, IHr by lra. cbn [fbind]. unfold fadd. rewrite total_app. apply fl_exact. rewrite <- total_app.
    pose proof (total_nonneg p (entries l ++ entries r) P0). rewrite Rabs_right by lra. eapply Rle_lt_trans; [apply total_bound, P1|].
    rewrite app_length, plus_INR. pose proof (le_INR _ _ (entries_summands l)). pose proof (le_INR _ _ (entries_summands r)). lra.
Qed.
Lemma group_norm_exact huge a t g : 0 < a -> (forall v, In v g -> Rabs v <= a) -> sums_up (length g) t -> INR (summands t) < huge -> length_of g < huge ->
  group_norm (fun x => x) huge a t g = Some (length_of g).
Proof.
  intros A X SU HH HL. set (y := fun i => nth i g 0 / a * (nth i g 0 / a)).
  assert (Y1 : forall i, Rabs (nth i g 0 / a) <= 1).
  { intro i. assert (XA : Rabs (nth i g 0) <= a).
    { destruct (le_lt_dec (length g) i) as [L|L]; [rewrite nth_overflow, Rabs_R0 by exact L; lra|]. apply X, nth_In, L. }
    unfold Rdiv. rewrite Rabs_mult, Rabs_inv, (Rabs_right a) by lra. apply (Rmult_le_reg_r a); [exact A|]. rewrite Rmult_assoc, Rinv_l by lra. lra. }
  assert (Y2 : forall i, 0 <= y i <= 1) by (intro i; specialize (Y1 i); apply Rabs_le_inv in Y1; unfold y; split; nra).
  pose proof (le_INR _ _ (summands_pos t)) as M1. cbn [INR] in M1.
  assert (L : forall i, fbind (fdiv (fun x => x) huge (nth i g 0) a) (fun b => fmul (fun x => x) huge b b) = Some (y i)).
  { intro i. unfold fdiv. destruct (Req_EM_T a 0); [lra|]. rewrite fl_exact by (specialize (Y1 i); lra). cbn [fbind]. unfold fmul. apply fl_exact. specialize (Y2 i). unfold y in *. rewrite Rabs_right; lra. }
  set (Y := total y (entries t)).
  assert (Y0 : 0 <= Y) by (apply total_nonneg; intro i; apply Y2).
  assert (YM : Y <= INR (summands t)).
  { eapply Rle_trans; [apply total_bound; intro i; apply Y2|apply le_INR, entries_summands]. }
  assert (EY : a * sqrt Y = length_of g).
  { unfold length_of. rewrite (sum_of_total (fun x => x ^ 2)). rewrite (total_ext _ (fun i => a * a * y i)) by (intro i; unfold y; field; lra).
    rewrite total_scale, <- (total_perm y _ _ SU). fold Y. rewrite sqrt_mult by nra. now rewrite sqrt_square by lra. }
  assert (SY : sqrt Y < huge).
  { destruct (Rle_lt_dec Y 1) as [L1|L1]; [apply sqrt_le_1_alt in L1; rewrite sqrt_1 in L1; lra|].
    assert (1 <= sqrt Y) by (rewrite <- sqrt_1; apply sqrt_le_1_alt; lra). rewrite <- (sqrt_sqrt Y) in YM by lra. nra. }
  unfold group_norm. rewrite (reduce_exact huge _ y t L Y2 HH). fold Y. cbn [fbind]. unfold fsqrt. destruct (Rle_dec 0 Y); [|contradiction].
  pose proof (sqrt_pos Y). rewrite fl_exact by (rewrite Rabs_right; lra). cbn [fbind]. unfold fmul. rewrite EY. apply fl_exact.
  rewrite Rabs_right; [exact HL|]. apply Rle_ge, sqrt_pos.
Qed.
