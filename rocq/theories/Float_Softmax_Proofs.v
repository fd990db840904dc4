(** The error of a softmax in floating point arithmetic, for C86. *)
Require Import List Reals Lra Lia Permutation ZArith.
Require Import Verif.Base Verif.Indexed_Spec Verif.Float_Model Verif.Float_Spec Verif.Float_Indexed_Spec Verif.Float_Proofs Verif.Float_Norm_Proofs.
Import ListNotations.
Open Scope R_scope.

Lemma total_le q p l : (forall i, In i l -> q i <= p i) -> total q l <= total p l.
Proof. intro L. unfold total. induction l as [|i l IH]; cbn; [lra|]. pose proof (L i (or_introl eq_refl)). specialize (IH (fun j J => L j (or_intror J))). lra. Qed.
Lemma total_member q l i : (forall j, 0 <= q j) -> In i l -> q i <= total q l.
Proof.
  intros Q I. unfold total. induction l as [|j l IH]; [easy|]. cbn. pose proof (total_nonneg q l Q) as N. unfold total in N. destruct I as [->|I]; [lra|]. specialize (IH I). specialize (Q j). lra.
Qed.
Lemma total_close_in q y c d l : (forall i, In i l -> Rabs (q i - y i) <= c * y i + d) -> Rabs (total q l - total y l) <= c * total y l + INR (length l) * d.
Proof.
  intro C. induction l as [|i l IH].
  - cbn. rewrite Rminus_eq_0, Rabs_R0. lra.
  - cbn [length]. rewrite S_INR. change (total q (i :: l)) with (q i + total q l). change (total y (i :: l)) with (y i + total y l).
    specialize (IH (fun j J => C j (or_intror J))). pose proof (C i (or_introl eq_refl)) as D.
    replace (q i + total q l - (y i + total y l)) with ((q i - y i) + (total q l - total y l)) by ring. eapply Rle_trans; [apply Rabs_triang|]. lra.
Qed.

Section Rounding.
Variables (u tiny huge : R) (rnd : R -> R).
Hypothesis H : rounding u tiny rnd.

(** Numerators [p i] of which one, [p e0], is not too small. *)
Lemma denominator_error (q : nat -> option R) (p : nat -> R) t e0 w0 :
  (forall i, In i (entries t) -> q i = Some (p i)) -> (forall i, 0 <= p i <= 1) ->
  let m := INR (summands t) in let P := total p (entries t) in
  m * u <= 1 / 64 -> 4 * m <= huge -> In e0 (entries t) -> w0 - (u * w0 + tiny) <= p e0 -> 0 < w0 -> 128 * (m * tiny) <= u * w0 ->
  exists S, reduce rnd huge q t = Some S /\ 9 / 10 * w0 <= P /\ Rabs (S - P) <= 6 / 5 * (m * u) * P /\ 49 / 50 * P <= S.
Proof using H.
  intros Q P01 m P MU MH I0 B0 W0 MT. pose proof (unit_bounds _ _ _ H) as [U0 U1]. pose proof (tiny_bounds _ _ _ H) as [T0 T1].
  destruct (reduce_error u tiny huge rnd H q p t Q P01 MU MH) as (S & E & S0 & B). fold m P in B. exists S. split; [exact E|].
  pose proof (total_member p (entries t) e0 (fun j => proj1 (P01 j)) I0) as PM. fold P in PM.
  pose proof (power_small u (summands t) ltac:(lra) MU) as PW. destruct (power_bound u (summands t) ltac:(lra) MU) as [_ P1]. fold m in PW.
  set (e := (1 + u) ^ summands t) in *. clearbody e.
  assert (M1 : 1 <= m) by (pose proof (le_INR _ _ (summands_pos t)) as Z; exact Z).
  assert (MTT : 1 * tiny <= m * tiny) by (apply Rmult_le_compat_r; lra).
  assert (UW : u * w0 <= 1 / 64 * w0) by (apply Rmult_le_compat_r; lra).
  assert (PW0 : 9 / 10 * w0 <= P) by lra.
  assert (Z1 : (e - 1) * P <= 64 / 63 * (m * u) * P) by (apply Rmult_le_compat_r; lra).
  assert (Z2 : (m - 1) * (e * tiny) <= m * (2 * tiny)) by (apply Rmult_le_compat; try lra; [apply Rmult_le_pos; lra|apply Rmult_le_compat_r; lra]).
  assert (UP : u * (9 / 10 * w0) <= u * P) by (apply Rmult_le_compat_l; lra).
  assert (MUP : 1 * (u * P) <= m * (u * P)) by (apply Rmult_le_compat_r; [apply Rmult_le_pos; lra|exact M1]).
  assert (BB : Rabs (S - P) <= 6 / 5 * (m * u) * P) by lra.
  split; [exact PW0|]. split; [exact BB|]. apply Rabs_le_inv in BB. assert (6 / 5 * (m * u) * P <= 1 / 50 * P) by (apply Rmult_le_compat_r; lra). lra.
Qed.

(** The weights are finite, and close to the quotients. *)
Lemma weight_error p S P : 0 <= p <= P -> 0 < P -> 49 / 50 * P <= S -> 2 <= huge ->
  exists w, fdiv rnd huge p S = Some w /\ 0 <= w /\ 0 <= p / S <= 50 / 49 /\ Rabs (w - p / S) <= u * (p / S) + tiny.
Proof using H.
  intros [P0 P1] PP SP HH. pose proof (unit_bounds _ _ _ H) as [U0 U1]. pose proof (tiny_bounds _ _ _ H) as [T0 T1].
  assert (S0 : 0 < S) by lra. assert (D0 : 0 <= p / S). { apply Rmult_le_pos; [lra|]. left. now apply Rinv_0_lt_compat. }
  assert (D1 : p / S <= 50 / 49). { apply (Rmult_le_reg_r S); [exact S0|]. unfold Rdiv. rewrite Rmult_assoc, Rinv_l by lra. lra. }
  pose proof (rnd_any u tiny rnd H (p / S)) as R. rewrite (Rabs_right (p / S)) in R by lra.
  pose proof (rnd_nonneg u tiny rnd H (p / S) D0) as R0. exists (rnd (p / S)).
  split; [|split; [exact R0|split; [lra|exact R]]]. unfold fdiv. destruct (Req_EM_T S 0); [lra|]. apply fl_some. rewrite Rabs_right by lra. apply Rabs_le_inv in R.
  assert (u * (p / S) <= 1 / 64 * (50 / 49)) by (apply Rmult_le_compat; lra). lra.
Qed.

Lemma weights_sum (p w : nat -> R) l S P m : (forall i, In i l -> Rabs (w i - p i / S) <= u * (p i / S) + tiny) -> P = total p l -> 0 < P -> 49 / 50 * P <= S ->
  Rabs (S - P) <= 6 / 5 * (m * u) * P -> INR (length l) <= m -> 1 <= m -> m * u <= 1 / 64 -> 128 * (m * tiny) <= u -> Rabs (total w l - 1) <= (2 * m + 2) * u.
Proof using H.
  intros W EP PP SP B LM M1 MU MT. pose proof (unit_bounds _ _ _ H) as [U0 U1]. pose proof (tiny_bounds _ _ _ H) as [T0 T1].
  pose proof (total_close_in w (fun i => p i / S) u tiny l W) as TC.
  assert (S0 : 0 < S) by lra.
  assert (E : total (fun i => p i / S) l = P / S).
  { rewrite EP. unfold Rdiv. rewrite (total_ext _ (fun i => / S * p i)) by (intro; ring). rewrite total_scale. ring. }
  rewrite E in TC.
  assert (D1 : P / S <= 50 / 49). { apply (Rmult_le_reg_r S); [exact S0|]. unfold Rdiv. rewrite Rmult_assoc, Rinv_l by lra. lra. }
  assert (D0 : 0 <= P / S). { apply Rmult_le_pos; [lra|]. left. now apply Rinv_0_lt_compat. }
  assert (D2 : Rabs (P / S - 1) <= 6 / 5 * (m * u) * (P / S)).
  { replace (P / S - 1) with ((P - S) / S) by (field; lra). unfold Rdiv. rewrite Rabs_mult, Rabs_inv, (Rabs_right S), Rabs_minus_sym, <- Rmult_assoc by lra.
    apply Rmult_le_compat_r; [left; now apply Rinv_0_lt_compat|exact B]. }
  assert (D3 : 6 / 5 * (m * u) * (P / S) <= 6 / 5 * (m * u) * (50 / 49)) by (apply Rmult_le_compat_l; [apply Rmult_le_pos; [lra|apply Rmult_le_pos; lra]|exact D1]).
  assert (D4 : u * (P / S) <= u * (50 / 49)) by (apply Rmult_le_compat_l; lra).
  assert (D5 : INR (length l) * tiny <= m * tiny) by (apply Rmult_le_compat_r; lra).
  assert (D6 : 0 <= m * u) by (apply Rmult_le_pos; lra).
  replace (total w l - 1) with ((total w l - P / S) + (P / S - 1)) by ring. eapply Rle_trans; [apply Rabs_triang|]. lra.
Qed.

(** Compared with exact numerators [a i]. *)
Lemma weight_accuracy k p a A w S P m w0 : 0 <= p -> 0 <= a <= A -> Rabs (p - a) <= k * u -> Rabs (P - A) <= m * (k * u) -> Rabs (S - P) <= 6 / 5 * (m * u) * P ->
  Rabs (w - p / S) <= u * (p / S) + tiny -> p <= P -> 9 / 10 * w0 <= P -> 49 / 50 * P <= S -> w0 <= A -> 0 < w0 <= 1 -> 1 <= k -> 1 <= m -> m * u <= 1 / 64 ->
  Rabs (w - a / A) <= (6 / 5 * k + 2) * (m + 1) * u / w0.
Proof using H.
  intros P0 [A0 A1] PA PAA B W PP PW SP AW [W0 W1] K M1 MU. pose proof (unit_bounds _ _ _ H) as [U0 U1]. pose proof (tiny_bounds _ _ _ H) as [T0 T1].
  assert (S0 : 0 < S) by lra. assert (AP : 0 < A) by lra.
  assert (D1 : p / S <= 50 / 49). { apply (Rmult_le_reg_r S); [exact S0|]. unfold Rdiv. rewrite Rmult_assoc, Rinv_l by lra. lra. }
  assert (D4 : u * (p / S) <= u * (50 / 49)) by (apply Rmult_le_compat_l; lra).
  (* |p/S - a/A| *)
  assert (SI : / S <= 6 / 5 * / w0).
  { apply (Rmult_le_reg_r S); [exact S0|]. rewrite Rinv_l by lra. apply (Rmult_le_reg_r w0); [exact W0|]. replace (6 / 5 * / w0 * S * w0) with (6 / 5 * S) by (field; lra). lra. }
  assert (SI0 : 0 < / S) by now apply Rinv_0_lt_compat.
  assert (F1 : Rabs ((p - a) / S) <= k * u * / S).
  { unfold Rdiv. rewrite Rabs_mult, (Rabs_right (/ S)) by lra. apply Rmult_le_compat_r; lra. }
  assert (AS : Rabs (A - S) <= m * (k * u) + 6 / 5 * (m * u) * P).
  { replace (A - S) with (- (P - A) + - (S - P)) by ring. eapply Rle_trans; [apply Rabs_triang|]. rewrite !Rabs_Ropp. lra. }
  assert (F2 : Rabs (a / A * ((A - S) / S)) <= (m * (k * u)) * / S + 6 / 5 * (m * u) * (50 / 49)).
  { assert (Q : Rabs (a / A) <= 1).
    { unfold Rdiv. rewrite Rabs_mult, Rabs_inv, (Rabs_right a), (Rabs_right A) by lra. apply (Rmult_le_reg_r A); [exact AP|]. rewrite Rmult_assoc, Rinv_l by lra. lra. }
    rewrite Rabs_mult. assert (Q2 : Rabs ((A - S) / S) <= (m * (k * u)) * / S + 6 / 5 * (m * u) * (P / S)).
    { unfold Rdiv. rewrite Rabs_mult, (Rabs_right (/ S)) by lra. assert (Rabs (A - S) * / S <= (m * (k * u) + 6 / 5 * (m * u) * P) * / S) by (apply Rmult_le_compat_r; lra). lra. }
    assert (PS : P / S <= 50 / 49). { apply (Rmult_le_reg_r S); [exact S0|]. unfold Rdiv. rewrite Rmult_assoc, Rinv_l by lra. lra. }
    assert (MU0 : 0 <= 6 / 5 * (m * u)) by (apply Rmult_le_pos; [lra|apply Rmult_le_pos; lra]).
    assert (6 / 5 * (m * u) * (P / S) <= 6 / 5 * (m * u) * (50 / 49)) by (apply Rmult_le_compat_l; lra).
    pose proof (Rabs_pos ((A - S) / S)). assert (Rabs (a / A) * Rabs ((A - S) / S) <= 1 * Rabs ((A - S) / S)) by (apply Rmult_le_compat_r; lra). lra. }
  replace (w - a / A) with ((w - p / S) + ((p - a) / S + a / A * ((A - S) / S))) by (field; lra).
  eapply Rle_trans; [apply Rabs_triang|]. pose proof (Rabs_triang ((p - a) / S) (a / A * ((A - S) / S))) as T.
  assert (K0 : 0 <= k * u) by (apply Rmult_le_pos; lra). assert (MK : 0 <= m * (k * u)) by (apply Rmult_le_pos; lra).
  assert (G1 : (m + 1) * (k * u) * / S <= (m + 1) * (k * u) * (6 / 5 * / w0)) by (apply Rmult_le_compat_l; [lra|exact SI]).
  assert (WI : 1 <= / w0). { rewrite <- Rinv_1. apply Rinv_le_contravar; lra. }
  assert (MUP : 0 <= m * u) by (apply Rmult_le_pos; lra).
  assert (G2 : 2 * (m + 1) * u * 1 <= 2 * (m + 1) * u * / w0) by (apply Rmult_le_compat_l; [|exact WI]; apply Rmult_le_pos; lra).
  replace ((6 / 5 * k + 2) * (m + 1) * u / w0) with ((m + 1) * (k * u) * (6 / 5 * / w0) + 2 * (m + 1) * u * / w0) by (field; lra). lra.
Qed.

(** The exponential function of a rounded argument. *)
Lemma exp_rounded d : d <= 0 -> Rabs (exp (rnd d) - exp d) <= 5 * u.
Proof using H.
  intro D. pose proof (unit_bounds _ _ _ H) as [U0 U1]. pose proof (tiny_bounds _ _ _ H) as [T0 T1].
  pose proof (rnd_any u tiny rnd H d) as R. rewrite (Rabs_left1 d) in R by exact D. set (x := - d) in *. set (z := rnd d - d) in *.
  assert (X0 : 0 <= x) by (unfold x; lra). apply Rabs_le_inv in R.
  assert (XE : x * exp (- x) <= 1).
  { pose proof (exp_ineq1_le x) as I. pose proof (exp_pos x). rewrite exp_Ropp. apply (Rmult_le_reg_r (exp x)); [lra|]. rewrite Rmult_assoc, Rinv_l by lra. lra. }
  assert (EX : 0 < exp (- x) <= 1). { split; [apply exp_pos|]. rewrite <- exp_0. destruct X0 as [X0|X0]; [left; apply exp_increasing; lra|rewrite <- X0; right; f_equal; ring]. }
  replace (exp d) with (exp (- x)) by (f_equal; unfold x; ring). replace (rnd d) with (- x + z) by (unfold x, z; ring).
  destruct (Rle_lt_dec (u * x + tiny) (1 / 2)) as [C|C].
  - rewrite exp_plus. replace (exp (- x) * exp z - exp (- x)) with (exp (- x) * (exp z - 1)) by ring. rewrite Rabs_mult, (Rabs_right (exp (- x))) by lra.
    assert (Z : Rabs (exp z - 1) <= 2 * (u * x + tiny)).
    { pose proof (exp_ineq1_le z) as I1. pose proof (exp_ineq1_le (- z)) as I2. rewrite exp_Ropp in I2. pose proof (exp_pos z) as EP.
      apply Rabs_le. split; [lra|]. destruct (Rle_lt_dec z 0) as [L|L].
      - assert (exp z <= 1). { rewrite <- exp_0. destruct L as [L|L]; [left; now apply exp_increasing|rewrite L; lra]. } lra.
      - assert (E1 : exp z * (1 - z) <= 1). { apply (Rmult_le_compat_l (exp z)) in I2; [|lra]. rewrite Rinv_r in I2 by lra. lra. }
        assert (exp z <= 1 + 2 * z); [|lra]. apply (Rmult_le_reg_r (1 - z)); [lra|]. assert (0 <= z * (1 - 2 * z)) by (apply Rmult_le_pos; lra). lra. }
    assert (Q : exp (- x) * Rabs (exp z - 1) <= exp (- x) * (2 * (u * x + tiny))) by (apply Rmult_le_compat_l; lra).
    assert (Q1 : u * (x * exp (- x)) <= u * 1) by (apply Rmult_le_compat_l; lra). assert (Q2 : tiny * exp (- x) <= tiny * 1) by (apply Rmult_le_compat_l; lra). lra.
  - assert (XP : 0 < x). { destruct X0 as [X0|X0]; [exact X0|]. exfalso. rewrite <- X0 in C. lra. }
    assert (UX : 0 <= u * x) by (apply Rmult_le_pos; lra).
    assert (ZX : z <= x / 2). { assert (u * x <= 1 / 64 * x) by (apply Rmult_le_compat_r; lra). lra. }
    assert (HX : 1 / x <= 2.2 * u). { apply (Rmult_le_reg_r x); [exact XP|]. unfold Rdiv. rewrite Rmult_assoc, Rinv_l by lra. lra. }
    assert (E2 : exp (- x + z) <= 2 * (1 / x)).
    { apply Rle_trans with (exp (- (x / 2))).
      - destruct (Rle_lt_or_eq_dec (- x + z) (- (x / 2)) ltac:(lra)) as [L|L]; [left; now apply exp_increasing|rewrite L; lra].
      - pose proof (exp_ineq1_le (x / 2)) as I. pose proof (exp_pos (x / 2)). rewrite exp_Ropp. apply (Rmult_le_reg_r (exp (x / 2))); [lra|]. rewrite Rinv_l by lra.
        assert (2 * (1 / x) * (x / 2) <= 2 * (1 / x) * exp (x / 2)). { apply Rmult_le_compat_l; [|lra]. assert (0 < 1 / x) by (apply Rdiv_lt_0_compat; lra). lra. }
        replace (2 * (1 / x) * (x / 2)) with 1 in H1 by (field; lra). lra. }
    assert (E3 : exp (- x) <= 1 / x). { apply (Rmult_le_reg_l x); [exact XP|]. replace (x * (1 / x)) with 1 by (field; lra). exact XE. }
    pose proof (exp_pos (- x + z)). apply Rabs_le. split; lra.
Qed.
End Rounding.
