(** The formats of IEEE 754 and bfloat16, with and without subnormal numbers, round as C83 and C84
    assume (after Flocq). *)
Require Import Reals Lra Lia ZArith.
From Flocq Require Import Core FTZ Relative.
Require Import Verif.Float_Spec.
Open Scope R_scope.

(** Round to nearest, ties to even: numbers with [prec] binary digits and exponents from [emin]; the
    second variant has no subnormal numbers (they are flushed to zero). *)
Definition rounded (emin prec : Z) (x : R) : R := round radix2 (FLT_exp emin prec) ZnearestE x.
Definition flushed (emin prec : Z) (x : R) : R := round radix2 (FTZ_exp emin prec) (Zrnd_FTZ ZnearestE) x.
Definition unit_of_format (prec : Z) : R := bpow radix2 (- prec).
Definition tiny_of_format (emin prec : Z) : R := bpow radix2 (emin + prec - 1).

Lemma bpow_le_scaled k e e' : (k + e <= e')%Z -> bpow radix2 k * bpow radix2 e <= bpow radix2 e'.
Proof. intro L. rewrite <- bpow_plus. apply bpow_le. exact L. Qed.

Section Format.
Variables emin prec : Z.
Hypothesis P : (6 <= prec)%Z.
Hypothesis E : (emin + 2 * prec + 3 <= 0)%Z.

Local Instance prec_ok : Prec_gt_0 prec.
Proof. unfold Prec_gt_0. lia. Qed.

Lemma half_unit : / 2 * bpow radix2 (- prec + 1) = unit_of_format prec.
Proof using. unfold unit_of_format. rewrite bpow_plus. change (bpow radix2 1) with 2. field. Qed.
Lemma unit_ok : 0 < unit_of_format prec <= 1 / 64.
Proof using P.
  unfold unit_of_format. split; [apply bpow_gt_0|]. replace (1 / 64) with (bpow radix2 (-6)) by (cbn; lra). apply bpow_le. lia.
Qed.
Lemma tiny_ok : 0 < tiny_of_format emin prec /\ 16 * tiny_of_format emin prec <= unit_of_format prec.
Proof using P E.
  unfold tiny_of_format, unit_of_format. split; [apply bpow_gt_0|]. replace 16 with (bpow radix2 4) by (cbn; lra). apply bpow_le_scaled. lia.
Qed.

Lemma rounding_rounded : rounding (unit_of_format prec) (tiny_of_format emin prec) (rounded emin prec).
Proof using P E.
  constructor; [apply unit_ok|apply tiny_ok| | | | | |].
  - intro x. apply round_NE_opp.
  - unfold rounded. apply round_generic; [typeclasses eauto|]. change 1 with (bpow radix2 0). apply generic_format_bpow. unfold FLT_exp. lia.
  - unfold rounded, tiny_of_format. apply round_generic; [typeclasses eauto|]. apply generic_format_bpow. unfold FLT_exp. lia.
  - intros x y L. unfold rounded. apply round_le; [typeclasses eauto|typeclasses eauto|exact L].
  - intros x L. unfold rounded. rewrite <- half_unit. apply relative_error_N_FLT; [lia|exact L].
  - intros x L. unfold rounded. destruct (error_N_FLT radix2 emin prec ltac:(lia) (fun t => negb (Z.even t)) x) as (eps & eta & A & B & C & ->).
    rewrite half_unit in A. replace (x * (1 + eps) + eta - x) with (x * eps + eta) by ring.
    pose proof unit_ok as [U0 U1].
    assert (T : / 2 * bpow radix2 emin <= tiny_of_format emin prec).
    { replace (/ 2) with (bpow radix2 (-1)) by (cbn; lra). unfold tiny_of_format. apply bpow_le_scaled. lia. }
    apply Rmult_integral in C. destruct C as [->| ->].
    + rewrite Rmult_0_r, Rplus_0_l. lra.
    + rewrite Rplus_0_r, Rabs_mult. pose proof (Rabs_pos x). pose proof (Rabs_pos eps).
      apply Rle_trans with (tiny_of_format emin prec * 1); [apply Rmult_le_compat; lra|lra].
Qed.

Lemma rounding_flushed : rounding (unit_of_format prec) (tiny_of_format emin prec) (flushed emin prec).
Proof using P E.
  pose proof tiny_ok as [T0 _].
  assert (BIG : forall x, tiny_of_format emin prec <= Rabs x -> flushed emin prec x = round radix2 (FLX_exp prec) ZnearestE x).
  { intros x L. unfold flushed. apply round_FTZ_FLX; [typeclasses eauto|exact L]. }
  assert (SMALL : forall x, Rabs x < tiny_of_format emin prec -> flushed emin prec x = 0).
  { intros x L. unfold flushed. apply round_FTZ_small; [typeclasses eauto|exact L]. }
  constructor; [apply unit_ok|apply tiny_ok| | | | | |].
  - intro x. destruct (Rlt_le_dec (Rabs x) (tiny_of_format emin prec)) as [L|L].
    + rewrite !SMALL; [lra|exact L|now rewrite Rabs_Ropp].
    + rewrite !BIG; [apply round_NE_opp|exact L|now rewrite Rabs_Ropp].
  - unfold flushed. apply round_generic; [typeclasses eauto|]. change 1 with (bpow radix2 0). apply generic_format_bpow.
    unfold FTZ_exp. destruct (Z.ltb_spec (0 + 1 - prec) emin); lia.
  - unfold flushed, tiny_of_format. apply round_generic; [typeclasses eauto|]. apply generic_format_bpow.
    unfold FTZ_exp. destruct (Z.ltb_spec (emin + prec - 1 + 1 - prec) emin); lia.
  - intros x y L. unfold flushed. apply round_le; [typeclasses eauto|typeclasses eauto|exact L].
  - intros x L. rewrite BIG by exact L. rewrite <- half_unit. apply relative_error_N_FLX. lia.
  - intros x L. rewrite SMALL by exact L. rewrite Rminus_0_l, Rabs_Ropp. lra.
Qed.
End Format.

(** float32, float64 and bfloat16. *)
Lemma rounding_float32 : rounding (bpow radix2 (-24)) (bpow radix2 (-126)) (rounded (-149) 24).
Proof. apply (rounding_rounded (-149) 24); lia. Qed.
Lemma rounding_float64 : rounding (bpow radix2 (-53)) (bpow radix2 (-1022)) (rounded (-1074) 53).
Proof. apply (rounding_rounded (-1074) 53); lia. Qed.
Lemma rounding_bfloat16 : rounding (bpow radix2 (-8)) (bpow radix2 (-126)) (rounded (-133) 8).
Proof. apply (rounding_rounded (-133) 8); lia. Qed.
Lemma rounding_float32_flushed : rounding (bpow radix2 (-24)) (bpow radix2 (-126)) (flushed (-149) 24).
Proof. apply (rounding_flushed (-149) 24); lia. Qed.

(** Powers of two, and numbers that are too small. *)
Lemma rounded_power emin prec e : (0 < prec)%Z -> (emin + prec <= e + 1)%Z -> rounded emin prec (bpow radix2 e) = bpow radix2 e.
Proof. intros P L. unfold rounded. apply round_generic; [typeclasses eauto|]. apply generic_format_bpow. unfold FLT_exp. lia. Qed.
Lemma rounded_too_small emin prec e : (e + 1 < emin)%Z -> rounded emin prec (bpow radix2 e) = 0.
Proof.
  intro L. unfold rounded. apply round_N_small_pos with (ex := (e + 1)%Z).
  - split; [replace (e + 1 - 1)%Z with e by lia; lra|apply bpow_lt; lia].
  - unfold FLT_exp. lia.
Qed.
