(** The polynomials of [_spherical_harmonics] are harmonic, orthonormal and complete. *)
Require Import List Reals ZArith Bool Arith Lra Lia Setoid Morphisms Ring Field.
Require Import Verif.Base Verif.RSum Verif.Common_Model Verif.Symbolic_Model Verif.Poly_Proofs Verif.PolyDiff_Proofs.
Import ListNotations.
Open Scope R_scope.

(** * Binomial coefficients and factorials *)
Lemma INR_fact_pos : forall n, 0 < INR (fact n). Proof. intros. apply lt_0_INR, lt_O_fact. Qed.
Lemma INR_fact_neq : forall n, INR (fact n) <> 0. Proof. intros. pose proof (INR_fact_pos n). lra. Qed.
Lemma INR_fact_S : forall n, INR (fact (S n)) = (INR n + 1) * INR (fact n).
Proof. intros. rewrite <- S_INR, <- mult_INR. reflexivity. Qed.

Lemma comb_0 : forall n, comb n 0 = 1%nat. Proof. intros [|n]; reflexivity. Qed.
Lemma comb_gt : forall n k, (n < k)%nat -> comb n k = 0%nat.
Proof. induction n as [|n IH]; intros [|k] H; try lia; [reflexivity|]. cbn [comb]. rewrite !IH by lia. reflexivity. Qed.
Lemma comb_diag : forall n, comb n n = 1%nat.
Proof. induction n as [|n IH]; [reflexivity|]. cbn [comb]. rewrite IH, comb_gt by lia. reflexivity. Qed.

Lemma comb_fact : forall n k, (k <= n)%nat -> (comb n k * (fact k * fact (n - k)) = fact n)%nat.
Proof.
  induction n as [|n IH]; intros k Hk; [replace k with 0%nat by lia; reflexivity|].
  destruct k as [|k]; [rewrite comb_0; cbn [fact Nat.sub]; lia|].
  cbn [comb]. destruct (Nat.eq_dec k n) as [->|Hn].
  - rewrite comb_diag, comb_gt by lia. replace (S n - S n)%nat with 0%nat by lia. cbn [fact]. lia.
  - assert (H1 := IH k ltac:(lia)). assert (H2 := IH (S k) ltac:(lia)).
    replace (S n - S k)%nat with (n - k)%nat by lia.
    replace (n - k)%nat with (S (n - S k)) in * by lia. set (q := (n - S k)%nat) in *.
    assert (En : n = (S k + q)%nat) by lia.
    change (fact (S n)) with (S n * fact n)%nat. change (fact (S k)) with (S k * fact k)%nat in *. change (fact (S q)) with (S q * fact q)%nat in *.
    set (a := fact k) in *. set (b := fact q) in *. set (u := comb n k) in *. set (v := comb n (S k)) in *. set (f := fact n) in *.
    assert (E1 : (S k * (u * (a * (S q * b))) = S k * f)%nat) by (rewrite H1; reflexivity).
    assert (E2 : (S q * (v * (S k * a * b)) = S q * f)%nat) by (rewrite H2; reflexivity).
    replace (S n * f)%nat with (S k * f + S q * f)%nat by lia. rewrite <- E1, <- E2. ring.
Qed.

Lemma INR_comb : forall n k, (k <= n)%nat -> INR (comb n k) = INR (fact n) / (INR (fact k) * INR (fact (n - k))).
Proof.
  intros n k H. rewrite <- (comb_fact n k H) at 1. rewrite !mult_INR. field. split; apply INR_fact_neq.
Qed.

Lemma rsum_last : forall n f, rsum (S n) f = rsum n f + f n. Proof. reflexivity. Qed.

(** * The polynomials a and b *)

Lemma cos_step : forall n, cos (INR (S n) * PI / 2) = - sin (INR n * PI / 2).
Proof.
  intros n. replace (INR (S n) * PI / 2) with (PI / 2 + INR n * PI / 2) by (rewrite S_INR; field).
  rewrite (sin_cos (INR n * PI / 2)), Ropp_involutive. reflexivity.
Qed.
Lemma sin_step : forall n, sin (INR (S n) * PI / 2) = cos (INR n * PI / 2).
Proof. intros n. replace (INR (S n) * PI / 2) with (PI / 2 + INR n * PI / 2) by (rewrite S_INR; field). now rewrite cos_sin. Qed.

(** Both have the same shape; [g] is the cosine or the sine. *)
Definition sh_g (g : R -> R) (m : nat) : poly3 :=
  p3_sum (m + 1) (fun p =>
    p3_scal (INR (comb m p) * g (INR (m - p) * PI / 2)) (p3_mul (p3_pow p3_x p) (p3_pow p3_y (m - p)))).

Lemma lin_g : forall w g m, lin w (sh_g g m) = rsum (S m) (fun p => INR (comb m p) * g (INR (m - p) * PI / 2) * w (p, m - p, 0)%nat).
Proof.
  intros w g m. unfold sh_g. rewrite lin_sum, Nat.add_1_r. apply rsum_ext. intros p Hp.
  rewrite lin_scal, pow_x, pow_y, mono_mul, lin_mono. cbn. now rewrite Nat.add_0_r.
Qed.

Lemma sh_g_S : forall g h s, (forall n, g (INR (S n) * PI / 2) = s * h (INR n * PI / 2)) -> forall m,
  sh_g g (S m) == p3_add (p3_mul p3_x (sh_g g m)) (p3_scal s (p3_mul p3_y (sh_g h m))).
Proof.
  intros g h s H m w. rewrite lin_add, lin_scal.
  change p3_x with (mono (1, 0, 0)%nat). change p3_y with (mono (0, 1, 0)%nat). rewrite !lin_mul, !lin_mono, !lin_g.
  cbn [key3_mul Nat.add].
  rewrite rsum_S_l. rewrite comb_0. replace (S m - 0)%nat with (S m) by lia.
  transitivity (g (INR (S m) * PI / 2) * w (0, S m, 0)%nat
    + (rsum (S m) (fun p => INR (comb m p) * g (INR (m - p) * PI / 2) * w (S p, m - p, 0)%nat)
       + rsum (S m) (fun p => INR (comb m (S p)) * g (INR (m - p) * PI / 2) * w (S p, m - p, 0)%nat))).
  { rewrite <- rsum_plus. cbn [INR]. rewrite Rmult_1_l. f_equal. apply rsum_ext. intros p Hp. cbn [comb]. rewrite plus_INR.
    replace (S m - S p)%nat with (m - p)%nat by lia. ring. }
  rewrite (rsum_S_l m (fun p => INR (comb m p) * h (INR (m - p) * PI / 2) * w (p, S (m - p), 0)%nat)).
  rewrite comb_0. replace (m - 0)%nat with m by lia.
  rewrite (rsum_last m (fun p => INR (comb m (S p)) * g (INR (m - p) * PI / 2) * w (S p, m - p, 0)%nat)).
  rewrite (comb_gt m (S m)) by lia. rewrite Rmult_plus_distr_l. rewrite <- rsum_scal_l.
  rewrite (rsum_ext m (fun p => INR (comb m (S p)) * g (INR (m - p) * PI / 2) * w (S p, m - p, 0)%nat)
            (fun i => s * (INR (comb m (S i)) * h (INR (m - S i) * PI / 2) * w (S i, S (m - S i), 0)%nat))).
  - rewrite H. cbn [INR]. ring.
  - intros i Hi. replace (m - i)%nat with (S (m - S i)) by lia. rewrite H. ring.
Qed.

Lemma a_0 : sh_a 0 == pone.
Proof. intros w. change (sh_a 0) with (sh_g cos 0). rewrite lin_g. unfold pone. rewrite lin_const. cbn. rewrite Rmult_0_l. unfold Rdiv. rewrite Rmult_0_l, cos_0. ring. Qed.
Lemma b_0 : sh_b 0 == pzero.
Proof. intros w. change (sh_b 0) with (sh_g sin 0). rewrite lin_g. cbn. rewrite Rmult_0_l. unfold Rdiv. rewrite Rmult_0_l, sin_0. ring. Qed.
Lemma a_S : forall m, sh_a (S m) == psub (p3_mul p3_x (sh_a m)) (p3_mul p3_y (sh_b m)).
Proof.
  intros m. change (sh_a (S m)) with (sh_g cos (S m)). rewrite (sh_g_S cos sin (-1)) by (intros; rewrite cos_step; ring). reflexivity.
Qed.
Lemma b_S : forall m, sh_b (S m) == p3_add (p3_mul p3_x (sh_b m)) (p3_mul p3_y (sh_a m)).
Proof.
  intros m. change (sh_b (S m)) with (sh_g sin (S m)). rewrite (sh_g_S sin cos 1) by (intros; rewrite sin_step; ring). now rewrite pscal_1.
Qed.

Lemma pd_popp : forall i p, pd i (popp p) == popp (pd i p). Proof. intros. unfold popp. apply pd_scal. Qed.
Lemma pd_psub : forall i p q, pd i (psub p q) == psub (pd i p) (pd i q). Proof. intros. unfold psub. now rewrite pd_add, pd_popp. Qed.

Lemma const_0 : p3_const 0 == pzero. Proof. intros w. cbn. ring. Qed.
Lemma const_S : forall n, p3_const (INR (S n)) == p3_add (p3_const (INR n)) pone.
Proof. intros. rewrite S_INR. apply const_add. Qed.

Lemma pd_x : forall i, pd i p3_x == p3_const (kron i 0).
Proof. intros i w. rewrite lin_pd, lin_const. destruct i as [|[|i]]; cbn; ring. Qed.
Lemma pd_y : forall i, pd i p3_y == p3_const (kron i 1).
Proof. intros i w. rewrite lin_pd, lin_const. destruct i as [|[|i]]; cbn; ring. Qed.

Ltac krons := unfold kron; repeat match goal with |- context [Nat.eq_dec ?a ?b] => destruct (Nat.eq_dec a b); try lia end; rewrite ?const_0; change (p3_const 1) with pone.

Lemma pd_ab : forall m,
  pd 0 (sh_a m) == p3_scal (INR m) (sh_a (pred m)) /\ pd 1 (sh_a m) == popp (p3_scal (INR m) (sh_b (pred m)))
  /\ pd 0 (sh_b m) == p3_scal (INR m) (sh_b (pred m)) /\ pd 1 (sh_b m) == p3_scal (INR m) (sh_a (pred m))
  /\ pd 2 (sh_a m) == pzero /\ pd 2 (sh_b m) == pzero.
Proof.
  induction m as [|m [H1 [H2 [H3 [H4 [H5 H6]]]]]].
  - rewrite a_0, b_0. cbn [INR pred]. rewrite !pd_one, !pd_zero, !scal_mul, const_0. repeat split; rewrite ?a_0, ?b_0; ring.
  - cbn [pred].
    assert (X : p3_mul (p3_const (INR m)) (sh_a m) == p3_mul (p3_const (INR m)) (psub (p3_mul p3_x (sh_a (pred m))) (p3_mul p3_y (sh_b (pred m))))).
    { destruct m as [|m]; [cbn [INR]; rewrite const_0; ring|]. cbn [pred]. now rewrite a_S. }
    assert (Y : p3_mul (p3_const (INR m)) (sh_b m) == p3_mul (p3_const (INR m)) (p3_add (p3_mul p3_x (sh_b (pred m))) (p3_mul p3_y (sh_a (pred m))))).
    { destruct m as [|m]; [cbn [INR]; rewrite const_0; ring|]. cbn [pred]. now rewrite b_S. }
    rewrite !a_S, !b_S, !pd_psub, !pd_add, !pd_mul, !pd_x, !pd_y, H1, H2, H3, H4, H5, H6, !scal_mul, !const_S.
    krons. refine (conj _ (conj _ (conj _ (conj _ (conj _ _))))).
    + transitivity (p3_add (sh_a m) (p3_mul (p3_const (INR m)) (psub (p3_mul p3_x (sh_a (pred m))) (p3_mul p3_y (sh_b (pred m)))))); [ring|]. rewrite <- X. ring.
    + transitivity (popp (p3_add (sh_b m) (p3_mul (p3_const (INR m)) (p3_add (p3_mul p3_x (sh_b (pred m))) (p3_mul p3_y (sh_a (pred m))))))); [ring|]. rewrite <- Y. ring.
    + transitivity (p3_add (sh_b m) (p3_mul (p3_const (INR m)) (p3_add (p3_mul p3_x (sh_b (pred m))) (p3_mul p3_y (sh_a (pred m)))))); [ring|]. rewrite <- Y. ring.
    + transitivity (p3_add (sh_a m) (p3_mul (p3_const (INR m)) (psub (p3_mul p3_x (sh_a (pred m))) (p3_mul p3_y (sh_b (pred m)))))); [ring|]. rewrite <- X. ring.
    + ring.
    + ring.
Qed.

Lemma homogeneous_g : forall g m, homogeneous m (sh_g g m).
Proof.
  intros g m. unfold sh_g. apply homogeneous_sum. intros p Hp. apply homogeneous_scal.
  replace m with (p * 1 + (m - p) * 1)%nat at 1 by lia. apply homogeneous_mul; apply homogeneous_pow; [apply homogeneous_x|apply homogeneous_y].
Qed.

(** What is used of a and b. *)
Definition planar (m : nat) (T : poly3) : Prop := homogeneous m T /\ lap T == pzero /\ pd 2 T == pzero.

Lemma planar_a : forall m, planar m (sh_a m).
Proof.
  intros m. split; [apply (homogeneous_g cos)|]. destruct (pd_ab m) as [H1 [H2 [_ [_ [H5 _]]]]]. split; [|exact H5].
  destruct (pd_ab (pred m)) as [G1 [G2 [G3 [G4 _]]]].
  unfold lap. rewrite H1, H2, H5, pd_popp, !pd_scal, G1, G4, pd_zero, !scal_mul. ring.
Qed.
Lemma planar_b : forall m, planar m (sh_b m).
Proof.
  intros m. split; [apply (homogeneous_g sin)|]. destruct (pd_ab m) as [_ [_ [H3 [H4 [_ H6]]]]]. split; [|exact H6].
  destruct (pd_ab (pred m)) as [G1 [G2 [G3 [G4 _]]]].
  unfold lap. rewrite H3, H4, H6, !pd_scal, G2, G3, pd_zero, !scal_mul. ring.
Qed.

(** Inner products of a and b. *)
Lemma fischer_ab : forall m,
  fischer (sh_a (S m)) (sh_a (S m)) = (INR m + 1) * (fischer (sh_a m) (sh_a m) + fischer (sh_b m) (sh_b m))
  /\ fischer (sh_b (S m)) (sh_b (S m)) = (INR m + 1) * (fischer (sh_a m) (sh_a m) + fischer (sh_b m) (sh_b m))
  /\ fischer (sh_a (S m)) (sh_b (S m)) = 0.
Proof.
  intros m. destruct (pd_ab (S m)) as [H1 [H2 [H3 [H4 _]]]]. cbn [pred] in *. rewrite S_INR in *.
  assert (E : forall q, fischer (sh_a (S m)) q = fischer (sh_a m) (pd 0 q) - fischer (sh_b m) (pd 1 q)).
  { intros q. rewrite a_S. unfold psub, popp. rewrite fischer_add_l, fischer_scal_l.
    change p3_x with (pvar 0). change p3_y with (pvar 1). rewrite !fischer_var by lia. ring. }
  assert (E' : forall q, fischer (sh_b (S m)) q = fischer (sh_b m) (pd 0 q) + fischer (sh_a m) (pd 1 q)).
  { intros q. rewrite b_S. rewrite fischer_add_l.
    change p3_x with (pvar 0). change p3_y with (pvar 1). rewrite !fischer_var by lia. ring. }
  split; [|split].
  - rewrite E, H1, H2. unfold popp. rewrite !fischer_scal_r. ring.
  - rewrite E', H3, H4. rewrite !fischer_scal_r. ring.
  - rewrite E, H3, H4. rewrite !fischer_scal_r, (fischer_sym (sh_b m)). ring.
Qed.

Lemma fischer_ab_sum : forall m, fischer (sh_a m) (sh_a m) + fischer (sh_b m) (sh_b m) = 2 ^ m * INR (fact m).
Proof.
  induction m as [|m IH].
  - rewrite a_0, b_0, fischer_zero_r. change pone with (mono (0, 0, 0)%nat). rewrite fischer_mono, coef_lin, lin_mono. cbn. ring.
  - destruct (fischer_ab m) as [H1 [H2 _]]. rewrite H1, H2, IH, INR_fact_S. cbn [pow]. ring.
Qed.

Lemma fischer_aa : forall m, (0 < m)%nat -> fischer (sh_a m) (sh_a m) = 2 ^ (m - 1) * INR (fact m).
Proof.
  intros [|m] H; [lia|]. destruct (fischer_ab m) as [H1 _]. rewrite H1, fischer_ab_sum, INR_fact_S.
  replace (S m - 1)%nat with m by lia. ring.
Qed.
Lemma fischer_bb : forall m, (0 < m)%nat -> fischer (sh_b m) (sh_b m) = 2 ^ (m - 1) * INR (fact m).
Proof.
  intros [|m] H; [lia|]. destruct (fischer_ab m) as [_ [H1 _]]. rewrite H1, fischer_ab_sum, INR_fact_S.
  replace (S m - 1)%nat with m by lia. ring.
Qed.
Lemma fischer_ab_0 : forall m, fischer (sh_a m) (sh_b m) = 0.
Proof. intros [|m]; [rewrite b_0; apply fischer_zero_r|]. apply fischer_ab. Qed.

(** * The polynomial pi *)

Definition coeff (l m k : nat) : R := sh_coefficient l m k.

Lemma coeff_fact : forall l m k, (2 * k + m <= l)%nat ->
  coeff l m k = (-1) ^ k * / 2 ^ l * INR (fact (2 * l - 2 * k)) / (INR (fact k) * INR (fact (l - k)) * INR (fact (l - 2 * k - m))).
Proof.
  intros l m k H. unfold coeff, sh_coefficient. rewrite !INR_comb by lia.
  replace (2 * l - 2 * k - l)%nat with (l - 2 * k)%nat by lia. field.
  repeat split; try apply INR_fact_neq. apply pow_nonzero. lra.
Qed.

Lemma INR_fact_pred : forall n, (0 < n)%nat -> INR (fact n) = INR n * INR (fact (n - 1)).
Proof. intros [|n] H; [lia|]. replace (S n - 1)%nat with n by lia. now rewrite INR_fact_S, S_INR. Qed.

(** Coefficient identity behind Laplace's equation. *)
Lemma coeff_laplace : forall l m k, (2 * k + 2 + m <= l)%nat ->
  coeff l m k * (INR (l - 2 * k - m) * INR (l - 2 * k - m - 1))
  + coeff l m (S k) * (2 * INR (S k) * (2 * INR l - 2 * INR k - 1)) = 0.
Proof.
  intros l m k H. rewrite !coeff_fact by lia.
  set (n := (l - 2 * k - m - 2)%nat). replace (l - 2 * S k - m)%nat with n by lia.
  replace (l - 2 * k - m)%nat with (S (S n)) by lia. replace (S (S n) - 1)%nat with (S n) by lia.
  set (q := (l - S k)%nat). replace (l - k)%nat with (S q) by lia.
  replace (2 * l - 2 * k)%nat with (S (S (2 * q))) by lia. replace (2 * l - 2 * S k)%nat with (2 * q)%nat by lia.
  replace (INR l) with (INR q + INR k + 1) by (replace l with (q + k + 1)%nat by lia; rewrite !plus_INR; cbn; ring).
  rewrite !INR_fact_S, !S_INR, mult_INR. change (INR 2) with 2. cbn [pow].
  field. repeat split; try apply INR_fact_neq; try (apply pow_nonzero; lra); try (pose proof (pos_INR k); pose proof (pos_INR q); pose proof (pos_INR n); lra).
Qed.

(** Coefficient identity behind the derivative with respect to z. *)
Lemma coeff_derivative : forall l m k, (2 * k + 1 + m <= S l)%nat ->
  INR (S l - 2 * k - m) * coeff (S l) m k + (if le_dec (2 * k + 2 + m) (S l) then 2 * INR (S k) * coeff (S l) m (S k) else 0)
  = (INR (S l) + INR m) * coeff l m k.
Proof.
  intros l m k H. rewrite (coeff_fact l) by lia. rewrite (coeff_fact (S l) m k) by lia.
  set (q := (l - k)%nat). replace (S l - k)%nat with (S q) by lia.
  replace (2 * S l - 2 * k)%nat with (S (S (2 * q))) by lia. replace (2 * l - 2 * k)%nat with (2 * q)%nat by lia.
  replace (INR (S l)) with (INR q + INR k + 1) by (replace (S l) with (q + k + 1)%nat by lia; rewrite !plus_INR; cbn; ring).
  destruct (le_dec (2 * k + 2 + m) (S l)) as [L|L].
  - rewrite coeff_fact by lia. set (n := (l - 2 * k - m - 1)%nat).
    replace (S l - 2 * S k - m)%nat with n by lia. replace (l - 2 * k - m)%nat with (S n) by lia. replace (S l - 2 * k - m)%nat with (S (S n)) by lia.
    replace (S l - S k)%nat with q by lia. replace (2 * S l - 2 * S k)%nat with (2 * q)%nat by lia.
    assert (Q : INR q = INR n + INR k + INR m + 1) by (replace q with (n + k + m + 1)%nat by lia; rewrite !plus_INR; cbn; ring).
    assert (M : INR m = INR q - INR n - INR k - 1) by lra.
    rewrite !INR_fact_S, !S_INR, mult_INR. change (INR 2) with 2. cbn [pow]. rewrite M.
    field. repeat split; try apply INR_fact_neq; try (apply pow_nonzero; lra); try (pose proof (pos_INR k); pose proof (pos_INR q); pose proof (pos_INR n); lra).
  - replace (S l - 2 * k - m)%nat with 1%nat by lia. replace (l - 2 * k - m)%nat with 0%nat by lia.
    assert (M : INR m = INR q - INR k) by (replace q with (k + m)%nat by lia; rewrite plus_INR; lra).
    rewrite !INR_fact_S, !S_INR, mult_INR. change (INR 2) with 2. change (fact 0) with 1%nat. change (INR 0) with 0. change (INR 1) with 1. cbn [pow]. rewrite M.
    field. repeat split; try apply INR_fact_neq; try (apply pow_nonzero; lra); try (pose proof (pos_INR k); pose proof (pos_INR q); lra).
Qed.

(** z^j (r^2)^k T *)
Definition zrT (j k : nat) (T : poly3) : poly3 := p3_mul (p3_mul (p3_pow p3_z j) (p3_pow sh_r2 k)) T.

(** The sum in pi (without the square root), times T. *)
Definition piT (l m : nat) (T : poly3) : poly3 :=
  p3_sum ((l - m) / 2 + 1) (fun k => p3_scal (coeff l m k) (zrT (l - 2 * k - m) k T)).

Lemma homogeneous_r2 : homogeneous 2 sh_r2.
Proof.
  unfold sh_r2. apply homogeneous_add; [apply homogeneous_add|]; [exact (homogeneous_pow 1 p3_x 2 homogeneous_x)|exact (homogeneous_pow 1 p3_y 2 homogeneous_y)|exact (homogeneous_pow 1 p3_z 2 homogeneous_z)].
Qed.

Lemma homogeneous_zrT : forall j k m T, homogeneous m T -> homogeneous (j + 2 * k + m) (zrT j k T).
Proof.
  intros j k m T H. unfold zrT. apply homogeneous_mul; [|exact H]. replace (j + 2 * k)%nat with (j * 1 + k * 2)%nat by lia.
  apply homogeneous_mul; apply homogeneous_pow; [apply homogeneous_z|apply homogeneous_r2].
Qed.

Lemma half : forall n k, (k < n / 2 + 1)%nat -> (2 * k <= n)%nat.
Proof. intros n k H. pose proof (Nat.div_mod n 2 ltac:(lia)). pose proof (Nat.mod_upper_bound n 2 ltac:(lia)). lia. Qed.

Lemma homogeneous_piT : forall l m T, (m <= l)%nat -> homogeneous m T -> homogeneous l (piT l m T).
Proof.
  intros l m T Hm H. unfold piT. apply homogeneous_sum. intros k Hk. apply half in Hk. apply homogeneous_scal.
  replace l with ((l - 2 * k - m) + 2 * k + m)%nat at 1 by lia. now apply homogeneous_zrT.
Qed.

Lemma pd_z_pow : forall i n, pd i (p3_pow p3_z n) == p3_scal (kron i 2 * INR n) (p3_pow p3_z (pred n)) \/ (3 <= i)%nat.
Proof.
  intros i n. destruct (le_lt_dec 3 i) as [H|H]; [right; exact H|left]. intros w. rewrite lin_pd. rewrite lin_scal, !pow_z, !lin_mono.
  destruct i as [|[|[|i]]]; try lia; cbn [dkey fst snd]; unfold kron; repeat match goal with |- context [Nat.eq_dec ?a ?b] => destruct (Nat.eq_dec a b); try lia end; cbn; ring.
Qed.
Lemma pd_z_pow' : forall i n, (i < 3)%nat -> pd i (p3_pow p3_z n) == p3_scal (kron i 2 * INR n) (p3_pow p3_z (pred n)).
Proof. intros i n H. destruct (pd_z_pow i n) as [E|E]; [exact E|lia]. Qed.

Lemma lap_zrT : forall k j m T, planar m T ->
  lap (zrT j k T) == p3_add (p3_scal (INR j * INR (j - 1)) (zrT (j - 2) k T))
                            (p3_scal (2 * INR k * (2 * INR k + 1 + 2 * (INR j + INR m))) (zrT j (k - 1) T)).
Proof.
  intros k j m T [HT [HL HZ]]. induction k as [|k IH].
  - unfold zrT. rewrite !ppow_0. cbn [INR].
    assert (E : lap (p3_mul (p3_pow p3_z j) T) == p3_mul (pd 2 (pd 2 (p3_pow p3_z j))) T).
    { unfold lap in *. rewrite !pd_mul, !pd_add, !pd_mul, HZ. rewrite !(pd_z_pow' 0), !(pd_z_pow' 1) by lia. unfold kron. cbn [Nat.eq_dec].
      repeat match goal with |- context [Nat.eq_dec ?a ?b] => destruct (Nat.eq_dec a b); try lia end.
      rewrite !Rmult_0_l, !scal_mul, !const_0.
      assert (Z0 : forall q, p3_mul pzero q = pzero) by reflexivity. rewrite !Z0.
      change (pd 0 pzero) with pzero. change (pd 1 pzero) with pzero. change (pd 2 pzero) with pzero.
      transitivity (p3_add (p3_mul (pd 2 (pd 2 (p3_pow p3_z j))) T) (p3_mul (p3_pow p3_z j) (p3_add (p3_add (pd 0 (pd 0 T)) (pd 1 (pd 1 T))) pzero))); [ring|].
      rewrite HZ in HL. change (pd 2 pzero) with pzero in HL. rewrite HL. ring. }
    transitivity (lap (p3_mul (p3_pow p3_z j) T)); [apply lap_proper; ring|].
    rewrite E. rewrite pd_z_pow', pd_scal, pd_z_pow' by lia. unfold kron. destruct (Nat.eq_dec 2 2); [|lia].
    replace (pred (pred j)) with (j - 2)%nat by lia. replace (pred j) with (j - 1)%nat by lia.
    rewrite !scal_mul, !Rmult_1_l. replace (2 * 0 * (2 * 0 + 1 + 2 * (INR j + INR m))) with 0 by ring. rewrite const_0, const_mul. ring.
  - assert (E : zrT j (S k) T == p3_mul sh_r2 (zrT j k T)) by (unfold zrT; rewrite ppow_S; ring).
    rewrite E, (lap_r2_hom (j + 2 * k + m)) by (now apply homogeneous_zrT). rewrite IH.
    replace (S k - 1)%nat with k by lia. rewrite !plus_INR, mult_INR. change (INR 2) with 2. rewrite S_INR.
    assert (E2 : p3_mul sh_r2 (zrT (j - 2) k T) == zrT (j - 2) (S k) T) by (unfold zrT; rewrite ppow_S; ring).
    assert (E3 : p3_mul (p3_const (2 * INR k * (2 * INR k + 1 + 2 * (INR j + INR m)))) (p3_mul sh_r2 (zrT j (k - 1) T))
      == p3_mul (p3_const (2 * INR k * (2 * INR k + 1 + 2 * (INR j + INR m)))) (zrT j k T)).
    { destruct k as [|k]; [cbn [INR]; replace (2 * 0 * (2 * 0 + 1 + 2 * (INR j + INR m))) with 0 by ring; rewrite const_0; ring|].
      replace (S k - 1)%nat with k by lia. unfold zrT. rewrite ppow_S. ring. }
    rewrite !scal_mul in *.
    transitivity (p3_add (p3_add (p3_mul (p3_const (INR j * INR (j - 1))) (p3_mul sh_r2 (zrT (j - 2) k T)))
       (p3_mul (p3_const (2 * INR k * (2 * INR k + 1 + 2 * (INR j + INR m)))) (p3_mul sh_r2 (zrT j (k - 1) T))))
       (p3_mul (p3_const (6 + 4 * (INR j + 2 * INR k + INR m))) (zrT j k T))); [ring|].
    rewrite E2, E3.
    replace (2 * (INR k + 1) * (2 * (INR k + 1) + 1 + 2 * (INR j + INR m)))
      with (2 * INR k * (2 * INR k + 1 + 2 * (INR j + INR m)) + (6 + 4 * (INR j + 2 * INR k + INR m))) by ring.
    rewrite (const_add (2 * INR k * _)). ring.
Qed.

Lemma lap_piT : forall l m T, (m <= l)%nat -> planar m T -> lap (piT l m T) == pzero.
Proof.
  intros l m T Hm HT. unfold piT. set (n := (l - m)%nat). set (K := (n / 2)%nat).
  assert (HK : (2 * K <= n <= 2 * K + 1)%nat).
  { unfold K. pose proof (Nat.div_mod n 2 ltac:(lia)). pose proof (Nat.mod_upper_bound n 2 ltac:(lia)). lia. }
  rewrite lap_sum. rewrite Nat.add_1_r.
  transitivity (p3_add
    (p3_sum (S K) (fun k => p3_scal (coeff l m k * (INR (l - 2 * k - m) * INR (l - 2 * k - m - 1))) (zrT (l - 2 * k - m - 2) k T)))
    (p3_sum (S K) (fun k => p3_scal (coeff l m k * (2 * INR k * (2 * INR l - 2 * INR k + 1))) (zrT (l - 2 * k - m) (k - 1) T)))).
  - rewrite <- psum_add. apply psum_ext. intros k Hk. rewrite lap_scal, (lap_zrT k _ m T HT).
    replace (2 * INR k + 1 + 2 * (INR (l - 2 * k - m) + INR m)) with (2 * INR l - 2 * INR k + 1).
    + rewrite !scal_mul, !const_mul. ring.
    + rewrite <- plus_INR. replace (l - 2 * k - m + m)%nat with (l - 2 * k)%nat by lia. rewrite minus_INR by lia. rewrite mult_INR. change (INR 2) with 2. ring.
  - rewrite (psum_S K), (psum_S_l K). change (INR 0) with 0.
    assert (Z : INR (l - 2 * K - m) * INR (l - 2 * K - m - 1) = 0).
    { assert (l - 2 * K - m = 0 \/ l - 2 * K - m = 1)%nat as [->| ->] by lia; cbn; ring. }
    rewrite Z. repeat first [rewrite Rmult_0_r|rewrite Rmult_0_l]. rewrite !(scal_mul 0), const_0.
    transitivity (p3_add (p3_sum K (fun k => p3_scal (coeff l m k * (INR (l - 2 * k - m) * INR (l - 2 * k - m - 1))) (zrT (l - 2 * k - m - 2) k T)))
       (p3_sum K (fun i => p3_scal (coeff l m (S i) * (2 * INR (S i) * (2 * INR l - 2 * INR (S i) + 1))) (zrT (l - 2 * S i - m) (S i - 1) T)))); [ring|].
    rewrite <- psum_add. apply psum_zero. intros k Hk.
    replace (l - 2 * S k - m)%nat with (l - 2 * k - m - 2)%nat by lia. replace (S k - 1)%nat with k by lia.
    intros w. rewrite lin_add, !lin_scal, <- Rmult_plus_distr_r.
    pose proof (coeff_laplace l m k ltac:(lia)) as E. rewrite S_INR in *.
    replace (2 * INR l - 2 * (INR k + 1) + 1) with (2 * INR l - 2 * INR k - 1) by ring. rewrite E. cbn. ring.
Qed.

(** Derivative with respect to z. *)
Lemma pd2_r2 : pd 2 sh_r2 == p3_scal 2 p3_z.
Proof. intros w. unfold sh_r2. rewrite lin_pd, !lin_add, lin_scal, pow_x, pow_y, pow_z, !lin_mono. cbn. ring. Qed.

Lemma pd2_zrT : forall j k m T, planar m T ->
  pd 2 (zrT j k T) == p3_add (p3_scal (INR j) (zrT (j - 1) k T)) (p3_scal (2 * INR k) (zrT (S j) (k - 1) T)).
Proof.
  intros j k m T [_ [_ HZ]]. unfold zrT. rewrite pd_mul, HZ, pd_mul, pd_z_pow' by lia. unfold kron. destruct (Nat.eq_dec 2 2); [|lia].
  rewrite Rmult_1_l. replace (pred j) with (j - 1)%nat by lia.
  destruct k as [|k].
  - rewrite ppow_0, pd_one. cbn [INR]. rewrite !scal_mul, Rmult_0_r, const_0. ring.
  - rewrite pd_pow, pd2_r2. replace (S k - 1)%nat with k by lia. rewrite !(ppow_S p3_z), !scal_mul, const_mul. ring.
Qed.

Lemma pd2_piT : forall l m T, (m <= l)%nat -> planar m T -> pd 2 (piT (S l) m T) == p3_scal (INR (S l) + INR m) (piT l m T).
Proof.
  intros l m T Hm HT. unfold piT. set (K := ((S l - m) / 2)%nat). set (K' := ((l - m) / 2)%nat).
  assert (HK : (2 * K <= S l - m <= 2 * K + 1)%nat).
  { unfold K. pose proof (Nat.div_mod (S l - m) 2 ltac:(lia)). pose proof (Nat.mod_upper_bound (S l - m) 2 ltac:(lia)). lia. }
  assert (HK' : (2 * K' <= l - m <= 2 * K' + 1)%nat).
  { unfold K'. pose proof (Nat.div_mod (l - m) 2 ltac:(lia)). pose proof (Nat.mod_upper_bound (l - m) 2 ltac:(lia)). lia. }
  rewrite pd_sum, !Nat.add_1_r.
  transitivity (p3_add
    (p3_sum (S K) (fun k => p3_scal (coeff (S l) m k * INR (S l - 2 * k - m)) (zrT (S l - 2 * k - m - 1) k T)))
    (p3_sum (S K) (fun k => p3_scal (coeff (S l) m k * (2 * INR k)) (zrT (S (S l - 2 * k - m)) (k - 1) T)))).
  - rewrite <- psum_add. apply psum_ext. intros k Hk. rewrite pd_scal, (pd2_zrT _ k m T HT), !scal_mul, !const_mul. ring.
  - rewrite (psum_S_l K (fun k => p3_scal (coeff (S l) m k * (2 * INR k)) _)). change (INR 0) with 0.
    rewrite !Rmult_0_r. rewrite (scal_mul 0), const_0.
    rewrite <- psum_scal.
    intros w. rewrite !lin_add, !lin_sum. rewrite Rplus_comm.
    assert (Z0 : lin w (p3_mul pzero (zrT (S (S l - 2 * 0 - m)) (0 - 1) T)) = 0) by reflexivity. rewrite Z0, Rplus_0_l. clear Z0.
    (* both sums run over k <= K' *)
    transitivity (rsum (S K') (fun k => (INR (S l - 2 * k - m) * coeff (S l) m k + (if le_dec (2 * k + 2 + m) (S l) then 2 * INR (S k) * coeff (S l) m (S k) else 0)) * lin w (zrT (l - 2 * k - m) k T))).
    + destruct (Nat.eq_dec K K') as [E|E].
      * rewrite <- E. cbn [rsum]. destruct (le_dec (2 * K + 2 + m) (S l)) as [L|_]; [lia|].
        rewrite Rplus_0_r. rewrite <- Rplus_assoc. f_equal.
        -- rewrite <- rsum_plus. apply rsum_ext. intros k Hk. rewrite !lin_scal.
           destruct (le_dec (2 * k + 2 + m) (S l)) as [_|L]; [|lia].
           replace (S (S l - 2 * S k - m)) with (l - 2 * k - m)%nat by lia. replace (S k - 1)%nat with k by lia.
           replace (S l - 2 * k - m - 1)%nat with (l - 2 * k - m)%nat by lia. ring.
        -- rewrite lin_scal. replace (S l - 2 * K - m - 1)%nat with (l - 2 * K - m)%nat by lia. ring.
      * assert (K = S K') as EK by lia. rewrite EK. rewrite (rsum_last (S K') (fun k => lin w (p3_scal (coeff (S l) m k * INR (S l - 2 * k - m)) _))).
        replace (S l - 2 * S K' - m)%nat with 0%nat by lia. change (INR 0) with 0.
        replace (lin w (p3_scal (coeff (S l) m (S K') * 0) (zrT (0 - 1) (S K') T))) with 0 by (rewrite lin_scal; ring).
        rewrite Rplus_0_r. rewrite <- rsum_plus. apply rsum_ext. intros k Hk. rewrite !lin_scal.
        destruct (le_dec (2 * k + 2 + m) (S l)) as [_|L]; [|lia].
        replace (S (S l - 2 * S k - m)) with (l - 2 * k - m)%nat by lia. replace (S k - 1)%nat with k by lia.
        replace (S l - 2 * k - m - 1)%nat with (l - 2 * k - m)%nat by lia. ring.
    + apply rsum_ext. intros k Hk. rewrite !lin_scal, coeff_derivative by lia. ring.
Qed.

Lemma piT_diag : forall m T, piT m m T == p3_scal (coeff m m 0) T.
Proof.
  intros m T. unfold piT. rewrite Nat.sub_diag. change (0 / 2 + 1)%nat with 1%nat. rewrite psum_S, psum_0.
  replace (m - 2 * 0 - m)%nat with 0%nat by lia. unfold zrT. rewrite !ppow_0, !scal_mul. ring.
Qed.

(** Leading term modulo r^2. *)
Lemma piT_lead : forall l m T, exists Q,
  piT l m T == p3_add (p3_scal (coeff l m 0) (p3_mul (p3_pow p3_z (l - m)) T)) (p3_mul sh_r2 Q).
Proof.
  intros l m T. exists (p3_sum ((l - m) / 2) (fun k => p3_scal (coeff l m (S k)) (zrT (l - 2 * S k - m) k T))).
  unfold piT. rewrite Nat.add_1_r, psum_S_l. rewrite <- psum_mul_l. apply padd_proper.
  - replace (l - 2 * 0 - m)%nat with (l - m)%nat by lia. unfold zrT. rewrite ppow_0, !scal_mul. ring.
  - apply psum_ext. intros k _. unfold zrT. rewrite ppow_S, !scal_mul. ring.
Qed.

Lemma fischer_lead : forall l m T q, lap q == pzero ->
  fischer (piT l m T) q = coeff l m 0 * fischer (p3_mul (p3_pow p3_z (l - m)) T) q.
Proof.
  intros l m T q Hq. destruct (piT_lead l m T) as [Q E]. rewrite E, fischer_add_l, fischer_scal_l, fischer_r2, Hq, fischer_zero_r. ring.
Qed.

(** Repeated derivative with respect to z. *)
Fixpoint pd2n (n : nat) (p : poly3) : poly3 := match n with O => p | S n => pd2n n (pd 2 p) end.
Global Instance pd2n_proper : forall n, Proper (peq ==> peq) (pd2n n).
Proof. induction n as [|n IH]; intros p q H; [exact H|]. cbn. apply IH. now rewrite H. Qed.
Lemma pd2n_scal : forall n c p, pd2n n (p3_scal c p) == p3_scal c (pd2n n p).
Proof. induction n as [|n IH]; intros c p; [reflexivity|]. cbn. now rewrite pd_scal, IH. Qed.
Lemma pd2n_zero : forall n p, p == pzero -> pd2n n p == pzero.
Proof. induction n as [|n IH]; intros p H; [exact H|]. cbn. apply IH. rewrite H. apply pd_zero. Qed.

Lemma fischer_zn : forall n p q, fischer (p3_mul (p3_pow p3_z n) p) q = fischer p (pd2n n q).
Proof.
  induction n as [|n IH]; intros p q; cbn [pd2n]; [rewrite ppow_0, pmul_1; reflexivity|].
  rewrite <- IH. rewrite <- (fischer_var 2) by lia. apply fischer_proper; [|reflexivity]. rewrite ppow_S. unfold pvar. ring.
Qed.

(** z-derivatives of pi T: down to degree l' *)
Lemma pd2n_piT : forall n l m T, (m <= l)%nat -> planar m T ->
  pd2n n (piT (l + n) m T) == p3_scal (INR (fact (l + n + m)) / INR (fact (l + m))) (piT l m T).
Proof.
  induction n as [|n IH]; intros l m T Hm HT; cbn [pd2n].
  - rewrite Nat.add_0_r. unfold Rdiv. rewrite Rinv_r by apply INR_fact_neq. now rewrite pscal_1.
  - replace (l + S n)%nat with (S (l + n)) by lia. rewrite pd2_piT by (lia || assumption). rewrite pd2n_scal, IH by assumption.
    cbn [Nat.add]. rewrite INR_fact_S, S_INR, !plus_INR. intros w. rewrite !lin_scal. field. apply INR_fact_neq.
Qed.

Lemma pd2n_kill : forall l m n T, (m <= l)%nat -> planar m T -> (l - m < n)%nat -> pd2n n (piT l m T) == pzero.
Proof.
  intros l m n T Hm HT Hn. replace n with ((l - m) + S (n - (l - m) - 1))%nat by lia.
  assert (A : forall a b p, pd2n (a + b) p = pd2n b (pd2n a p)) by (intros a; induction a as [|a IH]; intros b p; [reflexivity|]; cbn; apply IH).
  rewrite A. replace (piT l m T) with (piT (m + (l - m)) m T) by (f_equal; lia). rewrite pd2n_piT by (lia || assumption). rewrite piT_diag, !pd2n_scal. cbn [pd2n].
  destruct HT as [_ [_ HZ]]. rewrite (pd2n_zero _ (pd 2 T) HZ), !scal_mul. ring.
Qed.

(** Inner products of the polynomials pi T. *)
Lemma fischer_piT_diff : forall l m m' T T', (m < m' <= l)%nat -> planar m T -> planar m' T' ->
  fischer (piT l m T) (piT l m' T') = 0.
Proof.
  intros l m m' T T' Hm HT HT'. rewrite fischer_lead by (apply lap_piT; [lia|assumption]).
  rewrite fischer_zn, pd2n_kill by (lia || assumption). rewrite fischer_zero_r. ring.
Qed.

Lemma fischer_piT_same : forall l m T T', (m <= l)%nat -> planar m T -> planar m T' ->
  fischer (piT l m T) (piT l m T')
  = / 2 ^ l * INR (fact (2 * l)) / INR (fact l) * (INR (fact (l + m)) / INR (fact (l - m))) * (/ 2 ^ m / INR (fact m)) * fischer T T'.
Proof.
  intros l m T T' Hm HT HT'. rewrite fischer_lead by (apply lap_piT; [lia|assumption]).
  rewrite fischer_zn. replace (piT l m T') with (piT (m + (l - m)) m T') by (f_equal; lia).
  rewrite pd2n_piT by (lia || assumption). rewrite piT_diag, !fischer_scal_r. rewrite !coeff_fact by lia.
  replace (m + (l - m) + m)%nat with (l + m)%nat by lia. replace (m + m)%nat with (2 * m)%nat by lia.
  replace (m - 2 * 0 - m)%nat with 0%nat by lia. replace (l - 2 * 0 - m)%nat with (l - m)%nat by lia.
  rewrite !Nat.mul_0_r, !Nat.sub_0_r. cbn [pow fact]. change (INR 1) with 1. field.
  repeat split; try apply INR_fact_neq; apply pow_nonzero; lra.
Qed.
