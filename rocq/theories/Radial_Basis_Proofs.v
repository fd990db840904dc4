(** Lemmas about the Bernstein, Chebyshev, window, Gaussian, Fourier and sinc bases. *)
Require Import List Reals ZArith Bool String Lra Lia.
From Coquelicot Require Import Rcomplements Hierarchy Derive ElemFct AutoDerive Continuity.
Require Import Verif.Base Verif.RSum Verif.Smooth Verif.Radial_Model Verif.Radial_Spec Verif.Radial_Proofs.
Import ListNotations.
Open Scope R_scope.

Lemma nth_map_seq (f : nat -> R) s n k : (k < n)%nat -> nth k (map f (seq s n)) 0 = f (s + k)%nat.
Proof.
  intros H. rewrite nth_indep with (d' := f O) by (rewrite map_length, seq_length; lia).
  rewrite map_nth, seq_nth by lia. reflexivity.
Qed.

Lemma total_map_seq (f : nat -> R) n : total (map f (seq 0 n)) = rsum n f.
Proof.
  unfold total.
  assert (forall s, fold_right Rplus 0 (map f (seq s n)) = rsum n (fun k => f (s + k)%nat)) as H.
  { induction n as [|n IH]; intros s; [reflexivity|].
    cbn [seq map fold_right]. rewrite IH, rsum_S_l. f_equal; [f_equal; lia|].
    apply rsum_ext. intros k Hk. f_equal. lia. }
  rewrite H. reflexivity.
Qed.

(** * Bernstein *)

Lemma binom_gt n : forall k, (n < k)%nat -> binom n k = 0.
Proof.
  induction n as [|n IH]; intros [|k] H; try lia; simpl; [reflexivity|].
  rewrite !IH by lia. lra.
Qed.

Lemma binom_diag n : binom n n = 1.
Proof. induction n as [|n IH]; simpl; [reflexivity|]. rewrite IH, binom_gt by lia. lra. Qed.

Lemma binom_0 n : binom n 0 = 1.
Proof. destruct n; reflexivity. Qed.

Lemma binom_pos n : forall k, (k <= n)%nat -> 0 < binom n k.
Proof.
  induction n as [|n IH]; intros [|k] H; simpl; try lra; try lia.
  destruct (Nat.eq_dec k n) as [->|Hn].
  - rewrite (binom_gt n (S n)) by lia. pose proof (IH n ltac:(lia)). lra.
  - pose proof (IH k ltac:(lia)). pose proof (IH (S k) ltac:(lia)). lra.
Qed.

Lemma binom_fact n : forall k, (k <= n)%nat ->
  binom n k * INR (fact k) * INR (fact (n - k)) = INR (fact n).
Proof.
  induction n as [|n IH]; intros [|k] H; try lia.
  - simpl. lra.
  - rewrite binom_0, Nat.sub_0_r. simpl (fact 0). simpl (INR 1). ring.
  - simpl binom. destruct (Nat.eq_dec k n) as [->|Hn].
    + rewrite (binom_gt n (S n)), binom_diag, Nat.sub_diag by lia. simpl (fact 0). simpl (INR 1). ring.
    + pose proof (IH k ltac:(lia)) as H1. pose proof (IH (S k) ltac:(lia)) as H2.
      replace (S n - S k)%nat with (n - k)%nat by lia.
      replace (n - k)%nat with (S (n - S k))%nat in * by lia.
      change (fact (S k)) with (S k * fact k)%nat in *.
      change (fact (S (n - S k))) with (S (n - S k) * fact (n - S k))%nat in *.
      change (fact (S n)) with (S n * fact n)%nat.
      rewrite !mult_INR in *.
      assert (INR (S n) = INR (S k) + INR (S (n - S k))) as E.
      { rewrite <- plus_INR. f_equal. lia. }
      rewrite E.
      replace ((binom n k + binom n (S k)) * (INR (S k) * INR (fact k)) * (INR (S (n - S k)) * INR (fact (n - S k))))
        with (INR (S k) * (binom n k * INR (fact k) * (INR (S (n - S k)) * INR (fact (n - S k))))
              + INR (S (n - S k)) * (binom n (S k) * (INR (S k) * INR (fact k)) * INR (fact (n - S k)))) by ring.
      rewrite H1, H2. ring.
Qed.

Lemma fact_pos n : 0 < INR (fact n).
Proof. apply lt_0_INR, lt_O_fact. Qed.

Lemma binomln_eq n v : (v <= n)%nat -> binomln n v = ln (binom n v).
Proof.
  intros H. unfold binomln, betaln.
  replace (1 + n - v - 1)%nat with (n - v)%nat by lia.
  replace (1 + v - 1)%nat with v by lia.
  replace (1 + n - v + (1 + v) - 1)%nat with (S n) by lia.
  pose proof (fact_pos (n - v)). pose proof (fact_pos v). pose proof (fact_pos n).
  assert (INR (fact (S n)) = (INR n + 1) * INR (fact n)) as E.
  { change (fact (S n)) with (S n * fact n)%nat. rewrite mult_INR, S_INR. reflexivity. }
  pose proof (pos_INR n). rewrite E.
  rewrite <- (binom_fact n v H).
  pose proof (binom_pos n v H).
  rewrite <- ln_Rinv.
  2:{ apply Rdiv_lt_0_compat; [nra|]. rewrite (binom_fact n v H). nra. }
  replace (/ _) with ((INR n + 1) * binom n v).
  2:{ field. repeat split; lra. }
  rewrite ln_mult by lra. ring.
Qed.

Lemma pow_ln x k : 0 < x -> exp (INR k * ln x) = x ^ k.
Proof. intros H. fold (Rpower x (INR k)). now apply Rpower_pow. Qed.

(** Interior values are the Bernstein polynomials. *)
Lemma bernstein_entry_interior eps x n v : 0 < eps -> eps <= x <= 1 - eps -> (v <= n)%nat ->
  bernstein_entry eps x n v = bernstein_poly n v x.
Proof.
  intros He Hx Hv. unfold bernstein_entry. cbv zeta. unfold Rltb.
  destruct (Rlt_dec x eps); [lra|]. destruct (Rlt_dec (1 - eps) x); [lra|]. simpl.
  unfold bernstein_poly, log1p. rewrite binomln_eq by exact Hv.
  rewrite !exp_plus, exp_ln by now apply binom_pos.
  rewrite !pow_ln by lra. reflexivity.
Qed.

Lemma bernstein_entry_low eps x n v : eps < 1 / 2 -> x < eps -> bernstein_entry eps x n v = if (v =? 0)%nat then 1 else 0.
Proof.
  intros He Hx. unfold bernstein_entry. cbv zeta. unfold Rltb.
  destruct (Rlt_dec x eps); [|lra]. destruct (Rlt_dec (1 - eps) x); [lra|]. simpl. reflexivity.
Qed.

Lemma bernstein_entry_high eps x n v : eps < 1 / 2 -> 1 - eps < x -> bernstein_entry eps x n v = if (v =? n)%nat then 1 else 0.
Proof.
  intros He Hx. unfold bernstein_entry. cbv zeta. unfold Rltb.
  destruct (Rlt_dec x eps); [lra|]. destruct (Rlt_dec (1 - eps) x); [|lra]. simpl. reflexivity.
Qed.

Lemma bernstein_ok eps x num : (1 <= num)%Z ->
  exists l, bernstein eps x num = Ok l /\ List.length l = Z.to_nat num /\
    forall k, (k < Z.to_nat num)%nat ->
      nth k l 0 = if (num =? 1)%Z then 1 else bernstein_entry eps x (Z.to_nat num - 1) k.
Proof.
  intros H. unfold bernstein. destruct (Z.ltb_spec num 1); [lia|].
  destruct (Z.eqb_spec num 1) as [->|N].
  - exists [1]. split; [reflexivity|]. split; [reflexivity|].
    intros k Hk. replace k with 0%nat by (simpl in Hk; lia). reflexivity.
  - replace (Z.to_nat (num - 1)) with (Z.to_nat num - 1)%nat by lia.
    replace (Z.to_nat num - 1 + 1)%nat with (Z.to_nat num) by lia.
    eexists. split; [reflexivity|]. split; [now rewrite map_length, seq_length|].
    intros k Hk. rewrite nth_map_seq by exact Hk. reflexivity.
Qed.

Lemma bernstein_err eps x num : (num < 1)%Z -> bernstein eps x num = Err ValueError.
Proof. intros H. unfold bernstein. destruct (Z.ltb_spec num 1); [reflexivity|lia]. Qed.

Lemma rsum_last n f : rsum (S n) f = rsum n f + f n.
Proof. reflexivity. Qed.

Lemma rsum_binomial n : forall x y, rsum (S n) (fun v => binom n v * x ^ v * y ^ (n - v)) = (x + y) ^ n.
Proof.
  induction n as [|n IH]; intros x y.
  - simpl. lra.
  - rewrite rsum_S_l, binom_0, Nat.sub_0_r. simpl (x ^ 0).
    transitivity (1 * 1 * y ^ S n + (rsum (S n) (fun v => x * (binom n v * x ^ v * y ^ (n - v)))
       + rsum (S n) (fun v => binom n (S v) * x ^ S v * y ^ (n - v)))).
    + rewrite <- rsum_plus. f_equal. apply rsum_ext. intros v Hv.
      simpl binom. replace (S n - S v)%nat with (n - v)%nat by lia. simpl pow. ring.
    + rewrite rsum_scal_l, IH.
      (* second sum: shift *)
      assert (rsum (S n) (fun v => binom n (S v) * x ^ S v * y ^ (n - v))
              = y * (x + y) ^ n - y ^ S n) as E.
      { rewrite <- IH. rewrite <- rsum_scal_l. rewrite (rsum_S_l n (fun v => y * _)).
        rewrite binom_0, Nat.sub_0_r. rewrite (rsum_last n (fun v => binom n (S v) * x ^ S v * y ^ (n - v))).
        rewrite (binom_gt n (S n)) by lia.
        rewrite (rsum_ext n (fun v => binom n (S v) * x ^ S v * y ^ (n - v))
                   (fun v => y * (binom n (S v) * x ^ S v * y ^ (n - S v)))).
        - simpl. ring.
        - intros v Hv. replace (n - v)%nat with (S (n - S v))%nat by lia. simpl. ring. }
      rewrite E. simpl. ring.
Qed.

Lemma rsum_indicator n a : (a < n)%nat -> rsum n (fun v => if (v =? a)%nat then 1 else 0) = 1.
Proof.
  intros H. rewrite (rsum_single n _ a); [|exact H|].
  - now rewrite Nat.eqb_refl.
  - intros k Hk Hne. destruct (Nat.eqb_spec k a); [contradiction|reflexivity].
Qed.

Lemma nth_total (l : list R) n (f : nat -> R) : List.length l = n ->
  (forall k, (k < n)%nat -> nth k l 0 = f k) -> total l = rsum n f.
Proof.
  intros Hl H. rewrite <- total_map_seq. f_equal.
  apply nth_ext with (d := 0) (d' := 0); [rewrite map_length, seq_length; lia|].
  intros k Hk. rewrite H by lia. rewrite nth_map_seq by lia. reflexivity.
Qed.

Lemma bernstein_partition eps x num l : 0 < eps < 1 / 2 -> bernstein eps x num = Ok l -> total l = 1.
Proof.
  intros He H.
  destruct (Z_lt_le_dec num 1) as [L|L]; [rewrite bernstein_err in H by exact L; discriminate|].
  destruct (bernstein_ok eps x num L) as [l' [E [Hl Hk]]]. rewrite E in H. injection H as <-.
  rewrite (nth_total _ _ _ Hl Hk).
  destruct (Z.eqb_spec num 1) as [->|N]; [simpl; lra|].
  set (n := (Z.to_nat num - 1)%nat). replace (Z.to_nat num) with (S n) by lia.
  destruct (Rlt_dec x eps) as [A|A]; [|destruct (Rlt_dec (1 - eps) x) as [B|B]].
  - rewrite (rsum_ext _ _ (fun v => if (v =? 0)%nat then 1 else 0)).
    + apply rsum_indicator. lia.
    + intros v Hv. apply bernstein_entry_low; lra.
  - rewrite (rsum_ext _ _ (fun v => if (v =? n)%nat then 1 else 0)).
    + apply rsum_indicator. lia.
    + intros v Hv. apply bernstein_entry_high; lra.
  - rewrite (rsum_ext _ _ (fun v => binom n v * x ^ v * (1 - x) ^ (n - v))).
    + rewrite rsum_binomial. replace (x + (1 - x)) with 1 by ring. apply pow1.
    + intros v Hv. rewrite bernstein_entry_interior by (lra || lia). reflexivity.
Qed.

Lemma bernstein_poly_nonneg n v x : (v <= n)%nat -> 0 <= x <= 1 -> 0 <= bernstein_poly n v x.
Proof.
  intros H Hx. unfold bernstein_poly. pose proof (binom_pos n v H).
  apply Rmult_le_pos; [apply Rmult_le_pos; [lra|]|]; apply pow_le; lra.
Qed.

Lemma bernstein_nonneg eps x num l k : 0 < eps < 1 / 2 -> bernstein eps x num = Ok l -> 0 <= nth k l 0.
Proof.
  intros He H.
  destruct (Z_lt_le_dec num 1) as [L|L]; [rewrite bernstein_err in H by exact L; discriminate|].
  destruct (bernstein_ok eps x num L) as [l' [E [Hl Hk]]]. rewrite E in H. injection H as <-.
  destruct (lt_dec k (Z.to_nat num)) as [K|K].
  2:{ rewrite nth_overflow by lia. lra. }
  rewrite Hk by exact K. destruct (num =? 1)%Z; [lra|].
  destruct (Rlt_dec x eps) as [A|A]; [|destruct (Rlt_dec (1 - eps) x) as [B|B]].
  - rewrite bernstein_entry_low by lra. destruct (k =? 0)%nat; lra.
  - rewrite bernstein_entry_high by lra. destruct (k =? _)%nat; lra.
  - rewrite bernstein_entry_interior by (lra || lia). apply bernstein_poly_nonneg; [lia|lra].
Qed.

(** On the closed interval the code computes the polynomials exactly outside the two clamping
    regions, and at the end points. *)
Lemma bernstein_entry_exact eps x n v : 0 < eps < 1 / 2 -> (v <= n)%nat ->
  eps <= x <= 1 - eps \/ x = 0 \/ x = 1 -> bernstein_entry eps x n v = bernstein_poly n v x.
Proof.
  intros He Hv [H|[->| ->]].
  - apply bernstein_entry_interior; lra || lia.
  - rewrite bernstein_entry_low by lra. unfold bernstein_poly.
    destruct (Nat.eqb_spec v 0) as [->|N].
    + rewrite binom_0. replace (1 - 0) with 1 by ring. rewrite pow1. simpl. ring.
    + rewrite pow_i by lia. ring.
  - rewrite bernstein_entry_high by lra. unfold bernstein_poly.
    replace (1 - 1) with 0 by ring. rewrite pow1.
    destruct (Nat.eqb_spec v n) as [->|N].
    + rewrite binom_diag, Nat.sub_diag. simpl. ring.
    + rewrite pow_i by lia. ring.
Qed.

(** Derivative of the Bernstein polynomials. *)
Definition bernstein_deriv (n v : nat) (x : R) : R :=
  INR n * ((match v with O => 0 | S v' => bernstein_poly (n - 1) v' x end)
           - (if (v <? n)%nat then bernstein_poly (n - 1) v x else 0)).

Lemma binom_absorb n v : (v <= n)%nat -> INR (S v) * binom (S n) (S v) = INR (S n) * binom n v.
Proof.
  intros H.
  pose proof (binom_fact (S n) (S v) ltac:(lia)) as H1. pose proof (binom_fact n v H) as H2.
  replace (S n - S v)%nat with (n - v)%nat in H1 by lia.
  change (fact (S v)) with (S v * fact v)%nat in H1.
  change (fact (S n)) with (S n * fact n)%nat in H1. rewrite !mult_INR in H1.
  rewrite <- H2 in H1.
  pose proof (fact_pos v). pose proof (fact_pos (n - v)).
  apply Rmult_eq_reg_r with (INR (fact v) * INR (fact (n - v))); [|nra]. lra.
Qed.

Lemma binom_absorb' n v : (v <= n)%nat -> INR (S n - v) * binom (S n) v = INR (S n) * binom n v.
Proof.
  intros H.
  pose proof (binom_fact (S n) v ltac:(lia)) as H1. pose proof (binom_fact n v H) as H2.
  replace (S n - v)%nat with (S (n - v))%nat in * by lia.
  change (fact (S (n - v))) with (S (n - v) * fact (n - v))%nat in H1.
  change (fact (S n)) with (S n * fact n)%nat in H1. rewrite !mult_INR in H1.
  rewrite <- H2 in H1.
  pose proof (fact_pos v). pose proof (fact_pos (n - v)).
  apply Rmult_eq_reg_r with (INR (fact v) * INR (fact (n - v))); [|nra]. lra.
Qed.

Lemma bernstein_poly_deriv n v x : (v <= n)%nat ->
  derivable_pt_lim (bernstein_poly n v) x (bernstein_deriv n v x).
Proof.
  intros H.
  assert (derivable_pt_lim (bernstein_poly n v) x
    (binom n v * (INR v * x ^ (v - 1) * (1 - x) ^ (n - v) - x ^ v * (INR (n - v) * (1 - x) ^ (n - v - 1))))) as D.
  { apply is_derive_Reals. unfold bernstein_poly. auto_derive; [trivial|].
    replace (Init.Nat.pred v) with (v - 1)%nat by lia.
    replace (Init.Nat.pred (n - v)) with (n - v - 1)%nat by lia.
    replace (1 + - x) with (1 - x) by ring. ring. }
  replace (bernstein_deriv n v x) with
    (binom n v * (INR v * x ^ (v - 1) * (1 - x) ^ (n - v) - x ^ v * (INR (n - v) * (1 - x) ^ (n - v - 1)))); [exact D|].
  unfold bernstein_deriv, bernstein_poly.
  destruct n as [|n].
  { replace v with 0%nat by lia. simpl. ring. }
  replace (S n - 1)%nat with n by lia.
  destruct v as [|v].
  - change (0 <? S n)%nat with true. cbv iota. simpl (INR 0). rewrite !Nat.sub_0_r.
    replace (S n - 1)%nat with n by lia. rewrite !binom_0. simpl (x ^ 0). ring.
  - replace (S v - 1)%nat with v by lia. replace (S n - S v)%nat with (n - v)%nat by lia.
    pose proof (binom_absorb n v ltac:(lia)) as A.
    destruct (Nat.ltb_spec (S v) (S n)) as [L|L].
    + pose proof (binom_absorb' n (S v) ltac:(lia)) as B.
      replace (S n - S v)%nat with (n - v)%nat in B by lia.
      replace (n - S v)%nat with (n - v - 1)%nat by lia.
      transitivity ((INR (S v) * binom (S n) (S v)) * x ^ v * (1 - x) ^ (n - v)
                    - (INR (n - v) * binom (S n) (S v)) * x ^ S v * (1 - x) ^ (n - v - 1)); [ring|].
      rewrite A, B. ring.
    + replace (n - v)%nat with 0%nat by lia. simpl (INR 0).
      transitivity ((INR (S v) * binom (S n) (S v)) * x ^ v * (1 - x) ^ 0); [ring|]. rewrite A.
      ring.
Qed.

Lemma roll1_snoc l : roll1 (l ++ [0]) = 0 :: l.
Proof. unfold roll1. rewrite rev_app_distr. simpl. now rewrite rev_involutive. Qed.

Lemma bernstein_jvp_ok eps num x xd : (1 <= num)%Z ->
  exists l t, bernstein_jvp eps num x xd = Ok (l, t) /\ bernstein eps x num = Ok l /\
    List.length t = Z.to_nat num /\
    forall lower k, bernstein eps x (num - 1) = Ok lower \/ (num = 1%Z /\ lower = []) -> (k < Z.to_nat num)%nat ->
      nth k t 0 = xd * IZR (num - 1) * ((match k with O => 0 | S k' => nth k' lower 0 end) - nth k lower 0).
Proof.
  intros H. unfold bernstein_jvp.
  destruct (bernstein_ok eps x num H) as [l [E [Hl Hk]]]. rewrite E. simpl bind.
  destruct (Z.ltb_spec 1 num) as [L|L].
  - destruct (bernstein_ok eps x (num - 1) ltac:(lia)) as [l0 [E0 [Hl0 Hk0]]]. rewrite E0. simpl bind.
    rewrite roll1_snoc.
    eexists l, _. split; [reflexivity|]. split; [reflexivity|]. split.
    + rewrite map_length, combine_length, app_length. cbn [List.length]. lia.
    + intros lower k [EL|[-> _]] Hkk; [|lia].
      injection EL as ->.
      set (g := fun p : R * R => xd * IZR (num - 1) * (fst p - snd p)).
      rewrite nth_indep with (d' := g (0, 0)).
      2:{ rewrite map_length, combine_length, app_length. cbn [List.length]. lia. }
      rewrite map_nth. rewrite combine_nth by (rewrite app_length; simpl; lia).
      unfold g. simpl fst. simpl snd.
      assert (nth k (lower ++ [0]) 0 = nth k lower 0) as Q2.
      { destruct (lt_dec k (List.length lower)) as [Q|Q].
        - now rewrite app_nth1.
        - rewrite app_nth2 by lia. rewrite (nth_overflow lower) by lia.
          destruct (k - List.length lower)%nat as [|[|]]; reflexivity. }
      rewrite Q2. f_equal.
  - assert (num = 1%Z) by lia. subst num.
    eexists l, _. split; [reflexivity|]. split; [reflexivity|]. split; [reflexivity|].
    intros lower k _ Hkk. replace k with 0%nat by (simpl in Hkk; lia).
    simpl. replace (IZR 0) with 0 by reflexivity. ring.
Qed.

(** Wherever the code evaluates the polynomials exactly, the rule is their derivative. *)
Lemma bernstein_jvp_exact eps num x xd k l t : 0 < eps < 1 / 2 -> (1 <= num)%Z ->
  eps <= x <= 1 - eps \/ x = 0 \/ x = 1 ->
  bernstein_jvp eps num x xd = Ok (l, t) -> (k < Z.to_nat num)%nat ->
  nth k t 0 = bernstein_deriv (Z.to_nat num - 1) k x * xd.
Proof.
  intros He Hn Hx E Hk.
  destruct (bernstein_jvp_ok eps num x xd Hn) as [l' [t' [E' [_ [Hl HT]]]]].
  rewrite E in E'. injection E' as <- <-.
  set (n := (Z.to_nat num - 1)%nat).
  assert (IZR (num - 1) = INR n) as En.
  { rewrite INR_IZR_INZ. f_equal. unfold n. lia. }
  destruct (Z.eq_dec num 1) as [->|N].
  - rewrite (HT [] k) by (auto). unfold bernstein_deriv, n. simpl (Z.to_nat 1 - 1)%nat.
    replace (IZR (1 - 1)) with 0 by reflexivity. simpl INR. ring.
  - destruct (bernstein_ok eps x (num - 1) ltac:(lia)) as [lo [Elo [Llo Klo]]].
    rewrite (HT lo k) by (auto).
    assert (forall j, (j < n)%nat -> nth j lo 0 = bernstein_poly (n - 1) j x) as HP.
    { intros j Hj. rewrite Klo by lia. destruct (Z.eqb_spec (num - 1) 1) as [E1|E1].
      - assert (n = 1%nat) by lia. replace j with 0%nat by lia. rewrite H. unfold bernstein_poly. simpl. lra.
      - replace (Z.to_nat (num - 1) - 1)%nat with (n - 1)%nat by lia.
        apply bernstein_entry_exact; auto. lia. }
    rewrite En. unfold bernstein_deriv.
    replace (match k with O => 0 | S k' => nth k' lo 0 end)
      with (match k with O => 0 | S v' => bernstein_poly (n - 1) v' x end).
    2:{ destruct k as [|k]; [reflexivity|]. symmetry. apply HP. lia. }
    replace (nth k lo 0) with (if (k <? n)%nat then bernstein_poly (n - 1) k x else 0).
    2:{ destruct (Nat.ltb_spec k n); [symmetry; now apply HP|]. rewrite nth_overflow by lia. reflexivity. }
    ring.
Qed.

(** Strictly inside, the returned function has that derivative. *)
Lemma bernstein_entry_deriv eps n v x : 0 < eps < 1 / 2 -> eps < x < 1 - eps -> (v <= n)%nat ->
  derivable_pt_lim (fun x => bernstein_entry eps x n v) x (bernstein_deriv n v x).
Proof.
  intros He Hx Hv e Hp. destruct (bernstein_poly_deriv n v x Hv e Hp) as [d Hd].
  exists (mkposreal (Rmin d (Rmin (x - eps) (1 - eps - x)))
              ltac:(apply Rmin_pos; [apply cond_pos|apply Rmin_pos; lra])). simpl.
  intros h Hh Hl.
  assert (Rabs h < d) as H1 by (eapply Rlt_le_trans; [exact Hl|apply Rmin_l]).
  assert (Rabs h < x - eps) as H2.
  { eapply Rlt_le_trans; [exact Hl|]. eapply Rle_trans; [apply Rmin_r|apply Rmin_l]. }
  assert (Rabs h < 1 - eps - x) as H3.
  { eapply Rlt_le_trans; [exact Hl|]. eapply Rle_trans; [apply Rmin_r|apply Rmin_r]. }
  apply Rabs_def2 in H2. apply Rabs_def2 in H3.
  rewrite !bernstein_entry_interior by (lra || lia). now apply Hd.
Qed.

(** Outside, the function is locally constant. *)
Lemma bernstein_entry_deriv_out eps n v x : 0 < eps < 1 / 2 -> x < eps \/ 1 - eps < x ->
  derivable_pt_lim (fun x => bernstein_entry eps x n v) x 0.
Proof.
  intros He Hx e Hp. destruct Hx as [Hx|Hx].
  - exists (mkposreal (eps - x) ltac:(lra)). simpl. intros h Hh Hl. apply Rabs_def2 in Hl.
    rewrite !bernstein_entry_low by lra.
    replace (_ / h - 0) with 0 by (field; auto). rewrite Rabs_R0. exact Hp.
  - exists (mkposreal (x - (1 - eps)) ltac:(lra)). simpl. intros h Hh Hl. apply Rabs_def2 in Hl.
    rewrite !bernstein_entry_high by lra.
    replace (_ / h - 0) with 0 by (field; auto). rewrite Rabs_R0. exact Hp.
Qed.

(** * Chebyshev *)

Lemma cheb_pair n x : chebyshev_pair n x = (chebyshev_poly n x, chebyshev_poly (S n) x).
Proof.
  unfold chebyshev_poly. simpl. destruct (chebyshev_pair n x) as [a b]. reflexivity.
Qed.

Lemma cheb_rec n x : chebyshev_poly (S (S n)) x = 2 * x * chebyshev_poly (S n) x - chebyshev_poly n x.
Proof.
  unfold chebyshev_poly. simpl. destruct (chebyshev_pair n x) as [a b]. reflexivity.
Qed.

Lemma cheb_cos n : forall t, chebyshev_poly n (cos t) = cos (INR n * t)
  /\ chebyshev_poly (S n) (cos t) = cos (INR (S n) * t).
Proof.
  induction n as [|n IH]; intros t.
  - unfold chebyshev_poly. simpl. rewrite Rmult_0_l, cos_0, Rmult_1_l. auto.
  - destruct (IH t) as [A B]. split; [exact B|].
    rewrite cheb_rec, A, B.
    replace (INR (S (S n)) * t) with (INR (S n) * t + t) by (rewrite (S_INR (S n)); ring).
    replace (INR n * t) with (INR (S n) * t - t) by (rewrite (S_INR n); ring).
    rewrite cos_plus, cos_minus. ring.
Qed.

Lemma cheb_acos n x : -1 <= x <= 1 -> chebyshev_poly n x = cos (INR n * acos x).
Proof. intros H. rewrite <- (cos_acos x H) at 1. apply cheb_cos. Qed.

Lemma cheb_1 n : chebyshev_poly n 1 = 1.
Proof.
  rewrite <- cos_0. rewrite (proj1 (cheb_cos n 0)). rewrite Rmult_0_r. reflexivity.
Qed.

Lemma cheb_m1 n : chebyshev_poly n (-1) = (-1) ^ n.
Proof.
  assert (chebyshev_poly n (-1) = (-1) ^ n /\ chebyshev_poly (S n) (-1) = (-1) ^ (S n)) as [H _]; [|exact H].
  induction n as [|n [A B]].
  - unfold chebyshev_poly. simpl. split; ring.
  - split; [exact B|]. rewrite cheb_rec, A, B. simpl. ring.
Qed.

Lemma cheb_bound n x : -1 <= x <= 1 -> -1 <= chebyshev_poly n x <= 1.
Proof. intros H. rewrite cheb_acos by exact H. apply COS_bound. Qed.

Lemma chebyshev_entry_exact eps x n : 0 < eps < 1 ->
  - (1 - eps) <= x <= 1 - eps \/ x = 1 \/ x = -1 -> chebyshev_entry eps x n = chebyshev_poly n x.
Proof.
  intros He H. unfold chebyshev_entry. cbv zeta. unfold Rltb.
  destruct H as [H|[->| ->]].
  - destruct (Rlt_dec x (- (1 - eps))); [lra|]. destruct (Rlt_dec (1 - eps) x); [lra|].
    simpl. symmetry. apply cheb_acos. lra.
  - destruct (Rlt_dec 1 (- (1 - eps))); [lra|]. destruct (Rlt_dec (1 - eps) 1); [|lra].
    rewrite cheb_1. ring.
  - destruct (Rlt_dec (-1) (- (1 - eps))); [|lra].
    rewrite cheb_m1. ring.
Qed.

Lemma pow_m1_abs n : (-1) ^ n = 1 \/ (-1) ^ n = -1.
Proof. induction n as [|n [H|H]]; simpl; [left; ring| |]; rewrite H; [right|left]; ring. Qed.

Lemma chebyshev_entry_bound eps x n : 0 < eps < 1 -> -1 <= x <= 1 -> INR n * INR n * eps <= 2 ->
  -1 <= chebyshev_entry eps x n <= 1.
Proof.
  intros He Hx Hn.
  set (N := INR n * INR n) in *.
  assert (0 <= N) as HN by (unfold N; pose proof (pos_INR n); nra).
  assert (n = 0%nat \/ 1 <= N) as HN1.
  { destruct n as [|n]; [now left|right]. unfold N. rewrite S_INR. pose proof (pos_INR n). nra. }
  assert (forall u, 0 <= u -> u < eps -> -1 <= 1 - N * u + 1 / 6 * N * (N - 1) * (u * u) <= 1) as B.
  { intros u H0 H1.
    assert (0 <= N * u <= 2) as Hu by nra.
    destruct HN1 as [E|G].
    - assert (N = 0) by (unfold N; rewrite E; simpl; ring). rewrite H. lra.
    - assert (0 <= N * u * (N * u)) by nra.
      assert (1 / 6 * N * (N - 1) * (u * u) = 1 / 6 * (N * u * (N * u)) - 1 / 6 * (N * u) * u) as E by ring.
      split; nra. }
  unfold chebyshev_entry. cbv zeta. unfold Rltb. fold N.
  destruct (Rlt_dec x (- (1 - eps))) as [L|L]; [|destruct (Rlt_dec (1 - eps) x) as [G|G]].
  - specialize (B (x + 1) ltac:(lra) ltac:(lra)).
    replace (1 / 6 * N * (N - 1) * (x + 1) * (x + 1)) with (1 / 6 * N * (N - 1) * ((x + 1) * (x + 1))) by ring.
    destruct (pow_m1_abs n) as [-> | ->]; lra.
  - specialize (B (1 - x) ltac:(lra) ltac:(lra)).
    replace (1 + N * (x - 1) + 1 / 6 * N * (N - 1) * (x - 1) * (x - 1))
      with (1 - N * (1 - x) + 1 / 6 * N * (N - 1) * ((1 - x) * (1 - x))) by ring. lra.
  - simpl. apply COS_bound.
Qed.

Lemma chebyshev_ok eps x num : (1 <= num)%Z ->
  exists l, chebyshev eps x num = Ok l /\ List.length l = Z.to_nat num /\
    forall k, (k < Z.to_nat num)%nat -> nth k l 0 = if (num =? 1)%Z then 1 else chebyshev_entry eps x k.
Proof.
  intros H. unfold chebyshev. destruct (Z.ltb_spec num 1); [lia|].
  destruct (Z.eqb_spec num 1) as [->|N].
  - exists [1]. split; [reflexivity|]. split; [reflexivity|].
    intros k Hk. replace k with 0%nat by (simpl in Hk; lia). reflexivity.
  - eexists. split; [reflexivity|]. split; [now rewrite map_length, seq_length|].
    intros k Hk. now rewrite nth_map_seq by exact Hk.
Qed.

Lemma chebyshev_err eps x num : (num < 1)%Z -> chebyshev eps x num = Err ValueError.
Proof. intros H. unfold chebyshev. destruct (Z.ltb_spec num 1); [reflexivity|lia]. Qed.

Lemma chebyshev_basis eps x num : 0 < eps < 1 -> (1 <= num)%Z ->
  - (1 - eps) <= x <= 1 - eps \/ x = 1 \/ x = -1 ->
  returns_basis (chebyshev eps x num) (Z.to_nat num) (fun k => chebyshev_poly k x).
Proof.
  intros He Hn Hx. destruct (chebyshev_ok eps x num Hn) as [l [E [Hl Hk]]].
  exists l. repeat split; auto. intros k Hlt. rewrite Hk by exact Hlt.
  destruct (Z.eqb_spec num 1) as [->|N].
  - replace k with 0%nat by (simpl in Hlt; lia). reflexivity.
  - now apply chebyshev_entry_exact.
Qed.

Lemma chebyshev_bounded eps x num l k : 0 < eps < 1 -> -1 <= x <= 1 ->
  IZR num * IZR num * eps <= 2 -> chebyshev eps x num = Ok l -> -1 <= nth k l 0 <= 1.
Proof.
  intros He Hx Hn E.
  destruct (Z_lt_le_dec num 1) as [L|L]; [rewrite chebyshev_err in E by exact L; discriminate|].
  destruct (chebyshev_ok eps x num L) as [l' [E' [Hl Hk]]]. rewrite E in E'. injection E' as <-.
  destruct (lt_dec k (Z.to_nat num)) as [K|K].
  2:{ rewrite nth_overflow by lia. lra. }
  rewrite Hk by exact K. destruct (num =? 1)%Z; [lra|].
  apply chebyshev_entry_bound; auto.
  assert (0 <= INR k <= IZR num).
  { split; [apply pos_INR|]. rewrite INR_IZR_INZ. apply IZR_le. lia. }
  assert (INR k * INR k <= IZR num * IZR num) by nra. nra.
Qed.

(** * Windows *)

Lemma rect_val x num limit k : (k < num)%nat ->
  nth k (rectangular_window x num limit) 0 =
    if Rlt_dec x (limit * INR k / INR num) then 0
    else if Rlt_dec (limit * INR (k + 1) / INR num) x then 0 else 1.
Proof.
  intros H. unfold rectangular_window. rewrite nth_map_seq by exact H. cbv zeta beta.
  unfold linspace0, Rltb. simpl (0 + k)%nat.
  destruct (Rlt_dec x (limit * INR k / INR num)); [reflexivity|].
  destruct (Rlt_dec (limit * INR (k + 1) / INR num) x); reflexivity.
Qed.

(** In terms of t = num x / limit: cell k is [k, k+1]. *)
Lemma rect_cell x num limit k : 0 < limit -> (k < num)%nat ->
  nth k (rectangular_window x num limit) 0 =
    if Rlt_dec (INR num * x / limit) (INR k) then 0
    else if Rlt_dec (INR k + 1) (INR num * x / limit) then 0 else 1.
Proof.
  intros Hl H. rewrite rect_val by exact H.
  assert (0 < INR num) as HN by (apply lt_0_INR; lia).
  rewrite plus_INR. simpl (INR 1).
  assert (forall a b, limit * a / INR num < b <-> a < INR num * b / limit) as C.
  { intros a b. split; intros Q.
    - apply Rmult_lt_reg_r with (limit / INR num); [now apply Rdiv_lt_0_compat|].
      replace (INR num * b / limit * (limit / INR num)) with b by (field; lra).
      replace (a * (limit / INR num)) with (limit * a / INR num) by (field; lra). exact Q.
    - apply Rmult_lt_reg_r with (INR num / limit); [now apply Rdiv_lt_0_compat|].
      replace (b * (INR num / limit)) with (INR num * b / limit) by (field; lra).
      replace (limit * a / INR num * (INR num / limit)) with a by (field; lra). exact Q. }
  assert (forall a b, b < limit * a / INR num <-> INR num * b / limit < a) as C'.
  { intros a b. split; intros Q.
    - apply Rmult_lt_reg_r with (limit / INR num); [now apply Rdiv_lt_0_compat|].
      replace (INR num * b / limit * (limit / INR num)) with b by (field; lra).
      replace (a * (limit / INR num)) with (limit * a / INR num) by (field; lra). exact Q.
    - apply Rmult_lt_reg_r with (INR num / limit); [now apply Rdiv_lt_0_compat|].
      replace (b * (INR num / limit)) with (INR num * b / limit) by (field; lra).
      replace (limit * a / INR num * (INR num / limit)) with a by (field; lra). exact Q. }
  destruct (Rlt_dec x (limit * INR k / INR num)) as [A|A];
    destruct (Rlt_dec (INR num * x / limit) (INR k)) as [A'|A']; try reflexivity.
  - exfalso. apply A'. now apply C'.
  - exfalso. apply A. now apply C'.
  - destruct (Rlt_dec (limit * (INR k + 1) / INR num) x) as [B|B];
      destruct (Rlt_dec (INR k + 1) (INR num * x / limit)) as [B'|B']; try reflexivity.
    + exfalso. apply B'. now apply C.
    + exfalso. apply B. now apply C.
Qed.

Lemma rect_length x num limit : List.length (rectangular_window x num limit) = num.
Proof. unfold rectangular_window. now rewrite map_length, seq_length. Qed.

(** Number of integer cells [k, k+1], k < num, that contain t. *)
Lemma cells_interior t num j : (j < num)%nat -> INR j < t < INR j + 1 ->
  rsum num (fun k => if Rlt_dec t (INR k) then 0 else if Rlt_dec (INR k + 1) t then 0 else 1) = 1.
Proof.
  intros Hj Ht. rewrite (rsum_single num _ j); [|exact Hj|].
  - destruct (Rlt_dec t (INR j)); [lra|]. destruct (Rlt_dec (INR j + 1) t); [lra|reflexivity].
  - intros k Hk Hne. destruct (lt_dec k j) as [L|L].
    + assert (INR k + 1 <= INR j) by (rewrite <- S_INR; apply le_INR; lia).
      destruct (Rlt_dec t (INR k)); [reflexivity|]. destruct (Rlt_dec (INR k + 1) t); [reflexivity|lra].
    + assert (INR j + 1 <= INR k) by (rewrite <- S_INR; apply le_INR; lia).
      destruct (Rlt_dec t (INR k)); [reflexivity|lra].
Qed.

Lemma rsum_two n a b f : (a < n)%nat -> (b < n)%nat -> a <> b ->
  (forall k, (k < n)%nat -> k <> a -> k <> b -> f k = 0) -> rsum n f = f a + f b.
Proof.
  intros Ha Hb Hab H.
  transitivity (rsum n (fun k => (if (k =? a)%nat then f k else 0) + (if (k =? b)%nat then f k else 0))).
  - apply rsum_ext. intros k Hk.
    destruct (Nat.eqb_spec k a), (Nat.eqb_spec k b); subst; try lia; try ring. rewrite H by auto. ring.
  - rewrite rsum_plus. f_equal.
    + rewrite (rsum_single n _ a); [now rewrite Nat.eqb_refl|exact Ha|].
      intros k Hk Hne. destruct (Nat.eqb_spec k a); [contradiction|reflexivity].
    + rewrite (rsum_single n _ b); [now rewrite Nat.eqb_refl|exact Hb|].
      intros k Hk Hne. destruct (Nat.eqb_spec k b); [contradiction|reflexivity].
Qed.

Lemma cells_boundary num j : (0 < j < num)%nat ->
  rsum num (fun k => if Rlt_dec (INR j) (INR k) then 0 else if Rlt_dec (INR k + 1) (INR j) then 0 else 1) = 2.
Proof.
  intros Hj. rewrite (rsum_two num (j - 1) j); try lia.
  - replace (INR (j - 1)) with (INR j - 1) by (rewrite minus_INR by lia; reflexivity).
    destruct (Rlt_dec (INR j) (INR j - 1)); [lra|]. destruct (Rlt_dec (INR j - 1 + 1) (INR j)); [lra|].
    destruct (Rlt_dec (INR j) (INR j)); [lra|]. destruct (Rlt_dec (INR j + 1) (INR j)); lra.
  - intros k Hk N1 N2. destruct (lt_dec k j) as [L|L].
    + assert (INR k + 2 <= INR j). { replace 2 with (INR 2) by reflexivity. rewrite <- plus_INR. apply le_INR. lia. }
      destruct (Rlt_dec (INR j) (INR k)); [reflexivity|]. destruct (Rlt_dec (INR k + 1) (INR j)); [reflexivity|lra].
    + assert (INR j + 1 <= INR k) by (rewrite <- S_INR; apply le_INR; lia).
      destruct (Rlt_dec (INR j) (INR k)); [reflexivity|lra].
Qed.

Lemma cells_first num : (0 < num)%nat ->
  rsum num (fun k => if Rlt_dec 0 (INR k) then 0 else if Rlt_dec (INR k + 1) 0 then 0 else 1) = 1.
Proof.
  intros H. rewrite (rsum_single num _ 0); [|exact H|].
  - simpl. destruct (Rlt_dec 0 0); [lra|]. destruct (Rlt_dec (0 + 1) 0); [lra|reflexivity].
  - intros k Hk Hne. assert (0 < INR k) by (apply lt_0_INR; lia). destruct (Rlt_dec 0 (INR k)); [reflexivity|lra].
Qed.

Lemma cells_last num : (0 < num)%nat ->
  rsum num (fun k => if Rlt_dec (INR num) (INR k) then 0 else if Rlt_dec (INR k + 1) (INR num) then 0 else 1) = 1.
Proof.
  intros H. rewrite (rsum_single num _ (num - 1)); [|lia|].
  - rewrite minus_INR by lia. simpl (INR 1). destruct (Rlt_dec (INR num) (INR num - 1)); [lra|].
    destruct (Rlt_dec (INR num - 1 + 1) (INR num)); [lra|reflexivity].
  - intros k Hk Hne. assert (INR k + 1 < INR num) by (rewrite <- S_INR; apply lt_INR; lia).
    destruct (Rlt_dec (INR num) (INR k)); [reflexivity|]. destruct (Rlt_dec (INR k + 1) (INR num)); [reflexivity|lra].
Qed.

Lemma cells_outside num t : t < 0 \/ INR num < t ->
  rsum num (fun k => if Rlt_dec t (INR k) then 0 else if Rlt_dec (INR k + 1) t then 0 else 1) = 0.
Proof.
  intros H. apply rsum_zero. intros k Hk. pose proof (pos_INR k).
  assert (INR k + 1 <= INR num) by (rewrite <- S_INR; apply le_INR; lia).
  destruct (Rlt_dec t (INR k)); [reflexivity|]. destruct (Rlt_dec (INR k + 1) t); [reflexivity|lra].
Qed.

(** Triangular window in terms of t = num x / limit: max(1 - |t - k|, 0). *)
Lemma tri_val x num limit k : 0 < limit -> (k < num)%nat ->
  nth k (triangular_window x num limit) 0 = Rmax (Rmin (INR num * x / limit - INR k + 1) (1 - (INR num * x / limit - INR k))) 0.
Proof.
  intros Hl H. unfold triangular_window. rewrite nth_map_seq by exact H. cbv zeta beta.
  assert (0 < INR num) as HN by (apply lt_0_INR; lia).
  unfold linspace0. simpl (0 + k)%nat. f_equal. f_equal; field; lra.
Qed.

Definition clamp01 (t : R) : R := Rmax 0 (Rmin t 1).

Lemma hat_telescope t : Rmax (Rmin (t + 1) (1 - t)) 0 = clamp01 (t + 1) - clamp01 t.
Proof.
  unfold clamp01, Rmax, Rmin.
  destruct (Rle_dec (t + 1) (1 - t)), (Rle_dec (t + 1) 1), (Rle_dec t 1);
  repeat match goal with |- context [Rle_dec ?a ?b] => destruct (Rle_dec a b) end; lra.
Qed.

Lemma rsum_telescope (g : R -> R) t n :
  rsum n (fun k => g (t - INR k + 1) - g (t - INR k)) = g (t + 1) - g (t - INR n + 1).
Proof.
  induction n as [|n IH].
  - simpl. replace (t - 0 + 1) with (t + 1) by ring. ring.
  - cbn [rsum]. rewrite IH. rewrite S_INR. replace (t - (INR n + 1) + 1) with (t - INR n) by ring. ring.
Qed.

Lemma tri_length x num limit : List.length (triangular_window x num limit) = num.
Proof. unfold triangular_window. now rewrite map_length, seq_length. Qed.

Lemma tri_sum x num limit : 0 < limit ->
  total (triangular_window x num limit)
  = clamp01 (INR num * x / limit + 1) - clamp01 (INR num * x / limit - INR num + 1).
Proof.
  intros Hl. rewrite (nth_total _ num _ (tri_length x num limit) (fun k Hk => tri_val x num limit k Hl Hk)).
  set (t := INR num * x / limit).
  rewrite <- rsum_telescope. apply rsum_ext. intros k Hk. apply hat_telescope.
Qed.

Lemma window_t x num limit : 0 < limit -> (0 < num)%nat -> 0 <= x <= limit * INR (num - 1) / INR num ->
  0 <= INR num * x / limit <= INR num - 1.
Proof.
  intros Hl Hn [Hx0 Hx1]. assert (0 < INR num) as HN by now apply lt_0_INR.
  rewrite minus_INR in Hx1 by lia. simpl (INR 1) in Hx1.
  assert (0 < INR num / limit) as Hr by now apply Rdiv_lt_0_compat.
  split.
  - apply Rmult_le_pos; [nra|left; now apply Rinv_0_lt_compat].
  - apply Rmult_le_compat_l with (r := INR num / limit) in Hx1; [|lra].
    replace (INR num / limit * (limit * (INR num - 1) / INR num)) with (INR num - 1) in Hx1 by (field; lra).
    replace (INR num * x / limit) with (INR num / limit * x) by (field; lra). exact Hx1.
Qed.

(** Smooth window. *)
Lemma smooth_switch01_val eps t : smooth_switch01 eps t = switch_val eps t.
Proof.
  unfold smooth_switch01. rewrite smooth_switch_val by lra. f_equal. field.
Qed.

Lemma smooth_win_val eps x num limit k : 0 < limit -> (k < num)%nat ->
  nth k (smooth_window eps x num limit) 0
  = switch_val eps (INR num * x / limit - INR k + 1) - switch_val eps (INR num * x / limit - INR k).
Proof.
  intros Hl H. unfold smooth_window. rewrite nth_map_seq by exact H. cbv zeta beta.
  rewrite !smooth_switch01_val. unfold linspace0. simpl (0 + k)%nat.
  assert (0 < INR num) as HN by (apply lt_0_INR; lia).
  replace (INR num / limit * (x - limit * INR k / INR num)) with (INR num * x / limit - INR k) by (field; lra).
  reflexivity.
Qed.

Lemma smooth_win_length eps x num limit : List.length (smooth_window eps x num limit) = num.
Proof. unfold smooth_window. now rewrite map_length, seq_length. Qed.

Lemma smooth_win_sum eps x num limit : 0 < limit ->
  total (smooth_window eps x num limit)
  = switch_val eps (INR num * x / limit + 1) - switch_val eps (INR num * x / limit - INR num + 1).
Proof.
  intros Hl. rewrite (nth_total _ num _ (smooth_win_length eps x num limit)
    (fun k Hk => smooth_win_val eps x num limit k Hl Hk)).
  apply (rsum_telescope (switch_val eps)).
Qed.

(** * Gaussian, Fourier, sinc *)

Lemma gaussian_ok x num : (1 <= num)%Z ->
  returns_basis (gaussian x num) (Z.to_nat num)
    (fun k => exp (- (sqrt (2 * IZR num) * (IZR num - 1)) * (x - (if (num =? 1)%Z then 0 else INR k / (IZR num - 1))) ^ 2)).
Proof.
  intros H. unfold gaussian. destruct (Z.ltb_spec num 1); [lia|].
  eexists. split; [reflexivity|]. split; [now rewrite map_length, seq_length|].
  intros k Hk. rewrite nth_map_seq by exact Hk. reflexivity.
Qed.

Lemma fourier_ok x num : (1 <= num)%Z ->
  returns_basis (fourier x num) (Z.to_nat num) (fun k => cos (PI * INR k * x)).
Proof.
  intros H. unfold fourier. destruct (Z.ltb_spec num 1); [lia|].
  eexists. split; [reflexivity|]. split; [now rewrite map_length, seq_length|].
  intros k Hk. rewrite nth_map_seq by exact Hk. reflexivity.
Qed.

Lemma sinc_val x num limit k : (k < Z.to_nat num)%nat ->
  nth k (sinc x num limit) 0 = if Rle_dec (x / limit) 1 then sinc1 (INR (k + 1) * (x / limit)) else 0.
Proof.
  intros H. unfold sinc. rewrite nth_map_seq by exact H. unfold Rleb.
  replace (1 + k)%nat with (k + 1)%nat by lia. destruct (Rle_dec (x / limit) 1); reflexivity.
Qed.

Lemma cos_period_nat k : forall y, cos (y + 2 * INR k * PI) = cos y.
Proof. intros y. apply cos_period. Qed.

Lemma returns_basis_unique r n f g : returns_basis r n f -> returns_basis r n g ->
  forall k, (k < n)%nat -> f k = g k.
Proof.
  intros [l [E [_ Hf]]] [l' [E' [_ Hg]]] k Hk. rewrite E in E'. injection E' as <-.
  rewrite <- Hf, <- Hg; auto.
Qed.

(** Reciprocal and exponential variants apply the basis to the mapped variable. *)
Lemma weighted_nth b m l k : nth k (weighted b m l) 0 = (if b then m else 1) * nth k l 0.
Proof.
  unfold weighted. destruct b; [|ring].
  destruct (lt_dec k (List.length l)) as [L|L].
  - rewrite nth_indep with (d' := 0 * m) by (rewrite map_length; exact L).
    rewrite (map_nth (fun y => y * m)). ring.
  - rewrite !nth_overflow by (rewrite ?map_length; lia). ring.
Qed.

(** * Errors made in the clamping regions *)

Lemma bernoulli x n : 0 <= x <= 1 -> 1 - INR n * x <= (1 - x) ^ n.
Proof.
  intros Hx. induction n as [|n IH]; [simpl; lra|].
  rewrite S_INR. simpl. pose proof (pos_INR n).
  assert (0 <= (1 - x) ^ n) by (apply pow_le; lra). nra.
Qed.

Lemma bernstein_poly_sum n x : rsum (S n) (fun v => bernstein_poly n v x) = 1.
Proof.
  unfold bernstein_poly. rewrite rsum_binomial. replace (x + (1 - x)) with 1 by ring. apply pow1.
Qed.

Lemma rsum_ge_pair n f a b : (forall k, (k < n)%nat -> 0 <= f k) -> (a < n)%nat -> (b < n)%nat -> a <> b ->
  f a + f b <= rsum n f.
Proof.
  intros H Ha Hb Hab.
  assert (rsum n (fun k => if ((k =? a) || (k =? b))%nat then f k else 0) = f a + f b) as E.
  { rewrite (rsum_two n a b); auto.
    - rewrite !Nat.eqb_refl, orb_true_r. reflexivity.
    - intros k Hk N1 N2. destruct (Nat.eqb_spec k a); [contradiction|].
      destruct (Nat.eqb_spec k b); [contradiction|]. reflexivity. }
  rewrite <- E. apply rsum_le. intros k Hk.
  destruct ((k =? a) || (k =? b))%nat; [lra|now apply H].
Qed.

Lemma bernstein_clamp_error eps x n v : 0 < eps < 1 / 2 -> 0 <= x <= 1 -> (v <= n)%nat ->
  Rabs (bernstein_entry eps x n v - bernstein_poly n v x) <= INR n * eps.
Proof.
  intros He Hx Hv. pose proof (pos_INR n) as Hn.
  destruct (Rlt_dec x eps) as [L|L]; [|destruct (Rlt_dec (1 - eps) x) as [G|G]].
  - rewrite bernstein_entry_low by lra.
    assert (1 - INR n * eps <= bernstein_poly n 0 x) as B0.
    { unfold bernstein_poly. rewrite binom_0, Nat.sub_0_r. simpl (x ^ 0).
      pose proof (bernoulli x n Hx). nra. }
    assert (bernstein_poly n 0 x <= 1).
    { rewrite <- (bernstein_poly_sum n x). rewrite rsum_S_l.
      assert (0 <= rsum n (fun v => bernstein_poly n (S v) x)); [|lra].
      apply rsum_nonneg. intros i Hi. apply bernstein_poly_nonneg; [lia|lra]. }
    destruct (Nat.eqb_spec v 0) as [->|N].
    + rewrite Rabs_right; lra.
    + pose proof (rsum_ge_pair (S n) (fun v => bernstein_poly n v x) 0 v
        (fun k Hk => bernstein_poly_nonneg n k x ltac:(lia) Hx) ltac:(lia) ltac:(lia) ltac:(lia)) as P.
      rewrite bernstein_poly_sum in P. pose proof (bernstein_poly_nonneg n v x Hv Hx).
      rewrite Rabs_minus_sym, Rabs_right; lra.
  - rewrite bernstein_entry_high by lra.
    assert (1 - INR n * eps <= bernstein_poly n n x) as B0.
    { unfold bernstein_poly. rewrite binom_diag, Nat.sub_diag. simpl ((1 - x) ^ 0).
      pose proof (bernoulli (1 - x) n ltac:(lra)) as B. replace (1 - (1 - x)) with x in B by ring. nra. }
    assert (bernstein_poly n n x <= 1).
    { rewrite <- (bernstein_poly_sum n x). rewrite rsum_last.
      assert (0 <= rsum n (fun v => bernstein_poly n v x)); [|lra].
      apply rsum_nonneg. intros i Hi. apply bernstein_poly_nonneg; [lia|lra]. }
    destruct (Nat.eqb_spec v n) as [->|N].
    + rewrite Rabs_right; lra.
    + pose proof (rsum_ge_pair (S n) (fun v => bernstein_poly n v x) n v
        (fun k Hk => bernstein_poly_nonneg n k x ltac:(lia) Hx) ltac:(lia) ltac:(lia) ltac:(lia)) as P.
      rewrite bernstein_poly_sum in P. pose proof (bernstein_poly_nonneg n v x Hv Hx).
      rewrite Rabs_minus_sym, Rabs_right; lra.
  - rewrite bernstein_entry_interior by (lra || lia). rewrite Rminus_eq_0, Rabs_R0. nra.
Qed.

(** Comparison of second differences. *)
Lemma second_difference (a p : nat -> R) :
  a 0%nat = 0 -> p 0%nat = 0 -> Rabs (a 1%nat) <= p 1%nat ->
  (forall n, Rabs (a (S (S n)) - 2 * a (S n) + a n) <= p (S (S n)) - 2 * p (S n) + p n) ->
  forall n, Rabs (a n) <= p n /\ Rabs (a (S n) - a n) <= p (S n) - p n.
Proof.
  intros A0 P0 H1 HD. induction n as [|n [I1 I2]].
  - rewrite A0, P0, Rabs_R0, !Rminus_0_r. split; [lra|exact H1].
  - assert (Rabs (a (S n)) <= p (S n)).
    { replace (a (S n)) with ((a (S n) - a n) + a n) by ring.
      eapply Rle_trans; [apply Rabs_triang|]. lra. }
    split; [assumption|].
    replace (a (S (S n)) - a (S n)) with ((a (S (S n)) - 2 * a (S n) + a n) + (a (S n) - a n)) by ring.
    eapply Rle_trans; [apply Rabs_triang|]. specialize (HD n). lra.
Qed.

Section Clamp.
Context (u : R) (Hu : 0 <= u <= 2).
Let T (n : nat) : R := chebyshev_poly n (1 - u).

Lemma T_diff n : T (S (S n)) - 2 * T (S n) + T n = - 2 * u * T (S n).
Proof. unfold T. rewrite cheb_rec. ring. Qed.

Lemma T_first n : Rabs (T n - 1) <= INR n * INR n * u.
Proof.
  apply (second_difference (fun n => T n - 1) (fun n => INR n * INR n * u)).
  - unfold T, chebyshev_poly. simpl. ring.
  - simpl. ring.
  - unfold T, chebyshev_poly. simpl. replace (1 - u - 1) with (- u) by ring. rewrite Rabs_Ropp, Rabs_right; lra.
  - intros k. replace (T (S (S k)) - 1 - 2 * (T (S k) - 1) + (T k - 1)) with (T (S (S k)) - 2 * T (S k) + T k) by ring.
    rewrite T_diff. replace (-2 * u * T (S k)) with (2 * u * (- T (S k))) by ring.
    rewrite Rabs_mult. rewrite (Rabs_right (2 * u)) by lra. rewrite Rabs_Ropp.
    pose proof (cheb_bound (S k) (1 - u) ltac:(lra)) as B. fold (T (S k)) in B.
    assert (Rabs (T (S k)) <= 1) by (apply Rabs_le; lra).
    rewrite !S_INR. nra.
Qed.

Lemma T_second n : Rabs (T n - (1 - INR n * INR n * u)) <= INR n * INR n * (INR n * INR n - 1) / 6 * (u * u).
Proof.
  apply (second_difference (fun n => T n - (1 - INR n * INR n * u))
           (fun n => INR n * INR n * (INR n * INR n - 1) / 6 * (u * u))).
  - unfold T, chebyshev_poly. simpl. ring.
  - simpl. field.
  - unfold T, chebyshev_poly. simpl. replace (1 - u - (1 - 1 * 1 * u)) with 0 by ring. rewrite Rabs_R0. lra.
  - intros k.
    replace (T (S (S k)) - (1 - INR (S (S k)) * INR (S (S k)) * u) - 2 * (T (S k) - (1 - INR (S k) * INR (S k) * u)) + (T k - (1 - INR k * INR k * u)))
      with ((T (S (S k)) - 2 * T (S k) + T k) + 2 * u) by (rewrite !S_INR; ring).
    rewrite T_diff. replace (-2 * u * T (S k) + 2 * u) with (2 * u * (- (T (S k) - 1))) by ring.
    rewrite Rabs_mult. rewrite (Rabs_right (2 * u)) by lra. rewrite Rabs_Ropp.
    pose proof (T_first (S k)) as B.
    eapply Rle_trans; [apply Rmult_le_compat_l; [lra|exact B]|].
    right. rewrite !S_INR. field.
Qed.

Lemma T_third n :
  Rabs (T n - (1 - INR n * INR n * u + INR n * INR n * (INR n * INR n - 1) / 6 * (u * u)))
  <= INR n * INR n * (INR n * INR n - 1) * (INR n * INR n - 4) / 90 * (u * u * u).
Proof.
  apply (second_difference (fun n => T n - (1 - INR n * INR n * u + INR n * INR n * (INR n * INR n - 1) / 6 * (u * u)))
           (fun n => INR n * INR n * (INR n * INR n - 1) * (INR n * INR n - 4) / 90 * (u * u * u))).
  - unfold T, chebyshev_poly. simpl. field.
  - simpl. field.
  - unfold T, chebyshev_poly. simpl.
    replace (1 - u - (1 - 1 * 1 * u + 1 * 1 * (1 * 1 - 1) / 6 * (u * u))) with 0 by field. rewrite Rabs_R0. lra.
  - intros k.
    match goal with |- Rabs ?z <= _ =>
      replace z with ((T (S (S k)) - 2 * T (S k) + T k) + 2 * u * (1 - INR (S k) * INR (S k) * u))
        by (rewrite !S_INR; field) end.
    rewrite T_diff.
    replace (-2 * u * T (S k) + 2 * u * (1 - INR (S k) * INR (S k) * u))
      with (2 * u * (- (T (S k) - (1 - INR (S k) * INR (S k) * u)))) by ring.
    rewrite Rabs_mult. rewrite (Rabs_right (2 * u)) by lra. rewrite Rabs_Ropp.
    pose proof (T_second (S k)) as B.
    eapply Rle_trans; [apply Rmult_le_compat_l; [lra|exact B]|].
    right. rewrite !S_INR. field.
Qed.
End Clamp.

Lemma cheb_neg n x : chebyshev_poly n (- x) = (-1) ^ n * chebyshev_poly n x.
Proof.
  assert (chebyshev_poly n (- x) = (-1) ^ n * chebyshev_poly n x
    /\ chebyshev_poly (S n) (- x) = (-1) ^ (S n) * chebyshev_poly (S n) x) as [H _]; [|exact H].
  induction n as [|n [A B]].
  - unfold chebyshev_poly. simpl. split; ring.
  - split; [exact B|]. rewrite !cheb_rec, A, B. simpl. ring.
Qed.

Lemma cube_le a b : 0 <= a -> a <= b -> a * a * a <= b * b * b.
Proof. intros. assert (a * a <= b * b) by nra. nra. Qed.

Lemma cheb_coef n : 0 <= INR n * INR n * (INR n * INR n - 1) * (INR n * INR n - 4) / 90.
Proof.
  destruct n as [|[|n]].
  - simpl. lra.
  - simpl. lra.
  - rewrite !S_INR. pose proof (pos_INR n). set (m := INR n) in *.
    replace ((m + 1 + 1) * (m + 1 + 1) * ((m + 1 + 1) * (m + 1 + 1) - 1) * ((m + 1 + 1) * (m + 1 + 1) - 4) / 90)
      with (((m + 2) * (m + 2)) * ((m + 1) * (m + 3)) * (m * (m + 4)) / 90) by field.
    apply Rmult_le_pos; [|lra].
    repeat apply Rmult_le_pos; lra.
Qed.

Lemma chebyshev_clamp_error eps x n : 0 < eps < 1 -> -1 <= x <= 1 ->
  Rabs (chebyshev_entry eps x n - chebyshev_poly n x)
  <= INR n * INR n * (INR n * INR n - 1) * (INR n * INR n - 4) / 90 * (eps * eps * eps).
Proof.
  intros He Hx. pose proof (cheb_coef n) as HC.
  assert (0 <= eps * eps * eps) as HE by (apply Rmult_le_pos; nra).
  destruct (Rlt_dec x (- (1 - eps))) as [L|L]; [|destruct (Rlt_dec (1 - eps) x) as [G|G]].
  - unfold chebyshev_entry. cbv zeta. unfold Rltb. destruct (Rlt_dec x (- (1 - eps))); [|lra].
    pose proof (T_third (x + 1) ltac:(lra) n) as B.
    replace (chebyshev_poly n x) with ((-1) ^ n * chebyshev_poly n (1 - (x + 1))).
    2:{ rewrite <- cheb_neg. f_equal. ring. }
    rewrite <- Rmult_minus_distr_l, Rabs_mult.
    replace (Rabs ((-1) ^ n)) with 1.
    2:{ destruct (pow_m1_abs n) as [-> | ->]; [rewrite Rabs_R1; reflexivity|]. rewrite Rabs_left; lra. }
    rewrite Rmult_1_l, Rabs_minus_sym.
    eapply Rle_trans; [|apply Rmult_le_compat_l; [exact HC|apply (cube_le (x + 1)); lra]].
    eapply Rle_trans; [|exact B]. right. f_equal. field.
  - unfold chebyshev_entry. cbv zeta. unfold Rltb. destruct (Rlt_dec x (- (1 - eps))); [lra|].
    destruct (Rlt_dec (1 - eps) x); [|lra].
    pose proof (T_third (1 - x) ltac:(lra) n) as B.
    replace (1 - (1 - x)) with x in B by ring.
    rewrite Rabs_minus_sym.
    eapply Rle_trans; [|apply Rmult_le_compat_l; [exact HC|apply (cube_le (1 - x)); lra]].
    eapply Rle_trans; [|exact B]. right. f_equal. field.
  - rewrite chebyshev_entry_exact by (lra || (left; lra)). rewrite Rminus_eq_0, Rabs_R0.
    apply Rmult_le_pos; assumption.
Qed.
