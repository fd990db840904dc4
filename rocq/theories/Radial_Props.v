(** Properties C41-C49, C57 and C62: cutoffs, switch, damping, mappings and radial bases. *)
Require Import List Reals ZArith Bool String Lra Lia.
Require Import Verif.Base Verif.Smooth Verif.RSum Verif.Radial_Model Verif.Radial_Spec Verif.Radial_Proofs Verif.Radial_Basis_Proofs.
Import ListNotations.
Open Scope R_scope.

Lemma ok_eq {A} (a b : A) : a = b -> Ok a = Ok b.
Proof. congruence. Qed.
Lemma cons_eq (a b : R) l l' : a = b -> l = l' -> a :: l = b :: l'.
Proof. congruence. Qed.

Lemma Rabs_le_both a b : Rabs a <= b -> - b <= a <= b.
Proof. intros H. unfold Rabs in H. destruct (Rcase_abs a); lra. Qed.

Ltac minmax :=
  repeat match goal with
  | |- context [Rmin ?a ?b] => destruct (Rle_lt_dec a b); [rewrite (Rmin_left a b) by lra|rewrite (Rmin_right a b) by lra]
  end;
  repeat match goal with
  | |- context [Rmax ?a ?b] => destruct (Rle_lt_dec a b); [rewrite (Rmax_right a b) by lra|rewrite (Rmax_left a b) by lra]
  end; lra.

(** ** C41 *)

Theorem C41_smooth_cutoff : forall c, 0 < c ->
  exists f, (forall x, smooth_cutoff x c = Ok (f x))
    /\ f 0 = 1
    /\ (forall x, 0 <= x -> 0 <= f x <= 1)
    /\ (forall x, 0 <= x < c -> 0 < f x)
    /\ nonincreasing_on (fun x => 0 <= x) f
    /\ (forall x, c <= x -> f x = 0)
    /\ (exists F, infinitely_differentiable F /\ forall x, - c < x -> f x = F x).
Proof.
  intros c Hc. exists (doc_smooth_cutoff c). split; [intros; now apply smooth_cutoff_doc|].
  split; [now apply smooth_cutoff_at_0|]. split; [intros; now apply smooth_cutoff_range|].
  split; [intros x [H0 H1]; now apply smooth_cutoff_range|]. split; [now apply smooth_cutoff_mono|].
  split. { intros x Hx. unfold doc_smooth_cutoff. destruct (Rlt_dec x c); [lra|reflexivity]. }
  exists (cutoff_ext c). split; [apply cutoff_ext_smooth|]. intros. now apply cutoff_ext_eq.
Qed.
Print Assumptions C41_smooth_cutoff.

Theorem C41_cosine_cutoff : forall c, 0 < c ->
  exists f, (forall x, cosine_cutoff x c = Ok (f x))
    /\ f 0 = 1
    /\ (forall x, 0 <= f x <= 1)
    /\ nonincreasing_on (fun x => 0 <= x) f
    /\ (forall x, c <= x -> f x = 0)
    /\ (exists f', (forall x, derivable_pt_lim f x (f' x)) /\ forall x, c <= x -> f' x = 0).
Proof.
  intros c Hc. exists (doc_cosine_cutoff c). split; [intros; now apply cosine_cutoff_doc|].
  split; [now apply cosine_cutoff_at_0|]. split; [intros; now apply cosine_cutoff_range|].
  split; [now apply cosine_cutoff_mono|].
  split. { intros x Hx. unfold doc_cosine_cutoff. destruct (Rlt_dec x c); [lra|reflexivity]. }
  exists (fun x => if Rlt_dec x c then - (PI / (2 * c)) * sin (PI * (x / c)) else 0).
  split; [intros x; now apply cosine_cutoff_deriv|].
  intros x Hx. destruct (Rlt_dec x c); [lra|reflexivity].
Qed.
Print Assumptions C41_cosine_cutoff.

Theorem C41_cutoff_rejects : forall x c, c <= 0 ->
  smooth_cutoff x c = Err ValueError /\ cosine_cutoff x c = Err ValueError.
Proof. exact cutoff_err. Qed.
Print Assumptions C41_cutoff_rejects.

(** The smooth cutoff is meant for distances: left of [-c] it exceeds one. *)
Theorem C41_smooth_cutoff_negative : forall c x v, 0 < c -> x < - c -> smooth_cutoff x c = Ok v -> 1 < v.
Proof.
  intros c x v Hc Hx H. rewrite smooth_cutoff_doc in H by exact Hc. injection H as <-.
  unfold doc_smooth_cutoff. destruct (Rlt_dec x c); [|lra].
  apply Rle_lt_trans with (exp 0); [rewrite exp_0; lra|]. apply exp_increasing.
  assert (1 < (x / c) ^ 2).
  { assert (x / c < -1).
    { apply Rmult_lt_reg_r with c; [exact Hc|]. unfold Rdiv. rewrite Rmult_assoc, Rinv_l by lra. lra. }
    nra. }
  assert (1 / (1 - (x / c) ^ 2) < 0).
  { unfold Rdiv. rewrite Rmult_1_l. apply Rinv_lt_0_compat. lra. }
  lra.
Qed.
Print Assumptions C41_smooth_cutoff_negative.

Example C41_example :
  smooth_cutoff 1 2 = Ok (exp (-1 / 3)) /\ cosine_cutoff 1 2 = Ok (1 / 2) /\ smooth_cutoff 3 2 = Ok 0.
Proof.
  rewrite !smooth_cutoff_doc, cosine_cutoff_doc by lra. unfold doc_smooth_cutoff, doc_cosine_cutoff.
  destruct (Rlt_dec 1 2); [|lra]. destruct (Rlt_dec 3 2); [lra|]. repeat split; f_equal.
  - f_equal. field.
  - replace (PI * (1 / 2)) with (PI / 2) by field. rewrite cos_PI2. lra.
Qed.

(** ** C42 *)

Lemma deriv_ext f g x d : (forall y, f y = g y) -> derivable_pt_lim f x d -> derivable_pt_lim g x d.
Proof.
  intros E D e He. destruct (D e He) as [del H]. exists del. intros h Hh Hl. rewrite <- !E. now apply H.
Qed.

Theorem C42_smooth_switch : forall eps x0 x1, 0 < eps < 1 / 2 -> x0 < x1 ->
  exists f, (forall x, smooth_switch eps x x0 x1 = Ok (f x))
    /\ (forall x, x <= x0 -> f x = 0)
    /\ (forall x, x1 <= x -> f x = 1)
    /\ (forall x, 0 <= f x <= 1)
    /\ (forall x, x0 + eps * (x1 - x0) <= x <= x1 - eps * (x1 - x0) -> 0 < f x < 1)
    /\ (forall x y, x <= y -> f x <= f y)
    /\ (forall x, f (x0 + x1 - x) = 1 - f x).
Proof.
  intros eps x0 x1 He H. exists (fun x => switch_val eps ((x - x0) / (x1 - x0))).
  split; [intros; now apply smooth_switch_val|].
  split. { intros x Hx. destruct (frac_bounds x0 x1 x H) as [A _]. specialize (A Hx).
           unfold switch_val. destruct (Rlt_dec _ eps); [reflexivity|lra]. }
  split. { intros x Hx. destruct (frac_bounds x0 x1 x H) as [_ [A _]]. specialize (A Hx).
           unfold switch_val. destruct (Rlt_dec _ eps); [lra|]. destruct (Rlt_dec (1 - eps) _); [reflexivity|lra]. }
  split; [intros; apply switch_val_range|].
  split. { intros x Hx. assert (x - x0 = (x - x0) / (x1 - x0) * (x1 - x0)) as E by (field; lra).
           set (t := (x - x0) / (x1 - x0)) in *. unfold switch_val.
           destruct (Rlt_dec t eps); [nra|]. destruct (Rlt_dec (1 - eps) t); [nra|]. apply sw_range. }
  split. { intros x y Hxy. apply switch_val_mono; [exact He|]. apply Rmult_le_compat_r; [|lra].
           left. apply Rinv_0_lt_compat. lra. }
  intros x. rewrite <- switch_val_sym by exact He. f_equal. field. lra.
Qed.
Print Assumptions C42_smooth_switch.

(** Within the clamping error of a C-infinity function of the documented shape. *)
Theorem C42_smooth_switch_approximates : forall eps x0 x1, 0 < eps < 1 / 2 -> x0 < x1 ->
  infinitely_differentiable (switch_formula x0 x1)
  /\ forall x v, smooth_switch eps x x0 x1 = Ok v ->
       Rabs (v - switch_formula x0 x1 x) <= exp (- (sqrt 3 / 2 * (1 / eps - 1 / (1 - eps))))
       /\ (x0 + eps * (x1 - x0) <= x <= x1 - eps * (x1 - x0) -> v = switch_formula x0 x1 x).
Proof.
  intros eps x0 x1 He H. split.
  - apply (id_ext (switch_ext x0 x1)); [|now apply switch_ext_smooth].
    intros x. symmetry. now apply switch_ext_eq.
  - intros x v E. rewrite smooth_switch_val in E by exact H. injection E as <-.
    split; [now apply switch_clamp_error|].
    intros Hx. assert (x0 < x < x1) by nra. rewrite switch_formula_sw by assumption.
    assert (x - x0 = (x - x0) / (x1 - x0) * (x1 - x0)) as E by (field; lra).
    set (t := (x - x0) / (x1 - x0)) in *. unfold switch_val.
    destruct (Rlt_dec t eps); [nra|]. destruct (Rlt_dec (1 - eps) t); [nra|]. reflexivity.
Qed.
Print Assumptions C42_smooth_switch_approximates.

Theorem C42_smooth_switch_rejects : forall eps x x0 x1, x1 <= x0 -> smooth_switch eps x x0 x1 = Err ValueError.
Proof. exact smooth_switch_err. Qed.
Print Assumptions C42_smooth_switch_rejects.

(** The derivative rule returns the function's value and, away from the two clamping points (where
    the function jumps by the clamping error), its derivative times the input tangent. *)
Theorem C42_smooth_switch_jvp : forall eps x0 x1 f, 0 < eps < 1 / 2 -> x0 < x1 ->
  (forall x, smooth_switch eps x x0 x1 = Ok (f x)) ->
  forall x x_dot,
    fst (smooth_switch_jvp eps x0 x1 x x_dot) = f x
    /\ (x <> x0 + eps * (x1 - x0) -> x <> x1 - eps * (x1 - x0) ->
        exists d, derivable_pt_lim f x d /\ snd (smooth_switch_jvp eps x0 x1 x x_dot) = d * x_dot).
Proof.
  intros eps x0 x1 f He H Hf x xd.
  assert (forall y, f y = switch_val eps ((y - x0) / (x1 - x0))) as E.
  { intros y. pose proof (Hf y) as A. rewrite smooth_switch_val in A by exact H. now injection A. }
  split.
  - rewrite switch_jvp_val by exact H. now rewrite E.
  - intros N1 N2. exists (snd (smooth_switch_jvp eps x0 x1 x 1)). split.
    + apply (deriv_ext (fun y => switch_val eps ((y - x0) / (x1 - x0)))); [intros; symmetry; apply E|].
      assert (x - x0 = (x - x0) / (x1 - x0) * (x1 - x0)) as Ex by (field; lra).
      apply switch_deriv; auto; intro Q; rewrite Q in Ex; [apply N1|apply N2]; lra.
    + rewrite !switch_jvp_tan by exact H. cbv zeta.
      replace (xd / (x1 - x0)) with (1 / (x1 - x0) * xd) by (field; lra). ring.
Qed.
Print Assumptions C42_smooth_switch_jvp.

Example C42_example :
  smooth_switch (1 / 100) 1 0 2 = Ok (1 / 2) /\ smooth_switch (1 / 100) 3 0 2 = Ok 1
  /\ 0 < snd (smooth_switch_jvp (1 / 100) 0 2 1 1).
Proof.
  rewrite !smooth_switch_val by lra. rewrite switch_jvp_tan by lra. cbv zeta. unfold switch_val, sw.
  destruct (Rlt_dec ((1 - 0) / (2 - 0)) (1 / 100)); [lra|].
  destruct (Rlt_dec (1 - 1 / 100) ((1 - 0) / (2 - 0))); [lra|].
  destruct (Rlt_dec ((3 - 0) / (2 - 0)) (1 / 100)); [lra|].
  destruct (Rlt_dec (1 - 1 / 100) ((3 - 0) / (2 - 0))); [|lra]. repeat split.
  - f_equal.
    replace (sqrt 3 / 2 * _) with 0 by field. rewrite exp_0. field.
  - unfold sw'. pose proof slope_pos. pose proof (sw_range ((1 - 0) / (2 - 0))).
    apply Rmult_lt_0_compat; [|lra].
    replace ((1 - 0) / (2 - 0)) with (1 / 2) in * by field.
    repeat apply Rmult_lt_0_compat; try lra. apply exp_pos.
Qed.

(** ** C43 *)

Theorem C43_smooth_damping : forall gamma, 0 < gamma ->
  smooth_damping 0 gamma = 0
  /\ (forall x, 0 < x -> 0 < smooth_damping x gamma < 1)
  /\ strictly_increasing_on (fun x => 0 <= x) (fun x => smooth_damping x gamma)
  /\ (forall d, 0 < d -> exists X, forall x, X <= x -> 1 - d < smooth_damping x gamma).
Proof.
  intros g Hg. split; [apply damping_0|]. split; [intros; now apply damping_range|].
  split; [now apply damping_mono|]. intros. now apply damping_limit.
Qed.
Print Assumptions C43_smooth_damping.

(** For x >= 0 it is a C-infinity function all of whose derivatives vanish at 0, as documented. *)
Theorem C43_smooth_damping_flat : forall gamma, 0 < gamma ->
  exists F, (forall x, 0 <= x -> smooth_damping x gamma = F x)
    /\ forall n, flat_to_order n F (fun x => x <= 0).
Proof.
  intros g Hg. exists (fun x => bump (exp (g * x) + (-1))). split.
  - intros. now apply damping_bump.
  - intros n. now apply damping_flat.
Qed.
Print Assumptions C43_smooth_damping_flat.

Example C43_example : smooth_damping (ln 2) 1 = exp (-1).
Proof.
  rewrite damping_doc. 2:{ rewrite Rmult_1_l, <- ln_1. apply ln_increasing; lra. }
  unfold doc_smooth_damping. rewrite Rmult_1_l, exp_ln by lra. f_equal. field.
Qed.

(** ** C44 *)

Theorem C44_reciprocal_mapping : forall eps kind, 0 < eps < 1 / 2 ->
  kind = "shifted"%string \/ kind = "damped"%string \/ kind = "cuspless"%string ->
  exists f, (forall x, reciprocal_mapping eps x kind = Ok (f x))
    /\ f 0 = 1
    /\ (forall x, 0 <= x -> 0 < f x <= 1)
    /\ nonincreasing_on (fun x => 0 <= x) f.
Proof.
  intros eps kind He Hk. exists (recip_val eps kind). split; [intros; now apply recip_ok|].
  split; [apply recip_0; [lra|exact Hk]|]. split; [|now apply recip_mono].
  intros x Hx. split; [now apply recip_pos|].
  rewrite <- (recip_0 eps kind ltac:(lra) Hk). apply recip_mono; auto. simpl. lra.
Qed.
Print Assumptions C44_reciprocal_mapping.

Theorem C44_exponential_mapping : forall gamma cuspless, 0 < gamma ->
  exponential_mapping 0 gamma cuspless = 1
  /\ (forall x, 0 <= x -> 0 < exponential_mapping x gamma cuspless <= 1)
  /\ nonincreasing_on (fun x => 0 <= x) (fun x => exponential_mapping x gamma cuspless).
Proof.
  intros g c Hg. split; [apply expo_0|]. split; [|now apply expo_mono].
  intros x Hx. split; [apply exp_pos|]. rewrite <- (expo_0 g c). apply expo_mono; auto. simpl. lra.
Qed.
Print Assumptions C44_exponential_mapping.

Theorem C44_reciprocal_mapping_rejects : forall eps x kind,
  ~ (kind = "shifted"%string \/ kind = "damped"%string \/ kind = "cuspless"%string) ->
  reciprocal_mapping eps x kind = Err ValueError.
Proof. exact recip_err. Qed.
Print Assumptions C44_reciprocal_mapping_rejects.

Example C44_example : reciprocal_mapping (1 / 100) 1 "shifted" = Ok (1 / 2)
  /\ reciprocal_mapping (1 / 100) 1 "damped" = Ok (1 - exp (-1))
  /\ reciprocal_mapping (1 / 100) 1 "other" = Err ValueError
  /\ exponential_mapping 1 2 false = exp (-2).
Proof.
  split; [|split; [|split; [reflexivity|]]].
  - rewrite recip_ok by (left; reflexivity). unfold recip_val. simpl. replace (1 + 1) with 2 by ring. reflexivity.
  - rewrite recip_ok by (right; left; reflexivity). unfold recip_val, damped. simpl.
    destruct (Rlt_dec 1 (1 / 100)); [lra|]. f_equal. replace (Ropp 1) with (-1) by lra. field.
  - unfold exponential_mapping. f_equal. ring.
Qed.

(** ** C45 *)

Theorem C45_bernstein_partition_of_unity : forall eps x num limit l, 0 < eps < 1 / 2 ->
  basic_bernstein eps x num limit = Ok l ->
  total l = 1 /\ forall k, 0 <= nth k l 0.
Proof.
  intros eps x num limit l He H. split; [now apply (bernstein_partition eps (x / limit) num)|].
  intros k. now apply (bernstein_nonneg eps (x / limit) num).
Qed.
Print Assumptions C45_bernstein_partition_of_unity.

(** On [0, limit] the values are the Bernstein polynomials: exactly outside the clamping regions
    and at both end points, and within (num - 1) eps everywhere. *)
Theorem C45_bernstein_values : forall eps x num limit, 0 < eps < 1 / 2 -> 0 < limit -> 0 <= x <= limit -> (1 <= num)%Z ->
  exists l, basic_bernstein eps x num limit = Ok l /\ List.length l = Z.to_nat num
   /\ forall k, (k < Z.to_nat num)%nat ->
       Rabs (nth k l 0 - bernstein_poly (Z.to_nat num - 1) k (x / limit)) <= INR (Z.to_nat num - 1) * eps
       /\ (eps <= x / limit <= 1 - eps \/ x = 0 \/ x = limit ->
           nth k l 0 = bernstein_poly (Z.to_nat num - 1) k (x / limit)).
Proof.
  intros eps x num limit He Hl Hx Hn. unfold basic_bernstein.
  destruct (bernstein_ok eps (x / limit) num Hn) as [l [E [HL Hk]]].
  exists l. split; [exact E|]. split; [exact HL|]. intros k Hlt. rewrite Hk by exact Hlt.
  assert (0 <= x / limit <= 1) as Hr.
  { split; [apply Rmult_le_pos; [lra|left; now apply Rinv_0_lt_compat]|].
    apply Rmult_le_reg_r with limit; [exact Hl|]. unfold Rdiv. rewrite Rmult_assoc, Rinv_l by lra. lra. }
  destruct (Z.eqb_spec num 1) as [->|N].
  - replace k with 0%nat by (simpl in Hlt; lia). simpl (Z.to_nat 1 - 1)%nat. unfold bernstein_poly. simpl.
    split; [|intros; lra]. replace (1 - 1 * 1 * 1) with 0 by ring. rewrite Rabs_R0. lra.
  - split; [apply bernstein_clamp_error; auto; lia|].
    intros Hc. apply bernstein_entry_exact; [exact He|lia|].
    destruct Hc as [Hc|[Hc|Hc]]; [left; exact Hc|right; left; subst; field; lra|right; right; subst; field; lra].
Qed.
Print Assumptions C45_bernstein_values.

Theorem C45_bernstein_rejects : forall eps x num limit, (num < 1)%Z -> basic_bernstein eps x num limit = Err ValueError.
Proof. intros. now apply bernstein_err. Qed.
Print Assumptions C45_bernstein_rejects.

Example C45_example : basic_bernstein (1 / 100) 1 3 2 = Ok [1 / 4; 1 / 2; 1 / 4].
Proof.
  unfold basic_bernstein, bernstein. change ((3 <? 1)%Z) with false. change ((3 =? 1)%Z) with false.
  change (Z.to_nat (3 - 1)) with 2%nat. cbv iota zeta. simpl seq. simpl map.
  rewrite !bernstein_entry_interior by (lra || lia). unfold bernstein_poly. simpl.
  try apply ok_eq. repeat (apply cons_eq; [field|]). reflexivity.
Qed.

(** ** C46 *)

(** Missing: equality with the function's derivative in the clamping regions and outside [0, 1],
    which is false (see C46_bernstein_jvp_refuted). *)
Theorem C46_bernstein_jvp_partial : forall eps num x x_dot, 0 < eps < 1 / 2 -> (1 <= num)%Z -> eps < x < 1 - eps ->
  exists l t, bernstein_jvp eps num x x_dot = Ok (l, t)
    /\ bernstein eps x num = Ok l
    /\ List.length t = Z.to_nat num
    /\ forall k, (k < Z.to_nat num)%nat -> exists f d,
         (forall y, exists ly, bernstein eps y num = Ok ly /\ nth k ly 0 = f y)
         /\ derivable_pt_lim f x d /\ nth k t 0 = d * x_dot.
Proof.
  intros eps num x xd He Hn Hx.
  destruct (bernstein_jvp_ok eps num x xd Hn) as [l [t [E [E0 [Hl HT]]]]].
  exists l, t. split; [exact E|]. split; [exact E0|]. split; [exact Hl|].
  intros k Hk.
  exists (fun y => if (num =? 1)%Z then 1 else bernstein_entry eps y (Z.to_nat num - 1) k).
  exists (bernstein_deriv (Z.to_nat num - 1) k x). split.
  { intros y. destruct (bernstein_ok eps y num Hn) as [ly [Ey [_ Hy]]]. exists ly. split; [exact Ey|]. now apply Hy. }
  split.
  - destruct (Z.eqb_spec num 1) as [->|N].
    + unfold bernstein_deriv. simpl (Z.to_nat 1 - 1)%nat. simpl (INR 0).
      replace (0 * _) with 0 by ring. apply derivable_pt_lim_const.
    + apply bernstein_entry_deriv; auto. lia.
  - apply (bernstein_jvp_exact eps num x xd k l t); auto. left; lra.
Qed.
Print Assumptions C46_bernstein_jvp_partial.

(** At the two end points the rule is the (one-sided) derivative of the polynomials. *)
Theorem C46_bernstein_jvp_end_points : forall eps num x x_dot l t k, 0 < eps < 1 / 2 -> (1 <= num)%Z -> x = 0 \/ x = 1 ->
  bernstein_jvp eps num x x_dot = Ok (l, t) -> (k < Z.to_nat num)%nat ->
  exists d, derivable_pt_lim (bernstein_poly (Z.to_nat num - 1) k) x d /\ nth k t 0 = d * x_dot.
Proof.
  intros eps num x xd l t k He Hn Hx E Hk. exists (bernstein_deriv (Z.to_nat num - 1) k x). split.
  - apply bernstein_poly_deriv. lia.
  - apply (bernstein_jvp_exact eps num x xd k l t); auto.
Qed.
Print Assumptions C46_bernstein_jvp_end_points.

(** For every x below the lower clamp the function is locally constant, but the rule reports a
    slope of [-(num-1)] for the first basis function. *)
Theorem C46_bernstein_jvp_refuted : forall eps num x, 0 < eps < 1 / 2 -> (2 <= num)%Z -> x < eps ->
  exists l t f, bernstein_jvp eps num x 1 = Ok (l, t)
    /\ (forall y, exists ly, bernstein eps y num = Ok ly /\ nth 0 ly 0 = f y)
    /\ derivable_pt_lim f x 0 /\ nth 0 t 0 = - IZR (num - 1) /\ nth 0 t 0 <> 0.
Proof.
  intros eps num x He Hn Hx.
  destruct (bernstein_jvp_ok eps num x 1 ltac:(lia)) as [l [t [E [E0 [Hl HT]]]]].
  exists l, t, (fun y => bernstein_entry eps y (Z.to_nat num - 1) 0). split; [exact E|]. split.
  { intros y. destruct (bernstein_ok eps y num ltac:(lia)) as [ly [Ey [_ Hy]]]. exists ly. split; [exact Ey|].
    rewrite Hy by lia. destruct (Z.eqb_spec num 1); [lia|reflexivity]. }
  split; [apply bernstein_entry_deriv_out; auto|].
  destruct (bernstein_ok eps x (num - 1) ltac:(lia)) as [lo [Elo [Llo Klo]]].
  assert (nth 0 t 0 = - IZR (num - 1)) as Et.
  { rewrite (HT lo 0%nat) by (auto || lia). rewrite Klo by lia.
    destruct (Z.eqb_spec (num - 1) 1); [ring|]. rewrite bernstein_entry_low by lra. simpl. ring. }
  split; [exact Et|]. rewrite Et. intro Q.
  assert (1 <= IZR (num - 1)) by (apply (IZR_le 1); lia). lra.
Qed.
Print Assumptions C46_bernstein_jvp_refuted.

Example C46_example : exists l, bernstein_jvp (1 / 100) 3 (1 / 2) 1 = Ok (l, [-1; 0; 1]).
Proof.
  unfold bernstein_jvp, bernstein.
  change ((3 <? 1)%Z) with false. change ((3 =? 1)%Z) with false. change (1 <? 3)%Z with true.
  change (3 - 1)%Z with 2%Z. change ((2 <? 1)%Z) with false. change ((2 =? 1)%Z) with false.
  change (Z.to_nat 2) with 2%nat. change (Z.to_nat (2 - 1)) with 1%nat. cbv iota zeta.
  cbn [bind]. simpl (seq 0 (1 + 1)). cbn [map]. rewrite roll1_snoc. eexists. f_equal. f_equal.
  cbn [List.app combine map fst snd].
  rewrite !(bernstein_entry_interior _ _ 1) by (lra || lia). unfold bernstein_poly. simpl.
  try apply ok_eq. repeat (apply cons_eq; [field|]). reflexivity.
Qed.

(** ** C47 *)

(** The values on [0, limit] are the Chebyshev polynomials T_k(2x/limit - 1): exactly outside the
    clamping regions and at both end points, and up to k^6 eps^3 / 90 everywhere. *)
Theorem C47_basic_chebyshev_values : forall eps x num limit, 0 < eps < 1 -> 0 < limit -> 0 <= x <= limit -> (1 <= num)%Z ->
  let s := 2 * x / limit - 1 in
  exists l, basic_chebyshev eps x num limit = Ok l /\ List.length l = Z.to_nat num
   /\ forall k, (k < Z.to_nat num)%nat ->
       Rabs (nth k l 0 - chebyshev_poly k s)
         <= INR k * INR k * (INR k * INR k - 1) * (INR k * INR k - 4) / 90 * (eps * eps * eps)
       /\ (Rabs s <= 1 - eps \/ x = 0 \/ x = limit -> nth k l 0 = chebyshev_poly k s).
Proof.
  intros eps x num limit He Hl Hx Hn s. unfold basic_chebyshev. fold s.
  destruct (chebyshev_ok eps s num Hn) as [l [E [HL Hk]]]. rewrite E. cbn [bind].
  assert (-1 <= s <= 1) as Hs.
  { assert (0 <= x / limit <= 1).
    { split; [apply Rmult_le_pos; [lra|left; now apply Rinv_0_lt_compat]|].
      apply Rmult_le_reg_r with limit; [exact Hl|]. unfold Rdiv. rewrite Rmult_assoc, Rinv_l by lra. lra. }
    unfold s. replace (2 * x / limit) with (2 * (x / limit)) by (field; lra). lra. }
  assert (Rleb (Rabs s) 1 = true) as Ea by (apply Rleb_true, Rabs_le; lra). rewrite Ea.
  exists l. split; [reflexivity|]. split; [exact HL|]. intros k Hlt. rewrite Hk by exact Hlt.
  destruct (Z.eqb_spec num 1) as [->|N].
  - replace k with 0%nat by (simpl in Hlt; lia). unfold chebyshev_poly. simpl. split; [|reflexivity].
    rewrite Rminus_eq_0, Rabs_R0. lra.
  - split; [now apply chebyshev_clamp_error|].
    intros Hc. apply chebyshev_entry_exact; [exact He|].
    destruct Hc as [Hc|[Hc|Hc]].
    + left. apply Rabs_le_both in Hc. lra.
    + right; right. unfold s. subst. field. lra.
    + right; left. unfold s. subst. field. lra.
Qed.
Print Assumptions C47_basic_chebyshev_values.

Theorem C47_chebyshev_polynomials : forall k x,
  chebyshev_poly 0 x = 1 /\ chebyshev_poly 1 x = x
  /\ chebyshev_poly (S (S k)) x = 2 * x * chebyshev_poly (S k) x - chebyshev_poly k x
  /\ (-1 <= x <= 1 -> chebyshev_poly k x = cos (INR k * acos x)).
Proof.
  intros k x. split; [reflexivity|]. split; [reflexivity|]. split; [apply cheb_rec|]. now apply cheb_acos.
Qed.
Print Assumptions C47_chebyshev_polynomials.

(** Bounded by one on [0, limit], provided num^2 eps <= 2 (true for every num the dtype can represent
    the basis for: num <= 5000 in float32), and +-1 outside. *)
Theorem C47_basic_chebyshev_bounded : forall eps x num limit l k, 0 < eps < 1 -> 0 < limit ->
  IZR num * IZR num * eps <= 2 -> basic_chebyshev eps x num limit = Ok l -> -1 <= nth k l 0 <= 1.
Proof.
  intros eps x num limit l k He Hl Hn E. unfold basic_chebyshev in E. set (s := 2 * x / limit - 1) in *.
  destruct (Z_lt_le_dec num 1) as [L|L]; [rewrite chebyshev_err in E by exact L; discriminate|].
  destruct (chebyshev_ok eps s num L) as [l' [E' [HL Hk]]]. rewrite E' in E. cbn [bind] in E. injection E as <-.
  destruct (Rleb (Rabs s) 1) eqn:Ea; bools.
  - apply (chebyshev_bounded eps s num l' k); auto. apply Rabs_le_both in Ea. lra.
  - destruct (lt_dec k (Z.to_nat num)) as [K|K].
    2:{ rewrite nth_overflow by (rewrite map_length, seq_length; lia). lra. }
    rewrite nth_map_seq by exact K. simpl (0 + k)%nat. unfold rsign.
    destruct (Rlt_dec s 0); [destruct (pow_m1_abs k) as [-> | ->]; lra|].
    destruct (Req_EM_T s 0) as [Q|Q]; [rewrite Q, Rabs_R0 in Ea; lra|]. rewrite pow1. lra.
Qed.
Print Assumptions C47_basic_chebyshev_bounded.

Theorem C47_basic_chebyshev_outside : forall eps x num limit, 0 < limit -> (1 <= num)%Z ->
  (x < 0 -> returns_basis (basic_chebyshev eps x num limit) (Z.to_nat num) (fun k => (-1) ^ k))
  /\ (limit < x -> returns_basis (basic_chebyshev eps x num limit) (Z.to_nat num) (fun _ => 1)).
Proof.
  intros eps x num limit Hl Hn. unfold basic_chebyshev. set (s := 2 * x / limit - 1).
  destruct (chebyshev_ok eps s num Hn) as [l' [E' [HL Hk]]]. rewrite E'. cbn [bind].
  assert (limit * (s + 1) = 2 * x) as Es by (unfold s; field; lra).
  split; intros Hx.
  - assert (s < -1) by nra. destruct (Rleb (Rabs s) 1) eqn:Ea; bools; [apply Rabs_le_both in Ea; lra|].
    eexists. split; [reflexivity|]. split; [now rewrite map_length, seq_length|]. intros k K.
    rewrite nth_map_seq by exact K. unfold rsign. destruct (Rlt_dec s 0); [reflexivity|lra].
  - assert (1 < s) by nra. destruct (Rleb (Rabs s) 1) eqn:Ea; bools; [apply Rabs_le_both in Ea; lra|].
    eexists. split; [reflexivity|]. split; [now rewrite map_length, seq_length|]. intros k K.
    rewrite nth_map_seq by exact K. unfold rsign. destruct (Rlt_dec s 0); [lra|].
    destruct (Req_EM_T s 0); [lra|]. apply pow1.
Qed.
Print Assumptions C47_basic_chebyshev_outside.

Theorem C47_chebyshev_rejects : forall eps x num limit, (num < 1)%Z -> basic_chebyshev eps x num limit = Err ValueError.
Proof. intros. unfold basic_chebyshev. now rewrite chebyshev_err. Qed.
Print Assumptions C47_chebyshev_rejects.

Example C47_example : basic_chebyshev (1 / 100) (3 / 2) 4 2 = Ok [1; 1 / 2; -1 / 2; -1].
Proof.
  unfold basic_chebyshev, chebyshev. change (4 <? 1)%Z with false. change (4 =? 1)%Z with false.
  change (Z.to_nat 4) with 4%nat. cbv iota zeta. cbn [seq map bind].
  replace (2 * (3 / 2) / 2 - 1) with (1 / 2) by field.
  assert (Rleb (Rabs (1 / 2)) 1 = true) as -> by (apply Rleb_true; rewrite Rabs_right; lra).
  rewrite !chebyshev_entry_exact by (lra || (left; lra)). unfold chebyshev_poly. simpl.
  try apply ok_eq. repeat (apply cons_eq; [field|]). reflexivity.
Qed.

(** ** C48 *)

Theorem C48_triangular_window : forall x num limit, 0 < limit -> (0 < num)%nat ->
  List.length (triangular_window x num limit) = num
  /\ (forall k, (k < num)%nat ->
        0 <= nth k (triangular_window x num limit) 0 <= 1
        /\ (x <= limit * (INR k - 1) / INR num \/ limit * (INR k + 1) / INR num <= x ->
            nth k (triangular_window x num limit) 0 = 0)
        /\ (x = limit * INR k / INR num -> nth k (triangular_window x num limit) 0 = 1))
  /\ (0 <= x <= limit * INR (num - 1) / INR num -> total (triangular_window x num limit) = 1).
Proof.
  intros x num limit Hl Hn. assert (0 < INR num) as HN by now apply lt_0_INR.
  split; [apply tri_length|]. split.
  - intros k Hk. rewrite tri_val by assumption. set (t := INR num * x / limit).
    assert (limit * t = INR num * x) as Et by (unfold t; field; lra).
    split; [|split].
    + minmax.
    + intros [H|H].
      * assert (t <= INR k - 1).
        { apply Rmult_le_reg_l with limit; [exact Hl|]. rewrite Et.
          apply Rmult_le_compat_l with (r := INR num) in H; [|lra].
          replace (INR num * (limit * (INR k - 1) / INR num)) with (limit * (INR k - 1)) in H by (field; lra). lra. }
        minmax.
      * assert (INR k + 1 <= t).
        { apply Rmult_le_reg_l with limit; [exact Hl|]. rewrite Et.
          apply Rmult_le_compat_l with (r := INR num) in H; [|lra].
          replace (INR num * (limit * (INR k + 1) / INR num)) with (limit * (INR k + 1)) in H by (field; lra). lra. }
        minmax.
    + intros Q. assert (t = INR k) as Qt by (unfold t; rewrite Q; field; lra). rewrite Qt.
      rewrite Rmin_left by lra. rewrite Rmax_left by lra. ring.
  - intros Hx. rewrite tri_sum by exact Hl. pose proof (window_t x num limit Hl Hn Hx).
    set (t := INR num * x / limit) in *. unfold clamp01. minmax.
Qed.
Print Assumptions C48_triangular_window.

Theorem C48_smooth_window : forall eps x num limit, 0 < eps < 1 / 2 -> 0 < limit -> (0 < num)%nat ->
  List.length (smooth_window eps x num limit) = num
  /\ (forall k, (k < num)%nat ->
        0 <= nth k (smooth_window eps x num limit) 0 <= 1
        /\ (x <= limit * (INR k - 1) / INR num \/ limit * (INR k + 1) / INR num <= x ->
            nth k (smooth_window eps x num limit) 0 = 0)
        /\ (x = limit * INR k / INR num -> nth k (smooth_window eps x num limit) 0 = 1))
  /\ (0 <= x <= limit * INR (num - 1) / INR num -> total (smooth_window eps x num limit) = 1).
Proof.
  intros eps x num limit He Hl Hn. assert (0 < INR num) as HN by now apply lt_0_INR.
  assert (forall t, t <= 0 -> switch_val eps t = 0) as S0.
  { intros t Ht. unfold switch_val. destruct (Rlt_dec t eps); [reflexivity|lra]. }
  assert (forall t, 1 <= t -> switch_val eps t = 1) as S1.
  { intros t Ht. unfold switch_val. destruct (Rlt_dec t eps); [lra|]. destruct (Rlt_dec (1 - eps) t); [reflexivity|lra]. }
  split; [apply smooth_win_length|]. split.
  - intros k Hk. rewrite smooth_win_val by assumption. set (t := INR num * x / limit).
    assert (limit * t = INR num * x) as Et by (unfold t; field; lra).
    split; [|split].
    + pose proof (switch_val_mono eps (t - INR k) (t - INR k + 1) He ltac:(lra)).
      pose proof (switch_val_range eps (t - INR k)). pose proof (switch_val_range eps (t - INR k + 1)). lra.
    + intros [H|H].
      * assert (t <= INR k - 1).
        { apply Rmult_le_reg_l with limit; [exact Hl|]. rewrite Et.
          apply Rmult_le_compat_l with (r := INR num) in H; [|lra].
          replace (INR num * (limit * (INR k - 1) / INR num)) with (limit * (INR k - 1)) in H by (field; lra). lra. }
        rewrite !S0 by lra. ring.
      * assert (INR k + 1 <= t).
        { apply Rmult_le_reg_l with limit; [exact Hl|]. rewrite Et.
          apply Rmult_le_compat_l with (r := INR num) in H; [|lra].
          replace (INR num * (limit * (INR k + 1) / INR num)) with (limit * (INR k + 1)) in H by (field; lra). lra. }
        rewrite !S1 by lra. ring.
    + intros Q. assert (t = INR k) as Qt by (unfold t; rewrite Q; field; lra). rewrite Qt. rewrite S1, S0 by lra. ring.
  - intros Hx. rewrite smooth_win_sum by exact Hl. pose proof (window_t x num limit Hl Hn Hx).
    rewrite S1, S0 by lra. ring.
Qed.
Print Assumptions C48_smooth_window.

Theorem C48_rectangular_window : forall x num limit, 0 < limit -> (0 < num)%nat ->
  List.length (rectangular_window x num limit) = num
  /\ (forall k, (k < num)%nat ->
        (limit * INR k / INR num <= x <= limit * INR (k + 1) / INR num -> nth k (rectangular_window x num limit) 0 = 1)
        /\ (x < limit * INR k / INR num \/ limit * INR (k + 1) / INR num < x -> nth k (rectangular_window x num limit) 0 = 0))
  /\ (x < 0 \/ limit < x -> total (rectangular_window x num limit) = 0)
  /\ (0 <= x <= limit -> (forall j, (0 < j < num)%nat -> x <> limit * INR j / INR num) ->
        total (rectangular_window x num limit) = 1)
  /\ (forall j, (0 < j < num)%nat -> x = limit * INR j / INR num -> total (rectangular_window x num limit) = 2).
Proof.
  intros x num limit Hl Hn. assert (0 < INR num) as HN by now apply lt_0_INR.
  split; [apply rect_length|]. split.
  { intros k Hk. rewrite rect_val by exact Hk. split; intros H.
    - destruct (Rlt_dec x (limit * INR k / INR num)); [lra|]. destruct (Rlt_dec (limit * INR (k + 1) / INR num) x); [lra|reflexivity].
    - destruct (Rlt_dec x (limit * INR k / INR num)); [reflexivity|].
      destruct (Rlt_dec (limit * INR (k + 1) / INR num) x); [reflexivity|lra]. }
  rewrite (nth_total _ num _ (rect_length x num limit) (fun k Hk => rect_cell x num limit k Hl Hk)).
  set (t := INR num * x / limit). assert (limit * t = INR num * x) as Et by (unfold t; field; lra).
  split; [|split].
  - intros H. apply cells_outside. destruct H as [H|H]; [left|right]; nra.
  - intros Hx Hj. assert (0 <= t <= INR num) as Ht by (split; nra).
    destruct (Req_dec t 0) as [->|N0]; [now apply cells_first|].
    destruct (Req_dec t (INR num)) as [->|N1]; [now apply cells_last|].
    (* floor *)
    assert (exists j, (j < num)%nat /\ INR j <= t < INR j + 1) as [j [Hlt Hjt]].
    { assert (t < INR num) as Hlt by lra. clear - Ht Hlt Hn. clearbody t. destruct Ht as [H0 _].
      induction num as [|m IH]; [lia|].
      destruct (Rlt_dec t (INR m)) as [L|L].
      - destruct m as [|m]; [simpl in L; lra|]. destruct (IH ltac:(lia) L) as [j [A B]]. exists j. split; [lia|exact B].
      - exists m. split; [lia|]. rewrite S_INR in Hlt. lra. }
    destruct (Req_dec (INR j) t) as [Q|Q].
    + exfalso. apply (Hj j).
      * split; [|exact Hlt]. destruct j; [simpl in Q; lra|lia].
      * rewrite Q. unfold t. field. lra.
    + apply (cells_interior t num j Hlt). lra.
  - intros j Hj Hx. assert (t = INR j) as -> by (unfold t; rewrite Hx; field; lra). now apply cells_boundary.
Qed.
Print Assumptions C48_rectangular_window.

Example C48_example : triangular_window (3 / 4) 4 2 = [0; 1 / 2; 1 / 2; 0] /\ rectangular_window (3 / 4) 4 2 = [0; 1; 0; 0].
Proof.
  split.
  - apply nth_ext with (d := 0) (d' := 0); [reflexivity|].
    intros k Hk. rewrite tri_length in Hk. rewrite tri_val by (lra || exact Hk).
    change (INR 4) with (1 + 1 + 1 + 1).
    destruct k as [|[|[|[|]]]]; try lia; simpl; minmax.
  - apply nth_ext with (d := 0) (d' := 0); [reflexivity|].
    intros k Hk. rewrite rect_length in Hk. rewrite rect_cell by (lra || exact Hk).
    change (INR 4) with (1 + 1 + 1 + 1).
    destruct k as [|[|[|[|]]]]; try lia; simpl;
    repeat match goal with |- context [Rlt_dec ?a ?b] => destruct (Rlt_dec a b) end; lra.
Qed.

(** ** C49 *)

Theorem C49_gaussian : forall x num limit, 0 < limit -> (1 <= num)%Z ->
  exists f, returns_basis (basic_gaussian x num limit) (Z.to_nat num) f
    /\ forall k, (k < Z.to_nat num)%nat ->
        0 < f k <= 1
        /\ (f k = 1 <-> (num = 1%Z \/ x = limit * INR k / (IZR num - 1)))
        /\ f k = exp (- (sqrt (2 * IZR num) * (IZR num - 1)) * (x / limit - INR k / (IZR num - 1)) ^ 2).
Proof.
  intros x num limit Hl Hn. eexists. split; [now apply gaussian_ok|]. intros k Hk.
  assert (1 <= IZR num) as H1 by (apply (IZR_le 1); exact Hn).
  assert (0 < sqrt (2 * IZR num)) as Hs by (apply sqrt_lt_R0; lra).
  destruct (Z.eqb_spec num 1) as [->|N].
  - assert (forall y, exp (- (sqrt (2 * 1) * (1 - 1)) * y) = 1) as Q.
    { intros y. replace (_ * y) with 0 by ring. apply exp_0. }
    simpl Z.to_nat. rewrite !Q. split; [lra|]. split; [|reflexivity]. split; auto.
  - assert (2 <= IZR num) by (apply (IZR_le 2); lia).
    set (g := sqrt (2 * IZR num) * (IZR num - 1)). assert (0 < g) by (unfold g; nra).
    set (d := x / limit - INR k / (IZR num - 1)).
    assert (0 <= d ^ 2) by (simpl; nra).
    split; [|split; [|reflexivity]].
    + split; [apply exp_pos|]. apply exp_le_1. nra.
    + split.
      * intros E. right.
        assert (- g * d ^ 2 = 0) as Q. { apply exp_inv. now rewrite exp_0. }
        assert (d = 0) as Qd.
        { apply Rmult_integral in Q. destruct Q as [Q|Q]; [lra|]. simpl in Q. rewrite Rmult_1_r in Q.
          apply Rmult_integral in Q. tauto. }
        unfold d in Qd.
        apply Rmult_eq_reg_r with (/ limit); [|apply Rinv_neq_0_compat; lra].
        transitivity (INR k / (IZR num - 1)); [unfold Rdiv in *; lra|field; lra].
      * intros [E|E]; [contradiction|].
        assert (d = 0) as Qd by (unfold d; rewrite E; field; lra). rewrite Qd.
        replace (- g * 0 ^ 2) with 0 by (simpl; ring). apply exp_0.
Qed.
Print Assumptions C49_gaussian.

Theorem C49_fourier : forall num limit, 0 < limit -> (1 <= num)%Z ->
  exists f, (forall x, returns_basis (basic_fourier x num limit) (Z.to_nat num) (f x))
    /\ forall x k, (k < Z.to_nat num)%nat ->
        -1 <= f x k <= 1 /\ f (- x) k = f x k /\ f (x + 2 * limit) k = f x k /\ f 0 k = 1
        /\ f x k = cos (INR k * (PI / limit) * x).
Proof.
  intros num limit Hl Hn. exists (fun x k => cos (PI * INR k * (x / limit))). split.
  { intros x. now apply fourier_ok. }
  intros x k Hk. split; [apply COS_bound|]. split.
  { replace (PI * INR k * (- x / limit)) with (- (PI * INR k * (x / limit))) by (field; lra). apply cos_neg. }
  split. { replace (PI * INR k * ((x + 2 * limit) / limit)) with (PI * INR k * (x / limit) + 2 * INR k * PI) by (field; lra).
           apply cos_period. }
  split. { replace (PI * INR k * (0 / limit)) with 0 by (field; lra). apply cos_0. }
  f_equal. field. lra.
Qed.
Print Assumptions C49_fourier.

Theorem C49_sinc : forall x num limit k, 0 < limit -> (k < Z.to_nat num)%nat ->
  List.length (sinc x num limit) = Z.to_nat num
  /\ (limit < x -> nth k (sinc x num limit) 0 = 0)
  /\ (x = 0 -> nth k (sinc x num limit) 0 = 1)
  /\ (x = limit -> nth k (sinc x num limit) 0 = 0)
  /\ (x <= limit -> x <> 0 ->
      nth k (sinc x num limit) 0 = sin (INR (k + 1) * PI * (x / limit)) / (INR (k + 1) * PI * (x / limit))).
Proof.
  intros x num limit k Hl Hk.
  assert (0 < INR (k + 1)) as Hk1 by (apply lt_0_INR; lia).
  assert (x <= limit -> x / limit <= 1) as Hle.
  { intros H. apply Rmult_le_reg_r with limit; [exact Hl|]. unfold Rdiv. rewrite Rmult_assoc, Rinv_l by lra. lra. }
  split; [unfold sinc; now rewrite map_length, seq_length|]. rewrite sinc_val by exact Hk. split; [|split; [|split]].
  - intros H. destruct (Rle_dec (x / limit) 1) as [L|L]; [|reflexivity].
    apply Rmult_le_compat_r with (r := limit) in L; [|lra]. unfold Rdiv in L.
    rewrite Rmult_assoc, Rinv_l in L by lra. lra.
  - intros ->. destruct (Rle_dec (0 / limit) 1) as [L|L]; [|exfalso; apply L, Hle; lra].
    unfold sinc1. destruct (Req_EM_T _ 0) as [E|E]; [reflexivity|]. exfalso. apply E. field. lra.
  - intros ->. destruct (Rle_dec (limit / limit) 1) as [L|L]; [|reflexivity].
    unfold sinc1. replace (INR (k + 1) * (limit / limit)) with (INR (k + 1)) by (field; lra).
    destruct (Req_EM_T (INR (k + 1)) 0) as [E|E]; [lra|].
    replace (sin (PI * INR (k + 1))) with 0; [unfold Rdiv; ring|].
    rewrite Rmult_comm. rewrite INR_IZR_INZ. symmetry. apply sin_eq_0_1. now exists (Z.of_nat (k + 1)).
  - intros H N. destruct (Rle_dec (x / limit) 1) as [L|L]; [|exfalso; apply L, Hle; lra].
    assert (x / limit <> 0). { intro Q. apply N. replace x with (x / limit * limit) by (field; lra). rewrite Q. ring. }
    unfold sinc1. destruct (Req_EM_T _ 0) as [E|E].
    { exfalso. apply Rmult_integral in E. destruct E; [lra|contradiction]. }
    replace (PI * (INR (k + 1) * (x / limit))) with (INR (k + 1) * PI * (x / limit)) by ring. reflexivity.
Qed.
Print Assumptions C49_sinc.

Theorem C49_rejects : forall x num limit, (num < 1)%Z ->
  basic_gaussian x num limit = Err ValueError /\ basic_fourier x num limit = Err ValueError.
Proof.
  intros. unfold basic_gaussian, basic_fourier, gaussian, fourier.
  destruct (Z.ltb_spec num 1); [auto|lia].
Qed.
Print Assumptions C49_rejects.

Example C49_example : basic_fourier 1 3 2 = Ok [1; 0; -1] /\ sinc 1 1 2 = [2 / PI].
Proof.
  split.
  - unfold basic_fourier, fourier. change (3 <? 1)%Z with false. change (Z.to_nat 3) with 3%nat. cbn [seq map].
    cbn [INR].
    replace (PI * 0 * (1 / 2)) with 0 by field. replace (PI * 1 * (1 / 2)) with (PI / 2) by field.
    replace (PI * (1 + 1) * (1 / 2)) with PI by field. now rewrite cos_0, cos_PI2, cos_PI.
  - unfold sinc. change (Z.to_nat 1) with 1%nat. cbn [seq map]. unfold Rleb. destruct (Rle_dec (1 / 2) 1); [|lra].
    unfold sinc1. cbn [INR]. destruct (Req_EM_T (1 * (1 / 2)) 0); [lra|].
    replace (PI * (1 * (1 / 2))) with (PI / 2) by field. rewrite sin_PI2. f_equal. field. apply PI_neq0.
Qed.

(** ** C57 *)

Theorem C57_inverse_softplus : (forall x, 0 < x -> softplus (inverse_softplus x) = x)
  /\ (forall y, 0 < softplus y /\ inverse_softplus (softplus y) = y).
Proof.
  split; [exact inverse_softplus_right|]. intros y. split; [apply softplus_pos|apply inverse_softplus_left].
Qed.
Print Assumptions C57_inverse_softplus.

Example C57_example : inverse_softplus (ln 2) = 0.
Proof.
  transitivity (inverse_softplus (softplus 0)); [|apply inverse_softplus_left].
  unfold softplus. rewrite exp_0. replace (1 + 1) with 2 by ring. reflexivity.
Qed.

(** ** C62 *)

(** Functions that compute their documented formula. *)
Theorem C62_documented_formulas :
  (forall x c, 0 < c -> smooth_cutoff x c = Ok (doc_smooth_cutoff c x) /\ cosine_cutoff x c = Ok (doc_cosine_cutoff c x))
  /\ (forall x gamma, 0 < gamma -> 0 < x -> smooth_damping x gamma = doc_smooth_damping gamma x)
  /\ (forall x gamma cuspless, exponential_mapping x gamma cuspless = doc_exponential_mapping gamma cuspless x)
  /\ (forall eps x kind m, 0 < eps -> 0 <= x -> (kind = "damped"%string -> eps <= x) ->
        (reciprocal_mapping eps x kind = Ok m <-> doc_reciprocal_mapping kind x = Some m))
  /\ (forall x num limit, 0 < limit -> (1 <= num)%Z ->
        returns_basis (basic_fourier x num limit) (Z.to_nat num) (fun k => doc_fourier limit k x))
  /\ (forall x num, (2 <= num)%Z ->
        returns_basis (basic_gaussian x num 1) (Z.to_nat num) (fun k => doc_gaussian (Z.to_nat num) 1 k x)).
Proof.
  split. { intros x c Hc. split; [now apply smooth_cutoff_doc|now apply cosine_cutoff_doc]. }
  split. { intros x g Hg Hx. apply damping_doc. nra. }
  split. { intros x g [|]; reflexivity. }
  split.
  { intros eps x kind m He Hx Hd.
    destruct (String.eqb_spec kind "shifted") as [K|N1];
      [|destruct (String.eqb_spec kind "damped") as [K|N2];
      [|destruct (String.eqb_spec kind "cuspless") as [K|N3]]].
    - assert (valid_kind kind) as V by (left; exact K).
      rewrite (recip_ok eps x kind V), (recip_doc eps kind x He Hx V Hd). split; intros Q; injection Q as <-; reflexivity.
    - assert (valid_kind kind) as V by (right; left; exact K).
      rewrite (recip_ok eps x kind V), (recip_doc eps kind x He Hx V Hd). split; intros Q; injection Q as <-; reflexivity.
    - assert (valid_kind kind) as V by (right; right; exact K).
      rewrite (recip_ok eps x kind V), (recip_doc eps kind x He Hx V Hd). split; intros Q; injection Q as <-; reflexivity.
    - rewrite recip_err. 2:{ intros [K|[K|K]]; contradiction. }
      unfold doc_reciprocal_mapping.
      destruct (String.eqb_spec kind "shifted"); [contradiction|].
      destruct (String.eqb_spec kind "damped"); [contradiction|].
      destruct (String.eqb_spec kind "cuspless"); [contradiction|]. split; discriminate. }
  split.
  { intros x num limit Hl Hn. destruct (fourier_ok (x / limit) num Hn) as [l [E [L Q]]].
    exists l. split; [exact E|]. split; [exact L|]. intros k Hk. rewrite Q by exact Hk.
    unfold doc_fourier. f_equal. field. lra. }
  intros x num Hn. destruct (gaussian_ok (x / 1) num ltac:(lia)) as [l [E [L Q]]].
  exists l. split; [exact E|]. split; [exact L|]. intros k Hk. rewrite Q by exact Hk.
  destruct (Z.eqb_spec num 1); [lia|]. unfold doc_gaussian.
  rewrite !INR_IZR_INZ, !Z2Nat.id by lia.
  assert (2 <= IZR num) by (apply (IZR_le 2); lia).
  f_equal. field. lra.
Qed.
Print Assumptions C62_documented_formulas.

(** Near zero, the 'damped' mapping is replaced by its Taylor polynomial, with this error. *)
Theorem C62_damped_taylor_error : forall eps x m, 0 < eps -> 0 < x -> reciprocal_mapping eps x "damped" = Ok m ->
  0 <= m - (1 - exp (- x)) / x <= eps * eps * eps / 24.
Proof.
  intros eps x m He Hx E. rewrite recip_ok in E by (right; left; reflexivity). injection E as <-.
  unfold recip_val. simpl. fold (damped x). destruct (Rlt_dec x eps).
  - pose proof (damped_taylor_err x Hx). pose proof (cube_le x eps ltac:(lra) ltac:(lra)). lra.
  - pose proof (cube_le 0 eps ltac:(lra) ltac:(lra)). lra.
Qed.
Print Assumptions C62_damped_taylor_error.

(** The reciprocal and exponential bases are the basic ones (limit 1) at the mapped variable,
    optionally multiplied by the mapping. *)
Definition composed (outer : result (list R)) (m : R) (w : bool) (inner : result (list R)) : Prop :=
  match inner with
  | Err e => outer = Err e
  | Ok li => exists lo, outer = Ok lo /\ List.length lo = List.length li
                        /\ forall k, nth k lo 0 = (if w then m else 1) * nth k li 0
  end.

Lemma composed_weighted m w inner : composed (rmap (weighted w m) inner) m w inner.
Proof.
  destruct inner as [li|e]; simpl; [|reflexivity]. exists (weighted w m li). split; [reflexivity|]. split.
  - unfold weighted. destruct w; [apply map_length|reflexivity].
  - intros k. apply weighted_nth.
Qed.

Lemma basic_chebyshev_unit eps m num : 0 <= m <= 1 -> basic_chebyshev eps m num 1 = chebyshev eps (2 * m - 1) num.
Proof.
  intros Hm. unfold basic_chebyshev. replace (2 * m / 1 - 1) with (2 * m - 1) by field.
  destruct (chebyshev eps (2 * m - 1) num); [|reflexivity]. cbn [bind].
  assert (Rleb (Rabs (2 * m - 1)) 1 = true) as -> by (apply Rleb_true, Rabs_le; lra). reflexivity.
Qed.

Theorem C62_mapped_bases : forall eps x num kind w gamma cuspless, 0 < eps < 1 / 2 -> 0 <= x -> 0 < gamma ->
  (forall m, reciprocal_mapping eps x kind = Ok m ->
     composed (reciprocal_bernstein eps x num kind w) m w (basic_bernstein eps (1 - m) num 1)
     /\ composed (reciprocal_chebyshev eps x num kind w) m w (basic_chebyshev eps m num 1)
     /\ composed (reciprocal_gaussian eps x num kind w) m w (basic_gaussian (1 - m) num 1)
     /\ composed (reciprocal_fourier eps x num kind w) m w (basic_fourier (1 - m) num 1))
  /\ (forall e, reciprocal_mapping eps x kind = Err e ->
       reciprocal_bernstein eps x num kind w = Err e /\ reciprocal_chebyshev eps x num kind w = Err e
       /\ reciprocal_gaussian eps x num kind w = Err e /\ reciprocal_fourier eps x num kind w = Err e)
  /\ (let m := exponential_mapping x gamma cuspless in
      composed (exponential_bernstein eps x num gamma cuspless w) m w (basic_bernstein eps (1 - m) num 1)
      /\ composed (exponential_chebyshev eps x num gamma cuspless w) m w (basic_chebyshev eps m num 1)
      /\ composed (exponential_gaussian x num gamma cuspless w) m w (basic_gaussian (1 - m) num 1)
      /\ composed (exponential_fourier x num gamma cuspless w) m w (basic_fourier (1 - m) num 1)).
Proof.
  intros eps x num kind w gamma cuspless He Hx Hg. split; [|split].
  - intros m E.
    assert (0 <= m <= 1) as Hm.
    { destruct (String.eqb_spec kind "shifted") as [K|N1];
      [|destruct (String.eqb_spec kind "damped") as [K|N2];
      [|destruct (String.eqb_spec kind "cuspless") as [K|N3]]].
      4:{ rewrite recip_err in E; [discriminate|]. intros [K|[K|K]]; contradiction. }
      all: destruct (C44_reciprocal_mapping eps kind He ltac:(tauto)) as [f [Ef [_ [Hr _]]]];
        rewrite Ef in E; injection E as <-; specialize (Hr x Hx); lra. }
    unfold reciprocal_bernstein, reciprocal_chebyshev, reciprocal_gaussian, reciprocal_fourier.
    rewrite E. cbn [bind]. rewrite (basic_chebyshev_unit eps m num Hm).
    unfold basic_bernstein, basic_gaussian, basic_fourier.
    replace ((1 - m) / 1) with (1 - m) by field. repeat split; apply composed_weighted.
  - intros e E. unfold reciprocal_bernstein, reciprocal_chebyshev, reciprocal_gaussian, reciprocal_fourier.
    rewrite E. auto.
  - set (m := exponential_mapping x gamma cuspless). cbv zeta.
    assert (0 <= m <= 1) as Hm.
    { destruct (C44_exponential_mapping gamma cuspless Hg) as [_ [Hr _]]. specialize (Hr x Hx). unfold m. lra. }
    rewrite (basic_chebyshev_unit eps m num Hm).
    unfold basic_bernstein, basic_gaussian, basic_fourier.
    replace ((1 - m) / 1) with (1 - m) by field. repeat split; apply composed_weighted.
Qed.
Print Assumptions C62_mapped_bases.

(** Docstrings that do not describe the implementation. *)
Theorem C62_smooth_switch_formula_refuted : forall eps, 0 < eps < 1 / 2 ->
  exists v, smooth_switch eps (1 / 2) 0 1 = Ok v /\ v <> doc_smooth_switch 0 1 (1 / 2).
Proof.
  intros eps He. eexists. split; [apply smooth_switch_val; lra|].
  replace ((1 / 2 - 0) / (1 - 0)) with (1 / 2) by field.
  unfold switch_val, doc_smooth_switch, sw.
  destruct (Rlt_dec (1 / 2) eps); [lra|]. destruct (Rlt_dec (1 - eps) (1 / 2)); [lra|].
  destruct (Rle_dec (1 / 2) 0); [lra|]. destruct (Rle_dec 1 (1 / 2)); [lra|].
  replace (sqrt 3 / 2 * (1 / (1 / 2) - 1 / (1 - 1 / 2))) with 0 by field. rewrite exp_0.
  replace (sqrt 3 / 2 * ((1 - 0) / (1 / 2 - 0) - (1 - 0) / (1 / 2 - 1))) with (sqrt 3 / 2 * 4) by field.
  pose proof slope_pos. intro Q. apply (f_equal Rinv) in Q. rewrite !Rinv_inv in Q.
  assert (exp 0 < exp (sqrt 3 / 2 * 4)) by (apply exp_increasing; lra). rewrite exp_0 in *. lra.
Qed.
Print Assumptions C62_smooth_switch_formula_refuted.

Theorem C62_other_docstrings_refuted : forall eps, 0 < eps < 1 / 2 ->
  (exists l, basic_gaussian 0 2 2 = Ok l /\ nth 1 l 0 <> doc_gaussian 2 2 1 0)
  /\ nth 1 (sinc (1 / 4) 2 1) 0 <> doc_sinc 1 1 (1 / 4)
  /\ nth 0 (triangular_window 0 1 1) 0 <> doc_triangular_window 1 1 0 0
  /\ (exists l, basic_bernstein eps (-1) 2 1 = Ok l /\ nth 0 l 0 <> doc_basic_bernstein 2 1 0 (-1)).
Proof.
  intros eps He. split; [|split; [|split]].
  - destruct (gaussian_ok (0 / 2) 2 ltac:(lia)) as [l [E [_ H]]]. exists l. split; [exact E|].
    rewrite H by (simpl; lia). change (2 =? 1)%Z with false. cbv iota. unfold doc_gaussian.
    change (INR 1) with 1. change (INR 2) with 2. intro Q. apply exp_inv in Q.
    replace (2 * 2) with (2 ^ 2) in Q by (simpl; ring).
    replace (sqrt (2 ^ 2)) with 2 in Q by (symmetry; apply sqrt_pow2; lra).
    field_simplify in Q. lra.
  - rewrite sinc_val by (simpl; lia). unfold doc_sinc. simpl (1 + 1)%nat. change (INR 2) with 2.
    destruct (Rle_dec (1 / 4 / 1) 1); [|lra]. destruct (Rle_dec (1 / 4) 1); [|lra].
    unfold sinc1. destruct (Req_EM_T (2 * (1 / 4 / 1)) 0); [lra|].
    replace (PI * (2 * (1 / 4 / 1))) with (PI / 2) by field. replace (2 * PI * (1 / 4)) with (PI / 2) by field.
    rewrite sin_PI2. pose proof PI_RGT_0. intro Q.
    assert (1 / (PI / 2) * (PI * (1 / 4)) = 1 / (PI * (1 / 4)) * (PI * (1 / 4))) as Q2 by now rewrite Q.
    replace (1 / (PI / 2) * (PI * (1 / 4))) with (1 / 2) in Q2 by (field; lra).
    replace (1 / (PI * (1 / 4)) * (PI * (1 / 4))) with 1 in Q2 by (field; lra). lra.
  - rewrite tri_val by (lra || lia). unfold doc_triangular_window. simpl.
    minmax.
  - unfold basic_bernstein. destruct (bernstein_ok eps (-1 / 1) 2 ltac:(lia)) as [l [E [_ H]]].
    exists l. split; [exact E|]. rewrite H by (simpl; lia). change (2 =? 1)%Z with false. cbv iota.
    rewrite bernstein_entry_low by lra. simpl. unfold doc_basic_bernstein. destruct (Rlt_dec (-1) 0); lra.
Qed.
Print Assumptions C62_other_docstrings_refuted.

Example C62_example : exists l, reciprocal_fourier (1 / 100) 1 2 "shifted" true = Ok l /\ l = [1 / 2; 0].
Proof.
  eexists. split; [reflexivity|]. simpl. cbn [INR].
  replace (PI * 0 * (1 - 1 / (1 + 1))) with 0 by field.
  replace (PI * 1 * (1 - 1 / (1 + 1))) with (PI / 2) by field. rewrite cos_0, cos_PI2.
  try apply ok_eq. repeat (apply cons_eq; [field|]). reflexivity.
Qed.
