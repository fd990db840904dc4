(** C79: which functions of the package meet the conditions of C76-C78. *)
Require Import Reals ZArith Bool String List Lia Lra.
Require Import Verif.Base Verif.Features_Model Verif.Features_Spec Verif.Radial_Model Verif.Radial_Spec Verif.Radial_Proofs Verif.Radial_Props Verif.Activations_Model Verif.Activations_Proofs Verif.Smooth Verif.Regular_Spec Verif.Regular_Class_Proofs Verif.Regular_Props.
Import ListNotations.
Open Scope R_scope.

(** * Smooth functions *)

Lemma sp_of_id : forall f, infinitely_differentiable f -> smooth_positive f.
Proof. intros f H n. apply tdp_of_td, H. Qed.
Lemma sp_const : forall c, smooth_positive (fun _ => c).
Proof. intros c. apply sp_of_id, id_const. Qed.
Lemma sp_id : smooth_positive (fun x => x).
Proof. apply sp_of_id, id_id. Qed.
Lemma sp_plus : forall f g, smooth_positive f -> smooth_positive g -> smooth_positive (fun r => f r + g r).
Proof. intros f g H1 H2 n. now apply tdp_plus. Qed.
Lemma sp_mult : forall f g, smooth_positive f -> smooth_positive g -> smooth_positive (fun r => f r * g r).
Proof. intros f g H1 H2 n. now apply tdp_mult. Qed.
Lemma sp_ext : forall f g, (forall r, 0 < r -> f r = g r) -> smooth_positive f -> smooth_positive g.
Proof. intros f g E H n. now apply (tdp_ext n f). Qed.
Lemma sp_comp : forall f g, infinitely_differentiable f -> smooth_positive g -> smooth_positive (fun r => f (g r)).
Proof. intros f g H1 H2 n. now apply tdp_comp. Qed.
Lemma sp_comp_positive : forall f g, smooth_positive f -> smooth_positive g -> (forall r, 0 < r -> 0 < g r) -> smooth_positive (fun r => f (g r)).
Proof. intros f g H1 H2 H3 n. now apply tdp_comp_positive. Qed.
Lemma sp_opp : forall f, smooth_positive f -> smooth_positive (fun r => - f r).
Proof. intros f H. apply (sp_ext (fun r => -1 * f r)); [intros; ring|]. apply sp_mult; [apply sp_const|exact H]. Qed.
Lemma sp_minus : forall f g, smooth_positive f -> smooth_positive g -> smooth_positive (fun r => f r - g r).
Proof. intros f g H1 H2. apply sp_plus; [exact H1|]. now apply sp_opp. Qed.
Lemma sp_exp : forall f, smooth_positive f -> smooth_positive (fun r => exp (f r)).
Proof. intros f H. apply (sp_comp exp f); [apply id_exp|exact H]. Qed.
Lemma sp_inv : forall f, smooth_positive f -> (forall r, 0 < r -> 0 < f r) -> smooth_positive (fun r => / f r).
Proof. intros f H P. apply (sp_comp_positive Rinv f); [intros n; apply tdp_inv|exact H|exact P]. Qed.
Lemma sp_ln : forall f, smooth_positive f -> (forall r, 0 < r -> 0 < f r) -> smooth_positive (fun r => ln (f r)).
Proof.
  intros f H P. apply (sp_comp_positive ln f); [|exact H|exact P]. intros [|n]; [exact I|]. exists Rinv. split; [|apply tdp_inv]. intros r Hr. now apply derivable_pt_lim_ln.
Qed.
Lemma td_sin_cos : forall n, times_differentiable n sin /\ times_differentiable n cos.
Proof.
  induction n as [|n [I1 I2]]; [split; exact I|]. split.
  - exists cos. split; [intros x; apply derivable_pt_lim_sin|exact I2].
  - exists (fun x => -1 * sin x). split; [intros x; replace (-1 * sin x) with (- sin x) by ring; apply derivable_pt_lim_cos|]. apply td_mult; [apply td_const|exact I1].
Qed.
Lemma sp_cos : forall f, smooth_positive f -> smooth_positive (fun r => cos (f r)).
Proof. intros f H. refine (sp_comp cos f _ H). intros n. exact (proj2 (td_sin_cos n)). Qed.
Lemma sp_pow : forall (f : R -> R) (k : nat), smooth_positive f -> smooth_positive (fun r => f r ^ k).
Proof. intros f k H. induction k as [|k IH]; [exact (sp_const 1)|]. exact (sp_mult _ _ H IH). Qed.
Lemma sp_scaled : forall c, smooth_positive (fun r => r / c).
Proof. intros c. exact (sp_mult (fun r => r) (fun _ => / c) sp_id (sp_const _)). Qed.

Lemma id_opp : infinitely_differentiable (fun x => - x).
Proof. apply (id_ext (fun x => -1 * x)); [intros; ring|]. apply id_mult; [apply id_const|apply id_id]. Qed.
Lemma id_ln : forall f, (forall x, 0 < f x) -> infinitely_differentiable f -> infinitely_differentiable (fun x => ln (f x)).
Proof.
  intros f P H [|n]; [exact I|]. destruct (H (S n)) as [f' [H1 H2]]. exists (fun x => / f x * f' x). split.
  - intros x. apply (derivable_pt_lim_comp f ln); [apply H1|now apply derivable_pt_lim_ln].
  - apply td_mult; [|exact H2]. apply td_inv; [intros x; specialize (P x); lra|apply H].
Qed.
Lemma id_exp_opp : infinitely_differentiable (fun x => exp (- x)).
Proof. apply (id_comp exp (fun x => - x)); [apply id_exp|apply id_opp]. Qed.
Lemma id_tanh : infinitely_differentiable tanh.
Proof.
  assert (P : forall x, exp x * / 2 + exp (- x) * / 2 <> 0) by (intros x; pose proof (exp_pos x); pose proof (exp_pos (- x)); lra).
  apply (id_ext (fun x => (exp x * / 2 + -1 * (exp (- x) * / 2)) * / (exp x * / 2 + exp (- x) * / 2))).
  - intros x. unfold tanh, sinh, cosh, Rdiv. f_equal; [ring|]. f_equal. ring.
  - apply id_mult.
    + apply id_plus; [apply id_mult; [apply id_exp|apply id_const]|]. apply id_mult; [apply id_const|]. apply id_mult; [apply id_exp_opp|apply id_const].
    + apply id_inv; [exact P|]. apply id_plus; apply id_mult; first [apply id_exp|apply id_exp_opp|apply id_const].
Qed.
Lemma id_softplus : infinitely_differentiable jsoftplus.
Proof.
  apply (id_ln (fun x => exp x + exp 0)); [intros x; pose proof (exp_pos x); pose proof (exp_pos 0); lra|]. apply id_plus; [apply id_exp|apply id_const].
Qed.

(** * Functions of the distance *)

Definition smooth_basis (l : R -> list R) : Prop := forall k, smooth_positive (fun r => nth k (l r) 0).

Lemma nth_seq_map : forall (h : nat -> R) a n k, nth k (map h (seq a n)) 0 = if (k <? n)%nat then h (a + k)%nat else 0.
Proof.
  intros h a n k. destruct (Nat.ltb_spec k n).
  - rewrite (nth_indep _ 0 (h 0%nat)) by (rewrite map_length, seq_length; lia). rewrite map_nth, seq_nth by lia. reflexivity.
  - apply nth_overflow. rewrite map_length, seq_length. lia.
Qed.
Lemma basis_map : forall (h : R -> nat -> R) a n, (forall k, (k < n)%nat -> smooth_positive (fun r => h r (a + k)%nat)) -> smooth_basis (fun r => map (h r) (seq a n)).
Proof.
  intros h a n H k. destruct (Nat.ltb_spec k n) as [L|L].
  - apply (sp_ext (fun r => h r (a + k)%nat)); [|now apply H]. intros r _. rewrite nth_seq_map. destruct (Nat.ltb_spec k n); [reflexivity|lia].
  - apply (sp_ext (fun _ => 0)); [|apply sp_const]. intros r _. rewrite nth_seq_map. destruct (Nat.ltb_spec k n); [lia|reflexivity].
Qed.
Lemma basis_weighted : forall w m l, smooth_positive m -> smooth_basis l -> smooth_basis (fun r => weighted w (m r) (l r)).
Proof.
  intros w m l Hm Hl k. destruct w; [|apply Hl]. apply (sp_ext (fun r => nth k (l r) 0 * m r)); [|apply sp_mult; [apply Hl|exact Hm]].
  intros r _. cbn [weighted]. generalize (l r) as a. clear. induction k; intros [|y a]; cbn [map nth]; try ring. apply IHk.
Qed.

Lemma exponential_mapping_smooth : forall gamma cuspless, smooth_positive (fun r => exponential_mapping r gamma cuspless).
Proof.
  intros g c. unfold exponential_mapping. apply sp_exp, sp_mult; [apply sp_const|]. destruct c; [|apply sp_id].
  apply sp_minus; [apply sp_plus; [apply sp_id|apply sp_exp, sp_opp, sp_id]|apply sp_const].
Qed.
Lemma reciprocal_mapping_smooth : forall eps kind, In kind ["shifted"; "cuspless"]%string ->
  exists m, (forall x, reciprocal_mapping eps x kind = Ok (m x)) /\ smooth_positive m /\ forall r, 0 < r -> 0 < m r < 1.
Proof.
  intros eps kind [<-|[<-|[]]]; eexists; (split; [intros x; reflexivity|split]); unfold Rdiv.
  - apply sp_mult; [apply sp_const|]. apply sp_inv; [apply sp_plus; [apply sp_id|apply sp_const]|intros; lra].
  - intros r Hr. rewrite Rmult_1_l. split; [apply Rinv_0_lt_compat; lra|]. rewrite <- Rinv_1. apply Rinv_1_lt_contravar; lra.
  - apply sp_mult; [apply sp_const|]. apply sp_inv; [apply sp_plus; [apply sp_id|apply sp_exp, sp_opp, sp_id]|]. intros r Hr. pose proof (exp_pos (- r)). lra.
  - intros r Hr. rewrite Rmult_1_l. assert (1 < r + exp (- r)). { pose proof (exp_ineq1 (- r) ltac:(lra)). lra. }
    split; [apply Rinv_0_lt_compat; lra|]. rewrite <- Rinv_1. apply Rinv_1_lt_contravar; lra.
Qed.
Lemma gaussian_smooth : forall y num, (1 <= num)%Z -> smooth_positive y -> exists l, (forall r, gaussian (y r) num = Ok (l r)) /\ smooth_basis l.
Proof.
  intros y num Hn Hy. eexists. split.
  - intros r. unfold gaussian. destruct (Z.ltb_spec num 1); [lia|]. reflexivity.
  - cbn beta. apply (basis_map (fun r k => exp (- (sqrt (2 * IZR num) * (IZR num - 1)) * (y r - (if (num =? 1)%Z then 0 else INR k / (IZR num - 1))) ^ 2))).
    intros k _. apply sp_exp, sp_mult; [apply sp_const|]. apply sp_pow, sp_minus; [exact Hy|apply sp_const].
Qed.
Lemma fourier_smooth : forall y num, (1 <= num)%Z -> smooth_positive y -> exists l, (forall r, fourier (y r) num = Ok (l r)) /\ smooth_basis l.
Proof.
  intros y num Hn Hy. eexists. split.
  - intros r. unfold fourier. destruct (Z.ltb_spec num 1); [lia|]. reflexivity.
  - cbn beta. apply (basis_map (fun r k => cos (PI * INR k * y r))). intros k _. apply sp_cos, sp_mult; [apply sp_const|exact Hy].
Qed.

(** The cutoff, damping, mappings, Gaussians and Fourier functions are smooth functions of the distance. *)
Theorem C79_cutoff_smooth : forall c, 0 < c -> exists f, (forall x, smooth_cutoff x c = Ok (f x)) /\ smooth_positive f.
Proof. exact smooth_cutoff_positive. Qed.
Print Assumptions C79_cutoff_smooth.

Theorem C79_damping_smooth : forall gamma, 0 < gamma -> smooth_positive (fun r => smooth_damping r gamma).
Proof.
  intros g Hg. assert (D : forall r, 0 < r -> 0 < 1 - exp (- g * r)).
  { intros r Hr. pose proof (exp_increasing (- g * r) 0 ltac:(nra)) as X. rewrite exp_0 in X. lra. }
  apply (sp_ext (fun r => exp (- exp (- g * r) * / (1 - exp (- g * r))))).
  - intros r Hr. specialize (D r Hr). unfold smooth_damping, Rltb. destruct (Rlt_dec 0 ((1 - exp (- g * r)) * (1 - exp (- g * r)))) as [_|N]; [reflexivity|]. exfalso. apply N. nra.
  - assert (E : smooth_positive (fun r => exp (- g * r))) by (apply sp_exp, sp_mult; [apply sp_const|apply sp_id]).
    apply sp_exp, sp_mult; [now apply sp_opp|]. apply sp_inv; [apply sp_minus; [apply sp_const|exact E]|exact D].
Qed.
Print Assumptions C79_damping_smooth.

Theorem C79_radial_smooth : forall num, (1 <= num)%Z ->
  (forall limit, exists l, (forall r, basic_gaussian r num limit = Ok (l r)) /\ smooth_basis l)
  /\ (forall limit, exists l, (forall r, basic_fourier r num limit = Ok (l r)) /\ smooth_basis l)
  /\ (forall gamma cuspless weighting, exists l, (forall r, exponential_gaussian r num gamma cuspless weighting = Ok (l r)) /\ smooth_basis l)
  /\ (forall gamma cuspless weighting, exists l, (forall r, exponential_fourier r num gamma cuspless weighting = Ok (l r)) /\ smooth_basis l)
  /\ (forall eps kind weighting, In kind ["shifted"; "cuspless"]%string -> exists l, (forall r, reciprocal_gaussian eps r num kind weighting = Ok (l r)) /\ smooth_basis l)
  /\ (forall eps kind weighting, In kind ["shifted"; "cuspless"]%string -> exists l, (forall r, reciprocal_fourier eps r num kind weighting = Ok (l r)) /\ smooth_basis l).
Proof.
  intros num Hn.
  assert (W : forall (B : R -> Z -> result (list R)) (m : R -> R) w, (forall y, smooth_positive y -> exists l, (forall r, B (y r) num = Ok (l r)) /\ smooth_basis l) -> smooth_positive m ->
    exists l, (forall r, rmap (weighted w (m r)) (B (1 - m r) num) = Ok (l r)) /\ smooth_basis l).
  { intros B m w HB Hm. destruct (HB (fun r => 1 - m r)) as [l [H1 H2]]; [apply sp_minus; [apply sp_const|exact Hm]|].
    exists (fun r => weighted w (m r) (l r)). split; [intros r; now rewrite H1|]. now apply basis_weighted. }
  split; [|split; [|split; [|split; [|split]]]].
  - intros limit. apply (gaussian_smooth (fun r => r / limit) num Hn), sp_scaled.
  - intros limit. apply (fourier_smooth (fun r => r / limit) num Hn), sp_scaled.
  - intros g c w. apply (W gaussian (fun r => exponential_mapping r g c) w); [intros y; now apply gaussian_smooth|apply exponential_mapping_smooth].
  - intros g c w. apply (W fourier (fun r => exponential_mapping r g c) w); [intros y; now apply fourier_smooth|apply exponential_mapping_smooth].
  - intros eps kind w Hk. destruct (reciprocal_mapping_smooth eps kind Hk) as [m [H1 [H2 _]]]. destruct (W gaussian m w) as [l [L1 L2]]; [intros y; now apply gaussian_smooth|exact H2|].
    exists l. split; [|exact L2]. intros r. unfold reciprocal_gaussian. rewrite H1. apply L1.
  - intros eps kind w Hk. destruct (reciprocal_mapping_smooth eps kind Hk) as [m [H1 [H2 _]]]. destruct (W fourier m w) as [l [L1 L2]]; [intros y; now apply fourier_smooth|exact H2|].
    exists l. split; [|exact L2]. intros r. unfold reciprocal_fourier. rewrite H1. apply L1.
Qed.
Print Assumptions C79_radial_smooth.

(** ** Bernstein and Chebyshev polynomials of a mapped distance

    The code replaces values closer than [eps] (the rounding unit) to the ends of the interval by limits; the statements
    are about exact arithmetic, [eps] = 0. *)

Lemma exponential_mapping_range : forall gamma cuspless r, 0 < gamma -> 0 < r -> 0 < exponential_mapping r gamma cuspless < 1.
Proof.
  intros g c r Hg Hr. unfold exponential_mapping. split; [apply exp_pos|]. apply Rlt_le_trans with (exp 0); [|rewrite exp_0; lra]. apply exp_increasing. cbv zeta. destruct c; [|nra].
  assert (X : 0 < r + exp (- r) - 1) by (pose proof (exp_ineq1 (- r) ltac:(lra)); lra). pose proof (Rmult_lt_0_compat _ _ Hg X). lra.
Qed.
Lemma damped_smooth : exists m, (forall r, 0 < r -> reciprocal_mapping 0 r "damped" = Ok (m r)) /\ smooth_positive m /\ forall r, 0 < r -> 0 < m r < 1.
Proof.
  exists (fun r => (1 - exp (- r)) * / r). split; [|split].
  - intros r Hr. unfold reciprocal_mapping. cbn. f_equal. unfold Rltb. destruct (Rlt_dec r 0); [lra|]. unfold expm1, Rdiv. ring.
  - apply sp_mult; [apply sp_minus; [apply sp_const|apply sp_exp, sp_opp, sp_id]|]. apply sp_inv; [apply sp_id|auto].
  - intros r Hr. pose proof (exp_ineq1 (- r) ltac:(lra)) as X. pose proof (exp_increasing (- r) 0 ltac:(lra)) as Y. rewrite exp_0 in Y. split.
    + apply Rmult_lt_0_compat; [lra|now apply Rinv_0_lt_compat].
    + apply (Rmult_lt_reg_r r); [exact Hr|]. rewrite Rmult_assoc, Rinv_l by lra. lra.
Qed.
Lemma bernstein_smooth : forall y num, (1 <= num)%Z -> smooth_positive y -> (forall r, 0 < r -> 0 < y r < 1) -> exists l, (forall r, 0 < r -> bernstein 0 (y r) num = Ok (l r)) /\ smooth_basis l.
Proof.
  intros y num Hn Hy P. destruct (Z.eqb_spec num 1) as [->|N1].
  - exists (fun _ => [1]). split; [intros r _; reflexivity|]. intros k. apply sp_const.
  - set (n := Z.to_nat (num - 1)). exists (fun r => map (fun v => exp (binomln n v + INR v * ln (y r) + INR (n - v) * ln (1 - y r))) (seq 0 (n + 1))). split.
    + intros r Hr. specialize (P r Hr). unfold bernstein. destruct (Z.ltb_spec num 1); [lia|]. destruct (Z.eqb_spec num 1); [contradiction|]. fold n. f_equal. apply map_ext. intros v.
      unfold bernstein_entry, Rltb. destruct (Rlt_dec (y r) 0); [lra|]. destruct (Rlt_dec (1 - 0) (y r)); [lra|]. cbn [orb andb]. unfold log1p. reflexivity.
    + apply (basis_map (fun r v => exp (binomln n v + INR v * ln (y r) + INR (n - v) * ln (1 - y r)))). intros k _. apply sp_exp, sp_plus; [apply sp_plus; [apply sp_const|]|]; (apply sp_mult; [apply sp_const|]).
      * apply sp_ln; [exact Hy|]. intros r Hr. now apply P.
      * apply sp_ln; [apply sp_minus; [apply sp_const|exact Hy]|]. intros r Hr. specialize (P r Hr). lra.
Qed.
Lemma chebyshev_smooth : forall y num, (1 <= num)%Z -> smooth_positive y -> (forall r, 0 < r -> -1 < y r < 1) -> exists l, (forall r, 0 < r -> chebyshev 0 (y r) num = Ok (l r)) /\ smooth_basis l.
Proof.
  intros y num Hn Hy P. destruct (Z.eqb_spec num 1) as [->|N1].
  - exists (fun _ => [1]). split; [intros r _; reflexivity|]. intros k. apply sp_const.
  - exists (fun r => map (fun n => cos (INR n * acos (y r))) (seq 0 (Z.to_nat num))). split.
    + intros r Hr. specialize (P r Hr). unfold chebyshev. destruct (Z.ltb_spec num 1); [lia|]. destruct (Z.eqb_spec num 1); [contradiction|]. f_equal. apply map_ext. intros v.
      unfold chebyshev_entry, Rltb. destruct (Rlt_dec (y r) (- (1 - 0))); [lra|]. destruct (Rlt_dec (1 - 0) (y r)); [lra|]. reflexivity.
    + apply (basis_map (fun r n => cos (INR n * acos (y r)))). intros k _. cbn [Nat.add].
      assert (X : forall n, smooth_positive (fun r => cos (INR n * acos (y r))) /\ smooth_positive (fun r => cos (INR (S n) * acos (y r)))); [|apply X].
      induction n as [|n [I1 I2]].
      * split; [apply (sp_ext (fun _ => 1)); [|apply sp_const]|apply (sp_ext y); [|exact Hy]]; intros r Hr.
        -- now rewrite Rmult_0_l, cos_0.
        -- cbn [INR]. rewrite Rmult_1_l, cos_acos; [reflexivity|]. specialize (P r Hr). lra.
      * split; [exact I2|]. apply (sp_ext (fun r => 2 * y r * cos (INR (S n) * acos (y r)) - cos (INR n * acos (y r)))).
        -- intros r Hr. specialize (P r Hr). rewrite !S_INR. set (a := acos (y r)). assert (E : y r = cos a) by (unfold a; rewrite cos_acos; [reflexivity|lra]).
           replace ((INR n + 1 + 1) * a) with ((INR n + 1) * a + a) by ring. replace (INR n * a) with ((INR n + 1) * a - a) by ring. rewrite cos_plus, cos_minus, E. ring.
        -- apply sp_minus; [|exact I1]. apply sp_mult; [apply sp_mult; [apply sp_const|exact Hy]|exact I2].
Qed.

Theorem C79_polynomials_smooth : forall num, (1 <= num)%Z ->
  (forall gamma cuspless weighting, 0 < gamma -> exists l, (forall r, 0 < r -> exponential_bernstein 0 r num gamma cuspless weighting = Ok (l r)) /\ smooth_basis l)
  /\ (forall gamma cuspless weighting, 0 < gamma -> exists l, (forall r, 0 < r -> exponential_chebyshev 0 r num gamma cuspless weighting = Ok (l r)) /\ smooth_basis l)
  /\ (forall kind weighting, In kind ["shifted"; "damped"; "cuspless"]%string -> exists l, (forall r, 0 < r -> reciprocal_bernstein 0 r num kind weighting = Ok (l r)) /\ smooth_basis l)
  /\ (forall kind weighting, In kind ["shifted"; "damped"; "cuspless"]%string -> exists l, (forall r, 0 < r -> reciprocal_chebyshev 0 r num kind weighting = Ok (l r)) /\ smooth_basis l).
Proof.
  intros num Hn.
  assert (MAP : forall kind, In kind ["shifted"; "damped"; "cuspless"]%string -> exists m, (forall r, 0 < r -> reciprocal_mapping 0 r kind = Ok (m r)) /\ smooth_positive m /\ forall r, 0 < r -> 0 < m r < 1).
  { intros kind [<-|[<-|[<-|[]]]]; [|exact damped_smooth|].
    - destruct (reciprocal_mapping_smooth 0 "shifted" ltac:(cbn; tauto)) as [m [H1 H2]]. eauto.
    - destruct (reciprocal_mapping_smooth 0 "cuspless" ltac:(cbn; tauto)) as [m [H1 H2]]. eauto. }
  assert (WB : forall m w, smooth_positive m -> (forall r, 0 < r -> 0 < m r < 1) -> exists l, (forall r, 0 < r -> rmap (weighted w (m r)) (bernstein 0 (1 - m r) num) = Ok (l r)) /\ smooth_basis l).
  { intros m w Hm P. destruct (bernstein_smooth (fun r => 1 - m r) num Hn) as [l [H1 H2]]; [apply sp_minus; [apply sp_const|exact Hm]|intros r Hr; specialize (P r Hr); lra|].
    exists (fun r => weighted w (m r) (l r)). split; [intros r Hr; now rewrite H1|]. now apply basis_weighted. }
  assert (WC : forall m w, smooth_positive m -> (forall r, 0 < r -> 0 < m r < 1) -> exists l, (forall r, 0 < r -> rmap (weighted w (m r)) (chebyshev 0 (2 * m r - 1) num) = Ok (l r)) /\ smooth_basis l).
  { intros m w Hm P. destruct (chebyshev_smooth (fun r => 2 * m r - 1) num Hn) as [l [H1 H2]]; [apply sp_minus; [apply sp_mult; [apply sp_const|exact Hm]|apply sp_const]|intros r Hr; specialize (P r Hr); lra|].
    exists (fun r => weighted w (m r) (l r)). split; [intros r Hr; now rewrite H1|]. now apply basis_weighted. }
  split; [|split; [|split]].
  - intros g c w Hg. apply WB; [apply exponential_mapping_smooth|]. intros r Hr. now apply exponential_mapping_range.
  - intros g c w Hg. apply WC; [apply exponential_mapping_smooth|]. intros r Hr. now apply exponential_mapping_range.
  - intros kind w Hk. destruct (MAP kind Hk) as [m [H1 [H2 H3]]]. destruct (WB m w H2 H3) as [l [L1 L2]]. exists l. split; [|exact L2]. intros r Hr. unfold reciprocal_bernstein. rewrite H1 by exact Hr. now apply L1.
  - intros kind w Hk. destruct (MAP kind Hk) as [m [H1 [H2 H3]]]. destruct (WC m w H2 H3) as [l [L1 L2]]. exists l. split; [|exact L2]. intros r Hr. unfold reciprocal_chebyshev. rewrite H1 by exact Hr. now apply L1.
Qed.
Print Assumptions C79_polynomials_smooth.

(** ** The cosine cutoff is differentiable, but not twice; windows and sinc are only continuous *)

Theorem C79_cosine_cutoff : forall c, 0 < c -> exists f, (forall x, cosine_cutoff x c = Ok (f x)) /\ differentiable_positive f /\ ~ times_differentiable_positive 2 f.
Proof.
  intros c Hc. exists (doc_cosine_cutoff c). split; [intros; now apply cosine_cutoff_doc|].
  assert (D : forall x, derivable_pt_lim (doc_cosine_cutoff c) x (if Rlt_dec x c then - (PI / (2 * c)) * sin (PI * (x / c)) else 0)) by (intros x; now apply cosine_cutoff_deriv).
  split; [intros r _; eexists; apply D|]. intros [f' [F1 [f'' [F2 _]]]].
  assert (E : forall r, 0 < r -> f' r = if Rlt_dec r c then - (PI / (2 * c)) * sin (PI * (r / c)) else 0) by (intros r Hr; exact (uniqueness_limite _ _ _ _ (F1 r Hr) (D r))).
  assert (EC : f' c = 0) by (rewrite E by exact Hc; destruct (Rlt_dec c c); [lra|reflexivity]). specialize (F2 c Hc). set (l := f'' c) in *.
  assert (L0 : l = 0).
  { destruct (Req_dec l 0) as [|NZ]; [assumption|exfalso]. destruct (F2 (Rabs l) (Rabs_pos_lt l NZ)) as [dl Hd]. pose proof (cond_pos dl) as DP.
    specialize (Hd (dl / 2) ltac:(lra)). rewrite EC, (E (c + dl / 2)) in Hd by lra. destruct (Rlt_dec (c + dl / 2) c); [lra|]. rewrite Rabs_right in Hd at 1 by lra. specialize (Hd ltac:(lra)).
    replace ((0 - 0) / (dl / 2) - l) with (- l) in Hd by (unfold Rdiv; ring). rewrite Rabs_Ropp in Hd. lra. }
  rewrite L0 in F2.
  (* the left derivative *)
  assert (G : derivable_pt_lim (fun x => - (PI / (2 * c)) * sin (PI * (x / c))) c (PI * PI / (2 * c * c))).
  { replace (PI * PI / (2 * c * c)) with (- (PI / (2 * c)) * (cos (PI * (c / c)) * (PI / c))).
    - assert (G1 : derivable_pt_lim (fun x => PI * (x / c)) c (PI / c)).
      { apply (deriv_ext (fun x => PI / c * x)); [intros; unfold Rdiv; ring|]. pose proof (derivable_pt_lim_scal id (PI / c) c 1 (derivable_pt_lim_id c)) as X. rewrite Rmult_1_r in X. exact X. }
      exact (derivable_pt_lim_scal (fun x => sin (PI * (x / c))) (- (PI / (2 * c))) c _ (derivable_pt_lim_comp _ sin _ _ _ G1 (derivable_pt_lim_sin _))).
    - replace (c / c) with 1 by (field; lra). rewrite Rmult_1_r, cos_PI. field. lra. }
  pose proof PI_RGT_0 as PP. set (q := PI * PI / (2 * c * c)) in *. assert (QP : 0 < q) by (apply Rdiv_lt_0_compat; nra).
  destruct (F2 (q / 2) ltac:(lra)) as [d1 H1]. destruct (G (q / 2) ltac:(lra)) as [d2 H2]. pose proof (cond_pos d1). pose proof (cond_pos d2).
  set (m := Rmin (Rmin d1 d2) c). assert (M1 : 0 < m) by (unfold m; repeat apply Rmin_pos; lra). assert (M2 : m <= d1 /\ m <= d2 /\ m <= c). { unfold m. pose proof (Rmin_l (Rmin d1 d2) c). pose proof (Rmin_r (Rmin d1 d2) c). pose proof (Rmin_l d1 d2). pose proof (Rmin_r d1 d2). lra. }
  specialize (H1 (- (m / 2)) ltac:(lra)). specialize (H2 (- (m / 2)) ltac:(lra)). rewrite Rabs_Ropp, Rabs_right in H1, H2 by lra. specialize (H1 ltac:(lra)). specialize (H2 ltac:(lra)).
  rewrite EC, (E (c + - (m / 2))) in H1 by lra. destruct (Rlt_dec (c + - (m / 2)) c); [|lra].
  replace (- (PI / (2 * c)) * sin (PI * (c / c))) with 0 in H2 by (replace (c / c) with 1 by (field; lra); rewrite Rmult_1_r, sin_PI; ring).
  set (u := (- (PI / (2 * c)) * sin (PI * ((c + - (m / 2)) / c)) - 0) / - (m / 2)) in *. rewrite Rminus_0_r in H1. apply Rabs_def2 in H1. apply Rabs_def2 in H2. lra.
Qed.
Print Assumptions C79_cosine_cutoff.

Lemma continuity_pt_ext : forall f g x, (forall y, f y = g y) -> continuity_pt f x -> continuity_pt g x.
Proof.
  intros f g x E H eps He. destruct (H eps He) as [a [A1 A2]]. exists a. split; [exact A1|]. intros y Hy. rewrite <- !E. now apply A2.
Qed.
Lemma continuity_max : forall f g x, continuity_pt f x -> continuity_pt g x -> continuity_pt (fun y => Rmax (f y) (g y)) x.
Proof.
  intros f g x Hf Hg. apply (continuity_pt_ext (fun y => / 2 * (f y + g y + Rabs (f y - g y)))).
  - intros y. unfold Rmax. destruct (Rle_dec (f y) (g y)); [rewrite Rabs_left1 by lra|rewrite Rabs_right by lra]; lra.
  - apply (continuity_pt_scal (fun y => f y + g y + Rabs (f y - g y))). apply (continuity_pt_plus (fun y => f y + g y)); [now apply continuity_pt_plus|].
    apply (continuity_pt_comp (fun y => f y - g y) Rabs); [now apply continuity_pt_minus|apply Rcontinuity_abs].
Qed.
Lemma continuity_min : forall f g x, continuity_pt f x -> continuity_pt g x -> continuity_pt (fun y => Rmin (f y) (g y)) x.
Proof.
  intros f g x Hf Hg. apply (continuity_pt_ext (fun y => - Rmax (- f y) (- g y))).
  - intros y. unfold Rmin, Rmax. destruct (Rle_dec (f y) (g y)), (Rle_dec (- f y) (- g y)); lra.
  - apply (continuity_pt_opp (fun y => Rmax (- f y) (- g y))). apply (continuity_max (fun y => - f y) (fun y => - g y)); now apply continuity_pt_opp.
Qed.
Lemma continuity_linear : forall a b x, continuity_pt (fun y => a * y + b) x.
Proof. intros a b x. apply (continuity_pt_plus (fun y => a * y)); [apply (continuity_pt_scal (fun y => y)), derivable_continuous_pt, derivable_pt_id|apply continuity_pt_const; intros ? ?; reflexivity]. Qed.
Lemma continuity_at_nearby : forall f g x delta, 0 < delta -> (forall y, Rabs (y - x) < delta -> f y = g y) -> continuity_pt f x -> continuity_pt g x.
Proof.
  intros f g x dl Hd E H eps He. destruct (H eps He) as [a [A1 A2]]. exists (Rmin a dl). split; [now apply Rmin_pos|]. intros y [Hy1 Hy2]. cbn in *. unfold R_dist in *. pose proof (Rmin_l a dl). pose proof (Rmin_r a dl).
  rewrite <- (E y), <- (E x); [apply A2; split; [exact Hy1|lra]|rewrite Rminus_diag_eq, Rabs_R0 by reflexivity; lra|lra].
Qed.

(** Continuous lists of functions. *)
Definition continuous_basis (l : R -> list R) : Prop := forall k, continuous_positive (fun r => nth k (l r) 0).
Lemma basis_map_continuous : forall (h : R -> nat -> R) a n, (forall k, (k < n)%nat -> continuous_positive (fun r => h r (a + k)%nat)) -> continuous_basis (fun r => map (h r) (seq a n)).
Proof.
  intros h a n H k r Hr. destruct (Nat.ltb_spec k n) as [L|L].
  - apply (continuity_pt_ext (fun r => h r (a + k)%nat)); [|now apply H]. intros y. rewrite nth_seq_map. destruct (Nat.ltb_spec k n); [reflexivity|lia].
  - apply (continuity_pt_ext (fun _ => 0)); [|apply continuity_pt_const; intros ? ?; reflexivity]. intros y. rewrite nth_seq_map. destruct (Nat.ltb_spec k n); [lia|reflexivity].
Qed.

Theorem C79_triangular_window : forall num limit, continuous_basis (fun r => triangular_window r num limit).
Proof.
  intros num limit. unfold triangular_window.
  apply (basis_map_continuous (fun r k => Rmax (Rmin ((r - (linspace0 limit num k - limit / INR num)) / (limit / INR num)) (- (r - (linspace0 limit num k + limit / INR num)) / (limit / INR num))) 0)).
  intros k _ r _. cbn [Nat.add]. set (w := limit / INR num). set (c := linspace0 limit num k). apply (continuity_max (fun r => Rmin ((r - (c - w)) / w) (- (r - (c + w)) / w)) (fun _ => 0)); [|apply continuity_pt_const; intros ? ?; reflexivity].
  apply (continuity_min (fun r => (r - (c - w)) / w) (fun r => - (r - (c + w)) / w)).
  - apply (continuity_pt_ext (fun y => / w * y + - (c - w) * / w)); [intros; unfold Rdiv; ring|apply continuity_linear].
  - apply (continuity_pt_ext (fun y => - / w * y + (c + w) * / w)); [intros; unfold Rdiv; ring|apply continuity_linear].
Qed.
Print Assumptions C79_triangular_window.

Theorem C79_sinc : forall num limit, 0 < limit -> continuous_basis (fun r => sinc r num limit).
Proof.
  intros num limit HL. unfold sinc. apply (basis_map_continuous (fun r k => if Rleb (r / limit) 1 then sinc1 (INR k * (r / limit)) else 0)). intros k _ r Hr.
  set (m := (1 + k)%nat). assert (M : 0 < INR m) by (apply lt_0_INR; unfold m; lia). pose proof PI_RGT_0 as PP.
  (* the function that continues beyond the limit *)
  pose (S0 := fun y => sin (PI * INR m * / limit * y + 0) * / (PI * INR m * / limit * y + 0)).
  assert (CP : 0 < PI * INR m * / limit) by (apply Rmult_lt_0_compat; [apply Rmult_lt_0_compat; assumption|now apply Rinv_0_lt_compat]).
  assert (C0 : forall y, 0 < y -> continuity_pt S0 y).
  { intros y Hy. unfold S0. apply (continuity_pt_mult (fun y => sin (PI * INR m * / limit * y + 0)) (fun y => / (PI * INR m * / limit * y + 0))).
    - apply (continuity_pt_comp (fun y => PI * INR m * / limit * y + 0) sin); [apply continuity_linear|apply continuity_sin].
    - apply (continuity_pt_inv (fun y => PI * INR m * / limit * y + 0)); [apply continuity_linear|]. pose proof (Rmult_lt_0_compat _ _ CP Hy). lra. }
  assert (E0 : forall y, 0 < y -> sinc1 (INR m * (y / limit)) = S0 y).
  { intros y Hy. assert (0 < INR m * (y / limit)) by (apply Rmult_lt_0_compat; [exact M|now apply Rdiv_lt_0_compat]). unfold sinc1. destruct (Req_EM_T (INR m * (y / limit)) 0); [lra|]. unfold S0, Rdiv.
    replace (PI * INR m * / limit * y + 0) with (PI * (INR m * (y * / limit))) by ring. reflexivity. }
  assert (SP : forall k : nat, sin (PI * INR k) = 0).
  { induction k0 as [|j IH]; [rewrite Rmult_0_r; apply sin_0|]. rewrite S_INR, Rmult_plus_distr_l, Rmult_1_r, neg_sin, IH. ring. }
  assert (EL : S0 limit = 0). { unfold S0. replace (PI * INR m * / limit * limit + 0) with (PI * INR m) by (field; lra). rewrite SP. ring. }
  assert (LE : forall y, Rleb (y / limit) 1 = if Rle_dec y limit then true else false).
  { intros y. assert (Q : y = y / limit * limit) by (field; lra). unfold Rleb. destruct (Rle_dec (y / limit) 1) as [X|X], (Rle_dec y limit) as [Y|Y]; try reflexivity; exfalso; nra. }
  destruct (Rtotal_order r limit) as [L|[->|L]].
  - apply (continuity_at_nearby S0 _ r (Rmin r (limit - r))); [apply Rmin_pos; lra| |now apply C0]. intros y Hy. pose proof (Rmin_l r (limit - r)). pose proof (Rmin_r r (limit - r)). apply Rabs_def2 in Hy. rewrite LE. destruct (Rle_dec y limit); [|lra]. symmetry. apply E0. lra.
  - intros eps He. destruct (C0 limit HL eps He) as [a [A1 A2]]. exists (Rmin a limit). split; [now apply Rmin_pos|]. intros y [Hy1 Hy2]. cbn in *. unfold R_dist in *. pose proof (Rmin_l a limit). pose proof (Rmin_r a limit).
    rewrite !LE. destruct (Rle_dec limit limit); [|lra]. rewrite (E0 limit HL), EL. destruct (Rle_dec y limit).
    + pose proof (Rabs_def2 _ _ (Rlt_le_trans _ _ _ Hy2 H0)). rewrite E0 by lra. rewrite <- EL. apply A2. split; [exact Hy1|lra].
    + rewrite Rminus_diag_eq, Rabs_R0 by reflexivity. lra.
  - apply (continuity_at_nearby (fun _ => 0) _ r (r - limit)); [lra| |apply continuity_pt_const; intros ? ?; reflexivity]. intros y Hy. apply Rabs_def2 in Hy. rewrite LE. destruct (Rle_dec y limit); [lra|reflexivity].
Qed.
Print Assumptions C79_sinc.

(** A value differs from the values arbitrarily close to its right by a fixed amount. *)
Lemma jump_right : forall (g : R -> R) x a b, a <> b -> g x = a -> (forall e, 0 < e -> exists h, 0 < h < e /\ g (x + h) = b) -> ~ continuity_pt g x.
Proof.
  intros g x a b N Ha Hb C. destruct (C (Rabs (b - a)) (Rabs_pos_lt _ (Rminus_eq_contra _ _ (not_eq_sym N)))) as [d [D1 D2]]. destruct (Hb d D1) as [h [H1 H2]]. specialize (D2 (x + h)). cbn in D2. unfold R_dist, D_x, no_cond in D2.
  rewrite H2, Ha in D2. apply (Rlt_irrefl (Rabs (b - a))). apply D2. split; [split; [exact I|lra]|]. replace (x + h - x) with h by ring. rewrite Rabs_right; lra.
Qed.
Lemma jump_left : forall (g : R -> R) x a b, a <> b -> g x = a -> (forall e, 0 < e -> exists h, 0 < h < e /\ g (x - h) = b) -> ~ continuity_pt g x.
Proof.
  intros g x a b N Ha Hb C. destruct (C (Rabs (b - a)) (Rabs_pos_lt _ (Rminus_eq_contra _ _ (not_eq_sym N)))) as [d [D1 D2]]. destruct (Hb d D1) as [h [H1 H2]]. specialize (D2 (x - h)). cbn in D2. unfold R_dist, D_x, no_cond in D2.
  rewrite H2, Ha in D2. apply (Rlt_irrefl (Rabs (b - a))). apply D2. split; [split; [exact I|lra]|]. replace (x - h - x) with (- h) by ring. rewrite Rabs_Ropp, Rabs_right; lra.
Qed.

Theorem C79_rectangular_window : forall num limit, (1 <= num)%nat -> 0 < limit -> ~ continuous_basis (fun r => rectangular_window r num limit).
Proof.
  intros num limit Hn HL C. assert (N0 : 0 < INR num) by (apply lt_0_INR; lia). assert (W : 0 < limit / INR num) by now apply Rdiv_lt_0_compat.
  assert (V : forall r, nth 0 (rectangular_window r num limit) 0 = if Rltb r 0 then 0 else if Rltb (limit / INR num) r then 0 else 1).
  { intros r. unfold rectangular_window. rewrite nth_seq_map. destruct (Nat.ltb_spec 0 num); [|lia]. unfold linspace0. cbn [Nat.add INR]. rewrite Rmult_0_r, Rmult_1_r. unfold Rdiv at 1. now rewrite Rmult_0_l. }
  refine (jump_right _ (limit / INR num) 1 0 ltac:(lra) _ _ (C 0%nat _ W)).
  - rewrite V. unfold Rltb. destruct (Rlt_dec (limit / INR num) 0); [lra|]. destruct (Rlt_dec (limit / INR num) (limit / INR num)); [lra|reflexivity].
  - intros e He. exists (e / 2). split; [lra|]. rewrite V. unfold Rltb. destruct (Rlt_dec (limit / INR num + e / 2) 0); [lra|]. destruct (Rlt_dec (limit / INR num) (limit / INR num + e / 2)); [reflexivity|lra].
Qed.
Print Assumptions C79_rectangular_window.

(** * Activations *)

Lemma gate_gated : forall g, gate_of (gated_linear g) g.
Proof. intros g x y H. rewrite gated_ok in H. injection H as <-. cbn. repeat split. Qed.

(** The gate of an activation is determined by what the activation does. *)
Lemma gate_unique : forall g h, gate_of (gated_linear h) g -> forall t, g t = h t.
Proof.
  intros g h H t. destruct (H (mkFeat [] 1 4 1 0 (fun _ _ d _ => match d with O => t | _ => 1 end)) _ (gated_ok h _)) as [_ [_ [_ [_ [_ E]]]]].
  specialize (E [] 0%nat 1%nat 0%nat). cbn in E. lra.
Qed.

Theorem C79_smooth_gates : forall erf act,
  (In act [silu; mish true; mish false; gelu erf true] \/ (infinitely_differentiable erf /\ In act [gelu erf false; serf erf])) -> exists g, gate_of act g /\ infinitely_differentiable g.
Proof.
  intros erf act H.
  assert (LIN : forall a, infinitely_differentiable (fun x => a * x)) by (intros a; apply id_mult; [apply id_const|apply id_id]).
  destruct H as [[<-|[<-|[<-|[<-|[]]]]]|[HE [<-|[<-|[]]]]]; (eexists; split; [apply gate_gated|]).
  - apply smooth_expit.
  - apply (id_ext (fun x => (2 * exp (- x) + 1) * / (2 * exp (- x) + 1 + 2 * exp (- x) * exp (- x)))); [intros; reflexivity|].
    assert (A1 : infinitely_differentiable (fun x => 2 * exp (- x))) by (apply id_mult; [apply id_const|apply id_exp_opp]).
    assert (A2 : infinitely_differentiable (fun x => 2 * exp (- x) + 1)) by (apply id_plus; [exact A1|apply id_const]).
    apply id_mult; [exact A2|]. apply id_inv; [intros x; pose proof (exp_pos (- x)); nra|]. apply id_plus; [exact A2|]. apply id_mult; [exact A1|apply id_exp_opp].
  - apply (id_comp tanh jsoftplus); [apply id_tanh|apply id_softplus].
  - apply (id_ext (fun x => 0.5 * (1 + tanh (sqrt (2 / PI) * (x + 0.044715 * (x * (x * (x * 1)))))))); [intros; reflexivity|]. apply id_mult; [apply id_const|]. apply id_plus; [apply id_const|].
    apply (id_comp tanh (fun x => sqrt (2 / PI) * (x + 0.044715 * (x * (x * (x * 1)))))); [apply id_tanh|]. apply id_mult; [apply id_const|]. apply id_plus; [apply id_id|]. apply id_mult; [apply id_const|].
    repeat (apply id_mult; [apply id_id|]). apply id_const.
  - apply (id_ext (fun x => (erf (/ sqrt 2 * x) + 1) * / 2)); [intros x; unfold gelu_gate, Rdiv; now rewrite (Rmult_comm (/ sqrt 2) x)|]. apply id_mult; [|apply id_const]. apply id_plus; [|apply id_const].
    apply (id_comp erf (fun x => / sqrt 2 * x)); [exact HE|apply LIN].
  - apply (id_comp erf jsoftplus); [exact HE|apply id_softplus].
Qed.
Print Assumptions C79_smooth_gates.

Theorem C79_continuous_gates : forall act, In act [soft_sign; hard_tanh; hard_silu] -> exists g, gate_of act g /\ continuity g.
Proof.
  assert (CC : forall c x, continuity_pt (fun _ => c) x) by (intros c x; apply continuity_pt_const; intros ? ?; reflexivity).
  intros act [<-|[<-|[<-|[]]]]; (eexists; split; [apply gate_gated|]); intros x.
  - apply (continuity_pt_ext (fun y => / (Rabs y + 1))); [intros y; unfold soft_sign_gate, Rdiv; ring|]. apply (continuity_pt_inv (fun y => Rabs y + 1)); [|pose proof (Rabs_pos x); lra].
    apply (continuity_pt_plus Rabs); [apply Rcontinuity_abs|apply CC].
  - apply (continuity_pt_ext (fun y => / Rmax 1 (Rabs y))).
    + intros y. unfold hard_tanh_gate, Rltb. unfold Rmax. destruct (Rle_dec 1 (Rabs y)) as [L|L]; revert L; unfold Rabs; destruct (Rcase_abs y); intros L;
        destruct (Rlt_dec 1 y), (Rlt_dec y (-1)); try lra;
        try (rewrite Rinv_1; reflexivity); try (replace y with 1 by lra; apply Rinv_1); try (replace (- y) with 1 by lra; apply Rinv_1); (destruct (Rlt_dec 0.1 _); [field; lra|exfalso; lra]).
    + apply (continuity_pt_inv (fun y => Rmax 1 (Rabs y))); [|pose proof (Rmax_l 1 (Rabs x)); lra]. apply (continuity_max (fun _ => 1) Rabs); [apply CC|apply Rcontinuity_abs].
  - apply (continuity_pt_ext (fun y => Rmin (Rmax (1 * y + 3) 0) 6 * / 6)); [intros y; unfold hard_sigmoid; now rewrite Rmult_1_l|]. apply (continuity_pt_mult (fun y => Rmin (Rmax (1 * y + 3) 0) 6) (fun _ => / 6)); [|apply CC].
    apply (continuity_min (fun y => Rmax (1 * y + 3) 0) (fun _ => 6)); [|apply CC]. apply (continuity_max (fun y => 1 * y + 3) (fun _ => 0)); [apply continuity_linear|apply CC].
Qed.
Print Assumptions C79_continuous_gates.

(** The gates of relu, relu6, leaky_relu, elu (unless alpha = 1) and selu jump at zero, so features of positive degree
    jump when the scalar feature changes its sign. *)
Theorem C79_jumping_gates : forall eps alpha act, 0 <= eps -> alpha <> 1 -> In act [relu; relu6; leaky_relu alpha; elu eps alpha; selu eps] -> forall g, gate_of act g -> ~ continuity_pt g 0.
Proof.
  assert (ZP : forall e : R, 0 < e -> 0 < e / 2 < e /\ 0 + e / 2 = e / 2 /\ 0 - e / 2 = - (e / 2)) by (intros; lra).
  assert (ELU : forall eps alpha, 0 <= eps -> elu_gate eps alpha 0 = alpha /\ forall h, 0 < h -> elu_gate eps alpha h = 1).
  { intros eps alpha He. unfold elu_gate, Rltb. split.
    - destruct (Rlt_dec 0 0); [lra|]. rewrite Rabs_R0. destruct (Rlt_dec eps 0); [lra|]. lra.
    - intros h Hh. destruct (Rlt_dec 0 h); [reflexivity|lra]. }
  intros eps alpha act He Na H g Hg. cbn in H. destruct H as [<-|[<-|[<-|[<-|[<-|[]]]]]].
  - apply (jump_right g 0 0 1); [lra| |]; [|intros e P; exists (e / 2); destruct (ZP e P) as [X1 [X2 _]]; split; [exact X1|rewrite X2]]; rewrite (gate_unique _ _ Hg); unfold relu_gate, jsign, Rltb, Reqb.
    + destruct (Rlt_dec 0 0); [lra|]. destruct (Req_EM_T 0 0); [|lra]. unfold Rmax. destruct (Rle_dec 0 0); lra.
    + destruct (Rlt_dec (e / 2) 0); [lra|]. destruct (Req_EM_T (e / 2) 0); [lra|]. unfold Rmax. destruct (Rle_dec 1 0); lra.
  - apply (jump_right g 0 0 1); [lra| |].
    + rewrite (gate_unique _ _ Hg). unfold relu6_gate, jsign, Rltb, Reqb. destruct (Rlt_dec 0 0); [lra|]. destruct (Req_EM_T 0 0); [|lra]. destruct (Rlt_dec 1 0); [lra|]. unfold Rmin, Rmax. destruct (Rle_dec 0 0); [|lra]. destruct (Rle_dec 0 (6 / 1)); lra.
    + intros e P. exists (Rmin e 1 / 2). assert (Q : 0 < Rmin e 1 / 2 < 1 /\ Rmin e 1 / 2 < e) by (pose proof (Rmin_l e 1); pose proof (Rmin_r e 1); pose proof (Rmin_pos e 1 P ltac:(lra)); lra). set (h := Rmin e 1 / 2) in *. clearbody h. split; [lra|]. rewrite Rplus_0_l, (gate_unique _ _ Hg).
      unfold relu6_gate, jsign, Rltb, Reqb. destruct (Rlt_dec h 0); [lra|]. destruct (Req_EM_T h 0); [lra|]. destruct (Rlt_dec 1 h); [lra|]. unfold Rmin, Rmax. destruct (Rle_dec 1 0); [lra|]. destruct (Rle_dec 1 (6 / 1)); lra.
  - apply (jump_left g 0 1 alpha); [auto| |].
    + rewrite (gate_unique _ _ Hg). unfold leaky_relu_gate, Rleb. destruct (Rle_dec 0 0); lra.
    + intros e P. exists (e / 2). destruct (ZP e P) as [X1 [_ X2]]. split; [exact X1|]. rewrite X2, (gate_unique _ _ Hg). unfold leaky_relu_gate, Rleb. destruct (Rle_dec 0 (- (e / 2))); lra.
  - destruct (ELU eps alpha He) as [E1 E2]. apply (jump_right g 0 alpha 1); [exact Na| |].
    + now rewrite (gate_unique _ _ Hg).
    + intros e P. exists (e / 2). destruct (ZP e P) as [X1 [X2 _]]. split; [exact X1|]. rewrite X2, (gate_unique _ _ Hg). apply E2. lra.
  - assert (U : forall t, g t = selu_scale * elu_gate eps selu_alpha t).
    { intros t. assert (Y : selu eps (mkFeat [] 1 4 1 0 (fun _ _ d _ => match d with O => t | _ => 1 end)) = Ok (mkFeat [] 1 4 1 0 (fun i s d f => selu_scale * fv (gated (elu_gate eps selu_alpha) (mkFeat [] 1 4 1 0 (fun _ _ d _ => match d with O => t | _ => 1 end))) i s d f))).
      { unfold selu, elu. rewrite gated_ok. reflexivity. }
      destruct (Hg _ _ Y) as [_ [_ [_ [_ [_ E]]]]]. specialize (E [] 0%nat 1%nat 0%nat). cbn in E. lra. }
    destruct (ELU eps selu_alpha He) as [E1 E2]. apply (jump_right g 0 (selu_scale * selu_alpha) selu_scale); [unfold selu_scale, selu_alpha; lra| |].
    + now rewrite U, E1.
    + intros e P. exists (e / 2). destruct (ZP e P) as [X1 [X2 _]]. split; [exact X1|]. rewrite X2, U, E2 by lra. ring.
Qed.
Print Assumptions C79_jumping_gates.
