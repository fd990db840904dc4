(** Lemmas for AutoDiff_Props: reverse-mode differentiation computes derivatives. *)
Require Import List Reals Lra Lia ZArith Bool FunctionalExtensionality.
Require Import Verif.Base Verif.Smooth Verif.Radial_Model Verif.Activations_Model.
Require Import Verif.AutoDiff_Model Verif.AutoDiff_Spec.
Import ListNotations.
Open Scope R_scope.

Lemma replace_self r i : replace r i (r i) = r.
Proof.
  apply functional_extensionality; intro j; unfold replace.
  destruct (Nat.eqb_spec j i) as [->|]; reflexivity.
Qed.

Lemma replace_same r i t : replace r i t i = t.
Proof. unfold replace. now rewrite Nat.eqb_refl. Qed.

(** * Forward evaluation and back-propagation together *)

Definition diff (e : expr) (r : nat -> R) (i : nat) (v d : R) : Prop :=
  value e r = Some v /\ forall c, back e r i (Some c) = Some (c * d).

Lemma diff_gradient e r i v d : diff e r i v d -> gradient e r i = Some d.
Proof. intros [_ H]. unfold gradient. rewrite H. f_equal. ring. Qed.

Lemma diff_eq e r i v d v' d' : diff e r i v d -> v = v' -> d = d' -> diff e r i v' d'.
Proof. now intros H <- <-. Qed.

Lemma diff_var r i : diff (Var i) r i (r i) 1.
Proof. split; [reflexivity|]. intro c. cbn. rewrite Nat.eqb_refl. f_equal; ring. Qed.

Lemma diff_other k r i : k <> i -> diff (Var k) r i (r k) 0.
Proof.
  intro K. split; [reflexivity|]. intro c. cbn. rewrite (proj2 (Nat.eqb_neq k i) K). cbn. f_equal; ring.
Qed.

Lemma diff_const c r i : diff (Const c) r i c 0.
Proof. split; [reflexivity|]. intro d. cbn. reflexivity. Qed.

Lemma diff_un op a r i u d w p :
  diff a r i u d -> unary_value op u = Some w -> unary_partial op u = Some p ->
  diff (Un op a) r i w (p * d).
Proof.
  intros [V B] W P. split; cbn [value back].
  - rewrite V. exact W.
  - intro c. rewrite V. cbn [obind]. rewrite P. cbn. rewrite B. f_equal; ring.
Qed.

Lemma diff_bin op a b r i u v d d' w p q :
  diff a r i u d -> diff b r i v d' -> binary_value op u v = Some w ->
  binary_partial1 op u v = Some p -> binary_partial2 op u v = Some q ->
  diff (Bin op a b) r i w (p * d + q * d').
Proof.
  intros [V B] [V' B'] W P Q. split; cbn [value back].
  - rewrite V, V'. exact W.
  - intro c. rewrite V, V'. cbn [obind]. rewrite P, Q. cbn. rewrite B, B'. cbn. f_equal; ring.
Qed.

Lemma diff_where c a b r i t u v d d' :
  holds c r = Some t -> diff a r i u d -> diff b r i v d' ->
  diff (Where c a b) r i (if t then u else v) (if t then d else d').
Proof.
  intros H [V B] [V' B']. split; cbn [value back]; rewrite H; cbn [obind].
  - destruct t; assumption.
  - intro x. destruct t; cbn; rewrite B, B'; cbn; f_equal; ring.
Qed.

Lemma diff_add a b r i u v d d' : diff a r i u d -> diff b r i v d' -> diff (a +! b) r i (u + v) (d + d').
Proof. intros A B. eapply diff_eq; [eapply (diff_bin Add); eauto; reflexivity|reflexivity|ring]. Qed.
Lemma diff_sub a b r i u v d d' : diff a r i u d -> diff b r i v d' -> diff (a -! b) r i (u - v) (d - d').
Proof. intros A B. eapply diff_eq; [eapply (diff_bin Sub); eauto; reflexivity|reflexivity|ring]. Qed.
Lemma diff_mul a b r i u v d d' :
  diff a r i u d -> diff b r i v d' -> diff (a *! b) r i (u * v) (v * d + u * d').
Proof. intros A B. eapply (diff_bin Mul); eauto; reflexivity. Qed.
Lemma diff_div a b r i u v d d' : v <> 0 ->
  diff a r i u d -> diff b r i v d' -> diff (a /! b) r i (u / v) (1 / v * d + - u / (v * v) * d').
Proof.
  intros N A B. apply (diff_bin Div a b r i u v d d'); auto; cbn; unfold Reqb; destruct Req_EM_T; easy.
Qed.
Lemma diff_neg a r i u d : diff a r i u d -> diff (Un Neg a) r i (- u) (- d).
Proof. intros A. eapply diff_eq; [eapply (diff_un Neg); eauto; reflexivity|reflexivity|ring]. Qed.
Lemma diff_exp a r i u d : diff a r i u d -> diff (Un Exp a) r i (exp u) (exp u * d).
Proof. intros A. eapply (diff_un Exp); eauto; reflexivity. Qed.
Lemma diff_expm1 a r i u d : diff a r i u d -> diff (Un Expm1 a) r i (expm1 u) (exp u * d).
Proof.
  intros A. eapply diff_eq; [eapply (diff_un Expm1); eauto; reflexivity|reflexivity|unfold expm1; ring].
Qed.
Lemma diff_cos a r i u d : diff a r i u d -> diff (Un Cos a) r i (cos u) (- sin u * d).
Proof. intros A. eapply (diff_un Cos); eauto; reflexivity. Qed.
Lemma diff_abs a r i u d : diff a r i u d -> diff (Un Abs a) r i (Rabs u) (jsign u * d).
Proof. intros A. eapply (diff_un Abs); eauto; reflexivity. Qed.
Lemma diff_sign a r i u d : diff a r i u d -> diff (Un Sign a) r i (jsign u) 0.
Proof. intros A. eapply diff_eq; [eapply (diff_un Sign); eauto; reflexivity|reflexivity|ring]. Qed.
Lemma diff_tanh a r i u d :
  diff a r i u d -> diff (Un Tanh a) r i (tanh u) ((1 - tanh u * tanh u) * d).
Proof. intros A. eapply (diff_un Tanh); eauto; reflexivity. Qed.
Lemma diff_pow n a r i u d :
  diff a r i u d -> diff (Un (IntegerPow n) a) r i (u ^ n) (INR n * u ^ (n - 1) * d).
Proof. intros A. eapply (diff_un (IntegerPow n)); eauto; reflexivity. Qed.
Lemma diff_custom f df a r i u d w p :
  diff a r i u d -> f u = Some w -> df u = Some p -> diff (Un (Custom f df) a) r i w (p * d).
Proof. intros. eapply (diff_un (Custom f df)); eauto. Qed.
Lemma diff_sqrt a r i u d : 0 < u ->
  diff a r i u d -> diff (Un Sqrt a) r i (sqrt u) (0.5 / sqrt u * d).
Proof.
  intros U A. eapply (diff_un Sqrt); eauto; cbn; unfold Rleb, Rltb.
  - destruct Rle_dec; [reflexivity|lra].
  - destruct Rlt_dec; [reflexivity|lra].
Qed.
Lemma diff_arccos a r i u d : -1 < u < 1 ->
  diff a r i u d -> diff (Un Arccos a) r i (acos u) (- (1 / sqrt (1 - u * u)) * d).
Proof.
  intros U A. eapply (diff_un Arccos); eauto; cbn; unfold Rleb, Rltb.
  - destruct (Rle_dec (-1) u), (Rle_dec u 1); try reflexivity; lra.
  - destruct (Rlt_dec (-1) u), (Rlt_dec u 1); try reflexivity; lra.
Qed.
Lemma diff_max a b r i u v d d' : diff a r i u d -> diff b r i v d' ->
  diff (Bin Max a b) r i (Rmax u v) (balanced u v * d + balanced v u * d').
Proof. intros A B. eapply (diff_bin Max); eauto; reflexivity. Qed.
Lemma diff_min a b r i u v d d' : diff a r i u d -> diff b r i v d' ->
  diff (Bin Min a b) r i (Rmin u v) (balanced v u * d + balanced u v * d').
Proof. intros A B. eapply (diff_bin Min); eauto; reflexivity. Qed.
Lemma diff_logaddexp a b r i u v d d' : diff a r i u d -> diff b r i v d' ->
  diff (Bin LogAddExp a b) r i (logaddexp u v)
    (exp (u - logaddexp u v) * d + exp (v - logaddexp u v) * d').
Proof. intros A B. eapply (diff_bin LogAddExp); eauto; reflexivity. Qed.

Lemma holds_less a b r u v :
  value a r = Some u -> value b r = Some v -> holds (Less a b) r = Some (Rltb u v).
Proof. intros A B. cbn. now rewrite A, B. Qed.
Lemma holds_lesseq a b r u v :
  value a r = Some u -> value b r = Some v -> holds (LessEq a b) r = Some (Rleb u v).
Proof. intros A B. cbn. now rewrite A, B. Qed.
Lemma holds_or c d r s t :
  holds c r = Some s -> holds d r = Some t -> holds (Or c d) r = Some (s || t)%bool.
Proof. intros A B. cbn [holds]. now rewrite A, B. Qed.

(** * Derivative rules of the operations *)

Lemma local_deriv f g u d delta : 0 < delta ->
  (forall t, Rabs (t - u) < delta -> f t = g t) -> derivable_pt_lim f u d -> derivable_pt_lim g u d.
Proof.
  intros D E H e he. destruct (H e he) as [m M].
  assert (P : 0 < Rmin m delta) by (apply Rmin_glb_lt; [apply cond_pos|exact D]).
  exists (mkposreal _ P). intros h h0 hb. cbn in hb.
  rewrite <- (E u), <- (E (u + h)).
  - apply M; [exact h0|]. eapply Rlt_le_trans; [exact hb|apply Rmin_l].
  - replace (u + h - u) with h by ring. eapply Rlt_le_trans; [exact hb|apply Rmin_r].
  - rewrite Rminus_eq_0, Rabs_R0. exact D.
Qed.

Lemma sin_small_pos x : 0 < x -> Rabs (sin x) <= Rabs x.
Proof.
  intro L. rewrite (Rabs_right x) by lra.
  destruct (Rle_lt_dec x 1) as [Y|Y].
  - pose proof (sin_lt_x x ltac:(lra)). pose proof PI2_1.
    pose proof (sin_ge_0 x ltac:(lra) ltac:(lra)) as S0. rewrite Rabs_right; lra.
  - pose proof (SIN_bound x). apply Rabs_le. lra.
Qed.

Lemma sin_small x : Rabs (sin x) <= Rabs x.
Proof.
  destruct (Rtotal_order x 0) as [L|[->|L]].
  - pose proof (sin_small_pos (- x) ltac:(lra)) as H. now rewrite sin_neg, !Rabs_Ropp in H.
  - rewrite sin_0. lra.
  - now apply sin_small_pos.
Qed.

Lemma sinc_near_zero y : y <> 0 -> Rabs (sin y / y - 1) <= y * y / 2.
Proof.
  intro Y.
  assert (M : exists c, sin y - y = (cos c - 1) * y /\ Rabs c <= Rabs y).
  { assert (G : forall a b, a < b -> exists c, (sin b - b) - (sin a - a) = (cos c - 1) * (b - a) /\ a < c < b).
    { intros a b L.
      destruct (MVT_cor2 (fun t => sin t - t) (fun t => cos t - 1) a b L) as [c [E B]].
      - intros c _. apply (derivable_pt_lim_minus sin id); [apply derivable_pt_lim_sin|apply derivable_pt_lim_id].
      - exists c. split; [exact E|exact B]. }
    destruct (Rtotal_order y 0) as [L|[E|L]]; [|contradiction|].
    - destruct (G y 0 L) as [c [E B]]. exists c. rewrite sin_0 in E. split; [lra|].
      rewrite !Rabs_left; lra.
    - destruct (G 0 y L) as [c [E B]]. exists c. rewrite sin_0 in E. split; [lra|].
      rewrite !Rabs_right; lra. }
  destruct M as [c [E B]].
  replace (sin y / y - 1) with (cos c - 1) by (apply (Rmult_eq_reg_r y); [|exact Y]; rewrite <- E; field; exact Y).
  assert (C : cos c = 1 - 2 * (sin (c / 2) * sin (c / 2))).
  { replace c with (2 * (c / 2)) at 1 by field. rewrite cos_2a_sin. ring. }
  assert (S2 : sin (c / 2) * sin (c / 2) <= y / 2 * (y / 2)).
  { apply Rsqr_le_abs_1 in B. pose proof (Rsqr_le_abs_1 _ _ (sin_small (c / 2))) as Q.
    unfold Rsqr in *. lra. }
  pose proof (Rle_0_sqr (sin (c / 2))) as P. unfold Rsqr in P.
  rewrite C. replace (1 - 2 * (sin (c / 2) * sin (c / 2)) - 1) with (- (2 * (sin (c / 2) * sin (c / 2)))) by ring.
  rewrite Rabs_Ropp, Rabs_right; lra.
Qed.

Lemma deriv_sinc1 u :
  derivable_pt_lim sinc1 u (if Req_EM_T u 0 then 0 else (cos (PI * u) - sinc1 u) / u).
Proof.
  pose proof PI_RGT_0 as PP.
  destruct (Req_EM_T u 0) as [->|U].
  - intros e he.
    assert (K : 0 < 2 * e / (PI * PI)).
    { apply Rdiv_lt_0_compat; [lra|]. apply Rmult_lt_0_compat; lra. }
    exists (mkposreal _ K). intros h h0 hb. cbn in hb.
    rewrite Rplus_0_l. unfold sinc1. destruct (Req_EM_T h 0) as [E|_]; [contradiction|].
    destruct (Req_EM_T 0 0) as [_|E]; [|contradiction].
    assert (Y : PI * h <> 0) by (apply Rmult_integral_contrapositive_currified; lra).
    pose proof (sinc_near_zero (PI * h) Y) as Q.
    rewrite Rminus_0_r. unfold Rdiv at 1. rewrite Rabs_mult, Rabs_inv.
    apply (Rmult_lt_reg_r (Rabs h)); [now apply Rabs_pos_lt|].
    rewrite Rmult_assoc, Rinv_l, Rmult_1_r by now apply Rabs_no_R0.
    eapply Rle_lt_trans; [exact Q|].
    replace (PI * h * (PI * h) / 2) with (PI * PI / 2 * (h * h)) by field.
    replace (h * h) with (Rabs h * Rabs h) by (rewrite <- Rabs_mult; apply Rabs_right, Rle_ge, Rle_0_sqr).
    rewrite <- Rmult_assoc. apply Rmult_lt_compat_r; [now apply Rabs_pos_lt|].
    replace e with (PI * PI / 2 * (2 * e / (PI * PI))) by (field; lra).
    apply Rmult_lt_compat_l; [|exact hb]. apply Rdiv_lt_0_compat; [|lra]. apply Rmult_lt_0_compat; lra.
  - apply (local_deriv (fun t => sin (PI * t) / (PI * t)) _ u _ (Rabs u)).
    + now apply Rabs_pos_lt.
    + intros t T. unfold sinc1. destruct (Req_EM_T t 0) as [->|_]; [|reflexivity].
      replace (0 - u) with (- u) in T by ring. rewrite Rabs_Ropp in T. lra.
    + replace ((cos (PI * u) - sinc1 u) / u)
        with ((PI * cos (PI * u) * (PI * u) - PI * sin (PI * u)) / Rsqr (PI * u)).
      2: { unfold sinc1, Rsqr. destruct (Req_EM_T u 0) as [E|_]; [contradiction|]. field. split; lra. }
      assert (L : derivable_pt_lim (fun t => PI * t) u (PI * 1)).
      { apply (deriv_ext (mult_real_fct PI id)); [reflexivity|].
        exact (derivable_pt_lim_scal id PI u 1 (derivable_pt_lim_id u)). }
      rewrite Rmult_1_r in L.
      apply (derivable_pt_lim_div (fun t => sin (PI * t)) (fun t => PI * t)).
      * replace (PI * cos (PI * u)) with (cos (PI * u) * PI) by ring.
        apply (derivable_pt_lim_comp (fun t => PI * t) sin); [exact L|apply derivable_pt_lim_sin].
      * exact L.
      * apply Rmult_integral_contrapositive_currified; lra.
Qed.

Lemma deriv_jsign u : u <> 0 -> derivable_pt_lim jsign u 0.
Proof.
  intro U. apply (local_deriv (fun _ => jsign u) _ u _ (Rabs u)).
  - now apply Rabs_pos_lt.
  - intros t T. unfold jsign, Rltb, Reqb.
    assert (Rabs (t - u) < Rabs u -> (u < 0 -> t < 0) /\ (0 < u -> 0 < t)).
    { intro B. split; intro; [rewrite (Rabs_left u) in B by lra|rewrite (Rabs_right u) in B by lra];
      apply Rabs_def2 in B; lra. }
    destruct (H T) as [A B].
    destruct (Rlt_dec u 0), (Rlt_dec t 0), (Req_EM_T u 0), (Req_EM_T t 0); try reflexivity; exfalso; lra.
  - apply derivable_pt_lim_const.
Qed.

Lemma deriv_abs u : u <> 0 -> derivable_pt_lim Rabs u (jsign u).
Proof.
  intro U. unfold jsign, Rltb, Reqb. destruct (Rlt_dec u 0) as [L|L].
  - now apply Rabs_derive_2.
  - destruct (Req_EM_T u 0); [contradiction|]. apply Rabs_derive_1. lra.
Qed.

Lemma deriv_expit u : derivable_pt_lim expit u (expit u * (1 - expit u)).
Proof.
  unfold expit. pose proof (exp_pos (- u)) as P.
  replace (1 / (1 + exp (- u)) * (1 - 1 / (1 + exp (- u))))
    with ((0 * (1 + exp (- u)) - (0 + exp (- u) * -1) * 1) / Rsqr (1 + exp (- u)))
    by (unfold Rsqr; field; lra).
  apply (derivable_pt_lim_div (fun _ => 1) (fun t => 1 + exp (- t))).
  - apply derivable_pt_lim_const.
  - apply (derivable_pt_lim_plus (fun _ => 1) (fun t => exp (- t))).
    + apply derivable_pt_lim_const.
    + apply (derivable_pt_lim_comp Ropp exp); [|apply derivable_pt_lim_exp].
      apply (deriv_ext (fun y => - id y)); [reflexivity|].
      apply (derivable_pt_lim_opp id), derivable_pt_lim_id.
  - lra.
Qed.

Lemma deriv_tanh u : derivable_pt_lim tanh u (1 - tanh u * tanh u).
Proof.
  unfold tanh.
  assert (C : cosh u <> 0).
  { unfold cosh. pose proof (exp_pos u). pose proof (exp_pos (- u)). lra. }
  replace (1 - sinh u / cosh u * (sinh u / cosh u))
    with ((cosh u * cosh u - sinh u * sinh u) / Rsqr (cosh u)) by (unfold Rsqr; field; exact C).
  apply (derivable_pt_lim_div sinh cosh);
    [apply derivable_pt_lim_sinh|apply derivable_pt_lim_cosh|exact C].
Qed.

Lemma deriv_pow n u : derivable_pt_lim (fun t => t ^ n) u (INR n * u ^ (n - 1)).
Proof.
  replace (n - 1)%nat with (pred n) by lia. apply derivable_pt_lim_pow.
Qed.

(** Every operation's rule is its derivative, where the operation is differentiable. *)
Lemma unary_rule op u d :
  unary_partial op u = Some d ->
  match op with
  | Abs | Sign => u <> 0
  | Custom f df => forall d, df u = Some d -> has_derivative f u d
  | _ => True
  end ->
  has_derivative (unary_value op) u d.
Proof.
  intros P C.
  assert (T : forall f, unary_value op = (fun t => Some (f t)) -> derivable_pt_lim f u d ->
                has_derivative (unary_value op) u d).
  { intros f E D. exists f, 1. repeat split; [lra| |exact D]. intros t _. now rewrite E. }
  destruct op; cbn in P; try (injection P as <-).
  - apply (T Ropp); [reflexivity|].
    apply (deriv_ext (fun y => - id y)); [reflexivity|].
    apply (derivable_pt_lim_opp id), derivable_pt_lim_id.
  - apply (T exp); [reflexivity|apply derivable_pt_lim_exp].
  - apply (T expm1); [reflexivity|]. unfold expm1.
    replace (exp u - 1 + 1) with (exp u - 0) by ring.
    apply (derivable_pt_lim_minus exp (fun _ => 1)); [apply derivable_pt_lim_exp|apply derivable_pt_lim_const].
  - unfold Rltb in P. destruct (Rlt_dec 0 u) as [L|]; [|discriminate]. injection P as <-.
    exists ln, u. repeat split; [exact L| |].
    + intros t H. cbn. unfold Rltb. apply Rabs_def2 in H. destruct (Rlt_dec 0 t); [reflexivity|lra].
    + replace (1 / u) with (/ u) by (field; lra). now apply derivable_pt_lim_ln.
  - unfold Rltb in P. destruct (Rlt_dec 0 (1 + u)) as [L|]; [|discriminate]. injection P as <-.
    exists log1p, (1 + u). repeat split; [exact L| |].
    + intros t H. cbn. unfold Rltb. apply Rabs_def2 in H. destruct (Rlt_dec 0 (1 + t)); [reflexivity|lra].
    + unfold log1p. replace (1 / (1 + u)) with (/ (1 + u) * (0 + 1)) by (field; lra).
      apply (derivable_pt_lim_comp (fun t => 1 + t) ln); [|now apply derivable_pt_lim_ln].
      apply (derivable_pt_lim_plus (fun _ => 1) id); [apply derivable_pt_lim_const|apply derivable_pt_lim_id].
  - unfold Rltb in P. destruct (Rlt_dec 0 u) as [L|]; [|discriminate]. injection P as <-.
    exists sqrt, u. repeat split; [exact L| |].
    + intros t H. cbn. unfold Rleb. apply Rabs_def2 in H. destruct (Rle_dec 0 t); [reflexivity|lra].
    + pose proof (sqrt_lt_R0 u L). replace 0.5 with (/ 2) by lra. replace (/ 2 / sqrt u) with (/ (2 * sqrt u)) by (field; lra).
      now apply derivable_pt_lim_sqrt.
  - apply (T cos); [reflexivity|apply derivable_pt_lim_cos].
  - unfold Rltb in P. destruct (Rlt_dec (-1) u) as [L|]; [|discriminate].
    destruct (Rlt_dec u 1) as [L'|]; [|discriminate]. injection P as <-.
    exists acos, (Rmin (1 - u) (1 + u)). repeat split; [apply Rmin_glb_lt; lra| |].
    + intros t H. cbn. unfold Rleb. apply Rabs_def2 in H.
      pose proof (Rmin_l (1 - u) (1 + u)). pose proof (Rmin_r (1 - u) (1 + u)).
      destruct (Rle_dec (-1) t), (Rle_dec t 1); try reflexivity; lra.
    + replace (1 - u * u) with (1 - u²) by reflexivity.
      replace (- (1 / sqrt (1 - u²))) with (-1 / sqrt (1 - u²)) by (unfold Rdiv; ring).
      exact (derive_pt_eq_1 _ _ _ _ (derive_pt_acos u (conj L L'))).
  - apply (T tanh); [reflexivity|apply deriv_tanh].
  - apply (T expit); [reflexivity|apply deriv_expit].
  - apply (T Rabs); [reflexivity|now apply deriv_abs].
  - apply (T jsign); [reflexivity|now apply deriv_jsign].
  - apply (T (fun t => t ^ n)); [reflexivity|apply deriv_pow].
  - apply (T sinc1); [reflexivity|apply deriv_sinc1].
  - destruct (C d P) as (g & delta & D & E & H). exists g, delta. auto.
Qed.

(** * Back-propagation computes derivatives *)

Lemma back_none e : forall r i, back e r i None = None.
Proof.
  induction e as [k|c|op a IH|op a IHa b IHb|a IHa b IHb c IHc|c a IHa b IHb]; intros r i; cbn.
  - destruct (k =? i)%nat; reflexivity.
  - reflexivity.
  - apply IH.
  - now rewrite IHa.
  - now rewrite IHa.
  - destruct (holds c r) as [[|]|]; cbn; [| |reflexivity]; rewrite IHa; [reflexivity|].
    destruct (back b r i None); reflexivity.
Qed.

Lemma back_input e r i c w : back e r i c = Some w -> exists c', c = Some c'.
Proof. destruct c as [c'|]; [eauto|]. rewrite back_none. discriminate. Qed.

Lemma obind_some {A B : Type} (a : option A) (f : A -> option B) w :
  obind a f = Some w -> exists u, a = Some u /\ f u = Some w.
Proof. destruct a as [u|]; [eauto|discriminate]. Qed.

Lemma oadd_some a b w : oadd a b = Some w -> exists u v, a = Some u /\ b = Some v /\ w = u + v.
Proof. destruct a as [u|], b as [v|]; try discriminate. cbn. intro H. injection H as <-. eauto. Qed.

Lemma omul_some a b w : omul a b = Some w -> exists u v, a = Some u /\ b = Some v /\ w = u * v.
Proof. destruct a as [u|], b as [v|]; try discriminate. cbn. intro H. injection H as <-. eauto. Qed.

Lemma pd_value F r i d v : F r = Some v -> partial_derivative F r i d ->
  exists f delta, 0 < delta /\ f (r i) = v /\
    (forall t, Rabs (t - r i) < delta -> F (replace r i t) = Some (f t)) /\ derivable_pt_lim f (r i) d.
Proof.
  intros V (f & delta & D & E & L). exists f, delta. repeat split; try assumption.
  pose proof (E (r i)) as H. rewrite replace_self, V in H. rewrite Rminus_eq_0, Rabs_R0 in H.
  now injection (H D).
Qed.

(** The derivative of an operation with two arguments along a path. *)
Lemma binary_rule op u v p q :
  binary_partial1 op u v = Some p -> binary_partial2 op u v = Some q ->
  match op with Max | Min => u <> v | _ => True end ->
  forall f g x d d', f x = u -> g x = v -> derivable_pt_lim f x d -> derivable_pt_lim g x d' ->
  exists h delta, 0 < delta /\
    (forall t, Rabs (t - x) < delta -> binary_value op (f t) (g t) = Some (h t)) /\
    derivable_pt_lim h x (p * d + q * d').
Proof.
  intros P Q C f g x d d' F G DF DG.
  assert (Cf : continuity_pt f x) by (apply derivable_continuous_pt; now exists d).
  assert (Cg : continuity_pt g x) by (apply derivable_continuous_pt; now exists d').
  assert (SEP : forall a b, continuity_pt a x -> continuity_pt b x -> a x < b x ->
            exists delta, 0 < delta /\ forall t, Rabs (t - x) < delta -> a t < b t).
  { intros a b Ca Cb L.
    destruct (Ca ((b x - a x) / 2)) as (m & M & A); [lra|].
    destruct (Cb ((b x - a x) / 2)) as (m' & M' & B); [lra|].
    exists (Rmin m m'). split; [now apply Rmin_glb_lt|]. intros t T.
    destruct (Req_dec t x) as [->|N]; [exact L|].
    assert (T1 : Rabs (a t - a x) < (b x - a x) / 2).
    { apply A. split; [split; [exact I|auto]|]. eapply Rlt_le_trans; [exact T|apply Rmin_l]. }
    assert (T2 : Rabs (b t - b x) < (b x - a x) / 2).
    { apply B. split; [split; [exact I|auto]|]. eapply Rlt_le_trans; [exact T|apply Rmin_r]. }
    apply Rabs_def2 in T1. apply Rabs_def2 in T2. lra. }
  destruct op; cbn in P, Q; try (injection P as <-; injection Q as <-).
  - exists (fun t => f t + g t), 1. repeat split; [lra|].
    replace (1 * d + 1 * d') with (d + d') by ring. now apply (derivable_pt_lim_plus f g).
  - exists (fun t => f t - g t), 1. repeat split; [lra|].
    replace (1 * d + -1 * d') with (d - d') by ring. now apply (derivable_pt_lim_minus f g).
  - exists (fun t => f t * g t), 1. repeat split; [lra|].
    replace (v * d + u * d') with (d * g x + f x * d') by (rewrite F, G; ring).
    now apply (derivable_pt_lim_mult f g).
  - unfold Reqb in P, Q. destruct (Req_EM_T v 0) as [|V]; [discriminate|].
    injection P as <-. injection Q as <-.
    assert (NZ : exists delta, 0 < delta /\ forall t, Rabs (t - x) < delta -> g t <> 0).
    { rewrite <- G in V. destruct (Rtotal_order (g x) 0) as [L|[E|L]]; [|contradiction|].
      - destruct (SEP g (fun _ => 0)) as (delta & D & A); [exact Cg| |exact L|].
        + apply derivable_continuous_pt. exists 0. apply derivable_pt_lim_const.
        + exists delta. split; [exact D|]. intros t T. specialize (A t T). lra.
      - destruct (SEP (fun _ => 0) g) as (delta & D & A); [|exact Cg|exact L|].
        + apply derivable_continuous_pt. exists 0. apply derivable_pt_lim_const.
        + exists delta. split; [exact D|]. intros t T. specialize (A t T). lra. }
    destruct NZ as (delta & D & A). exists (fun t => f t / g t), delta. repeat split; [exact D| |].
    + intros t T. cbn. unfold Reqb. destruct (Req_EM_T (g t) 0) as [E|_]; [|reflexivity].
      now apply A in E.
    + replace (1 / v * d + - u / (v * v) * d') with ((d * g x - d' * f x) / Rsqr (g x))
        by (rewrite F, G; unfold Rsqr; field; exact V).
      apply (derivable_pt_lim_div f g); [exact DF|exact DG|now rewrite G].
  - destruct (Rtotal_order u v) as [L|[E|L]]; [|contradiction|].
    + destruct (SEP f g) as (delta & D & A); [exact Cf|exact Cg|now rewrite F, G|].
      exists g, delta. repeat split; [exact D| |].
      * intros t T. cbn. rewrite Rmax_right; [reflexivity|]. specialize (A t T). lra.
      * unfold balanced, Rltb, Reqb. destruct (Rlt_dec u v); [|lra].
        destruct (Rlt_dec v u); [lra|]. destruct (Req_EM_T v u); [lra|].
        replace (0 * d + 1 * d') with d' by ring. exact DG.
    + destruct (SEP g f) as (delta & D & A); [exact Cg|exact Cf|now rewrite F, G|].
      exists f, delta. repeat split; [exact D| |].
      * intros t T. cbn. rewrite Rmax_left; [reflexivity|]. specialize (A t T). lra.
      * unfold balanced, Rltb, Reqb. destruct (Rlt_dec v u); [|lra].
        destruct (Rlt_dec u v); [lra|]. destruct (Req_EM_T u v); [lra|].
        replace (1 * d + 0 * d') with d by ring. exact DF.
  - destruct (Rtotal_order u v) as [L|[E|L]]; [|contradiction|].
    + destruct (SEP f g) as (delta & D & A); [exact Cf|exact Cg|now rewrite F, G|].
      exists f, delta. repeat split; [exact D| |].
      * intros t T. cbn. rewrite Rmin_left; [reflexivity|]. specialize (A t T). lra.
      * unfold balanced, Rltb, Reqb. destruct (Rlt_dec u v); [|lra].
        destruct (Rlt_dec v u); [lra|]. destruct (Req_EM_T v u); [lra|].
        replace (1 * d + 0 * d') with d by ring. exact DF.
    + destruct (SEP g f) as (delta & D & A); [exact Cg|exact Cf|now rewrite F, G|].
      exists g, delta. repeat split; [exact D| |].
      * intros t T. cbn. rewrite Rmin_right; [reflexivity|]. specialize (A t T). lra.
      * unfold balanced, Rltb, Reqb. destruct (Rlt_dec v u); [|lra].
        destruct (Rlt_dec u v); [lra|]. destruct (Req_EM_T u v); [lra|].
        replace (0 * d + 1 * d') with d' by ring. exact DG.
  - exists (fun t => logaddexp (f t) (g t)), 1. repeat split; [lra|]. unfold logaddexp.
    pose proof (exp_pos u) as EU. pose proof (exp_pos v) as EV.
    replace (exp (u - ln (exp u + exp v)) * d + exp (v - ln (exp u + exp v)) * d')
      with (/ (exp u + exp v) * (exp u * d + exp v * d')).
    2: { unfold Rminus. rewrite !exp_plus, exp_Ropp, exp_ln by lra. ring. }
    rewrite <- F, <- G.
    apply (derivable_pt_lim_comp (fun t => exp (f t) + exp (g t)) ln).
    + apply (derivable_pt_lim_plus (fun t => exp (f t)) (fun t => exp (g t))).
      * apply (derivable_pt_lim_comp f exp); [exact DF|apply derivable_pt_lim_exp].
      * apply (derivable_pt_lim_comp g exp); [exact DG|apply derivable_pt_lim_exp].
    + apply derivable_pt_lim_ln. rewrite F, G. lra.
Qed.

(** The derivative of a norm along a path. *)
Lemma norm_path f g h x d d' d'' :
  0 < norm3 (f x) (g x) (h x) -> derivable_pt_lim f x d -> derivable_pt_lim g x d' -> derivable_pt_lim h x d'' ->
  derivable_pt_lim (fun t => norm3 (f t) (g t) (h t)) x
    (norm3_partial (f x) (norm3 (f x) (g x) (h x)) * d + norm3_partial (g x) (norm3 (f x) (g x) (h x)) * d'
     + norm3_partial (h x) (norm3 (f x) (g x) (h x)) * d'').
Proof.
  intros N F G H. unfold norm3_partial, Rltb. destruct (Rlt_dec 0 _) as [_|]; [|contradiction].
  unfold norm3 in *. set (s := f x * f x + g x * g x + h x * h x) in *.
  assert (S0 : 0 < s).
  { destruct (Rle_lt_dec s 0) as [L|L]; [|exact L]. rewrite sqrt_neg_0 in N by exact L. lra. }
  replace (f x / sqrt s * d + g x / sqrt s * d' + h x / sqrt s * d'')
    with (/ (2 * sqrt s) * ((d * f x + f x * d) + (d' * g x + g x * d') + (d'' * h x + h x * d''))) by (field; lra).
  apply (derivable_pt_lim_comp (fun t => f t * f t + g t * g t + h t * h t) sqrt).
  - apply (derivable_pt_lim_plus (fun t => f t * f t + g t * g t) (fun t => h t * h t)).
    + apply (derivable_pt_lim_plus (fun t => f t * f t) (fun t => g t * g t)).
      * now apply (derivable_pt_lim_mult f f).
      * now apply (derivable_pt_lim_mult g g).
    + now apply (derivable_pt_lim_mult h h).
  - now apply derivable_pt_lim_sqrt.
Qed.

Lemma norm3_pos x y z : ~ (x = 0 /\ y = 0 /\ z = 0) -> 0 < norm3 x y z.
Proof.
  intro N. unfold norm3. apply sqrt_lt_R0.
  pose proof (Rle_0_sqr x) as X. pose proof (Rle_0_sqr y) as Y. pose proof (Rle_0_sqr z) as Z. unfold Rsqr in *.
  destruct (Rle_lt_dec (x * x + y * y + z * z) 0) as [L|L]; [|exact L]. exfalso. apply N.
  repeat split; apply Rsqr_0_uniq; unfold Rsqr; lra.
Qed.

Lemma back_zero e : forall r i w, back e r i (Some 0) = Some w -> w = 0.
Proof.
  induction e as [k|k|op a IH|op a IHa b IHb|a IHa b IHb k IHk|cc a IHa b IHb]; intros r i w B; cbn in B.
  - destruct (k =? i)%nat; injection B as <-; ring.
  - injection B as <-; ring.
  - destruct (obind (value a r) (unary_partial op)) as [p|]; cbn in B.
    + rewrite Rmult_0_l in B. now apply IH in B.
    + now rewrite back_none in B.
  - destruct (oadd_some _ _ _ B) as (w1 & w2 & B1 & B2 & ->).
    destruct (obind (value a r) (fun u => obind (value b r) (binary_partial1 op u))) as [p|];
      cbn in B1; [|now rewrite back_none in B1].
    destruct (obind (value a r) (fun u => obind (value b r) (binary_partial2 op u))) as [q|];
      cbn in B2; [|now rewrite back_none in B2].
    rewrite Rmult_0_l in B1, B2. apply IHa in B1. apply IHb in B2. lra.
  - destruct (oadd_some _ _ _ B) as (w0 & w3 & B0 & B3 & ->). destruct (oadd_some _ _ _ B0) as (w1 & w2 & B1 & B2 & ->).
    destruct (value a r) as [x|]; cbn [obind omul lift2] in B1, B2, B3; [|now rewrite back_none in B1].
    destruct (value b r) as [y|]; cbn [obind omul lift2] in B1, B2, B3; [|now rewrite back_none in B1].
    destruct (value k r) as [z|]; cbn [obind omul lift2] in B1, B2, B3; [|now rewrite back_none in B1].
    unfold omul, lift2 in B1, B2, B3.
    rewrite Rmult_0_l in B1, B2, B3. apply IHa in B1. apply IHb in B2. apply IHk in B3. lra.
  - destruct (obind_some _ _ _ B) as (s & _ & B'). destruct (oadd_some _ _ _ B') as (w1 & w2 & B1 & B2 & ->).
    destruct s; cbn in B1, B2; rewrite ?Rmult_0_l in B1; rewrite ?Rmult_0_l in B2; apply IHa in B1; apply IHb in B2; lra.
Qed.

Lemma sound e : forall r i c w, settled e r i -> back e r i (Some c) = Some w ->
  (exists v, value e r = Some v) ->
  exists d, w = c * d /\ partial_derivative (value e) r i d.
Proof.
  induction e as [k|k|op a IH|op a IHa b IHb|a IHa b IHb k IHk|cc a IHa b IHb]; intros r i c w S B [v V].
  - cbn in B. destruct (Nat.eqb_spec k i) as [->|N].
    + injection B as <-. exists 1. split; [ring|]. exists (fun t => t), 1. repeat split; [lra| |].
      * intros t _. cbn. now rewrite replace_same.
      * apply derivable_pt_lim_id.
    + injection B as <-. exists 0. split; [ring|]. exists (fun _ => r k), 1. repeat split; [lra| |].
      * intros t _. cbn. unfold replace. now rewrite (proj2 (Nat.eqb_neq k i) N).
      * apply derivable_pt_lim_const.
  - injection B as <-. exists 0. split; [ring|]. exists (fun _ => k), 1. repeat split; [lra|].
    apply derivable_pt_lim_const.
  - cbn [back value settled] in *. destruct S as [S C].
    destruct (obind_some _ _ _ V) as (u & U & W).
    destruct (back_input _ _ _ _ _ B) as [c' E]. rewrite E in B.
    rewrite U in E. cbn [obind] in E. apply omul_some in E. destruct E as (c0 & p & E0 & P & ->).
    injection E0 as <-.
    destruct (IH r i _ _ S B (ex_intro _ u U)) as (d & -> & PD).
    destruct (pd_value _ _ _ _ _ U PD) as (f & delta & D & F & A & L).
    destruct (unary_rule op u p P (C u U)) as (g & eta & H & G & K).
    exists (p * d). split; [ring|].
    assert (Cf : continuity_pt f (r i)) by (apply derivable_continuous_pt; now exists d).
    destruct (Cf eta H) as (m & M & Q).
    exists (fun t => g (f t)), (Rmin delta m). repeat split; [now apply Rmin_glb_lt| |].
    + intros t T. rewrite A by (eapply Rlt_le_trans; [exact T|apply Rmin_l]). cbn [obind].
      apply G. rewrite <- F. destruct (Req_dec t (r i)) as [->|N].
      * now rewrite Rminus_eq_0, Rabs_R0.
      * apply Q. split; [split; [exact I|auto]|]. eapply Rlt_le_trans; [exact T|apply Rmin_r].
    + apply (derivable_pt_lim_comp f g); [exact L|now rewrite F].
  - cbn [back value settled] in *. destruct S as (Sa & Sb & C).
    destruct (obind_some _ _ _ V) as (u & U & W). destruct (obind_some _ _ _ W) as (u' & U' & W').
    destruct (oadd_some _ _ _ B) as (w1 & w2 & B1 & B2 & ->).
    destruct (back_input _ _ _ _ _ B1) as [c1 E1]. rewrite E1 in B1.
    destruct (back_input _ _ _ _ _ B2) as [c2 E2]. rewrite E2 in B2.
    rewrite U, U' in E1, E2. cbn [obind] in E1, E2.
    apply omul_some in E1. destruct E1 as (c0 & p & E0 & P & ->). injection E0 as <-.
    apply omul_some in E2. destruct E2 as (c0 & q & E0 & Q & ->). injection E0 as <-.
    destruct (IHa r i _ _ Sa B1 (ex_intro _ u U)) as (d & -> & PD).
    destruct (IHb r i _ _ Sb B2 (ex_intro _ u' U')) as (d' & -> & PD').
    destruct (pd_value _ _ _ _ _ U PD) as (f & delta & D & F & A & L).
    destruct (pd_value _ _ _ _ _ U' PD') as (g & delta' & D' & G & A' & L').
    assert (C' : match op with Max | Min => u <> u' | _ => True end).
    { rewrite U, U' in C. destruct op; try exact I; intro E; apply C; now rewrite E. }
    destruct (binary_rule op u u' p q P Q C' f g (r i) d d' F G L L') as (h & eta & H & K & M).
    exists (p * d + q * d'). split; [ring|].
    exists h, (Rmin eta (Rmin delta delta')).
    repeat split; [repeat apply Rmin_glb_lt; assumption| |exact M].
    intros t T.
    pose proof (Rmin_l eta (Rmin delta delta')). pose proof (Rmin_r eta (Rmin delta delta')).
    pose proof (Rmin_l delta delta'). pose proof (Rmin_r delta delta').
    rewrite A, A' by lra. cbn [obind]. apply K. lra.
  - cbn [back value settled] in *. destruct S as (Sa & Sb & Sk & C).
    destruct (obind_some _ _ _ V) as (x & X & W). destruct (obind_some _ _ _ W) as (y & Y & W').
    destruct (obind_some _ _ _ W') as (z & Z & W''). clear W W' V. injection W'' as <-.
    rewrite X, Y, Z in B. cbn [obind] in B. unfold omul, lift2 in B.
    destruct (oadd_some _ _ _ B) as (w0 & w3 & B0 & B3 & ->). destruct (oadd_some _ _ _ B0) as (w1 & w2 & B1 & B2 & ->).
    destruct (IHa r i _ _ Sa B1 (ex_intro _ x X)) as (d & -> & PD).
    destruct (IHb r i _ _ Sb B2 (ex_intro _ y Y)) as (d' & -> & PD').
    destruct (IHk r i _ _ Sk B3 (ex_intro _ z Z)) as (d'' & -> & PD'').
    destruct (pd_value _ _ _ _ _ X PD) as (f & delta & D & F & A & L).
    destruct (pd_value _ _ _ _ _ Y PD') as (g & delta' & D' & G & A' & L').
    destruct (pd_value _ _ _ _ _ Z PD'') as (h & delta'' & D'' & H & A'' & L'').
    assert (P : 0 < norm3 x y z).
    { apply norm3_pos. intros (-> & -> & ->). now apply C. }
    eexists. split.
    2: { exists (fun t => norm3 (f t) (g t) (h t)), (Rmin delta (Rmin delta' delta'')).
         split; [repeat apply Rmin_glb_lt; assumption|]. split.
         - intros t T. pose proof (Rmin_l delta (Rmin delta' delta'')). pose proof (Rmin_r delta (Rmin delta' delta'')).
           pose proof (Rmin_l delta' delta''). pose proof (Rmin_r delta' delta'').
           rewrite A, A', A'' by lra. reflexivity.
         - apply norm_path; [now rewrite F, G, H|exact L|exact L'|exact L'']. }
    rewrite F, G, H. ring.
  - cbn [back value settled] in *. destruct S as ((delta & D & ST) & S).
    destruct (obind_some _ _ _ V) as (s & Hs & W). rewrite Hs in B, S. cbn [obind] in B.
    destruct (oadd_some _ _ _ B) as (w1 & w2 & B1 & B2 & ->).
    destruct s.
    + destruct (IHa r i _ _ S B1 (ex_intro _ v W)) as (d & -> & (f & eta & H & A & L)).
      assert (Z : w2 = 0).
      { cbn in B2. rewrite Rmult_0_r in B2. now apply back_zero in B2. }
      exists d. split; [lra|]. exists f, (Rmin delta eta). repeat split; [now apply Rmin_glb_lt| |exact L].
      intros t T. rewrite ST by (eapply Rlt_le_trans; [exact T|apply Rmin_l]). rewrite Hs. cbn [obind].
      apply A. eapply Rlt_le_trans; [exact T|apply Rmin_r].
    + destruct (IHb r i _ _ S B2 (ex_intro _ v W)) as (d & -> & (f & eta & H & A & L)).
      assert (Z : w1 = 0).
      { cbn in B1. rewrite Rmult_0_r in B1. now apply back_zero in B1. }
      exists d. split; [lra|]. exists f, (Rmin delta eta). repeat split; [now apply Rmin_glb_lt| |exact L].
      intros t T. rewrite ST by (eapply Rlt_le_trans; [exact T|apply Rmin_l]). rewrite Hs. cbn [obind].
      apply A. eapply Rlt_le_trans; [exact T|apply Rmin_r].
Qed.

(** * Comparisons that do not change *)

Definition cont (e : expr) (r : nat -> R) (i : nat) (u : R) : Prop :=
  exists f delta, 0 < delta /\ f (r i) = u /\
    (forall t, Rabs (t - r i) < delta -> value e (replace r i t) = Some (f t)) /\ continuity_pt f (r i).

Lemma cont_value e r i u : cont e r i u -> value e r = Some u.
Proof.
  intros (f & delta & D & F & A & _). specialize (A (r i)). rewrite replace_self in A.
  rewrite A, F; [reflexivity|]. rewrite Rminus_eq_0, Rabs_R0. exact D.
Qed.

Lemma cont_diff e r i u d : settled e r i -> diff e r i u d -> cont e r i u.
Proof.
  intros S [V B]. destruct (sound e r i 1 _ S (B 1) (ex_intro _ u V)) as (d' & _ & PD).
  destruct (pd_value _ _ _ _ _ V PD) as (f & delta & D & F & A & L).
  exists f, delta. repeat split; try assumption. apply derivable_continuous_pt. now exists d'.
Qed.

Lemma cont_var r i : cont (Var i) r i (r i).
Proof. eapply cont_diff; [exact I|apply diff_var]. Qed.

Lemma cont_const c r i : cont (Const c) r i c.
Proof. eapply cont_diff; [exact I|apply diff_const]. Qed.

Lemma cont_abs e r i u : cont e r i u -> cont (Un Abs e) r i (Rabs u).
Proof.
  intros (f & delta & D & F & A & C). exists (fun t => Rabs (f t)), delta. repeat split.
  - exact D.
  - now rewrite F.
  - intros t T. cbn. now rewrite A.
  - apply (continuity_pt_comp f Rabs); [exact C|apply Rcontinuity_abs].
Qed.

Lemma close f x m : continuity_pt f x -> 0 < m ->
  exists delta, 0 < delta /\ forall t, Rabs (t - x) < delta -> Rabs (f t - f x) < m.
Proof.
  intros C M. destruct (C m M) as (delta & D & A). exists delta. split; [exact D|].
  intros t T. destruct (Req_dec t x) as [->|N].
  - now rewrite Rminus_eq_0, Rabs_R0.
  - apply A. split; [split; [exact I|auto]|exact T].
Qed.

Lemma steady_compare a b r i u v : cont a r i u -> cont b r i v -> u <> v ->
  steady (Less a b) r i /\ steady (LessEq a b) r i.
Proof.
  intros A B N. pose proof (cont_value _ _ _ _ A) as VA. pose proof (cont_value _ _ _ _ B) as VB.
  destruct A as (f & d1 & D1 & F & A & Cf). destruct B as (g & d2 & D2 & G & B & Cg).
  assert (M : 0 < Rabs (u - v) / 2) by (pose proof (Rabs_pos_lt (u - v) (Rminus_eq_contra _ _ N)); lra).
  destruct (close f (r i) _ Cf M) as (m & Hm & P). destruct (close g (r i) _ Cg M) as (m' & Hm' & Q).
  set (delta := Rmin (Rmin d1 d2) (Rmin m m')).
  assert (D : 0 < delta) by (unfold delta; repeat apply Rmin_glb_lt; assumption).
  assert (L : delta <= d1 /\ delta <= d2 /\ delta <= m /\ delta <= m').
  { unfold delta. pose proof (Rmin_l (Rmin d1 d2) (Rmin m m')). pose proof (Rmin_r (Rmin d1 d2) (Rmin m m')).
    pose proof (Rmin_l d1 d2). pose proof (Rmin_r d1 d2). pose proof (Rmin_l m m'). pose proof (Rmin_r m m').
    lra. }
  assert (K : forall t, Rabs (t - r i) < delta -> (u < v -> f t < g t) /\ (v < u -> g t < f t)).
  { intros t T. specialize (P t ltac:(lra)). specialize (Q t ltac:(lra)). rewrite F in P. rewrite G in Q.
    apply Rabs_def2 in P. apply Rabs_def2 in Q.
    split; intro O; [rewrite (Rabs_left (u - v)) in P, Q by lra|rewrite (Rabs_right (u - v)) in P, Q by lra]; lra. }
  split; exists delta; (split; [exact D|]); intros t T; cbn; rewrite VA, VB, A, B by lra; cbn; f_equal;
    destruct (K t T) as [K1 K2]; unfold Rltb, Rleb.
  - destruct (Rlt_dec u v), (Rlt_dec (f t) (g t)); try reflexivity; exfalso; lra.
  - destruct (Rle_dec u v), (Rle_dec (f t) (g t)); try reflexivity; exfalso; lra.
Qed.

Lemma steady_less a b r i u v : cont a r i u -> cont b r i v -> u <> v -> steady (Less a b) r i.
Proof. intros A B N. now destruct (steady_compare a b r i u v A B N). Qed.
Lemma steady_lesseq a b r i u v : cont a r i u -> cont b r i v -> u <> v -> steady (LessEq a b) r i.
Proof. intros A B N. now destruct (steady_compare a b r i u v A B N). Qed.
Lemma steady_or c d r i : steady c r i -> steady d r i -> steady (Or c d) r i.
Proof.
  intros (m & M & A) (m' & M' & B). exists (Rmin m m'). split; [now apply Rmin_glb_lt|].
  intros t T. cbn. rewrite A, B; [reflexivity| |]; eapply Rlt_le_trans; try exact T; [apply Rmin_r|apply Rmin_l].
Qed.

(** * From the rules to derivatives *)

Lemma differentiates_intro e g (domain exceptions : R -> Prop) :
  (forall r, domain (r 0%nat) -> exists d, diff e r 0 (g (r 0%nat)) d) ->
  (forall r, domain (r 0%nat) -> ~ exceptions (r 0%nat) ->
     settled e r 0 /\ exists delta, 0 < delta /\ forall t, Rabs (t - r 0%nat) < delta -> domain t) ->
  differentiates e g domain exceptions.
Proof.
  intros H S r D. destruct (H r D) as (d & V & B). split; [exact V|].
  exists d. split; [now apply (diff_gradient e r 0 (g (r 0%nat)))|]. intro N.
  destruct (S r D N) as [T (eta & E & O)].
  destruct (sound e r 0 1 _ T (B 1) (ex_intro _ _ V)) as (d' & Q & (f & delta & P & A & L)).
  replace d with d' by lra.
  apply (local_deriv f g _ _ (Rmin delta eta)); [now apply Rmin_glb_lt| |exact L].
  intros t T'. pose proof (Rmin_l delta eta). pose proof (Rmin_r delta eta).
  specialize (A t ltac:(lra)).
  destruct (H (replace r 0 t)) as (d0 & V0 & _); [rewrite replace_same; apply O; lra|].
  rewrite A, replace_same in V0. now injection V0.
Qed.

(** * Automation *)

Lemma diff_div' a b r i u v d d' :
  diff a r i u d -> diff b r i v d' -> v <> 0 ->
  diff (a /! b) r i (u / v) (1 / v * d + - u / (v * v) * d').
Proof. intros. now apply diff_div. Qed.
Lemma diff_sqrt' a r i u d :
  diff a r i u d -> 0 < u -> diff (Un Sqrt a) r i (sqrt u) (0.5 / sqrt u * d).
Proof. intros. now apply diff_sqrt. Qed.
Lemma diff_arccos' a r i u d :
  diff a r i u d -> -1 < u < 1 -> diff (Un Arccos a) r i (acos u) (- (1 / sqrt (1 - u * u)) * d).
Proof. intros. now apply diff_arccos. Qed.
Lemma diff_logistic a r i u d :
  diff a r i u d -> diff (Un Logistic a) r i (expit u) (expit u * (1 - expit u) * d).
Proof. intros A. eapply (diff_un Logistic); eauto; reflexivity. Qed.
Lemma diff_log a r i u d :
  diff a r i u d -> 0 < u -> diff (Un Log a) r i (ln u) (1 / u * d).
Proof. intros A U. eapply (diff_un Log); eauto; cbn; unfold Rltb; destruct Rlt_dec; easy. Qed.
Lemma diff_log1p a r i u d :
  diff a r i u d -> 0 < 1 + u -> diff (Un Log1p a) r i (log1p u) (1 / (1 + u) * d).
Proof. intros A U. eapply (diff_un Log1p); eauto; cbn; unfold Rltb; destruct Rlt_dec; easy. Qed.
Lemma diff_sinc a r i u d :
  diff a r i u d -> exists p, diff (Un Sinc a) r i (sinc1 u) (p * d).
Proof. intros A. eexists. eapply (diff_un Sinc); eauto; reflexivity. Qed.
Lemma holds_less' a b r i u v d d' :
  diff a r i u d -> diff b r i v d' -> holds (Less a b) r = Some (Rltb u v).
Proof. intros [A _] [B _]. now apply holds_less. Qed.
Lemma holds_lesseq' a b r i u v d d' :
  diff a r i u d -> diff b r i v d' -> holds (LessEq a b) r = Some (Rleb u v).
Proof. intros [A _] [B _]. now apply holds_lesseq. Qed.

Lemma diff_norm a b k r i x y z d d' d'' :
  diff a r i x d -> diff b r i y d' -> diff k r i z d'' ->
  diff (Norm a b k) r i (norm3 x y z)
    (norm3_partial x (norm3 x y z) * d + norm3_partial y (norm3 x y z) * d' + norm3_partial z (norm3 x y z) * d'').
Proof.
  intros [V B] [V' B'] [V'' B'']. split; cbn [value back].
  - now rewrite V, V', V''.
  - intro c. rewrite V, V', V''. cbn [obind]. unfold omul, lift2. rewrite B, B', B''. cbn. f_equal; ring.
Qed.

Ltac diff_step_at i :=
  lazymatch goal with
  | |- diff (Var ?k) _ ?k _ _ => apply diff_var
  | |- diff (Var _) _ _ _ _ => apply diff_other; discriminate
  | |- diff (Const _) _ _ _ _ => apply diff_const
  | |- diff (Bin Add _ _) _ _ _ _ => eapply diff_add
  | |- diff (Bin Sub _ _) _ _ _ _ => eapply diff_sub
  | |- diff (Bin Mul _ _) _ _ _ _ => eapply diff_mul
  | |- diff (Bin Div _ _) _ _ _ _ => eapply diff_div'
  | |- diff (Bin Max _ _) _ _ _ _ => eapply diff_max
  | |- diff (Bin Min _ _) _ _ _ _ => eapply diff_min
  | |- diff (Bin LogAddExp _ _) _ _ _ _ => eapply diff_logaddexp
  | |- diff (Un Neg _) _ _ _ _ => eapply diff_neg
  | |- diff (Un Exp _) _ _ _ _ => eapply diff_exp
  | |- diff (Un Expm1 _) _ _ _ _ => eapply diff_expm1
  | |- diff (Un Log _) _ _ _ _ => eapply diff_log
  | |- diff (Un Log1p _) _ _ _ _ => eapply diff_log1p
  | |- diff (Un Sqrt _) _ _ _ _ => eapply diff_sqrt'
  | |- diff (Un Cos _) _ _ _ _ => eapply diff_cos
  | |- diff (Un Arccos _) _ _ _ _ => eapply diff_arccos'
  | |- diff (Un Tanh _) _ _ _ _ => eapply diff_tanh
  | |- diff (Un Logistic _) _ _ _ _ => eapply diff_logistic
  | |- diff (Un Abs _) _ _ _ _ => eapply diff_abs
  | |- diff (Un Sign _) _ _ _ _ => eapply diff_sign
  | |- diff (Un (IntegerPow _) _) _ _ _ _ => eapply diff_pow
  | |- diff (Un (Custom _ _) _) _ _ _ _ => eapply diff_custom
  | |- diff (Norm _ _ _) _ _ _ _ => eapply diff_norm
  | |- diff (Where _ _ _) _ _ _ _ => eapply diff_where
  | |- holds (Less _ _) _ = _ => eapply (holds_less' _ _ _ i)
  | |- holds (LessEq _ _) _ = _ => eapply (holds_lesseq' _ _ _ i)
  | |- holds (Or _ _) _ = _ => eapply holds_or
  end.
Ltac diff_step := diff_step_at 0%nat.
Ltac diff_tree := repeat diff_step.
