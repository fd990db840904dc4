Require Import List Reals ZArith Bool Lra Lia.
From Coquelicot Require Import Coquelicot.
Require Import Verif.Base Verif.Smooth Verif.RSum Verif.Features_Model Verif.Features_Spec Verif.Features_Proofs Verif.Radial_Model
  Verif.Radial_Proofs Verif.Activations_Model Verif.Activations_Spec.
Import ListNotations.
Open Scope R_scope.

Definition gated (g : R -> R) (x : feat) : feat :=
  mkFeat (fB x) (fS x) (fD x) (fF x) (fdt x) (fun i s d f => g (fv x i 0%nat 0%nat f) * fv x i s d f).

Lemma gated_ok g x : gated_linear g x = Ok (gated g x).
Proof.
  unfold gated_linear, check_ndim, shape_of. rewrite app_length. simpl length.
  destruct (Nat.ltb_spec (length (fB x) + 3) 3); [lia|reflexivity].
Qed.

Lemma scalar_of_gate g phi err : (forall t, Rabs (g t * t - phi t) <= err t) ->
  scalar_function (gated_linear g) phi err.
Proof.
  intros H x. exists (gated g x). split; [apply gated_ok|]. repeat (split; [reflexivity|]).
  intros i f. apply H.
Qed.

Lemma scalar_exact g phi : (forall t, g t * t = phi t) -> scalar_function (gated_linear g) phi exact.
Proof.
  intros H. apply scalar_of_gate. intros t. rewrite H, Rminus_eq_0, Rabs_R0. unfold exact. lra.
Qed.

Lemma jsign_cases x : (x < 0 /\ jsign x = -1) \/ (x = 0 /\ jsign x = 0) \/ (0 < x /\ jsign x = 1).
Proof.
  unfold jsign. destruct (Rltb x 0) eqn:E; bools; [left; auto|].
  destruct (Reqb x 0) eqn:E2; bools; [right; left; auto|right; right]. split; [lra|reflexivity].
Qed.

Lemma relu_scalar t : relu_gate t * t = doc_relu t.
Proof.
  unfold relu_gate, doc_relu. destruct (jsign_cases t) as [[H ->]|[[-> ->]|[H ->]]].
  - rewrite !Rmax_right by lra. ring.
  - rewrite Rmax_left by lra. ring.
  - rewrite !Rmax_left by lra. ring.
Qed.

Lemma leaky_relu_scalar a t : leaky_relu_gate a t * t = doc_leaky_relu a t.
Proof. unfold leaky_relu_gate, doc_leaky_relu, Rleb. destruct (Rle_dec 0 t); ring. Qed.

Lemma Rabs_sub_le a b c : a = b -> 0 <= c -> Rabs (a - b) <= c.
Proof. intros -> H. rewrite Rminus_eq_0, Rabs_R0. exact H. Qed.

Lemma pow4_nonneg t : 0 <= t ^ 4.
Proof. simpl. nra. Qed.

Lemma taylor_nonneg eps c t : 0 <= c -> 0 <= taylor_error eps c t.
Proof.
  intros H. unfold taylor_error. destruct (Rle_dec _ _); [|lra]. pose proof (pow4_nonneg t). nra.
Qed.

(** Taylor polynomial of (exp t - 1) for t <= 0. *)
Lemma exp_taylor_neg t : t <= 0 -> Rabs ((t * t / 6 + t / 2 + 1) * t - (exp t - 1)) <= t ^ 4 / 24.
Proof.
  intros H. pose proof (exp_taylor3 (- t) ltac:(lra)). pose proof (exp_taylor4 (- t) ltac:(lra)).
  rewrite Ropp_involutive in *. apply Rabs_le. simpl. split; nra.
Qed.

Lemma elu_scalar eps a t : 0 < eps -> Rabs (elu_gate eps a t * t - doc_elu a t) <= taylor_error eps (Rabs a / 24) t.
Proof.
  intros He. pose proof (Rabs_pos a). unfold elu_gate, doc_elu. unfold Rltb.
  destruct (Rlt_dec 0 t) as [P|P].
  { apply Rabs_sub_le; [ring|apply taylor_nonneg; lra]. }
  destruct (Rlt_dec eps (Rabs t)) as [Q|Q].
  - apply Rabs_sub_le; [|apply taylor_nonneg; lra]. unfold expm1. field.
    intros ->. rewrite Rabs_R0 in Q. lra.
  - unfold taylor_error. destruct (Rle_dec (Rabs t) eps); [|lra].
    replace (a * (t * t / 6 + t / 2 + 1) * t - a * (exp t - 1)) with (a * ((t * t / 6 + t / 2 + 1) * t - (exp t - 1))) by ring.
    rewrite Rabs_mult. pose proof (exp_taylor_neg t ltac:(lra)). nra.
Qed.

Lemma celu_scalar eps a t : 0 < eps -> 0 < a ->
  Rabs (celu_gate eps a t * t - doc_celu a t) <= taylor_error eps (/ (24 * a ^ 3)) t.
Proof.
  intros He Ha. assert (0 < / (24 * a ^ 3)) as Hi.
  { apply Rinv_0_lt_compat. assert (0 < a ^ 3) by now apply pow_lt. lra. }
  unfold celu_gate, doc_celu. unfold Rltb.
  destruct (Rlt_dec 0 t) as [P|P].
  { apply Rabs_sub_le; [ring|apply taylor_nonneg; lra]. }
  destruct (Rlt_dec eps (Rabs t)) as [Q|Q].
  - apply Rabs_sub_le; [|apply taylor_nonneg; lra]. unfold expm1. field.
    intros ->. rewrite Rabs_R0 in Q. lra.
  - unfold taylor_error. destruct (Rle_dec (Rabs t) eps); [|lra].
    set (u := t / a). assert (u <= 0) as Hu.
    { unfold u, Rdiv. pose proof (Rinv_0_lt_compat a Ha). nra. }
    replace ((t * t / (6 * a * a) + t / (2 * a) + 1) * t - a * (exp u - 1))
      with (a * ((u * u / 6 + u / 2 + 1) * u - (exp u - 1))) by (unfold u; field; lra).
    rewrite Rabs_mult, (Rabs_right a) by lra.
    pose proof (exp_taylor_neg u Hu) as B.
    replace (/ (24 * a ^ 3) * t ^ 4) with (a * (u ^ 4 / 24)).
    + apply Rmult_le_compat_l; lra.
    + unfold u. field. lra.
Qed.

Lemma silu_scalar t : expit t * t = doc_silu t.
Proof. unfold expit, doc_silu. pose proof (exp_pos (- t)). field. lra. Qed.

Lemma gelu_scalar erf t : gelu_gate erf false t * t = doc_gelu erf t.
Proof. unfold gelu_gate, doc_gelu. field. Qed.

Lemma gelu_approx_scalar erf t : gelu_gate erf true t * t = doc_gelu_approximate t.
Proof. unfold gelu_gate, doc_gelu_approximate. cbv zeta. set (h := tanh _). lra. Qed.

Lemma jsoftplus_eq t : jsoftplus t = ln (1 + exp t).
Proof. unfold jsoftplus, logaddexp. rewrite exp_0. f_equal. ring. Qed.

Lemma mish_fast t : mish_gate true t = mish_gate false t.
Proof.
  unfold mish_gate. rewrite jsoftplus_eq. cbv zeta. unfold tanh, sinh, cosh.
  pose proof (exp_pos t). pose proof (exp_pos (- t)).
  rewrite exp_Ropp, (exp_Ropp (ln _)), exp_ln by lra. field.
  repeat split; try nra.
Qed.

Lemma mish_scalar b t : mish_gate b t * t = doc_mish t.
Proof.
  destruct b; [rewrite mish_fast|]; unfold mish_gate, doc_mish; rewrite jsoftplus_eq; ring.
Qed.

Lemma serf_scalar erf t : serf_gate erf t * t = doc_serf erf t.
Proof. unfold serf_gate, doc_serf. rewrite jsoftplus_eq. ring. Qed.

(** ln cosh (t/2) = ln ((1 + e^t)/2) - t/2, up to t^4/192 equal to t^2/8. *)
Definition lch (t : R) : R := doc_shifted_softplus t - t / 2.

Lemma lch_even t : lch (- t) = lch t.
Proof.
  unfold lch, doc_shifted_softplus. pose proof (exp_pos t).
  replace (1 / 2 * (1 + exp (- t))) with ((1 / 2 * (1 + exp t)) * exp (- t)).
  - rewrite ln_mult by (try apply exp_pos; lra). rewrite ln_exp. field.
  - rewrite exp_Ropp. field. lra.
Qed.

Definition lch' (t : R) : R := / 2 - / (1 + exp t).

Lemma lch_deriv t : derivable_pt_lim lch t (lch' t).
Proof.
  apply is_derive_Reals. unfold lch, doc_shifted_softplus, lch'. pose proof (exp_pos t).
  auto_derive; [lra|]. field. lra.
Qed.

Lemma lch'_deriv t : derivable_pt_lim lch' t (/ 4 - lch' t * lch' t).
Proof.
  apply is_derive_Reals. unfold lch'. pose proof (exp_pos t).
  auto_derive; [lra|]. field. lra.
Qed.

Lemma lch'_0 : lch' 0 = 0.
Proof. unfold lch'. rewrite exp_0. lra. Qed.
Lemma lch_0 : lch 0 = 0.
Proof. unfold lch, doc_shifted_softplus. rewrite exp_0. replace (1 / 2 * (1 + 1)) with 1 by lra. rewrite ln_1. lra. Qed.

Lemma lch'_nonneg t : 0 <= t -> 0 <= lch' t.
Proof.
  intros H. unfold lch'. assert (1 <= exp t). { pose proof (exp_ineq1_le t). lra. }
  assert (/ (1 + exp t) <= / 2) by (apply Rinv_le_contravar; lra). lra.
Qed.

Lemma lch'_upper t : 0 <= t -> lch' t <= t / 4.
Proof.
  intros H. assert (0 / 4 - lch' 0 <= t / 4 - lch' t) as G; [|rewrite lch'_0 in G; lra].
  apply (deriv_nonneg_le (fun t => t / 4 - lch' t) (fun t => lch' t * lch' t)); [exact H| |intros; nra].
  intros z _.
  replace (lch' z * lch' z) with (/ 4 - (/ 4 - lch' z * lch' z)) by ring.
  apply (derivable_pt_lim_minus (fun t => t / 4) lch'); [|apply lch'_deriv].
  apply is_derive_Reals. auto_derive; [trivial|]. field.
Qed.

Lemma lch'_lower t : 0 <= t -> t / 4 - t ^ 3 / 48 <= lch' t.
Proof.
  intros H. assert (lch' 0 - (0 / 4 - 0 ^ 3 / 48) <= lch' t - (t / 4 - t ^ 3 / 48)) as G.
  2:{ rewrite lch'_0 in G. simpl in G. simpl. lra. }
  apply (deriv_nonneg_le (fun t => lch' t - (t / 4 - t ^ 3 / 48)) (fun t => t * t / 16 - lch' t * lch' t)); [exact H| |].
  - intros z _. replace (z * z / 16 - lch' z * lch' z) with ((/ 4 - lch' z * lch' z) - (/ 4 - z * z / 16)) by ring.
    apply (derivable_pt_lim_minus lch' (fun t => t / 4 - t ^ 3 / 48)); [apply lch'_deriv|].
    apply is_derive_Reals. auto_derive; [trivial|]. simpl. field.
  - intros z Hz. pose proof (lch'_nonneg z ltac:(lra)). pose proof (lch'_upper z ltac:(lra)). nra.
Qed.

Lemma lch_bounds_pos t : 0 <= t -> 0 <= t * t / 8 - lch t <= t ^ 4 / 192.
Proof.
  intros H. split.
  - assert (0 * 0 / 8 - lch 0 <= t * t / 8 - lch t) as G; [|rewrite lch_0 in G; lra].
    apply (deriv_nonneg_le (fun t => t * t / 8 - lch t) (fun t => t / 4 - lch' t)); [exact H| |].
    + intros z _. apply (derivable_pt_lim_minus (fun t => t * t / 8) lch); [|apply lch_deriv].
      apply is_derive_Reals. auto_derive; [trivial|]. field.
    + intros z Hz. pose proof (lch'_upper z ltac:(lra)). lra.
  - assert (lch 0 - (0 * 0 / 8 - 0 ^ 4 / 192) <= lch t - (t * t / 8 - t ^ 4 / 192)) as G.
    2:{ rewrite lch_0 in G. simpl in G. simpl. lra. }
    apply (deriv_nonneg_le (fun t => lch t - (t * t / 8 - t ^ 4 / 192)) (fun t => lch' t - (t / 4 - t ^ 3 / 48))); [exact H| |].
    + intros z _. apply (derivable_pt_lim_minus lch (fun t => t * t / 8 - t ^ 4 / 192)); [apply lch_deriv|].
      apply is_derive_Reals. auto_derive; [trivial|]. simpl. field.
    + intros z Hz. pose proof (lch'_lower z ltac:(lra)). lra.
Qed.

Lemma lch_bounds t : 0 <= t * t / 8 - lch t <= t ^ 4 / 192.
Proof.
  destruct (Rle_dec 0 t) as [H|H]; [now apply lch_bounds_pos|].
  pose proof (lch_bounds_pos (- t) ltac:(lra)) as B. rewrite lch_even in B.
  replace ((- t) ^ 4) with (t ^ 4) in B by ring. replace (- t * - t) with (t * t) in B by ring. exact B.
Qed.

Lemma shifted_softplus_scalar eps t : 0 < eps ->
  Rabs (shifted_softplus_gate eps t * t - doc_shifted_softplus t) <= taylor_error eps (1 / 192) t.
Proof.
  intros He. unfold shifted_softplus_gate, Rltb. destruct (Rlt_dec eps (Rabs t)) as [Q|Q].
  - apply Rabs_sub_le; [|apply taylor_nonneg; lra].
    fold (jsoftplus t). rewrite jsoftplus_eq. unfold doc_shifted_softplus. pose proof (exp_pos t).
    replace (1 / 2 * (1 + exp t)) with (/ 2 * (1 + exp t)) by lra.
    rewrite ln_mult, ln_Rinv by lra. field.
    intros ->. rewrite Rabs_R0 in Q. lra.
  - unfold taylor_error. destruct (Rle_dec (Rabs t) eps); [|lra].
    pose proof (lch_bounds t) as B. unfold lch in B. apply Rabs_le. lra.
Qed.

Lemma hard_tanh_scalar t : hard_tanh_gate t * t = doc_hard_tanh t.
Proof.
  unfold hard_tanh_gate, doc_hard_tanh, Rltb.
  destruct (Rlt_dec 1 t) as [P|P]; destruct (Rlt_dec t (-1)) as [Q|Q]; try lra.
  - destruct (Rlt_dec 0.1 (Rabs t)) as [A|A]; [field; lra|]. rewrite Rabs_right in A by lra. lra.
  - destruct (Rlt_dec 0.1 (Rabs t)) as [A|A]; [field; lra|]. rewrite Rabs_left in A by lra. lra.
Qed.

Lemma soft_sign_scalar t : soft_sign_gate t * t = doc_soft_sign t.
Proof. unfold soft_sign_gate, doc_soft_sign. pose proof (Rabs_pos t). field. lra. Qed.

Lemma relu6_scalar t : relu6_gate t * t = doc_relu6 t.
Proof.
  unfold relu6_gate, doc_relu6, Rltb. destruct (jsign_cases t) as [[H ->]|[[-> ->]|[H ->]]].
  - destruct (Rlt_dec 1 t); [lra|]. rewrite !Rmax_right by lra. rewrite !Rmin_left by lra. ring.
  - rewrite Rmax_left by lra. destruct (Rlt_dec 1 0); [lra|]. rewrite !Rmin_left by lra. ring.
  - rewrite !Rmax_left by lra. destruct (Rlt_dec 1 t) as [L|L].
    + destruct (Rle_lt_dec t 6) as [K|K].
      * rewrite !Rmin_left; [ring|lra|]. apply Rmult_le_reg_r with t; [lra|].
        unfold Rdiv. rewrite Rmult_assoc, Rinv_l by lra. lra.
      * rewrite !Rmin_right; [field; lra|lra|]. apply Rmult_le_reg_r with t; [lra|].
        unfold Rdiv. rewrite Rmult_assoc, Rinv_l by lra. lra.
    + rewrite !Rmin_left by lra. ring.
Qed.

Lemma hard_silu_scalar t : hard_sigmoid t * t = doc_hard_silu t.
Proof. unfold hard_sigmoid, doc_hard_silu. ring. Qed.

Lemma bent_bounds t : 0 <= t * t / 4 - (sqrt (t ^ 2 + 1) - 1) / 2 <= t ^ 4 / 16.
Proof.
  set (s := sqrt (t ^ 2 + 1)).
  assert (s * s = t ^ 2 + 1) as E by (apply sqrt_sqrt; simpl; nra).
  assert (1 <= s). { rewrite <- sqrt_1. unfold s. apply sqrt_le_1_alt. simpl. nra. }
  replace (t * t) with (s * s - 1) by (simpl in E; lra).
  replace (t ^ 4) with ((s * s - 1) * (s * s - 1)) by (simpl; simpl in E; replace (s * s - 1) with (t * t) by lra; ring).
  replace ((s * s - 1) / 4 - (s - 1) / 2) with ((s - 1) * (s - 1) / 4) by field.
  replace ((s * s - 1) * (s * s - 1)) with (((s - 1) * (s - 1)) * ((s + 1) * (s + 1))) by ring.
  assert (0 <= (s - 1) * (s - 1)) by nra. assert (4 <= (s + 1) * (s + 1)) by nra.
  set (u := (s - 1) * (s - 1)) in *. set (w := (s + 1) * (s + 1)) in *. split; nra.
Qed.

Lemma bent_identity_scalar eps t : 0 < eps ->
  Rabs (bent_identity_gate eps t * t - doc_bent_identity t) <= taylor_error eps (1 / 16) t.
Proof.
  intros He. unfold bent_identity_gate, doc_bent_identity, Rltb. destruct (Rlt_dec eps (Rabs t)) as [Q|Q].
  - apply Rabs_sub_le; [|apply taylor_nonneg; lra].
    replace (t * t + 1) with (t ^ 2 + 1) by ring. field.
    intros ->. rewrite Rabs_R0 in Q. lra.
  - unfold taylor_error. destruct (Rle_dec (Rabs t) eps); [|lra].
    pose proof (bent_bounds t) as B. apply Rabs_le. lra.
Qed.

(** Equivariance. *)
Lemma comp_00 n x i f : valid n x -> (0 < n)%nat -> comp x i 0 0 0 f = fv x i 0%nat 0%nat f.
Proof.
  intros Hx Hn. rewrite (comp_valid n) by exact Hx. destruct (Nat.ltb_spec 0 n); [|lia].
  simpl. destruct (fS x =? 2)%nat; reflexivity.
Qed.

Lemma gated_comp n g x i p l k f : valid n x -> (0 < n)%nat ->
  comp (gated g x) i p l k f = g (comp x i 0 0 0 f) * comp x i p l k f.
Proof.
  intros Hx Hn. rewrite (comp_00 n) by assumption. assert (valid n (gated g x)) as Hg by exact Hx.
  rewrite !(comp_valid n) by assumption. simpl fS. simpl fv.
  destruct (l <? n)%nat; [|ring]. destruct (fS x =? 2)%nat; [reflexivity|].
  destruct (p =? l mod 2)%nat; [reflexivity|ring].
Qed.

Lemma rsum_1' f : rsum 1 f = f 0%nat.
Proof. simpl. lra. Qed.

Lemma gated_rotate g shared D x n : valid n x -> (0 < n)%nat -> block_diagonal D -> (forall b, D b 0%nat 0%nat = 1) ->
  exists a b, rotate x (wigner_for shared D x) = Ok a /\ rotate (gated g x) (wigner_for shared D (gated g x)) = Ok b
    /\ same_feature (gated g a) b.
Proof.
  intros Hx Hn HD H1.
  destruct (rotate_comp n x shared D Hx HD) as [a [Ea [Va [Ba [Sa [Fa [Da Ca]]]]]]].
  assert (valid n (gated g x)) as Hg by exact Hx.
  destruct (rotate_comp n (gated g x) shared D Hg HD) as [b [Eb [Vb [Bb [Sb [Fb [Db Cb]]]]]]].
  exists a, b. split; [exact Ea|]. split; [exact Eb|].
  apply (comp_determines n); try (simpl in *; congruence); try exact Va; try exact Vb.
  - intros i p l k f Hp Hl Hk. rewrite (gated_comp n) by assumption.
    assert (comp a i 0 0 0 f = comp x i 0 0 0 f) as E0.
    { rewrite Ca by lia. change (2 * 0 + 1)%nat with 1%nat. rewrite rsum_1'.
      change (0 * 0 + 0)%nat with 0%nat. rewrite H1. ring. }
    rewrite E0, Ca, Cb by assumption. rewrite <- rsum_scal_l. apply rsum_ext. intros k' Hk'.
    rewrite (gated_comp n) by assumption. ring.
Qed.

Lemma gated_reflect g x n : valid n x -> (0 < n)%nat ->
  exists a b, reflect x = Ok a /\ reflect (gated g x) = Ok b /\ same_feature (gated g a) b.
Proof.
  intros Hx Hn.
  destruct (reflect_comp n x Hx) as [a [Ea [Va [Ba [Sa [Fa [Da Ca]]]]]]].
  assert (valid n (gated g x)) as Hg by exact Hx.
  destruct (reflect_comp n (gated g x) Hg) as [b [Eb [Vb [Bb [Sb [Fb [Db Cb]]]]]]].
  exists a, b. split; [exact Ea|]. split; [exact Eb|].
  apply (comp_determines n); try (simpl in *; congruence); try exact Va; try exact Vb.
  - intros i p l k f Hp Hl Hk. rewrite (gated_comp n) by assumption.
    rewrite !Ca, Cb by (assumption || lia). rewrite (gated_comp n) by assumption.
    change (0 =? 1)%nat with false. simpl. destruct (p =? 1)%nat; ring.
Qed.
