(** Lemmas about cutoffs, switch, damping, mappings and softplus. *)
Require Import List Reals ZArith Bool String Lra Lia.
From Coquelicot Require Import Rcomplements Hierarchy Derive ElemFct AutoDerive Continuity.
Require Import Verif.Base Verif.Smooth Verif.Radial_Model Verif.Radial_Spec.
Open Scope R_scope.

Lemma Rltb_true a b : Rltb a b = true <-> a < b.
Proof. unfold Rltb. destruct (Rlt_dec a b); split; intros; auto; try discriminate; lra. Qed.
Lemma Rltb_false a b : Rltb a b = false <-> b <= a.
Proof. unfold Rltb. destruct (Rlt_dec a b); split; intros; auto; try discriminate; lra. Qed.
Lemma Rleb_true a b : Rleb a b = true <-> a <= b.
Proof. unfold Rleb. destruct (Rle_dec a b); split; intros; auto; try discriminate; lra. Qed.
Lemma Rleb_false a b : Rleb a b = false <-> b < a.
Proof. unfold Rleb. destruct (Rle_dec a b); split; intros; auto; try discriminate; lra. Qed.
Lemma Reqb_true a b : Reqb a b = true <-> a = b.
Proof. unfold Reqb. destruct (Req_EM_T a b); split; intros; auto; try discriminate; contradiction. Qed.
Lemma Reqb_false a b : Reqb a b = false <-> a <> b.
Proof. unfold Reqb. destruct (Req_EM_T a b); split; intros; auto; try discriminate; contradiction. Qed.

Ltac bools :=
  repeat match goal with
  | H : Rltb _ _ = true |- _ => apply Rltb_true in H
  | H : Rltb _ _ = false |- _ => apply Rltb_false in H
  | H : Rleb _ _ = true |- _ => apply Rleb_true in H
  | H : Rleb _ _ = false |- _ => apply Rleb_false in H
  | H : Reqb _ _ = true |- _ => apply Reqb_true in H
  | H : Reqb _ _ = false |- _ => apply Reqb_false in H
  end.

Lemma exp_le a b : a <= b -> exp a <= exp b.
Proof. intros [H|<-]; [left; now apply exp_increasing|lra]. Qed.

Lemma exp_le_1 a : a <= 0 -> exp a <= 1.
Proof. intros H. rewrite <- exp_0. now apply exp_le. Qed.

Lemma div_lt_1 x c : 0 < c -> (x / c < 1 <-> x < c).
Proof.
  intros Hc. split; intros H.
  - apply Rmult_lt_reg_r with (/ c); [now apply Rinv_0_lt_compat|]. rewrite Rinv_r by lra. exact H.
  - apply Rmult_lt_reg_r with c; [exact Hc|]. unfold Rdiv. rewrite Rmult_assoc, Rinv_l by lra. lra.
Qed.

Lemma cutoff_scale x c : (if negb (Reqb c 1) then x / c else x) = x / c.
Proof. destruct (Reqb c 1) eqn:E; simpl; [|reflexivity]. bools. subst. field. Qed.

Lemma smooth_cutoff_doc x c : 0 < c -> smooth_cutoff x c = Ok (doc_smooth_cutoff c x).
Proof.
  intros Hc. unfold smooth_cutoff, doc_smooth_cutoff.
  destruct (Rleb c 0) eqn:E; bools; [lra|]. rewrite cutoff_scale. cbv zeta.
  destruct (Rltb (x / c) 1) eqn:E1; bools; destruct (Rlt_dec x c) as [L|L]; try reflexivity.
  - do 4 f_equal. f_equal. ring.
  - apply (div_lt_1 x c Hc) in E1. lra.
  - apply (proj2 (div_lt_1 x c Hc)) in L. lra.
Qed.

Lemma cosine_cutoff_doc x c : 0 < c -> cosine_cutoff x c = Ok (doc_cosine_cutoff c x).
Proof.
  intros Hc. unfold cosine_cutoff, doc_cosine_cutoff.
  destruct (Rleb c 0) eqn:E; bools; [lra|]. rewrite cutoff_scale. cbv zeta.
  destruct (Rltb (x / c) 1) eqn:E1; bools; destruct (Rlt_dec x c) as [L|L]; try reflexivity.
  - f_equal. lra.
  - apply (div_lt_1 x c Hc) in E1. lra.
  - apply (proj2 (div_lt_1 x c Hc)) in L. lra.
Qed.

Lemma cutoff_err x c : c <= 0 -> smooth_cutoff x c = Err ValueError /\ cosine_cutoff x c = Err ValueError.
Proof.
  intros H. unfold smooth_cutoff, cosine_cutoff. apply Rleb_true in H. rewrite H. auto.
Qed.

Lemma frac_range x c : 0 < c -> 0 <= x -> x < c -> 0 <= x / c < 1.
Proof.
  intros Hc Hx Hl. split; [|now apply div_lt_1].
  apply Rmult_le_pos; [exact Hx|left; now apply Rinv_0_lt_compat].
Qed.

Lemma frac_le x y c : 0 < c -> x <= y -> x / c <= y / c.
Proof. intros Hc H. apply Rmult_le_compat_r; [left; now apply Rinv_0_lt_compat|exact H]. Qed.

Lemma inv_one_minus_sq_mono s t : 0 <= s -> s <= t -> t < 1 -> 1 <= 1 / (1 - s ^ 2) <= 1 / (1 - t ^ 2).
Proof.
  intros H0 H1 H2. split.
  - apply Rmult_le_reg_r with (1 - s ^ 2); [nra|]. unfold Rdiv. rewrite Rmult_assoc, Rinv_l by nra. nra.
  - unfold Rdiv. rewrite !Rmult_1_l. apply Rinv_le_contravar; nra.
Qed.

Lemma smooth_cutoff_at_0 c : 0 < c -> doc_smooth_cutoff c 0 = 1.
Proof.
  intros Hc. unfold doc_smooth_cutoff. destruct (Rlt_dec 0 c); [|lra].
  replace (1 - 1 / (1 - (0 / c) ^ 2)) with 0; [apply exp_0|]. replace (0 / c) with 0 by (field; lra). field.
Qed.

Lemma smooth_cutoff_range c x : 0 < c -> 0 <= x ->
  0 <= doc_smooth_cutoff c x <= 1 /\ (x < c -> 0 < doc_smooth_cutoff c x).
Proof.
  intros Hc Hx. unfold doc_smooth_cutoff. destruct (Rlt_dec x c) as [L|L]; [|lra].
  destruct (frac_range x c Hc Hx L) as [A B].
  pose proof (inv_one_minus_sq_mono (x/c) (x/c) A (Rle_refl _) B) as [D _].
  pose proof (exp_pos (1 - 1 / (1 - (x / c) ^ 2))).
  pose proof (exp_le_1 (1 - 1 / (1 - (x / c) ^ 2)) ltac:(lra)). lra.
Qed.

Lemma smooth_cutoff_mono c : 0 < c -> nonincreasing_on (fun x => 0 <= x) (doc_smooth_cutoff c).
Proof.
  intros Hc x y Hx Hy Hl.
  destruct (Rlt_dec y c) as [Ly|Ly].
  - unfold doc_smooth_cutoff. destruct (Rlt_dec y c); [|lra]. destruct (Rlt_dec x c); [|lra].
    apply exp_le.
    destruct (frac_range y c Hc Hy Ly) as [A B].
    destruct (frac_range x c Hc Hx ltac:(lra)) as [A' B'].
    pose proof (inv_one_minus_sq_mono (x/c) (y/c) A' (frac_le _ _ _ Hc Hl) B). lra.
  - replace (doc_smooth_cutoff c y) with 0.
    + apply smooth_cutoff_range; auto.
    + unfold doc_smooth_cutoff. destruct (Rlt_dec y c); [lra|reflexivity].
Qed.

Lemma cosine_cutoff_range c x : 0 < c -> 0 <= doc_cosine_cutoff c x <= 1.
Proof.
  intros Hc. unfold doc_cosine_cutoff. destruct (Rlt_dec x c); [|lra].
  pose proof (COS_bound (PI * (x / c))). lra.
Qed.

Lemma cosine_cutoff_at_0 c : 0 < c -> doc_cosine_cutoff c 0 = 1.
Proof.
  intros Hc. unfold doc_cosine_cutoff. destruct (Rlt_dec 0 c); [|lra].
  replace (PI * (0 / c)) with 0 by (field; lra). rewrite cos_0. lra.
Qed.

Lemma cosine_cutoff_mono c : 0 < c -> nonincreasing_on (fun x => 0 <= x) (doc_cosine_cutoff c).
Proof.
  intros Hc x y Hx Hy Hl.
  destruct (Rlt_dec y c) as [Ly|Ly].
  - unfold doc_cosine_cutoff. destruct (Rlt_dec y c); [|lra]. destruct (Rlt_dec x c); [|lra].
    destruct (frac_range y c Hc Hy Ly) as [A B].
    destruct (frac_range x c Hc Hx ltac:(lra)) as [A' B'].
    pose proof (frac_le _ _ _ Hc Hl) as C. pose proof PI_RGT_0 as HP.
    assert (cos (PI * (y / c)) <= cos (PI * (x / c))); [|lra].
    apply cos_decr_1; nra.
  - replace (doc_cosine_cutoff c y) with 0.
    + apply cosine_cutoff_range; auto.
    + unfold doc_cosine_cutoff. destruct (Rlt_dec y c); [lra|reflexivity].
Qed.

Lemma cosine_cutoff_deriv c x : 0 < c ->
  derivable_pt_lim (doc_cosine_cutoff c) x (if Rlt_dec x c then - (PI / (2 * c)) * sin (PI * (x / c)) else 0).
Proof.
  intros Hc.
  assert (forall z, derivable_pt_lim (fun x => 1 / 2 * cos (PI * (x / c)) + 1 / 2) z
            (- (PI / (2 * c)) * sin (PI * (z / c)))) as D.
  { intros z. apply is_derive_Reals. auto_derive; [trivial|]. unfold Rdiv. field. lra. }
  destruct (Rtotal_order x c) as [L|[->|G]].
  - destruct (Rlt_dec x c); [|lra].
    intros e He. destruct (D x e He) as [d Hd].
    exists (mkposreal (Rmin d (c - x)) ltac:(apply Rmin_pos; [apply cond_pos|lra])). simpl.
    intros h Hh Hl.
    assert (Rabs h < d) as H1 by (eapply Rlt_le_trans; [exact Hl|apply Rmin_l]).
    assert (Rabs h < c - x) as H2 by (eapply Rlt_le_trans; [exact Hl|apply Rmin_r]).
    specialize (Hd h Hh H1). unfold doc_cosine_cutoff. apply Rabs_def2 in H2.
    destruct (Rlt_dec (x + h) c); [|lra]. destruct (Rlt_dec x c); [exact Hd|lra].
  - destruct (Rlt_dec c c); [lra|].
    intros e He. destruct (D c e He) as [d Hd]. exists d. intros h Hh Hl.
    specialize (Hd h Hh Hl). unfold doc_cosine_cutoff. destruct (Rlt_dec c c); [lra|].
    replace (PI * (c / c)) with PI in Hd by (field; lra).
    rewrite cos_PI, sin_PI in Hd.
    destruct (Rlt_dec (c + h) c).
    + replace (_ - 0) with ((1 / 2 * cos (PI * ((c + h) / c)) + 1 / 2 - (1 / 2 * -1 + 1 / 2)) / h - - (PI / (2 * c)) * 0); [exact Hd|].
      field. split; lra.
    + replace ((0 - 0) / h - 0) with 0 by (field; auto). rewrite Rabs_R0. exact He.
  - destruct (Rlt_dec x c); [lra|].
    intros e He. exists (mkposreal (x - c) ltac:(lra)). simpl. intros h Hh Hl.
    apply Rabs_def2 in Hl. unfold doc_cosine_cutoff.
    destruct (Rlt_dec (x + h) c); [lra|]. destruct (Rlt_dec x c); [lra|].
    replace ((0 - 0) / h - 0) with 0 by (field; auto). rewrite Rabs_R0. exact He.
Qed.

(** smooth_cutoff is the restriction to (-c, oo) of e * bump (1 - (x/c)^2). *)
Definition cutoff_ext (c x : R) : R := exp 1 * bump (1 + (-1) * ((x * / c) * (x * / c))).

Lemma cutoff_ext_smooth c : infinitely_differentiable (cutoff_ext c).
Proof.
  apply id_mult; [apply id_const|].
  apply (id_comp bump); [apply bump_smooth|].
  repeat (apply id_mult || apply id_plus || apply id_id || apply id_const).
Qed.

Lemma cutoff_ext_eq c x : 0 < c -> - c < x -> doc_smooth_cutoff c x = cutoff_ext c x.
Proof.
  intros Hc Hx. unfold doc_smooth_cutoff, cutoff_ext, bump.
  assert (-1 < x / c).
  { apply Rmult_lt_reg_r with c; [exact Hc|]. unfold Rdiv. rewrite Rmult_assoc, Rinv_l by lra. lra. }
  unfold Rdiv in *.
  destruct (Rlt_dec x c) as [L|L].
  - apply (proj2 (div_lt_1 x c Hc)) in L. unfold Rdiv in L.
    destruct (Rlt_dec 0 _) as [P|P].
    + rewrite <- exp_plus. f_equal. unfold Rminus. f_equal. f_equal. rewrite Rmult_1_l. f_equal. ring.
    + exfalso. apply P. nra.
  - destruct (Rlt_dec 0 _) as [P|P]; [exfalso|ring].
    assert (~ x * / c < 1) by (intro; apply L; now apply (div_lt_1 x c Hc)). nra.
Qed.

(** * smooth_switch *)

Definition sw (t : R) : R := / (1 + exp (sqrt 3 / 2 * (1 / t - 1 / (1 - t)))).

Lemma rescale_eq x x0 x1 : rescale x x0 x1 = (x - x0) / (x1 - x0).
Proof.
  unfold rescale. destruct (Reqb x0 0) eqn:E0; destruct (Reqb x1 1) eqn:E1; simpl; try reflexivity.
  bools. subst. field.
Qed.

Lemma smooth_switch_err eps x x0 x1 : x1 <= x0 -> smooth_switch eps x x0 x1 = Err ValueError.
Proof. intros H. unfold smooth_switch. apply Rleb_true in H. now rewrite H. Qed.

Definition switch_val (eps t : R) : R := if Rlt_dec t eps then 0 else if Rlt_dec (1 - eps) t then 1 else sw t.

Lemma smooth_switch_val eps x x0 x1 : x0 < x1 ->
  smooth_switch eps x x0 x1 = Ok (switch_val eps ((x - x0) / (x1 - x0))).
Proof.
  intros H. unfold smooth_switch, switch_val. destruct (Rleb x1 x0) eqn:E; bools; [lra|].
  rewrite rescale_eq. cbv zeta. set (t := (x - x0) / (x1 - x0)).
  unfold Rltb. destruct (Rlt_dec t eps); simpl; [reflexivity|].
  destruct (Rlt_dec (1 - eps) t); [reflexivity|].
  unfold sw, smooth_switch_exp, smooth_switch_slope. f_equal. unfold Rdiv. rewrite Rmult_1_l. reflexivity.
Qed.

Lemma slope_pos : 0 < sqrt 3 / 2.
Proof. apply Rdiv_lt_0_compat; [apply sqrt_lt_R0; lra|lra]. Qed.

Lemma sw_range t : 0 < sw t < 1.
Proof.
  unfold sw. pose proof (exp_pos (sqrt 3 / 2 * (1 / t - 1 / (1 - t)))).
  split; [apply Rinv_0_lt_compat; lra|]. set (e := exp _) in *. assert (/ (1 + e) < / 1) by (apply Rinv_lt_contravar; lra). rewrite Rinv_1 in *. lra.
Qed.

Lemma sw_mono s t : 0 < s -> s < t -> t < 1 -> sw s < sw t.
Proof.
  intros H0 H1 H2. unfold sw. apply Rinv_lt_contravar.
  - pose proof (exp_pos (sqrt 3 / 2 * (1 / t - 1 / (1 - t)))).
    pose proof (exp_pos (sqrt 3 / 2 * (1 / s - 1 / (1 - s)))). nra.
  - apply Rplus_lt_compat_l, exp_increasing. apply Rmult_lt_compat_l; [apply slope_pos|].
    assert (/ t < / s) by (apply Rinv_lt_contravar; nra).
    assert (/ (1 - s) < / (1 - t)) by (apply Rinv_lt_contravar; nra). lra.
Qed.

Lemma sw_sym t : sw (1 - t) = 1 - sw t.
Proof.
  unfold sw. replace (1 - (1 - t)) with t by ring.
  set (a := sqrt 3 / 2 * (1 / t - 1 / (1 - t))).
  replace (sqrt 3 / 2 * (1 / (1 - t) - 1 / t)) with (- a) by (unfold a; ring).
  rewrite exp_Ropp. pose proof (exp_pos a). field. lra.
Qed.

Lemma sw_deriv t : 0 < t < 1 ->
  derivable_pt_lim sw t (sqrt 3 / 2 * (1 / t ^ 2 + 1 / (1 - t) ^ 2) *
    exp (sqrt 3 / 2 * (1 / t - 1 / (1 - t))) * (sw t * sw t)).
Proof.
  intros Ht. apply is_derive_Reals. unfold sw.
  pose proof (exp_pos (sqrt 3 / 2 * (1 / t - 1 / (1 - t)))) as He.
  auto_derive.
  - repeat split; try lra.
    change (1 + exp (sqrt 3 * / 2 * (1 * / t + - (1 * / (1 + - t)))) <> 0).
    pose proof (exp_pos (sqrt 3 * / 2 * (1 * / t + - (1 * / (1 + - t))))). lra.
  - replace (sqrt 3 / 2 * (1 * / t + - (1 * / (1 + - t)))) with (sqrt 3 / 2 * (1 / t - 1 / (1 - t)))
      by (unfold Rdiv, Rminus; ring).
    set (e := exp _) in *. field. repeat split; lra.
Qed.

(** Bounded by the exponential at the clamping points. *)
Lemma sw_small t : 0 < t -> t < 1 -> sw t <= exp (- (sqrt 3 / 2 * (1 / t - 1 / (1 - t)))).
Proof.
  intros H0 H1. unfold sw. rewrite exp_Ropp. apply Rinv_le_contravar; [apply exp_pos|].
  lra.
Qed.

Lemma switch_val_range eps t : 0 <= switch_val eps t <= 1.
Proof.
  unfold switch_val. destruct (Rlt_dec t eps); [lra|]. destruct (Rlt_dec (1 - eps) t); [lra|].
  pose proof (sw_range t). lra.
Qed.

Lemma switch_val_mono eps s t : 0 < eps < 1 / 2 -> s <= t -> switch_val eps s <= switch_val eps t.
Proof.
  intros He H. unfold switch_val.
  destruct (Rlt_dec s eps), (Rlt_dec t eps); try lra.
  - destruct (Rlt_dec (1 - eps) t); [lra|]. pose proof (sw_range t). lra.
  - destruct (Rlt_dec (1 - eps) s), (Rlt_dec (1 - eps) t); try lra.
    + pose proof (sw_range s). lra.
    + destruct (Req_dec s t) as [->|]; [lra|]. left. apply sw_mono; lra.
Qed.

Lemma switch_val_sym eps t : 0 < eps < 1 / 2 -> switch_val eps (1 - t) = 1 - switch_val eps t.
Proof.
  intros He. unfold switch_val.
  destruct (Rlt_dec (1 - t) eps), (Rlt_dec t eps), (Rlt_dec (1 - eps) t), (Rlt_dec (1 - eps) (1 - t)); try lra.
  apply sw_sym.
Qed.

Lemma switch_formula_sw x0 x1 x : x0 < x1 -> x0 < x < x1 -> switch_formula x0 x1 x = sw ((x - x0) / (x1 - x0)).
Proof.
  intros H Hx. unfold switch_formula. destruct (Rle_dec x x0); [lra|]. destruct (Rle_dec x1 x); [lra|].
  unfold sw. f_equal. f_equal. f_equal. f_equal. f_equal.
  - field. lra.
  - field. lra.
Qed.

Lemma frac_bounds x0 x1 x : x0 < x1 ->
  (x <= x0 -> (x - x0) / (x1 - x0) <= 0) /\ (x1 <= x -> 1 <= (x - x0) / (x1 - x0)) /\
  (x0 < x < x1 -> 0 < (x - x0) / (x1 - x0) < 1).
Proof.
  intros H. assert (x - x0 = (x - x0) / (x1 - x0) * (x1 - x0)) as E by (field; lra).
  set (t := (x - x0) / (x1 - x0)) in *. repeat split; intros; nra.
Qed.

(** The implementation differs from the ideal function by at most the ideal value at the clamps. *)
Lemma switch_clamp_error eps x0 x1 x : 0 < eps < 1 / 2 -> x0 < x1 ->
  Rabs (switch_val eps ((x - x0) / (x1 - x0)) - switch_formula x0 x1 x)
    <= exp (- (sqrt 3 / 2 * (1 / eps - 1 / (1 - eps)))).
Proof.
  intros He H.
  pose proof (exp_pos (- (sqrt 3 / 2 * (1 / eps - 1 / (1 - eps))))) as Hp.
  destruct (frac_bounds x0 x1 x H) as [A [B C]].
  destruct (Rle_dec x x0) as [L|L].
  - unfold switch_val, switch_formula. destruct (Rlt_dec _ eps); [|specialize (A L); lra].
    destruct (Rle_dec x x0); [|lra]. rewrite Rminus_0_r, Rabs_R0. lra.
  - destruct (Rle_dec x1 x) as [G|G].
    + unfold switch_val, switch_formula. specialize (B G). destruct (Rlt_dec _ eps); [lra|].
      destruct (Rlt_dec (1 - eps) _); [|lra].
      destruct (Rle_dec x x0); [lra|]. destruct (Rle_dec x1 x); [|lra].
      replace (1 - 1) with 0 by ring. rewrite Rabs_R0. lra.
    + rewrite switch_formula_sw by lra. specialize (C ltac:(lra)).
      set (t := (x - x0) / (x1 - x0)) in *. unfold switch_val.
      pose proof (sw_small eps ltac:(lra) ltac:(lra)) as S.
      pose proof (sw_range t) as R.
      destruct (Rlt_dec t eps) as [l|l].
      * pose proof (sw_mono t eps ltac:(lra) l ltac:(lra)). rewrite Rabs_left; lra.
      * destruct (Rlt_dec (1 - eps) t) as [g|g].
        -- pose proof (sw_mono (1 - t) eps ltac:(lra) ltac:(lra) ltac:(lra)) as M.
           rewrite sw_sym in M. rewrite Rabs_right; lra.
        -- rewrite Rminus_eq_0, Rabs_R0. lra.
Qed.

Lemma switch_jvp_val eps x0 x1 x xd : x0 < x1 ->
  fst (smooth_switch_jvp eps x0 x1 x xd) = switch_val eps ((x - x0) / (x1 - x0)).
Proof.
  intros H. unfold smooth_switch_jvp. fold (rescale x x0 x1). rewrite rescale_eq. cbn [fst].
  unfold switch_val. set (t := (x - x0) / (x1 - x0)).
  unfold Rltb. destruct (Rlt_dec t eps); simpl; [reflexivity|].
  destruct (Rlt_dec (1 - eps) t); [reflexivity|].
  unfold sw, smooth_switch_exp, smooth_switch_slope. unfold Rdiv. rewrite Rmult_1_l. reflexivity.
Qed.

Definition sw' (t : R) : R := sqrt 3 / 2 * (1 / t ^ 2 + 1 / (1 - t) ^ 2) *
    exp (sqrt 3 / 2 * (1 / t - 1 / (1 - t))) * (sw t * sw t).

Lemma switch_jvp_tan eps x0 x1 x xd : x0 < x1 ->
  snd (smooth_switch_jvp eps x0 x1 x xd) =
    let t := (x - x0) / (x1 - x0) in
    (if Rlt_dec t eps then 0 else if Rlt_dec (1 - eps) t then 0 else sw' t) * (xd / (x1 - x0)).
Proof.
  intros H. unfold smooth_switch_jvp. fold (rescale x x0 x1). rewrite rescale_eq. cbn [snd].
  replace (if negb (Reqb x0 0) || negb (Reqb x1 1) then xd / (x1 - x0) else xd) with (xd / (x1 - x0)).
  2:{ destruct (Reqb x0 0) eqn:E0; destruct (Reqb x1 1) eqn:E1; simpl; try reflexivity. bools. subst. field. }
  cbv zeta. set (t := (x - x0) / (x1 - x0)). f_equal.
  unfold Rltb. destruct (Rlt_dec t eps); simpl; [reflexivity|].
  destruct (Rlt_dec (1 - eps) t); simpl; [reflexivity|].
  unfold smooth_switch_exp, smooth_switch_slope.
  pose proof (sw_range t) as Hr. unfold sw in Hr.
  replace (1 / (1 + exp (sqrt 3 / 2 * (1 / t - 1 / (1 - t))))) with (sw t) by (unfold sw, Rdiv; ring).
  destruct (Reqb (sw t * sw t) 0) eqn:E1; bools. { pose proof (sw_range t); nra. }
  destruct (Reqb (exp (sqrt 3 / 2 * (1 / t - 1 / (1 - t)))) 0) eqn:E2; bools.
  { pose proof (exp_pos (sqrt 3 / 2 * (1 / t - 1 / (1 - t)))). lra. }
  simpl. unfold sw'. simpl. unfold Rdiv. ring.
Qed.


(** Derivative of the implementation away from the two clamping points. *)
Lemma switch_val_deriv eps t : 0 < eps < 1 / 2 -> t <> eps -> t <> 1 - eps ->
  derivable_pt_lim (switch_val eps) t (if Rlt_dec t eps then 0 else if Rlt_dec (1 - eps) t then 0 else sw' t).
Proof.
  intros He N1 N2.
  destruct (Rlt_dec t eps) as [L|L]; [|destruct (Rlt_dec (1 - eps) t) as [G|G]].
  - intros e Hp. exists (mkposreal (eps - t) ltac:(lra)). simpl. intros h Hh Hl. apply Rabs_def2 in Hl.
    unfold switch_val. destruct (Rlt_dec (t + h) eps); [|lra]. destruct (Rlt_dec t eps); [|lra].
    replace ((0 - 0) / h - 0) with 0 by (field; auto). rewrite Rabs_R0. exact Hp.
  - intros e Hp. exists (mkposreal (t - (1 - eps)) ltac:(lra)). simpl. intros h Hh Hl. apply Rabs_def2 in Hl.
    unfold switch_val. destruct (Rlt_dec (t + h) eps); [lra|]. destruct (Rlt_dec t eps); [lra|].
    destruct (Rlt_dec (1 - eps) (t + h)); [|lra]. destruct (Rlt_dec (1 - eps) t); [|lra].
    replace ((1 - 1) / h - 0) with 0 by (field; auto). rewrite Rabs_R0. exact Hp.
  - intros e Hp. destruct (sw_deriv t ltac:(lra) e Hp) as [d Hd].
    exists (mkposreal (Rmin d (Rmin (t - eps) (1 - eps - t)))
              ltac:(apply Rmin_pos; [apply cond_pos|apply Rmin_pos; lra])). simpl.
    intros h Hh Hl.
    assert (Rabs h < d) as H1 by (eapply Rlt_le_trans; [exact Hl|apply Rmin_l]).
    assert (Rabs h < t - eps) as H2.
    { eapply Rlt_le_trans; [exact Hl|]. eapply Rle_trans; [apply Rmin_r|apply Rmin_l]. }
    assert (Rabs h < 1 - eps - t) as H3.
    { eapply Rlt_le_trans; [exact Hl|]. eapply Rle_trans; [apply Rmin_r|apply Rmin_r]. }
    apply Rabs_def2 in H2. apply Rabs_def2 in H3.
    specialize (Hd h Hh H1). unfold switch_val, sw'.
    destruct (Rlt_dec (t + h) eps); [lra|]. destruct (Rlt_dec t eps); [lra|].
    destruct (Rlt_dec (1 - eps) (t + h)); [lra|]. destruct (Rlt_dec (1 - eps) t); [lra|]. exact Hd.
Qed.

Lemma switch_deriv eps x0 x1 x : 0 < eps < 1 / 2 -> x0 < x1 ->
  (x - x0) / (x1 - x0) <> eps -> (x - x0) / (x1 - x0) <> 1 - eps ->
  derivable_pt_lim (fun x => switch_val eps ((x - x0) / (x1 - x0))) x
    (snd (smooth_switch_jvp eps x0 x1 x 1)).
Proof.
  intros He H N1 N2. rewrite switch_jvp_tan by exact H. cbv zeta.
  apply (derivable_pt_lim_comp (fun x => (x - x0) / (x1 - x0)) (switch_val eps)).
  - apply is_derive_Reals. auto_derive; [lra|]. field. lra.
  - now apply switch_val_deriv.
Qed.

(** The ideal switch is infinitely differentiable: with s = sqrt 3 / 2, A = exp(-s/t) and
    B = exp(-s/(1-t)) it is A / (A + B). *)
Definition switch_ext (x0 x1 x : R) : R :=
  let A := fun x => bump ((x + - x0) * / (x1 - x0) * / (sqrt 3 / 2)) in
  let B := fun x => bump ((x1 + -1 * x) * / (x1 - x0) * / (sqrt 3 / 2)) in
  A x * / (A x + B x).

Lemma bump_pos t : 0 < t -> 0 < bump t.
Proof. intros H. unfold bump. destruct (Rlt_dec 0 t); [apply exp_pos|lra]. Qed.
Lemma bump_nonneg t : 0 <= bump t.
Proof. unfold bump. destruct (Rlt_dec 0 t); [left; apply exp_pos|lra]. Qed.
Lemma bump_zero t : t <= 0 -> bump t = 0.
Proof. intros H. unfold bump. destruct (Rlt_dec 0 t); [lra|reflexivity]. Qed.

Lemma switch_ext_smooth x0 x1 : x0 < x1 -> infinitely_differentiable (switch_ext x0 x1).
Proof.
  intros H. unfold switch_ext. cbv zeta.
  pose proof slope_pos as Hs.
  assert (0 < / (x1 - x0) * / (sqrt 3 / 2)) as Hp by (apply Rmult_lt_0_compat; apply Rinv_0_lt_compat; lra).
  assert (infinitely_differentiable (fun x => bump ((x + - x0) * / (x1 - x0) * / (sqrt 3 / 2)))) as SA.
  { apply (id_comp bump); [apply bump_smooth|].
    repeat (apply id_mult || apply id_plus || apply id_id || apply id_const). }
  assert (infinitely_differentiable (fun x => bump ((x1 + -1 * x) * / (x1 - x0) * / (sqrt 3 / 2)))) as SB.
  { apply (id_comp bump); [apply bump_smooth|].
    repeat (apply id_mult || apply id_plus || apply id_id || apply id_const). }
  apply id_mult; [exact SA|]. apply id_inv; [|now apply id_plus].
  intros x. apply Rgt_not_eq.
  pose proof (bump_nonneg ((x + - x0) * / (x1 - x0) * / (sqrt 3 / 2))).
  pose proof (bump_nonneg ((x1 + -1 * x) * / (x1 - x0) * / (sqrt 3 / 2))).
  destruct (Rlt_dec x0 x).
  - pose proof (bump_pos ((x + - x0) * / (x1 - x0) * / (sqrt 3 / 2))
      ltac:(rewrite Rmult_assoc; apply Rmult_lt_0_compat; lra)). lra.
  - pose proof (bump_pos ((x1 + -1 * x) * / (x1 - x0) * / (sqrt 3 / 2))
      ltac:(rewrite Rmult_assoc; apply Rmult_lt_0_compat; lra)). lra.
Qed.

Lemma switch_ext_eq x0 x1 x : x0 < x1 -> switch_formula x0 x1 x = switch_ext x0 x1 x.
Proof.
  intros H. unfold switch_ext. cbv zeta. pose proof slope_pos as Hs.
  assert (0 < / (x1 - x0) * / (sqrt 3 / 2)) as Hp by (apply Rmult_lt_0_compat; apply Rinv_0_lt_compat; lra).
  destruct (Rle_dec x x0) as [L|L].
  - unfold switch_formula. destruct (Rle_dec x x0); [|lra].
    rewrite (bump_zero ((x + - x0) * / (x1 - x0) * / (sqrt 3 / 2))); [ring|].
    rewrite Rmult_assoc. nra.
  - assert (0 < (x + - x0) * / (x1 - x0) * / (sqrt 3 / 2)) as PA
      by (rewrite Rmult_assoc; apply Rmult_lt_0_compat; lra).
    destruct (Rle_dec x1 x) as [G|G].
    + unfold switch_formula. destruct (Rle_dec x x0); [lra|]. destruct (Rle_dec x1 x); [|lra].
      rewrite (bump_zero ((x1 + -1 * x) * / (x1 - x0) * / (sqrt 3 / 2))).
      * rewrite Rplus_0_r. rewrite Rinv_r; [reflexivity|]. apply Rgt_not_eq. now apply bump_pos.
      * rewrite Rmult_assoc. nra.
    + assert (0 < (x1 + -1 * x) * / (x1 - x0) * / (sqrt 3 / 2)) as PB
        by (rewrite Rmult_assoc; apply Rmult_lt_0_compat; lra).
      unfold switch_formula. destruct (Rle_dec x x0); [lra|]. destruct (Rle_dec x1 x); [lra|].
      unfold bump. destruct (Rlt_dec 0 ((x + - x0) * / (x1 - x0) * / (sqrt 3 / 2))); [|lra].
      destruct (Rlt_dec 0 ((x1 + -1 * x) * / (x1 - x0) * / (sqrt 3 / 2))); [|lra].
      set (s := sqrt 3 / 2) in *.
      replace (/ ((x + - x0) * / (x1 - x0) * / s)) with (s * ((x1 - x0) / (x - x0))) by (field; lra).
      replace (/ ((x1 + -1 * x) * / (x1 - x0) * / s)) with (s * ((x1 - x0) / (x1 - x))) by (field; lra).
      replace (s * ((x1 - x0) / (x - x0) - (x1 - x0) / (x1 - x)))
        with (s * ((x1 - x0) / (x - x0)) + - (s * ((x1 - x0) / (x1 - x)))) by ring.
      rewrite exp_plus, !exp_Ropp.
      set (a := s * ((x1 - x0) / (x - x0))). set (b := s * ((x1 - x0) / (x1 - x))).
      pose proof (exp_pos a). pose proof (exp_pos b). field. lra.
Qed.

(** * smooth_damping *)

Lemma exp_neg_lt_1 a : 0 < a -> exp (- a) < 1.
Proof. intros H. rewrite <- exp_0. apply exp_increasing. lra. Qed.

Lemma damping_doc x gamma : 0 < gamma * x -> smooth_damping x gamma = doc_smooth_damping gamma x.
Proof.
  intros H. unfold smooth_damping, doc_smooth_damping. cbv zeta.
  pose proof (exp_neg_lt_1 _ H) as L. pose proof (exp_pos (- gamma * x)) as P.
  replace (- gamma * x) with (- (gamma * x)) in * by ring.
  destruct (Rltb 0 _) eqn:E; bools; [|nra].
  f_equal. rewrite exp_Ropp. pose proof (exp_pos (gamma * x)) as Q.
  assert (1 < exp (gamma * x)). { rewrite <- exp_0. now apply exp_increasing. }
  field. lra.
Qed.

Lemma damping_0 gamma : smooth_damping 0 gamma = 0.
Proof.
  unfold smooth_damping. cbv zeta. replace (- gamma * 0) with 0 by ring. rewrite exp_0.
  destruct (Rltb 0 _) eqn:E; bools; [lra|reflexivity].
Qed.

Lemma damping_bump gamma x : 0 < gamma -> 0 <= x -> smooth_damping x gamma = bump (exp (gamma * x) + (-1)).
Proof.
  intros Hg Hx. destruct (Req_dec x 0) as [->|Hn].
  - rewrite damping_0. unfold bump. replace (gamma * 0) with 0 by ring. rewrite exp_0.
    destruct (Rlt_dec 0 (1 + -1)); [lra|reflexivity].
  - rewrite damping_doc by nra. unfold doc_smooth_damping, bump.
    assert (1 < exp (gamma * x)). { rewrite <- exp_0. apply exp_increasing. nra. }
    destruct (Rlt_dec 0 (exp (gamma * x) + -1)); [|lra].
    f_equal. f_equal. unfold Rdiv. rewrite Rmult_1_l. f_equal.
Qed.

Lemma damping_flat gamma n : 0 < gamma ->
  flat_to_order n (fun x => bump (exp (gamma * x) + (-1))) (fun x => x <= 0).
Proof.
  intros Hg. apply flat_comp with (P := fun t => t <= 0).
  - intros x Hx. pose proof (exp_le_1 (gamma * x) ltac:(nra)). lra.
  - apply bump_flat.
  - apply td_plus; [|apply td_const]. apply (td_comp n exp); [apply id_exp|].
    apply td_mult; [apply td_const|apply td_id].
Qed.

Lemma damping_range gamma x : 0 < gamma -> 0 < x -> 0 < smooth_damping x gamma < 1.
Proof.
  intros Hg Hx. rewrite damping_doc by nra. unfold doc_smooth_damping.
  assert (1 < exp (gamma * x)). { rewrite <- exp_0. apply exp_increasing. nra. }
  split; [apply exp_pos|]. apply exp_neg_lt_1.
  apply Rdiv_lt_0_compat; lra.
Qed.

Lemma damping_mono gamma : 0 < gamma ->
  strictly_increasing_on (fun x => 0 <= x) (fun x => smooth_damping x gamma).
Proof.
  intros Hg x y Hx Hy Hl. destruct (Req_dec x 0) as [->|Hn].
  - rewrite damping_0. apply damping_range; lra.
  - rewrite !damping_doc by nra. unfold doc_smooth_damping. apply exp_increasing.
    assert (1 < exp (gamma * x)). { rewrite <- exp_0. apply exp_increasing. nra. }
    assert (exp (gamma * x) < exp (gamma * y)). { apply exp_increasing. nra. }
    assert (/ (exp (gamma * y) - 1) < / (exp (gamma * x) - 1)) by (apply Rinv_lt_contravar; nra).
    lra.
Qed.

(** It tends to 1. *)
Lemma damping_limit gamma d : 0 < gamma -> 0 < d ->
  exists X, forall x, X <= x -> 1 - d < smooth_damping x gamma.
Proof.
  intros Hg Hd. exists ((1 + / d) / gamma). intros x Hx.
  assert (0 < / d) by now apply Rinv_0_lt_compat.
  assert (1 + / d <= gamma * x) as Hgx.
  { apply Rmult_le_reg_l with (/ gamma); [now apply Rinv_0_lt_compat|].
    rewrite <- Rmult_assoc, Rinv_l by lra. unfold Rdiv in Hx. lra. }
  rewrite damping_doc by lra. unfold doc_smooth_damping.
  pose proof (exp_ineq1_le (gamma * x)) as E1.
  set (w := exp (gamma * x)) in *.
  assert (/ (w - 1) < d).
  { rewrite <- (Rinv_inv d). apply Rinv_lt_contravar; nra. }
  pose proof (exp_ineq1_le (- (1 / (w - 1)))). unfold Rdiv in *. lra.
Qed.

(** * mappings *)

Lemma expm1_damped x : - expm1 (- x) / x = (1 - exp (- x)) / x.
Proof. unfold expm1. f_equal. ring. Qed.

Lemma exp_taylor3 x : 0 <= x -> 1 - x + x * x / 2 - x * x * x / 6 <= exp (- x).
Proof.
  intros Hx.
  assert (forall x, 0 <= x -> 1 - x <= exp (- x)) as H1.
  { intros y _. pose proof (exp_ineq1_le (- y)). lra. }
  assert (forall x, 0 <= x -> exp (- x) <= 1 - x + x * x / 2) as H2.
  { intros y Hy.
    pose (g := fun z => 1 - z + z * z / 2 - exp (- z)).
    assert (g 0 <= g y) as G.
    { apply (deriv_nonneg_le g (fun z => - 1 + z + exp (- z))); [exact Hy| |].
      - intros z _. apply is_derive_Reals. unfold g. auto_derive; [trivial|]. field.
      - intros z Hz. specialize (H1 z ltac:(lra)). lra. }
    unfold g in G. rewrite Ropp_0, exp_0 in G. lra. }
  pose (g := fun z => exp (- z) - (1 - z + z * z / 2 - z * z * z / 6)).
  assert (g 0 <= g x) as G.
  { apply (deriv_nonneg_le g (fun z => (1 - z + z * z / 2) - exp (- z))); [exact Hx| |].
    - intros z _. apply is_derive_Reals. unfold g. auto_derive; [trivial|]. field.
    - intros z Hz. specialize (H2 z ltac:(lra)). lra. }
  unfold g in G. rewrite Ropp_0, exp_0 in G. lra.
Qed.

Definition damped (x : R) : R := (1 - exp (- x)) / x.

Lemma damped_le_taylor x : 0 < x -> damped x <= 1 - x / 2 + x * x / 6.
Proof.
  intros Hx. unfold damped. apply Rmult_le_reg_r with x; [exact Hx|].
  unfold Rdiv at 1. rewrite Rmult_assoc, Rinv_l by lra.
  pose proof (exp_taylor3 x ltac:(lra)). lra.
Qed.

Lemma damped_mono x y : 0 < x -> x <= y -> damped y <= damped x.
Proof.
  intros Hx Hl.
  assert (- damped x <= - damped y); [|lra].
  apply (deriv_nonneg_le (fun z => - damped z) (fun z => (1 - exp (- z) * (1 + z)) / (z * z))); [exact Hl| |].
  - intros z Hz. apply is_derive_Reals. unfold damped. auto_derive; [lra|]. field. lra.
  - intros z Hz. apply Rmult_le_pos; [|left; apply Rinv_0_lt_compat; nra].
    rewrite exp_Ropp. pose proof (exp_ineq1_le z) as E. pose proof (exp_pos z).
    assert (/ exp z * (1 + z) <= 1); [|lra].
    apply Rmult_le_reg_l with (exp z); [lra|]. rewrite <- Rmult_assoc, Rinv_r by lra. lra.
Qed.

Lemma damped_pos x : 0 < x -> 0 < damped x.
Proof.
  intros Hx. apply Rdiv_lt_0_compat; [|exact Hx]. pose proof (exp_neg_lt_1 x Hx). lra.
Qed.

Lemma cusp_mono x y : 0 <= x -> x <= y -> x + exp (- x) <= y + exp (- y).
Proof.
  intros Hx Hl.
  apply (deriv_nonneg_le (fun z => z + exp (- z)) (fun z => 1 - exp (- z))); [exact Hl| |].
  - intros z _. apply is_derive_Reals. auto_derive; [trivial|]. ring.
  - intros z Hz. pose proof (exp_neg_lt_1 z ltac:(lra)). lra.
Qed.

Lemma cusp_ge_1 x : 1 <= x + exp (- x).
Proof. pose proof (exp_ineq1_le (- x)). lra. Qed.

(** The value of [reciprocal_mapping] for each kind. *)
Definition recip_val (eps : R) (kind : string) (x : R) : R :=
  if String.eqb kind "shifted" then 1 / (x + 1)
  else if String.eqb kind "damped" then (if Rlt_dec x eps then 1 - x / 2 + x * x / 6 else damped x)
  else 1 / (x + exp (- x)).

Definition valid_kind (kind : string) : Prop := kind = "shifted"%string \/ kind = "damped"%string \/ kind = "cuspless"%string.

Lemma recip_ok eps x kind : valid_kind kind -> reciprocal_mapping eps x kind = Ok (recip_val eps kind x).
Proof.
  intros [->|[->| ->]]; unfold reciprocal_mapping, recip_val; simpl; try reflexivity.
  unfold Rltb. destruct (Rlt_dec x eps); [reflexivity|]. now rewrite expm1_damped.
Qed.

Lemma recip_err eps x kind : ~ valid_kind kind -> reciprocal_mapping eps x kind = Err ValueError.
Proof.
  intros H. unfold reciprocal_mapping, valid_kind in *.
  destruct (String.eqb_spec kind "shifted"); [tauto|].
  destruct (String.eqb_spec kind "damped"); [tauto|].
  destruct (String.eqb_spec kind "cuspless"); [tauto|]. reflexivity.
Qed.

Lemma recip_0 eps kind : 0 < eps -> valid_kind kind -> recip_val eps kind 0 = 1.
Proof.
  intros He [->|[->| ->]]; unfold recip_val; simpl.
  - field.
  - destruct (Rlt_dec 0 eps); [field|lra].
  - rewrite Ropp_0, exp_0. field.
Qed.

Lemma recip_mono eps kind : 0 < eps < 1 / 2 -> valid_kind kind ->
  nonincreasing_on (fun x => 0 <= x) (recip_val eps kind).
Proof.
  intros He [->|[->| ->]] x y Hx Hy Hl; unfold recip_val; simpl.
  - unfold Rdiv. rewrite !Rmult_1_l. apply Rinv_le_contravar; lra.
  - destruct (Rlt_dec x eps), (Rlt_dec y eps); try lra.
    + nra.
    + pose proof (damped_le_taylor eps ltac:(lra)). pose proof (damped_mono eps y ltac:(lra) ltac:(lra)). nra.
    + apply damped_mono; lra.
  - unfold Rdiv. rewrite !Rmult_1_l. apply Rinv_le_contravar; [pose proof (cusp_ge_1 x); lra|].
    now apply cusp_mono.
Qed.

Lemma recip_pos eps kind x : 0 < eps < 1 / 2 -> valid_kind kind -> 0 <= x -> 0 < recip_val eps kind x.
Proof.
  intros He [->|[->| ->]] Hx; unfold recip_val; simpl.
  - apply Rdiv_lt_0_compat; lra.
  - destruct (Rlt_dec x eps); [nra|apply damped_pos; lra].
  - apply Rdiv_lt_0_compat; [lra|pose proof (cusp_ge_1 x); lra].
Qed.

(** In the clamped region of 'damped' the value is within eps^3/24 of the exact one. *)
Lemma recip_doc eps kind x : 0 < eps -> 0 <= x -> valid_kind kind -> (kind = "damped"%string -> eps <= x) ->
  doc_reciprocal_mapping kind x = Some (recip_val eps kind x).
Proof.
  intros He Hx [->|[->| ->]] Hd; unfold recip_val, doc_reciprocal_mapping; simpl; try reflexivity.
  specialize (Hd eq_refl). destruct (Rlt_dec x eps); [lra|reflexivity].
Qed.

Lemma exp_taylor4 x : 0 <= x -> exp (- x) <= 1 - x + x * x / 2 - x * x * x / 6 + x * x * x * x / 24.
Proof.
  intros Hx.
  pose (g := fun z => (1 - z + z * z / 2 - z * z * z / 6 + z * z * z * z / 24) - exp (- z)).
  assert (g 0 <= g x) as G.
  { apply (deriv_nonneg_le g (fun z => exp (- z) - (1 - z + z * z / 2 - z * z * z / 6))); [exact Hx| |].
    - intros z _. apply is_derive_Reals. unfold g. auto_derive; [trivial|]. field.
    - intros z Hz. pose proof (exp_taylor3 z ltac:(lra)). lra. }
  unfold g in G. rewrite Ropp_0, exp_0 in G. lra.
Qed.

Lemma damped_taylor_err x : 0 < x -> 0 <= (1 - x / 2 + x * x / 6) - damped x <= x * x * x / 24.
Proof.
  intros Hx. split; [pose proof (damped_le_taylor x Hx); lra|].
  assert (1 - x / 2 + x * x / 6 - x * x * x / 24 <= damped x); [|lra].
  unfold damped. apply Rmult_le_reg_r with x; [exact Hx|].
  replace ((1 - exp (- x)) / x * x) with (1 - exp (- x)) by (field; lra).
  pose proof (exp_taylor4 x ltac:(lra)). nra.
Qed.

Definition expo_val (gamma : R) (cuspless : bool) (x : R) : R := exponential_mapping x gamma cuspless.

Lemma expo_mono gamma cuspless : 0 < gamma ->
  nonincreasing_on (fun x => 0 <= x) (fun x => exponential_mapping x gamma cuspless).
Proof.
  intros Hg x y Hx Hy Hl. unfold exponential_mapping. apply exp_le. destruct cuspless.
  - pose proof (cusp_mono x y Hx Hl). nra.
  - nra.
Qed.

Lemma expo_0 gamma cuspless : exponential_mapping 0 gamma cuspless = 1.
Proof.
  unfold exponential_mapping. rewrite Ropp_0, exp_0. replace (- gamma * (if cuspless then 0 + 1 - 1 else 0)) with 0; [apply exp_0|]. destruct cuspless; ring.
Qed.

(** * softplus *)

Lemma inverse_softplus_right x : 0 < x -> softplus (inverse_softplus x) = x.
Proof.
  intros Hx. unfold softplus, inverse_softplus, expm1.
  pose proof (exp_neg_lt_1 x Hx).
  rewrite exp_plus, exp_ln by lra.
  replace (1 + exp x * - (exp (- x) - 1)) with (exp x).
  - apply ln_exp.
  - rewrite exp_Ropp. field. pose proof (exp_pos x); lra.
Qed.

Lemma softplus_pos y : 0 < softplus y.
Proof.
  unfold softplus. rewrite <- ln_1. apply ln_increasing; [lra|]. pose proof (exp_pos y). lra.
Qed.

Lemma inverse_softplus_left y : inverse_softplus (softplus y) = y.
Proof.
  unfold inverse_softplus, expm1. pose proof (exp_pos y) as Hy.
  rewrite exp_Ropp. unfold softplus at 2. rewrite exp_ln by lra.
  unfold softplus. rewrite <- ln_mult.
  - transitivity (ln (exp y)); [f_equal; field; lra|apply ln_exp].
  - lra.
  - replace (- (/ (1 + exp y) - 1)) with (exp y / (1 + exp y)) by (field; lra). apply Rdiv_lt_0_compat; lra.
Qed.
