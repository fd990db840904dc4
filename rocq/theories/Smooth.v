(** Infinitely differentiable functions of one real variable, and the standard flat function
    exp (-1/t).  Not a model of code; used to state and prove smoothness claims. *)
Require Import Reals Lra Lia.
From Coquelicot Require Import Rcomplements Hierarchy Derive ElemFct AutoDerive Continuity.
Open Scope R_scope.

(** [f] can be differentiated [n] times everywhere. *)
Fixpoint times_differentiable (n : nat) (f : R -> R) : Prop :=
  match n with
  | O => True
  | S n => exists f', (forall x, derivable_pt_lim f x (f' x)) /\ times_differentiable n f'
  end.

Definition infinitely_differentiable (f : R -> R) : Prop := forall n, times_differentiable n f.

(** All derivatives of [f] (of order 0, 1, ...) exist everywhere and vanish at [x]. *)
Fixpoint flat_to_order (n : nat) (f : R -> R) (P : R -> Prop) : Prop :=
  (forall x, P x -> f x = 0) /\
  match n with
  | O => True
  | S n => exists f', (forall x, derivable_pt_lim f x (f' x)) /\ flat_to_order n f' P
  end.

Lemma deriv_ext f g x l : (forall y, f y = g y) -> derivable_pt_lim f x l -> derivable_pt_lim g x l.
Proof.
  intros E H e He. destruct (H e He) as [d Hd]. exists d. intros h Hh Hl.
  rewrite <- !E. now apply Hd.
Qed.

Lemma td_ext n : forall f g, (forall y, f y = g y) -> times_differentiable n f -> times_differentiable n g.
Proof.
  destruct n as [|n]; intros f g E H; [exact I|].
  destruct H as [f' [H1 H2]]. exists f'. split; [|exact H2].
  intros x. apply (deriv_ext f); auto.
Qed.

Lemma td_pred n : forall f, times_differentiable (S n) f -> times_differentiable n f.
Proof.
  induction n as [|n IH]; intros f H; [exact I|].
  destruct H as [f' [H1 H2]]. exists f'. split; [exact H1|]. now apply IH.
Qed.

Lemma td_const n : forall c, times_differentiable n (fun _ => c).
Proof.
  induction n as [|n IH]; intros c; [exact I|].
  exists (fun _ => 0). split; [|apply IH]. intros x. apply derivable_pt_lim_const.
Qed.

Lemma td_id n : times_differentiable n (fun x => x).
Proof.
  destruct n as [|n]; [exact I|]. exists (fun _ => 1). split; [|apply td_const].
  intros x. apply derivable_pt_lim_id.
Qed.

Lemma td_plus n : forall f g, times_differentiable n f -> times_differentiable n g ->
  times_differentiable n (fun x => f x + g x).
Proof.
  induction n as [|n IH]; intros f g Hf Hg; [exact I|].
  destruct Hf as [f' [F1 F2]], Hg as [g' [G1 G2]].
  exists (fun x => f' x + g' x). split; [|now apply IH].
  intros x. exact (derivable_pt_lim_plus f g x _ _ (F1 x) (G1 x)).
Qed.

Lemma td_mult n : forall f g, times_differentiable n f -> times_differentiable n g ->
  times_differentiable n (fun x => f x * g x).
Proof.
  induction n as [|n IH]; intros f g Hf Hg; [exact I|].
  pose proof (td_pred _ _ Hf) as Hf0. pose proof (td_pred _ _ Hg) as Hg0.
  destruct Hf as [f' [F1 F2]], Hg as [g' [G1 G2]].
  exists (fun x => f' x * g x + f x * g' x). split.
  - intros x. exact (derivable_pt_lim_mult f g x _ _ (F1 x) (G1 x)).
  - apply td_plus; now apply IH.
Qed.

Lemma td_comp n : forall f g, times_differentiable n f -> times_differentiable n g ->
  times_differentiable n (fun x => f (g x)).
Proof.
  induction n as [|n IH]; intros f g Hf Hg; [exact I|].
  pose proof (td_pred _ _ Hg) as Hg0.
  destruct Hf as [f' [F1 F2]], Hg as [g' [G1 G2]].
  exists (fun x => f' (g x) * g' x). split.
  - intros x. exact (derivable_pt_lim_comp g f x _ _ (G1 x) (F1 (g x))).
  - apply td_mult; [apply IH; assumption|assumption].
Qed.

Lemma id_const c : infinitely_differentiable (fun _ => c). Proof. intro; apply td_const. Qed.
Lemma id_id : infinitely_differentiable (fun x => x). Proof. intro; apply td_id. Qed.
Lemma id_plus f g : infinitely_differentiable f -> infinitely_differentiable g ->
  infinitely_differentiable (fun x => f x + g x). Proof. intros A B n; apply td_plus; auto. Qed.
Lemma id_mult f g : infinitely_differentiable f -> infinitely_differentiable g ->
  infinitely_differentiable (fun x => f x * g x). Proof. intros A B n; apply td_mult; auto. Qed.
Lemma id_comp f g : infinitely_differentiable f -> infinitely_differentiable g ->
  infinitely_differentiable (fun x => f (g x)). Proof. intros A B n; apply (td_comp n f g); auto. Qed.
Lemma id_ext f g : (forall x, f x = g x) -> infinitely_differentiable f -> infinitely_differentiable g.
Proof. intros E H n. now apply (td_ext n f g). Qed.
Lemma id_exp : infinitely_differentiable exp.
Proof.
  intro n. induction n as [|n IH]; [exact I|]. exists exp. split; [apply derivable_pt_lim_exp|exact IH].
Qed.

Lemma td_inv n : forall f, (forall x, f x <> 0) -> times_differentiable n f ->
  times_differentiable n (fun x => / f x).
Proof.
  induction n as [|n IH]; intros f Hn Hf; [exact I|].
  pose proof (td_pred _ _ Hf) as Hf0. destruct Hf as [f' [F1 F2]].
  exists (fun x => (-1) * f' x * (/ f x * / f x)). split.
  - intros x. replace (-1 * f' x * (/ f x * / f x)) with ((- f' x) / (f x ^ 2)).
    + apply is_derive_Reals. apply (is_derive_inv f x (f' x)); [|apply Hn]. apply is_derive_Reals, F1.
    + field. apply Hn.
  - apply td_mult; [apply td_mult; [apply td_const|exact F2]|]. apply td_mult; now apply IH.
Qed.
Lemma id_inv f : (forall x, f x <> 0) -> infinitely_differentiable f -> infinitely_differentiable (fun x => / f x).
Proof. intros H A n. now apply td_inv. Qed.

(** Flatness is inherited by compositions with smooth inner functions and by products. *)
Lemma flat_td n : forall f P, flat_to_order n f P -> times_differentiable n f.
Proof.
  induction n as [|n IH]; intros f P H; [exact I|].
  destruct H as [_ [f' [H1 H2]]]. exists f'. split; [exact H1|]. now apply (IH _ P).
Qed.

Lemma flat_pred n : forall f P, flat_to_order (S n) f P -> flat_to_order n f P.
Proof.
  induction n as [|n IH]; intros f P H.
  - destruct H as [H0 _]. split; auto.
  - destruct H as [H0 [f' [H1 H2]]]. split; [exact H0|]. exists f'. split; [exact H1|]. now apply IH.
Qed.

Lemma flat_mult n : forall f g P, flat_to_order n f P -> times_differentiable n g ->
  flat_to_order n (fun x => f x * g x) P.
Proof.
  induction n as [|n IH]; intros f g P Hf Hg.
  - destruct Hf as [H0 _]. split; [|exact I]. intros x Hx. rewrite H0; auto. ring.
  - pose proof (flat_pred _ _ _ Hf) as Hf0. pose proof (td_pred _ _ Hg) as Hg0.
    destruct Hf as [H0 [f' [F1 F2]]], Hg as [g' [G1 G2]].
    split; [intros x Hx; rewrite H0; auto; ring|].
    exists (fun x => f' x * g x + f x * g' x). split.
    + intros x. exact (derivable_pt_lim_mult f g x _ _ (F1 x) (G1 x)).
    + assert (forall m a b, flat_to_order m a P -> flat_to_order m b P ->
        flat_to_order m (fun x => a x + b x) P) as Hplus.
      { clear. induction m as [|m IHm]; intros a b [A0 A] [B0 B].
        - split; [|exact I]. intros; rewrite A0, B0; auto; ring.
        - split; [intros; rewrite A0, B0; auto; ring|].
          destruct A as [a' [A1 A2]], B as [b' [B1 B2]].
          exists (fun x => a' x + b' x). split; [|now apply IHm].
          intros x. exact (derivable_pt_lim_plus a b x _ _ (A1 x) (B1 x)). }
      apply Hplus; [apply IH|apply IH]; assumption.
Qed.

Lemma flat_comp n : forall f g (P Q : R -> Prop), (forall x, Q x -> P (g x)) ->
  flat_to_order n f P -> times_differentiable n g -> flat_to_order n (fun x => f (g x)) Q.
Proof.
  induction n as [|n IH]; intros f g P Q HPQ Hf Hg.
  - destruct Hf as [H0 _]. split; [|exact I]. auto.
  - pose proof (td_pred _ _ Hg) as Hg0.
    destruct Hf as [H0 [f' [F1 F2]]], Hg as [g' [G1 G2]].
    split; [auto|].
    exists (fun x => f' (g x) * g' x). split.
    + intros x. exact (derivable_pt_lim_comp g f x _ _ (G1 x) (F1 (g x))).
    + apply flat_mult; [|exact G2]. now apply (IH f' g P Q).
Qed.

(** * exp (-1/t) *)

Definition bump (t : R) : R := if Rlt_dec 0 t then exp (- / t) else 0.

(** t^-k exp(-1/t), extended by 0. *)
Definition bumpk (k : nat) (t : R) : R := if Rlt_dec 0 t then (/ t) ^ k * exp (- / t) else 0.

Lemma exp_ge_pow k : forall w, 0 <= w -> w ^ k <= INR (fact k) * exp w.
Proof.
  induction k as [|k IH]; intros w Hw.
  - simpl. pose proof (exp_ineq1_le w). lra.
  - set (h := fun w => INR (fact (S k)) * exp w - w ^ S k).
    assert (0 <= h w) as H; [|unfold h in H; lra].
    destruct (Req_dec w 0) as [->|Hn].
    { unfold h. rewrite exp_0, pow_i by lia. pose proof (pos_INR (fact (S k))). lra. }
    destruct (MVT_cor2 h (fun w => INR (fact (S k)) * exp w - INR (S k) * w ^ k) 0 w) as [c [E Hc]].
    + lra.
    + intros c Hc. unfold h. apply is_derive_Reals. auto_derive; [trivial|]. change (INR (fact (S k)) * (1 * exp c) + - (1 * (INR (S k) * c ^ k)) = INR (fact (S k)) * exp c - INR (S k) * c ^ k). ring.
    + assert (h 0 = INR (fact (S k))) as E0.
      { unfold h. rewrite exp_0, pow_i by lia. lra. }
      assert (0 <= INR (fact (S k)) * exp c - INR (S k) * c ^ k).
      { replace (fact (S k)) with (S k * fact k)%nat by reflexivity.
        rewrite mult_INR. specialize (IH c ltac:(lra)).
        pose proof (pos_INR (S k)). nra. }
      pose proof (pos_INR (fact (S k))). nra.
Qed.

Lemma bumpk_bound k t : 0 < t -> bumpk k t <= INR (fact (k + 2)) * t ^ 2.
Proof.
  intros Ht. unfold bumpk. destruct (Rlt_dec 0 t); [|lra].
  assert (0 < / t) as Hi by now apply Rinv_0_lt_compat.
  pose proof (exp_ge_pow (k + 2) (/ t) ltac:(lra)) as H.
  rewrite exp_Ropp. rewrite pow_add in H.
  assert (0 < exp (/ t)) as He by apply exp_pos.
  apply Rmult_le_reg_r with (exp (/ t)); [exact He|].
  rewrite Rmult_assoc, Rinv_l by lra. rewrite Rmult_1_r.
  apply Rmult_le_reg_r with ((/ t) ^ 2). { apply pow_lt; exact Hi. }
  eapply Rle_trans; [exact H|].
  replace (INR (fact (k + 2)) * t ^ 2 * exp (/ t) * (/ t) ^ 2)
    with (INR (fact (k + 2)) * exp (/ t) * (t * / t) ^ 2) by ring.
  rewrite Rinv_r by lra. rewrite pow1. lra.
Qed.

Lemma bumpk_deriv k t : derivable_pt_lim (bumpk k) t (bumpk (k + 2) t - INR k * bumpk (k + 1) t).
Proof.
  destruct (Rtotal_order t 0) as [Hn|[->|Hp]].
  - intros e He. exists (mkposreal (- t) ltac:(lra)). simpl. intros h Hh Hl.
    unfold bumpk. destruct (Rlt_dec 0 (t + h)); [apply Rabs_def2 in Hl; lra|].
    destruct (Rlt_dec 0 t); [lra|].
    replace ((0 - 0) / h - (0 - INR k * 0)) with 0 by (field; auto). rewrite Rabs_R0. exact He.
  - assert (0 < INR (fact (k + 2))) as HF by apply lt_0_INR, lt_O_fact.
    intros e He. exists (mkposreal (e / INR (fact (k + 2))) ltac:(now apply Rdiv_lt_0_compat)).
    simpl. intros h Hh Hl.
    rewrite Rplus_0_l.
    assert (forall j, bumpk j 0 = 0) as E0.
    { intro j. unfold bumpk. destruct (Rlt_dec 0 0); [lra|reflexivity]. }
    rewrite !E0. replace (_ - (0 - INR k * 0)) with (bumpk k h / h) by (field; auto).
    destruct (Rlt_dec 0 h) as [Hp|Hp].
    + pose proof (bumpk_bound k h Hp) as B.
      rewrite Rabs_right in Hl by lra.
      assert (0 <= bumpk k h) as Hb.
      { unfold bumpk. destruct (Rlt_dec 0 h); [|lra]. apply Rmult_le_pos.
        - apply pow_le. left. now apply Rinv_0_lt_compat.
        - left; apply exp_pos. }
      rewrite Rabs_right.
      2:{ apply Rle_ge. apply Rmult_le_pos; [exact Hb|left; now apply Rinv_0_lt_compat]. }
      apply Rmult_lt_reg_r with h; [exact Hp|]. unfold Rdiv.
      rewrite Rmult_assoc, Rinv_l by lra. rewrite Rmult_1_r.
      eapply Rle_lt_trans; [exact B|].
      assert (INR (fact (k + 2)) * h < e).
      { apply Rmult_lt_reg_r with (/ INR (fact (k + 2))); [now apply Rinv_0_lt_compat|].
        replace (INR (fact (k + 2)) * h * / INR (fact (k + 2))) with h by (field; lra). exact Hl. }
      nra.
    + unfold bumpk. destruct (Rlt_dec 0 h); [lra|].
      replace (0 / h) with 0 by (field; auto). rewrite Rabs_R0. exact He.
  - (* positive side *)
    assert (derivable_pt_lim (fun t => (/ t) ^ k * exp (- / t)) t
              (bumpk (k + 2) t - INR k * bumpk (k + 1) t)) as D.
    { apply is_derive_Reals. unfold bumpk. destruct (Rlt_dec 0 t); [|lra].
      auto_derive; [lra|].
      destruct k as [|k].
      - simpl. field. lra.
      - change (Init.Nat.pred (S k)) with k. rewrite !pow_add. simpl (_ ^ S k). simpl (_ ^ 1). simpl (_ ^ 2). field. lra. }
    intros e He. destruct (D e He) as [d Hd].
    exists (mkposreal (Rmin d t) ltac:(apply Rmin_pos; [apply cond_pos|exact Hp])). simpl.
    intros h Hh Hl.
    assert (Rabs h < d) as H1 by (eapply Rlt_le_trans; [exact Hl|apply Rmin_l]).
    assert (Rabs h < t) as H2 by (eapply Rlt_le_trans; [exact Hl|apply Rmin_r]).
    specialize (Hd h Hh H1).
    assert (bumpk k (t + h) = (/ (t + h)) ^ k * exp (- / (t + h))) as E1.
    { unfold bumpk. destruct (Rlt_dec 0 (t + h)); [reflexivity|]. apply Rabs_def2 in H2. lra. }
    assert (bumpk k t = (/ t) ^ k * exp (- / t)) as E2.
    { unfold bumpk. destruct (Rlt_dec 0 t); [reflexivity|lra]. }
    rewrite E1, E2. exact Hd.
Qed.

Lemma bumpk_flat n : forall k, flat_to_order n (bumpk k) (fun t => t <= 0).
Proof.
  induction n as [|n IH]; intros k.
  - split; [|exact I]. intros x Hx. unfold bumpk. destruct (Rlt_dec 0 x); [lra|reflexivity].
  - split.
    + intros x Hx. unfold bumpk. destruct (Rlt_dec 0 x); [lra|reflexivity].
    + exists (fun t => bumpk (k + 2) t * 1 + bumpk (k + 1) t * (- INR k)). split.
      * intros x. replace (_ + _) with (bumpk (k + 2) x - INR k * bumpk (k + 1) x) by ring.
        apply bumpk_deriv.
      * clear - IH.
        assert (forall m a b P, flat_to_order m a P -> flat_to_order m b P ->
          flat_to_order m (fun x => a x + b x) P) as Hplus.
        { clear. induction m as [|m IHm]; intros a b P [A0 A] [B0 B].
          - split; [|exact I]. intros; rewrite A0, B0; auto; ring.
          - split; [intros; rewrite A0, B0; auto; ring|].
            destruct A as [a' [A1 A2]], B as [b' [B1 B2]].
            exists (fun x => a' x + b' x). split; [|now apply IHm].
            intros x. exact (derivable_pt_lim_plus a b x _ _ (A1 x) (B1 x)). }
        apply Hplus; apply flat_mult; auto; apply td_const.
Qed.

Lemma flat_ext n : forall f g P, (forall x, f x = g x) -> flat_to_order n f P -> flat_to_order n g P.
Proof.
  intros f g P E H. destruct n as [|n].
  - destruct H as [H _]. split; [|exact I]. intros. rewrite <- E; auto.
  - destruct H as [H0 [f' [H1 H2]]]. split; [intros; rewrite <- E; auto|].
    exists f'. split; [|exact H2]. intros x. apply (deriv_ext f); auto.
Qed.

Lemma bump_flat n : flat_to_order n bump (fun t => t <= 0).
Proof.
  apply flat_ext with (f := bumpk 0); [|apply bumpk_flat].
  intros x. unfold bumpk, bump. destruct (Rlt_dec 0 x); [simpl; ring|reflexivity].
Qed.

Lemma bump_smooth : infinitely_differentiable bump.
Proof. intro n. apply (flat_td n _ (fun t => t <= 0)), bump_flat. Qed.

(** Monotonicity from the sign of the derivative. *)
Lemma deriv_nonneg_le (f f' : R -> R) a b :
  a <= b -> (forall x, a <= x <= b -> derivable_pt_lim f x (f' x)) ->
  (forall x, a < x < b -> 0 <= f' x) -> f a <= f b.
Proof.
  intros Hab D P. destruct (Req_dec a b) as [->|Hn]; [lra|].
  destruct (MVT_cor2 f f' a b) as [c [E Hc]]; [lra|intros; apply D; lra|].
  specialize (P c Hc). nra.
Qed.

Lemma deriv_pos_lt (f f' : R -> R) a b :
  a < b -> (forall x, a <= x <= b -> derivable_pt_lim f x (f' x)) ->
  (forall x, a < x < b -> 0 < f' x) -> f a < f b.
Proof.
  intros Hab D P. destruct (MVT_cor2 f f' a b) as [c [E Hc]]; [lra|intros; apply D; lra|].
  specialize (P c Hc). nra.
Qed.
