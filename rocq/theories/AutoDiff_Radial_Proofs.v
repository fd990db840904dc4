(** Gradients of cutoffs, switches, windows and radial basis functions are finite and correct (C81). *)
Require Import List Reals Lra Lia ZArith Bool String.
Require Import Verif.Base Verif.Smooth Verif.Radial_Model Verif.Activations_Model Verif.Radial_Spec.
Require Import Verif.Radial_Proofs Verif.Radial_Basis_Proofs Verif.Radial_Props.
Require Import Verif.AutoDiff_Model Verif.AutoDiff_Spec Verif.AutoDiff_Proofs Verif.AutoDiff_Props.
Import ListNotations.
Open Scope R_scope.

(** A program with a hole computes [f], with a finite derivative on [domain], and does not change
    its formula unless the argument is one of [exceptions]. *)
Definition block (P : expr -> expr) (f : R -> R) (domain exceptions : R -> Prop) : Prop :=
  forall a r i u d, diff a r i u d -> domain u ->
    (exists d', diff (P a) r i (f u) d') /\
    (settled a r i -> ~ exceptions u -> settled (P a) r i).

Lemma block_comp P Q f g (D D' E E' : R -> Prop) :
  block P f D E -> block Q g D' E' -> (forall u, D' u -> D (g u)) ->
  block (fun a => P (Q a)) (fun u => f (g u)) D' (fun u => E' u \/ E (g u)).
Proof.
  intros HP HQ HD a r i u d A U. destruct (HQ a r i u d A U) as [[d' A'] S'].
  destruct (HP (Q a) r i (g u) d' A' (HD u U)) as [H S]. split; [exact H|].
  intros SA N. apply S; auto.
Qed.

Lemma block_mul P Q f g (D D' E E' : R -> Prop) :
  block P f D E -> block Q g D' E' ->
  block (fun a => P a *! Q a) (fun u => f u * g u) (fun u => D u /\ D' u) (fun u => E u \/ E' u).
Proof.
  intros HP HQ a r i u d A [U U']. destruct (HP a r i u d A U) as [[d1 A1] S1].
  destruct (HQ a r i u d A U') as [[d2 A2] S2]. split.
  - eexists. eapply diff_mul; eassumption.
  - intros SA N. cbn. repeat split; auto.
Qed.

Lemma block_sub P Q f g (D D' E E' : R -> Prop) :
  block P f D E -> block Q g D' E' ->
  block (fun a => P a -! Q a) (fun u => f u - g u) (fun u => D u /\ D' u) (fun u => E u \/ E' u).
Proof.
  intros HP HQ a r i u d A [U U']. destruct (HP a r i u d A U) as [[d1 A1] S1].
  destruct (HQ a r i u d A U') as [[d2 A2] S2]. split.
  - eexists. eapply diff_sub; eassumption.
  - intros SA N. cbn. repeat split; auto.
Qed.

Lemma block_weaken P f g (D D' E E' : R -> Prop) :
  block P f D E -> (forall u, D' u -> D u /\ f u = g u) -> (forall u, D' u -> E u -> E' u) -> block P g D' E'.
Proof.
  intros H W V a r i u d A U. destruct (W u U) as [DU <-]. destruct (H a r i u d A DU) as [F S].
  split; [exact F|]. intros SA N. apply S; [exact SA|]. intro Q. apply N. now apply V.
Qed.

Definition open (D : R -> Prop) : Prop :=
  forall x, D x -> exists delta, 0 < delta /\ forall t, Rabs (t - x) < delta -> D t.

Lemma open_above a : open (fun x => a < x).
Proof. intros x H. exists (x - a). split; [lra|]. intros t T. apply Rabs_def2 in T. lra. Qed.

Lemma block_differentiates P f D E : open D -> block P f D E -> differentiates (P X) f D E.
Proof.
  intros O H. apply differentiates_intro.
  - intros r D0. exact (proj1 (H X r 0%nat (r 0%nat) 1 (diff_var r 0) D0)).
  - intros r D0 N. split; [|now apply O].
    exact (proj2 (H X r 0%nat (r 0%nat) 1 (diff_var r 0) D0) I N).
Qed.

Ltac tree := match goal with |- diff _ _ ?i _ _ => repeat first [eassumption | diff_step_at i] end.
Ltac steady_at A SA :=
  repeat match goal with
  | |- steady (Or _ _) _ _ => apply steady_or
  | |- steady (Less _ _) _ _ => eapply steady_less
  | |- steady (LessEq _ _) _ _ => eapply steady_lesseq
  | |- cont (Const _) _ _ _ => apply cont_const
  | |- cont (Un Abs _) _ _ _ => apply cont_abs
  | |- cont _ _ _ _ => eapply cont_diff; [exact SA|exact A]
  end.
(** The outcome of the comparison in the goal, from the value of its argument. *)
Ltac outcome V :=
  match goal with
  | |- context [match holds ?c ?r with _ => _ end] =>
      let b := fresh "b" in
      destruct (holds c r) as [[|]|] eqn:b; cbn in b; rewrite ?V in b; cbn in b; unfold Rltb, Rleb in b;
      repeat match type of b with
      | context [Rlt_dec ?u ?v] => destruct (Rlt_dec u v)
      | context [Rle_dec ?u ?v] => destruct (Rle_dec u v)
      end; try discriminate b; clear b
  end.

(** * Cutoffs and damping *)

Lemma scaled_block c : 0 < c -> block (scaled_prog c) (fun u => u / c) everywhere nowhere.
Proof.
  intros C a r i u d A _. unfold scaled_prog, Reqb. destruct (Req_EM_T c 1) as [->|N]; cbn [negb].
  - split; [|auto]. exists d. eapply diff_eq; [exact A|field|reflexivity].
  - split; [eexists; tree; lra|]. intros S _. cbn. auto.
Qed.

Lemma cutoff_inner : block (fun x => Where (Less x (Const 1))
    (Un Exp (Const 1 -! Const 1 /! (Const 1 -! Where (Less x (Const 1)) x (Const 0) *! Where (Less x (Const 1)) x (Const 0)))) (Const 0))
  (fun u => if Rlt_dec u 1 then exp (1 - 1 / (1 - u ^ 2)) else 0) (fun u => -1 < u) (fun u => u = 1).
Proof.
  intros a r i u d A U. split.
  - eexists. eapply diff_eq; [tree| |reflexivity].
    + cases; [|lra]. intro Z. assert ((1 - u) * (1 + u) = 0) as Q by lra.
      apply Rmult_integral in Q. lra.
    + cases; [|reflexivity]. now replace (u ^ 2) with (u * u) by ring.
  - intros S N. cbn -[holds]. split; [steady_at A S; auto|].
    outcome (proj1 A); repeat split; auto; steady_at A S; auto.
Qed.

Lemma smooth_cutoff_block c : 0 < c ->
  block (smooth_cutoff_prog c) (doc_smooth_cutoff c) (fun x => - c < x) (fun x => x = c).
Proof.
  intro C. assert (I0 : 0 < / c) by now apply Rinv_0_lt_compat.
  assert (M : forall x, - c < x -> everywhere x /\ -1 < x / c).
  { intros x H. split; [exact I|]. apply (Rmult_lt_reg_r c); [exact C|]. unfold Rdiv. rewrite Rmult_assoc, Rinv_l; lra. }
  pose proof (block_comp _ _ _ _ _ (fun x => - c < x) _ _ cutoff_inner
    (block_weaken _ _ (fun u => u / c) _ (fun x => - c < x) _ nowhere (scaled_block c C)
       (fun u _ => conj I eq_refl) (fun u _ q => q)) (fun u h => proj2 (M u h))) as B.
  eapply block_weaken; [exact B| |].
  - intros u U. split; [exact U|]. unfold doc_smooth_cutoff.
    destruct (Rlt_dec (u / c) 1) as [L|L], (Rlt_dec u c) as [L'|L']; try reflexivity; exfalso.
    + apply L'. apply (Rmult_lt_reg_r (/ c)); [exact I0|]. rewrite Rinv_r by lra. exact L.
    + apply L. apply (Rmult_lt_reg_r c); [exact C|]. unfold Rdiv. rewrite Rmult_assoc, Rinv_l; lra.
  - intros u U [[]|Q]. apply (Rmult_eq_reg_r (/ c)); [|lra]. rewrite Rinv_r by lra. exact Q.
Qed.

Lemma cosine_cutoff_block c : 0 < c ->
  block (cosine_cutoff_prog c) (doc_cosine_cutoff c) everywhere (fun x => x = c).
Proof.
  intro C. assert (I0 : 0 < / c) by now apply Rinv_0_lt_compat.
  intros a r i u d A _. destruct (scaled_block c C a r i u d A I) as [[d' A'] S']. split.
  - unfold cosine_cutoff_prog, doc_cosine_cutoff. eexists. eapply diff_eq; [tree| |reflexivity].
    unfold Rltb. destruct (Rlt_dec (u / c) 1) as [L|L], (Rlt_dec u c) as [L'|L']; try lra; exfalso.
    + apply L'. apply (Rmult_lt_reg_r (/ c)); [exact I0|]. rewrite Rinv_r by lra. exact L.
    + apply L. apply (Rmult_lt_reg_r c); [exact C|]. unfold Rdiv. rewrite Rmult_assoc, Rinv_l; lra.
  - intros S N. specialize (S' S (fun q => q)). unfold cosine_cutoff_prog. cbn -[holds scaled_prog].
    split.
    + steady_at A' S'. intro Q. apply N. apply (Rmult_eq_reg_r (/ c)); [|lra]. rewrite Rinv_r by lra. exact Q.
    + outcome (proj1 A'); repeat split; auto.
Qed.

Lemma smooth_damping_block g : 0 < g ->
  block (smooth_damping_prog g) (fun x => smooth_damping x g) everywhere (fun x => x = 0).
Proof.
  intros G a r i u d A _. split.
  - unfold smooth_damping_prog, smooth_damping. cbv zeta. eexists. tree.
    cases; [|lra]. intro Z. rewrite Z in *. lra.
  - intros S N.
    assert (SD : settled (Const 1 -! Un Exp (Const (- g) *! a)) r i) by (cbn; auto 10).
    assert (NZ : 0 <> (1 - exp (- g * u)) * (1 - exp (- g * u))).
    { intro Q. symmetry in Q. apply Rmult_integral in Q. assert (E : exp (- g * u) = exp 0) by (rewrite exp_0; lra).
      apply exp_inv in E. apply N. apply (Rmult_eq_reg_l g); lra. }
    assert (ST : steady (Less (Const 0) ((Const 1 -! Un Exp (Const (- g) *! a)) *! (Const 1 -! Un Exp (Const (- g) *! a)))) r i).
    { eapply steady_less; [apply cont_const|eapply cont_diff; [|tree]|exact NZ]. cbn; auto 20. }
    unfold smooth_damping_prog. cbn -[holds]. split; [exact ST|].
    destruct (holds _ r) as [[|]|] eqn:HH; repeat split; auto.
Qed.

(** * Mappings *)

Lemma shifted_block : block (fun a => Const 1 /! (a +! Const 1)) (fun u => 1 / (u + 1)) (fun u => -1 < u) nowhere.
Proof.
  intros a r i u d A U. split; [eexists; tree; lra|]. intros S _. cbn. auto.
Qed.

Lemma damped_block eps : 0 < eps ->
  block (fun a => Where (Less a (Const eps)) (Const 1 -! a /! Const 2 +! a *! a /! Const 6)
          (Un Neg (Un Expm1 (Un Neg (Where (Less a (Const eps)) (Const 1) a))) /! Where (Less a (Const eps)) (Const 1) a))
    (fun x => if Rltb x eps then 1 - x / 2 + x * x / 6
              else - expm1 (- (if Rltb x eps then 1 else x)) / (if Rltb x eps then 1 else x))
    everywhere (fun x => x = eps).
Proof.
  intros E a r i u d A _. split.
  - eexists. tree; try lra. cases; lra.
  - intros S N. cbn -[holds]. split; [steady_at A S; auto|].
    outcome (proj1 A); repeat split; auto; steady_at A S; auto.
Qed.

Lemma cuspless_positive x : 0 < x + exp (- x).
Proof.
  destruct (Req_dec x 0) as [->|N]; [rewrite Ropp_0, exp_0; lra|].
  pose proof (exp_ineq1 (- x) ltac:(lra)). lra.
Qed.

Lemma cuspless_block : block (fun a => Const 1 /! (a +! Un Exp (Un Neg a))) (fun u => 1 / (u + exp (- u))) everywhere nowhere.
Proof.
  intros a r i u d A _. split.
  - eexists. tree. pose proof (cuspless_positive u). lra.
  - intros S _. cbn. auto 10.
Qed.

Lemma exponential_mapping_block g cuspless :
  block (exponential_mapping_prog g cuspless) (fun x => exponential_mapping x g cuspless) everywhere nowhere.
Proof.
  intros a r i u d A _. unfold exponential_mapping_prog, exponential_mapping. destruct cuspless; split.
  - eexists. tree.
  - intros S _. cbn. auto 10.
  - eexists. tree.
  - intros S _. cbn. auto.
Qed.

(** The mappings of distances: the only exception is the point where [damped] changes its formula. *)
Definition mapping_exception (eps : R) (kind : string) (x : R) : Prop := kind = "damped"%string /\ x = eps.

Lemma reciprocal_mapping_block eps kind : 0 < eps ->
  (kind = "shifted" \/ kind = "damped" \/ kind = "cuspless")%string ->
  exists P f, (forall a, reciprocal_mapping_prog eps kind a = Ok (P a)) /\
    (forall x, reciprocal_mapping eps x kind = Ok (f x)) /\
    block P f (fun x => -1 < x) (mapping_exception eps kind).
Proof.
  intros E [->|[->| ->]].
  - exists (fun a => Const 1 /! (a +! Const 1)), (fun u => 1 / (u + 1)).
    split; [reflexivity|]. split; [reflexivity|]. eapply block_weaken; [apply shifted_block| |intros u _ []].
    intros u U. split; [exact U|reflexivity].
  - eexists _, _. split; [intro a; reflexivity|]. split; [intro x; reflexivity|].
    eapply block_weaken; [exact (damped_block eps E)| |].
    + intros u U. split; [exact I|reflexivity].
    + intros u _ Q. split; [reflexivity|exact Q].
  - exists (fun a => Const 1 /! (a +! Un Exp (Un Neg a))), (fun u => 1 / (u + exp (- u))).
    split; [reflexivity|]. split; [reflexivity|]. eapply block_weaken; [apply cuspless_block| |intros u _ []].
    intros u U. split; [exact I|reflexivity].
Qed.

(** * Switch *)

Lemma switch_exp_diff e r i u d : diff e r i u d -> 0 < u < 1 ->
  exists d', diff (switch_exp_prog e) r i (smooth_switch_exp u) d'.
Proof. intros A U. eexists. unfold switch_exp_prog, smooth_switch_exp. tree; lra. Qed.

Lemma switch_primal_value eps u : 0 < eps < 1 / 2 ->
  value (switch_primal_prog eps) (fun _ => u) = Some (switch_val eps u).
Proof.
  intros E. unfold switch_primal_prog, switch_val.
  assert (H : exists d, diff (Where (Or (Less X (Const eps)) (Less (Const (1 - eps)) X)) (Const 0.5) X) (fun _ => u) 0
                (if (Rltb u eps || Rltb (1 - eps) u)%bool then 0.5 else u) d).
  { eexists. tree. }
  destruct H as [d H].
  destruct (switch_exp_diff _ _ _ _ _ H) as [d' H'].
  { cases; lra. }
  assert (H2 : exists d2, diff (switch_primal_prog eps) (fun _ => u) 0
     (if Rltb u eps then 0 else if Rltb (1 - eps) u then 1 else
        1 / (1 + smooth_switch_exp (if (Rltb u eps || Rltb (1 - eps) u)%bool then 0.5 else u))) d2).
  { eexists. unfold switch_primal_prog. tree. unfold smooth_switch_exp.
    match goal with |- 1 + exp ?q <> 0 => pose proof (exp_pos q); lra end. }
  destruct H2 as [d2 [V _]]. unfold switch_primal_prog in V. rewrite V. f_equal.
  unfold Rltb. destruct (Rlt_dec u eps); [reflexivity|]. destruct (Rlt_dec (1 - eps) u); [reflexivity|].
  cbn [orb]. unfold sw, smooth_switch_exp, smooth_switch_slope. unfold Rdiv. rewrite Rmult_1_l. reflexivity.
Qed.

Lemma switch_tangent_value eps u : 0 < eps < 1 / 2 ->
  value (switch_tangent_prog eps) (fun _ => u)
  = Some (if Rlt_dec u eps then 0 else if Rlt_dec (1 - eps) u then 0 else sw' u).
Proof.
  intros E. rewrite <- (Rmult_1_r (if Rlt_dec u eps then 0 else _)).
  replace 1 with (1 / (1 - 0)) at 1 by field.
  pose proof (switch_jvp_tan eps 0 1 u 1 ltac:(lra)) as T. cbv zeta in T.
  replace ((u - 0) / (1 - 0)) with u in T by field. rewrite <- T.
  unfold smooth_switch_jvp. cbv zeta.
  assert (R0 : Reqb 0 0 = true) by (unfold Reqb; destruct Req_EM_T; [reflexivity|contradiction]).
  assert (R1 : Reqb 1 1 = true) by (unfold Reqb; destruct Req_EM_T; [reflexivity|contradiction]).
  rewrite R0, R1. cbn [negb orb snd].
  unfold switch_tangent_prog.
  assert (H : exists d, diff (Where (Or (Less X (Const eps)) (Less (Const (1 - eps)) X)) (Const 0.5) X) (fun _ => u) 0
                (if (Rltb u eps || Rltb (1 - eps) u)%bool then 0.5 else u) d).
  { eexists. tree. }
  destruct H as [d H]. set (sx := if (Rltb u eps || Rltb (1 - eps) u)%bool then 0.5 else u) in *.
  assert (SX : 0 < sx < 1) by (unfold sx; cases; lra).
  destruct (switch_exp_diff _ _ _ _ _ H SX) as [d' H'].
  assert (EP : 0 < smooth_switch_exp sx) by apply exp_pos.
  pose proof (pow_lt sx 2 ltac:(lra)). pose proof (pow_lt (1 - sx) 2 ltac:(lra)).
  match goal with |- value ?e ?r = Some ?v => assert (G : exists d, diff e r 0 v d) end.
  { eexists. eapply diff_eq; [tree; lra| |reflexivity].
    rewrite Rmult_1_r.
    set (p := if Rltb u eps then 0 else if Rltb (1 - eps) u then 1 else 1 / (1 + smooth_switch_exp sx)).
    assert (P2 : 0 <= p * p) by apply Rle_0_sqr.
    assert (B1 : Rleb (p * p) 0 = Reqb (p * p) 0) by (cases; try reflexivity; lra).
    assert (B2 : Rleb (smooth_switch_exp sx) 0 = Reqb (smooth_switch_exp sx) 0) by (cases; try reflexivity; lra).
    rewrite B1, B2. reflexivity. }
  destruct G as [dd [V _]]. exact V.
Qed.

Lemma switch_block eps x0 x1 : 0 < eps < 1 / 2 -> x0 < x1 ->
  block (smooth_switch_prog eps x0 x1) (fun x => switch_val eps ((x - x0) / (x1 - x0))) everywhere
    (fun x => x = x0 + eps * (x1 - x0) \/ x = x1 - eps * (x1 - x0)).
Proof.
  intros E L.
  assert (B1 : block (fun a => if negb (Reqb x0 0) || negb (Reqb x1 1) then (a -! Const x0) /! Const (x1 - x0) else a)
                 (fun x => (x - x0) / (x1 - x0)) everywhere nowhere).
  { intros a r i u d A _. split.
    - unfold Reqb. destruct (Req_EM_T x0 0) as [Q|], (Req_EM_T x1 1) as [Q'|]; cbn [negb orb].
      2-4: eexists; tree; lra.
      exists d. eapply diff_eq; [exact A| |reflexivity]. rewrite Q, Q'. field.
    - intros S _. destruct (negb (Reqb x0 0) || negb (Reqb x1 1)); cbn; auto. }
  assert (B2 : block (Un (switch_op eps)) (switch_val eps) everywhere (fun t => t = eps \/ t = 1 - eps)).
  { intros a r i u d A _. split.
    - eexists. unfold switch_op. eapply diff_custom; [exact A|now apply switch_primal_value|now apply switch_tangent_value].
    - intros S N. unfold switch_op. cbn -[switch_primal_prog switch_tangent_prog]. split; [exact S|].
      intros u' U'. rewrite (proj1 A) in U'. injection U' as <-. intros d' D'.
      rewrite switch_tangent_value in D' by exact E. injection D' as <-.
      exists (switch_val eps), 1. split; [lra|]. split; [intros t _; now apply switch_primal_value|].
      apply switch_val_deriv; auto. }
  eapply block_weaken; [exact (block_comp _ _ _ _ _ _ _ _ B2 B1 (fun _ _ => I))| |].
  - intros u _. split; [exact I|reflexivity].
  - intros u _ [[]|[Q|Q]]; [left|right].
    + rewrite <- Q. field. lra.
    + replace eps with (1 - (u - x0) / (x1 - x0)) by lra. field. lra.
Qed.

(** * Windows *)

Lemma linear_block m b : block (fun a => Const m *! (a -! Const b)) (fun u => m * (u - b)) everywhere nowhere.
Proof. intros a r i u d A _. split; [eexists; tree|]. intros S _. cbn. auto. Qed.

Lemma shift_block b : block (fun a => a +! Const b) (fun u => u + b) everywhere nowhere.
Proof. intros a r i u d A _. split; [eexists; tree|]. intros S _. cbn. auto. Qed.

Lemma rectangular_block num limit k :
  block (rectangular_window_prog num limit k)
    (fun x => if Rltb x (linspace0 limit num k) then 0
              else if Rltb (linspace0 limit num (k + 1)) x then 0 else 1) everywhere
    (fun x => x = linspace0 limit num k \/ x = linspace0 limit num (k + 1)).
Proof.
  intros a r i u d A _. split; [eexists; unfold rectangular_window_prog; tree|].
  intros S N. unfold rectangular_window_prog. cbn -[holds linspace0]. split; [steady_at A S; auto|].
  outcome (proj1 A); auto. split; [steady_at A S; auto|]. outcome (proj1 A); auto.
Qed.

Lemma triangular_block num limit k : (0 < num)%nat -> 0 < limit ->
  block (triangular_window_prog num limit k)
    (fun x => let width := limit / INR num in
              let center := linspace0 limit num k in
              Rmax (Rmin ((x - (center - width)) / width) (- (x - (center + width)) / width)) 0) everywhere
    (fun x => x = linspace0 limit num k - limit / INR num \/ x = linspace0 limit num k
              \/ x = linspace0 limit num k + limit / INR num).
Proof.
  intros K L a r i u d A _. assert (W : 0 < limit / INR num) by (apply Rdiv_lt_0_compat; [exact L|now apply lt_0_INR]).
  unfold triangular_window_prog. cbv zeta. set (w := limit / INR num) in *. set (c := linspace0 limit num k).
  assert (WI : 0 < / w) by now apply Rinv_0_lt_compat.
  split; [eexists; tree; lra|].
  intros S N. assert (V := proj1 A). cbn. rewrite V. cbn. unfold Reqb. destruct (Req_EM_T w 0); [lra|]. cbn.
  repeat split; auto.
  - intro Q. injection Q as Q. apply Rmult_eq_reg_r in Q; [|lra]. apply N. right. left. lra.
  - intro Q. injection Q as Q. unfold Rmin in Q. destruct Rle_dec.
    + unfold Rdiv in Q. apply Rmult_integral in Q. destruct Q as [Q|Q]; [|lra]. apply N. left. lra.
    + unfold Rdiv in Q. apply Rmult_integral in Q. destruct Q as [Q|Q]; [|lra]. apply N. right; right. lra.
Qed.

Lemma smooth_window_block eps num limit k : 0 < eps < 1 / 2 ->
  block (smooth_window_prog eps num limit k)
    (fun x => let x_1 := INR num / limit * (x - linspace0 limit num k) in
              switch_val eps (x_1 + 1) - switch_val eps x_1) everywhere
    (fun x => let x_1 := INR num / limit * (x - linspace0 limit num k) in
              x_1 + 1 = eps \/ x_1 + 1 = 1 - eps \/ x_1 = eps \/ x_1 = 1 - eps).
Proof.
  intros E.
  assert (B : block (smooth_switch_prog eps 0 1) (switch_val eps) everywhere (fun t => t = eps \/ t = 1 - eps)).
  { eapply block_weaken; [exact (switch_block eps 0 1 E ltac:(lra))| |].
    - intros u _. split; [exact I|]. f_equal. field.
    - cbv beta. intros u _ [Q|Q]; lra. }
  set (m := INR num / limit). set (b := linspace0 limit num k).
  pose proof (block_comp _ _ _ _ _ _ _ _ B (linear_block m b) (fun _ _ => I)) as B1.
  pose proof (block_comp _ _ _ _ _ _ _ _ B (block_comp _ _ _ _ _ _ _ _ (shift_block 1) (linear_block m b) (fun _ _ => I)) (fun _ _ => I)) as B2.
  eapply block_weaken; [exact (block_sub _ _ _ _ _ _ _ _ B2 B1)| |].
  - intros u _. repeat split.
  - cbv beta zeta. intros u _ [[[[]|[]]|[Q|Q]]|[[]|[Q|Q]]]; auto.
Qed.

(** * Basis functions *)

Definition bernstein_fun (eps : R) (n v : nat) (u : R) : R :=
  if (n =? 0)%nat then 1 else bernstein_entry eps u n v.

Lemma bernstein_primal_value eps n v u : 0 < eps < 1 / 2 ->
  value (bernstein_primal_prog eps n v) (fun _ => u) = Some (bernstein_fun eps n v u).
Proof.
  intros E. unfold bernstein_primal_prog, bernstein_fun. destruct (Nat.eqb_spec n 0) as [|N]; [reflexivity|].
  set (mask := Or (Less X (Const eps)) (Less (Const (1 - eps)) X)).
  set (b := (Rltb u eps || Rltb (1 - eps) u)%bool).
  assert (M : holds mask (fun _ => u) = Some b) by reflexivity.
  assert (H : exists d, diff (Where mask (Const 0.5) X) (fun _ => u) 0 (if b then 0.5 else u) d).
  { eexists. tree. }
  destruct H as [d H].
  assert (SX : 0 < (if b then 0.5 else u) < 1) by (unfold b; cases; lra).
  assert (Y : exists d, diff (Where mask (Const 0)
      (Un Exp (Const (binomln n v) +! Const (INR v) *! Un Log (Where mask (Const 0.5) X)
               +! Const (INR (n - v)) *! Un Log1p (Un Neg (Where mask (Const 0.5) X))))) (fun _ => u) 0
      (if b then 0 else exp (binomln n v + INR v * ln (if b then 0.5 else u) + INR (n - v) * log1p (- (if b then 0.5 else u)))) d).
  { eexists. tree; lra. }
  destruct Y as [dy Y]. set (y := Where mask (Const 0) _) in *. clearbody y.
  assert (Y1 : exists d, diff (if (v =? 0)%nat then Where (Less X (Const eps)) (Const 1) y else y) (fun _ => u) 0
     (if (Rltb u eps && (v =? 0)%nat)%bool then 1 else
        (if b then 0 else exp (binomln n v + INR v * ln (if b then 0.5 else u) + INR (n - v) * log1p (- (if b then 0.5 else u))))) d).
  { destruct (v =? 0)%nat.
    - eexists. eapply diff_eq; [tree| |reflexivity]. now rewrite andb_true_r.
    - exists dy. eapply diff_eq; [exact Y| |reflexivity]. now rewrite andb_false_r. }
  destruct Y1 as [d1 Y1]. set (y1 := if (v =? 0)%nat then _ else y) in *. clearbody y1.
  assert (Y2 : exists d, diff (if (v =? n)%nat then Where (Less (Const (1 - eps)) X) (Const 1) y1 else y1) (fun _ => u) 0
     (bernstein_entry eps u n v) d).
  { unfold bernstein_entry. cbv zeta. fold b. destruct (v =? n)%nat.
    - eexists. eapply diff_eq; [tree| |reflexivity]. now rewrite andb_true_r.
    - exists d1. eapply diff_eq; [exact Y1| |reflexivity]. now rewrite andb_false_r. }
  destruct Y2 as [d2 [V _]]. exact V.
Qed.

Definition bernstein_rule (eps : R) (n v : nat) (u : R) : R :=
  if (n =? 0)%nat then 0
  else INR n * ((if (v =? 0)%nat then 0 else bernstein_fun eps (n - 1) (v - 1) u)
                - (if (v <? n)%nat then bernstein_fun eps (n - 1) v u else 0)).

Lemma bernstein_tangent_value eps n v u : 0 < eps < 1 / 2 ->
  value (bernstein_tangent_prog eps n v) (fun _ => u) = Some (bernstein_rule eps n v u).
Proof.
  intros E. unfold bernstein_tangent_prog, bernstein_rule. destruct (n =? 0)%nat; [reflexivity|].
  cbn -[bernstein_primal_prog Nat.ltb Nat.sub].
  destruct (v =? 0)%nat, (v <? n)%nat; cbn -[bernstein_primal_prog Nat.sub];
    rewrite ?bernstein_primal_value by exact E; reflexivity.
Qed.

Lemma bernstein_fun_exact eps n v u : 0 < eps < 1 / 2 -> (v <= n)%nat -> eps <= u <= 1 - eps ->
  bernstein_fun eps n v u = bernstein_poly n v u.
Proof.
  intros E V U. unfold bernstein_fun. destruct (Nat.eqb_spec n 0) as [->|N].
  - replace v with 0%nat by lia. unfold bernstein_poly, binom. cbn. field.
  - apply bernstein_entry_interior; lra || lia.
Qed.

Lemma bernstein_rule_exact eps n v u : 0 < eps < 1 / 2 -> (v <= n)%nat -> eps <= u <= 1 - eps ->
  bernstein_rule eps n v u = bernstein_deriv n v u.
Proof.
  intros E V U. unfold bernstein_rule, bernstein_deriv. destruct (Nat.eqb_spec n 0) as [->|N]; [cbn; ring|].
  f_equal. f_equal.
  - destruct v as [|v]; [reflexivity|]. cbn [Nat.eqb]. replace (S v - 1)%nat with v by lia.
    apply bernstein_fun_exact; lra || lia.
  - destruct (Nat.ltb_spec v n); [|reflexivity]. apply bernstein_fun_exact; lra || lia.
Qed.

Lemma bernstein_block eps n v : 0 < eps < 1 / 2 -> (v <= n)%nat ->
  block (bernstein_prog eps n v) (bernstein_fun eps n v) everywhere (fun u => u <= eps \/ 1 - eps <= u).
Proof.
  intros E V a r i u d A _. split.
  - eexists. unfold bernstein_prog.
    eapply diff_custom; [exact A|now apply bernstein_primal_value|now apply bernstein_tangent_value].
  - intros S N. unfold bernstein_prog. cbn -[bernstein_primal_prog bernstein_tangent_prog]. split; [exact S|].
    intros u' U'. rewrite (proj1 A) in U'. injection U' as <-. intros d' D'.
    rewrite bernstein_tangent_value in D' by exact E. injection D' as <-.
    assert (U : eps < u < 1 - eps) by (split; apply Rnot_le_lt; intro; apply N; auto).
    exists (bernstein_fun eps n v), 1. split; [lra|]. split; [intros t _; now apply bernstein_primal_value|].
    rewrite bernstein_rule_exact by (auto; lra). unfold bernstein_fun.
    destruct (Nat.eqb_spec n 0) as [->|NZ].
    + unfold bernstein_deriv. cbn [INR]. rewrite Rmult_0_l. apply derivable_pt_lim_const.
    + now apply bernstein_entry_deriv.
Qed.

Definition chebyshev_fun (eps : R) (num n : nat) (u : R) : R :=
  if (num =? 1)%nat then 1 else chebyshev_entry eps u n.

Lemma chebyshev_block eps num n : 0 < eps < 1 / 2 ->
  block (chebyshev_prog eps num n) (chebyshev_fun eps num n) everywhere (fun u => Rabs u = 1 - eps).
Proof.
  intros E a r i u d A _. unfold chebyshev_prog, chebyshev_fun. destruct (num =? 1)%nat.
  { split; [exists 0; apply diff_const|]. intros; exact I. }
  split.
  - eexists. unfold chebyshev_entry. cbv zeta. tree. cases; lra.
  - intros S N.
    assert (N1 : u <> 1 - eps) by (intros ->; apply N; apply Rabs_right; lra).
    assert (N2 : u <> - (1 - eps)) by (intros ->; apply N; rewrite Rabs_left; lra).
    cbn -[holds]. split; [steady_at A S; auto|].
    outcome (proj1 A); [repeat split; auto|].
    split; [steady_at A S; auto|].
    outcome (proj1 A); [repeat split; auto|].
    repeat split; auto; [steady_at A S; auto|].
    destruct (holds _ _) as [[|]|]; auto.
Qed.

Lemma affine_block m b : block (fun a => Const m *! a -! Const b) (fun u => m * u - b) everywhere nowhere.
Proof. intros a r i u d A _. split; [eexists; tree|]. intros S _. cbn. auto. Qed.
Lemma affine_div_block m c b : c <> 0 ->
  block (fun a => Const m *! a /! Const c -! Const b) (fun u => m * u / c - b) everywhere nowhere.
Proof. intros C a r i u d A _. split; [eexists; tree; exact C|]. intros S _. cbn. auto. Qed.
Lemma one_minus_block : block (fun a => Const 1 -! a) (fun u => 1 - u) everywhere nowhere.
Proof. intros a r i u d A _. split; [eexists; tree|]. intros S _. cbn. auto. Qed.
Lemma div_block c : c <> 0 -> block (fun a => a /! Const c) (fun u => u / c) everywhere nowhere.
Proof. intros C a r i u d A _. split; [eexists; tree; exact C|]. intros S _. cbn. auto. Qed.

Lemma basic_chebyshev_block eps num limit n : 0 < eps < 1 / 2 -> 0 < limit ->
  block (basic_chebyshev_prog eps num limit n)
    (fun x => let t := 2 * x / limit - 1 in if Rleb (Rabs t) 1 then chebyshev_fun eps num n t else jsign t ^ n)
    everywhere (fun x => let t := 2 * x / limit - 1 in Rabs t = 1 - eps \/ Rabs t = 1).
Proof.
  intros E L a r i u d A _. unfold basic_chebyshev_prog. cbv zeta.
  destruct (affine_div_block 2 limit 1 ltac:(lra) a r i u d A I) as [[d' A'] S'].
  set (x := Const 2 *! a /! Const limit -! Const 1) in *. set (t := 2 * u / limit - 1) in *.
  clearbody x t.
  destruct (chebyshev_block eps num n E x r i t d' A' I) as [[d2 B] SB]. split.
  - eexists. tree.
  - intros S N. specialize (S' S (fun q => q)). cbn -[holds chebyshev_prog]. split; [steady_at A' S'; auto|].
    outcome (proj1 A').
    + apply SB; auto.
    + repeat split; auto. intros u' U'. rewrite (proj1 A') in U'. injection U' as <-. intro Q.
      assert (Rabs t <= 1) by (rewrite Q, Rabs_R0; lra). contradiction.
Qed.

Definition gaussian_fun (num k : nat) (u : R) : R :=
  exp (- (sqrt (2 * INR num) * (INR num - 1)) * (u - (if (num =? 1)%nat then 0 else INR k / (INR num - 1))) ^ 2).

Lemma gaussian_block num k : block (gaussian_prog num k) (gaussian_fun num k) everywhere nowhere.
Proof.
  intros a r i u d A _. split; [eexists; unfold gaussian_prog, gaussian_fun; tree|]. intros S _. cbn. repeat split; auto.
Qed.

Lemma fourier_block k : block (fourier_prog k) (fun u => cos (PI * INR k * u)) everywhere nowhere.
Proof. intros a r i u d A _. split; [eexists; unfold fourier_prog; tree|]. intros S _. cbn. auto. Qed.

Lemma sinc_block limit k : 0 < limit ->
  block (sinc_prog limit k) (fun x => if Rleb (x / limit) 1 then sinc1 (INR (k + 1) * (x / limit)) else 0)
    everywhere (fun x => x = limit).
Proof.
  intros L a r i u d A _. unfold sinc_prog.
  destruct (div_block limit ltac:(lra) a r i u d A I) as [[d' A'] S'].
  set (x := a /! Const limit) in *. split.
  - assert (H : diff (Const (INR (k + 1)) *! x) r i (INR (k + 1) * (u / limit)) (u / limit * 0 + INR (k + 1) * d')) by tree.
    destruct (diff_sinc _ _ _ _ _ H) as [p Hp]. eexists. tree.
  - intros S N. specialize (S' S (fun q => q)). cbn -[holds x]. split.
    + steady_at A' S'. intro Q. apply N. apply (Rmult_eq_reg_r (/ limit)); [|apply Rinv_neq_0_compat; lra].
      rewrite Rinv_r by lra. exact Q.
    + outcome (proj1 A'); cbn; repeat split; auto.
Qed.
