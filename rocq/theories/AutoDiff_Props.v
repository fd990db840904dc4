(** Gradients are finite and correct (C81). *)
Require Import List Reals Lra Lia ZArith Bool String.
Require Import Verif.Base Verif.Smooth Verif.Radial_Model Verif.Activations_Model Verif.Radial_Spec.
Require Import Verif.AutoDiff_Model Verif.AutoDiff_Spec Verif.AutoDiff_Proofs.
Import ListNotations.
Open Scope R_scope.

(** Reverse-mode differentiation of any program: where it returns a finite number and the program
    does not change its formula, the number is the partial derivative. *)
Theorem C81_sound : forall e r i d,
  settled e r i -> gradient e r i = Some d -> value e r <> None -> partial_derivative (value e) r i d.
Proof.
  intros e r i d S G V. unfold gradient in G.
  destruct (value e r) as [v|] eqn:E; [|contradiction].
  destruct (sound e r i 1 d S G (ex_intro _ v E)) as (d' & -> & P).
  now replace (1 * d') with d' by ring.
Qed.
Print Assumptions C81_sound.

Definition everywhere : R -> Prop := fun _ => True.
Definition nowhere : R -> Prop := fun _ => False.

Lemma open_everywhere x : exists delta, 0 < delta /\ forall t, Rabs (t - x) < delta -> everywhere t.
Proof. exists 1. split; [lra|]. intros; exact I. Qed.

Ltac cases :=
  unfold Rltb, Rleb, Reqb;
  repeat match goal with
  | |- context [Rlt_dec ?a ?b] => destruct (Rlt_dec a b)
  | |- context [Rle_dec ?a ?b] => destruct (Rle_dec a b)
  | |- context [Req_EM_T ?a ?b] => destruct (Req_EM_T a b)
  end; cbn [orb andb negb].

Ltac steady_tac := 
  repeat match goal with
  | |- steady (Or _ _) _ _ => apply steady_or
  | |- steady (Less _ _) _ _ => eapply steady_less
  | |- steady (LessEq _ _) _ _ => eapply steady_lesseq
  | |- cont (Var _) _ _ _ => apply cont_var
  | |- cont (Const _) _ _ _ => apply cont_const
  | |- cont (Un Abs _) _ _ _ => apply cont_abs
  end.

Ltac holds_cases :=
  match goal with
  | |- context [match holds ?c ?r with _ => _ end] =>
      let b := fresh "b" in
      destruct (holds c r) as [[|]|] eqn:b; cbn in b; unfold Rltb, Rleb in b;
      repeat match type of b with
      | context [Rlt_dec ?u ?v] => destruct (Rlt_dec u v)
      | context [Rle_dec ?u ?v] => destruct (Rle_dec u v)
      end; try discriminate b; clear b
  end.

Lemma relu_diff : differentiates relu_prog relu_gate everywhere (fun x => x = 0).
Proof.
  apply differentiates_intro.
  - intros r _. eexists. eapply diff_eq; [unfold relu_prog; diff_tree| reflexivity|reflexivity].
  - intros r _ N. split; [|apply open_everywhere].
    cbn. repeat split; try exact I. 
    + intros u U. injection U as <-. exact N.
    + unfold jsign. cases; intro E; first [contradiction|injection E; intros; lra].
Qed.

Lemma leaky_relu_diff s : differentiates (leaky_relu_prog s) (leaky_relu_gate s) everywhere (fun x => x = 0).
Proof.
  apply differentiates_intro.
  - intros r _. eexists. eapply diff_eq; [unfold leaky_relu_prog; diff_tree| reflexivity|reflexivity].
  - intros r _ N. split; [|apply open_everywhere].
    cbn [leaky_relu_prog settled]. split; [steady_tac; auto|].
    holds_cases; exact I.
Qed.

Lemma elu_diff eps alpha : 0 <= eps -> 
  differentiates (elu_prog eps alpha) (elu_gate eps alpha) everywhere (fun x => x = 0 \/ x = - eps).
Proof.
  intro E.
  apply differentiates_intro.
  - intros r _. eexists. eapply diff_eq; [unfold elu_prog; diff_tree| reflexivity|reflexivity].
    all: cases; try lra. intro Z. rewrite Z, Rabs_R0 in *. lra.
  - intros r _ N. split; [|apply open_everywhere].
    assert (r 0%nat <> 0) by auto.
    cbn -[holds]. split; [steady_tac; auto|].
    holds_cases; [exact I|].
    split; [steady_tac|].
    { intro Q. rewrite Rabs_left in Q by lra. apply N. right. lra. }
    holds_cases; cbn -[holds]; repeat split; steady_tac; auto.
    all: try (intro Q; rewrite Rabs_left in Q by lra; apply N; right; lra).
    all: holds_cases; auto; exact I.
Qed.

Lemma celu_diff eps alpha : 0 <= eps -> alpha <> 0 ->
  differentiates (celu_prog eps alpha) (celu_gate eps alpha) everywhere (fun x => x = 0 \/ x = - eps).
Proof.
  intros E A.
  assert (A2 : 6 * alpha * alpha <> 0) by (repeat apply Rmult_integral_contrapositive_currified; lra).
  assert (A1 : 2 * alpha <> 0) by lra.
  apply differentiates_intro.
  - intros r _. eexists. eapply diff_eq; [unfold celu_prog; diff_tree| reflexivity|reflexivity].
    all: try assumption.
    cases; try lra. intro Z. rewrite Z, Rabs_R0 in *. lra.
  - intros r _ N. split; [|apply open_everywhere].
    assert (r 0%nat <> 0) by auto.
    cbn -[holds]. split; [steady_tac; auto|].
    holds_cases; [exact I|].
    split; [steady_tac|].
    { intro Q. rewrite Rabs_left in Q by lra. apply N. right. lra. }
    holds_cases; cbn -[holds]; repeat split; steady_tac; auto.
    all: try (intro Q; rewrite Rabs_left in Q by lra; apply N; right; lra).
    all: holds_cases; auto; exact I.
Qed.

Lemma silu_diff : differentiates silu_prog expit everywhere nowhere.
Proof.
  apply differentiates_intro.
  - intros r _. eexists. unfold silu_prog. diff_tree.
  - intros r _ _. split; [|apply open_everywhere]. cbn. auto.
Qed.

(** The derivative rule of erf is assumed to be its derivative. *)
Definition erf_rule (erf derf : R -> R) : Prop := forall u, derivable_pt_lim erf u (derf u).

Lemma erf_ok erf derf u : erf_rule erf derf ->
  forall d, Some (derf u) = Some d -> has_derivative (fun t => Some (erf t)) u d.
Proof.
  intros E d D. injection D as <-. exists erf, 1. repeat split; [lra|apply E].
Qed.

Lemma gelu_diff erf derf approximate : erf_rule erf derf ->
  differentiates (gelu_prog erf derf approximate) (gelu_gate erf approximate) everywhere nowhere.
Proof.
  intro E. assert (S2 : sqrt 2 <> 0) by (pose proof (sqrt_lt_R0 2); lra).
  apply differentiates_intro.
  - intros r _. unfold gelu_prog, gelu_gate, Erf. destruct approximate; eexists.
    + diff_tree.
    + diff_tree; try reflexivity; try lra.
  - intros r _ _. split; [|apply open_everywhere]. unfold gelu_prog. destruct approximate; cbn.
    + repeat split; auto.
    + repeat split; auto. intros u _. now apply erf_ok.
Qed.

Lemma mish_diff fast : differentiates (mish_prog fast) (mish_gate fast) everywhere nowhere.
Proof.
  apply differentiates_intro.
  - intros r _. unfold mish_prog, mish_gate, jsoftplus. destruct fast; eexists.
    + diff_tree. pose proof (exp_pos (- r 0%nat)) as P. pose proof (Rmult_lt_0_compat _ _ P P). lra.
    + diff_tree.
  - intros r _ _. split; [|apply open_everywhere]. unfold mish_prog. destruct fast; cbn; repeat split; auto.
Qed.

Lemma serf_diff erf derf : erf_rule erf derf ->
  differentiates (serf_prog erf derf) (serf_gate erf) everywhere nowhere.
Proof.
  intro E. apply differentiates_intro.
  - intros r _. eexists. unfold serf_prog, serf_gate, jsoftplus, Erf. diff_tree; reflexivity.
  - intros r _ _. split; [|apply open_everywhere]. cbn. repeat split; auto.
    intros u _. now apply erf_ok.
Qed.

Lemma abs_zero x eps : 0 <= eps -> eps < Rabs x -> x <> 0.
Proof. intros E H ->. rewrite Rabs_R0 in H. lra. Qed.

Lemma shifted_softplus_diff eps : 0 <= eps ->
  differentiates (shifted_softplus_prog eps) (shifted_softplus_gate eps) everywhere (fun x => Rabs x = eps).
Proof.
  intro E. apply differentiates_intro.
  - intros r _. eexists. unfold shifted_softplus_prog, shifted_softplus_gate. cbv zeta. diff_tree; try lra.
    cases; [|lra]. eapply abs_zero; eauto.
  - intros r _ N. split; [|apply open_everywhere].
    cbn -[holds]. split; [steady_tac; auto|].
    holds_cases; repeat split; auto.
    all: try (steady_tac; auto; fail).
    all: holds_cases; auto; exact I.
Qed.

Lemma hard_tanh_diff : differentiates hard_tanh_prog hard_tanh_gate everywhere (fun x => Rabs x = 1).
Proof.
  assert (Z : forall x, 0.1 < Rabs x -> x <> 0) by (intros x; apply abs_zero; lra).
  apply differentiates_intro.
  - intros r _. eexists. unfold hard_tanh_prog, hard_tanh_gate. cbv zeta. diff_tree; cases; auto; lra.
  - intros r _ N. split; [|apply open_everywhere].
    assert (N1 : r 0%nat <> 1) by (intro Q; apply N; rewrite Q; apply Rabs_R1).
    assert (N2 : r 0%nat <> -1) by (intro Q; apply N; rewrite Q, Rabs_left; lra).
    cbn -[holds]. split; [steady_tac; auto|].
    holds_cases.
    + repeat split.
      * steady_tac. rewrite Rabs_right by lra. lra.
      * holds_cases; exact I.
    + split; [steady_tac; auto|]. holds_cases; [|exact I]. repeat split.
      * steady_tac. rewrite Rabs_left by lra. lra.
      * holds_cases; exact I.
Qed.

Lemma soft_sign_diff : differentiates soft_sign_prog soft_sign_gate everywhere (fun x => x = 0).
Proof.
  apply differentiates_intro.
  - intros r _. eexists. unfold soft_sign_prog, soft_sign_gate. diff_tree.
    pose proof (Rabs_pos (r 0%nat)). lra.
  - intros r _ N. split; [|apply open_everywhere]. cbn. repeat split; auto.
    intros u U. now injection U as <-.
Qed.

(** The gate does change its formula at [x = 1], but not its value near it. *)
Lemma relu6_diff : differentiates relu6_prog relu6_gate everywhere (fun x => x = 0 \/ x = 6).
Proof.
  assert (D : forall r, exists d, diff relu6_prog r 0 (relu6_gate (r 0%nat)) d /\ (r 0%nat = 1 -> d = 0)).
  { intro r. eexists. split.
    - unfold relu6_prog, relu6_gate. cbv zeta. diff_tree. cases; lra.
    - intros ->. unfold balanced, jsign, Rmax. cases; lra. }
  intros r T. destruct (D r) as (d & H & Z). split; [exact (proj1 H)|].
  exists d. split; [eapply diff_gradient; exact H|]. intro N.
  destruct (Req_dec (r 0%nat) 1) as [O|O].
  - rewrite (Z O), O. apply (local_deriv (fun _ => 1) _ 1 0 (1 / 2)); [lra| |apply derivable_pt_lim_const].
    intros t B. apply Rabs_def2 in B. unfold relu6_gate, jsign, Rltb, Reqb.
    destruct (Rlt_dec t 0); [lra|]. destruct (Req_EM_T t 0); [lra|].
    rewrite (Rmax_left 1 0) by lra. destruct (Rlt_dec 1 t).
    + rewrite Rmin_left; [reflexivity|]. apply (Rmult_le_reg_r t); [lra|]. unfold Rdiv.
      rewrite Rmult_assoc, Rinv_l by lra. lra.
    + rewrite Rmin_left; lra.
  - assert (DD : differentiates relu6_prog relu6_gate everywhere (fun x => (x = 0 \/ x = 6) \/ x = 1)).
    { apply differentiates_intro.
      - intros r' _. destruct (D r') as (d' & H' & _). now exists d'.
      - intros r' _ N'. split; [|apply open_everywhere].
        assert (r' 0%nat <> 0 /\ r' 0%nat <> 6 /\ r' 0%nat <> 1) as (A & B & C) by (repeat split; auto).
        assert (NE : value (Bin Max (Un Sign X) (Const 0)) r'
                     <> value (Const 6 /! Where (Less (Const 1) X) X (Const 1)) r').
        { cbn. unfold Rltb at 1. destruct (Rlt_dec 1 (r' 0%nat)); cbn; unfold jsign, Reqb, Rltb; cbn.
          - destruct (Req_EM_T (r' 0%nat) 0); [contradiction|]. destruct (Rlt_dec (r' 0%nat) 0); [lra|].
            rewrite Rmax_left by lra. intro Q. injection Q as Q.
            assert (K : r' 0%nat * (6 / r' 0%nat) = 6) by (field; exact A). rewrite <- Q in K. lra.
          - destruct (Req_EM_T 1 0); [lra|]. intro Q. injection Q as Q. revert Q. unfold Rmax.
            destruct (Rlt_dec (r' 0%nat) 0), (Req_EM_T (r' 0%nat) 0); destruct Rle_dec; lra. }
        cbn -[holds]. repeat split; try exact I; auto.
        + intros u U. now injection U as <-.
        + unfold jsign. cases; intro Q; first [contradiction|injection Q; intros; lra].
        + steady_tac. auto.
        + holds_cases; exact I. }
    destruct (DD r T) as (_ & d' & G & L). rewrite (diff_gradient _ _ _ _ _ H) in G. injection G as <-.
    apply L. intros [Q|Q]; auto.
Qed.

Lemma hard_silu_diff : differentiates hard_silu_prog hard_sigmoid everywhere (fun x => x = -3 \/ x = 3).
Proof.
  apply differentiates_intro.
  - intros r _. eexists. unfold hard_silu_prog, hard_sigmoid. diff_tree. lra.
  - intros r _ N. split; [|apply open_everywhere]. cbn. repeat split; auto.
    + intro Q. injection Q as Q. apply N. lra.
    + intro Q. injection Q as Q. unfold Rmax in Q. destruct (Rle_dec (r 0%nat + 3) 0); [lra|]. apply N. lra.
Qed.

Lemma bent_identity_diff eps : 0 <= eps ->
  differentiates (bent_identity_prog eps) (bent_identity_gate eps) everywhere (fun x => Rabs x = eps).
Proof.
  intro E. apply differentiates_intro.
  - intros r _. eexists. unfold bent_identity_prog, bent_identity_gate. cbv zeta. diff_tree; try lra.
    + pose proof (Rle_0_sqr (r 0%nat)) as Q. unfold Rsqr in Q. lra.
    + cases; [|lra]. pose proof (abs_zero (r 0%nat) eps E r0). lra.
  - intros r _ N. split; [|apply open_everywhere].
    cbn -[holds]. split; [steady_tac; auto|].
    holds_cases; repeat split; auto.
    all: try (steady_tac; auto; fail).
    all: holds_cases; auto; exact I.
Qed.

(** The gate of every activation function (each activation is [gate x * x0], see C17): the gradient
    is finite at every argument, zero included, and it is the derivative except at the listed
    arguments.  Two thresholds, [eps] and [- eps], separate the formulas used near zero from the
    others; they are in [| x | = eps]. *)
Theorem C81_activations : forall eps alpha slope erf derf approximate fast,
  0 <= eps -> erf_rule erf derf ->
  differentiates relu_prog relu_gate everywhere (fun x => x = 0) /\
  differentiates (leaky_relu_prog slope) (leaky_relu_gate slope) everywhere (fun x => x = 0) /\
  differentiates (elu_prog eps alpha) (elu_gate eps alpha) everywhere (fun x => x = 0 \/ x = - eps) /\
  (alpha <> 0 ->
   differentiates (celu_prog eps alpha) (celu_gate eps alpha) everywhere (fun x => x = 0 \/ x = - eps)) /\
  differentiates silu_prog expit everywhere nowhere /\
  differentiates (gelu_prog erf derf approximate) (gelu_gate erf approximate) everywhere nowhere /\
  differentiates (mish_prog fast) (mish_gate fast) everywhere nowhere /\
  differentiates (serf_prog erf derf) (serf_gate erf) everywhere nowhere /\
  differentiates (shifted_softplus_prog eps) (shifted_softplus_gate eps) everywhere (fun x => Rabs x = eps) /\
  differentiates hard_tanh_prog hard_tanh_gate everywhere (fun x => Rabs x = 1) /\
  differentiates soft_sign_prog soft_sign_gate everywhere (fun x => x = 0) /\
  differentiates relu6_prog relu6_gate everywhere (fun x => x = 0 \/ x = 6) /\
  differentiates hard_silu_prog hard_sigmoid everywhere (fun x => x = -3 \/ x = 3) /\
  differentiates (bent_identity_prog eps) (bent_identity_gate eps) everywhere (fun x => Rabs x = eps).
Proof.
  intros eps alpha slope erf derf approximate fast E ER.
  split; [apply relu_diff|]. split; [apply leaky_relu_diff|]. split; [now apply elu_diff|].
  split; [now apply celu_diff|]. split; [apply silu_diff|]. split; [now apply gelu_diff|].
  split; [apply mish_diff|]. split; [now apply serf_diff|]. split; [now apply shifted_softplus_diff|].
  split; [apply hard_tanh_diff|]. split; [apply soft_sign_diff|]. split; [apply relu6_diff|].
  split; [apply hard_silu_diff|now apply bent_identity_diff].
Qed.
Print Assumptions C81_activations.

(** Some function satisfies the assumption about erf. *)
Example C81_erf : erf_rule (fun x => x) (fun _ => 1).
Proof. intro u. apply derivable_pt_lim_id. Qed.

(** At zero the gradient of the bent identity's gate is a quarter. *)
Example C81_bent : gradient (bent_identity_prog 0) (fun _ => 0) 0 = Some (1 / 4).
Proof.
  destruct (bent_identity_diff 0 (Rle_refl 0) (fun _ => 0) I) as (_ & d & G & _). rewrite G. f_equal.
  assert (H : exists p, diff (bent_identity_prog 0) (fun _ => 0) 0 (bent_identity_gate 0 0) p /\ p = 1 / 4).
  { eexists. split.
    - unfold bent_identity_prog, bent_identity_gate. cbv zeta. diff_tree; try lra. cases; try lra. rewrite Rabs_R0 in *. lra.
    - cases; [rewrite Rabs_R0 in *; lra|]. field. }
  destruct H as (p & H & ->). rewrite (diff_gradient _ _ _ _ _ H) in G. now injection G.
Qed.

(** Without the second guard (the replacement of the argument inside the branch that is not taken),
    the same value has a gradient that is not finite at zero, which is what the guards are for. *)
Definition unguarded_bent (eps : R) : expr :=
  Where (Less (Const eps) (Un Abs X)) ((Un Sqrt (X *! X +! Const 1) -! Const 1) /! (Const 2 *! X) +! Const 1)
    (X /! Const 4 +! Const 1).
Theorem C81_guards_matter : forall eps, 0 <= eps ->
  value (unguarded_bent eps) (fun _ => 0) = value (bent_identity_prog eps) (fun _ => 0) /\
  gradient (unguarded_bent eps) (fun _ => 0) 0 = None.
Proof.
  intros eps E.
  assert (Z : Rltb eps (Rabs 0) = false) by (rewrite Rabs_R0; cases; [lra|reflexivity]).
  assert (Q : Reqb (2 * 0) 0 = true) by (unfold Reqb; destruct (Req_EM_T (2 * 0) 0); [reflexivity|lra]).
  split.
  - cbn. rewrite Z. cbn. reflexivity.
  - unfold gradient. cbn. rewrite Z. cbn.
    assert (P : Rleb 0 (0 * 0 + 1) = true) by (cases; [reflexivity|lra]).
    assert (P' : Rltb 0 (0 * 0 + 1) = true) by (cases; [reflexivity|lra]).
    rewrite !P. cbn. rewrite !Q. cbn. rewrite ?P'. reflexivity.
Qed.
Print Assumptions C81_guards_matter.
