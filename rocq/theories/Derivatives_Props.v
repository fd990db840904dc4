(** Property C58: evaluate_derivatives. *)
Require Import List Reals ZArith Lia Lra.
From Coquelicot Require Import Derive.
Require Import Verif.Base Verif.Derivatives_Model.
Import ListNotations.
Open Scope R_scope.

(** * Specification *)

(** What is assumed of [jax.jvp]: wherever the directional derivative exists, it is returned. *)
Definition jvp_correct (jvp : (arr -> arr) -> arr -> arr -> arr) : Prop :=
  forall f x v k d, derivable_pt_lim (fun t => f (fun j => x j + t * v j) k) 0 d -> jvp f x v k = d.

(** The functions g 0, g 1, ..., g n: each is the derivative of the one before when all entries of
    the input are increased together. *)
Definition successive_derivatives (n : nat) (g : nat -> arr -> arr) : Prop :=
  forall i x k, (i < n)%nat -> derivable_pt_lim (fun t => g i (fun j => x j + t) k) 0 (g (S i) x k).

(** g 0, ..., g n are a function of one variable and its derivatives. *)
Definition scalar_derivatives (n : nat) (g : nat -> R -> R) : Prop :=
  forall i x, (i < n)%nat -> derivable_pt_lim (g i) x (g (S i) x).

(** * Proofs *)

Lemma derivable_ext : forall f g x d, (forall t, f t = g t) -> derivable_pt_lim f x d -> derivable_pt_lim g x d.
Proof. intros f g x d E H eps He. destruct (H eps He) as [del Hd]. exists del. intros h H1 H2. rewrite <- !E. apply Hd; assumption. Qed.

Lemma loop_ok : forall jvp n g f x, jvp_correct jvp -> successive_derivatives n g ->
  (forall y k, f y k = g 0%nat y k) ->
  length (derivative_loop jvp n f x) = n
  /\ forall i y, nth_error (derivative_loop jvp n f x) i = Some y -> forall k, y k = g (S i) x k.
Proof.
  intros jvp n; induction n as [|n IH]; intros g f x HJ HG HF.
  - split; [reflexivity|]. intros [|i] y; discriminate.
  - assert (ED : forall y k, derivative jvp f y k = g 1%nat y k).
    { intros y k. unfold derivative. apply HJ. apply (derivable_ext (fun t => g 0%nat (fun j => y j + t) k)).
      - intros t. rewrite HF. replace (fun j => y j + t * 1) with (fun j => y j + t); [reflexivity|].
        apply FunctionalExtensionality.functional_extensionality. intros j. ring.
      - apply HG. lia. }
    destruct (IH (fun i => g (S i)) (derivative jvp f) x HJ) as [L H].
    { intros i y k Hi. apply HG. lia. }
    { exact ED. }
    cbn [derivative_loop]. split; [cbn [length]; lia|]. intros [|i] y Hy k; cbn in Hy.
    + injection Hy as <-. apply ED.
    + apply (H i y Hy).
Qed.

(** * Theorems *)

Theorem C58_derivatives : forall jvp n g f x, jvp_correct jvp -> successive_derivatives n g ->
  (forall y k, f y k = g 0%nat y k) ->
  exists ys, evaluate_derivatives jvp f x (Z.of_nat n) = Ok ys /\ length ys = S n
  /\ forall i y, nth_error ys i = Some y -> forall k, y k = g i x k.
Proof.
  intros jvp n g f x HJ HG HF. unfold evaluate_derivatives. destruct (Z.ltb_spec (Z.of_nat n) 0); [lia|]. rewrite Nat2Z.id.
  destruct (loop_ok jvp n g f x HJ HG HF) as [L H0]. eexists. split; [reflexivity|]. split; [cbn [length]; lia|].
  intros [|i] y Hy k; cbn in Hy; [injection Hy as <-; apply HF|apply (H0 i y Hy)].
Qed.
Print Assumptions C58_derivatives.

(** For functions that act on every entry separately: the usual derivatives at every entry. *)
Theorem C58_elementwise : forall jvp n (g : nat -> R -> R) x, jvp_correct jvp -> scalar_derivatives n g ->
  exists ys, evaluate_derivatives jvp (fun y k => g 0%nat (y k)) x (Z.of_nat n) = Ok ys /\ length ys = S n
  /\ forall i y, nth_error ys i = Some y -> forall k, y k = g i (x k).
Proof.
  intros jvp n g x HJ HG. refine (C58_derivatives jvp n (fun i y k => g i (y k)) (fun y k => g 0%nat (y k)) x HJ _ _); [|reflexivity].
  intros i y k Hi. specialize (HG i (y k) Hi). intros eps He. destruct (HG eps He) as [del Hd]. exists del. intros h H1 H2.
  specialize (Hd h H1 H2). replace (0 + h) with h by ring. rewrite Rplus_0_r. exact Hd.
Qed.
Print Assumptions C58_elementwise.

Theorem C58_negative_order : forall jvp f x n, (n < 0)%Z -> evaluate_derivatives jvp f x n = Err ValueError.
Proof. intros jvp f x n H. unfold evaluate_derivatives. destruct (Z.ltb_spec n 0); [reflexivity|lia]. Qed.
Print Assumptions C58_negative_order.

(** The hypotheses are met by the sine and its derivatives. *)
Definition sine_derivatives (i : nat) (x : R) : R := sin (x + INR i * (PI / 2)).

Example C58_case : forall n, scalar_derivatives n sine_derivatives /\ forall x, sine_derivatives 0 x = sin x /\ sine_derivatives 1 x = cos x.
Proof.
  intros n. split.
  - intros i x _. unfold sine_derivatives. replace (x + INR (S i) * (PI / 2)) with (PI / 2 + (x + INR i * (PI / 2))) by (rewrite S_INR; ring).
    rewrite <- cos_sin. pose proof (derivable_pt_lim_comp (fun t => t + INR i * (PI / 2)) sin x 1 (cos (x + INR i * (PI / 2)))) as H.
    unfold comp in H. rewrite Rmult_1_r in H. apply H; [|apply derivable_pt_lim_sin].
    replace 1 with (1 + 0) by ring. apply derivable_pt_lim_plus; [apply derivable_pt_lim_id|apply derivable_pt_lim_const].
  - intros x. unfold sine_derivatives. cbn [INR]. split; [f_equal; ring|]. rewrite cos_sin. f_equal. ring.
Qed.

(** A function that satisfies the assumption on [jax.jvp]. *)
Example C58_jvp_case : jvp_correct (fun f x v k => Derive (fun t => f (fun j => x j + t * v j) k) 0).
Proof. intros f x v k d Hd. apply is_derive_unique. apply is_derive_Reals. exact Hd. Qed.
