(** Finite sums of reals: [rsum n f] is f 0 + ... + f (n-1).  Stands for [jnp.sum]/[einsum]
    contractions along one axis. *)
Require Import Reals Lra Lia Arith.
Open Scope R_scope.

Fixpoint rsum (n : nat) (f : nat -> R) : R :=
  match n with O => 0 | S k => rsum k f + f k end.

Lemma rsum_ext : forall n f g, (forall i, (i < n)%nat -> f i = g i) -> rsum n f = rsum n g.
Proof.
  induction n as [|n IH]; intros f g H; simpl; [reflexivity|].
  rewrite (IH f g) by (intros; apply H; lia). rewrite H by lia. reflexivity.
Qed.

Lemma rsum_plus : forall n f g, rsum n (fun i => f i + g i) = rsum n f + rsum n g.
Proof. induction n as [|n IH]; intros f g; simpl; [ring|]. rewrite IH. ring. Qed.

Lemma rsum_minus : forall n f g, rsum n (fun i => f i - g i) = rsum n f - rsum n g.
Proof. induction n as [|n IH]; intros f g; simpl; [ring|]. rewrite IH. ring. Qed.

Lemma rsum_scal_l : forall n c f, rsum n (fun i => c * f i) = c * rsum n f.
Proof. induction n as [|n IH]; intros c f; simpl; [ring|]. rewrite IH. ring. Qed.

Lemma rsum_scal_r : forall n c f, rsum n (fun i => f i * c) = rsum n f * c.
Proof. induction n as [|n IH]; intros c f; simpl; [ring|]. rewrite IH. ring. Qed.

Lemma rsum_opp : forall n f, rsum n (fun i => - f i) = - rsum n f.
Proof. induction n as [|n IH]; intros f; simpl; [ring|]. rewrite IH. ring. Qed.

Lemma rsum_zero : forall n f, (forall i, (i < n)%nat -> f i = 0) -> rsum n f = 0.
Proof.
  induction n as [|n IH]; intros f H; simpl; [reflexivity|].
  rewrite IH by (intros; apply H; lia). rewrite H by lia. ring.
Qed.

Lemma rsum_const0 : forall n, rsum n (fun _ => 0) = 0.
Proof. intros n. now apply rsum_zero. Qed.

Lemma rsum_const : forall n c, rsum n (fun _ => c) = INR n * c.
Proof. induction n as [|n IH]; intros c; [simpl; ring|]. rewrite S_INR. simpl. rewrite IH. ring. Qed.

Lemma rsum_swap : forall n m f, rsum n (fun i => rsum m (fun j => f i j)) = rsum m (fun j => rsum n (fun i => f i j)).
Proof.
  induction n as [|n IH]; intros m f; simpl.
  - symmetry. now apply rsum_zero.
  - rewrite IH, <- rsum_plus. reflexivity.
Qed.

Lemma rsum_add : forall n m f, rsum (n + m) f = rsum n f + rsum m (fun i => f (n + i)%nat).
Proof.
  intros n m f; induction m as [|m IH]; simpl; [rewrite Nat.add_0_r; ring|].
  replace (n + S m)%nat with (S (n + m)) by lia. simpl. rewrite IH. ring.
Qed.

Lemma rsum_S_l : forall n f, rsum (S n) f = f 0%nat + rsum n (fun i => f (S i)).
Proof. intros n f. replace (S n) with (1 + n)%nat by lia. rewrite rsum_add. simpl. ring. Qed.

Lemma rsum_single : forall n f k, (k < n)%nat -> (forall i, (i < n)%nat -> i <> k -> f i = 0) -> rsum n f = f k.
Proof.
  intros n f k Hk H. replace n with (k + S (n - S k))%nat by lia. rewrite rsum_add, rsum_S_l.
  rewrite rsum_zero by (intros; apply H; lia). rewrite Nat.add_0_r.
  rewrite rsum_zero by (intros; apply H; lia). ring.
Qed.

(** Restriction of a sum to the indices where it does not vanish. *)
Lemma rsum_extend : forall n m f, (n <= m)%nat -> (forall i, (n <= i < m)%nat -> f i = 0) -> rsum m f = rsum n f.
Proof.
  intros n m f Hnm H. replace m with (n + (m - n))%nat by lia. rewrite rsum_add.
  rewrite (rsum_zero (m - n)) by (intros; apply H; lia). ring.
Qed.

Lemma rsum_window : forall a b n f, (a <= b <= n)%nat -> (forall i, (i < n)%nat -> ~ (a <= i < b)%nat -> f i = 0) ->
  rsum n f = rsum (b - a) (fun k => f (a + k)%nat).
Proof.
  intros a b n f Hab H. replace n with (a + ((b - a) + (n - b)))%nat by lia. rewrite !rsum_add.
  rewrite rsum_zero by (intros; apply H; lia).
  rewrite (rsum_zero (n - b)) by (intros; apply H; lia). ring.
Qed.

Lemma rsum_if : forall n (b : nat -> bool) f, rsum n (fun i => if b i then f i else 0) = rsum n (fun i => (if b i then 1 else 0) * f i).
Proof. intros. apply rsum_ext. intros i _. destruct (b i); ring. Qed.

Lemma rsum_nonneg : forall n f, (forall i, (i < n)%nat -> 0 <= f i) -> 0 <= rsum n f.
Proof.
  induction n as [|n IH]; intros f H; simpl; [lra|].
  pose proof (H n ltac:(lia)). pose proof (IH f ltac:(intros; apply H; lia)). lra.
Qed.

Lemma rsum_le : forall n f g, (forall i, (i < n)%nat -> f i <= g i) -> rsum n f <= rsum n g.
Proof.
  induction n as [|n IH]; intros f g H; simpl; [lra|].
  pose proof (H n ltac:(lia)). pose proof (IH f g ltac:(intros; apply H; lia)). lra.
Qed.

(** Sum over a double index, row by row. *)
Lemma rsum_prod : forall n m f, rsum (n * m) f = rsum n (fun i => rsum m (fun j => f (i * m + j)%nat)).
Proof.
  induction n as [|n IH]; intros m f; [reflexivity|].
  replace (S n * m)%nat with (n * m + m)%nat by lia. rewrite rsum_add, IH. reflexivity.
Qed.

Lemma rsum_rev : forall n f, rsum n f = rsum n (fun i => f (n - 1 - i)%nat).
Proof.
  induction n as [|n IH]; intros f; [reflexivity|].
  rewrite rsum_S_l. cbn [rsum]. rewrite (IH (fun i => f (S i))).
  rewrite (rsum_ext n (fun i => f (S n - 1 - i)%nat) (fun i => f (S (n - 1 - i)))).
  - replace (S n - 1 - n)%nat with 0%nat by lia. ring.
  - intros i Hi. f_equal. lia.
Qed.

(** Sum over all indices l*l+k of degrees l < n, degree by degree. *)
Lemma rsum_degrees : forall n f, rsum (n * n) f = rsum n (fun l => rsum (2 * l + 1) (fun k => f (l * l + k)%nat)).
Proof.
  induction n as [|n IH]; intros f; [reflexivity|].
  replace (S n * S n)%nat with (n * n + (2 * n + 1))%nat by lia. rewrite rsum_add, IH. reflexivity.
Qed.
