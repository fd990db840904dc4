(** Linear systems with a positive definite matrix have a solution; in particular a matrix with
    linearly independent rows has a Moore-Penrose inverse. *)
Require Import List Reals ZArith Bool Arith Lra Lia.
Require Import Verif.Base Verif.RSum Verif.Tensor_Model.
Open Scope R_scope.

Definition apply_to (n : nat) (a : matrix) (x : nat -> R) : nat -> R := fun i => rsum n (fun j => a i j * x j).
Definition form (n : nat) (a : matrix) (x : nat -> R) : R := rsum n (fun i => x i * apply_to n a x i).
Definition positive_definite (n : nat) (a : matrix) : Prop :=
  forall x, (exists i, (i < n)%nat /\ x i <> 0) -> 0 < form n a x.
Definition symmetric_matrix (n : nat) (a : matrix) : Prop := forall i j, (i < n)%nat -> (j < n)%nat -> a i j = a j i.

Definition put (n : nat) (x : nat -> R) (t : R) : nat -> R := fun i => if (i =? n)%nat then t else x i.

(** Bordering: the system of size n + 1 is reduced to two systems of size n. *)
Fixpoint spd_solve (n : nat) (a : matrix) (v : nat -> R) : nat -> R :=
  match n with
  | O => fun _ => 0
  | S n =>
      let c := spd_solve n a (fun i => a i n) in
      let u := spd_solve n a v in
      let t := (v n - rsum n (fun j => a n j * u j)) / (a n n - rsum n (fun j => a n j * c j)) in
      put n (fun i => u i - t * c i) t
  end.

Lemma put_lt : forall n x t i, (i < n)%nat -> put n x t i = x i.
Proof. intros n x t i H. unfold put. destruct (Nat.eqb_spec i n); [lia|reflexivity]. Qed.
Lemma put_eq : forall n x t, put n x t n = t.
Proof. intros n x t. unfold put. now rewrite Nat.eqb_refl. Qed.

Lemma apply_put : forall n a x t i, apply_to (S n) a (put n x t) i = apply_to n a x i + a i n * t.
Proof.
  intros n a x t i. unfold apply_to. cbn [rsum]. rewrite put_eq. f_equal. apply rsum_ext. intros j Hj. now rewrite put_lt.
Qed.
Lemma form_put : forall n a x t, form (S n) a (put n x t)
  = form n a x + t * rsum n (fun i => x i * a i n) + t * rsum n (fun j => a n j * x j) + t * t * a n n.
Proof.
  intros n a x t. unfold form. cbn [rsum]. rewrite put_eq, apply_put. unfold apply_to at 2.
  rewrite (rsum_ext n _ (fun i => x i * apply_to n a x i + t * (x i * a i n))).
  - rewrite rsum_plus, rsum_scal_l. ring.
  - intros i Hi. rewrite put_lt, apply_put by exact Hi. ring.
Qed.

Lemma positive_definite_sub : forall n a, positive_definite (S n) a -> positive_definite n a.
Proof.
  intros n a H x (i & Hi & Hx). specialize (H (put n x 0)). rewrite form_put in H.
  assert (0 < form n a x + 0 * rsum n (fun i => x i * a i n) + 0 * rsum n (fun j => a n j * x j) + 0 * 0 * a n n); [|lra].
  apply H. exists i. split; [lia|]. now rewrite put_lt.
Qed.

Theorem spd_solve_ok : forall n a v, symmetric_matrix n a -> positive_definite n a ->
  forall i, (i < n)%nat -> apply_to n a (spd_solve n a v) i = v i.
Proof.
  induction n as [|n IH]; intros a v HS HP i Hi; [lia|].
  assert (HS' : symmetric_matrix n a) by (intros p q Hp Hq; apply HS; lia).
  pose proof (positive_definite_sub n a HP) as HP'. cbn [spd_solve].
  set (c := spd_solve n a (fun i => a i n)). set (u := spd_solve n a v).
  assert (Hc : forall i, (i < n)%nat -> apply_to n a c i = a i n) by (intros; apply (IH a (fun i => a i n)); assumption).
  assert (Hu : forall i, (i < n)%nat -> apply_to n a u i = v i) by (intros; apply (IH a v); assumption).
  set (s := a n n - rsum n (fun j => a n j * c j)).
  assert (Hs : 0 < s).
  { specialize (HP (put n (fun i => - c i) 1)). rewrite form_put in HP.
    assert (F1 : form n a (fun i => - c i) = rsum n (fun j => a n j * c j)).
    { unfold form. apply rsum_ext. intros j Hj.
      assert (E : apply_to n a (fun i => - c i) j = - apply_to n a c j).
      { unfold apply_to. rewrite <- rsum_opp. apply rsum_ext. intros. ring. }
      rewrite E, Hc by exact Hj. rewrite (HS n j) by lia. ring. }
    assert (F2 : rsum n (fun i => - c i * a i n) = - rsum n (fun j => a n j * c j)).
    { rewrite <- rsum_opp. apply rsum_ext. intros j Hj. rewrite (HS n j) by lia. ring. }
    assert (F3 : rsum n (fun j => a n j * - c j) = - rsum n (fun j => a n j * c j)).
    { rewrite <- rsum_opp. apply rsum_ext. intros j Hj. ring. }
    rewrite F1, F2, F3 in HP. unfold s.
    assert (0 < rsum n (fun j => a n j * c j) + 1 * - rsum n (fun j => a n j * c j) + 1 * - rsum n (fun j => a n j * c j) + 1 * 1 * a n n); [|lra].
    apply HP. exists n. split; [lia|]. rewrite put_eq. lra. }
  set (t := (v n - rsum n (fun j => a n j * u j)) / s).
  rewrite apply_put.
  assert (E : forall i, apply_to n a (fun i => u i - t * c i) i = apply_to n a u i - t * apply_to n a c i).
  { intros k. unfold apply_to. rewrite <- rsum_scal_l, <- rsum_minus. apply rsum_ext. intros. ring. }
  rewrite E. destruct (Nat.eq_dec i n) as [->|Hn].
  - unfold apply_to.
    transitivity (rsum n (fun j => a n j * u j) + t * s); [unfold s; ring|].
    unfold t. field. lra.
  - rewrite Hu, Hc by lia. ring.
Qed.

(** A positive definite matrix is injective. *)
Lemma positive_definite_injective : forall n a x, positive_definite n a -> (forall i, (i < n)%nat -> apply_to n a x i = 0) ->
  forall i, (i < n)%nat -> x i = 0.
Proof.
  intros n a x HP H i Hi. destruct (Req_dec (x i) 0) as [Z|Z]; [exact Z|]. exfalso.
  assert (0 < form n a x) by (apply HP; eauto). unfold form in H0. rewrite rsum_zero in H0; [lra|].
  intros j Hj. rewrite H by exact Hj. ring.
Qed.

Lemma rsum_sqr_zero : forall n f, rsum n (fun i => f i * f i) = 0 -> forall i, (i < n)%nat -> f i = 0.
Proof.
  induction n as [|n IH]; intros f H i Hi; [lia|]. cbn [rsum] in H.
  assert (0 <= rsum n (fun i => f i * f i)) by (apply rsum_nonneg; intros; apply Rle_0_sqr).
  assert (0 <= f n * f n) by apply Rle_0_sqr.
  destruct (Nat.eq_dec i n) as [->|Hn]; [apply Rsqr_0_uniq; unfold Rsqr; lra|]. apply IH; [lra|lia].
Qed.

(** The matrix of the products of the rows of [a] (n rows, m columns) is positive definite when the rows
    are independent. *)
Lemma gram_form : forall n m a x, form n (multiply m a (transpose a)) x
  = rsum m (fun k => rsum n (fun i => x i * a i k) * rsum n (fun i => x i * a i k)).
Proof.
  intros n m a x. unfold form, apply_to, multiply, transpose.
  transitivity (rsum n (fun i => rsum m (fun k => x i * a i k * rsum n (fun j => x j * a j k)))).
  - apply rsum_ext. intros i _. rewrite <- rsum_scal_l.
    rewrite (rsum_ext n _ (fun j => rsum m (fun k => x i * a i k * (x j * a j k)))).
    + rewrite rsum_swap. apply rsum_ext. intros k _. now rewrite rsum_scal_l.
    + intros j _. rewrite <- rsum_scal_r, <- rsum_scal_l. apply rsum_ext. intros. ring.
  - rewrite rsum_swap. apply rsum_ext. intros k _. now rewrite rsum_scal_r.
Qed.
Lemma gram_positive : forall n m a,
  (forall x, (forall k, (k < m)%nat -> rsum n (fun i => x i * a i k) = 0) -> forall i, (i < n)%nat -> x i = 0) ->
  positive_definite n (multiply m a (transpose a)).
Proof.
  intros n m a H x (i & Hi & Hx). rewrite gram_form.
  assert (P : 0 <= rsum m (fun k => rsum n (fun i => x i * a i k) * rsum n (fun i => x i * a i k))) by (apply rsum_nonneg; intros; apply Rle_0_sqr).
  destruct P as [P|P]; [exact P|]. exfalso. apply Hx. apply (H x); [|exact Hi]. apply rsum_sqr_zero. now symmetry.
Qed.
Lemma gram_symmetric : forall n m a, symmetric_matrix n (multiply m a (transpose a)).
Proof. intros n m a i j _ _. unfold multiply, transpose. apply rsum_ext. intros. ring. Qed.

(** The inverse of a symmetric positive definite matrix *)
Definition unit_vector (j : nat) : nat -> R := fun i => if (i =? j)%nat then 1 else 0.
Definition spd_inverse (n : nat) (a : matrix) : matrix := fun i j => spd_solve n a (unit_vector j) i.

Lemma spd_inverse_right : forall n a, symmetric_matrix n a -> positive_definite n a ->
  forall i j, (i < n)%nat -> (j < n)%nat -> multiply n a (spd_inverse n a) i j = (if (i =? j)%nat then 1 else 0).
Proof. intros n a HS HP i j Hi Hj. exact (spd_solve_ok n a (unit_vector j) HS HP i Hi). Qed.
Lemma rsum_unit : forall n f j, (j < n)%nat -> rsum n (fun i => f i * (if (i =? j)%nat then 1 else 0)) = f j.
Proof.
  intros n f j Hj. rewrite (rsum_single n _ j Hj).
  - rewrite Nat.eqb_refl. ring.
  - intros i _ Hn. destruct (Nat.eqb_spec i j); [contradiction|ring].
Qed.
Lemma rsum_unit' : forall n f j, (j < n)%nat -> rsum n (fun i => (if (j =? i)%nat then 1 else 0) * f i) = f j.
Proof.
  intros n f j Hj. rewrite (rsum_single n _ j Hj).
  - rewrite Nat.eqb_refl. ring.
  - intros i _ Hn. destruct (Nat.eqb_spec j i); [congruence|ring].
Qed.
Lemma spd_inverse_left : forall n a, symmetric_matrix n a -> positive_definite n a ->
  forall i j, (i < n)%nat -> (j < n)%nat -> multiply n (spd_inverse n a) a i j = (if (i =? j)%nat then 1 else 0).
Proof.
  intros n a HS HP. pose proof (spd_inverse_right n a HS HP) as HR. set (b := spd_inverse n a) in *.
  assert (HT : forall i j, (i < n)%nat -> (j < n)%nat -> b i j = b j i).
  { intros i j Hi Hj.
    transitivity (rsum n (fun p => b p i * multiply n a b p j)).
    - transitivity (rsum n (fun k => multiply n a b k i * b k j)).
      + rewrite (rsum_ext n _ (fun k => (if (i =? k)%nat then 1 else 0) * b k j)); [now rewrite rsum_unit'|].
        intros k Hk. rewrite HR by assumption. now rewrite Nat.eqb_sym.
      + unfold multiply.
        rewrite (rsum_ext n _ (fun k => rsum n (fun p => a p k * b p i * b k j))).
        * rewrite rsum_swap. apply rsum_ext. intros p _. rewrite <- rsum_scal_l. apply rsum_ext. intros. ring.
        * intros k Hk. rewrite <- rsum_scal_r. apply rsum_ext. intros p Hp. rewrite (HS k p) by assumption. reflexivity.
    - rewrite (rsum_ext n _ (fun p => b p i * (if (p =? j)%nat then 1 else 0))); [now rewrite rsum_unit|].
      intros p Hp. now rewrite HR. }
  intros i j Hi Hj. rewrite Nat.eqb_sym, <- (HR j i Hj Hi). unfold multiply. apply rsum_ext. intros k Hk.
  rewrite (HT i k), (HS k j) by assumption. ring.
Qed.

(** * Solvers that meet the specification of [lu_solve] and [inverse] *)
Definition least_squares (m n : nat) (a : matrix) (b : nat -> R) : nat -> R :=
  spd_solve n (multiply m (transpose a) a) (fun j => rsum m (fun r => a r j * b r)).

Lemma least_squares_ok : forall m n a b x,
  (forall r, (r < m)%nat -> apply_to n a x r = b r) ->
  (forall y, (forall r, (r < m)%nat -> apply_to n a y r = 0) -> forall j, (j < n)%nat -> y j = 0) ->
  forall j, (j < n)%nat -> least_squares m n a b j = x j.
Proof.
  intros m n a b x Hx HI. set (g := multiply m (transpose a) a).
  assert (EG : forall i j, g i j = multiply m (transpose a) (transpose (transpose a)) i j) by reflexivity.
  assert (HS : symmetric_matrix n g) by (apply (gram_symmetric n m (transpose a))).
  assert (HP : positive_definite n g).
  { apply (gram_positive n m (transpose a)). intros y Hy. apply HI. intros r Hr. rewrite <- (Hy r Hr). unfold apply_to, transpose.
    apply rsum_ext. intros. ring. }
  assert (HG : forall y j, apply_to n g y j = rsum m (fun r => a r j * apply_to n a y r)).
  { intros y j. unfold apply_to, g, multiply, transpose.
    rewrite (rsum_ext n _ (fun k => rsum m (fun r => a r j * (a r k * y k)))).
    - rewrite rsum_swap. apply rsum_ext. intros r _. now rewrite rsum_scal_l.
    - intros k _. rewrite <- rsum_scal_r. apply rsum_ext. intros. ring. }
  intros j Hj. set (s := least_squares m n a b).
  assert (Z : s j - x j = 0); [|lra].
  apply (positive_definite_injective n g (fun j => s j - x j) HP); [|exact Hj]. intros i Hi.
  assert (E : apply_to n g (fun j => s j - x j) i = apply_to n g s i - apply_to n g x i).
  { unfold apply_to. rewrite <- rsum_minus. apply rsum_ext. intros. ring. }
  rewrite E. unfold s, least_squares. fold g. rewrite (spd_solve_ok n g _ HS HP i Hi), HG, <- rsum_minus.
  apply rsum_zero. intros r Hr. rewrite Hx by exact Hr. ring.
Qed.
