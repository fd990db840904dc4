(** Arrays that are fixed by the infinitesimal rotations are fixed by all rotations. *)
Require Import List Reals ZArith Lra Lia Setoid Morphisms Arith Bool Psatz.
Require Import Verif.Base Verif.RSum Verif.Common_Model Verif.Symbolic_Model Verif.Poly_Proofs Verif.PolyDiff_Proofs Verif.Harmonics_Proofs Verif.Harmonics_Basis_Proofs
  Verif.Clebsch_Model Verif.Racah_Proofs Verif.Generators_Proofs.
Import ListNotations.
Open Scope R_scope.

Lemma der_ext : forall f g t d, (forall s, f s = g s) -> derivable_pt_lim f t d -> derivable_pt_lim g t d.
Proof. intros f g t d E H eps He. destruct (H eps He) as [de Hd]. exists de. intros h Hh Hl. rewrite <- !E. now apply Hd. Qed.
Lemma der_plus : forall f g t a b, derivable_pt_lim f t a -> derivable_pt_lim g t b -> derivable_pt_lim (fun s => f s + g s) t (a + b).
Proof. intros. now apply (derivable_pt_lim_plus f g). Qed.
Lemma der_mult : forall f g t a b, derivable_pt_lim f t a -> derivable_pt_lim g t b -> derivable_pt_lim (fun s => f s * g s) t (a * g t + f t * b).
Proof. intros. now apply (derivable_pt_lim_mult f g). Qed.
Lemma der_const : forall c t, derivable_pt_lim (fun _ => c) t 0. Proof. intros. apply (derivable_pt_lim_const c). Qed.
Lemma der_scal : forall f t a c, derivable_pt_lim f t a -> derivable_pt_lim (fun s => c * f s) t (c * a).
Proof. intros. now apply (derivable_pt_lim_scal f). Qed.
Lemma der_rsum : forall n (f : nat -> R -> R) d t, (forall i, (i < n)%nat -> derivable_pt_lim (f i) t (d i)) -> derivable_pt_lim (fun s => rsum n (fun i => f i s)) t (rsum n d).
Proof.
  induction n as [|n IH]; intros f d t H.
  - exact (der_const 0 t).
  - apply (der_plus (fun s => rsum n (fun i => f i s)) (f n)); [apply IH; intros; apply H; lia|apply H; lia].
Qed.
Lemma der_eq : forall f t a b, derivable_pt_lim f t a -> a = b -> derivable_pt_lim f t b. Proof. intros f t a b H <-. exact H. Qed.

Lemma der_constant : forall f, (forall t, derivable_pt_lim f t 0) -> forall s t, f s = f t.
Proof.
  intros f H. assert (K : forall s t, s < t -> f s = f t).
  { intros s t L. destruct (MVT_cor2 f (fun _ => 0) s t L (fun c _ => H c)) as [c [E _]]. lra. }
  intros s t. destruct (Rtotal_order s t) as [L|[->|L]]; [now apply K|reflexivity|symmetry; now apply K].
Qed.

(** * Families of substitutions *)
(** The vector field of a matrix. *)
Definition field (A : nat -> nat -> R) (p : poly3) : poly3 := sum3 (fun i => p3_mul (row A i) (pd i p)).
Global Instance field_proper : forall A, Proper (peq ==> peq) (field A).
Proof. intros A p q E. unfold field, sum3. now rewrite E. Qed.

Lemma field_mul : forall A p q, field A (p3_mul p q) == p3_add (p3_mul (field A p) q) (p3_mul p (field A q)).
Proof. intros. unfold field, sum3. rewrite !pd_mul. ring. Qed.
Lemma field_add : forall A p q, field A (p3_add p q) == p3_add (field A p) (field A q).
Proof. intros. unfold field, sum3. rewrite !pd_add. ring. Qed.
Lemma field_scal : forall A c p, field A (p3_scal c p) == p3_scal c (field A p).
Proof. intros. unfold field, sum3. rewrite !pd_scal, !scal_mul. ring. Qed.
Lemma field_one : forall A, field A pone == pzero.
Proof. intros. unfold field, sum3. rewrite !pd_one. ring. Qed.
Lemma field_sum : forall A n f, field A (p3_sum n f) == p3_sum n (fun i => field A (f i)).
Proof. intros A. induction n as [|n IH]; intros f; [unfold field, sum3; cbn; reflexivity|]. rewrite !psum_S, field_add, IH. reflexivity. Qed.

Lemma field_row : forall A M i, field A (row M i) == row (mprod M A) i.
Proof.
  intros A M i. unfold field, sum3. rewrite !pd_row by lia. unfold row, mprod. intros w.
  assert (K : forall p c, lin w (p3_mul p (p3_const c)) = c * lin w p).
  { intros p c. rewrite <- lin_scal. apply lin_proper. rewrite scal_mul. ring. }
  rewrite !lin_add, !K, !lin_add, !lin_scal. ring.
Qed.

Section Family.
Variable A : nat -> nat -> R.
Variable M : R -> nat -> nat -> R.
Hypothesis HM : forall t i j, (i < 3)%nat -> (j < 3)%nat -> derivable_pt_lim (fun s => M s i j) t (mprod (M t) A i j).

Lemma der_subst : forall p q t, derivable_pt_lim (fun s => fischer q (psubst (M s) p)) t (fischer q (field A (psubst (M t) p))).
Proof.
  apply (poly_ind (fun p => forall q t, derivable_pt_lim (fun s => fischer q (psubst (M s) p)) t (fischer q (field A (psubst (M t) p))))).
  - intros p p' E H q t. apply (der_ext (fun s => fischer q (psubst (M s) p))); [intros s; now rewrite E|]. rewrite <- E. apply H.
  - intros p p' H H' q t. rewrite psubst_add, field_add, fischer_add_r.
    apply (der_ext (fun s => fischer q (psubst (M s) p) + fischer q (psubst (M s) p'))); [intros s; now rewrite psubst_add, fischer_add_r|]. apply der_plus; [apply H|apply H'].
  - intros c p H q t. rewrite psubst_scal, field_scal, fischer_scal_r.
    apply (der_ext (fun s => c * fischer q (psubst (M s) p))); [intros s; now rewrite psubst_scal, fischer_scal_r|]. apply der_scal, H.
  - intros q t. rewrite psubst_one, field_one, fischer_zero_r. apply (der_ext (fun _ => fischer q pone)); [intros s; now rewrite psubst_one|]. apply der_const.
  - intros i p Hi H q t.
    apply (der_ext (fun s => M s i 0%nat * fischer (pd 0 q) (psubst (M s) p) + M s i 1%nat * fischer (pd 1 q) (psubst (M s) p) + M s i 2%nat * fischer (pd 2 q) (psubst (M s) p))).
    { intros s. rewrite psubst_var_mul by exact Hi. rewrite (fischer_sym q), fischer_row. rewrite !(fischer_sym (psubst (M s) p)). reflexivity. }
    eapply der_eq; [repeat apply der_plus; apply der_mult; try apply H; apply HM; lia|].
    rewrite psubst_var_mul by exact Hi. rewrite field_mul, field_row, fischer_add_r, !(fischer_sym q), !fischer_row.
    rewrite !(fischer_sym _ (pd _ q)). ring.
Qed.

Hypothesis HO : forall t, orthonormal_rows (M t).

Lemma der_dmat : forall l (G : nat -> nat -> R),
  (forall k, (k < 2 * l + 1)%nat -> field A (Yi l k) == p3_sum (2 * l + 1) (fun j => p3_scal (G k j) (Yi l j))) ->
  forall i j t, (i < 2 * l + 1)%nat -> (j < 2 * l + 1)%nat ->
  derivable_pt_lim (fun s => dmat (M s) l i j) t (rsum (2 * l + 1) (fun k => dmat (M t) l i k * G k j)).
Proof.
  intros l G HG i j t Hi Hj. pose proof (ynorm_pos l) as Y. unfold dmat at 1.
  apply (der_ext (fun s => / ynorm l * fischer (Yi l j) (psubst (M s) (Yi l i)))); [intros s; unfold Rdiv; ring|].
  eapply der_eq; [apply der_scal, der_subst|]. rewrite (subst_Y (M t) l i (HO t) Hi), field_sum, fischer_sum_r, <- rsum_scal_l.
  apply rsum_ext. intros k Hk. rewrite field_scal, fischer_scal_r, (HG k Hk), fischer_sum_r.
  rewrite (rsum_ext _ _ (fun k' => (G k k' * ynorm l) * kron k' j)).
  - rewrite (rsum_kron _ (fun k' => G k k' * ynorm l)) by exact Hj. field. lra.
  - intros k' Hk'. rewrite fischer_scal_r, fischer_Yi by assumption.
    replace (kron j k') with (kron k' j) by (unfold kron; destruct (Nat.eq_dec k' j), (Nat.eq_dec j k'); congruence). ring.
Qed.
End Family.

(** * Tensors with three indices *)
Definition moved (n1 n2 n3 : nat) (C : nat -> nat -> nat -> R) (D1 D2 D3 : nat -> nat -> R) (a b c : nat) : R :=
  rsum n1 (fun a' => rsum n2 (fun b' => rsum n3 (fun c' => D1 a a' * D2 b b' * D3 c c' * C a' b' c'))).

Lemma moved_ext : forall n1 n2 n3 C D1 D2 D3 D1' D2' D3' a b c, (forall i, (i < n1)%nat -> D1 a i = D1' a i) -> (forall i, (i < n2)%nat -> D2 b i = D2' b i) ->
  (forall i, (i < n3)%nat -> D3 c i = D3' c i) -> moved n1 n2 n3 C D1 D2 D3 a b c = moved n1 n2 n3 C D1' D2' D3' a b c.
Proof. intros. apply rsum_ext; intros. apply rsum_ext; intros. apply rsum_ext; intros. rewrite H, H0, H1 by assumption. reflexivity. Qed.

Lemma moved_id : forall n1 n2 n3 C a b c, (a < n1)%nat -> (b < n2)%nat -> (c < n3)%nat -> moved n1 n2 n3 C kron kron kron a b c = C a b c.
Proof.
  intros n1 n2 n3 C a b c Ha Hb Hc. unfold moved. assert (S : forall i j, kron i j = kron j i) by (intros i j; unfold kron; destruct (Nat.eq_dec i j), (Nat.eq_dec j i); congruence).
  transitivity (rsum n1 (fun a' => rsum n2 (fun b' => rsum n3 (fun c' => C a' b' c' * kron c' c) * kron b' b) * kron a' a)).
  - apply rsum_ext; intros i _. rewrite <- rsum_scal_r. apply rsum_ext; intros j _. rewrite <- !rsum_scal_r. apply rsum_ext; intros k _. rewrite (S a), (S b), (S c). ring.
  - rewrite (rsum_kron n1 (fun a' => rsum n2 (fun b' => rsum n3 (fun c' => C a' b' c' * kron c' c) * kron b' b))) by exact Ha.
    rewrite (rsum_kron n2 (fun b' => rsum n3 (fun c' => C a b' c' * kron c' c))) by exact Hb. now rewrite (rsum_kron n3 (fun c' => C a b c')).
Qed.

(** The sum of the infinitesimal actions on the three indices. *)
Definition killed (n1 n2 n3 : nat) (C : nat -> nat -> nat -> R) (G1 G2 G3 : nat -> nat -> R) : Prop :=
  forall a b c, (a < n1)%nat -> (b < n2)%nat -> (c < n3)%nat ->
    rsum n1 (fun k => G1 a k * C k b c) + rsum n2 (fun k => G2 b k * C a k c) + rsum n3 (fun k => G3 c k * C a b k) = 0.

Lemma moved_constant : forall n1 n2 n3 C G1 G2 G3 (D1 D2 D3 : R -> nat -> nat -> R), killed n1 n2 n3 C G1 G2 G3 ->
  (forall a j t, (a < n1)%nat -> (j < n1)%nat -> derivable_pt_lim (fun s => D1 s a j) t (rsum n1 (fun k => D1 t a k * G1 k j))) ->
  (forall a j t, (a < n2)%nat -> (j < n2)%nat -> derivable_pt_lim (fun s => D2 s a j) t (rsum n2 (fun k => D2 t a k * G2 k j))) ->
  (forall a j t, (a < n3)%nat -> (j < n3)%nat -> derivable_pt_lim (fun s => D3 s a j) t (rsum n3 (fun k => D3 t a k * G3 k j))) ->
  forall a b c s t, (a < n1)%nat -> (b < n2)%nat -> (c < n3)%nat -> moved n1 n2 n3 C (D1 s) (D2 s) (D3 s) a b c = moved n1 n2 n3 C (D1 t) (D2 t) (D3 t) a b c.
Proof.
  intros n1 n2 n3 C G1 G2 G3 D1 D2 D3 K H1 H2 H3 a b c s t Ha Hb Hc.
  apply (der_constant (fun s => moved n1 n2 n3 C (D1 s) (D2 s) (D3 s) a b c)). clear s t. intros t. unfold moved.
  eapply der_eq.
  - apply (der_rsum n1 (fun a' s => rsum n2 (fun b' => rsum n3 (fun c' => D1 s a a' * D2 s b b' * D3 s c c' * C a' b' c')))
      (fun a' => rsum n2 (fun b' => rsum n3 (fun c' => ((rsum n1 (fun k => D1 t a k * G1 k a') * D2 t b b' + D1 t a a' * rsum n2 (fun k => D2 t b k * G2 k b')) * D3 t c c'
         + D1 t a a' * D2 t b b' * rsum n3 (fun k => D3 t c k * G3 k c')) * C a' b' c')))).
    intros i Hi. apply (der_rsum n2 (fun b' s => rsum n3 (fun c' => D1 s a i * D2 s b b' * D3 s c c' * C i b' c'))). intros j Hj.
    apply (der_rsum n3 (fun c' s => D1 s a i * D2 s b j * D3 s c c' * C i j c')). intros k Hk.
    eapply der_eq; [apply der_mult; [apply der_mult; [apply der_mult; [now apply H1|now apply H2]|now apply H3]|apply der_const]|]. cbv beta. ring.
  - transitivity (rsum n1 (fun a' => rsum n2 (fun b' => rsum n3 (fun c' => D1 t a a' * D2 t b b' * D3 t c c' *
      (rsum n1 (fun k => G1 a' k * C k b' c') + rsum n2 (fun k => G2 b' k * C a' k c') + rsum n3 (fun k => G3 c' k * C a' b' k)))))).
    2:{ apply rsum_zero; intros i Hi. apply rsum_zero; intros j Hj. apply rsum_zero; intros k Hk.
        rewrite (K i j k Hi Hj Hk). ring. }
    assert (E1 : rsum n1 (fun a' => rsum n2 (fun b' => rsum n3 (fun c' => rsum n1 (fun k => D1 t a k * G1 k a') * D2 t b b' * D3 t c c' * C a' b' c')))
               = rsum n1 (fun a' => rsum n2 (fun b' => rsum n3 (fun c' => D1 t a a' * D2 t b b' * D3 t c c' * rsum n1 (fun k => G1 a' k * C k b' c'))))).
    { transitivity (rsum n1 (fun a' => rsum n1 (fun k => rsum n2 (fun b' => rsum n3 (fun c' => D1 t a k * D2 t b b' * D3 t c c' * (G1 k a' * C a' b' c')))))).
      - apply rsum_ext; intros a' _. rewrite (rsum_swap n1). apply rsum_ext; intros b' _. rewrite (rsum_swap n1). apply rsum_ext; intros c' _.
        rewrite <- !rsum_scal_r. apply rsum_ext; intros; ring.
      - rewrite rsum_swap. apply rsum_ext; intros k _. rewrite rsum_swap. apply rsum_ext; intros b' _. rewrite rsum_swap. apply rsum_ext; intros c' _. now rewrite rsum_scal_l. }
    assert (E2 : rsum n1 (fun a' => rsum n2 (fun b' => rsum n3 (fun c' => D1 t a a' * rsum n2 (fun k => D2 t b k * G2 k b') * D3 t c c' * C a' b' c')))
               = rsum n1 (fun a' => rsum n2 (fun b' => rsum n3 (fun c' => D1 t a a' * D2 t b b' * D3 t c c' * rsum n2 (fun k => G2 b' k * C a' k c'))))).
    { apply rsum_ext; intros a' _. transitivity (rsum n2 (fun b' => rsum n2 (fun k => rsum n3 (fun c' => D1 t a a' * D2 t b k * D3 t c c' * (G2 k b' * C a' b' c'))))).
      - apply rsum_ext; intros b' _. rewrite (rsum_swap n2). apply rsum_ext; intros c' _. rewrite <- !rsum_scal_l, <- !rsum_scal_r. apply rsum_ext; intros; ring.
      - rewrite rsum_swap. apply rsum_ext; intros k _. rewrite rsum_swap. apply rsum_ext; intros c' _. now rewrite rsum_scal_l. }
    assert (E3 : rsum n1 (fun a' => rsum n2 (fun b' => rsum n3 (fun c' => D1 t a a' * D2 t b b' * rsum n3 (fun k => D3 t c k * G3 k c') * C a' b' c')))
               = rsum n1 (fun a' => rsum n2 (fun b' => rsum n3 (fun c' => D1 t a a' * D2 t b b' * D3 t c c' * rsum n3 (fun k => G3 c' k * C a' b' k))))).
    { apply rsum_ext; intros a' _. apply rsum_ext; intros b' _. transitivity (rsum n3 (fun c' => rsum n3 (fun k => D1 t a a' * D2 t b b' * D3 t c k * (G3 k c' * C a' b' c')))).
      - apply rsum_ext; intros c' _. rewrite <- !rsum_scal_l, <- !rsum_scal_r. apply rsum_ext; intros; ring.
      - rewrite rsum_swap. apply rsum_ext; intros k _. now rewrite rsum_scal_l. }
    assert (P : forall f g h : nat -> nat -> nat -> R, rsum n1 (fun a' => rsum n2 (fun b' => rsum n3 (fun c' => f a' b' c' + g a' b' c' + h a' b' c')))
       = rsum n1 (fun a' => rsum n2 (fun b' => rsum n3 (fun c' => f a' b' c'))) + rsum n1 (fun a' => rsum n2 (fun b' => rsum n3 (fun c' => g a' b' c')))
         + rsum n1 (fun a' => rsum n2 (fun b' => rsum n3 (fun c' => h a' b' c')))).
    { intros f g h. rewrite <- !rsum_plus. apply rsum_ext; intros i _. rewrite <- !rsum_plus. apply rsum_ext; intros j _. now rewrite <- !rsum_plus. }
    transitivity (rsum n1 (fun a' => rsum n2 (fun b' => rsum n3 (fun c' => rsum n1 (fun k => D1 t a k * G1 k a') * D2 t b b' * D3 t c c' * C a' b' c'
      + D1 t a a' * rsum n2 (fun k => D2 t b k * G2 k b') * D3 t c c' * C a' b' c' + D1 t a a' * D2 t b b' * rsum n3 (fun k => D3 t c k * G3 k c') * C a' b' c')))).
    { apply rsum_ext; intros i _. apply rsum_ext; intros j _. apply rsum_ext; intros k _. ring. }
    rewrite P, E1, E2, E3, <- P. apply rsum_ext; intros i _. apply rsum_ext; intros j _. apply rsum_ext; intros k _. ring.
Qed.

Lemma rsum_triple : forall n1 n2 n3 f g h, rsum n1 f * rsum n2 g * rsum n3 h = rsum n1 (fun i => rsum n2 (fun j => rsum n3 (fun k => f i * g j * h k))).
Proof.
  intros. rewrite Rmult_assoc, <- rsum_scal_r. apply rsum_ext; intros i _. rewrite <- Rmult_assoc, <- (rsum_scal_l n2 (f i) g), <- (rsum_scal_r n2). apply rsum_ext; intros j _. now rewrite <- rsum_scal_l.
Qed.

(** * Invariance under the group *)
Definition fixed_by (l1 l2 l3 : nat) (C : nat -> nat -> nat -> R) (M : nat -> nat -> R) : Prop :=
  forall a b c, (a < 2 * l1 + 1)%nat -> (b < 2 * l2 + 1)%nat -> (c < 2 * l3 + 1)%nat ->
    moved (2 * l1 + 1) (2 * l2 + 1) (2 * l3 + 1) C (dmat M l1) (dmat M l2) (dmat M l3) a b c = C a b c.

Lemma fixed_ext : forall l1 l2 l3 C M N, (forall i j, (i < 3)%nat -> (j < 3)%nat -> M i j = N i j) -> fixed_by l1 l2 l3 C M -> fixed_by l1 l2 l3 C N.
Proof. intros l1 l2 l3 C M N E H a b c Ha Hb Hc. rewrite <- (H a b c Ha Hb Hc). apply moved_ext; intros; apply dmat_ext; intros; symmetry; now apply E. Qed.

Lemma fixed_prod : forall l1 l2 l3 C M N, orthonormal_rows M -> orthonormal_rows N -> fixed_by l1 l2 l3 C M -> fixed_by l1 l2 l3 C N -> fixed_by l1 l2 l3 C (mprod M N).
Proof.
  intros l1 l2 l3 C M N OM ON HM HN a b c Ha Hb Hc. rewrite <- (HM a b c Ha Hb Hc).
  set (n1 := (2 * l1 + 1)%nat) in *. set (n2 := (2 * l2 + 1)%nat) in *. set (n3 := (2 * l3 + 1)%nat) in *.
  transitivity (rsum n1 (fun a1 => rsum n2 (fun b1 => rsum n3 (fun c1 => dmat M l1 a a1 * dmat M l2 b b1 * dmat M l3 c c1 * moved n1 n2 n3 C (dmat N l1) (dmat N l2) (dmat N l3) a1 b1 c1)))).
  2:{ apply rsum_ext; intros i Hi. apply rsum_ext; intros j Hj. apply rsum_ext; intros k Hk. f_equal. exact (HN i j k Hi Hj Hk). }
  unfold moved.
  transitivity (rsum n1 (fun a2 => rsum n2 (fun b2 => rsum n3 (fun c2 => rsum n1 (fun a1 => rsum n2 (fun b1 => rsum n3 (fun c1 =>
     dmat M l1 a a1 * dmat M l2 b b1 * dmat M l3 c c1 * (dmat N l1 a1 a2 * dmat N l2 b1 b2 * dmat N l3 c1 c2 * C a2 b2 c2)))))))).
  - apply rsum_ext; intros a2 Ha2. apply rsum_ext; intros b2 Hb2. apply rsum_ext; intros c2 Hc2. rewrite !dmat_mul by assumption. fold n1 n2 n3.
    rewrite rsum_triple, <- rsum_scal_r. apply rsum_ext; intros a1 _. rewrite <- rsum_scal_r. apply rsum_ext; intros b1 _. rewrite <- rsum_scal_r.
    apply rsum_ext; intros c1 _. ring.
  - transitivity (rsum n1 (fun a1 => rsum n2 (fun b1 => rsum n3 (fun c1 => rsum n1 (fun a2 => rsum n2 (fun b2 => rsum n3 (fun c2 =>
     dmat M l1 a a1 * dmat M l2 b b1 * dmat M l3 c c1 * (dmat N l1 a1 a2 * dmat N l2 b1 b2 * dmat N l3 c1 c2 * C a2 b2 c2)))))))).
    + (* exchange the two triples of sums *)
      assert (X : forall f : nat -> nat -> nat -> nat -> nat -> nat -> R,
        rsum n1 (fun a2 => rsum n2 (fun b2 => rsum n3 (fun c2 => rsum n1 (fun a1 => rsum n2 (fun b1 => rsum n3 (fun c1 => f a1 b1 c1 a2 b2 c2))))))
        = rsum n1 (fun a1 => rsum n2 (fun b1 => rsum n3 (fun c1 => rsum n1 (fun a2 => rsum n2 (fun b2 => rsum n3 (fun c2 => f a1 b1 c1 a2 b2 c2))))))).
      { intros f.
        assert (P1 : forall (g : nat -> nat -> nat -> nat -> R) n, rsum n1 (fun a2 => rsum n2 (fun b2 => rsum n3 (fun c2 => rsum n (fun x => g a2 b2 c2 x))))
            = rsum n (fun x => rsum n1 (fun a2 => rsum n2 (fun b2 => rsum n3 (fun c2 => g a2 b2 c2 x))))).
        { intros g n. transitivity (rsum n1 (fun a2 => rsum n (fun x => rsum n2 (fun b2 => rsum n3 (fun c2 => g a2 b2 c2 x))))).
          - apply rsum_ext; intros i _. transitivity (rsum n2 (fun b2 => rsum n (fun x => rsum n3 (fun c2 => g i b2 c2 x)))).
            + apply rsum_ext; intros j _. apply rsum_swap.
            + apply rsum_swap.
          - apply rsum_swap. }
        rewrite P1. apply rsum_ext; intros a1 _. rewrite P1. apply rsum_ext; intros b1 _. rewrite P1. reflexivity. }
      apply X.
    + apply rsum_ext; intros a1 _. apply rsum_ext; intros b1 _. apply rsum_ext; intros c1 _. rewrite <- rsum_scal_l. apply rsum_ext; intros a2 _. rewrite <- rsum_scal_l.
      apply rsum_ext; intros b2 _. now rewrite <- rsum_scal_l.
Qed.

Lemma fixed_family : forall l1 l2 l3 C A M (G : nat -> nat -> nat -> R), (forall t i j, (i < 3)%nat -> (j < 3)%nat -> derivable_pt_lim (fun s => M s i j) t (mprod (M t) A i j)) ->
  (forall t, orthonormal_rows (M t)) -> (forall i j, (i < 3)%nat -> (j < 3)%nat -> M 0 i j = kron i j) ->
  (forall l k, (k < 2 * l + 1)%nat -> field A (Yi l k) == p3_sum (2 * l + 1) (fun j => p3_scal (G l k j) (Yi l j))) ->
  killed (2 * l1 + 1) (2 * l2 + 1) (2 * l3 + 1) C (G l1) (G l2) (G l3) -> forall t, fixed_by l1 l2 l3 C (M t).
Proof.
  intros l1 l2 l3 C A M G HM HO H0 HG K t a b c Ha Hb Hc.
  rewrite (moved_constant _ _ _ C (G l1) (G l2) (G l3) (fun s => dmat (M s) l1) (fun s => dmat (M s) l2) (fun s => dmat (M s) l3) K) with (t := 0); try assumption;
    [|intros; now apply (der_dmat A M HM HO _ _ (HG _))..].
  rewrite <- (moved_id (2 * l1 + 1) (2 * l2 + 1) (2 * l3 + 1) C a b c Ha Hb Hc).
  apply moved_ext; intros i Hi; rewrite (dmat_ext (M 0) kron) by exact H0; now apply dmat_id.
Qed.

(** * The rotations about the y and the z axis *)
Definition ry (t : R) (i j : nat) : R :=
  match i, j with O, O => cos t | O, 2%nat => - sin t | 1%nat, 1%nat => 1 | 2%nat, O => sin t | 2%nat, 2%nat => cos t | _, _ => 0 end.
Definition rz (t : R) (i j : nat) : R :=
  match i, j with O, O => cos t | O, 1%nat => - sin t | 1%nat, O => sin t | 1%nat, 1%nat => cos t | 2%nat, 2%nat => 1 | _, _ => 0 end.
Definition ay (i j : nat) : R := match i, j with O, 2%nat => -1 | 2%nat, O => 1 | _, _ => 0 end.
Definition az (i j : nat) : R := match i, j with O, 1%nat => -1 | 1%nat, O => 1 | _, _ => 0 end.

Ltac three i := destruct i as [|[|[|i]]]; [| | |exfalso; lia].
Lemma der_cos : forall t, derivable_pt_lim cos t (- sin t). Proof. exact derivable_pt_lim_cos. Qed.
Lemma der_sin : forall t, derivable_pt_lim sin t (cos t). Proof. exact derivable_pt_lim_sin. Qed.
Lemma der_msin : forall t, derivable_pt_lim (fun s => - sin s) t (- cos t).
Proof. intros t. apply (derivable_pt_lim_opp sin). apply der_sin. Qed.

Lemma ry_der : forall t i j, (i < 3)%nat -> (j < 3)%nat -> derivable_pt_lim (fun s => ry s i j) t (mprod (ry t) ay i j).
Proof. intros t i j Hi Hj. three i; three j; unfold mprod; cbn [ry ay]; (eapply der_eq; [apply der_cos || apply der_sin || apply der_msin || apply der_const|ring]). Qed.
Lemma rz_der : forall t i j, (i < 3)%nat -> (j < 3)%nat -> derivable_pt_lim (fun s => rz s i j) t (mprod (rz t) az i j).
Proof. intros t i j Hi Hj. three i; three j; unfold mprod; cbn [rz az]; (eapply der_eq; [apply der_cos || apply der_sin || apply der_msin || apply der_const|ring]). Qed.
Lemma ry_rows : forall t, orthonormal_rows (ry t).
Proof. intros t i j Hi Hj. pose proof (sin2_cos2 t) as S. unfold Rsqr in S. three i; three j; cbn [ry kron Nat.eq_dec]; unfold kron; cbn; lra. Qed.
Lemma rz_rows : forall t, orthonormal_rows (rz t).
Proof. intros t i j Hi Hj. pose proof (sin2_cos2 t) as S. unfold Rsqr in S. three i; three j; cbn [rz kron Nat.eq_dec]; unfold kron; cbn; lra. Qed.
Lemma ry_0 : forall i j, (i < 3)%nat -> (j < 3)%nat -> ry 0 i j = kron i j.
Proof. intros i j Hi Hj. three i; three j; cbn [ry]; rewrite ?cos_0, ?sin_0; unfold kron; cbn; lra. Qed.
Lemma rz_0 : forall i j, (i < 3)%nat -> (j < 3)%nat -> rz 0 i j = kron i j.
Proof. intros i j Hi Hj. three i; three j; cbn [rz]; rewrite ?cos_0, ?sin_0; unfold kron; cbn; lra. Qed.

Lemma scal_one : forall p, p3_scal 1 p == p. Proof. intros p w. rewrite lin_scal. ring. Qed.
Lemma field_ay : forall p, field ay p == turnY p.
Proof. intros p. unfold field, sum3, turnY, row. cbn [ay]. change (p3_scal (-1) p3_z) with (popp p3_z). rewrite !scal_zero, !scal_one. ring. Qed.
Lemma field_az : forall p, field az p == turnZ p.
Proof. intros p. unfold field, sum3, turnZ, row. cbn [az]. change (p3_scal (-1) p3_y) with (popp p3_y). rewrite !scal_zero, !scal_one. ring. Qed.

(** The matrices of the generators. *)
Definition gY (l i j : nat) : R := if (S i =? j)%nat then up l (order l i) else if (i =? S j)%nat then - up l (order l j) else 0.
Definition gZ (l i j : nat) : R := if (i + j =? 2 * l)%nat then - IZR (order l i) else 0.

Lemma up_top : forall l, up l (Z.of_nat l) = 0.
Proof.
  intros l. unfold up. destruct (Z.leb_spec 1 (Z.of_nat l)); [rewrite beta_top; unfold Rdiv; ring|].
  destruct (Z.eqb_spec (Z.of_nat l) 0) as [E|E]; [|lia]. replace (beta l 0) with (beta l (Z.of_nat l)) by (now rewrite E). rewrite beta_top. unfold Rdiv. ring.
Qed.
Lemma up_bottom : forall l, up l (- Z.of_nat l - 1) = 0.
Proof.
  intros l. unfold up. destruct (Z.leb_spec 1 (- Z.of_nat l - 1)); [lia|]. destruct (Z.eqb_spec (- Z.of_nat l - 1) 0); [lia|]. rewrite beta_bottom.
  destruct (Z.eqb_spec (- Z.of_nat l - 1) (-1)); [reflexivity|]. unfold Rdiv. ring.
Qed.

(** A sum with at most two terms. *)
Lemma rsum_one : forall n f (k : Z), (forall i, (i < n)%nat -> Z.of_nat i <> k -> f i = 0) ->
  rsum n f = if ((0 <=? k) && (k <? Z.of_nat n))%Z then f (Z.to_nat k) else 0.
Proof.
  intros n f k H. destruct (Z.leb_spec 0 k), (Z.ltb_spec k (Z.of_nat n)); cbn [andb].
  - apply rsum_single; [lia|]. intros i Hi N. apply H; lia.
  - apply rsum_zero. intros i Hi. apply H; lia.
  - apply rsum_zero. intros i Hi. apply H; lia.
  - apply rsum_zero. intros i Hi. apply H; lia.
Qed.

(** [f] is defined on orders. *)
Lemma gY_sum : forall l i (f : Z -> R), (i < 2 * l + 1)%nat ->
  rsum (2 * l + 1) (fun k => gY l i k * f (order l k)) = up l (order l i) * f (order l i + 1)%Z - up l (order l i - 1) * f (order l i - 1)%Z.
Proof.
  intros l i f Hi.
  transitivity (rsum (2 * l + 1) (fun k => if (S i =? k)%nat then up l (order l i) * f (order l k) else 0)
              + rsum (2 * l + 1) (fun k => if (i =? S k)%nat then - up l (order l k) * f (order l k) else 0)).
  { rewrite <- rsum_plus. apply rsum_ext. intros k _. unfold gY. destruct (Nat.eqb_spec (S i) k), (Nat.eqb_spec i (S k)); try lia; ring. }
  rewrite (rsum_one _ _ (Z.of_nat i + 1)), (rsum_one _ _ (Z.of_nat i - 1)).
  2:{ intros k _ N. destruct (Nat.eqb_spec i (S k)); [lia|reflexivity]. }
  2:{ intros k _ N. destruct (Nat.eqb_spec (S i) k); [lia|reflexivity]. }
  unfold Rminus. f_equal.
  - destruct (Z.leb_spec 0 (Z.of_nat i + 1)); [|lia]. destruct (Z.ltb_spec (Z.of_nat i + 1) (Z.of_nat (2 * l + 1))); cbn [andb].
    + replace (Z.to_nat (Z.of_nat i + 1)) with (S i) by lia. rewrite Nat.eqb_refl. do 2 f_equal. unfold order. lia.
    + replace (order l i) with (Z.of_nat l) by (unfold order; lia). rewrite up_top. ring.
  - destruct (Z.ltb_spec (Z.of_nat i - 1) (Z.of_nat (2 * l + 1))); [|lia]. rewrite andb_true_r. destruct (Z.leb_spec 0 (Z.of_nat i - 1)).
    + set (j := Z.to_nat (Z.of_nat i - 1)). destruct (Nat.eqb_spec i (S j)); [|lia]. replace (order l i - 1)%Z with (order l j) by (unfold order; lia). ring.
    + replace (order l i - 1)%Z with (- Z.of_nat l - 1)%Z by (unfold order; lia). rewrite up_bottom. ring.
Qed.

Lemma gZ_sum : forall l i (f : Z -> R), (i < 2 * l + 1)%nat ->
  rsum (2 * l + 1) (fun k => gZ l i k * f (order l k)) = - IZR (order l i) * f (- order l i)%Z.
Proof.
  intros l i f Hi. rewrite (rsum_single _ _ (2 * l - i)) by (lia || (intros k Hk N; unfold gZ; destruct (Nat.eqb_spec (i + k) (2 * l)); [lia|ring])).
  unfold gZ. destruct (Nat.eqb_spec (i + (2 * l - i)) (2 * l)); [|lia]. do 2 f_equal. unfold order. lia.
Qed.

Lemma lin_gsum : forall w n (c : nat -> R) (f : nat -> poly3), lin w (p3_sum n (fun j => p3_scal (c j) (f j))) = rsum n (fun j => c j * lin w (f j)).
Proof. intros. rewrite lin_sum. apply rsum_ext. intros. apply lin_scal. Qed.

Lemma field_Yy : forall l k, (k < 2 * l + 1)%nat -> field ay (Yi l k) == p3_sum (2 * l + 1) (fun j => p3_scal (gY l k j) (Yi l j)).
Proof.
  intros l k Hk. rewrite field_ay. unfold Yi at 1. rewrite turnY_Y by (apply order_bound; exact Hk). intros w. rewrite lin_gsum, lin_add, !lin_scal.
  unfold Yi. rewrite (gY_sum l k (fun m => lin w (spherical_harmonics_poly l m)) Hk). ring.
Qed.
Lemma field_Yz : forall l k, (k < 2 * l + 1)%nat -> field az (Yi l k) == p3_sum (2 * l + 1) (fun j => p3_scal (gZ l k j) (Yi l j)).
Proof.
  intros l k Hk. rewrite field_az. unfold Yi at 1. rewrite turnZ_Y by (apply order_bound; exact Hk). intros w. rewrite lin_gsum, !lin_scal.
  unfold Yi. rewrite (gZ_sum l k (fun m => lin w (spherical_harmonics_poly l m)) Hk). ring.
Qed.

(** Arrays given by a function of the orders. *)
Definition on_orders (l1 l2 l3 : nat) (C : Z -> Z -> Z -> R) (a b c : nat) : R := C (order l1 a) (order l2 b) (order l3 c).

Definition killed_y (l1 l2 l3 : nat) (C : Z -> Z -> Z -> R) : Prop := forall a b c, within l1 a -> within l2 b -> within l3 c ->
  up l1 a * C (a + 1)%Z b c - up l1 (a - 1) * C (a - 1)%Z b c + (up l2 b * C a (b + 1)%Z c - up l2 (b - 1) * C a (b - 1)%Z c)
  + (up l3 c * C a b (c + 1)%Z - up l3 (c - 1) * C a b (c - 1)%Z) = 0.
Definition killed_z (l1 l2 l3 : nat) (C : Z -> Z -> Z -> R) : Prop := forall a b c, within l1 a -> within l2 b -> within l3 c ->
  - IZR a * C (- a)%Z b c + - IZR b * C a (- b)%Z c + - IZR c * C a b (- c)%Z = 0.

Lemma fixed_ry : forall l1 l2 l3 C t, killed_y l1 l2 l3 C -> fixed_by l1 l2 l3 (on_orders l1 l2 l3 C) (ry t).
Proof.
  intros l1 l2 l3 C t K. apply (fixed_family l1 l2 l3 _ ay ry gY ry_der ry_rows ry_0 field_Yy). intros a b c Ha Hb Hc. unfold on_orders.
  rewrite (gY_sum l1 a (fun m => C m (order l2 b) (order l3 c))), (gY_sum l2 b (fun m => C (order l1 a) m (order l3 c))), (gY_sum l3 c (fun m => C (order l1 a) (order l2 b) m)) by assumption.
  apply K; now apply order_bound.
Qed.
Lemma fixed_rz : forall l1 l2 l3 C t, killed_z l1 l2 l3 C -> fixed_by l1 l2 l3 (on_orders l1 l2 l3 C) (rz t).
Proof.
  intros l1 l2 l3 C t K. apply (fixed_family l1 l2 l3 _ az rz gZ rz_der rz_rows rz_0 field_Yz). intros a b c Ha Hb Hc. unfold on_orders.
  rewrite (gZ_sum l1 a (fun m => C m (order l2 b) (order l3 c))), (gZ_sum l2 b (fun m => C (order l1 a) m (order l3 c))), (gZ_sum l3 c (fun m => C (order l1 a) (order l2 b) m)) by assumption.
  apply K; now apply order_bound.
Qed.

(** * Every rotation is a product of rotations about z, y and z *)
Lemma angle_exists : forall c s, c * c + s * s = 1 -> exists t, cos t = c /\ sin t = s.
Proof.
  intros c s H. assert (B : -1 <= c <= 1) by nra. destruct (Rle_lt_dec 0 s) as [P|P].
  - exists (acos c). split; [now apply cos_acos|]. rewrite sin_acos by exact B. replace (1 - Rsqr c) with (Rsqr s) by (unfold Rsqr; lra). now apply sqrt_Rsqr.
  - exists (- acos c). rewrite cos_neg, sin_neg. split; [now apply cos_acos|]. rewrite sin_acos by exact B. replace (1 - Rsqr c) with (Rsqr (- s)) by (unfold Rsqr; lra).
    rewrite sqrt_Rsqr by lra. ring.
Qed.

Lemma angle_of : forall x y, exists t r, 0 <= r /\ x = r * cos t /\ y = r * sin t.
Proof.
  intros x y. destruct (Req_dec (x * x + y * y) 0) as [Z|N].
  - exists 0, 0. assert (x = 0) by nra. assert (y = 0) by nra. subst. repeat split; lra.
  - set (r := sqrt (x * x + y * y)). assert (P : 0 < r) by (apply sqrt_lt_R0; nra). assert (Q : r * r = x * x + y * y) by (apply sqrt_sqrt; nra).
    destruct (angle_exists (x / r) (y / r)) as [t [E1 E2]].
    + replace (x / r * (x / r) + y / r * (y / r)) with ((x * x + y * y) / (r * r)) by (field; lra). rewrite Q. field. lra.
    + exists t, r. rewrite E1, E2. split; [lra|]. split; field; lra.
Qed.

Definition right_handed (M : nat -> nat -> R) : Prop :=
  M 0%nat 0%nat * (M 1%nat 1%nat * M 2%nat 2%nat - M 1%nat 2%nat * M 2%nat 1%nat) - M 0%nat 1%nat * (M 1%nat 0%nat * M 2%nat 2%nat - M 1%nat 2%nat * M 2%nat 0%nat)
  + M 0%nat 2%nat * (M 1%nat 0%nat * M 2%nat 1%nat - M 1%nat 1%nat * M 2%nat 0%nat) = 1.

Lemma mprod_assoc : forall A B C i j, mprod (mprod A B) C i j = mprod A (mprod B C) i j. Proof. intros. unfold mprod. ring. Qed.

Lemma sq3_zero : forall x y z, x * x + y * y + z * z = 0 -> x = 0 /\ y = 0 /\ z = 0.
Proof. intros x y z H. repeat split; nra. Qed.

Lemma zyz : forall M, orthonormal_rows M -> right_handed M -> exists a b c, forall i j, (i < 3)%nat -> (j < 3)%nat -> M i j = mprod (mprod (rz a) (ry b)) (rz c) i j.
Proof.
  intros M HO HR. unfold right_handed in HR.
  pose proof (HO 0%nat 0%nat ltac:(lia) ltac:(lia)) as O00. pose proof (HO 0%nat 1%nat ltac:(lia) ltac:(lia)) as O01. pose proof (HO 0%nat 2%nat ltac:(lia) ltac:(lia)) as O02.
  pose proof (HO 1%nat 1%nat ltac:(lia) ltac:(lia)) as O11. pose proof (HO 1%nat 2%nat ltac:(lia) ltac:(lia)) as O12. pose proof (HO 2%nat 2%nat ltac:(lia) ltac:(lia)) as O22.
  clear HO. unfold kron in *; cbn in O00, O01, O02, O11, O12, O22.
  remember (M 0%nat 0%nat) as m00 eqn:E00. remember (M 0%nat 1%nat) as m01 eqn:E01. remember (M 0%nat 2%nat) as m02 eqn:E02.
  remember (M 1%nat 0%nat) as m10 eqn:E10. remember (M 1%nat 1%nat) as m11 eqn:E11. remember (M 1%nat 2%nat) as m12 eqn:E12.
  remember (M 2%nat 0%nat) as m20 eqn:E20. remember (M 2%nat 1%nat) as m21 eqn:E21. remember (M 2%nat 2%nat) as m22 eqn:E22.
  destruct (angle_of m20 (- m21)) as [c [r [Hr [Hx Hy]]]].
  pose proof (sin2_cos2 c) as Sc. unfold Rsqr in Sc.
  destruct (angle_exists m22 r) as [b [Hb1 Hb2]].
  { assert (r * r = m20 * m20 + m21 * m21) by (replace m21 with (- (- m21)) by ring; rewrite Hx, Hy; transitivity (r * r * (sin c * sin c + cos c * cos c)); [rewrite Sc; ring|ring]). lra. }
  (* the second row is the vector product of the third and the first *)
  destruct (sq3_zero (m10 - (m21 * m02 - m22 * m01)) (m11 - (m22 * m00 - m20 * m02)) (m12 - (m20 * m01 - m21 * m00))) as [R0 [R1 R2]].
  { set (w := (m20 * m20 + m21 * m21 + m22 * m22) * (m00 * m00 + m01 * m01 + m02 * m02) - (m00 * m20 + m01 * m21 + m02 * m22) * (m00 * m20 + m01 * m21 + m02 * m22)).
    assert (W : w = 1) by (unfold w; rewrite O22, O00, O02; ring). set (d := m00 * (m11 * m22 - m12 * m21) - m01 * (m10 * m22 - m12 * m20) + m02 * (m10 * m21 - m11 * m20)) in *.
    transitivity ((m10 * m10 + m11 * m11 + m12 * m12) - 2 * d + w); [unfold w, d; ring|]. rewrite O11, HR, W. ring. }
  destruct (angle_exists (m00 * (cos b * cos c) - m01 * (cos b * sin c) - m02 * sin b) (- (m00 * sin c + m01 * cos c))) as [a [Ha1 Ha2]].
  { pose proof (sin2_cos2 b) as Sb. unfold Rsqr in Sb.
    assert (O : m00 * (sin b * cos c) - m01 * (sin b * sin c) + m02 * cos b = 0) by (rewrite Hb1, Hb2, <- O02; rewrite Hx; replace m21 with (- (- m21)) by ring; rewrite Hy; ring).
    transitivity ((m00 * m00 + m01 * m01 + m02 * m02) - (m00 * (sin b * cos c) - m01 * (sin b * sin c) + m02 * cos b) * (m00 * (sin b * cos c) - m01 * (sin b * sin c) + m02 * cos b)); [|rewrite O, O00; ring].
    assert (X : forall C S c' s', S * S + C * C = 1 -> s' * s' + c' * c' = 1 ->
      (m00 * (C * c') - m01 * (C * s') - m02 * S) * (m00 * (C * c') - m01 * (C * s') - m02 * S) + - (m00 * s' + m01 * c') * - (m00 * s' + m01 * c')
      = m00 * m00 + m01 * m01 + m02 * m02 - (m00 * (S * c') - m01 * (S * s') + m02 * C) * (m00 * (S * c') - m01 * (S * s') + m02 * C)).
    { intros C S c' s' H1 H2. apply Rminus_diag_uniq.
      transitivity ((m00 * m00 * c' * c' - 2 * m00 * m01 * c' * s' + m01 * m01 * s' * s' + m02 * m02) * (S * S + C * C - 1) + (m00 * m00 + m01 * m01) * (s' * s' + c' * c' - 1)); [ring|].
      rewrite H1, H2. ring. }
    now apply X. }
  exists a, b, c.
  assert (O : m00 * (sin b * cos c) - m01 * (sin b * sin c) + m02 * cos b = 0) by (rewrite Hb1, Hb2, <- O02; rewrite Hx; replace m21 with (- (- m21)) by ring; rewrite Hy; ring).
  pose proof (sin2_cos2 b) as Sb. unfold Rsqr in Sb.
  assert (Sc1 : cos c * cos c = 1 - sin c * sin c) by lra. assert (Sb1 : cos b * cos b = 1 - sin b * sin b) by lra.
  assert (M0 : m00 = cos a * (cos b * cos c) - sin a * sin c).
  { rewrite Ha1. replace (sin a) with (- (m00 * sin c + m01 * cos c)) by lra. apply Rminus_diag_uniq.
    transitivity ((m00 * (sin b * cos c) - m01 * (sin b * sin c) + m02 * cos b) * (sin b * cos c) + m00 * (1 - (sin c * sin c + cos c * cos c)) + (m00 * cos c * cos c - m01 * sin c * cos c) * (1 - (sin b * sin b + cos b * cos b))); [ring|].
    rewrite O, Sc, Sb. ring. }
  assert (M1 : m01 = - (cos a * (cos b * sin c)) - sin a * cos c).
  { rewrite Ha1. replace (sin a) with (- (m00 * sin c + m01 * cos c)) by lra. apply Rminus_diag_uniq.
    transitivity (- (m00 * (sin b * cos c) - m01 * (sin b * sin c) + m02 * cos b) * (sin b * sin c) + m01 * (1 - (sin c * sin c + cos c * cos c)) + (m01 * sin c * sin c - m00 * sin c * cos c) * (1 - (sin b * sin b + cos b * cos b))); [ring|].
    rewrite O, Sc, Sb. ring. }
  assert (M2 : m02 = - (cos a * sin b)).
  { rewrite Ha1. apply Rminus_diag_uniq.
    transitivity ((m00 * (sin b * cos c) - m01 * (sin b * sin c) + m02 * cos b) * cos b + m02 * (1 - (sin b * sin b + cos b * cos b))); [ring|]. rewrite O, Sb. ring. }
  assert (W0 : m20 = sin b * cos c) by (rewrite Hb2; exact Hx). assert (W1 : m21 = - (sin b * sin c)) by (rewrite Hb2; lra). assert (W2 : m22 = cos b) by lra.
  assert (N0 : m10 = sin a * (cos b * cos c) + cos a * sin c).
  { replace m10 with (m21 * m02 - m22 * m01) by lra. rewrite W1, W2, M1, M2. apply Rminus_diag_uniq. transitivity (cos a * sin c * (sin b * sin b + cos b * cos b - 1)); [ring|]. rewrite Sb. ring. }
  assert (N1 : m11 = - (sin a * (cos b * sin c)) + cos a * cos c).
  { replace m11 with (m22 * m00 - m20 * m02) by lra. rewrite W0, W2, M0, M2. apply Rminus_diag_uniq. transitivity (cos a * cos c * (sin b * sin b + cos b * cos b - 1)); [ring|]. rewrite Sb. ring. }
  assert (N2 : m12 = - (sin a * sin b)).
  { replace m12 with (m20 * m01 - m21 * m00) by lra. rewrite W0, W1, M0, M1. apply Rminus_diag_uniq. transitivity (- (sin a * sin b) * (sin c * sin c + cos c * cos c - 1)); [ring|]. rewrite Sc. ring. }
  intros i j Hi Hj. three i; three j; unfold mprod; cbn [rz ry]; (rewrite <- E00 || rewrite <- E01 || rewrite <- E02 || rewrite <- E10 || rewrite <- E11 || rewrite <- E12 || rewrite <- E20 || rewrite <- E21 || rewrite <- E22).
  - rewrite M0. ring.
  - rewrite M1. ring.
  - rewrite M2. ring.
  - rewrite N0. ring.
  - rewrite N1. ring.
  - rewrite N2. ring.
  - rewrite W0. ring.
  - rewrite W1. ring.
  - rewrite W2. ring.
Qed.

Lemma rows_prod : forall M N, orthonormal_rows M -> orthonormal_rows N -> orthonormal_rows (mprod M N).
Proof.
  intros M N HM HN i j Hi Hj. rewrite <- (HM i j Hi Hj). unfold mprod.
  pose proof (HN 0%nat 0%nat ltac:(lia) ltac:(lia)) as O00. pose proof (HN 0%nat 1%nat ltac:(lia) ltac:(lia)) as O01. pose proof (HN 0%nat 2%nat ltac:(lia) ltac:(lia)) as O02.
  pose proof (HN 1%nat 1%nat ltac:(lia) ltac:(lia)) as O11. pose proof (HN 1%nat 2%nat ltac:(lia) ltac:(lia)) as O12. pose proof (HN 2%nat 2%nat ltac:(lia) ltac:(lia)) as O22.
  unfold kron in *; cbn in O00, O01, O02, O11, O12, O22.
  set (x0 := M i 0%nat). set (x1 := M i 1%nat). set (x2 := M i 2%nat). set (y0 := M j 0%nat). set (y1 := M j 1%nat). set (y2 := M j 2%nat).
  transitivity (x0 * y0 * (N 0%nat 0%nat * N 0%nat 0%nat + N 0%nat 1%nat * N 0%nat 1%nat + N 0%nat 2%nat * N 0%nat 2%nat)
    + x1 * y1 * (N 1%nat 0%nat * N 1%nat 0%nat + N 1%nat 1%nat * N 1%nat 1%nat + N 1%nat 2%nat * N 1%nat 2%nat)
    + x2 * y2 * (N 2%nat 0%nat * N 2%nat 0%nat + N 2%nat 1%nat * N 2%nat 1%nat + N 2%nat 2%nat * N 2%nat 2%nat)
    + (x0 * y1 + x1 * y0) * (N 0%nat 0%nat * N 1%nat 0%nat + N 0%nat 1%nat * N 1%nat 1%nat + N 0%nat 2%nat * N 1%nat 2%nat)
    + (x0 * y2 + x2 * y0) * (N 0%nat 0%nat * N 2%nat 0%nat + N 0%nat 1%nat * N 2%nat 1%nat + N 0%nat 2%nat * N 2%nat 2%nat)
    + (x1 * y2 + x2 * y1) * (N 1%nat 0%nat * N 2%nat 0%nat + N 1%nat 1%nat * N 2%nat 1%nat + N 1%nat 2%nat * N 2%nat 2%nat)); [ring|].
  rewrite O00, O01, O02, O11, O12, O22. ring.
Qed.

Theorem fixed_rotations : forall l1 l2 l3 C M, killed_y l1 l2 l3 C -> killed_z l1 l2 l3 C -> orthonormal_rows M -> right_handed M -> fixed_by l1 l2 l3 (on_orders l1 l2 l3 C) M.
Proof.
  intros l1 l2 l3 C M KY KZ HO HR. destruct (zyz M HO HR) as [a [b [c E]]].
  apply (fixed_ext l1 l2 l3 _ (mprod (mprod (rz a) (ry b)) (rz c))); [intros; symmetry; now apply E|].
  apply fixed_prod; [apply rows_prod; [apply rz_rows|apply ry_rows]|apply rz_rows| |now apply fixed_rz]. apply fixed_prod; [apply rz_rows|apply ry_rows|now apply fixed_rz|now apply fixed_ry].
Qed.

(** The form in which couplings are used. *)
Lemma fixed_intertwines : forall l1 l2 l3 C M, orthonormal_rows M -> orthonormal_rows (mtrans M) -> fixed_by l1 l2 l3 C M ->
  forall a b c, (a < 2 * l1 + 1)%nat -> (b < 2 * l2 + 1)%nat -> (c < 2 * l3 + 1)%nat ->
  rsum (2 * l1 + 1) (fun a' => rsum (2 * l2 + 1) (fun b' => dmat M l1 a a' * dmat M l2 b b' * C a' b' c)) = rsum (2 * l3 + 1) (fun c' => C a b c' * dmat M l3 c' c).
Proof.
  intros l1 l2 l3 C M HO HT H a b c Ha Hb Hc.
  transitivity (rsum (2 * l3 + 1) (fun c' => moved (2 * l1 + 1) (2 * l2 + 1) (2 * l3 + 1) C (dmat M l1) (dmat M l2) (dmat M l3) a b c' * dmat M l3 c' c)).
  2:{ apply rsum_ext; intros c' Hc'. now rewrite (H a b c' Ha Hb Hc'). }
  unfold moved.
  transitivity (rsum (2 * l1 + 1) (fun a' => rsum (2 * l2 + 1) (fun b' => rsum (2 * l3 + 1) (fun c'' => rsum (2 * l3 + 1) (fun c' =>
     dmat M l1 a a' * dmat M l2 b b' * C a' b' c'' * (dmat M l3 c' c'' * dmat M l3 c' c)))))).
  - apply rsum_ext; intros a' _. apply rsum_ext; intros b' _.
    rewrite (rsum_ext _ _ (fun c'' => (dmat M l1 a a' * dmat M l2 b b' * C a' b' c'') * kron c'' c)) by (intros c'' Hc''; now rewrite rsum_scal_l, dmat_cols).
    symmetry. now apply (rsum_kron (2 * l3 + 1) (fun c'' => dmat M l1 a a' * dmat M l2 b b' * C a' b' c'')).
  - transitivity (rsum (2 * l1 + 1) (fun a' => rsum (2 * l3 + 1) (fun c' => rsum (2 * l2 + 1) (fun b' => rsum (2 * l3 + 1) (fun c'' => 
     dmat M l1 a a' * dmat M l2 b b' * C a' b' c'' * (dmat M l3 c' c'' * dmat M l3 c' c)))))).
    + apply rsum_ext; intros a' _. rewrite (rsum_swap (2 * l3 + 1) (2 * l2 + 1)). apply rsum_ext; intros b' _. apply rsum_swap.
    + rewrite rsum_swap. apply rsum_ext; intros c' _. rewrite <- rsum_scal_r. apply rsum_ext; intros a' _. rewrite <- rsum_scal_r. apply rsum_ext; intros b' _. rewrite <- rsum_scal_r.
      apply rsum_ext; intros c'' _. ring.
Qed.
