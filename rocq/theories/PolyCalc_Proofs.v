(** Polynomials as functions: partial derivatives, polynomials that vanish everywhere, powers of
    linear forms. *)
Require Import List Reals ZArith Bool Arith Lra Lia Setoid Morphisms Ring Field FunctionalExtensionality.
Require Import Verif.Base Verif.RSum Verif.Symbolic_Model Verif.Poly_Proofs Verif.PolyDiff_Proofs Verif.Harmonics_Proofs Verif.Harmonics_Basis_Proofs.
Import ListNotations.
Open Scope R_scope.

Definition put_at (i : nat) (v : R * R * R) (t : R) : R * R * R :=
  let '(x, y, z) := v in match i with O => (t, y, z) | 1%nat => (x, t, z) | _ => (x, y, t) end.
Definition get_at (i : nat) (v : R * R * R) : R :=
  let '(x, y, z) := v in match i with O => x | 1%nat => y | _ => z end.

Lemma put_get : forall i v, put_at i v (get_at i v) = v.
Proof. intros i [[x y] z]. destruct i as [|[|i]]; reflexivity. Qed.

Lemma peval_peq : forall p q v, p == q -> peval p v = peval q v. Proof. intros p q v H. apply H. Qed.

Lemma peval_pvar : forall j v, (j < 3)%nat -> peval (pvar j) v = get_at j v.
Proof.
  intros j [[x y] z] Hj. destruct j as [|[|[|j]]]; try lia; cbn [pvar get_at]; [apply peval_x|apply peval_y|apply peval_z].
Qed.

Lemma get_put : forall i j v t, (i < 3)%nat -> (j < 3)%nat -> get_at j (put_at i v t) = if Nat.eq_dec i j then t else get_at j v.
Proof. intros i j [[x y] z] t Hi Hj. destruct i as [|[|[|i]]]; try lia; destruct j as [|[|[|j]]]; try lia; reflexivity. Qed.

Lemma peval_derivative : forall i p v, (i < 3)%nat ->
  derivable_pt_lim (fun t => peval p (put_at i v t)) (get_at i v) (peval (pd i p) v).
Proof.
  intros i p v Hi. revert p.
  apply (poly_ind (fun p => derivable_pt_lim (fun t => peval p (put_at i v t)) (get_at i v) (peval (pd i p) v))).
  - intros p q E H. replace (fun t => peval q (put_at i v t)) with (fun t => peval p (put_at i v t)) by (apply functional_extensionality; intros t; apply E).
    replace (peval (pd i q) v) with (peval (pd i p) v); [exact H|]. apply peval_peq. now rewrite E.
  - intros p q Hp Hq. replace (peval (pd i (p3_add p q)) v) with (peval (pd i p) v + peval (pd i q) v)
      by (rewrite <- peval_add; apply peval_peq; now rewrite pd_add).
    replace (fun t => peval (p3_add p q) (put_at i v t)) with (fun t => peval p (put_at i v t) + peval q (put_at i v t))
      by (apply functional_extensionality; intros t; now rewrite peval_add).
    apply (derivable_pt_lim_plus (fun t => peval p (put_at i v t)) (fun t => peval q (put_at i v t))); assumption.
  - intros c p Hp. replace (peval (pd i (p3_scal c p)) v) with (c * peval (pd i p) v) by (rewrite <- peval_scal; apply peval_peq; now rewrite pd_scal).
    replace (fun t => peval (p3_scal c p) (put_at i v t)) with (fun t => c * peval p (put_at i v t))
      by (apply functional_extensionality; intros t; now rewrite peval_scal).
    apply (derivable_pt_lim_scal (fun t => peval p (put_at i v t))); assumption.
  - replace (peval (pd i pone) v) with 0 by (symmetry; apply (peval_peq _ pzero v (pd_one i))).
    replace (fun t => peval pone (put_at i v t)) with (fun _ : R => 1) by (apply functional_extensionality; intros t; unfold pone; now rewrite peval_const).
    apply (derivable_pt_lim_const 1).
  - intros j p Hj Hp.
    replace (peval (pd i (p3_mul (pvar j) p)) v) with (kron i j * peval p (put_at i v (get_at i v)) + get_at j (put_at i v (get_at i v)) * peval (pd i p) v).
    2: { rewrite put_get, <- (peval_pvar j v Hj). rewrite <- (peval_const (kron i j) v) at 1. rewrite <- !peval_mul, <- peval_add. apply peval_peq.
         rewrite pd_mul, pd_var by assumption. reflexivity. }
    replace (fun t => peval (p3_mul (pvar j) p) (put_at i v t)) with (fun t => get_at j (put_at i v t) * peval p (put_at i v t))
      by (apply functional_extensionality; intros t; now rewrite peval_mul, peval_pvar).
    apply (derivable_pt_lim_mult (fun t => get_at j (put_at i v t)) (fun t => peval p (put_at i v t))); [|exact Hp].
    unfold kron. replace (fun t => get_at j (put_at i v t)) with (fun t => if Nat.eq_dec i j then t else get_at j v)
      by (apply functional_extensionality; intros t; symmetry; now apply get_put).
    destruct (Nat.eq_dec i j); [apply derivable_pt_lim_id|apply (derivable_pt_lim_const (get_at j v))].
Qed.

(** A polynomial that vanishes everywhere is zero. *)
Lemma peval_zero : forall q, (forall v, peval q v = 0) -> q == pzero.
Proof.
  intros q H. apply fischer_definite. intros p. revert q H.
  apply (poly_ind (fun p => forall q, (forall v, peval q v = 0) -> fischer p q = 0) ); intros.
  - rewrite <- H. now apply H0.
  - rewrite fischer_add_l, H, H0 by assumption. ring.
  - rewrite fischer_scal_l, H by assumption. ring.
  - change pone with (mono (0, 0, 0)%nat). rewrite fischer_mono, coef_lin. specialize (H (0, 0, 0)). unfold peval in H.
    rewrite (lin_ext (delta (0, 0, 0)%nat) (mono_at (0, 0, 0))); [rewrite H; ring|].
    intros [[a b] c]. unfold delta, mono_at. destruct (key3_eq (a, b, c) (0, 0, 0)%nat) as [E|E].
    + injection E as -> -> ->. cbn. ring.
    + destruct a as [|a]; [destruct b as [|b]; [destruct c as [|c]; [congruence|]|]|]; cbn [pow]; ring.
  - rewrite fischer_var by assumption. apply H0. intros v.
    pose proof (peval_derivative i q v H) as D.
    replace (fun t => peval q (put_at i v t)) with (fun _ : R => 0) in D by (apply functional_extensionality; intros; now rewrite H1).
    exact (uniqueness_limite _ _ _ _ D (derivable_pt_lim_const 0 _)).
Qed.

Lemma peval_nonzero : forall q, ~ q == pzero -> exists v, peval q v <> 0.
Proof.
  intros q H. destruct (Classical_Prop.classic (exists v, peval q v <> 0)) as [E|E]; [exact E|]. exfalso. apply H, peval_zero.
  intros v. destruct (Req_dec (peval q v) 0) as [Z|Z]; [exact Z|]. exfalso. apply E. now exists v.
Qed.

(** The linear form with coefficients w. *)
Definition form (w : R * R * R) : poly3 :=
  let '(a, b, c) := w in p3_add (p3_add (p3_scal a p3_x) (p3_scal b p3_y)) (p3_scal c p3_z).

Lemma peval_form : forall w v, peval (form w) v = get_at 0 w * get_at 0 v + get_at 1 w * get_at 1 v + get_at 2 w * get_at 2 v.
Proof. intros [[a b] c] [[x y] z]. unfold form. rewrite !peval_add, !peval_scal, peval_x, peval_y, peval_z. reflexivity. Qed.

Lemma fischer_form : forall l w q, hom l q -> fischer (p3_pow (form w) l) q = INR (fact l) * peval q w.
Proof.
  intros l w. induction l as [|l IH]; intros q [q' [E Hq]]; rewrite E.
  - change (p3_pow (form w) 0) with (mono (0, 0, 0)%nat). rewrite fischer_mono, coef_lin. unfold peval.
    cbn [fact]. change (INR 1) with 1. cbn [kfact fact]. change (INR 1) with 1.
    assert (E2 : lin (delta (0, 0, 0)%nat) q' = lin (mono_at w) q').
    { apply lin_ext_in. intros k Hk. apply in_map_iff in Hk as [t [<- Ht]]. specialize (Hq t Ht). destruct t as [c0 [[a b] c]]. cbn in Hq.
      assert (a = 0%nat /\ b = 0%nat /\ c = 0%nat) as [-> [-> ->]] by lia. unfold delta, mono_at. destruct w as [[w1 w2] w3]. cbn. ring. }
    rewrite E2. ring.
  - rewrite ppow_S. destruct w as [[a b] c]. unfold form at 1.
    transitivity (a * fischer (p3_mul (pvar 0) (p3_pow (form (a, b, c)) l)) q' + b * fischer (p3_mul (pvar 1) (p3_pow (form (a, b, c)) l)) q'
        + c * fischer (p3_mul (pvar 2) (p3_pow (form (a, b, c)) l)) q').
    { rewrite <- !fischer_scal_l, <- !fischer_add_l. apply fischer_proper; [|reflexivity]. unfold pvar. rewrite !scal_mul. ring. }
    rewrite !fischer_var by lia. rewrite !IH by (now apply homogeneous_pd).
    pose proof (peval_peq _ _ (a, b, c) (euler (S l) q' Hq)) as EU.
    rewrite peval_scal, !peval_add, !peval_mul, peval_x, peval_y, peval_z in EU.
    rewrite fact_simpl, mult_INR. transitivity (INR (fact l) * (INR (S l) * peval q' (a, b, c))); [|ring]. rewrite <- EU. ring.
Qed.

(** Substituting a matrix of rank one. *)
Definition rank1 (u w : R * R * R) : nat -> nat -> R := fun i j => get_at i u * get_at j w.

Lemma row_rank1 : forall u w i, row (rank1 u w) i == p3_scal (get_at i u) (form w).
Proof. intros u [[a b] c] i. unfold row, rank1, form. cbn [get_at]. rewrite !scal_mul, !const_mul. ring. Qed.

Lemma pow_scal : forall c p n, p3_pow (p3_scal c p) n == p3_scal (c ^ n) (p3_pow p n).
Proof.
  intros c p n. induction n as [|n IH]; [rewrite !ppow_0; cbn [pow]; now rewrite pscal_1|].
  rewrite !ppow_S, IH. cbn [pow]. rewrite !scal_mul, const_mul. ring.
Qed.

Lemma subst_rank1 : forall l u w p, homogeneous l p -> psubst (rank1 u w) p == p3_scal (peval p u) (p3_pow (form w) l).
Proof.
  intros l u w p Hp W. rewrite lin_scal. unfold psubst. rewrite lin_lift. unfold peval. rewrite <- lin_w_scal_r.
  apply lin_ext_in. intros k Hk. apply in_map_iff in Hk as [t [<- Ht]]. specialize (Hp t Ht). destruct t as [c0 [[a b] c]]. cbn [snd] in *. cbn in Hp. subst l.
  transitivity (lin W (p3_scal (mono_at u (a, b, c)) (p3_pow (form w) (a + b + c)))); [|now rewrite lin_scal].
  apply (fun (H : _ == _) => H W). rewrite !row_rank1, !pow_scal, !scal_mul, !ppow_add.
  unfold mono_at. destruct u as [[u1 u2] u3]. cbn [get_at]. rewrite !const_mul. ring.
Qed.

Lemma Yi_nonzero : forall l i, (i < 2 * l + 1)%nat -> ~ Yi l i == pzero.
Proof.
  intros l i Hi E. pose proof (fischer_Yi l i i Hi Hi) as H. rewrite E in H at 2. rewrite fischer_zero_r in H.
  unfold kron in H. destruct (Nat.eq_dec i i); [|congruence]. pose proof (ynorm_pos l). lra.
Qed.

(** Every entry of the substitution matrix is nonzero for some matrix. *)
Lemma dmat_nonzero : forall l i j, (i < 2 * l + 1)%nat -> (j < 2 * l + 1)%nat -> exists M, dmat M l i j <> 0.
Proof.
  intros l i j Hi Hj. destruct (peval_nonzero _ (Yi_nonzero l i Hi)) as [u Hu]. destruct (peval_nonzero _ (Yi_nonzero l j Hj)) as [w Hw].
  exists (rank1 u w). unfold dmat.
  assert (HY : forall k, (k < 2 * l + 1)%nat -> homogeneous l (Yi l k)) by (intros k Hk; apply homogeneous_Y, order_bound, Hk).
  rewrite (subst_rank1 l u w _ (HY i Hi)), fischer_scal_r, fischer_sym, fischer_form.
  - pose proof (ynorm_pos l). pose proof (INR_fact_neq l). unfold Rdiv. repeat apply Rmult_integral_contrapositive_currified; try assumption.
    apply Rinv_neq_0_compat. lra.
  - exists (Yi l j). split; [reflexivity|]. now apply HY.
Qed.
