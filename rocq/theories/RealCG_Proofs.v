(** Coefficients of real spherical harmonics: they are real, orthonormal and killed by the
    infinitesimal rotations. *)
Require Import List Reals ZArith Lra Lia Arith Bool Psatz.
Require Import Verif.Base Verif.RSum Verif.LUT_Model Verif.LUT_Spec Verif.Harmonics_Basis_Proofs Verif.Clebsch_Model Verif.Racah_Proofs Verif.Generators_Proofs Verif.Invariance_Proofs.
Import ListNotations.
Open Scope R_scope.

(** * Sums over orders *)
Definition zs (l : nat) (f : Z -> R) : R := rsum (2 * l + 1) (fun i => f (ord l i)).

Lemma zs_ext : forall l f g, (forall m, within l m -> f m = g m) -> zs l f = zs l g.
Proof. intros l f g H. apply rsum_ext. intros i Hi. apply H. now apply ord_within. Qed.
Lemma zs_plus : forall l f g, zs l (fun m => f m + g m) = zs l f + zs l g. Proof. intros. unfold zs. apply (rsum_plus _ (fun i => f (ord l i))). Qed.
Lemma zs_scal_l : forall l c f, zs l (fun m => c * f m) = c * zs l f. Proof. intros. unfold zs. apply (rsum_scal_l _ c (fun i => f (ord l i))). Qed.
Lemma zs_scal_r : forall l c f, zs l (fun m => f m * c) = zs l f * c. Proof. intros. unfold zs. apply (rsum_scal_r _ c (fun i => f (ord l i))). Qed.
Lemma zs_zero : forall l f, (forall m, within l m -> f m = 0) -> zs l f = 0.
Proof. intros. apply rsum_zero. intros i Hi. apply H. now apply ord_within. Qed.
Lemma zs_swap : forall l l' f, zs l (fun m => zs l' (fun m' => f m m')) = zs l' (fun m' => zs l (fun m => f m m')).
Proof. intros. unfold zs. apply rsum_swap. Qed.
Lemma zs_opp : forall l f, zs l f = zs l (fun m => f (- m)%Z).
Proof. intros l f. unfold zs. rewrite rsum_rev. apply rsum_ext. intros i Hi. f_equal. unfold ord. lia. Qed.

Lemma zs_single : forall l f m, within l m -> (forall x, within l x -> x <> m -> f x = 0) -> zs l f = f m.
Proof.
  intros l f m W H. unfold zs, within in *. rewrite (rsum_single _ _ (Z.to_nat (m + Z.of_nat l))).
  - f_equal. unfold ord. lia.
  - lia.
  - intros i Hi N. apply H; unfold ord; lia.
Qed.
Lemma zs_two : forall l f m, within l m -> (forall x, within l x -> x <> m -> x <> (- m)%Z -> f x = 0) -> zs l f = if (m =? 0)%Z then f 0%Z else f m + f (- m)%Z.
Proof.
  intros l f m W H. destruct (Z.eqb_spec m 0) as [->|N]; [apply zs_single; [exact W|intros; now apply H]|].
  transitivity (zs l (fun x => if (x =? m)%Z then f x else 0) + zs l (fun x => if (x =? m)%Z then 0 else f x)).
  - rewrite <- zs_plus. apply zs_ext. intros x _. destruct (Z.eqb_spec x m); ring.
  - rewrite (zs_single _ (fun x => if (x =? m)%Z then f x else 0) m), (zs_single _ (fun x => if (x =? m)%Z then 0 else f x) (- m)%Z); try assumption.
    + rewrite Z.eqb_refl. destruct (Z.eqb_spec (- m) m); [lia|reflexivity].
    + unfold within in *. lia.
    + intros x Wx Nx. destruct (Z.eqb_spec x m); [reflexivity|now apply H].
    + intros x Wx Nx. destruct (Z.eqb_spec x m); [congruence|reflexivity].
Qed.

(** * Signs *)
Definition sgz (m : Z) : R := if Z.even m then 1 else -1.
Lemma sgz_sqr : forall m, sgz m * sgz m = 1. Proof. intros. unfold sgz. destruct (Z.even m); ring. Qed.
Lemma sgz_add : forall a b, sgz (a + b) = sgz a * sgz b. Proof. intros. unfold sgz. rewrite Z.even_add. destruct (Z.even a), (Z.even b); cbn; ring. Qed.
Lemma sgz_opp : forall a, sgz (- a) = sgz a. Proof. intros. unfold sgz. now rewrite Z.even_opp. Qed.
Lemma sgz_sub : forall a b, sgz (a - b) = sgz a * sgz b. Proof. intros. unfold Z.sub. rewrite sgz_add, sgz_opp. reflexivity. Qed.
Lemma sgz_1 : sgz 1 = -1. Proof. reflexivity. Qed.
Lemma sgz_nat : forall n, sgz (Z.of_nat n) = (-1) ^ n.
Proof. induction n as [|n IH]; [reflexivity|]. rewrite Nat2Z.inj_succ. unfold Z.succ. rewrite sgz_add, IH, sgz_1. cbn [pow]. ring. Qed.
Lemma sgz_mod : forall m, (m mod 2 =? 0)%Z = Z.even m.
Proof. intros m. rewrite Zmod_even. destruct (Z.even m); reflexivity. Qed.

(** * Powers of the imaginary unit *)
Lemma mod4 : forall z, (z mod 4 = 0 \/ z mod 4 = 1 \/ z mod 4 = 2 \/ z mod 4 = 3)%Z.
Proof. intros z. pose proof (Z.mod_pos_bound z 4). lia. Qed.
Lemma i_pow_add : forall x y, i_pow (x + y) = c_mul (i_pow x) (i_pow y).
Proof.
  intros x y. unfold i_pow. rewrite Z.add_mod by lia.
  destruct (mod4 x) as [-> | [-> | [-> | ->]]], (mod4 y) as [-> | [-> | [-> | ->]]]; cbn; unfold c_mul; cbn; f_equal; ring.
Qed.
Lemma i_pow_opp : forall x, i_pow (- x) = conjugate (i_pow x).
Proof.
  intros x. unfold i_pow. replace (- x)%Z with (0 - x)%Z by lia. rewrite Zminus_mod.
  destruct (mod4 x) as [-> | [-> | [-> | ->]]]; cbn; unfold conjugate; cbn; f_equal; ring.
Qed.
Lemma i_pow_even : forall x, Z.even x = true -> snd (i_pow x) = 0.
Proof.
  intros x H. unfold i_pow. pose proof (Z.div_mod x 4 ltac:(lia)) as D. rewrite D in H. rewrite Z.even_add, Z.even_mul in H.
  destruct (mod4 x) as [E|[E|[E|E]]]; rewrite E in *; cbn in *; try reflexivity; discriminate.
Qed.
Lemma i_pow_unit : forall x, fst (i_pow x) * fst (i_pow x) + snd (i_pow x) * snd (i_pow x) = 1.
Proof. intros x. unfold i_pow. destruct (mod4 x) as [-> | [-> | [-> | ->]]]; cbn; ring. Qed.
Lemma fst_i_pow_S : forall x, fst (i_pow (x + 1)) = - snd (i_pow x).
Proof. intros x. rewrite i_pow_add. change (i_pow 1) with ((0, 1) : cplx). cbn. ring. Qed.
Lemma fst_i_pow_P : forall x, fst (i_pow (x - 1)) = snd (i_pow x).
Proof. intros x. unfold Z.sub. rewrite i_pow_add. change (i_pow (-1)) with ((0, -1) : cplx). cbn. ring. Qed.

(** * The change of basis *)
Definition sg (m : Z) : Z := if (m <? 0)%Z then 1%Z else 0%Z.
Definition ra (m : Z) : R := if (m <? 0)%Z then 1 / sqrt 2 else if (0 <? m)%Z then sgz m / sqrt 2 else 1 / 2.
Definition rb (m : Z) : R := if (m <? 0)%Z then - sgz m / sqrt 2 else if (0 <? m)%Z then 1 / sqrt 2 else 1 / 2.

Lemma ab_form : forall m, a_b m = (c_mul (i_pow (sg m)) (c_real (ra m)), c_mul (i_pow (sg m)) (c_real (rb m))).
Proof.
  intros m. unfold a_b, ra, rb, sg. rewrite sgz_mod. unfold sgz. pose proof (sqrt_lt_R0 2 ltac:(lra)).
  destruct (Z.ltb_spec m 0), (Z.ltb_spec 0 m), (Z.even m); try lia;
    [change (i_pow 1) with ((0, 1) : cplx)|change (i_pow 1) with ((0, 1) : cplx)|change (i_pow 0) with ((1, 0) : cplx)..]; unfold c_mul, c_real; cbn [fst snd];
    (apply f_equal2; apply f_equal2; field; lra).
Qed.

(** V j x: coefficient of the complex harmonic of order x in the real harmonic of order j, up to the factor i^(sg j). *)
Definition V (j x : Z) : R := (if (x =? j)%Z then ra j else 0) + (if (x =? - j)%Z then rb j else 0).

Lemma V_0 : forall x, V 0 x = if (x =? 0)%Z then 1 else 0.
Proof. intros x. unfold V, ra, rb. cbn. destruct (x =? 0)%Z; lra. Qed.
Lemma V_same : forall j, (j <> 0)%Z -> V j j = ra j.
Proof. intros j N. unfold V. rewrite Z.eqb_refl. destruct (Z.eqb_spec j (- j)); [lia|ring]. Qed.
Lemma V_opp : forall j, (j <> 0)%Z -> V j (- j) = rb j.
Proof. intros j N. unfold V. rewrite Z.eqb_refl. destruct (Z.eqb_spec (- j) j); [lia|ring]. Qed.
Lemma V_else : forall j x, x <> j -> x <> (- j)%Z -> V j x = 0.
Proof. intros j x N1 N2. unfold V. destruct (Z.eqb_spec x j), (Z.eqb_spec x (- j)); try contradiction. ring. Qed.
Lemma ra_pos : forall j, (0 < j)%Z -> ra j = sgz j / sqrt 2. Proof. intros j H. unfold ra. destruct (Z.ltb_spec j 0), (Z.ltb_spec 0 j); try lia; reflexivity. Qed.
Lemma rb_pos : forall j, (0 < j)%Z -> rb j = 1 / sqrt 2. Proof. intros j H. unfold rb. destruct (Z.ltb_spec j 0), (Z.ltb_spec 0 j); try lia; reflexivity. Qed.
Lemma ra_neg : forall j, (j < 0)%Z -> ra j = 1 / sqrt 2. Proof. intros j H. unfold ra. destruct (Z.ltb_spec j 0); try lia; reflexivity. Qed.
Lemma rb_neg : forall j, (j < 0)%Z -> rb j = - sgz j / sqrt 2. Proof. intros j H. unfold rb. destruct (Z.ltb_spec j 0); try lia; reflexivity. Qed.

Lemma zs_V : forall l j f, within l j -> zs l (fun x => V j x * f x) = ra j * f j + rb j * f (- j)%Z.
Proof.
  intros l j f W. rewrite (zs_two l _ j W) by (intros x _ N1 N2; rewrite V_else by assumption; ring).
  destruct (Z.eqb_spec j 0) as [->|N]; [|now rewrite V_same, V_opp].
  rewrite V_0. cbn. lra.
Qed.

Lemma sqrt2_sqr : sqrt 2 * sqrt 2 = 2. Proof. apply sqrt_sqrt. lra. Qed.
Lemma sqrt2_pos : 0 < sqrt 2. Proof. apply sqrt_lt_R0. lra. Qed.
Lemma half_sqr : 1 / sqrt 2 * (1 / sqrt 2) = 1 / 2.
Proof. pose proof sqrt2_pos. replace (1 / sqrt 2 * (1 / sqrt 2)) with (1 / (sqrt 2 * sqrt 2)) by (field; lra). now rewrite sqrt2_sqr. Qed.

(** Rows and columns are orthonormal. *)
Lemma V_rows : forall l j k, within l j -> within l k -> zs l (fun x => V j x * V k x) = if (j =? k)%Z then 1 else 0.
Proof.
  intros l j k Wj Wk. rewrite zs_V by exact Wj. pose proof half_sqr as Q. pose proof sqrt2_pos as P.
  destruct (Z.eqb_spec j k) as [<-|N].
  - destruct (Z.eq_dec j 0) as [->|N]; [rewrite !V_0; unfold ra, rb; cbn; lra|]. rewrite V_same, V_opp by exact N.
    destruct (Z_lt_le_dec 0 j).
    + rewrite ra_pos, rb_pos by lia. pose proof (sgz_sqr j). replace (sgz j / sqrt 2 * (sgz j / sqrt 2)) with (sgz j * sgz j * (1 / sqrt 2 * (1 / sqrt 2))) by (field; lra). rewrite H, Q. lra.
    + rewrite ra_neg, rb_neg by lia. pose proof (sgz_sqr j). replace (- sgz j / sqrt 2 * (- sgz j / sqrt 2)) with (sgz j * sgz j * (1 / sqrt 2 * (1 / sqrt 2))) by (field; lra). rewrite H, Q. lra.
  - destruct (Z.eq_dec j (- k)) as [E|N'].
    + assert (k <> 0)%Z by lia. rewrite E, V_opp by lia. rewrite Z.opp_involutive, V_same by lia. destruct (Z_lt_le_dec 0 k).
      * rewrite (ra_neg (- k)), (rb_neg (- k)), ra_pos, rb_pos by lia. rewrite sgz_opp. transitivity ((1 - sgz k * sgz k) * (1 / sqrt 2 * (1 / sqrt 2))); [field; lra|rewrite sgz_sqr; ring].
      * rewrite (ra_pos (- k)), (rb_pos (- k)), ra_neg, rb_neg by lia. rewrite sgz_opp. transitivity ((1 - sgz k * sgz k) * (1 / sqrt 2 * (1 / sqrt 2))); [field; lra|rewrite sgz_sqr; ring].
    + rewrite !V_else by lia. ring.
Qed.
Lemma V_cols : forall l x y, within l x -> within l y -> zs l (fun a => V a x * V a y) = if (x =? y)%Z then 1 else 0.
Proof.
  intros l x y Wx Wy. pose proof half_sqr as Q. pose proof sqrt2_pos as P.
  rewrite (zs_two l _ x Wx) by (intros a _ N1 N2; rewrite V_else by lia; ring).
  destruct (Z.eqb_spec x 0) as [->|N].
  - rewrite !V_0. rewrite (Z.eqb_sym y 0), Z.eqb_refl. ring.
  - rewrite V_same by exact N. replace (V (- x) x) with (rb (- x)) by (rewrite <- (V_opp (- x)) by lia; f_equal; lia).
    destruct (Z.eqb_spec x y) as [<-|N'].
    + rewrite V_same by exact N. replace (V (- x) x) with (rb (- x)) by (rewrite <- (V_opp (- x)) by lia; f_equal; lia).
      destruct (Z_lt_le_dec 0 x).
      * rewrite ra_pos, rb_neg by lia. rewrite sgz_opp. pose proof (sgz_sqr x).
        replace (sgz x / sqrt 2 * (sgz x / sqrt 2) + - sgz x / sqrt 2 * (- sgz x / sqrt 2)) with (2 * (sgz x * sgz x) * (1 / sqrt 2 * (1 / sqrt 2))) by (field; lra). rewrite H, Q. lra.
      * rewrite ra_neg, rb_pos by lia. lra.
    + destruct (Z.eq_dec y (- x)) as [->|N2].
      * rewrite V_opp, V_same by lia. destruct (Z_lt_le_dec 0 x).
        -- rewrite (ra_pos x), (rb_neg (- x)), (rb_pos x), (ra_neg (- x)) by lia. rewrite sgz_opp. field. lra.
        -- rewrite (ra_neg x), (rb_pos (- x)), (rb_neg x), (ra_pos (- x)) by lia. rewrite sgz_opp. field. lra.
      * rewrite !V_else by lia. ring.
Qed.

(** * The rotation about the y axis *)
Definition J (l : nat) (f : Z -> R) (x : Z) : R := / 2 * (beta l x * f (x + 1)%Z - beta l (x - 1) * f (x - 1)%Z).

Lemma J_adj : forall l f g, zs l (fun x => J l f x * g x) = - zs l (fun x => f x * J l g x).
Proof.
  intros l f g. pose proof (shift_sum l f g) as A. pose proof (shift_sum l g f) as B.
  assert (E1 : zs l (fun x => J l f x * g x) = / 2 * (rsum (2 * l + 1) (fun i => g (ord l i) * (beta l (ord l i) * f (ord l i + 1)%Z))
                 - rsum (2 * l + 1) (fun i => beta l (ord l i - 1) * f (ord l i - 1)%Z * g (ord l i)))).
  { unfold zs. rewrite <- rsum_minus, <- rsum_scal_l. apply rsum_ext; intros. unfold J. ring. }
  assert (E2 : zs l (fun x => f x * J l g x) = / 2 * (rsum (2 * l + 1) (fun i => f (ord l i) * (beta l (ord l i) * g (ord l i + 1)%Z))
                 - rsum (2 * l + 1) (fun i => beta l (ord l i - 1) * g (ord l i - 1)%Z * f (ord l i)))).
  { unfold zs. rewrite <- rsum_minus, <- rsum_scal_l. apply rsum_ext; intros. unfold J. ring. }
  rewrite E1, E2, A, B. ring.
Qed.

Lemma up_pos : forall l m, (1 <= m)%Z -> up l m = beta l m / 2. Proof. intros l m H. unfold up. destruct (Z.leb_spec 1 m); [reflexivity|lia]. Qed.
Lemma up_neg : forall l m, (m <= -2)%Z -> up l m = - (beta l m / 2).
Proof. intros l m H. unfold up. destruct (Z.leb_spec 1 m); [lia|]. destruct (Z.eqb_spec m 0); [lia|]. destruct (Z.eqb_spec m (-1)); [lia|reflexivity]. Qed.
Lemma up_0 : forall l, up l 0 = beta l 0 / sqrt 2. Proof. reflexivity. Qed.
Lemma up_m1 : forall l, up l (-1) = 0. Proof. reflexivity. Qed.

Lemma beta_shift : forall l m, beta l (- m) = beta l (m - 1).
Proof. intros. rewrite <- (beta_opp l (m - 1)). f_equal. lia. Qed.

Lemma V_at : forall j x, V j x = if (x =? j)%Z then (if (j =? 0)%Z then 1 else ra j) else if (x =? - j)%Z then rb j else 0.
Proof.
  intros j x. destruct (Z.eqb_spec x j) as [->|N].
  - destruct (Z.eqb_spec j 0) as [->|N]; [now rewrite V_0|now apply V_same].
  - destruct (Z.eqb_spec x (- j)) as [->|N']; [apply V_opp; lia|now apply V_else].
Qed.

Lemma V_turn : forall l j x, J l (V j) x = up l j * V (j + 1) x - up l (j - 1) * V (j - 1) x.
Proof.
  intros l j x. unfold J. pose proof sqrt2_pos as P. pose proof sqrt2_sqr as Q.
  assert (Hsq : / sqrt 2 = sqrt 2 / 2) by (replace (sqrt 2 / 2) with (sqrt 2 / (sqrt 2 * sqrt 2)) by (now rewrite Q); field; lra).
  destruct (Z_le_gt_dec 2 j) as [C1|C1]; [|destruct (Z.eq_dec j 1) as [C2|C2]; [|destruct (Z.eq_dec j 0) as [C3|C3]; [|destruct (Z.eq_dec j (-1)) as [C4|C4]]]].
  - rewrite !up_pos, !V_at by lia.
    destruct (Z.eqb_spec j 0); [lia|]. destruct (Z.eqb_spec (j + 1) 0); [lia|]. destruct (Z.eqb_spec (j - 1) 0); [lia|].
    rewrite !ra_pos, !rb_pos by lia. rewrite sgz_add, sgz_sub, sgz_1.
    destruct (Z.eqb_spec (x + 1) j) as [E1|E1], (Z.eqb_spec (x + 1) (- j)) as [E2|E2], (Z.eqb_spec (x - 1) j) as [E3|E3], (Z.eqb_spec (x - 1) (- j)) as [E4|E4],
      (Z.eqb_spec x (j + 1)), (Z.eqb_spec x (- (j + 1))), (Z.eqb_spec x (j - 1)), (Z.eqb_spec x (- (j - 1))); try lia; try (field; lra).
    + replace (j - 1)%Z with x by lia. field. lra.
    + replace (beta l x) with (beta l j) by (rewrite <- beta_opp; f_equal; lia). field. lra.
    + replace (beta l (x - 1)) with (beta l j) by (f_equal; lia). field. lra.
    + replace (beta l (x - 1)) with (beta l (j - 1)) by (rewrite <- beta_opp; f_equal; lia). field. lra.
  - subst j. change (1 - 1)%Z with 0%Z. change (1 + 1)%Z with 2%Z. rewrite up_pos, up_0, !V_at by lia. cbn [Z.eqb Z.opp]. rewrite !ra_pos, !rb_pos by lia. change (sgz 1) with (-1). change (sgz 2) with 1.
    destruct (Z.eqb_spec (x + 1) 1) as [E1|E1], (Z.eqb_spec (x + 1) (-1)) as [E2|E2], (Z.eqb_spec (x - 1) 1) as [E3|E3], (Z.eqb_spec (x - 1) (-1)) as [E4|E4],
      (Z.eqb_spec x 2), (Z.eqb_spec x (-2)), (Z.eqb_spec x 0); try lia; try (field; lra).
    + subst x. change (0 - 1)%Z with (-1)%Z. replace (beta l (-1)) with (beta l 0) by (rewrite <- beta_opp; f_equal; lia). unfold Rdiv. rewrite Hsq. field.
    + subst x. replace (beta l (-2)) with (beta l 1) by (rewrite <- beta_opp; f_equal; lia). field. lra.
    + subst x. change (2 - 1)%Z with 1%Z. field. lra.
  - subst j. change (0 - 1)%Z with (-1)%Z. change (0 + 1)%Z with 1%Z. rewrite up_0, up_m1, !V_at by lia. cbn [Z.eqb Z.opp]. rewrite !(ra_pos 1), !(rb_pos 1) by lia. change (sgz 1) with (-1).
    destruct (Z.eqb_spec (x + 1) 0) as [E1|E1], (Z.eqb_spec (x - 1) 0) as [E2|E2], (Z.eqb_spec x 1), (Z.eqb_spec x (-1)); try lia; try (field; lra).
    + subst x. replace (beta l (-1)) with (beta l 0) by (rewrite <- beta_opp; f_equal; lia). unfold Rdiv. rewrite Hsq. transitivity (/ 2 * beta l 0 * (/ 2 * (sqrt 2 * sqrt 2))); [rewrite Q; field|field].
    + subst x. change (1 - 1)%Z with 0%Z. unfold Rdiv. rewrite Hsq. transitivity (- / 2 * beta l 0 * (/ 2 * (sqrt 2 * sqrt 2))); [rewrite Q; field|field].
  - subst j. change (-1 + 1)%Z with 0%Z. change (-1 - 1)%Z with (-2)%Z. rewrite up_m1, up_neg, !V_at by lia. cbn [Z.eqb Z.opp]. rewrite !(ra_neg (-1)), !(rb_neg (-1)), !(ra_neg (-2)), !(rb_neg (-2)) by lia. change (sgz (-1)) with (-1). change (sgz (-2)) with 1.
    replace (beta l (-2)) with (beta l 1) by (rewrite <- beta_opp; f_equal; lia).
    destruct (Z.eqb_spec (x + 1) 1) as [E1|E1], (Z.eqb_spec (x + 1) (-1)) as [E2|E2], (Z.eqb_spec (x - 1) 1) as [E3|E3], (Z.eqb_spec (x - 1) (-1)) as [E4|E4],
      (Z.eqb_spec x 2), (Z.eqb_spec x (-2)); try lia; try (field; lra).
    + assert (x = 0)%Z by lia; subst x. change (0 - 1)%Z with (-1)%Z. replace (beta l (-1)) with (beta l 0) by (rewrite <- beta_opp; f_equal; lia). field. lra.
    + subst x. replace (beta l (-2)) with (beta l 1) by (rewrite <- beta_opp; f_equal; lia). field. lra.
    + subst x. change (2 - 1)%Z with 1%Z. field. lra.
  - assert (C5 : (j <= -2)%Z) by lia. rewrite !V_at. destruct (Z.eqb_spec j 0); [lia|]. destruct (Z.eqb_spec (j + 1) 0); [lia|]. destruct (Z.eqb_spec (j - 1) 0); [lia|].
    rewrite !ra_neg, !rb_neg by lia. rewrite !up_neg by lia. rewrite sgz_add, sgz_sub, sgz_1.
    destruct (Z.eqb_spec (x + 1) j) as [E1|E1], (Z.eqb_spec (x + 1) (- j)) as [E2|E2], (Z.eqb_spec (x - 1) j) as [E3|E3], (Z.eqb_spec (x - 1) (- j)) as [E4|E4],
      (Z.eqb_spec x (j + 1)), (Z.eqb_spec x (- (j + 1))), (Z.eqb_spec x (j - 1)), (Z.eqb_spec x (- (j - 1))); try lia; try (field; lra).
    + replace (j - 1)%Z with x by lia. field. lra.
    + replace (beta l x) with (beta l j) by (rewrite <- beta_opp; f_equal; lia). field. lra.
    + replace (beta l (x - 1)) with (beta l j) by (f_equal; lia). field. lra.
    + replace (beta l (x - 1)) with (beta l (j - 1)) by (rewrite <- beta_opp; f_equal; lia). field. lra.
Qed.

(** The rotation about the z axis. *)
Lemma V_z : forall j x, IZR x * V j x = - IZR (Z.abs j) * V (- j) x.
Proof.
  intros j x. pose proof sqrt2_pos as P. destruct (Z.eq_dec j 0) as [->|N].
  - cbn [Z.opp Z.abs]. rewrite !V_0. destruct (Z.eqb_spec x 0) as [->|]; lra.
  - rewrite !V_at. rewrite Z.opp_involutive. destruct (Z.eqb_spec j 0); [lia|]. destruct (Z.eqb_spec (- j) 0); [lia|].
    destruct (Z_lt_le_dec 0 j).
    + rewrite (ra_pos j), (rb_pos j), (ra_neg (- j)), (rb_neg (- j)), sgz_opp, Z.abs_eq by lia.
      destruct (Z.eqb_spec x j) as [E1|N1], (Z.eqb_spec x (- j)) as [E2|N2]; try lia; try subst x; rewrite ?opp_IZR; try (field; lra).
    + rewrite (ra_neg j), (rb_neg j), (ra_pos (- j)), (rb_pos (- j)), sgz_opp, Z.abs_neq by lia.
      destruct (Z.eqb_spec x j) as [E1|N1], (Z.eqb_spec x (- j)) as [E2|N2]; try lia; try subst x; rewrite ?opp_IZR; try (field; lra).
Qed.

(** Reversal of the order. *)
Definition sigma (j : Z) : R := sgz (sg j).
Lemma sigma_eq : forall j, sigma j = if (j <? 0)%Z then -1 else 1.
Proof. intros j. unfold sigma, sg. destruct (j <? 0)%Z; reflexivity. Qed.
Lemma V_rev : forall j x, V j (- x) = sgz x * sigma j * V j x.
Proof.
  intros j x. pose proof sqrt2_pos as P. rewrite sigma_eq, !V_at. destruct (Z.eqb_spec j 0) as [->|N].
  - cbn [Z.opp Z.ltb Z.compare]. destruct (Z.eqb_spec x 0) as [E|E], (Z.eqb_spec (- x) 0); try lia; [subst x; unfold sgz; cbn [Z.even]; ring|ring].
  - destruct (Z_lt_le_dec 0 j).
    + rewrite (ra_pos j), (rb_pos j) by lia. destruct (Z.ltb_spec j 0); [lia|]. pose proof (sgz_sqr j) as S.
      destruct (Z.eqb_spec (- x) j) as [E1|N1], (Z.eqb_spec (- x) (- j)) as [E2|N2], (Z.eqb_spec x j) as [E3|N3], (Z.eqb_spec x (- j)) as [E4|N4]; try lia.
      * replace (sgz x) with (sgz j) by (rewrite <- (sgz_opp x); f_equal; lia). field. lra.
      * subst x. replace (sgz j * 1 * (sgz j / sqrt 2)) with (sgz j * sgz j / sqrt 2) by (field; lra). now rewrite S.
      * ring.
    + rewrite (ra_neg j), (rb_neg j) by lia. destruct (Z.ltb_spec j 0); [|lia]. pose proof (sgz_sqr j) as S.
      destruct (Z.eqb_spec (- x) j) as [E1|N1], (Z.eqb_spec (- x) (- j)) as [E2|N2], (Z.eqb_spec x j) as [E3|N3], (Z.eqb_spec x (- j)) as [E4|N4]; try lia.
      * replace (sgz x) with (sgz j) by (rewrite <- (sgz_opp x); f_equal; lia). replace (sgz j * -1 * (- sgz j / sqrt 2)) with (sgz j * sgz j / sqrt 2) by (field; lra). now rewrite S.
      * subst x. field. lra.
      * ring.
Qed.

(** * Trilinear sums *)
Section Coupling.
Variables l1 l2 l3 : nat.
Notation cc := (complex_cg l1 l2 l3).

Definition tri (F : Z -> Z -> Z -> R) (f g h : Z -> R) : R := zs l1 (fun x => f x * zs l2 (fun y => g y * zs l3 (fun z => h z * F x y z))).

Lemma tri_flat : forall F f g h, tri F f g h = zs l1 (fun x => zs l2 (fun y => zs l3 (fun z => f x * g y * h z * F x y z))).
Proof.
  intros. unfold tri. apply zs_ext; intros x _. rewrite <- zs_scal_l. apply zs_ext; intros y _. rewrite <- !zs_scal_l. apply zs_ext; intros z _. ring.
Qed.
Lemma zs3_ext : forall F G, (forall x y z, within l1 x -> within l2 y -> within l3 z -> F x y z = G x y z) ->
  zs l1 (fun x => zs l2 (fun y => zs l3 (fun z => F x y z))) = zs l1 (fun x => zs l2 (fun y => zs l3 (fun z => G x y z))).
Proof. intros F G H. apply zs_ext; intros x Wx. apply zs_ext; intros y Wy. apply zs_ext; intros z Wz. now apply H. Qed.
Lemma zs3_plus : forall F G, zs l1 (fun x => zs l2 (fun y => zs l3 (fun z => F x y z + G x y z)))
  = zs l1 (fun x => zs l2 (fun y => zs l3 (fun z => F x y z))) + zs l1 (fun x => zs l2 (fun y => zs l3 (fun z => G x y z))).
Proof. intros. rewrite <- zs_plus. apply zs_ext; intros x _. rewrite <- zs_plus. apply zs_ext; intros y _. now rewrite <- zs_plus. Qed.
Lemma zs3_scal : forall c F, zs l1 (fun x => zs l2 (fun y => zs l3 (fun z => c * F x y z))) = c * zs l1 (fun x => zs l2 (fun y => zs l3 (fun z => F x y z))).
Proof. intros. rewrite <- zs_scal_l. apply zs_ext; intros x _. rewrite <- zs_scal_l. apply zs_ext; intros y _. now rewrite <- zs_scal_l. Qed.
Lemma zs3_zero : forall F, (forall x y z, within l1 x -> within l2 y -> within l3 z -> F x y z = 0) -> zs l1 (fun x => zs l2 (fun y => zs l3 (fun z => F x y z))) = 0.
Proof. intros F H. apply zs_zero; intros x Wx. apply zs_zero; intros y Wy. apply zs_zero; intros z Wz. now apply H. Qed.

Lemma tri_ext_f : forall F f f' g h, (forall x, f x = f' x) -> tri F f g h = tri F f' g h.
Proof. intros F f f' g h E. unfold tri. apply zs_ext; intros x _. now rewrite E. Qed.

Definition T (a b c : Z) : R := tri cc (V a) (V b) (V c).

Lemma adj1 : forall f g h, tri cc (J l1 f) g h = - tri (fun x y z => J l1 (fun x' => cc x' y z) x) f g h.
Proof.
  intros f g h. unfold tri. rewrite J_adj. f_equal. apply zs_ext; intros x _. f_equal. unfold J.
  replace (/ 2 * (beta l1 x * zs l2 (fun y => g y * zs l3 (fun z => h z * cc (x + 1) y z)) - beta l1 (x - 1) * zs l2 (fun y => g y * zs l3 (fun z => h z * cc (x - 1) y z))))
    with (/ 2 * beta l1 x * zs l2 (fun y => g y * zs l3 (fun z => h z * cc (x + 1) y z)) + - / 2 * beta l1 (x - 1) * zs l2 (fun y => g y * zs l3 (fun z => h z * cc (x - 1) y z))) by ring.
  rewrite <- !zs_scal_l, <- zs_plus. apply zs_ext; intros y _.
  replace (/ 2 * beta l1 x * (g y * zs l3 (fun z => h z * cc (x + 1) y z)) + - / 2 * beta l1 (x - 1) * (g y * zs l3 (fun z => h z * cc (x - 1) y z)))
    with (g y * (/ 2 * beta l1 x * zs l3 (fun z => h z * cc (x + 1) y z) + - / 2 * beta l1 (x - 1) * zs l3 (fun z => h z * cc (x - 1) y z))) by ring.
  f_equal. rewrite <- !zs_scal_l, <- zs_plus. apply zs_ext; intros z _. ring.
Qed.
Lemma adj2 : forall f g h, tri cc f (J l2 g) h = - tri (fun x y z => J l2 (fun y' => cc x y' z) y) f g h.
Proof.
  intros f g h. unfold tri. replace (- zs l1 (fun x => f x * zs l2 (fun y => g y * zs l3 (fun z => h z * J l2 (fun y' => cc x y' z) y))))
    with (-1 * zs l1 (fun x => f x * zs l2 (fun y => g y * zs l3 (fun z => h z * J l2 (fun y' => cc x y' z) y)))) by ring.
  rewrite <- zs_scal_l. apply zs_ext; intros x _. rewrite J_adj.
  replace (-1 * (f x * zs l2 (fun y => g y * zs l3 (fun z => h z * J l2 (fun y' => cc x y' z) y)))) with (f x * - zs l2 (fun y => g y * zs l3 (fun z => h z * J l2 (fun y' => cc x y' z) y))) by ring.
  f_equal. f_equal. apply zs_ext; intros y _. f_equal. unfold J.
  replace (/ 2 * (beta l2 y * zs l3 (fun z => h z * cc x (y + 1) z) - beta l2 (y - 1) * zs l3 (fun z => h z * cc x (y - 1) z)))
    with (/ 2 * beta l2 y * zs l3 (fun z => h z * cc x (y + 1) z) + - / 2 * beta l2 (y - 1) * zs l3 (fun z => h z * cc x (y - 1) z)) by ring.
  rewrite <- !zs_scal_l, <- zs_plus. apply zs_ext; intros z _. ring.
Qed.
Lemma adj3 : forall f g h, tri cc f g (J l3 h) = - tri (fun x y z => J l3 (fun z' => cc x y z') z) f g h.
Proof.
  intros f g h. unfold tri. replace (- zs l1 (fun x => f x * zs l2 (fun y => g y * zs l3 (fun z => h z * J l3 (fun z' => cc x y z') z))))
    with (-1 * zs l1 (fun x => f x * zs l2 (fun y => g y * zs l3 (fun z => h z * J l3 (fun z' => cc x y z') z)))) by ring.
  rewrite <- zs_scal_l. apply zs_ext; intros x _.
  replace (-1 * (f x * zs l2 (fun y => g y * zs l3 (fun z => h z * J l3 (fun z' => cc x y z') z)))) with (f x * (-1 * zs l2 (fun y => g y * zs l3 (fun z => h z * J l3 (fun z' => cc x y z') z)))) by ring.
  f_equal. rewrite <- zs_scal_l. apply zs_ext; intros y _. rewrite (J_adj l3 h (fun z' => cc x y z')). ring.
Qed.

Lemma tri_turn : forall f g h, tri cc (J l1 f) g h + tri cc f (J l2 g) h + tri cc f g (J l3 h) = 0.
Proof.
  intros f g h. rewrite adj1, adj2, adj3, !tri_flat.
  assert (E : zs l1 (fun x => zs l2 (fun y => zs l3 (fun z => f x * g y * h z * J l1 (fun x' => cc x' y z) x)))
    + zs l1 (fun x => zs l2 (fun y => zs l3 (fun z => f x * g y * h z * J l2 (fun y' => cc x y' z) y)))
    + zs l1 (fun x => zs l2 (fun y => zs l3 (fun z => f x * g y * h z * J l3 (fun z' => cc x y z') z))) = 0); [|lra].
  rewrite <- !zs3_plus. apply zs3_zero. intros x y z Wx Wy Wz. unfold J.
  pose proof (cc_raise l1 l2 l3 x y z Wx Wy Wz) as R. pose proof (cc_lower l1 l2 l3 x y z Wx Wy Wz) as L.
  transitivity (f x * g y * h z * / 2 * ((beta l1 x * cc (x + 1)%Z y z + beta l2 y * cc x (y + 1)%Z z - beta l3 (z - 1) * cc x y (z - 1)%Z)
     - (beta l1 (x - 1) * cc (x - 1)%Z y z + beta l2 (y - 1) * cc x (y - 1)%Z z - beta l3 z * cc x y (z + 1)%Z))); [ring|].
  rewrite R, L. ring.
Qed.

Lemma tri_lin1 : forall F u v f f' g h, tri F (fun x => u * f x - v * f' x) g h = u * tri F f g h - v * tri F f' g h.
Proof. intros. unfold Rminus. rewrite Ropp_mult_distr_l. unfold tri. rewrite <- !zs_scal_l, <- zs_plus. apply zs_ext; intros x _. ring. Qed.
Lemma tri_lin2 : forall F u v f g g' h, tri F f (fun x => u * g x - v * g' x) h = u * tri F f g h - v * tri F f g' h.
Proof.
  intros. unfold Rminus. rewrite Ropp_mult_distr_l. unfold tri. rewrite <- !zs_scal_l, <- zs_plus. apply zs_ext; intros x _.
  match goal with |- ?a * zs _ _ = _ => transitivity (a * (u * zs l2 (fun y => g y * zs l3 (fun z => h z * F x y z)) + - v * zs l2 (fun y => g' y * zs l3 (fun z => h z * F x y z)))) end; [|ring].
  f_equal. rewrite <- !zs_scal_l, <- zs_plus. apply zs_ext; intros y _. ring.
Qed.
Lemma tri_lin3 : forall F u v f g h h', tri F f g (fun x => u * h x - v * h' x) = u * tri F f g h - v * tri F f g h'.
Proof.
  intros. unfold Rminus. rewrite Ropp_mult_distr_l. unfold tri. rewrite <- !zs_scal_l, <- zs_plus. apply zs_ext; intros x _.
  transitivity (f x * (u * zs l2 (fun y => g y * zs l3 (fun z => h z * F x y z)) + - v * zs l2 (fun y => g y * zs l3 (fun z => h' z * F x y z)))); [|ring].
  f_equal. rewrite <- !zs_scal_l, <- zs_plus. apply zs_ext; intros y _.
  transitivity (g y * (u * zs l3 (fun z => h z * F x y z) + - v * zs l3 (fun z => h' z * F x y z))); [|ring].
  f_equal. rewrite <- !zs_scal_l, <- zs_plus. apply zs_ext; intros z _. ring.
Qed.
Lemma tri_ext : forall F f f' g g' h h', (forall x, f x = f' x) -> (forall x, g x = g' x) -> (forall x, h x = h' x) -> tri F f g h = tri F f' g' h'.
Proof.
  intros F f f' g g' h h' E1 E2 E3. unfold tri. apply zs_ext; intros x _. rewrite E1. f_equal. apply zs_ext; intros y _. rewrite E2. f_equal. apply zs_ext; intros z _. now rewrite E3.
Qed.

Lemma T_y : forall a b c,
  up l1 a * T (a + 1) b c - up l1 (a - 1) * T (a - 1) b c + (up l2 b * T a (b + 1) c - up l2 (b - 1) * T a (b - 1) c)
  + (up l3 c * T a b (c + 1) - up l3 (c - 1) * T a b (c - 1)) = 0.
Proof.
  intros a b c. pose proof (tri_turn (V a) (V b) (V c)) as H.
  rewrite (tri_ext cc (J l1 (V a)) (fun x => up l1 a * V (a + 1) x - up l1 (a - 1) * V (a - 1) x) (V b) (V b) (V c) (V c)) in H by (reflexivity || apply V_turn).
  rewrite (tri_ext cc (V a) (V a) (J l2 (V b)) (fun x => up l2 b * V (b + 1) x - up l2 (b - 1) * V (b - 1) x) (V c) (V c)) in H by (reflexivity || apply V_turn).
  rewrite (tri_ext cc (V a) (V a) (V b) (V b) (J l3 (V c)) (fun x => up l3 c * V (c + 1) x - up l3 (c - 1) * V (c - 1) x)) in H by (reflexivity || apply V_turn).
  rewrite tri_lin1, tri_lin2, tri_lin3 in H. exact H.
Qed.

Lemma T_z : forall a b c, IZR (Z.abs a) * T (- a) b c + IZR (Z.abs b) * T a (- b) c - IZR (Z.abs c) * T a b (- c) = 0.
Proof.
  intros a b c. unfold T. rewrite !tri_flat.
  assert (E : zs l1 (fun x => zs l2 (fun y => zs l3 (fun z => IZR (Z.abs a) * (V (- a) x * V b y * V c z * cc x y z) + IZR (Z.abs b) * (V a x * V (- b) y * V c z * cc x y z)
      + - IZR (Z.abs c) * (V a x * V b y * V (- c) z * cc x y z)))) = 0).
  - apply zs3_zero. intros x y z _ _ _.
    transitivity ((- (IZR x * V a x) * V b y * V c z + V a x * - (IZR y * V b y) * V c z + V a x * V b y * (IZR z * V c z)) * cc x y z); [rewrite !V_z; ring|].
    destruct (Z.eq_dec (x + y) z) as [<-|N]; [rewrite plus_IZR; ring|rewrite cc_select by exact N; ring].
  - rewrite !zs3_plus, !zs3_scal in E. lra.
Qed.

Lemma T_rev : forall a b c, T a b c = sgz (Z.of_nat l1 + Z.of_nat l2 - Z.of_nat l3 + sg a + sg b - sg c) * T a b c.
Proof.
  intros a b c. unfold T. rewrite tri_flat at 1.
  transitivity (zs l1 (fun x => zs l2 (fun y => zs l3 (fun z => V a (- x) * V b (- y) * V c (- z) * cc (- x) (- y) (- z))))).
  - rewrite zs_opp. apply zs_ext; intros x _. rewrite zs_opp. apply zs_ext; intros y _. now rewrite zs_opp.
  - rewrite tri_flat, <- zs3_scal. apply zs3_ext. intros x y z _ _ _. rewrite cc_opp, !V_rev, <- sgz_nat, !Nat2Z.inj_add.
    destruct (Z.eq_dec (x + y) z) as [<-|N]; [|rewrite cc_select by exact N; ring].
    rewrite !sgz_sub, !sgz_add, sgz_sub. rewrite !sgz_add. unfold sigma. pose proof (sgz_sqr x) as Sx. pose proof (sgz_sqr y) as Sy.
    set (u := sgz x) in *. set (v := sgz y) in *.
    match goal with |- ?lhs = ?rhs => transitivity ((u * u) * (v * v) * rhs) end; [ring|]. rewrite Sx, Sy. ring.
Qed.

(** * The model *)
Definition phase (a b c : Z) : Z := (Z.of_nat l1 + Z.of_nat l2 - Z.of_nat l3 + sg a + sg b - sg c)%Z.

Lemma cg_form : forall a b c, within l1 a -> within l2 b -> within l3 c ->
  clebsch_gordan_complex l1 a l2 b l3 c = c_mul (i_pow (phase a b c)) (c_real (T a b c)).
Proof.
  intros a b c Wa Wb Wc. unfold phase. replace (Z.of_nat l1 + Z.of_nat l2 - Z.of_nat l3 + sg a + sg b - sg c)%Z with ((Z.of_nat l1 + Z.of_nat l2 - Z.of_nat l3) + (sg a + (sg b + - sg c)))%Z by lia.
  rewrite !i_pow_add, i_pow_opp. unfold clebsch_gordan_complex. rewrite !ab_form.
  assert (E : T a b c = ra a * (ra b * (ra c * cc a b c + rb c * cc a b (- c)%Z) + rb b * (ra c * cc a (- b)%Z c + rb c * cc a (- b)%Z (- c)%Z))
      + rb a * (ra b * (ra c * cc (- a)%Z b c + rb c * cc (- a)%Z b (- c)%Z) + rb b * (ra c * cc (- a)%Z (- b)%Z c + rb c * cc (- a)%Z (- b)%Z (- c)%Z))).
  { assert (E3 : forall x y, zs l3 (fun z => V c z * cc x y z) = ra c * cc x y c + rb c * cc x y (- c)%Z) by (intros x y; exact (zs_V l3 c (cc x y) Wc)).
    assert (E2 : forall x, zs l2 (fun y => V b y * zs l3 (fun z => V c z * cc x y z))
      = ra b * (ra c * cc x b c + rb c * cc x b (- c)%Z) + rb b * (ra c * cc x (- b)%Z c + rb c * cc x (- b)%Z (- c)%Z)).
    { intros x. rewrite (zs_V l2 b (fun y => zs l3 (fun z => V c z * cc x y z)) Wb), !E3. reflexivity. }
    unfold T, tri. rewrite (zs_V l1 a (fun x => zs l2 (fun y => V b y * zs l3 (fun z => V c z * cc x y z))) Wa), !E2. reflexivity. }
  rewrite E. destruct (i_pow (Z.of_nat l1 + Z.of_nat l2 - Z.of_nat l3)) as [p q], (i_pow (sg a)) as [ap aq], (i_pow (sg b)) as [bp bq], (i_pow (sg c)) as [cp cq].
  unfold c_mul, c_add, c_real, conjugate. cbn [fst snd]. apply f_equal2; ring.
Qed.

Lemma T_odd : forall a b c, Z.even (phase a b c) = false -> T a b c = 0.
Proof. intros a b c H. pose proof (T_rev a b c) as E. fold (phase a b c) in E. unfold sgz in E. rewrite H in E. lra. Qed.

Theorem cg_real : forall a b c, within l1 a -> within l2 b -> within l3 c -> snd (clebsch_gordan_complex l1 a l2 b l3 c) = 0.
Proof.
  intros a b c Wa Wb Wc. rewrite cg_form by assumption. unfold c_mul, c_real. cbn [fst snd].
  destruct (Z.even (phase a b c)) eqn:H; [rewrite i_pow_even by exact H; ring|rewrite (T_odd a b c H); ring].
Qed.

Definition rcg (a b c : Z) : R := real_clebsch_gordan (l1, a, l2, b, l3, c).

(** On orders beyond the degree, the model of the coefficient still has the same form only if those are not used; [RC] extends it. *)
Definition RC (a b c : Z) : R := fst (i_pow (phase a b c)) * T a b c.
Lemma rcg_RC : forall a b c, within l1 a -> within l2 b -> within l3 c -> rcg a b c = RC a b c.
Proof. intros a b c Wa Wb Wc. unfold rcg, real_clebsch_gordan, RC. rewrite cg_form by assumption. unfold c_mul, c_real. cbn [fst snd]. ring. Qed.

Lemma up_sector : forall l m (f : Z -> R), up l m * f (sg (m + 1)) = up l m * f (sg m).
Proof. intros l m f. destruct (Z.eq_dec m (-1)) as [->|N]; [rewrite up_m1; ring|]. do 2 f_equal. unfold sg. destruct (Z.ltb_spec (m + 1) 0), (Z.ltb_spec m 0); lia. Qed.
Lemma up_sector_down : forall l m (f : Z -> R), up l (m - 1) * f (sg (m - 1)) = up l (m - 1) * f (sg m).
Proof. intros l m f. rewrite <- up_sector. do 3 f_equal. lia. Qed.

Theorem RC_y : killed_y l1 l2 l3 RC.
Proof.
  intros a b c _ _ _. unfold RC, phase. set (n := (Z.of_nat l1 + Z.of_nat l2 - Z.of_nat l3)%Z).
  rewrite <- !Rmult_assoc.
  rewrite (up_sector l1 a (fun s => fst (i_pow (n + s + sg b - sg c)))), (up_sector_down l1 a (fun s => fst (i_pow (n + s + sg b - sg c)))).
  rewrite (up_sector l2 b (fun s => fst (i_pow (n + sg a + s - sg c)))), (up_sector_down l2 b (fun s => fst (i_pow (n + sg a + s - sg c)))).
  rewrite (up_sector l3 c (fun s => fst (i_pow (n + sg a + sg b - s)))), (up_sector_down l3 c (fun s => fst (i_pow (n + sg a + sg b - s)))).
  pose proof (T_y a b c) as H. set (e := fst (i_pow (n + sg a + sg b - sg c))).
  match goal with |- ?lhs = 0 => transitivity (e * (up l1 a * T (a + 1) b c - up l1 (a - 1) * T (a - 1) b c + (up l2 b * T a (b + 1) c - up l2 (b - 1) * T a (b - 1) c)
  + (up l3 c * T a b (c + 1) - up l3 (c - 1) * T a b (c - 1)))) end; [ring|]. rewrite H. ring.
Qed.

Lemma flip : forall a e, - IZR a * fst (i_pow (e - sg a + sg (- a))) = IZR (Z.abs a) * snd (i_pow e).
Proof.
  intros a e. unfold sg. destruct (Z.ltb_spec a 0), (Z.ltb_spec (- a) 0); try lia.
  - replace (e - 1 + 0)%Z with (e - 1)%Z by lia. rewrite fst_i_pow_P, Z.abs_neq, opp_IZR by lia. ring.
  - replace (e - 0 + 1)%Z with (e + 1)%Z by lia. rewrite fst_i_pow_S, Z.abs_eq by lia. ring.
  - assert (a = 0)%Z by lia. subst a. cbn [Z.abs]. ring.
Qed.
Lemma flip3 : forall a e, - IZR a * fst (i_pow (e + sg a - sg (- a))) = - (IZR (Z.abs a) * snd (i_pow e)).
Proof.
  intros a e. unfold sg. destruct (Z.ltb_spec a 0), (Z.ltb_spec (- a) 0); try lia.
  - replace (e + 1 - 0)%Z with (e + 1)%Z by lia. rewrite fst_i_pow_S, Z.abs_neq, opp_IZR by lia. ring.
  - replace (e + 0 - 1)%Z with (e - 1)%Z by lia. rewrite fst_i_pow_P, Z.abs_eq by lia. ring.
  - assert (a = 0)%Z by lia. subst a. cbn [Z.abs]. ring.
Qed.

Theorem RC_z : killed_z l1 l2 l3 RC.
Proof.
  intros a b c _ _ _. unfold RC. rewrite <- !Rmult_assoc. set (e := phase a b c).
  replace (phase (- a) b c) with (e - sg a + sg (- a))%Z by (unfold e, phase; lia). replace (phase a (- b) c) with (e - sg b + sg (- b))%Z by (unfold e, phase; lia).
  replace (phase a b (- c)) with (e + sg c - sg (- c))%Z by (unfold e, phase; lia). rewrite !flip, flip3. pose proof (T_z a b c) as H.
  transitivity (snd (i_pow e) * (IZR (Z.abs a) * T (- a) b c + IZR (Z.abs b) * T a (- b) c - IZR (Z.abs c) * T a b (- c))); [ring|]. rewrite H. ring.
Qed.
End Coupling.

(** * Orthonormality *)
Lemma zs_mult : forall l l' f g, zs l f * zs l' g = zs l (fun x => zs l' (fun y => f x * g y)).
Proof. intros. rewrite <- zs_scal_r. apply zs_ext; intros x _. now rewrite <- zs_scal_l. Qed.
Lemma zs_delta : forall l f x, within l x -> zs l (fun y => f y * (if (x =? y)%Z then 1 else 0)) = f x.
Proof.
  intros l f x W. rewrite (zs_single l _ x W); [rewrite Z.eqb_refl; ring|]. intros y _ N. destruct (Z.eqb_spec x y); [congruence|ring].
Qed.
Lemma parseval : forall l f g, zs l (fun a => zs l (fun x => V a x * f x) * zs l (fun x => V a x * g x)) = zs l (fun x => f x * g x).
Proof.
  intros l f g. transitivity (zs l (fun x => zs l (fun y => zs l (fun a => f x * g y * (V a x * V a y))))).
  - transitivity (zs l (fun a => zs l (fun x => zs l (fun y => f x * g y * (V a x * V a y))))).
    + apply zs_ext; intros a _. rewrite zs_mult. apply zs_ext; intros x _. apply zs_ext; intros y _. ring.
    + rewrite zs_swap. apply zs_ext; intros x _. apply zs_swap.
  - apply zs_ext; intros x Wx. transitivity (zs l (fun y => (f x * g y) * (if (x =? y)%Z then 1 else 0))).
    + apply zs_ext; intros y Wy. now rewrite zs_scal_l, V_cols.
    + now apply (zs_delta l (fun y => f x * g y)).
Qed.

Lemma T_gram : forall l1 l2 l l' c c', triangle l1 l2 l -> triangle l1 l2 l' -> within l c -> within l' c' ->
  zs l1 (fun a => zs l2 (fun b => T l1 l2 l a b c * T l1 l2 l' a b c')) = if ((l =? l')%nat && (c =? c')%Z)%bool then 1 else 0.
Proof.
  intros l1 l2 l l' c c' Tr Tr' W W'.
  set (H := fun x y => zs l (fun z => V c z * complex_cg l1 l2 l x y z)). set (H' := fun x y => zs l' (fun z => V c' z * complex_cg l1 l2 l' x y z)).
  transitivity (zs l1 (fun x => zs l2 (fun y => H x y * H' x y))).
  - transitivity (zs l2 (fun b => zs l1 (fun x => zs l2 (fun y => V b y * H x y) * zs l2 (fun y => V b y * H' x y)))).
    + rewrite zs_swap. apply zs_ext; intros b _. unfold T, tri. fold H. fold H'. apply (parseval l1 (fun x => zs l2 (fun y => V b y * H x y)) (fun x => zs l2 (fun y => V b y * H' x y))).
    + rewrite zs_swap. apply zs_ext; intros x _. apply (parseval l2 (H x) (H' x)).
  - transitivity (zs l (fun z => zs l' (fun z' => V c z * V c' z' * gram l1 l2 l l' z z'))).
    + transitivity (zs l1 (fun x => zs l2 (fun y => zs l (fun z => zs l' (fun z' => V c z * V c' z' * (complex_cg l1 l2 l x y z * complex_cg l1 l2 l' x y z')))))).
      * apply zs_ext; intros x _. apply zs_ext; intros y _. unfold H, H'. rewrite zs_mult. apply zs_ext; intros z _. apply zs_ext; intros z' _. ring.
      * transitivity (zs l1 (fun x => zs l (fun z => zs l2 (fun y => zs l' (fun z' => V c z * V c' z' * (complex_cg l1 l2 l x y z * complex_cg l1 l2 l' x y z')))))).
        { apply zs_ext; intros x _. apply zs_swap. }
        rewrite zs_swap. apply zs_ext; intros z _. transitivity (zs l1 (fun x => zs l' (fun z' => zs l2 (fun y => V c z * V c' z' * (complex_cg l1 l2 l x y z * complex_cg l1 l2 l' x y z'))))).
        { apply zs_ext; intros x _. apply zs_swap. }
        rewrite zs_swap. apply zs_ext; intros z' _. change (gram l1 l2 l l' z z') with (zs l1 (fun x => zs l2 (fun y => complex_cg l1 l2 l x y z * complex_cg l1 l2 l' x y z'))).
        rewrite <- zs_scal_l. apply zs_ext; intros x _. now rewrite zs_scal_l.
    + destruct (Nat.eqb_spec l l') as [<-|N].
      * cbn [andb]. rewrite <- (V_rows l c c' W W'). apply zs_ext; intros z Wz.
        rewrite <- (zs_delta l (fun z' => V c z * V c' z') z Wz). apply zs_ext; intros z' Wz'.
        rewrite (cc_orthonormal l1 l2 l l z z' Tr Tr' Wz Wz'), Nat.eqb_refl. reflexivity.
      * cbn [andb]. apply zs_zero; intros z Wz. apply zs_zero; intros z' Wz'. rewrite (cc_orthonormal l1 l2 l l' z z' Tr Tr' Wz Wz').
        destruct (Nat.eqb_spec l l'); [contradiction|]. cbn [andb]. ring.
Qed.

Theorem RC_orthonormal : forall l1 l2 l l' c c', triangle l1 l2 l -> triangle l1 l2 l' -> within l c -> within l' c' ->
  zs l1 (fun a => zs l2 (fun b => RC l1 l2 l a b c * RC l1 l2 l' a b c')) = if ((l =? l')%nat && (c =? c')%Z)%bool then 1 else 0.
Proof.
  intros l1 l2 l l' c c' Tr Tr' W W'.
  set (k := fst (c_mul (i_pow (- Z.of_nat l - sg c)) (conjugate (i_pow (- Z.of_nat l' - sg c'))))).
  transitivity (zs l1 (fun a => zs l2 (fun b => k * (T l1 l2 l a b c * T l1 l2 l' a b c')))).
  - apply zs_ext; intros a _. apply zs_ext; intros b _. unfold RC.
    assert (P : snd (i_pow (phase l1 l2 l a b c)) * T l1 l2 l a b c = 0).
    { destruct (Z.even (phase l1 l2 l a b c)) eqn:H; [rewrite i_pow_even by exact H; ring|rewrite (T_odd l1 l2 l a b c H); ring]. }
    set (e := (Z.of_nat l1 + Z.of_nat l2 + sg a + sg b)%Z). pose proof (i_pow_unit e) as U.
    assert (E1 : i_pow (phase l1 l2 l a b c) = c_mul (i_pow e) (i_pow (- Z.of_nat l - sg c))) by (rewrite <- i_pow_add; f_equal; unfold e, phase; lia).
    assert (E2 : i_pow (phase l1 l2 l' a b c') = c_mul (i_pow e) (i_pow (- Z.of_nat l' - sg c'))) by (rewrite <- i_pow_add; f_equal; unfold e, phase; lia).
    (* the first factor is real: multiply by the conjugate of the second *)
    transitivity ((fst (i_pow (phase l1 l2 l a b c)) * fst (i_pow (phase l1 l2 l' a b c')) + snd (i_pow (phase l1 l2 l a b c)) * snd (i_pow (phase l1 l2 l' a b c')))
      * (T l1 l2 l a b c * T l1 l2 l' a b c')).
    { transitivity (fst (i_pow (phase l1 l2 l a b c)) * T l1 l2 l a b c * (fst (i_pow (phase l1 l2 l' a b c')) * T l1 l2 l' a b c')
        + (snd (i_pow (phase l1 l2 l a b c)) * T l1 l2 l a b c) * (snd (i_pow (phase l1 l2 l' a b c')) * T l1 l2 l' a b c')); [rewrite P; ring|ring]. }
    f_equal. rewrite E1, E2. unfold k. destruct (i_pow e) as [p q], (i_pow (- Z.of_nat l - sg c)) as [r s], (i_pow (- Z.of_nat l' - sg c')) as [u v].
    unfold c_mul, conjugate in *. cbn [fst snd] in *. transitivity ((p * p + q * q) * (r * u + s * v)); [ring|]. rewrite U. ring.
  - transitivity (k * zs l1 (fun a => zs l2 (fun b => T l1 l2 l a b c * T l1 l2 l' a b c'))).
    { rewrite <- zs_scal_l. apply zs_ext; intros a _. now rewrite zs_scal_l. }
    rewrite T_gram by assumption. destruct (Nat.eqb_spec l l') as [<-|N]; [|cbn [andb]; ring]. destruct (Z.eqb_spec c c') as [<-|N]; [|cbn [andb]; ring]. cbn [andb].
    unfold k. pose proof (i_pow_unit (- Z.of_nat l - sg c)) as U. unfold c_mul, conjugate. cbn [fst snd]. lra.
Qed.

(** * Values that vanish *)
Lemma RC_triangle : forall l1 l2 l3 a b c, ~ triangle l1 l2 l3 -> RC l1 l2 l3 a b c = 0.
Proof.
  intros l1 l2 l3 a b c N. unfold RC, T. rewrite tri_flat. rewrite zs3_zero; [ring|]. intros x y z _ _ _. rewrite cc_triangle by exact N. ring.
Qed.
Lemma RC_selected : forall l1 l2 l3 a b c, ~ selected l1 a l2 b l3 c -> RC l1 l2 l3 a b c = 0.
Proof.
  intros l1 l2 l3 a b c N. destruct (triangle_dec l1 l2 l3) as [Tr|Tr]; [|now apply RC_triangle].
  unfold RC, T. rewrite tri_flat. rewrite zs3_zero; [ring|]. intros x y z _ _ _.
  destruct (Z.eq_dec (x + y) z) as [E|E]; [|rewrite cc_select by exact E; ring].
  destruct (Z.eq_dec x a), (Z.eq_dec x (- a)), (Z.eq_dec y b), (Z.eq_dec y (- b)), (Z.eq_dec z c), (Z.eq_dec z (- c));
    try (rewrite (V_else a x) by assumption; ring); try (rewrite (V_else b y) by assumption; ring); try (rewrite (V_else c z) by assumption; ring);
    (exfalso; apply N; unfold triangle in Tr; unfold selected; split; [lia|lia]).
Qed.

(** * Degree zero: the normalised trace *)
Lemma racah_scalar : forall l k, (k <= 2 * l)%nat -> racah_sum (2 * l) (Z.of_nat k) (Z.of_nat k) (- Z.of_nat k) (- Z.of_nat k) = (-1) ^ k / (INR (fact k) * INR (fact (2 * l - k))).
Proof.
  intros l k H. unfold racah_sum. rewrite (rsum_single _ _ k).
  - cbv zeta. replace (Z.of_nat k - Z.of_nat k)%Z with 0%Z by lia. replace (- Z.of_nat k + Z.of_nat k)%Z with 0%Z by lia. replace (Z.of_nat (2 * l) - Z.of_nat k)%Z with (Z.of_nat (2 * l - k)) by lia.
    assert (F : forall n, rfact (Z.of_nat n) = / INR (fact n)) by (intros n; rewrite rfact_zfact by lia; unfold zfact; now rewrite Nat2Z.id).
    rewrite !F. change 0%Z with (Z.of_nat 0). rewrite F. cbn [fact]. change (INR 1) with 1. pose proof (fact_neq k). pose proof (fact_neq (2 * l - k)). field. split; assumption.
  - lia.
  - intros i Hi N. cbv zeta. destruct (lt_dec i k).
    + rewrite (rfact_neg (- Z.of_nat k + Z.of_nat i)) by lia. ring.
    + rewrite (rfact_neg (Z.of_nat k - Z.of_nat i)) by lia. ring.
Qed.

Lemma cc_scalar : forall l x, within l x -> complex_cg l l 0 x (- x) 0 = sgz (Z.of_nat l - x) / sqrt (INR (2 * l + 1)).
Proof.
  intros l x W. assert (Tr : triangle l l 0) by (unfold triangle; lia). pose proof W as W'. unfold within in W'.
  pose proof (cc_value l l 0 x (- x) Tr W ltac:(unfold within; lia) ltac:(unfold within; lia)) as E. rewrite Z.add_opp_diag_r in E. rewrite E. clear E.
  set (k := Z.to_nat (Z.of_nat l - x)).
  assert (CS : csum l l 0 x (- x) = (-1) ^ k / (INR (fact k) * INR (fact (2 * l - k)))).
  { unfold csum. rewrite <- racah_scalar by lia. f_equal; lia. }
  rewrite CS. assert (P : 0 < INR (2 * l + 1)) by (apply lt_0_INR; lia).
  assert (N : cnorm l l 0 = / sqrt (INR (2 * l + 1))).
  { rewrite <- sqrt_inv. unfold cnorm. f_equal. rewrite (zfact_nat _ (2 * l)), (zfact_nat (Z.of_nat l - Z.of_nat l + Z.of_nat 0) 0), (zfact_nat _ (2 * l + 1)) by lia.
    replace (2 * l + 1)%nat with (S (2 * l)) by lia. rewrite fact_simpl, mult_INR. cbn [fact INR]. pose proof (fact_neq (2 * l)). pose proof (not_0_INR (S (2 * l)) ltac:(lia)). field. split; assumption. }
  rewrite N. replace (gfac l (- x)) with (gfac l x) by (unfold gfac; f_equal; replace (Z.of_nat l + - x)%Z with (Z.of_nat l - x)%Z by lia; replace (Z.of_nat l - - x)%Z with (Z.of_nat l + x)%Z by lia; ring).
  assert (G : gfac 0 0 = 1) by (unfold gfac; rewrite !(zfact_nat _ 0) by lia; cbn [fact]; change (INR 1) with 1; rewrite Rmult_1_r; apply sqrt_1). rewrite G.
  rewrite <- (sgz_nat k). replace (Z.of_nat k) with (Z.of_nat l - x)%Z by lia.
  pose proof (gfac_sqr l x) as Q. rewrite (zfact_nat (Z.of_nat l + x) (2 * l - k)), (zfact_nat (Z.of_nat l - x) k) in Q by lia.
  pose proof (fact_neq k). pose proof (fact_neq (2 * l - k)). pose proof (sqrt_lt_R0 _ P).
  transitivity (/ sqrt (INR (2 * l + 1)) * (gfac l x * gfac l x) * (sgz (Z.of_nat l - x) / (INR (fact k) * INR (fact (2 * l - k))))); [ring|]. rewrite Q. field. repeat split; try assumption. lra.
Qed.

Theorem RC_scalar : forall l a b, within l a -> within l b -> RC l l 0 a b 0 = (if (a =? b)%Z then 1 else 0) / sqrt (INR (2 * l + 1)).
Proof.
  intros l a b Wa Wb. assert (P : 0 < sqrt (INR (2 * l + 1))) by (apply sqrt_lt_R0, lt_0_INR; lia). unfold RC.
  assert (E : T l l 0 a b 0 = sigma b * sgz (Z.of_nat l) * (if (a =? b)%Z then 1 else 0) / sqrt (INR (2 * l + 1))).
  { rewrite <- (V_rows l a b Wa Wb). unfold T, tri. transitivity (zs l (fun x => sigma b * sgz (Z.of_nat l) / sqrt (INR (2 * l + 1)) * (V a x * V b x))); [|rewrite zs_scal_l; field; lra].
    apply zs_ext; intros x Wx.
    transitivity (V a x * (V b (- x) * complex_cg l l 0 x (- x) 0)).
    - f_equal. rewrite (zs_single l _ (- x)%Z).
      + f_equal. rewrite (zs_V 0 0 (complex_cg l l 0 x (- x))) by (unfold within; lia). cbn [Z.opp]. change (ra 0) with (1 / 2). change (rb 0) with (1 / 2). field.
      + unfold within in *; lia.
      + intros y Wy N. rewrite (zs_V 0 0 (complex_cg l l 0 x y)) by (unfold within; lia). rewrite !cc_select by lia. ring.
    - rewrite cc_scalar by exact Wx. rewrite V_rev, sgz_sub. pose proof (sgz_sqr x) as S.
      transitivity ((sgz x * sgz x) * (sigma b * sgz (Z.of_nat l) / sqrt (INR (2 * l + 1)) * (V a x * V b x))); [field; lra|]. rewrite S. field. lra. }
  rewrite E. destruct (Z.eqb_spec a b) as [<-|N]; [|field; lra]. unfold phase. change (sg 0) with 0%Z.
  replace (Z.of_nat l + Z.of_nat l - Z.of_nat 0 + sg a + sg a - 0)%Z with ((Z.of_nat l + sg a) + (Z.of_nat l + sg a))%Z by lia.
  assert (D : forall z, fst (i_pow (z + z)) = sgz z).
  { intros z. rewrite i_pow_add. unfold sgz, i_pow. pose proof (Z.div_mod z 4 ltac:(lia)) as D. replace (Z.even z) with (Z.even (z mod 4)) by (rewrite D at 2; rewrite Z.even_add, Z.even_mul; destruct (Z.even (z mod 4)); reflexivity).
    destruct (mod4 z) as [-> | [-> | [-> | ->]]]; cbn; ring. }
  rewrite D, sgz_add. fold (sigma a). transitivity ((sgz (Z.of_nat l) * sgz (Z.of_nat l)) * (sigma a * sigma a) / sqrt (INR (2 * l + 1))); [field; lra|].
  unfold sigma. rewrite !sgz_sqr. field. lra.
Qed.
