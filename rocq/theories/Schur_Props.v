(** Property C101: layers that are linear, or linear in two inputs, and equivariant are Dense and Tensor layers. *)
Require Import List Reals ZArith Lra Lia Arith Bool Psatz.
Require Import Verif.Base Verif.RSum Verif.Common_Proofs Verif.Poly_Proofs Verif.PolyDiff_Proofs Verif.PolyCalc_Proofs Verif.Symbolic_Model Verif.Symbolic_Proofs
  Verif.Rotations_Model Verif.Rotations_Spec Verif.Rotations_Euler_Proofs Verif.Harmonics_Basis_Proofs
  Verif.Irreps_Model Verif.Irreps_Spec Verif.Irreps_Proofs Verif.Irreps_Wigner_Proofs Verif.Irreps_Laws_Proofs Verif.Irreps_Props
  Verif.CGTable_Proofs Verif.Clebsch_Props Verif.Features_Model Verif.Features_Spec Verif.Modules_Model Verif.Modules_Props Verif.Schur_Spec.
Import ListNotations.
Open Scope R_scope.
Arguments Nat.mul : simpl never.

(** * Blocks *)
Definition dm (ca : bool) (m : mat) (l i j : nat) : R := dmat (entry m) l (pos ca l i) (pos ca l j).

Lemma block_is ca m l d i j : block ca m l d -> (i < 2 * l + 1)%nat -> (j < 2 * l + 1)%nat -> d i j = dm ca m l i j.
Proof.
  intros (L & ds & H & Hl & E) Hi Hj. rewrite E. unfold degrees in Hl. apply wigner_inv in H as [HL H].
  destruct (Forall2_get _ _ _ _ _ [] 0%nat m H eq_refl) as [[_ [_ D]] _]. specialize (D l l i j ltac:(lia) ltac:(lia) Hi Hj).
  unfold at3. unfold at2 in D. rewrite D. destruct (Nat.eq_dec l l); [reflexivity|congruence].
Qed.
Lemma block_exists ca m l : exists d, block ca m l d.
Proof.
  destruct (wigner_exists [m] (Z.of_nat l) ca ltac:(lia)) as [ds H].
  exists (fun i j => at3 0 ds 0 (l * l + i) (l * l + j)), (Z.of_nat l), ds. split; [exact H|]. split; [unfold degrees; lia|reflexivity].
Qed.

Lemma dm_rows ca m l i k : orthogonal m -> (i < 2 * l + 1)%nat -> (k < 2 * l + 1)%nat ->
  rsum (2 * l + 1) (fun j => dm ca m l i j * dm ca m l k j) = kron i k.
Proof.
  intros O Hi Hk. unfold dm. rewrite (rsum_pos ca l (fun j => dmat (entry m) l (pos ca l i) j * dmat (entry m) l (pos ca l k) j)).
  rewrite (dmat_rows (entry m) l _ _ (proj1 (orthogonal_rows m O)) (pos_lt ca l i Hi) (pos_lt ca l k Hk)). now apply kron_pos.
Qed.
Lemma dm_transpose ca m l i j : proper_rotation m -> dm ca (transpose3 m) l i j = dm ca m l j i.
Proof.
  intro P. destruct (orthogonal_rows m (rotation_orthogonal m P)) as [A B]. unfold dm. rewrite <- (dmat_trans (entry m)) by assumption. apply dmat_ext.
  intros a b Ha Hb. destruct m as [[[[b1 b2] b3] [[b4 b5] b6]] [[b7 b8] b9]]. destruct a as [|[|[|]]]; [| | |lia]; (destruct b as [|[|[|]]]; [| | |lia]); reflexivity.
Qed.

(** * Invariant vectors *)
Lemma half_turn_proper x y z : let n := x * x + y * y + z * z in n <> 0 ->
  proper_rotation ((2 * x * x / n - 1, 2 * x * y / n, 2 * x * z / n), (2 * y * x / n, 2 * y * y / n - 1, 2 * y * z / n), (2 * z * x / n, 2 * z * y / n, 2 * z * z / n - 1)).
Proof.
  intros n N. unfold n in *. clear n. split.
  - intros [|[|[|i]]] [|[|[|j]]] I J; try lia; cbn; field; exact N.
  - cbn. field. exact N.
Qed.

(** Every direction is the z axis after some rotation. *)
Lemma turn_axis x y z : x * x + y * y + z * z = 1 -> exists m, proper_rotation m /\ mapply (entry m) (0, 0, 1) = (x, y, z).
Proof.
  intro U. set (n := x * x + y * y + (1 + z) * (1 + z)). destruct (Req_dec n 0) as [N|N].
  - exists ((1, 0, 0), (0, -1, 0), (0, 0, -1)). split.
    + split; [|cbn; ring]. intros [|[|[|i]]] [|[|[|j]]] I J; try lia; cbn; ring.
    + unfold n in N. assert (X : x = 0) by nra. assert (Y : y = 0) by nra. assert (Z : 1 + z = 0) by nra. cbn. subst x y. replace z with (-1) by lra. repeat f_equal; ring.
  - exists ((2 * x * x / n - 1, 2 * x * y / n, 2 * x * (1 + z) / n), (2 * y * x / n, 2 * y * y / n - 1, 2 * y * (1 + z) / n), (2 * (1 + z) * x / n, 2 * (1 + z) * y / n, 2 * (1 + z) * (1 + z) / n - 1)).
    split; [exact (half_turn_proper x y (1 + z) N)|].
    assert (Q : n = 2 * (1 + z)) by (unfold n; lra). assert (Z : 1 + z <> 0) by lra. cbn. rewrite Q. repeat f_equal; field; exact Z.
Qed.

Section Invariant.
Variables (ca : bool) (l : nat) (b : nat -> R).
Definition combination : poly3 := p3_sum (2 * l + 1) (fun i => p3_scal (b i) (Yi l (pos ca l i))).

Lemma combination_value v : peval combination v = rsum (2 * l + 1) (fun i => b i * peval (Yi l (pos ca l i)) v).
Proof. unfold combination. rewrite peval_sum. apply rsum_ext. intros i _. apply peval_scal. Qed.

Lemma combination_norm : fischer combination combination = ynorm l * rsum (2 * l + 1) (fun i => b i * b i).
Proof.
  unfold combination at 1. rewrite fischer_sum_l, <- rsum_scal_l. apply rsum_ext. intros i Hi. rewrite fischer_scal_l. unfold combination. rewrite fischer_sum_r.
  transitivity (b i * (ynorm l * b i)); [f_equal|ring].
  transitivity (rsum (2 * l + 1) (fun j => ynorm l * b j * kron j i)); [|rewrite rsum_kron by exact Hi; reflexivity].
  apply rsum_ext. intros j Hj. rewrite fischer_scal_r, fischer_Yi by (now apply pos_lt). rewrite kron_pos by assumption.
  unfold kron. destruct (Nat.eq_dec i j), (Nat.eq_dec j i); try congruence; ring.
Qed.

Lemma combination_harmonic n : (0 < n)%nat -> fischer (p3_pow sh_r2 n) combination = 0.
Proof.
  intro N. unfold combination. rewrite fischer_sum_r. apply rsum_zero. intros i Hi. rewrite fischer_scal_r. destruct n as [|n]; [lia|].
  rewrite ppow_S, fischer_r2.
  rewrite (fischer_proper _ _ (peq_refl _) _ _ (lap_Y l _ (order_bound l _ (pos_lt ca l i Hi)))), fischer_zero_r. ring.
Qed.

Hypothesis Inv : forall m, proper_rotation m -> forall i, (i < 2 * l + 1)%nat -> rsum (2 * l + 1) (fun j => dm ca m l i j * b j) = b i.

Lemma combination_turn m v : proper_rotation m -> peval combination (mapply (entry m) v) = peval combination v.
Proof.
  intro P. rewrite !combination_value. pose proof (proj1 (orthogonal_rows m (rotation_orthogonal m P))) as O.
  transitivity (rsum (2 * l + 1) (fun i => rsum (2 * l + 1) (fun j => b i * dm ca m l i j * peval (Yi l (pos ca l j)) v))).
  { apply rsum_ext. intros i Hi. rewrite (Y_rotate _ _ _ _ O (pos_lt ca l i Hi)), <- (rsum_pos ca l), <- rsum_scal_l. apply rsum_ext. intros j _. unfold dm. ring. }
  rewrite rsum_swap. apply rsum_ext. intros j Hj.
  rewrite <- (Inv (transpose3 m) (proper_transpose m P) j Hj). rewrite <- rsum_scal_r. apply rsum_ext. intros i _. rewrite dm_transpose by exact P. ring.
Qed.

Lemma combination_scale t v : peval combination (times t v) = t ^ l * peval combination v.
Proof. rewrite !combination_value, <- rsum_scal_l. apply rsum_ext. intros i Hi. rewrite peval_times by (now apply pos_lt). ring. Qed.

Lemma combination_radial v : peval combination v = sqrt (dot v v) ^ l * peval combination (0, 0, 1).
Proof.
  destruct v as [[x y] z]. set (s := sqrt (dot (x, y, z) (x, y, z))).
  assert (S2 : s * s = x * x + y * y + z * z) by (unfold s; rewrite sqrt_sqrt by (cbn; nra); reflexivity).
  destruct (Req_dec s 0) as [E|E].
  - assert (x = 0) by (rewrite E in S2; nra). assert (y = 0) by (rewrite E in S2; nra). assert (z = 0) by (rewrite E in S2; nra). subst.
    rewrite E, <- combination_scale. f_equal. cbn. repeat f_equal; ring.
  - destruct (turn_axis (x / s) (y / s) (z / s)) as (m & P & M).
    { replace (x / s * (x / s) + y / s * (y / s) + z / s * (z / s)) with ((x * x + y * y + z * z) / (s * s)) by (field; exact E). rewrite S2. field. rewrite <- S2. nra. }
    rewrite <- (combination_turn m (0, 0, 1) P), M, <- combination_scale. f_equal. cbn. repeat f_equal; field; exact E.
Qed.

Lemma invariant_zero : (0 < l)%nat -> forall i, (i < 2 * l + 1)%nat -> b i = 0.
Proof.
  intro L.
  assert (Z : fischer combination combination = 0).
  { set (c := peval combination (0, 0, 1)). destruct (Nat.Even_or_Odd l) as [[n E]|[n E]].
    - assert (Q : combination == p3_scal c (p3_pow sh_r2 n)).
      { assert (G : forall v, peval (p3_add combination (p3_scal (-1) (p3_scal c (p3_pow sh_r2 n)))) v = 0).
        { intros v. rewrite peval_add, !peval_scal, peval_pow, combination_radial. fold c. rewrite E, pow_mult. destruct v as [[x y] z].
          replace (sqrt (dot (x, y, z) (x, y, z)) ^ 2) with (peval sh_r2 (x, y, z)); [ring|].
          unfold sh_r2. rewrite !peval_add, !peval_pow, peval_x, peval_y, peval_z. rewrite pow2_sqrt by (cbn; nra). cbn. ring. }
        apply peval_zero in G. intros w. specialize (G w). rewrite lin_add, !lin_scal, lin_nil in G. rewrite lin_scal. lra. }
      rewrite (fischer_proper _ _ Q _ _ (peq_refl _)), fischer_scal_l, combination_harmonic by lia. ring.
    - assert (C : c = 0).
      { destruct (turn_axis 0 0 (-1) ltac:(ring)) as (m & P & M). pose proof (combination_turn m (0, 0, 1) P) as T. rewrite M in T. fold c in T.
        replace (0, 0, -1) with (times (-1) (0, 0, 1)) in T by (cbn; repeat f_equal; ring). rewrite combination_scale in T. fold c in T.
        rewrite E in T. rewrite pow_add, pow_mult in T. replace ((-1) ^ 2) with 1 in T by ring. rewrite pow1 in T. lra. }
      assert (Q : combination == pzero) by (apply peval_zero; intro v; rewrite combination_radial; fold c; rewrite C; ring).
      rewrite (fischer_proper _ _ (peq_refl _) _ _ Q). apply fischer_zero_r. }
  rewrite combination_norm in Z. pose proof (ynorm_pos l) as Y.
  assert (S : rsum (2 * l + 1) (fun i => b i * b i) = 0) by (apply Rmult_integral in Z as [Z|Z]; [lra|exact Z]).
  intros i Hi. enough (b i * b i = 0) by nra. revert S Hi. generalize (2 * l + 1)%nat as n.
  clear. induction n as [|n IH]; intros S Hi; [lia|]. cbn [rsum] in S.
  assert (0 <= rsum n (fun i => b i * b i)) by (apply rsum_nonneg; intros; nra). destruct (Nat.eq_dec i n) as [->|]; [nra|]. apply IH; [nra|lia].
Qed.
End Invariant.

(** * C101 *)

(** Only scalars stay the same in all rotations. *)
Theorem C101_invariant_vectors : forall cartesian l b, (0 < l)%nat -> invariant cartesian l b -> forall i, (i < 2 * l + 1)%nat -> b i = 0.
Proof.
  intros ca l b L H. apply (invariant_zero ca l b); [|exact L]. intros m P i Hi.
  destruct (block_exists ca (transpose3 m) l) as [d D]. rewrite <- (H (transpose3 m) d (proper_transpose m P) D i Hi). apply rsum_ext. intros j Hj.
  rewrite (block_is _ _ _ _ j i D Hj Hi), dm_transpose by exact P. ring.
Qed.
Print Assumptions C101_invariant_vectors.

Lemma kron_refl i : kron i i = 1. Proof. unfold kron. destruct (Nat.eq_dec i i); congruence. Qed.
Lemma kron_sym i j : kron i j = kron j i. Proof. unfold kron. destruct (Nat.eq_dec i j), (Nat.eq_dec j i); congruence. Qed.

(** The coefficients intertwine, with the sum over the entries of the second index. *)
Lemma coupling_turn L1 L2 L3 ca c m l1 l2 l3 i j k :
  cg_array L1 L2 L3 ca c -> proper_rotation m -> (l1 < degrees L1)%nat -> (l2 < degrees L2)%nat -> (l3 < degrees L3)%nat ->
  (i < 2 * l1 + 1)%nat -> (j < 2 * l2 + 1)%nat -> (k < 2 * l3 + 1)%nat ->
  rsum (2 * l1 + 1) (fun i' => rsum (2 * l2 + 1) (fun j' =>
    dm ca m l1 i' i * dm ca m l2 j' j * at3 0 c (l1 * l1 + i') (l2 * l2 + j') (l3 * l3 + k)))
  = rsum (2 * l3 + 1) (fun k' => at3 0 c (l1 * l1 + i) (l2 * l2 + j) (l3 * l3 + k') * dm ca m l3 k k').
Proof.
  intros Hc P B1 B2 B3 Hi Hj Hk. set (L := Z.of_nat (l1 + l2 + l3)).
  destruct (wigner_exists [transpose3 m] L ca ltac:(lia)) as [ds H].
  assert (DD : forall l x y, (l < degrees L)%nat -> (x < 2 * l + 1)%nat -> (y < 2 * l + 1)%nat -> at3 0 ds 0 (l * l + x) (l * l + y) = dm ca m l y x).
  { intros l x y Hl Hx Hy. rewrite <- dm_transpose by exact P.
    apply (block_is ca (transpose3 m) l (fun x y => at3 0 ds 0 (l * l + x) (l * l + y))); [|exact Hx|exact Hy]. exists L, ds. auto. }
  assert (D1 : (l1 < degrees L)%nat) by (unfold degrees, L; lia). assert (D2 : (l2 < degrees L)%nat) by (unfold degrees, L; lia). assert (D3 : (l3 < degrees L)%nat) by (unfold degrees, L; lia).
  pose proof (C66_rotate L1 L2 L3 L ca c [transpose3 m] ds 0 (transpose3 m) l1 l2 l3 i j k Hc H eq_refl (proper_transpose m P) B1 B2 B3 D1 D2 D3 Hi Hj Hk) as Q.
  transitivity (rsum (2 * l1 + 1) (fun i' => rsum (2 * l2 + 1) (fun j' => at3 0 ds 0 (l1 * l1 + i) (l1 * l1 + i') * at3 0 ds 0 (l2 * l2 + j) (l2 * l2 + j') * at3 0 c (l1 * l1 + i') (l2 * l2 + j') (l3 * l3 + k)))).
  - apply rsum_ext; intros i' Hi'. apply rsum_ext; intros j' Hj'. rewrite !DD by assumption. reflexivity.
  - rewrite Q. apply rsum_ext; intros k' Hk'. rewrite DD by assumption. reflexivity.
Qed.

Lemma rsum_twice n m f g : (forall i j, (i < n)%nat -> (j < m)%nat -> f i j = g i j) -> rsum n (fun i => rsum m (fun j => f i j)) = rsum n (fun i => rsum m (fun j => g i j)).
Proof. intro H. apply rsum_ext; intros i Hi. apply rsum_ext; intros j Hj. now apply H. Qed.

Lemma rsum_twice' n m f g : (forall i j, (i < n)%nat -> (j < m i)%nat -> f i j = g i j) -> rsum n (fun i => rsum (m i) (fun j => f i j)) = rsum n (fun i => rsum (m i) (fun j => g i j)).
Proof. intro H. apply rsum_ext; intros i Hi. apply rsum_ext; intros j Hj. now apply H. Qed.

Lemma scal_twice a n m f : a * rsum n (fun i => rsum m (fun j => f i j)) = rsum n (fun i => rsum m (fun j => a * f i j)).
Proof. rewrite <- rsum_scal_l. apply rsum_ext; intros i _. symmetry. apply rsum_scal_l. Qed.

(** Exchange of two double sums. *)
Lemma swap_twice n m n' m' (f : nat -> nat -> nat -> nat -> R) :
  rsum n (fun i => rsum m (fun j => rsum n' (fun i' => rsum m' (fun j' => f i j i' j')))) =
  rsum n' (fun i' => rsum m' (fun j' => rsum n (fun i => rsum m (fun j => f i j i' j')))).
Proof.
  transitivity (rsum n (fun i => rsum n' (fun i' => rsum m (fun j => rsum m' (fun j' => f i j i' j'))))); [apply rsum_ext; intros; apply rsum_swap|].
  rewrite rsum_swap. apply rsum_ext; intros i' _.
  transitivity (rsum n (fun i => rsum m' (fun j' => rsum m (fun j => f i j i' j')))); [apply rsum_ext; intros; apply rsum_swap|]. apply rsum_swap.
Qed.
Lemma swap_in n m k (f : nat -> nat -> nat -> R) :
  rsum k (fun q => rsum n (fun i => rsum m (fun j => f i j q))) = rsum n (fun i => rsum m (fun j => rsum k (fun q => f i j q))).
Proof. rewrite rsum_swap. apply rsum_ext; intros i _. apply rsum_swap. Qed.

(** A linear map between irreps that commutes with rotations is a multiple of the identity if the degrees are the same, and zero
    if they are not (Schur's lemma). *)
Theorem C101_linear : forall cartesian l l' A, equivariant_linear cartesian l l' A ->
  exists a, forall i j, (i < 2 * l + 1)%nat -> (j < 2 * l' + 1)%nat -> A i j = if ((l =? l')%nat && (i =? j)%nat)%bool then a else 0.
Proof.
  intros ca l l' A H. set (L := Z.of_nat l). set (L' := Z.of_nat l'). set (M := Z.of_nat (l + l')).
  destruct (C66_total L L' M ca ltac:(lia) ltac:(lia) ltac:(lia)) as [c Hc].
  assert (B : (l < degrees L)%nat) by (unfold degrees, L; lia). assert (B' : (l' < degrees L')%nat) by (unfold degrees, L'; lia).
  assert (BM : degrees M = (l + l' + 1)%nat) by (unfold degrees, M; lia).
  set (b := fun k => rsum (2 * l + 1) (fun i => rsum (2 * l' + 1) (fun j => A i j * at3 0 c (l * l + i) (l' * l' + j) k))).
  assert (HA : forall m i j, proper_rotation m -> (i < 2 * l + 1)%nat -> (j < 2 * l' + 1)%nat ->
    rsum (2 * l + 1) (fun k => dm ca m l i k * A k j) = rsum (2 * l' + 1) (fun k => A i k * dm ca m l' k j)).
  { intros m i j P Hi Hj. destruct (block_exists ca m l) as [d D]. destruct (block_exists ca m l') as [d' D']. pose proof (H m d d' P D D' i j Hi Hj) as E.
    transitivity (rsum (2 * l + 1) (fun k => d i k * A k j)); [apply rsum_ext; intros k Hk; rewrite (block_is _ _ _ _ i k D) by assumption; reflexivity|].
    rewrite E. apply rsum_ext; intros k Hk; rewrite (block_is _ _ _ _ k j D') by assumption; reflexivity. }
  assert (Bz : forall l3 k, (0 < l3)%nat -> (l3 < degrees M)%nat -> (k < 2 * l3 + 1)%nat -> b (l3 * l3 + k)%nat = 0).
  { intros l3 k0 P3 B3 Hk0. apply (invariant_zero ca l3 (fun k => b (l3 * l3 + k)%nat)); [|exact P3|exact Hk0].
    intros m P k Hk. unfold b.
    transitivity (rsum (2 * l + 1) (fun i => rsum (2 * l' + 1) (fun j => A i j *
      rsum (2 * l + 1) (fun i' => rsum (2 * l' + 1) (fun j' => dm ca m l i' i * dm ca m l' j' j * at3 0 c (l * l + i') (l' * l' + j') (l3 * l3 + k)))))).
    { transitivity (rsum (2 * l3 + 1) (fun k' => rsum (2 * l + 1) (fun i => rsum (2 * l' + 1) (fun j => A i j * (at3 0 c (l * l + i) (l' * l' + j) (l3 * l3 + k') * dm ca m l3 k k'))))).
      { apply rsum_ext; intros k' Hk'. rewrite scal_twice. apply rsum_twice; intros. ring. }
      rewrite swap_in. apply rsum_twice; intros i j Hi Hj. rewrite (coupling_turn L L' M ca c m l l' l3 i j k Hc P B B' B3 Hi Hj Hk). apply rsum_scal_l. }
    transitivity (rsum (2 * l + 1) (fun i' => rsum (2 * l' + 1) (fun j' => rsum (2 * l + 1) (fun i => rsum (2 * l' + 1) (fun j =>
      A i j * (dm ca m l i' i * dm ca m l' j' j * at3 0 c (l * l + i') (l' * l' + j') (l3 * l3 + k))))))).
    { rewrite <- swap_twice. apply rsum_twice; intros i j Hi Hj. apply scal_twice. }
    apply rsum_twice; intros i' j' Hi' Hj'.
    transitivity (at3 0 c (l * l + i') (l' * l' + j') (l3 * l3 + k) * rsum (2 * l' + 1) (fun j => dm ca m l' j' j * rsum (2 * l + 1) (fun i => dm ca m l i' i * A i j))).
    { rewrite rsum_swap, <- rsum_scal_l. apply rsum_ext; intros j Hj. rewrite <- rsum_scal_l, <- rsum_scal_l. apply rsum_ext; intros i Hi. ring. }
    transitivity (at3 0 c (l * l + i') (l' * l' + j') (l3 * l3 + k) * rsum (2 * l' + 1) (fun q => A i' q * rsum (2 * l' + 1) (fun j => dm ca m l' q j * dm ca m l' j' j))).
    { f_equal. transitivity (rsum (2 * l' + 1) (fun j => rsum (2 * l' + 1) (fun q => A i' q * (dm ca m l' q j * dm ca m l' j' j)))).
      - apply rsum_ext; intros j Hj. rewrite HA by assumption. rewrite <- rsum_scal_l. apply rsum_ext; intros. ring.
      - rewrite rsum_swap. apply rsum_ext; intros q Hq. apply rsum_scal_l. }
    rewrite (rsum_ext (2 * l' + 1) _ (fun q => A i' q * kron q j')) by (intros q Hq; rewrite dm_rows by (first [now apply rotation_orthogonal|assumption]); reflexivity).
    rewrite rsum_kron by exact Hj'. ring. }
  assert (E : forall i j, (i < 2 * l + 1)%nat -> (j < 2 * l' + 1)%nat -> A i j = at3 0 c (l * l + i) (l' * l' + j) 0 * b 0%nat).
  { intros i j Hi Hj.
    transitivity (rsum (degrees M * degrees M) (fun k => at3 0 c (l * l + i) (l' * l' + j) k * b k)).
    - unfold b. transitivity (rsum (degrees M * degrees M) (fun k => rsum (2 * l + 1) (fun i' => rsum (2 * l' + 1) (fun j' => A i' j' * (at3 0 c (l * l + i) (l' * l' + j) k * at3 0 c (l * l + i') (l' * l' + j') k))))).
      2:{ apply rsum_ext; intros k _. rewrite scal_twice. apply rsum_twice; intros; ring. }
      rewrite swap_in. symmetry.
      transitivity (rsum (2 * l + 1) (fun i' => rsum (2 * l' + 1) (fun j' => A i' j' * kron j' j) * kron i' i)).
      2:{ rewrite rsum_kron by exact Hi. apply rsum_kron. exact Hj. }
      apply rsum_ext; intros i' Hi'. rewrite <- rsum_scal_r. apply rsum_ext; intros j' Hj'. rewrite rsum_scal_l.
      rewrite (C66_complete L L' M ca c l l' i j i' j' Hc B B') by (assumption || lia).
      rewrite !kron_eqb, (Nat.eqb_sym i' i), (Nat.eqb_sym j' j). destruct (i =? i')%nat, (j =? j')%nat; cbn [andb]; ring.
    - refine (rsum_single (degrees M * degrees M) (fun k => at3 0 c (l * l + i) (l' * l' + j) k * b k) 0 ltac:(rewrite BM; nia) _). intros k Hk N. cbv beta. destruct (block_decomp k) as [l3 [p [-> [Hp _]]]].
      rewrite Bz; [ring| |nia|exact Hp]. destruct l3; [|lia]. exfalso. lia. }
  exists (b 0%nat / sqrt (INR (2 * l + 1))). intros i j Hi Hj. rewrite E by assumption. destruct (Nat.eqb_spec l l') as [<-|N]; cbn [andb].
  - rewrite (C66_scalar_product L L' M ca c l i j Hc B B' Hi Hj). destruct (i =? j)%nat; unfold Rdiv; ring.
  - pose proof (C66_triangle L L' M ca c l l' 0 i j 0 Hc B B' ltac:(lia) Hi Hj ltac:(lia) ltac:(lia)) as T. change (0 * 0 + 0)%nat with 0%nat in T. rewrite T. ring.
Qed.
Print Assumptions C101_linear.

(** A product of irreps that commutes with rotations is a multiple of the one with the coefficients that [clebsch_gordan] returns. *)
Theorem C101_product : forall cartesian l1 l2 l3 B L1 L2 L3 c, equivariant_product cartesian l1 l2 l3 B ->
  cg_array L1 L2 L3 cartesian c -> (l1 < degrees L1)%nat -> (l2 < degrees L2)%nat -> (l3 < degrees L3)%nat ->
  exists a, forall i j k, (i < 2 * l1 + 1)%nat -> (j < 2 * l2 + 1)%nat -> (k < 2 * l3 + 1)%nat ->
    B i j k = a * at3 0 c (l1 * l1 + i) (l2 * l2 + j) (l3 * l3 + k).
Proof.
  intros ca l1 l2 l3 B L1 L2 L3 c' H Hc' B1' B2' B3'. set (M := Z.of_nat (l1 + l2 + l3)).
  destruct (C66_total L1 L2 M ca) as [c Hc]; [| |lia|].
  { destruct (table_inv _ _ _ _ _ Hc') as [? _]. lia. } { destruct (table_inv _ _ _ _ _ Hc') as [? _]. lia. }
  assert (BM : degrees M = (l1 + l2 + l3 + 1)%nat) by (unfold degrees, M; lia).
  set (beta := fun l p k => rsum (2 * l1 + 1) (fun i => rsum (2 * l2 + 1) (fun j => at3 0 c (l1 * l1 + i) (l2 * l2 + j) (l * l + p) * B i j k))).
  assert (HB : forall m i j k, proper_rotation m -> (i < 2 * l1 + 1)%nat -> (j < 2 * l2 + 1)%nat -> (k < 2 * l3 + 1)%nat ->
    rsum (2 * l1 + 1) (fun i' => rsum (2 * l2 + 1) (fun j' => dm ca m l1 i i' * dm ca m l2 j j' * B i' j' k)) = rsum (2 * l3 + 1) (fun k' => B i j k' * dm ca m l3 k' k)).
  { intros m i j k P Hi Hj Hk. destruct (block_exists ca m l1) as [d1 D1]. destruct (block_exists ca m l2) as [d2 D2]. destruct (block_exists ca m l3) as [d3 D3].
    pose proof (H m d1 d2 d3 P D1 D2 D3 i j k Hi Hj Hk) as E.
    transitivity (rsum (2 * l1 + 1) (fun i' => rsum (2 * l2 + 1) (fun j' => d1 i i' * d2 j j' * B i' j' k))).
    - apply rsum_twice; intros i' j' Hi' Hj'. rewrite (block_is _ _ _ _ i i' D1), (block_is _ _ _ _ j j' D2) by assumption. reflexivity.
    - rewrite E. apply rsum_ext; intros k' Hk'. rewrite (block_is _ _ _ _ k' k D3) by assumption. reflexivity. }
  assert (Eq : forall l, (l < degrees M)%nat -> equivariant_linear ca l l3 (beta l)).
  { intros l Hl m d d' P D D' p k Hp Hk.
    transitivity (rsum (2 * l1 + 1) (fun i' => rsum (2 * l2 + 1) (fun j' => B i' j' k *
      rsum (2 * l1 + 1) (fun i => rsum (2 * l2 + 1) (fun j => dm ca m l1 i i' * dm ca m l2 j j' * at3 0 c (l1 * l1 + i) (l2 * l2 + j) (l * l + p)))))).
    { transitivity (rsum (2 * l + 1) (fun q => rsum (2 * l1 + 1) (fun i' => rsum (2 * l2 + 1) (fun j' => B i' j' k * (at3 0 c (l1 * l1 + i') (l2 * l2 + j') (l * l + q) * dm ca m l p q))))).
      { apply rsum_ext; intros q Hq. rewrite (block_is _ _ _ _ p q D) by assumption. unfold beta. rewrite scal_twice. apply rsum_twice; intros. ring. }
      rewrite swap_in. apply rsum_twice; intros i' j' Hi' Hj'. rewrite (coupling_turn L1 L2 M ca c m l1 l2 l i' j' p Hc P) by assumption. apply rsum_scal_l. }
    transitivity (rsum (2 * l1 + 1) (fun i => rsum (2 * l2 + 1) (fun j => at3 0 c (l1 * l1 + i) (l2 * l2 + j) (l * l + p) *
      rsum (2 * l1 + 1) (fun i' => rsum (2 * l2 + 1) (fun j' => dm ca m l1 i i' * dm ca m l2 j j' * B i' j' k))))).
    { transitivity (rsum (2 * l1 + 1) (fun i' => rsum (2 * l2 + 1) (fun j' => rsum (2 * l1 + 1) (fun i => rsum (2 * l2 + 1) (fun j =>
        B i' j' k * (dm ca m l1 i i' * dm ca m l2 j j' * at3 0 c (l1 * l1 + i) (l2 * l2 + j) (l * l + p))))))); [apply rsum_twice; intros; apply scal_twice|].
      rewrite swap_twice. apply rsum_twice; intros i j Hi Hj. rewrite scal_twice. apply rsum_twice; intros. ring. }
    transitivity (rsum (2 * l1 + 1) (fun i => rsum (2 * l2 + 1) (fun j => rsum (2 * l3 + 1) (fun k' => at3 0 c (l1 * l1 + i) (l2 * l2 + j) (l * l + p) * B i j k' * d' k' k)))).
    { apply rsum_twice; intros i j Hi Hj. rewrite HB by assumption. rewrite <- rsum_scal_l. apply rsum_ext; intros k' Hk'. rewrite (block_is _ _ _ _ k' k D') by assumption. ring. }
    rewrite <- swap_in. apply rsum_ext; intros k' Hk'. unfold beta. rewrite Rmult_comm, scal_twice. apply rsum_twice; intros. ring. }
  destruct (C101_linear ca l3 l3 (beta l3) (Eq l3 ltac:(lia))) as [a Ha]. exists a. intros i j k Hi Hj Hk.
  destruct (table_inv _ _ _ _ _ Hc') as [_ [_ V']]. destruct (table_inv _ _ _ _ _ Hc) as [_ [_ V]].
  rewrite (V' l1 i l2 j l3 k B1' B2' B3' Hi Hj Hk), <- (V l1 i l2 j l3 k B1' B2' ltac:(lia) Hi Hj Hk).
  transitivity (rsum (degrees M * degrees M) (fun q => rsum (2 * l1 + 1) (fun i' => rsum (2 * l2 + 1) (fun j' => B i' j' k * (at3 0 c (l1 * l1 + i) (l2 * l2 + j) q * at3 0 c (l1 * l1 + i') (l2 * l2 + j') q))))).
  { rewrite swap_in. symmetry.
    transitivity (rsum (2 * l1 + 1) (fun i' => rsum (2 * l2 + 1) (fun j' => B i' j' k * kron j' j) * kron i' i)).
    2:{ rewrite rsum_kron by exact Hi. exact (rsum_kron (2 * l2 + 1) (fun j' => B i j' k) j Hj). }
    apply rsum_ext; intros i' Hi'. rewrite <- rsum_scal_r. apply rsum_ext; intros j' Hj'. rewrite rsum_scal_l.
    rewrite (C66_complete L1 L2 M ca c l1 l2 i j i' j' Hc B1' B2') by (assumption || lia).
    rewrite !kron_eqb, (Nat.eqb_sym i' i), (Nat.eqb_sym j' j). destruct (i =? i')%nat, (j =? j')%nat; cbn [andb]; ring. }
  rewrite rsum_degrees.
  transitivity (rsum (degrees M) (fun l => rsum (2 * l + 1) (fun p => at3 0 c (l1 * l1 + i) (l2 * l2 + j) (l * l + p) * beta l p k))).
  { apply rsum_twice'. intros l p Hl Hp. unfold beta. rewrite scal_twice. apply rsum_twice; intros. ring. }
  rewrite (rsum_single (degrees M) _ l3 ltac:(lia)).
  - rewrite (rsum_single (2 * l3 + 1) _ k Hk).
    + rewrite Ha by assumption. rewrite !Nat.eqb_refl. cbn [andb]. ring.
    + intros p Hp N. rewrite Ha by assumption. rewrite Nat.eqb_refl. destruct (Nat.eqb_spec p k); [contradiction|]. cbn [andb]. ring.
  - intros l Hl N. apply rsum_zero; intros p Hp. destruct (C101_linear ca l l3 (beta l) (Eq l Hl)) as [a' Ha']. rewrite Ha' by assumption.
    destruct (Nat.eqb_spec l l3); [contradiction|]. cbn [andb]. ring.
Qed.
Print Assumptions C101_product.

(** Every equivariant linear layer is a Dense layer without bias: no choice of weights is lost by using Dense. *)
Theorem C101_dense : forall cartesian n channels features W, equivariant_layer cartesian (S n) channels features W ->
  exists P, forall x, valid (S n) x -> fF x = channels ->
    exists y, dense features false P x = Ok y /\
      forall i p' l' k' f, (p' < 2)%nat -> (k' < 2 * l' + 1)%nat -> (f < features)%nat -> has_slot y p' l' ->
        comp y i p' l' k' f =
        rsum 2 (fun p => rsum (S n) (fun l => rsum (2 * l + 1) (fun k => rsum channels (fun a => comp x i p l k a * W p l k a p' l' k' f)))).
Proof.
  intros ca n C F W H. exists (mkDense (fun l p a f => W p l 0%nat a p l 0%nat f) (fun _ => 0)). intros x V EC.
  destruct (proj1 (C35_dense_formula F false (mkDense (fun l p a f => W p l 0%nat a p l 0%nat f) (fun _ => 0)) x) n V) as (y & E & Vy & _ & _ & _ & _ & Y).
  exists y. split; [exact E|]. intros i p' l' k' f Hp' Hk' Hf Sl. rewrite (Y i p' l' k' f Hp' Hk' Sl). cbn [andb dk]. rewrite EC, Rplus_0_r.
  assert (Hl' : (l' < S n)%nat). { destruct Sl as [Sl _]. destruct Vy as [_ Vy]. rewrite Vy in Sl. nia. }
  symmetry. rewrite (rsum_single 2 _ p' Hp').
  2:{ intros p Hp N. apply rsum_zero; intros l Hl. apply rsum_zero; intros k Hk. apply rsum_zero; intros a Ha.
      destruct (H p l a p' l' f Hp Hl Ha Hp' Hl' Hf) as [_ G]. specialize (G k k' Hk Hk'). unfold parity_sign in G.
      destruct p as [|[|]], p' as [|[|]]; try lia; cbn [Nat.eqb] in G; replace (W _ _ _ _ _ _ _ _) with 0 by lra; ring. }
  rewrite (rsum_single (S n) _ l' Hl').
  2:{ intros l Hl N. apply rsum_zero; intros k Hk. apply rsum_zero; intros a Ha.
      destruct (H p' l a p' l' f Hp' Hl Ha Hp' Hl' Hf) as [G _]. destruct (C101_linear _ _ _ _ G) as [w Hw]. cbv beta in Hw. rewrite Hw by assumption.
      destruct (Nat.eqb_spec l l'); [contradiction|]. cbn [andb]. ring. }
  rewrite (rsum_single (2 * l' + 1) _ k' Hk').
  2:{ intros k Hk N. apply rsum_zero; intros a Ha.
      destruct (H p' l' a p' l' f Hp' Hl' Ha Hp' Hl' Hf) as [G _]. destruct (C101_linear _ _ _ _ G) as [w Hw]. cbv beta in Hw. rewrite Hw by assumption.
      destruct (Nat.eqb_spec k k'); [contradiction|]. rewrite Nat.eqb_refl. cbn [andb]. ring. }
  apply rsum_ext; intros a Ha. f_equal.
  destruct (H p' l' a p' l' f Hp' Hl' Ha Hp' Hl' Hf) as [G _]. destruct (C101_linear _ _ _ _ G) as [w Hw]. cbv beta in Hw.
  rewrite !Hw by (assumption || lia). rewrite !Nat.eqb_refl. reflexivity.
Qed.
Print Assumptions C101_dense.

(** The hypotheses are met: multiples of the identity and the coefficients of the package, which are not zero, are equivariant. *)
Lemma multiple_equivariant ca l a : equivariant_linear ca l l (fun i j => if (i =? j)%nat then a else 0).
Proof.
  intros m d d' P D D' i j Hi Hj.
  rewrite (rsum_single (2 * l + 1) _ j Hj) by (intros k Hk N; destruct (Nat.eqb_spec k j); [contradiction|ring]).
  rewrite (rsum_single (2 * l + 1) _ i Hi) by (intros k Hk N; destruct (Nat.eqb_spec i k); [congruence|ring]).
  rewrite !Nat.eqb_refl, (block_is _ _ _ _ i j D), (block_is _ _ _ _ i j D') by assumption. ring.
Qed.
Lemma coupling_equivariant ca l1 l2 l3 L1 L2 L3 c : cg_array L1 L2 L3 ca c -> (l1 < degrees L1)%nat -> (l2 < degrees L2)%nat -> (l3 < degrees L3)%nat ->
  equivariant_product ca l1 l2 l3 (fun i j k => at3 0 c (l1 * l1 + i) (l2 * l2 + j) (l3 * l3 + k)).
Proof.
  intros Hc B1 B2 B3 m d1 d2 d3 P D1 D2 D3 i j k Hi Hj Hk.
  pose proof (coupling_turn L1 L2 L3 ca c (transpose3 m) l1 l2 l3 i j k Hc (proper_transpose m P) B1 B2 B3 Hi Hj Hk) as E.
  transitivity (rsum (2 * l1 + 1) (fun i' => rsum (2 * l2 + 1) (fun j' => dm ca (transpose3 m) l1 i' i * dm ca (transpose3 m) l2 j' j * at3 0 c (l1 * l1 + i') (l2 * l2 + j') (l3 * l3 + k)))).
  - apply rsum_twice; intros i' j' Hi' Hj'. rewrite !dm_transpose by exact P. rewrite (block_is _ _ _ _ i i' D1), (block_is _ _ _ _ j j' D2) by assumption. reflexivity.
  - rewrite E. apply rsum_ext; intros k' Hk'. rewrite dm_transpose by exact P. rewrite (block_is _ _ _ _ k' k D3) by assumption. reflexivity.
Qed.
Example C101_case :
  equivariant_layer true 3 2 4 (fun p l k a p' l' k' f => if ((p =? p') && (l =? l') && (k =? k'))%nat%bool then INR (p + l + a + f) else 0) /\
  exists c, cg_array 1 1 0 true c /\ at3 0 c 1 1 0 <> 0 /\ equivariant_product true 1 1 0 (fun i j k => 2 * at3 0 c (1 + i) (1 + j) k).
Proof.
  split.
  - intros p l a p' l' f Hp Hl Ha Hp' Hl' Hf. split.
    + destruct (Nat.eqb_spec p p') as [<-|Np]; cbn [andb].
      * destruct (Nat.eqb_spec l l') as [<-|Nl]; cbn [andb]; [apply multiple_equivariant|].
        intros m d d' P D D' i j Hi Hj. rewrite !rsum_zero; [reflexivity|intros; ring..].
      * intros m d d' P D D' i j Hi Hj. rewrite !rsum_zero; [reflexivity|intros; ring..].
    + intros k k' Hk Hk'. destruct (Nat.eqb_spec p p') as [<-|Np]; cbn [andb]; ring.
  - destruct (C66_total 1 1 0 true ltac:(lia) ltac:(lia) ltac:(lia)) as [c Hc]. exists c. split; [exact Hc|].
    assert (B : (1 < degrees 1)%nat) by (unfold degrees; cbn; lia). assert (B0 : (0 < degrees 0)%nat) by (unfold degrees; cbn; lia). split.
    + pose proof (C66_scalar_product 1 1 0 true c 1 0 0 Hc B B ltac:(lia) ltac:(lia)) as E. change (1 * 1 + 0)%nat with 1%nat in E. rewrite E. cbn [Nat.eqb].
      assert (0 < sqrt (INR (2 * 1 + 1))) by (apply sqrt_lt_R0; apply lt_0_INR; lia). apply Rgt_not_eq. apply Rdiv_lt_0_compat; lra.
    + intros m d1 d2 d3 P D1 D2 D3 i j k Hi Hj Hk. pose proof (coupling_equivariant true 1 1 0 1 1 0 c Hc B B B0 m d1 d2 d3 P D1 D2 D3 i j k Hi Hj Hk) as E.
      change (1 * 1)%nat with 1%nat in E. change (0 * 0)%nat with 0%nat in E.
      transitivity (2 * rsum (2 * 1 + 1) (fun i' => rsum (2 * 1 + 1) (fun j' => d1 i i' * d2 j j' * at3 0 c (1 + i') (1 + j') (0 + k)))).
      * rewrite scal_twice. apply rsum_twice; intros. cbn [Nat.add]. ring.
      * rewrite E, <- rsum_scal_l. apply rsum_ext; intros. cbn [Nat.add]. ring.
Qed.
