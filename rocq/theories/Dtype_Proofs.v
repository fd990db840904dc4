(** Proofs about the dtypes of arrays: which dtype holds which, and the results of the layers in closed form. *)
Require Import List Bool Arith ZArith Reals Lia Lra.
Require Import Verif.Base Verif.Dtype_Model Verif.Dtype_Spec.
Import ListNotations.
Local Open Scope R_scope.

Definition fits (d a : dtype) : bool :=
  match d, a with
  | float64, _ => true
  | float32, float64 => false
  | float32, _ => true
  | _, _ => dtype_eqb d a
  end.

Lemma pow2_shift : forall (m e k : Z), (0 <= k)%Z -> IZR m * powerRZ 2 e = IZR (m * 2 ^ k) * powerRZ 2 (e - k).
Proof.
  intros m e k Hk. rewrite mult_IZR.
  replace (IZR (2 ^ k)) with (powerRZ 2 k).
  - rewrite Rmult_assoc, <- powerRZ_add by lra. f_equal. f_equal. lia.
  - rewrite <- (Z2Nat.id k) by exact Hk. rewrite <- pow_powerRZ, <- pow_IZR. reflexivity.
Qed.

Lemma holds_room : forall d a, (digits a <= digits d)%Z -> (lowest d <= lowest a)%Z -> (highest a <= highest d)%Z ->
  (lowest d <= highest d - digits d)%Z -> (0 <= digits a)%Z -> holds d a.
Proof.
  intros d a Hp Hl Hh Hr H0 x [m [e [Ex [Hm He]]]]. subst x.
  set (k := Z.max 0 (e - (highest d - digits d))).
  exists (m * 2 ^ k)%Z, (e - k)%Z. split; [| split].
  - apply pow2_shift. unfold k. lia.
  - rewrite Z.abs_mul, (Z.abs_eq (2 ^ k)) by (apply Z.pow_nonneg; lia).
    assert (Hk : (0 <= k)%Z) by (unfold k; lia).
    apply Z.lt_le_trans with (2 ^ digits a * 2 ^ k)%Z.
    + apply Zmult_lt_compat_r; [apply Z.pow_pos_nonneg; lia | exact Hm].
    + rewrite <- Z.pow_add_r by lia. apply Z.pow_le_mono_r; [lia |]. unfold k. lia.
  - unfold k. lia.
Qed.

Lemma pow2_pos : forall e, 0 < powerRZ 2 e.
Proof. intro e. apply powerRZ_lt. lra. Qed.

Lemma pow2_le : forall a b, (a <= b)%Z -> powerRZ 2 a <= powerRZ 2 b.
Proof.
  intros a b H. replace b with (a + Z.of_nat (Z.to_nat (b - a)))%Z by lia.
  rewrite powerRZ_add by lra. rewrite <- pow_powerRZ.
  rewrite <- (Rmult_1_r (powerRZ 2 a)) at 1. apply Rmult_le_compat_l; [left; apply pow2_pos |].
  apply pow_R1_Rle. lra.
Qed.

Lemma pow2_IZR : forall k, (0 <= k)%Z -> IZR (2 ^ k) = powerRZ 2 k.
Proof. intros k Hk. rewrite <- (Z2Nat.id k) by exact Hk. rewrite <- pow_powerRZ, <- pow_IZR. reflexivity. Qed.

(** The numbers of a dtype are below 2^highest. *)
Lemma number_bound : forall d x, (0 <= digits d)%Z -> number d x -> Rabs x < powerRZ 2 (highest d).
Proof.
  intros d x H0 [m [e [Ex [Hm He]]]]. subst x.
  rewrite Rabs_mult, (Rabs_pos_eq (powerRZ 2 e)) by (left; apply pow2_pos).
  rewrite <- abs_IZR.
  apply Rlt_le_trans with (IZR (2 ^ digits d) * powerRZ 2 e).
  - apply Rmult_lt_compat_r; [apply pow2_pos | apply IZR_lt; exact Hm].
  - rewrite pow2_IZR by exact H0. rewrite <- powerRZ_add by lra. apply pow2_le. lia.
Qed.

Lemma not_holds_range : forall d a, (0 <= digits d)%Z -> (1 <= digits a)%Z -> (lowest a <= highest a - digits a)%Z -> (highest d < highest a)%Z -> ~ holds d a.
Proof.
  intros d a Hd Ha Hr Hh H.
  assert (N : number a (powerRZ 2 (highest a - 1))).
  { exists (2 ^ (digits a - 1))%Z, (highest a - digits a)%Z. split; [| split].
    - rewrite pow2_IZR by lia. rewrite <- powerRZ_add by lra. f_equal. lia.
    - rewrite Z.abs_eq by (apply Z.pow_nonneg; lia). apply Z.pow_lt_mono_r; lia.
    - lia. }
  apply H in N. apply number_bound in N; [| exact Hd].
  rewrite Rabs_pos_eq in N by (left; apply pow2_pos).
  apply (Rlt_irrefl (powerRZ 2 (highest a - 1))). apply Rlt_le_trans with (powerRZ 2 (highest d)); [exact N |].
  apply pow2_le. lia.
Qed.

(** 1 + 2^-10 has eleven digits. *)
Lemma not_bfloat16 : ~ number bfloat16 (IZR 1025 * powerRZ 2 (-10)).
Proof.
  intros [m [e [Ex [Hm He]]]]. simpl digits in Hm. simpl lowest in He. simpl highest in He. simpl digits in He.
  change (2 ^ 8)%Z with 256%Z in Hm.
  destruct (Z_le_gt_dec e (-10)) as [L | G].
  - rewrite (pow2_shift 1025 (-10) (-10 - e)) in Ex by lia.
    replace (-10 - (-10 - e))%Z with e in Ex by lia.
    apply Rmult_eq_reg_r in Ex; [| apply Rgt_not_eq, pow2_pos].
    apply eq_IZR in Ex. assert (1 <= 2 ^ (-10 - e))%Z by (apply (Z.pow_le_mono_r 2 0); lia). lia.
  - rewrite (pow2_shift m e (e + 10)) in Ex by lia.
    replace (e - (e + 10))%Z with (-10)%Z in Ex by lia.
    apply Rmult_eq_reg_r in Ex; [| apply Rgt_not_eq, pow2_pos].
    apply eq_IZR in Ex. replace (e + 10)%Z with (Z.succ (e + 9)) in Ex by lia.
    rewrite Z.pow_succ_r in Ex by lia. lia.
Qed.

Lemma holds_fits : forall d a, holds d a <-> fits d a = true.
Proof.
  intros d a. split.
  - intro H. destruct d, a; try reflexivity; exfalso;
      try (revert H; apply not_holds_range; simpl; lia).
    + apply not_bfloat16. apply H. exists 1025%Z, (-10)%Z. split; [reflexivity | simpl; lia].
    + apply not_bfloat16. apply H. exists 1025%Z, (-10)%Z. split; [reflexivity | simpl; lia].
  - intro H. destruct d, a; try discriminate; apply holds_room; simpl; lia.
Qed.

Lemma smallest_fits : forall d l,
  smallest d l <-> (forall a, In a l -> fits d a = true) /\ (forall b, (forall a, In a l -> fits b a = true) -> fits b d = true).
Proof.
  intros d l. split; intros [A B]; split.
  - intros a I. apply holds_fits, A, I.
  - intros b C. apply holds_fits, B. intros a I. apply holds_fits, C, I.
  - intros a I. apply holds_fits, A, I.
  - intros b C. apply holds_fits, B. intros a I. apply holds_fits, C, I.
Qed.

Lemma dtype_eqb_eq : forall a b, dtype_eqb a b = true <-> a = b.
Proof. intros [] []; simpl; split; congruence. Qed.

Lemma promote_same : forall a, promote a a = a. Proof. intros []; reflexivity. Qed.
Lemma promote_comm : forall a b, promote a b = promote b a. Proof. intros [] []; reflexivity. Qed.
Lemma promote_assoc : forall a b c, promote (promote a b) c = promote a (promote b c). Proof. intros [] [] []; reflexivity. Qed.
Lemma fits_promote : forall d a b, fits d (promote a b) = fits d a && fits d b. Proof. intros [] [] []; reflexivity. Qed.
Lemma fits_refl : forall d, fits d d = true. Proof. intros []; reflexivity. Qed.

Lemma fits_result : forall l d a, fits d (result_type a l) = true <-> forall b, In b (a :: l) -> fits d b = true.
Proof.
  induction l as [| c l IH]; intros d a; unfold result_type in *; cbn [fold_left].
  - split; [intros H b [E | []]; subst; exact H | intro H; apply H; left; reflexivity].
  - rewrite IH. split; intros H b I.
    + destruct I as [E | [E | I]]; [subst | subst | apply H; right; exact I].
      * specialize (H _ (or_introl eq_refl)). rewrite fits_promote in H. apply andb_prop in H. apply H.
      * specialize (H _ (or_introl eq_refl)). rewrite fits_promote in H. apply andb_prop in H. apply H.
    + destruct I as [E | I]; [subst | apply H; right; right; exact I].
      rewrite fits_promote, (H a), (H c); [reflexivity | right; left; reflexivity | left; reflexivity].
Qed.

Lemma result_smallest : forall l a, smallest (result_type a l) (a :: l).
Proof.
  intros l a. apply smallest_fits. split.
  - apply fits_result, fits_refl.
  - intros b H. apply fits_result, H.
Qed.

Lemma smallest_unique : forall d e l, smallest d l -> smallest e l -> d = e.
Proof.
  intros d e l D E. apply smallest_fits in D. apply smallest_fits in E. destruct D as [D1 D2], E as [E1 E2].
  specialize (D2 e E1). specialize (E2 d D1). destruct d, e; reflexivity || discriminate.
Qed.

Lemma result_same : forall l a, (forall b, In b l -> b = a) -> result_type a l = a.
Proof.
  induction l as [| c l IH]; intros a H; unfold result_type in *; cbn [fold_left]; [reflexivity |].
  rewrite (H c) by (left; reflexivity). rewrite promote_same. apply IH. intros b I. apply H. right. exact I.
Qed.

Lemma flax_dense_closed : forall x64 s bias x, flax_dense_dtype x64 s bias x = promote_dtype x64 (s_dtype s) x [parameter x64 s].
Proof.
  intros x64 s bias x. unfold flax_dense_dtype, promote_dtype. destruct (s_dtype s) as [d |]; destruct bias; rewrite ?promote_same; try reflexivity.
  unfold result_type. cbn [fold_left]. rewrite promote_assoc, promote_same. reflexivity.
Qed.

Lemma dense_closed : forall x64 s bias p L x, dense_dtype x64 s bias p L x = promote_dtype x64 (s_dtype s) x [parameter x64 s].
Proof.
  intros x64 s bias p L x. unfold dense_dtype.
  assert (A : forall b, result_type (flax_dense_dtype x64 s b x) (map (fun l => flax_dense_dtype x64 s (b && (l =? 0)%nat) x) (seq 1 L)) = promote_dtype x64 (s_dtype s) x [parameter x64 s]).
  { intro b. rewrite flax_dense_closed. apply result_same. intros c I. apply in_map_iff in I. destruct I as [l [E _]]. subst c. apply flax_dense_closed. }
  rewrite !A. destruct p; [| reflexivity]. unfold result_type at 1. cbn [fold_left]. apply promote_same.
Qed.

Lemma mask_absorbed : forall x64 d, promote d (promote (mask_dtype x64) (coefficients x64)) = promote d (coefficients x64).
Proof. intros [] []; reflexivity. Qed.

Definition kernel_dtype (x64 : bool) (s : settings) : dtype := promote_dtype x64 (s_dtype s) (parameter x64 s) [].

Lemma tensor_closed : forall x64 s p1 p2 p3 x1 x2,
  tensor_dtype x64 s p1 p2 p3 x1 x2 = result_type x1 [x2; kernel_dtype x64 s; coefficients x64].
Proof.
  intros. unfold tensor_dtype. fold (kernel_dtype x64 s). generalize (kernel_dtype x64 s). intro k.
  destruct x64; destruct p1, p2, p3, x1, x2, k; reflexivity.
Qed.

Lemma fused_closed : forall x64 s p3 x1 x2,
  fused_dtype x64 s p3 x1 x2 = result_type x1 [x2; kernel_dtype x64 s; coefficients x64].
Proof.
  intros. unfold fused_dtype, kernel_dtype.
  assert (K : promote_dtype x64 (s_dtype s) (parameter x64 s) (repeat (parameter x64 s) 7) = promote_dtype x64 (s_dtype s) (parameter x64 s) []).
  { unfold promote_dtype. destruct (s_dtype s); [reflexivity |]. apply result_same. intros b I. apply repeat_spec in I. exact I. }
  cbn [repeat] in K. rewrite K. generalize (promote_dtype x64 (s_dtype s) (parameter x64 s) []). intro k.
  destruct x64; destruct p3, x1, x2, k; reflexivity.
Qed.

Lemma any_tensor_closed : forall x64 s f g x1 x2,
  any_tensor_dtype x64 s f g x1 x2 = result_type x1 [x2; kernel_dtype x64 s; coefficients x64].
Proof. intros x64 s [] g x1 x2; unfold any_tensor_dtype; [apply fused_closed | apply tensor_closed]. Qed.
