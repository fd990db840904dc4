(** Proofs about Dense, Tensor and FusedTensor. *)
Require Import List Reals ZArith Bool Lia Lra.
Require Import ZifyNat.
Require Import Verif.Base Verif.RSum Verif.Features_Model Verif.Features_Spec Verif.Features_Proofs
  Verif.Modules_Model Verif.Modules_Spec.
Import ListNotations.
Open Scope R_scope.
Arguments Nat.modulo : simpl never.
Arguments Nat.mul : simpl never.

(** * Transformations *)

Lemma transformed_valid : forall n s D x x', valid n x -> transformed s D x x' -> valid n x'.
Proof. intros n s D x x' [H1 H2] [_ [HS [HD _]]]. split; congruence. Qed.

Lemma comp_high : forall n x i p l k f, valid n x -> (n <= l)%nat -> comp x i p l k f = 0.
Proof. intros n x i p l k f Hx Hl. rewrite (comp_valid n) by assumption. destruct (Nat.ltb_spec l n); [lia|reflexivity]. Qed.

Lemma transformed_unique : forall n s D x y y', valid n x -> transformed s D x y -> transformed s D x y' -> same_feature y y'.
Proof.
  intros n s D x y y' Hx H1 H2.
  pose proof (transformed_valid n s D x y Hx H1) as V1. pose proof (transformed_valid n s D x y' Hx H2) as V2.
  destruct H1 as [B1 [S1 [D1 [F1 [d1 C1]]]]]. destruct H2 as [B2 [S2 [D2 [F2 [d2 C2]]]]].
  apply (comp_determines n); try assumption; try congruence.
  intros i p l k f Hp Hl Hk. rewrite C1, C2 by assumption. reflexivity.
Qed.

Lemma rotate_transformed : forall n x shared D, valid n x -> block_diagonal D ->
  exists y, rotate x (wigner_for shared D x) = Ok y /\ transformed 1 (fun i => D (wigner_batch shared i)) x y.
Proof.
  intros n x shared D Hx HD. destruct (rotate_comp n x shared D Hx HD) as [y [E [V [B [S [F [d C]]]]]]].
  exists y. split; [exact E|]. destruct Hx as [_ Hx], V as [_ V].
  repeat split; try assumption; try congruence.
  intros i p l k f Hp Hk. rewrite C by assumption. unfold parity_sign. destruct (p =? 1)%nat; ring.
Qed.

Definition identity_matrices : list nat -> nat -> nat -> R := fun _ j k => if (j =? k)%nat then 1 else 0.

Lemma rsum_identity : forall n (v : nat -> R) l k, (k < n)%nat ->
  rsum n (fun k' => v k' * (if (l + k' =? l + k)%nat then 1 else 0)) = v k.
Proof.
  intros n v l k Hk. rewrite (rsum_single n _ k) by
    (assumption || (intros j Hj Hne; destruct (Nat.eqb_spec (l + j) (l + k)); [lia|ring])).
  rewrite Nat.eqb_refl. ring.
Qed.

Lemma reflect_transformed : forall n x, valid n x ->
  exists y, reflect x = Ok y /\ transformed (-1) identity_matrices x y.
Proof.
  intros n x Hx. destruct (reflect_comp n x Hx) as [y [E [V [B [S [F [d C]]]]]]].
  exists y. split; [exact E|]. destruct Hx as [_ Hx], V as [_ V].
  repeat split; try assumption; try congruence.
  intros i p l k f Hp Hk. rewrite C by assumption. unfold identity_matrices.
  rewrite (rsum_identity (2 * l + 1) (fun k' => comp x i p l k' f) (l * l) k) by assumption.
  unfold parity_sign. destruct (p =? 1)%nat; ring.
Qed.

Lemma identity_keeps : keeps_scalars identity_matrices.
Proof. intros b. reflexivity. Qed.

Lemma identity_orthogonal : orthogonal_blocks identity_matrices.
Proof.
  intros b l k k' Hk Hk'. unfold identity_matrices. split.
  - rewrite (rsum_single _ _ k) by (assumption || (intros j Hj Hne; destruct (Nat.eqb_spec (l * l + k) (l * l + j)); [lia|ring])).
    rewrite Nat.eqb_refl. destruct (Nat.eqb_spec (l * l + k') (l * l + k)), (Nat.eqb_spec k k'); try lia; ring.
  - rewrite (rsum_single _ _ k) by (assumption || (intros j Hj Hne; destruct (Nat.eqb_spec (l * l + j) (l * l + k)); [lia|ring])).
    rewrite Nat.eqb_refl. destruct (Nat.eqb_spec (l * l + k) (l * l + k')), (Nat.eqb_spec k k'); try lia; ring.
Qed.

Lemma identity_intertwines : forall n1 n2 n3 C b, intertwines n1 n2 n3 C (identity_matrices b).
Proof.
  intros n1 n2 n3 C d l1 l2 l3 a b c _ _ _ Ha Hb Hc. unfold identity_matrices.
  rewrite (rsum_identity (2 * l3 + 1) (fun k => C (l1 * l1 + a)%nat (l2 * l2 + b)%nat (l3 * l3 + k)%nat)) by assumption.
  rewrite (rsum_single _ _ a); [|assumption|].
  2: { intros j Hj Hne. apply rsum_zero. intros k Hk. destruct (Nat.eqb_spec (l1 * l1 + a) (l1 * l1 + j)); [lia|ring]. }
  rewrite (rsum_single _ _ b); [|assumption|].
  2: { intros j Hj Hne. destruct (Nat.eqb_spec (l2 * l2 + b) (l2 * l2 + j)); [lia|ring]. }
  rewrite !Nat.eqb_refl. ring.
Qed.

Lemma identity_cg_commutes : forall cgf, cg_commutes cgf identity_matrices.
Proof. intros cgf L1 L2 L3 C b _. apply identity_intertwines. Qed.

(** * Dense *)

Lemma apply_dense_slice : forall m x F K bias p l, fD x = (m * m)%nat -> (l < m)%nat ->
  fst (apply_dense F K bias (degree_slice x p l)) = (2 * l + 1)%nat
  /\ forall i s k f, snd (apply_dense F K bias (degree_slice x p l)) i s k f
       = rsum F (fun a => fv x i (p + s)%nat (l * l + k)%nat a * K a f) + match bias with Some b => b f | None => 0 end.
Proof.
  intros m x F K bias p l HD Hl. destruct (degree_slice_spec m x p l HD Hl) as [H1 H2].
  split; [exact H1|]. intros i s k f. unfold apply_dense. cbn [snd]. f_equal. apply rsum_ext. intros a _. now rewrite H2.
Qed.

Definition bias_at (use_bias : bool) (b : nat -> R) (p l : nat) (f : nat) : R :=
  if use_bias && (l =? 0)%nat && (p =? 0)%nat then b f else 0.

Lemma dense_comp : forall n x F use_bias P, valid n x -> (0 < n)%nat ->
  exists y, dense F use_bias P x = Ok y /\ valid n y
    /\ fB y = fB x /\ fS y = fS x /\ fF y = F /\ fdt y = fdt x
    /\ forall i p l k f, (p < 2)%nat -> (k < 2 * l + 1)%nat -> has_slot y p l ->
       comp y i p l k f = rsum (fF x) (fun a => comp x i p l k a * dk P l p a f) + bias_at use_bias (db P) p l f.
Proof.
  intros n x F ub P Hx Hn. unfold dense. rewrite (extract_valid x n Hx). cbn [bind].
  replace (Z.to_nat (Z.of_nat n - 1 + 1)) with n by lia.
  destruct Hx as [HS HD].
  destruct HS as [HS|HS]; rewrite HS; cbn [Nat.eqb].
  - destruct (concatenate_degrees (with_features x F) 1 (fun l =>
        apply_dense (fF x) (dk P l (l mod 2)%nat) (dense_for_degree ub l (db P)) (degree_slice x 0 l)) n Hn) as [y [E [B [S [Dy [Fy [dy V]]]]]]].
    { intros l Hl. now apply (apply_dense_slice n). }
    exists y. split; [exact E|]. cbn in B, Fy, dy.
    assert (Vy : valid n y) by (split; [now left|exact Dy]).
    split; [exact Vy|]. repeat split; try congruence.
    intros i p l k f Hp Hk [Hs1 Hs2].
    rewrite (comp_valid n y) by exact Vy. rewrite S. cbn [Nat.eqb].
    assert (Hl : (l < n)%nat) by (rewrite Dy in Hs1; apply (proj1 (sq_le _ _)) in Hs1; lia).
    destruct (Nat.ltb_spec l n); [|lia].
    destruct Hs2 as [Hs2|[_ Hs2]]; [congruence|]. rewrite Hs2, Nat.eqb_refl. rewrite V by assumption.
    destruct (apply_dense_slice n x (fF x) (dk P l (l mod 2)%nat) (dense_for_degree ub l (db P)) 0 l HD Hl) as [_ ->].
    f_equal.
    + apply rsum_ext. intros a Ha. rewrite (comp_valid n x) by (split; auto). rewrite HS. cbn [Nat.eqb].
      destruct (Nat.ltb_spec l n); [|lia]. rewrite Nat.eqb_refl. reflexivity.
    + unfold dense_for_degree, bias_at. destruct ub; [|reflexivity]. cbn [andb].
      destruct (Nat.eqb_spec l 0) as [->|Hl0]; [reflexivity|reflexivity].
  - destruct (concatenate_degrees (with_features x F) 1 (fun l =>
        apply_dense (fF x) (dk P l 0%nat) (dense_for_degree ub l (db P)) (degree_slice x 0 l)) n Hn) as [e [Ee [Be [Se [De [Fe [de Ve]]]]]]].
    { intros l Hl. now apply (apply_dense_slice n). }
    destruct (concatenate_degrees (with_features x F) 1 (fun l =>
        apply_dense (fF x) (dk P l 1%nat) (dense_for_degree false l (db P)) (degree_slice x 1 l)) n Hn) as [o [Eo [Bo [So [Do [Fo [d_o Vo]]]]]]].
    { intros l Hl. now apply (apply_dense_slice n). }
    rewrite Ee, Eo. cbn [bind]. eexists. split; [reflexivity|].
    match goal with |- valid n ?y /\ _ => set (yy := y) end.
    assert (Vy : valid n yy) by (split; [now right|exact De]).
    split; [exact Vy|]. repeat split.
    intros i p l k f Hp Hk [Hs1 Hs2].
    assert (Hl : (l < n)%nat).
    { destruct Vy as [_ Dy]. rewrite Dy in Hs1. apply (proj1 (sq_le _ _)) in Hs1. lia. }
    rewrite (comp_valid n yy) by exact Vy. destruct (Nat.ltb_spec l n); [|lia]. subst yy. cbn [fS fv Nat.eqb].
    assert (Hc : forall a, comp x i p l k a = fv x i p (l * l + k)%nat a).
    { intros a. rewrite (comp_valid n x) by (split; auto). rewrite HS. cbn [Nat.eqb]. destruct (Nat.ltb_spec l n); [reflexivity|lia]. }
    rewrite (rsum_ext (fF x) (fun a => comp x i p l k a * dk P l p a f) (fun a => fv x i p (l * l + k)%nat a * dk P l p a f))
      by (intros; now rewrite Hc).
    destruct p as [|[|p]]; [| |lia]; cbn [Nat.eqb].
    + rewrite Ve by assumption.
      destruct (apply_dense_slice n x (fF x) (dk P l 0%nat) (dense_for_degree ub l (db P)) 0 l HD Hl) as [_ ->].
      f_equal. unfold dense_for_degree, bias_at. destruct ub; [|reflexivity]. cbn [andb]. destruct (l =? 0)%nat; reflexivity.
    + rewrite Vo by assumption.
      destruct (apply_dense_slice n x (fF x) (dk P l 1%nat) (dense_for_degree false l (db P)) 1 l HD Hl) as [_ ->].
      f_equal. unfold dense_for_degree, bias_at. cbn [andb]. destruct ub, (l =? 0)%nat; reflexivity.
Qed.

Lemma dense_empty : forall x F ub P, valid 0 x -> dense F ub P x = Err ValueError.
Proof.
  intros x F ub P Hx. unfold dense. rewrite (extract_valid x 0 Hx). cbn [bind]. destruct (proj1 Hx) as [HS|HS]; rewrite HS; reflexivity.
Qed.

Lemma dense_ok_inv : forall F ub P x y, dense F ub P x = Ok y -> exists n, valid n x /\ (0 < n)%nat.
Proof.
  intros F ub P x y H.
  destruct (extract_max_degree_and_check_shape (shape_of x)) as [L|e] eqn:E.
  - destruct (extract_ok x L E) as [n [Hn _]]. exists n. split; [exact Hn|].
    destruct n as [|n]; [|lia]. rewrite (dense_empty x F ub P Hn) in H. discriminate.
  - unfold dense in H. rewrite E in H. discriminate.
Qed.

Lemma has_slot_valid : forall n x p l, valid n x ->
  (has_slot x p l <-> (l < n)%nat /\ (fS x = 2%nat \/ (fS x = 1%nat /\ p = (l mod 2)%nat))).
Proof.
  intros n x p l [_ HD]. unfold has_slot. rewrite HD, (sq_le (l + 1) n). split; intros [H1 H2]; split; auto; lia.
Qed.

Lemma no_slot : forall n x i p l k f, valid n x -> (p < 2)%nat -> ~ has_slot x p l -> comp x i p l k f = 0.
Proof.
  intros n x i p l k f Hx Hp H. rewrite (comp_valid n) by assumption.
  destruct (Nat.ltb_spec l n) as [Hl|Hl]; [|reflexivity].
  destruct (Nat.eqb_spec (fS x) 2) as [E|E].
  - exfalso. apply H. apply (has_slot_valid n); auto.
  - destruct (Nat.eqb_spec p (l mod 2)) as [E'|E']; [|reflexivity].
    exfalso. apply H. apply (has_slot_valid n); [assumption|]. split; [assumption|].
    destruct (proj1 Hx); auto.
Qed.

Lemma slot_dec : forall x p l, {has_slot x p l} + {~ has_slot x p l}.
Proof.
  intros x p l. unfold has_slot.
  destruct (le_dec ((l + 1) * (l + 1)) (fD x)); [|right; tauto].
  destruct (Nat.eq_dec (fS x) 2); [left; auto|].
  destruct (Nat.eq_dec (fS x) 1); [|right; tauto].
  destruct (Nat.eq_dec p (l mod 2)); [left; auto|right; tauto].
Qed.

Lemma has_slot_ext : forall x y p l, fS x = fS y -> fD x = fD y -> (has_slot x p l <-> has_slot y p l).
Proof. intros x y p l HS HD. unfold has_slot. rewrite HS, HD. tauto. Qed.

Lemma dense_transformed : forall s D F ub P x x' y, keeps_scalars D ->
  transformed s D x x' -> dense F ub P x = Ok y ->
  exists y', dense F ub P x' = Ok y' /\ transformed s D y y'.
Proof.
  intros s D F ub P x x' y HD HT H. destruct (dense_ok_inv F ub P x y H) as [n [Hx Hn]].
  pose proof (transformed_valid n s D x x' Hx HT) as Hx'.
  destruct (dense_comp n x F ub P Hx Hn) as [y0 [E [V [B [S [Fy [dy C]]]]]]].
  rewrite H in E. injection E as <-.
  destruct (dense_comp n x' F ub P Hx' Hn) as [y' [E' [V' [B' [S' [Fy' [dy' C']]]]]]].
  exists y'. split; [exact E'|]. destruct HT as [TB [TS [TD [TF [Td TC]]]]].
  destruct V as [VS VD], V' as [VS' VD'].
  repeat split; try congruence.
  intros i p l k f Hp Hk.
  destruct (slot_dec y p l) as [Hs|Hs].
  - rewrite C' by (try assumption; apply (has_slot_ext y); congruence).
    rewrite (rsum_ext (2 * l + 1) _ (fun k' => rsum (fF x) (fun a => comp x i p l k' a * dk P l p a f * D i (l * l + k')%nat (l * l + k)%nat)
        + bias_at ub (db P) p l f * D i (l * l + k')%nat (l * l + k)%nat)).
    2: { intros k' Hk'. rewrite C by assumption. rewrite Rmult_plus_distr_r. f_equal. symmetry. apply rsum_scal_r. }
    rewrite rsum_plus, rsum_swap, TF.
    rewrite (rsum_ext (fF x) (fun a => comp x' i p l k a * dk P l p a f)
       (fun a => parity_sign s p * rsum (2 * l + 1) (fun k' => comp x i p l k' a * dk P l p a f * D i (l * l + k')%nat (l * l + k)%nat))).
    2: { intros a Ha. rewrite TC by assumption. rewrite Rmult_assoc. f_equal. rewrite <- rsum_scal_r. apply rsum_ext. intros. ring. }
    rewrite rsum_scal_l, Rmult_plus_distr_l. f_equal.
    unfold bias_at. destruct ub; cbn [andb].
    + destruct (Nat.eqb_spec l 0) as [->|]; cbn [andb].
      * destruct (Nat.eqb_spec p 0) as [->|].
        { assert (k = 0)%nat by lia. subst k. change (2 * 0 + 1)%nat with 1%nat. cbn [rsum Nat.mul Nat.add].
          change (0 * 0 + 0)%nat with 0%nat. rewrite HD. unfold parity_sign. cbn. ring. }
        { rewrite rsum_zero by (intros; ring). ring. }
      * rewrite rsum_zero by (intros; ring). ring.
    + rewrite rsum_zero by (intros; ring). ring.
  - rewrite (no_slot n y') by (try assumption; try (split; assumption); intros Hc; apply Hs; apply (has_slot_ext y'); congruence).
    rewrite rsum_zero; [ring|]. intros k' Hk'. rewrite (no_slot n y) by (try assumption; split; assumption). ring.
Qed.
