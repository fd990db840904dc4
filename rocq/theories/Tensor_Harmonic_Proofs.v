(** The detraced monomials are harmonic, differ from the monomials by multiples of x^2 + y^2 + z^2 and
    are not zero. *)
Require Import List Reals ZArith Bool Arith Lra Lia Setoid Morphisms Ring Field.
Require Import Verif.Base Verif.RSum Verif.Common_Model Verif.Symbolic_Model Verif.Poly_Proofs Verif.PolyDiff_Proofs Verif.Harmonics_Proofs
  Verif.Tensor_Model Verif.Tensor_Detrace_Proofs.
Import ListNotations.
Open Scope R_scope.
Local Notation key3 := Symbolic_Model.key3.

Lemma hom_proper : forall d p q, p == q -> hom d p -> hom d q.
Proof. intros d p q E (p' & E' & H). exists p'. split; [now rewrite <- E|exact H]. Qed.
Lemma hom_add : forall d p q, hom d p -> hom d q -> hom d (p3_add p q).
Proof. intros d p q (p' & E & H) (q' & E' & H'). exists (p3_add p' q'). split; [now rewrite E, E'|now apply homogeneous_add]. Qed.
Lemma hom_mul : forall d e p q, hom d p -> hom e q -> hom (d + e) (p3_mul p q).
Proof. intros d e p q (p' & E & H) (q' & E' & H'). exists (p3_mul p' q'). split; [now rewrite E, E'|now apply homogeneous_mul]. Qed.
Lemma hom_of : forall d p, homogeneous d p -> hom d p.
Proof. intros d p H. now exists p. Qed.
Lemma hom_pd : forall d i p, hom (S d) p -> hom d (pd i p).
Proof. intros d i p (p' & E & H). apply (hom_proper d (pd i p')); [now rewrite E|]. now apply homogeneous_pd. Qed.
Lemma pd_hom0 : forall i p, hom 0 p -> pd i p == pzero.
Proof.
  intros i p (q & E & H). rewrite E. intros w. rewrite lin_pd. transitivity (lin (fun _ => 0) q); [|rewrite lin_w_zero; reflexivity].
  apply lin_ext_in. intros k Hk. apply in_map_iff in Hk as (t & <- & Ht). apply H in Ht. destruct (snd t) as [[a b] c]. cbn in Ht.
  assert (a = 0 /\ b = 0 /\ c = 0)%nat as (-> & -> & ->) by lia. destruct i as [|[|i]]; cbn; ring.
Qed.

Lemma hom_lap : forall d p, hom (S (S d)) p -> hom d (lap p).
Proof. intros d p H. unfold lap. repeat apply hom_add; now apply hom_pd, hom_pd. Qed.
Lemma lap_low : forall d p, (d < 2)%nat -> hom d p -> lap p == pzero.
Proof.
  intros d p Hd H. unfold lap. destruct d as [|[|d]]; [| |lia].
  - rewrite (pd_hom0 0 p H), (pd_hom0 1 p H), (pd_hom0 2 p H). reflexivity.
  - rewrite (pd_hom0 0 (pd 0 p)), (pd_hom0 1 (pd 1 p)), (pd_hom0 2 (pd 2 p)) by (now apply hom_pd). reflexivity.
Qed.
Lemma lapn_hom : forall m n p, hom n p -> (2 * m <= n)%nat -> hom (n - 2 * m) (lapn m p).
Proof.
  induction m as [|m IH]; intros n p H Hm; cbn [lapn]; [now rewrite Nat.mul_0_r, Nat.sub_0_r|].
  apply hom_lap. replace (S (S (n - 2 * S m))) with (n - 2 * m)%nat by lia. apply IH; [exact H|lia].
Qed.

Lemma homogeneous_r2 : homogeneous 2 sh_r2.
Proof.
  unfold sh_r2. apply homogeneous_add; [apply homogeneous_add|];
  [apply (homogeneous_pow 1 p3_x 2), homogeneous_x|apply (homogeneous_pow 1 p3_y 2), homogeneous_y|apply (homogeneous_pow 1 p3_z 2), homogeneous_z].
Qed.

Lemma lap_r2_hom' : forall d p, hom d p -> lap (p3_mul sh_r2 p) == p3_add (p3_mul sh_r2 (lap p)) (p3_scal (6 + 4 * INR d) p).
Proof. intros d p (q & E & H). rewrite E. now apply lap_r2_hom. Qed.

Lemma lap_r2n : forall m d q, hom d q ->
  lap (p3_mul (p3_pow sh_r2 (S m)) q)
  == p3_add (p3_mul (p3_pow sh_r2 (S m)) (lap q))
       (p3_scal (2 * INR (S m) * (2 * INR (S m) + 1 + 2 * INR d)) (p3_mul (p3_pow sh_r2 m) q)).
Proof.
  induction m as [|m IH]; intros d q H.
  - assert (E : p3_mul (p3_pow sh_r2 1) q == p3_mul sh_r2 q) by (rewrite ppow_S, ppow_0; ring).
    rewrite E, (lap_r2_hom' d q H), !ppow_S, !ppow_0. cbn [INR]. replace (2 * 1 * (2 * 1 + 1 + 2 * INR d)) with (6 + 4 * INR d) by ring.
    rewrite !scal_mul. ring.
  - assert (E : p3_mul (p3_pow sh_r2 (S (S m))) q == p3_mul sh_r2 (p3_mul (p3_pow sh_r2 (S m)) q)) by (rewrite (ppow_S sh_r2 (S m)); ring).
    rewrite E, (lap_r2_hom' (S m * 2 + d)).
    2:{ apply hom_mul; [|exact H]. apply hom_of. apply homogeneous_pow, homogeneous_r2. }
    rewrite (IH d q H). rewrite (ppow_S sh_r2 (S m)). 
    replace (2 * INR (S (S m)) * (2 * INR (S (S m)) + 1 + 2 * INR d))
      with (2 * INR (S m) * (2 * INR (S m) + 1 + 2 * INR d) + (6 + 4 * INR (S m * 2 + d)))
      by (rewrite plus_INR, mult_INR, (S_INR (S m)), (S_INR m); cbn [INR]; ring).
    rewrite !scal_mul, !(const_add (2 * INR (S m) * _)), (ppow_S sh_r2 m). ring.
Qed.

Lemma kappa_S : forall n m, (2 * S m <= n)%nat -> kappa n (S m) * (2 * INR (S m) * (2 * INR (S m) + 1 + 2 * INR (n - 2 * S m))) = - kappa n m.
Proof.
  intros n m H. unfold kappa, normalization_ratio.
  assert (E : (2 * n - 1 - 2 * m)%nat = S (S (2 * n - 1 - 2 * S m))) by lia. rewrite E, factorial2_SS.
  assert (Hn : INR (S (S (2 * n - 1 - 2 * S m))) = 2 * INR n - 1 - 2 * INR m).
  { rewrite <- E. rewrite !minus_INR by lia. rewrite !mult_INR. cbn [INR]. ring. }
  rewrite mult_INR, Hn, minus_INR, mult_INR by lia. rewrite INR_fact_S, S_INR. change (INR 2) with 2. cbn [pow].
  assert (F : INR (factorial2 (2 * n - 1)) <> 0) by (apply not_0_INR; pose proof (factorial2_pos (2 * n - 1)); lia).
  pose proof (pos_INR m). pose proof (INR_fact_neq m). assert (2 ^ m <> 0) by (apply pow_nonzero; lra).
  field. repeat split; auto; lra.
Qed.

Lemma lap_partial : forall n k M, key3_deg k = n -> (2 * M <= n)%nat ->
  lap (p3_sum (M + 1) (fun m => p3_scal (kappa n m) (p3_mul (p3_pow sh_r2 m) (lapn m (mono k)))))
  == p3_scal (kappa n M) (p3_mul (p3_pow sh_r2 M) (lapn (S M) (mono k))).
Proof.
  intros n k M Hk. assert (HK : hom n (mono k)) by (apply hom_of; intros t [<-|[]]; exact Hk). induction M as [|M IH]; intros HM.
  - change (0 + 1)%nat with 1%nat. rewrite psum_S, psum_0, lap_add, lap_scal, ppow_0. cbn [lapn].
    assert (E : p3_mul pone (mono k) == mono k) by ring. rewrite E. assert (Z : lap pzero == pzero) by reflexivity. rewrite Z, !scal_mul. ring.
  - change (S M + 1)%nat with (S (M + 1)). rewrite psum_S, lap_add, IH by lia. replace (M + 1)%nat with (S M) by lia.
    rewrite lap_scal, (lap_r2n M (n - 2 * S M)) by (now apply lapn_hom). change (lap (lapn (S M) (mono k))) with (lapn (S (S M)) (mono k)).
    pose proof (kappa_S n M HM) as K. set (c := 2 * INR (S M) * (2 * INR (S M) + 1 + 2 * INR (n - 2 * S M))) in *.
    intros w. rewrite lin_add, !lin_scal, lin_add, lin_scal.
    transitivity (kappa n M * lin w (p3_mul (p3_pow sh_r2 M) (lapn (S M) (mono k))) + kappa n (S M) * c * lin w (p3_mul (p3_pow sh_r2 M) (lapn (S M) (mono k)))
      + kappa n (S M) * lin w (p3_mul (p3_pow sh_r2 (S M)) (lapn (S (S M)) (mono k)))); [ring|]. rewrite K. ring.
Qed.

Lemma lap_detraced : forall n k, key3_deg k = n -> lap (detraced n k) == pzero.
Proof.
  intros n k Hk. unfold detraced. rewrite lap_partial by (try exact Hk; apply Nat.mul_div_le; lia).
  assert (Z : lapn (S (n / 2)) (mono k) == pzero).
  { cbn [lapn]. apply (lap_low (n - 2 * (n / 2))).
    - pose proof (Nat.div_mod n 2 ltac:(lia)). pose proof (Nat.mod_upper_bound n 2 ltac:(lia)). lia.
    - apply lapn_hom; [apply hom_of; intros t [<-|[]]; exact Hk|]. apply Nat.mul_div_le. lia. }
  rewrite Z, scal_mul. ring.
Qed.

Lemma detraced_split : forall n k, exists q, detraced n k == p3_add (mono k) (p3_mul sh_r2 q).
Proof.
  intros n k. exists (p3_sum (n / 2) (fun m => p3_scal (kappa n (S m)) (p3_mul (p3_pow sh_r2 m) (lapn (S m) (mono k))))).
  unfold detraced. replace (n / 2 + 1)%nat with (S (n / 2)) by lia. rewrite psum_S_l, kappa_0, pscal_1, ppow_0.
  change (lapn 0 (mono k)) with (mono k). rewrite <- psum_mul_l.
  assert (E : p3_sum (n / 2) (fun i => p3_scal (kappa n (S i)) (p3_mul (p3_pow sh_r2 (S i)) (lapn (S i) (mono k))))
    == p3_sum (n / 2) (fun i => p3_mul sh_r2 (p3_scal (kappa n (S i)) (p3_mul (p3_pow sh_r2 i) (lapn (S i) (mono k)))))).
  { apply psum_ext. intros i _. rewrite ppow_S, !scal_mul. ring. }
  rewrite E. ring.
Qed.

Lemma fischer_detraced : forall n k h, lap h == pzero -> fischer h (detraced n k) = fischer h (mono k).
Proof.
  intros n k h H. destruct (detraced_split n k) as [q E]. rewrite E, fischer_add_r, (fischer_sym h (p3_mul sh_r2 q)), fischer_r2, H, fischer_zero_r. ring.
Qed.

(** Evaluation at the point (3, 4, 5i), up to a power of i *)
Definition at_cone (k : key3) : R := let '(a, b, c) := k in 3 ^ a * 4 ^ b * (5 ^ c * (if Nat.even (c / 2) then 1 else -1)).
Lemma at_cone_neq : forall k, at_cone k <> 0.
Proof.
  intros [[a b] c]. unfold at_cone. repeat apply Rmult_integral_contrapositive_currified; try (apply pow_nonzero; lra).
  destruct (Nat.even (c / 2)); lra.
Qed.
Lemma at_cone_r2 : forall q, lin at_cone (p3_mul sh_r2 q) = 0.
Proof.
  intros q. rewrite (pmul_comm sh_r2 q at_cone), lin_mul. transitivity (lin (fun _ => 0) q); [|apply lin_w_zero]. apply lin_ext.
  intros [[a b] c]. unfold sh_r2. rewrite !lin_add.
  assert (X : lin (fun k' => at_cone (key3_mul (a, b, c) k')) (p3_pow p3_x 2) = at_cone (S (S a), b, c)).
  { rewrite (pow_x 2 _), lin_mono. cbn [key3_mul]. f_equal. repeat f_equal; lia. }
  assert (Y : lin (fun k' => at_cone (key3_mul (a, b, c) k')) (p3_pow p3_y 2) = at_cone (a, S (S b), c)).
  { rewrite (pow_y 2 _), lin_mono. cbn [key3_mul]. f_equal. repeat f_equal; lia. }
  assert (Z : lin (fun k' => at_cone (key3_mul (a, b, c) k')) (p3_pow p3_z 2) = at_cone (a, b, S (S c))).
  { rewrite (pow_z 2 _), lin_mono. cbn [key3_mul]. f_equal. repeat f_equal; lia. }
  rewrite X, Y, Z. unfold at_cone.
  replace (S (S c) / 2)%nat with (S (c / 2)) by (replace (S (S c)) with (c + 1 * 2)%nat by lia; rewrite Nat.div_add by lia; lia).
  rewrite Nat.even_succ, <- Nat.negb_even. cbn [pow]. destruct (Nat.even (c / 2)); cbn [negb]; ring.
Qed.

Lemma detraced_nonzero : forall n k, ~ detraced n k == pzero.
Proof.
  intros n k H. destruct (detraced_split n k) as [q E]. rewrite E in H. specialize (H at_cone).
  rewrite lin_add, at_cone_r2, lin_mono in H. apply (at_cone_neq k). change (lin at_cone pzero) with 0 in H. lra.
Qed.
