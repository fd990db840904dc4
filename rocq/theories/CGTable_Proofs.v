(** Clebsch-Gordan coefficients: exchange of the factors, products with scalars, and the entries of the
    arrays that the package returns. *)
Require Import List Reals ZArith Lra Lia Arith Bool Psatz.
Require Import Verif.Base Verif.RSum Verif.Common_Proofs Verif.LUT_Model Verif.LUT_Spec Verif.LUT_Props Verif.Symbolic_Model Verif.Symbolic_Proofs Verif.Rotations_Model Verif.Rotations_Spec Verif.Poly_Proofs Verif.Harmonics_Basis_Proofs
  Verif.Irreps_Model Verif.Irreps_Spec Verif.Irreps_Proofs Verif.Irreps_Wigner_Proofs Verif.Irreps_Laws_Proofs Verif.Irreps_Props
  Verif.Clebsch_Model Verif.Racah_Proofs Verif.Generators_Proofs Verif.Invariance_Proofs Verif.RealCG_Proofs.
Import ListNotations.
Open Scope R_scope.
Arguments Nat.mul : simpl never.

(** * Exchange of the two factors *)
Lemma cc_exchange : forall l1 l2 l3 m1 m2 m3, triangle l1 l2 l3 -> complex_cg l2 l1 l3 m2 m1 m3 = (-1) ^ (l1 + l2 + l3) * complex_cg l1 l2 l3 m1 m2 m3.
Proof.
  intros l1 l2 l3 m1 m2 m3 T. assert (T' : triangle l2 l1 l3) by (unfold triangle in *; lia).
  destruct (Z.eq_dec (m1 + m2) m3) as [E|E]; [|rewrite !cc_select by lia; ring]. subst m3.
  destruct (Z_le_gt_dec (Z.abs m1) (Z.of_nat l1)) as [W1|W1]; [|rewrite !cc_within by (unfold within; lia); ring].
  destruct (Z_le_gt_dec (Z.abs m2) (Z.of_nat l2)) as [W2|W2]; [|rewrite !cc_within by (unfold within; lia); ring].
  destruct (Z_le_gt_dec (Z.abs (m1 + m2)) (Z.of_nat l3)) as [W3|W3]; [|rewrite !cc_within by (unfold within; lia); ring].
  rewrite (cc_value l1 l2 l3) by (exact T || (unfold within; lia)).
  replace (m1 + m2)%Z with (m2 + m1)%Z by lia. rewrite (cc_value l2 l1 l3) by (exact T' || (unfold within; lia)).
  assert (E : csum l2 l1 l3 m2 m1 = (-1) ^ (l1 + l2 + l3) * csum l1 l2 l3 m1 m2).
  { unfold triangle in T. unfold csum.
    pose proof (racah_rev (l1 + l2 - l3) (Z.of_nat l1 - m1) (Z.of_nat l2 + m2) (Z.of_nat l3 - Z.of_nat l2 + m1) (Z.of_nat l3 - Z.of_nat l1 - m2)) as P.
    rewrite pow_m1_sub in P by lia. rewrite <- pow_add in P. rewrite <- P. replace (l2 + l1)%nat with (l1 + l2)%nat by lia.
    unfold racah_sum. apply rsum_ext; intros k _. cbv zeta.
    replace (Z.of_nat l1 - m1 - Z.of_nat (l1 + l2 - l3))%Z with (Z.of_nat l3 - Z.of_nat l2 - m1)%Z by lia.
    replace (Z.of_nat l2 + m2 - Z.of_nat (l1 + l2 - l3))%Z with (Z.of_nat l3 - Z.of_nat l1 + m2)%Z by lia.
    replace (Z.of_nat l3 - Z.of_nat l2 + m1 + Z.of_nat (l1 + l2 - l3))%Z with (Z.of_nat l1 + m1)%Z by lia.
    replace (Z.of_nat l3 - Z.of_nat l1 - m2 + Z.of_nat (l1 + l2 - l3))%Z with (Z.of_nat l2 - m2)%Z by lia. ring. }
  assert (N : cnorm l2 l1 l3 = cnorm l1 l2 l3).
  { unfold cnorm. f_equal. replace (Z.of_nat l2 + Z.of_nat l1)%Z with (Z.of_nat l1 + Z.of_nat l2)%Z by lia. unfold Rdiv. ring. }
  rewrite E, N. ring.
Qed.

Lemma T_exchange : forall l1 l2 l3 a b c, triangle l1 l2 l3 -> T l2 l1 l3 b a c = (-1) ^ (l1 + l2 + l3) * T l1 l2 l3 a b c.
Proof.
  intros l1 l2 l3 a b c Tr. unfold T. rewrite !tri_flat, zs_swap. rewrite <- zs3_scal.
  apply zs_ext; intros x _. apply zs_ext; intros y _. apply zs_ext; intros z _. rewrite (cc_exchange l1 l2 l3 x y z Tr). ring.
Qed.

Lemma RC_exchange : forall l1 l2 l3 a b c, triangle l1 l2 l3 -> RC l2 l1 l3 b a c = (-1) ^ (l1 + l2 + l3) * RC l1 l2 l3 a b c.
Proof.
  intros l1 l2 l3 a b c Tr. unfold RC. rewrite (T_exchange l1 l2 l3 a b c Tr).
  replace (phase l2 l1 l3 b a c) with (phase l1 l2 l3 a b c) by (unfold phase; lia). ring.
Qed.

(** * One factor is a scalar *)
Lemma cc_unit : forall l m, within l m -> complex_cg l 0 l m 0 m = 1.
Proof.
  intros l m W. assert (Tr : triangle l 0 l) by (unfold triangle; lia).
  pose proof (cc_value l 0 l m 0 Tr W) as E. replace (m + 0)%Z with m in E by lia. rewrite E by (assumption || (unfold within; lia)).
  assert (G : gfac 0 0 = 1) by (unfold gfac; rewrite !(zfact_nat _ 0) by lia; cbn [fact]; change (INR 1) with 1; rewrite Rmult_1_r; apply sqrt_1). rewrite G.
  unfold csum. replace (l + 0 - l)%nat with 0%nat by lia. unfold racah_sum. change (rsum (0 + 1)) with (rsum 1). cbn [rsum].
  cbv zeta. cbn [pow]. change (Z.of_nat 0) with 0%Z. rewrite !Z.sub_0_r, !Z.add_0_r.
  replace (Z.of_nat l - Z.of_nat l)%Z with 0%Z by lia.
  unfold within in W.
  rewrite !rfact_zfact by lia.
  assert (Z0 : zfact 0 = 1) by (unfold zfact; cbn; ring). rewrite !Z0.
  assert (N : cnorm l 0 l = 1).
  { unfold cnorm. change (Z.of_nat 0) with 0%Z. replace (Z.of_nat l + 0 - Z.of_nat l)%Z with 0%Z by lia. replace (0 - Z.of_nat l + Z.of_nat l)%Z with 0%Z by lia. rewrite !Z0.
    transitivity (sqrt 1); [|apply sqrt_1]. f_equal. replace (Z.of_nat l + 0 + Z.of_nat l + 1)%Z with (Z.of_nat (S (2 * l))) by lia. replace (Z.of_nat l - 0 + Z.of_nat l)%Z with (Z.of_nat (2 * l)) by lia.
    unfold zfact. rewrite !Nat2Z.id. rewrite fact_simpl, mult_INR, S_INR, mult_INR. change (INR 2) with 2. pose proof (fact_neq (2 * l)). pose proof (pos_INR l). field. split; [assumption|lra]. }
  rewrite N. pose proof (gfac_sqr l m) as Q. pose proof (zfact_pos (Z.of_nat l + m)). pose proof (zfact_pos (Z.of_nat l - m)).
  transitivity (gfac l m * gfac l m * (/ zfact (Z.of_nat l + m) * / zfact (Z.of_nat l - m))); [field; lra|]. rewrite Q. field. lra.
Qed.

Lemma RC_unit : forall l a c, within l a -> within l c -> RC l 0 l a 0 c = if (a =? c)%Z then 1 else 0.
Proof.
  intros l a c Wa Wc. unfold RC.
  assert (E : T l 0 l a 0 c = if (a =? c)%Z then 1 else 0).
  { rewrite <- (V_rows l a c Wa Wc). unfold T, tri. apply zs_ext; intros x Wx. f_equal.
    rewrite (zs_V 0 0 (fun y => zs l (fun z => V c z * complex_cg l 0 l x y z))) by (unfold within; lia). cbn [Z.opp]. change (ra 0) with (1 / 2). change (rb 0) with (1 / 2).
    rewrite (zs_single l _ x Wx).
    - rewrite cc_unit by exact Wx. field.
    - intros z Wz N. rewrite cc_select by lia. ring. }
  rewrite E. destruct (Z.eqb_spec a c) as [<-|N]; [|ring]. unfold phase. change (sg 0) with 0%Z.
  replace (Z.of_nat l + Z.of_nat 0 - Z.of_nat l + sg a + 0 - sg a)%Z with 0%Z by lia. cbn. ring.
Qed.

Lemma pow_m1_double : forall l, (-1) ^ (l + 0 + l) = 1.
Proof. intros l. replace (l + 0 + l)%nat with (2 * l)%nat by lia. apply pow_1_even. Qed.

Lemma RC_unit_l : forall l a c, within l a -> within l c -> RC 0 l l 0 a c = if (a =? c)%Z then 1 else 0.
Proof.
  intros l a c Wa Wc. rewrite (RC_exchange l 0 l a 0 c) by (unfold triangle; lia). rewrite RC_unit by assumption. rewrite pow_m1_double. ring.
Qed.

(** * A full orthonormal family is complete *)
Section Complete.
Variables (K N : nat) (u : nat -> nat -> R) (g : nat -> bool).
Hypothesis gram : forall k k', (k < K)%nat -> (k' < K)%nat -> rsum N (fun i => u k i * u k' i) = if (k =? k')%nat then (if g k then 1 else 0) else 0.
Hypothesis dead : forall k i, (k < K)%nat -> g k = false -> u k i = 0.
Hypothesis count : rsum K (fun k => if g k then 1 else 0) = INR N.

Definition proj (i j : nat) : R := rsum K (fun k => u k i * u k j).
Lemma proj_sym : forall i j, proj i j = proj j i.
Proof. intros. unfold proj. apply rsum_ext; intros. ring. Qed.
Lemma proj_proj : forall i j, rsum N (fun x => proj i x * proj x j) = proj i j.
Proof.
  intros i j. unfold proj.
  transitivity (rsum K (fun k => rsum K (fun k' => u k i * u k' j * rsum N (fun x => u k x * u k' x)))).
  { transitivity (rsum N (fun x => rsum K (fun k => rsum K (fun k' => u k i * u k' j * (u k x * u k' x))))).
    - apply rsum_ext; intros x _. rewrite <- rsum_scal_r. apply rsum_ext; intros k _. rewrite <- rsum_scal_l. apply rsum_ext; intros k' _. ring.
    - rewrite rsum_swap. apply rsum_ext; intros k _. rewrite rsum_swap. apply rsum_ext; intros k' _. now rewrite rsum_scal_l. }
  apply rsum_ext; intros k Hk. rewrite (rsum_single _ _ k Hk).
  - rewrite gram by assumption. rewrite Nat.eqb_refl. destruct (g k) eqn:G; [ring|]. rewrite (dead k i Hk G). ring.
  - intros k' Hk' E. rewrite gram by assumption. destruct (Nat.eqb_spec k k'); [congruence|ring].
Qed.

Let q (i j : nat) : R := (if (i =? j)%nat then 1 else 0) - proj i j.
Lemma q_row : forall i, (i < N)%nat -> rsum N (fun j => q i j * q i j) = q i i.
Proof.
  intros i Hi. unfold q.
  transitivity (rsum N (fun j => (if (i =? j)%nat then 1 else 0) * (1 - 2 * proj i i) + proj i j * proj j i)).
  { apply rsum_ext; intros j _. rewrite (proj_sym j i). destruct (Nat.eqb_spec i j) as [<-|]; ring. }
  rewrite rsum_plus, proj_proj, rsum_scal_r. rewrite (rsum_single N (fun j => if (i =? j)%nat then 1 else 0) i Hi).
  - rewrite Nat.eqb_refl. ring.
  - intros j _ E. destruct (Nat.eqb_spec i j); congruence.
Qed.
Lemma q_trace : rsum N (fun i => q i i) = 0.
Proof.
  unfold q. rewrite rsum_minus.
  transitivity (INR N - rsum K (fun k => if g k then 1 else 0)); [|rewrite count; ring]. f_equal.
  - transitivity (rsum N (fun _ => 1)); [apply rsum_ext; intros; now rewrite Nat.eqb_refl|]. rewrite rsum_const. ring.
  - unfold proj. rewrite rsum_swap. apply rsum_ext; intros k Hk. rewrite gram by assumption. now rewrite Nat.eqb_refl.
Qed.
Lemma rsum_zero_terms : forall n f, (forall i, (i < n)%nat -> 0 <= f i) -> rsum n f = 0 -> forall i, (i < n)%nat -> f i = 0.
Proof.
  induction n as [|n IH]; intros f Hf E i Hi; [lia|]. cbn [rsum] in E.
  assert (A : 0 <= rsum n f) by (apply rsum_nonneg; intros; apply Hf; lia). assert (B : 0 <= f n) by (apply Hf; lia).
  destruct (Nat.eq_dec i n) as [->|D]; [lra|]. apply IH; [intros; apply Hf; lia|lra|lia].
Qed.
Lemma complete : forall i j, (i < N)%nat -> (j < N)%nat -> rsum K (fun k => u k i * u k j) = if (i =? j)%nat then 1 else 0.
Proof.
  intros i j Hi Hj.
  assert (Z : q i i = 0).
  { apply (rsum_zero_terms N (fun i => q i i)); [|apply q_trace|exact Hi]. intros x Hx. rewrite <- (q_row x Hx). apply rsum_nonneg. intros y _. apply Rle_0_sqr. }
  pose proof (q_row i Hi) as S. rewrite Z in S.
  pose proof (rsum_zero_terms N (fun j => q i j * q i j) ltac:(intros; apply Rle_0_sqr) S j Hj) as P. cbv beta in P.
  assert (Q : q i j = 0) by nra. unfold q, proj in Q. lra.
Qed.
End Complete.

(** * The arrays *)

Definition cg_array (L1 L2 L3 : Z) (cartesian : bool) (c : list (list (list R))) : Prop :=
  cg_returns R 0 rzero real_clebsch_gordan L1 L2 L3 cartesian c.

Lemma table_inv : forall L1 L2 L3 ca c, cg_array L1 L2 L3 ca c -> (0 <= L1 /\ 0 <= L2 /\ 0 <= L3)%Z
  /\ shape3 (degrees L1 * degrees L1) (degrees L2 * degrees L2) (degrees L3 * degrees L3) c
  /\ forall l1 i l2 j l3 k, (l1 < degrees L1)%nat -> (l2 < degrees L2)%nat -> (l3 < degrees L3)%nat ->
      (i < 2 * l1 + 1)%nat -> (j < 2 * l2 + 1)%nat -> (k < 2 * l3 + 1)%nat ->
      at3 0 c (l1 * l1 + i) (l2 * l2 + j) (l3 * l3 + k) = on_orders l1 l2 l3 (RC l1 l2 l3) (pos ca l1 i) (pos ca l2 j) (pos ca l3 k).
Proof.
  intros L1 L2 L3 ca c [empty [w [s [o [Hw [Hc E]]]]]].
  assert (P : (0 <= L1 /\ 0 <= L2 /\ 0 <= L3)%Z).
  { destruct (Z_lt_le_dec L1 0); [|destruct (Z_lt_le_dec L2 0); [|destruct (Z_lt_le_dec L3 0); [|lia]]];
      (destruct (C59_rejected R 0 rzero real_clebsch_gordan empty w s o L1 L2 L3 ca ltac:(lia)) as [X _]; rewrite X in E; discriminate). }
  split; [exact P|]. destruct P as [P1 [P2 P3]].
  destruct (C59_entries R 0 rzero real_clebsch_gordan empty w s o L1 L2 L3 ca rzero_test Hw Hc P1 P2 P3) as [c' [E' [Sh V]]].
  rewrite E in E'. injection E' as <-. split; [exact Sh|]. intros l1 i l2 j l3 k B1 B2 B3 Hi Hj Hk.
  destruct (V l1 i l2 j l3 k B1 B2 B3 Hi Hj Hk) as [A B]. unfold on_orders, order. rewrite !order_at_pos by assumption.
  assert (W : forall l x, (x < 2 * l + 1)%nat -> within l (order_at ca l x)).
  { intros l x Hx. rewrite <- order_at_pos by exact Hx. pose proof (pos_lt ca l x Hx). unfold within. lia. }
  rewrite <- rcg_RC by (now apply W). destruct (LUT_CG_Proofs.selected_dec l1 (order_at ca l1 i) l2 (order_at ca l2 j) l3 (order_at ca l3 k)) as [Y|N].
  - rewrite (A Y). reflexivity.
  - rewrite (B N). rewrite rcg_RC by (now apply W). symmetry. now apply RC_selected.
Qed.

Lemma zs_pos : forall ca l f, rsum (2 * l + 1) (fun i => f (order l (pos ca l i))) = zs l f.
Proof. intros ca l f. unfold zs. rewrite (rsum_pos ca l (fun i => f (order l i))). reflexivity. Qed.

Lemma order_pos_within : forall ca l i, (i < 2 * l + 1)%nat -> within l (order l (pos ca l i)).
Proof. intros ca l i Hi. apply (ord_within l (pos ca l i)). now apply pos_lt. Qed.

Lemma order_pos_eqb : forall ca l i j, (i < 2 * l + 1)%nat -> (j < 2 * l + 1)%nat -> (order l (pos ca l i) =? order l (pos ca l j))%Z = (i =? j)%nat.
Proof.
  intros ca l i j Hi Hj. unfold order. destruct (Nat.eqb_spec i j) as [<-|N]; [apply Z.eqb_refl|]. apply Z.eqb_neq. intros E. apply N. apply (pos_inj ca l i j Hi Hj). lia.
Qed.

Lemma pos_00 : forall ca, pos ca 0 0 = 0%nat. Proof. destruct ca; reflexivity. Qed.

(** Proper rotations are right-handed. *)
Lemma rotation_right_handed : forall m, proper_rotation m -> right_handed (entry m).
Proof. intros m [_ H]. unfold right_handed. rewrite <- H. destruct m as [[[[a b] c] [[d e] f]] [[g h] k]]. cbn. ring. Qed.

Lemma rc_intertwines : forall l1 l2 l3 m a b c, proper_rotation m -> (a < 2 * l1 + 1)%nat -> (b < 2 * l2 + 1)%nat -> (c < 2 * l3 + 1)%nat ->
  rsum (2 * l1 + 1) (fun a' => rsum (2 * l2 + 1) (fun b' => dmat (entry m) l1 a a' * dmat (entry m) l2 b b' * on_orders l1 l2 l3 (RC l1 l2 l3) a' b' c))
  = rsum (2 * l3 + 1) (fun c' => on_orders l1 l2 l3 (RC l1 l2 l3) a b c' * dmat (entry m) l3 c' c).
Proof.
  intros l1 l2 l3 m a b c Hm. destruct (orthogonal_rows m (rotation_orthogonal m Hm)) as [H1 H2]. revert a b c.
  apply fixed_intertwines; [exact H1|exact H2|]. apply fixed_rotations; [apply RC_y|apply RC_z|exact H1|now apply rotation_right_handed].
Qed.

(** * The number of components *)
Lemma count_components : forall l1 l2, rsum (l1 + l2 + 1) (fun l => if ((l1 <=? l2 + l)%nat && (l2 <=? l1 + l)%nat)%bool then INR (2 * l + 1) else 0) = INR ((2 * l1 + 1) * (2 * l2 + 1)).
Proof.
  intros l1 l2.
  assert (Sq : forall n, rsum n (fun l => INR (2 * l + 1)) = INR (n * n)).
  { induction n as [|n IH]; [reflexivity|]. cbn [rsum]. rewrite IH, <- plus_INR. f_equal. lia. }
  set (d := ((l1 - l2) + (l2 - l1))%nat). assert (Hd : (d <= l1 + l2 + 1)%nat) by (unfold d; lia).
  assert (E : rsum (l1 + l2 + 1) (fun l => INR (2 * l + 1)) = rsum d (fun l => INR (2 * l + 1)) + rsum (l1 + l2 + 1) (fun l => if ((l1 <=? l2 + l)%nat && (l2 <=? l1 + l)%nat)%bool then INR (2 * l + 1) else 0)).
  { replace (l1 + l2 + 1)%nat with (d + (l1 + l2 + 1 - d))%nat by lia. rewrite !rsum_add.
    rewrite (rsum_zero d (fun l => if ((l1 <=? l2 + l)%nat && (l2 <=? l1 + l)%nat)%bool then INR (2 * l + 1) else 0)).
    - rewrite Rplus_0_l. f_equal. apply rsum_ext; intros i _. destruct (Nat.leb_spec l1 (l2 + (d + i))), (Nat.leb_spec l2 (l1 + (d + i))); cbn [andb]; try reflexivity; unfold d in *; lia.
    - intros i Hi. destruct (Nat.leb_spec l1 (l2 + i)), (Nat.leb_spec l2 (l1 + i)); cbn [andb]; try reflexivity. unfold d in *; lia. }
  rewrite !Sq in E.
  assert (Q : INR ((l1 + l2 + 1) * (l1 + l2 + 1)) = INR (d * d) + INR ((2 * l1 + 1) * (2 * l2 + 1))).
  { rewrite <- plus_INR. f_equal. unfold d. destruct (le_lt_dec l1 l2).
    - replace (l1 - l2)%nat with 0%nat by lia. remember (l2 - l1)%nat as e. assert (l2 = l1 + e)%nat as -> by lia. nia.
    - replace (l2 - l1)%nat with 0%nat by lia. remember (l1 - l2)%nat as e. assert (l1 = l2 + e)%nat as -> by lia. nia. }
  lra.
Qed.

(** * Two vectors *)
Lemma sqrt_eighth : sqrt (1 / 8) * 2 = 1 / sqrt 2.
Proof.
  pose proof sqrt2_pos. pose proof sqrt2_sqr as S.
  assert (E : sqrt (1 / 8) = 1 / (2 * sqrt 2)).
  { apply sqrt_lem_1; [lra|apply Rlt_le; unfold Rdiv; rewrite Rmult_1_l; apply Rinv_0_lt_compat; lra|].
    transitivity (1 / (4 * (sqrt 2 * sqrt 2))); [field; lra|rewrite S; field]. }
  rewrite E. field. lra.
Qed.
Lemma zfact_0 : zfact 0 = 1. Proof. unfold zfact. rewrite INR_IZR_INZ. reflexivity. Qed.
Lemma zfact_1 : zfact 1 = 1. Proof. unfold zfact. rewrite INR_IZR_INZ. reflexivity. Qed.
Lemma zfact_2 : zfact 2 = 2. Proof. unfold zfact. rewrite INR_IZR_INZ. reflexivity. Qed.
Lemma zfact_4 : zfact 4 = 24. Proof. unfold zfact. rewrite INR_IZR_INZ. reflexivity. Qed.
Lemma cnorm_111 : cnorm 1 1 1 = sqrt (1 / 8).
Proof.
  unfold cnorm. cbn [Z.of_nat Z.add Z.sub Z.opp Z.pos_sub Pos.of_succ_nat Pos.add Pos.succ Pos.pred_double INR]. rewrite zfact_1, zfact_4. f_equal. field.
Qed.
Lemma gfac_1 : gfac 1 1 = sqrt 2 /\ gfac 1 (-1) = sqrt 2 /\ gfac 1 0 = 1.
Proof.
  unfold gfac. cbn [Z.of_nat Pos.of_succ_nat Z.add Z.sub Z.opp Z.pos_sub Pos.add Pos.succ Pos.pred_double]. rewrite zfact_0, zfact_1, zfact_2.
  split; [|split]; [f_equal; ring|f_equal; ring|rewrite Rmult_1_r; apply sqrt_1].
Qed.
Lemma rfact_0 : rfact 0 = 1. Proof. unfold rfact. cbn. apply Rinv_1. Qed.
Lemma rfact_1 : rfact 1 = 1. Proof. unfold rfact. cbn. apply Rinv_1. Qed.
Lemma csum_111 : csum 1 1 1 1 (-1) = 1 /\ csum 1 1 1 1 0 = 1.
Proof.
  unfold csum, racah_sum. cbn [Nat.add Nat.sub rsum Z.of_nat Pos.of_succ_nat Z.add Z.sub Z.opp Z.pos_sub Pos.add Pos.succ pow Pos.pred_double]. rewrite rfact_0, rfact_1, !(rfact_neg (-1)) by lia. split; ring.
Qed.
Lemma cc_111 : complex_cg 1 1 1 1 (-1) 0 = 1 / sqrt 2 /\ complex_cg 1 1 1 1 0 1 = 1 / sqrt 2.
Proof.
  assert (Tr : triangle 1 1 1) by (unfold triangle; lia). destruct gfac_1 as [G1 [G2 G3]]. destruct csum_111 as [S1 S2].
  pose proof (cc_value 1 1 1 1 (-1) Tr ltac:(unfold within; lia) ltac:(unfold within; lia) ltac:(unfold within; lia)) as E1.
  pose proof (cc_value 1 1 1 1 0 Tr ltac:(unfold within; lia) ltac:(unfold within; lia) ltac:(unfold within; lia)) as E2.
  cbn [Z.add Z.pos_sub] in E1, E2. rewrite E1, E2, cnorm_111, G1, G2, G3, S1, S2. pose proof sqrt2_sqr as S. rewrite <- sqrt_eighth.
  split; (transitivity (sqrt (1 / 8) * (sqrt 2 * sqrt 2)); [ring|rewrite S; ring]).
Qed.

Lemma RC_111 : RC 1 1 1 1 (-1) 0 = 1 / sqrt 2 /\ RC 1 1 1 1 0 (-1) = - (1 / sqrt 2) /\ RC 1 1 1 (-1) 0 1 = 1 / sqrt 2.
Proof.
  assert (Tr : triangle 1 1 1) by (unfold triangle; lia). destruct cc_111 as [A B].
  assert (A' : complex_cg 1 1 1 (-1) 1 0 = - (1 / sqrt 2)) by (rewrite (cc_exchange 1 1 1 1 (-1) 0 Tr), A; cbn [Nat.add pow]; ring).
  assert (B' : complex_cg 1 1 1 (-1) 0 (-1) = - (1 / sqrt 2)) by (pose proof (cc_opp 1 1 1 1 0 1) as E; cbn [Z.opp] in E; rewrite E, B; cbn [Nat.add pow]; ring).
  pose proof sqrt2_pos. pose proof half_sqr as S.
  rewrite <- !rcg_RC by (unfold within; lia). unfold rcg, real_clebsch_gordan, clebsch_gordan_complex, a_b.
  change (i_pow (Z.of_nat 1 + Z.of_nat 1 - Z.of_nat 1)) with (0, 1).
  cbn [Z.ltb Z.compare Z.modulo Z.div_eucl Z.pos_div_eucl Z.eqb Pos.eqb Z.opp Z.mul Z.add Z.leb Pos.compare Pos.compare_cont Z.sub Pos.sub fst snd Z.pos_sub Z.of_nat Pos.of_succ_nat i_pow Z.geb Z.leb].
  rewrite ?A, ?A', ?B, ?B'.
  rewrite (cc_select 1 1 1 1 1 0), (cc_select 1 1 1 (-1) (-1) 0), (cc_select 1 1 1 1 0 (-1)), (cc_select 1 1 1 (-1) 0 1) by lia.
  unfold c_mul, c_add, conjugate, c_real. cbn [fst snd].
  set (q := 1 / sqrt 2) in *. replace (-1 / sqrt 2) with (- q) by (unfold q; field; lra).
  replace (-q) with (- 1 * q) by ring.
  repeat split; try (transitivity (q * (q * q + q * q)); [field|rewrite S; field]); try (transitivity (- q * (q * q + q * q)); [field|rewrite S; field]).
Qed.
