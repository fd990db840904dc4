(** Property C66: the Clebsch-Gordan arrays of the package couple real irreducible representations of
    the rotation group. *)
Require Import List Reals ZArith Lra Lia Arith Bool Psatz.
Require Import Verif.Base Verif.RSum Verif.Common_Proofs Verif.LUT_Model Verif.LUT_Spec Verif.LUT_Props Verif.Symbolic_Model Verif.Symbolic_Proofs
  Verif.Rotations_Model Verif.Rotations_Spec Verif.Harmonics_Basis_Proofs
  Verif.Irreps_Model Verif.Irreps_Spec Verif.Irreps_Proofs Verif.Irreps_Wigner_Proofs Verif.Irreps_Laws_Proofs Verif.Irreps_Props
  Verif.Clebsch_Model Verif.Racah_Proofs Verif.Invariance_Proofs Verif.RealCG_Proofs Verif.CGTable_Proofs.
Import ListNotations.
Open Scope R_scope.
Arguments Nat.mul : simpl never.

(** [cg_array L1 L2 L3 cartesian c]: [c] is what some call of [clebsch_gordan] returns
    (CGTable_Proofs).  The coefficients that the tables are filled with are real numbers, although
    they are computed as sums of products of complex numbers. *)
Theorem C66_real : forall l1 l2 l3 m1 m2 m3, (Z.abs m1 <= Z.of_nat l1)%Z -> (Z.abs m2 <= Z.of_nat l2)%Z -> (Z.abs m3 <= Z.of_nat l3)%Z ->
  snd (clebsch_gordan_complex l1 m1 l2 m2 l3 m3) = 0.
Proof. exact cg_real. Qed.
Print Assumptions C66_real.

(** The call succeeds for all non-negative degrees. *)
Theorem C66_total : forall L1 L2 L3 cartesian, (0 <= L1)%Z -> (0 <= L2)%Z -> (0 <= L3)%Z -> exists c, cg_array L1 L2 L3 cartesian c.
Proof.
  intros L1 L2 L3 ca H1 H2 H3.
  destruct (C59_entries R 0 rzero real_clebsch_gordan 0 empty_world None IoOk L1 L2 L3 ca rzero_test (cg_ready_empty _ _ _ _) call_ok_serial H1 H2 H3) as [c [E _]].
  exists c, 0%nat, empty_world, None, IoOk. auto using cg_ready_empty, call_ok_serial.
Qed.
Print Assumptions C66_total.

(** Rotating both factors rotates their product: the coefficients intertwine the Wigner-D matrices that
    [wigner_d] returns for any proper rotation. *)
Theorem C66_rotate : forall L1 L2 L3 L cartesian c ms ds a m l1 l2 l3 i j k,
  cg_array L1 L2 L3 cartesian c -> wigner_returns ms L cartesian ds -> nth_error ms a = Some m -> proper_rotation m ->
  (l1 < degrees L1)%nat -> (l2 < degrees L2)%nat -> (l3 < degrees L3)%nat ->
  (l1 < degrees L)%nat -> (l2 < degrees L)%nat -> (l3 < degrees L)%nat ->
  (i < 2 * l1 + 1)%nat -> (j < 2 * l2 + 1)%nat -> (k < 2 * l3 + 1)%nat ->
  rsum (2 * l1 + 1) (fun i' => rsum (2 * l2 + 1) (fun j' =>
    at3 0 ds a (l1 * l1 + i) (l1 * l1 + i') * at3 0 ds a (l2 * l2 + j) (l2 * l2 + j') * at3 0 c (l1 * l1 + i') (l2 * l2 + j') (l3 * l3 + k)))
  = rsum (2 * l3 + 1) (fun k' => at3 0 c (l1 * l1 + i) (l2 * l2 + j) (l3 * l3 + k') * at3 0 ds a (l3 * l3 + k') (l3 * l3 + k)).
Proof.
  intros L1 L2 L3 L ca c ms ds a m l1 l2 l3 i j k Hc Hd Em Hm B1 B2 B3 D1 D2 D3 Hi Hj Hk.
  destruct (table_inv _ _ _ _ _ Hc) as [_ [_ C]]. apply wigner_inv in Hd as [_ Hd]. destruct (Forall2_get _ _ _ _ _ [] _ _ Hd Em) as [[_ [_ D]] _].
  assert (DD : forall l x y, (l < degrees L)%nat -> (x < 2 * l + 1)%nat -> (y < 2 * l + 1)%nat -> at3 0 ds a (l * l + x) (l * l + y) = dmat (entry m) l (pos ca l x) (pos ca l y)).
  { intros l x y Hl Hx Hy. unfold degrees in Hl. specialize (D l l x y ltac:(lia) ltac:(lia) Hx Hy). destruct (Nat.eq_dec l l); [|congruence]. exact D. }
  pose proof (rc_intertwines l1 l2 l3 m (pos ca l1 i) (pos ca l2 j) (pos ca l3 k) Hm (pos_lt _ _ _ Hi) (pos_lt _ _ _ Hj) (pos_lt _ _ _ Hk)) as I.
  rewrite <- (rsum_pos ca l3) in I. rewrite <- (rsum_pos ca l1) in I.
  transitivity (rsum (2 * l1 + 1) (fun i' => rsum (2 * l2 + 1) (fun b' => dmat (entry m) l1 (pos ca l1 i) (pos ca l1 i') * dmat (entry m) l2 (pos ca l2 j) b' * on_orders l1 l2 l3 (RC l1 l2 l3) (pos ca l1 i') b' (pos ca l3 k)))).
  - apply rsum_ext; intros i' Hi'. refine (eq_trans _ (rsum_pos ca l2 _)). apply rsum_ext; intros j' Hj'. rewrite (DD l1 i i'), (DD l2 j j'), (C l1 i' l2 j' l3 k) by assumption. reflexivity.
  - rewrite I. apply rsum_ext; intros k' Hk'. rewrite (DD l3 k' k), (C l1 i l2 j l3 k') by assumption. reflexivity.
Qed.
Print Assumptions C66_rotate.

Lemma Nat2Z_even : forall n, Z.even (Z.of_nat n) = Nat.even n.
Proof.
  intros n. destruct (Nat.even n) eqn:E; [apply Nat.even_spec in E as [k ->]; rewrite Nat2Z.inj_mul; apply Z.even_mul|].
  assert (O : Nat.odd n = true) by (unfold Nat.odd; now rewrite E). apply Nat.odd_spec in O as [k ->]. rewrite Nat2Z.inj_add, Nat2Z.inj_mul, Z.even_add, Z.even_mul. reflexivity.
Qed.

(** For improper orthogonal matrices the two sides differ by the sign (-1)^(l1 + l2 + l3): products of
    which this number is odd are pseudotensors. *)
Theorem C66_reflect : forall L1 L2 L3 L cartesian c ms ds a m l1 l2 l3 i j k,
  cg_array L1 L2 L3 cartesian c -> wigner_returns ms L cartesian ds -> nth_error ms a = Some (negative m) -> proper_rotation m ->
  (l1 < degrees L1)%nat -> (l2 < degrees L2)%nat -> (l3 < degrees L3)%nat ->
  (l1 < degrees L)%nat -> (l2 < degrees L)%nat -> (l3 < degrees L)%nat ->
  (i < 2 * l1 + 1)%nat -> (j < 2 * l2 + 1)%nat -> (k < 2 * l3 + 1)%nat ->
  rsum (2 * l1 + 1) (fun i' => rsum (2 * l2 + 1) (fun j' =>
    at3 0 ds a (l1 * l1 + i) (l1 * l1 + i') * at3 0 ds a (l2 * l2 + j) (l2 * l2 + j') * at3 0 c (l1 * l1 + i') (l2 * l2 + j') (l3 * l3 + k)))
  = (-1) ^ (l1 + l2 + l3) * rsum (2 * l3 + 1) (fun k' => at3 0 c (l1 * l1 + i) (l2 * l2 + j) (l3 * l3 + k') * at3 0 ds a (l3 * l3 + k') (l3 * l3 + k)).
Proof.
  intros L1 L2 L3 L ca c ms ds a m l1 l2 l3 i j k Hc Hd Em Hm B1 B2 B3 D1 D2 D3 Hi Hj Hk.
  destruct (wigner_exists [m] L ca (proj1 (wigner_inv _ _ _ _ Hd))) as [ds' Hd'].
  pose proof (C66_rotate _ _ _ _ _ _ _ _ 0%nat _ _ _ _ _ _ _ Hc Hd' eq_refl Hm B1 B2 B3 D1 D2 D3 Hi Hj Hk) as I.
  assert (P : forall l x y, (l < degrees L)%nat -> (x < 2 * l + 1)%nat -> (y < 2 * l + 1)%nat -> at3 0 ds a (l * l + x) (l * l + y) = (-1) ^ l * at3 0 ds' 0 (l * l + x) (l * l + y)).
  { intros l x y Hl Hx Hy. rewrite (C25_parity _ _ _ _ _ _ 0%nat a m l x y Hd' Hd eq_refl Em Hl Hx Hy). f_equal.
    rewrite <- sgz_nat. unfold sgz. rewrite (Nat2Z_even l). reflexivity. }
  transitivity ((-1) ^ l1 * (-1) ^ l2 * rsum (2 * l1 + 1) (fun i' => rsum (2 * l2 + 1) (fun j' =>
    at3 0 ds' 0 (l1 * l1 + i) (l1 * l1 + i') * at3 0 ds' 0 (l2 * l2 + j) (l2 * l2 + j') * at3 0 c (l1 * l1 + i') (l2 * l2 + j') (l3 * l3 + k)))).
  - rewrite <- rsum_scal_l. apply rsum_ext; intros i' Hi'. rewrite <- rsum_scal_l. apply rsum_ext; intros j' Hj'. rewrite (P l1 i i'), (P l2 j j') by assumption. ring.
  - rewrite I. rewrite !pow_add, <- !rsum_scal_l. apply rsum_ext; intros k' Hk'. rewrite (P l3 k' k) by assumption.
    assert (S : (-1) ^ l3 * (-1) ^ l3 = 1) by (rewrite <- pow_add; replace (l3 + l3)%nat with (2 * l3)%nat by lia; apply pow_1_even).
    transitivity ((-1) ^ l1 * (-1) ^ l2 * ((-1) ^ l3 * (-1) ^ l3) * (at3 0 c (l1 * l1 + i) (l2 * l2 + j) (l3 * l3 + k') * at3 0 ds' 0 (l3 * l3 + k') (l3 * l3 + k))); [rewrite S; ring|ring].
Qed.
Print Assumptions C66_reflect.

(** Different products are orthogonal and every product is normalised. *)
Theorem C66_orthonormal : forall L1 L2 L3 cartesian c l1 l2 l l' k k',
  cg_array L1 L2 L3 cartesian c -> (l1 < degrees L1)%nat -> (l2 < degrees L2)%nat -> (l < degrees L3)%nat -> (l' < degrees L3)%nat ->
  (l <= l1 + l2 /\ l1 <= l2 + l /\ l2 <= l1 + l)%nat -> (l' <= l1 + l2 /\ l1 <= l2 + l' /\ l2 <= l1 + l')%nat ->
  (k < 2 * l + 1)%nat -> (k' < 2 * l' + 1)%nat ->
  rsum (2 * l1 + 1) (fun i => rsum (2 * l2 + 1) (fun j =>
    at3 0 c (l1 * l1 + i) (l2 * l2 + j) (l * l + k) * at3 0 c (l1 * l1 + i) (l2 * l2 + j) (l' * l' + k')))
  = if (l * l + k =? l' * l' + k')%nat then 1 else 0.
Proof.
  intros L1 L2 L3 ca c l1 l2 l l' k k' Hc B1 B2 B B' Tr Tr' Hk Hk'. destruct (table_inv _ _ _ _ _ Hc) as [_ [_ C]].
  pose proof (RC_orthonormal l1 l2 l l' (order l (pos ca l k)) (order l' (pos ca l' k'))) as O. unfold triangle in O.
  specialize (O ltac:(lia) ltac:(lia) (order_pos_within ca l k Hk) (order_pos_within ca l' k' Hk')).
  transitivity (zs l1 (fun x => zs l2 (fun y => RC l1 l2 l x y (order l (pos ca l k)) * RC l1 l2 l' x y (order l' (pos ca l' k'))))).
  - refine (eq_trans _ (zs_pos ca l1 _)). apply rsum_ext; intros i Hi. refine (eq_trans _ (zs_pos ca l2 _)). apply rsum_ext; intros j Hj. rewrite !C by assumption. reflexivity.
  - rewrite O. destruct (Nat.eqb_spec l l') as [<-|N].
    + rewrite order_pos_eqb by assumption. cbn [andb]. destruct (Nat.eqb_spec k k'), (Nat.eqb_spec (l * l + k) (l * l + k')); try reflexivity; lia.
    + cbn [andb]. destruct (Nat.eqb_spec (l * l + k) (l' * l' + k')) as [E|]; [|reflexivity]. exfalso. apply N. nia.
Qed.
Print Assumptions C66_orthonormal.

(** Entries whose degrees violate the triangle inequality are zero. *)
Theorem C66_triangle : forall L1 L2 L3 cartesian c l1 l2 l3 i j k,
  cg_array L1 L2 L3 cartesian c -> (l1 < degrees L1)%nat -> (l2 < degrees L2)%nat -> (l3 < degrees L3)%nat ->
  (i < 2 * l1 + 1)%nat -> (j < 2 * l2 + 1)%nat -> (k < 2 * l3 + 1)%nat ->
  ~ (l3 <= l1 + l2 /\ l1 <= l2 + l3 /\ l2 <= l1 + l3)%nat -> at3 0 c (l1 * l1 + i) (l2 * l2 + j) (l3 * l3 + k) = 0.
Proof.
  intros L1 L2 L3 ca c l1 l2 l3 i j k Hc B1 B2 B3 Hi Hj Hk N. destruct (table_inv _ _ _ _ _ Hc) as [_ [_ C]]. rewrite C by assumption.
  apply RC_triangle. unfold triangle. lia.
Qed.
Print Assumptions C66_triangle.

(** The products of all degrees up to l1 + l2 contain the full information about the factors' tensor
    product: the coefficients are also orthonormal in the other indices. *)
Theorem C66_complete : forall L1 L2 L3 cartesian c l1 l2 i j i' j',
  cg_array L1 L2 L3 cartesian c -> (l1 < degrees L1)%nat -> (l2 < degrees L2)%nat -> (l1 + l2 < degrees L3)%nat ->
  (i < 2 * l1 + 1)%nat -> (j < 2 * l2 + 1)%nat -> (i' < 2 * l1 + 1)%nat -> (j' < 2 * l2 + 1)%nat ->
  rsum (degrees L3 * degrees L3) (fun k => at3 0 c (l1 * l1 + i) (l2 * l2 + j) k * at3 0 c (l1 * l1 + i') (l2 * l2 + j') k)
  = if ((i =? i')%nat && (j =? j')%nat)%bool then 1 else 0.
Proof.
  intros L1 L2 L3 ca c l1 l2 i j i' j' Hc B1 B2 B3 Hi Hj Hi' Hj'.
  set (n := degrees L3) in *. set (w := (2 * l2 + 1)%nat).
  set (u := fun k x : nat => if (k <? n * n)%nat then (if (x <? (2 * l1 + 1) * w)%nat then at3 0 c (l1 * l1 + x / w) (l2 * l2 + x mod w) k else 0) else 0).
  set (ok := fun l => ((l <=? l1 + l2) && (l1 <=? l2 + l) && (l2 <=? l1 + l))%nat).
  assert (Hw : (w <> 0)%nat) by (unfold w; lia).
  assert (UV : forall k x y, (k < n * n)%nat -> (x < 2 * l1 + 1)%nat -> (y < w)%nat -> u k (x * w + y)%nat = at3 0 c (l1 * l1 + x) (l2 * l2 + y) k).
  { intros k x y Hk Hx Hy. unfold u. destruct (Nat.ltb_spec k (n * n)); [|lia]. destruct (Nat.ltb_spec (x * w + y) ((2 * l1 + 1) * w)); [|nia].
    rewrite Nat.div_add_l, (Nat.div_small y w Hy), Nat.add_0_r by exact Hw. rewrite (Nat.add_comm (x * w) y), Nat.mod_add, (Nat.mod_small y w Hy) by exact Hw. reflexivity. }
  assert (SQ : forall l k, (k < 2 * l + 1)%nat -> Nat.sqrt (l * l + k) = l).
  { intros l k Hk. apply Nat.sqrt_unique. lia. }
  pose proof (complete (n * n) ((2 * l1 + 1) * w) u (fun k => ok (Nat.sqrt k))) as Q.
  assert (G : rsum (n * n) (fun k => u k (i * w + j)%nat * u k (i' * w + j')%nat) = if (i * w + j =? i' * w + j')%nat then 1 else 0).
  { apply Q.
    - intros k k' Hk Hk'. destruct (block_decomp k) as [l [p [Ek [Hp _]]]]. destruct (block_decomp k') as [l' [p' [Ek' [Hp' _]]]].
      assert (Hl : (l < n)%nat) by nia. assert (Hl' : (l' < n)%nat) by nia.
      rewrite rsum_prod. transitivity (rsum (2 * l1 + 1) (fun x => rsum (2 * l2 + 1) (fun y => at3 0 c (l1 * l1 + x) (l2 * l2 + y) k * at3 0 c (l1 * l1 + x) (l2 * l2 + y) k'))).
      { apply rsum_ext; intros x Hx. apply rsum_ext; intros y Hy. rewrite !UV by assumption. reflexivity. }
      rewrite Ek, Ek', SQ by assumption. destruct (ok l) eqn:O1.
      + apply andb_prop in O1 as [O1 O3]. apply andb_prop in O1 as [O1 O2]. apply Nat.leb_le in O1, O2, O3. destruct (ok l') eqn:O1'.
        * apply andb_prop in O1' as [O1' O3']. apply andb_prop in O1' as [O1' O2']. apply Nat.leb_le in O1', O2', O3'.
          apply (C66_orthonormal L1 L2 L3 ca c l1 l2 l l' p p' Hc B1 B2 Hl Hl'); (assumption || lia).
        * rewrite rsum_zero. { destruct (Nat.eqb_spec (l * l + p) (l' * l' + p')) as [E|]; [|reflexivity]. exfalso. assert (l = l') by nia. subst l'. unfold ok in O1'. apply Nat.leb_le in O1, O2, O3. rewrite O1, O2, O3 in O1'. discriminate. }
          intros x Hx. apply rsum_zero; intros y Hy. rewrite (C66_triangle L1 L2 L3 ca c l1 l2 l' x y p' Hc B1 B2 Hl' Hx Hy Hp'); [ring|].
          intros [T1 [T2 T3]]. unfold ok in O1'. apply Nat.leb_le in T1, T2, T3. rewrite T1, T2, T3 in O1'. discriminate.
      + rewrite rsum_zero; [destruct (_ =? _)%nat; reflexivity|].
        intros x Hx. apply rsum_zero; intros y Hy. rewrite (C66_triangle L1 L2 L3 ca c l1 l2 l x y p Hc B1 B2 Hl Hx Hy Hp); [ring|].
        intros [T1 [T2 T3]]. unfold ok in O1. apply Nat.leb_le in T1, T2, T3. rewrite T1, T2, T3 in O1. discriminate.
    - intros k x Hk O. unfold u. destruct (k <? n * n)%nat; [|reflexivity]. destruct (Nat.ltb_spec x ((2 * l1 + 1) * w)) as [Hx|]; [|reflexivity].
      destruct (block_decomp k) as [l [p [Ek [Hp _]]]]. assert (Hl : (l < n)%nat) by nia. rewrite Ek in *. rewrite SQ in O by assumption.
      apply (C66_triangle L1 L2 L3 ca c l1 l2 l _ _ p Hc B1 B2 Hl); [apply Nat.div_lt_upper_bound; [exact Hw|lia]|apply Nat.mod_upper_bound; exact Hw|exact Hp|].
      intros [T1 [T2 T3]]. unfold ok in O. apply Nat.leb_le in T1, T2, T3. rewrite T1, T2, T3 in O. discriminate.
    - rewrite rsum_degrees. unfold w. rewrite <- count_components. fold w.
      rewrite (rsum_extend (l1 + l2 + 1) n).
      + apply rsum_ext; intros l Hl. transitivity (rsum (2 * l + 1) (fun _ => if ok l then 1 else 0)); [apply rsum_ext; intros k Hk; now rewrite SQ|].
        rewrite rsum_const. unfold ok. destruct (Nat.leb_spec l (l1 + l2)); [|lia]. cbn [andb]. destruct ((l1 <=? l2 + l) && (l2 <=? l1 + l))%nat; ring.
      + lia.
      + intros l Hl. apply rsum_zero; intros k Hk. rewrite SQ by exact Hk. unfold ok. destruct (Nat.leb_spec l (l1 + l2)); [lia|reflexivity].
    - unfold w. nia.
    - unfold w in *. nia. }
  transitivity (rsum (n * n) (fun k => u k (i * w + j)%nat * u k (i' * w + j')%nat)).
  - apply rsum_ext; intros k Hk. rewrite !UV by assumption. reflexivity.
  - rewrite G. destruct (Nat.eqb_spec i i') as [<-|N]; cbn [andb].
    + destruct (Nat.eqb_spec j j') as [<-|N]; [now rewrite Nat.eqb_refl|]. destruct (Nat.eqb_spec (i * w + j) (i * w + j')); [lia|reflexivity].
    + destruct (Nat.eqb_spec (i * w + j) (i' * w + j')) as [E|]; [|reflexivity]. exfalso. apply N. unfold w in *. nia.
Qed.
Print Assumptions C66_complete.

(** Exchanging the factors changes at most the sign. *)
Theorem C66_exchange : forall L1 L2 L3 L1' L2' L3' cartesian c c' l1 l2 l3 i j k,
  cg_array L1 L2 L3 cartesian c -> cg_array L2' L1' L3' cartesian c' ->
  (l1 < degrees L1)%nat -> (l2 < degrees L2)%nat -> (l3 < degrees L3)%nat -> (l1 < degrees L1')%nat -> (l2 < degrees L2')%nat -> (l3 < degrees L3')%nat ->
  (i < 2 * l1 + 1)%nat -> (j < 2 * l2 + 1)%nat -> (k < 2 * l3 + 1)%nat ->
  at3 0 c' (l2 * l2 + j) (l1 * l1 + i) (l3 * l3 + k) = (-1) ^ (l1 + l2 + l3) * at3 0 c (l1 * l1 + i) (l2 * l2 + j) (l3 * l3 + k).
Proof.
  intros L1 L2 L3 L1' L2' L3' ca c c' l1 l2 l3 i j k Hc Hc' B1 B2 B3 B1' B2' B3' Hi Hj Hk.
  destruct (table_inv _ _ _ _ _ Hc) as [_ [_ C]]. destruct (table_inv _ _ _ _ _ Hc') as [_ [_ C']]. rewrite C, C' by assumption. unfold on_orders.
  destruct (triangle_dec l1 l2 l3) as [Tr|Tr]; [now apply RC_exchange|]. rewrite !RC_triangle; [ring|exact Tr|unfold triangle in *; lia].
Qed.
Print Assumptions C66_exchange.

(** The product with a scalar (degree 0) is the multiplication, in both orders. *)
Theorem C66_scalar_factor : forall L1 L2 L3 cartesian c l i k, cg_array L1 L2 L3 cartesian c -> (l < degrees L3)%nat -> (i < 2 * l + 1)%nat -> (k < 2 * l + 1)%nat ->
  ((l < degrees L1)%nat -> at3 0 c (l * l + i) 0 (l * l + k) = if (i =? k)%nat then 1 else 0)
  /\ ((l < degrees L2)%nat -> at3 0 c 0 (l * l + i) (l * l + k) = if (i =? k)%nat then 1 else 0).
Proof.
  intros L1 L2 L3 ca c l i k Hc B Hi Hk. destruct (table_inv _ _ _ _ _ Hc) as [_ [_ C]].
  assert (D : forall L, (0 < degrees L)%nat) by (intros; unfold degrees; lia).
  assert (Z0 : forall ca, order 0 (pos ca 0 0) = 0%Z) by (intros []; reflexivity). split; intros Hl.
  - pose proof (C l i 0%nat 0%nat l k Hl (D L2) B Hi ltac:(lia) Hk) as E. change (0 * 0 + 0)%nat with 0%nat in E. rewrite E. unfold on_orders. rewrite Z0.
    rewrite RC_unit by (now apply order_pos_within). now rewrite order_pos_eqb.
  - pose proof (C 0%nat 0%nat l i l k (D L1) Hl B ltac:(lia) Hi Hk) as E. change (0 * 0 + 0)%nat with 0%nat in E. rewrite E. unfold on_orders. rewrite Z0.
    rewrite RC_unit_l by (now apply order_pos_within). now rewrite order_pos_eqb.
Qed.
Print Assumptions C66_scalar_factor.

(** The scalar product: degree 0 of the product of two parts of the same degree. *)
Theorem C66_scalar_product : forall L1 L2 L3 cartesian c l i j, cg_array L1 L2 L3 cartesian c -> (l < degrees L1)%nat -> (l < degrees L2)%nat ->
  (i < 2 * l + 1)%nat -> (j < 2 * l + 1)%nat ->
  at3 0 c (l * l + i) (l * l + j) 0 = (if (i =? j)%nat then 1 else 0) / sqrt (INR (2 * l + 1)).
Proof.
  intros L1 L2 L3 ca c l i j Hc B1 B2 Hi Hj. destruct (table_inv _ _ _ _ _ Hc) as [_ [_ C]].
  assert (D : forall L, (0 < degrees L)%nat) by (intros; unfold degrees; lia).
  pose proof (C l i l j 0%nat 0%nat B1 B2 (D L3) Hi Hj ltac:(lia)) as E. change (0 * 0 + 0)%nat with 0%nat in E. rewrite E. unfold on_orders.
  replace (order 0 (pos ca 0 0)) with 0%Z by (destruct ca; reflexivity). rewrite RC_scalar by (now apply order_pos_within). now rewrite order_pos_eqb.
Qed.
Print Assumptions C66_scalar_product.

(** In Cartesian order, degree 1 of the product of two vectors is their cross product over the square
    root of 2. *)
Theorem C66_cross_product : forall L1 L2 L3 c x y k, cg_array L1 L2 L3 true c -> (0 < L1)%Z -> (0 < L2)%Z -> (0 < L3)%Z -> (k < 3)%nat ->
  rsum 3 (fun i => rsum 3 (fun j => coord x i * coord y j * at3 0 c (1 + i) (1 + j) (1 + k))) = coord (outer x y) k / sqrt 2.
Proof.
  intros L1 L2 L3 c x y k Hc H1 H2 H3 Hk. destruct (table_inv _ _ _ _ _ Hc) as [_ [_ C]].
  assert (D : forall L, (0 < L)%Z -> (1 < degrees L)%nat) by (intros; unfold degrees; lia).
  assert (E : forall i j, (i < 3)%nat -> (j < 3)%nat -> at3 0 c (1 + i) (1 + j) (1 + k) = RC 1 1 1 (order 1 (pos true 1 i)) (order 1 (pos true 1 j)) (order 1 (pos true 1 k))).
  { intros i j Hi Hj. pose proof (C 1%nat i 1%nat j 1%nat k (D _ H1) (D _ H2) (D _ H3)) as E. change (2 * 1 + 1)%nat with 3%nat in E. exact (E Hi Hj Hk). }
  transitivity (rsum 3 (fun i => rsum 3 (fun j => coord x i * coord y j * RC 1 1 1 (order 1 (pos true 1 i)) (order 1 (pos true 1 j)) (order 1 (pos true 1 k))))).
  { apply rsum_ext; intros i Hi. apply rsum_ext; intros j Hj. now rewrite E. }
  assert (O : order 1 (pos true 1 0) = 1%Z /\ order 1 (pos true 1 1) = (-1)%Z /\ order 1 (pos true 1 2) = 0%Z) by (repeat split; reflexivity).
  destruct O as [O0 [O1 O2]]. cbn [rsum]. rewrite O0, O1, O2.
  assert (Tr : triangle 1 1 1) by (unfold triangle; lia).
  assert (X : forall a b m, RC 1 1 1 b a m = - RC 1 1 1 a b m) by (intros a b m; rewrite (RC_exchange 1 1 1 a b m Tr); cbn [Nat.add pow]; ring).
  assert (X0 : forall a m, RC 1 1 1 a a m = 0) by (intros a m; pose proof (X a a m); lra).
  assert (Sel : forall a b m, (m <> a + b /\ m <> a - b /\ m <> b - a /\ m <> - a - b)%Z -> RC 1 1 1 a b m = 0).
  { intros a b m N. apply RC_selected. unfold selected. lia. }
  assert (Odd : forall a b m, Z.even (phase 1 1 1 a b m) = false -> RC 1 1 1 a b m = 0) by (intros a b m P; unfold RC; rewrite (T_odd 1 1 1 a b m P); ring).
  destruct RC_111 as [V1 [V2 V3]]. pose proof sqrt2_pos.
  rewrite !X0. rewrite (X 1 (-1))%Z, (X 1 0)%Z, (X (-1) 0)%Z.
  destruct x as [[x1 x2] x3], y as [[y1 y2] y3]. unfold outer, coord.
  destruct k as [|[|[|k]]]; [| | |lia]; rewrite ?O0, ?O1, ?O2, ?V1, ?V2, ?V3.
  - rewrite (Sel 1 (-1) 1)%Z, (Odd 1 0 1)%Z by (lia || reflexivity). field. lra.
  - rewrite (Sel 1 (-1) (-1))%Z, (Odd (-1) 0 (-1))%Z by (lia || reflexivity). field. lra.
  - rewrite (Sel 1 0 0)%Z, (Sel (-1) 0 0)%Z by (lia || reflexivity). field. lra.
Qed.
Print Assumptions C66_cross_product.

(** Non-vacuity: an array and Wigner-D matrices of a non-trivial rotation exist, and the identity is not
    0 = 0: with the quarter turn, component y of x cross z. *)
Example C66_case : exists c ds, cg_array 1 1 1 true c /\ wigner_returns [quarter_turn] 1 true ds /\ proper_rotation quarter_turn /\
  at3 0 c 1 2 3 = 1 / sqrt 2 /\ at3 0 c 2 1 3 = - (1 / sqrt 2) /\ at3 0 ds 0 1 2 = 1.
Proof.
  destruct (C66_total 1 1 1 true ltac:(lia) ltac:(lia) ltac:(lia)) as [c Hc]. destruct (wigner_exists [quarter_turn] 1 true ltac:(lia)) as [ds Hd].
  exists c, ds. split; [exact Hc|]. split; [exact Hd|]. split; [exact quarter_turn_rotation|].
  pose proof (C66_cross_product 1 1 1 c (1, 0, 0) (0, 1, 0) 2 Hc ltac:(lia) ltac:(lia) ltac:(lia) ltac:(lia)) as A.
  pose proof (C66_cross_product 1 1 1 c (0, 1, 0) (1, 0, 0) 2 Hc ltac:(lia) ltac:(lia) ltac:(lia) ltac:(lia)) as B.
  cbn [rsum coord outer Nat.add] in A, B. pose proof sqrt2_pos.
  split; [|split].
  - transitivity ((1 * 1 - 0 * 0) / sqrt 2); [rewrite <- A; ring|field; lra].
  - transitivity ((0 * 0 - 1 * 1) / sqrt 2); [rewrite <- B; ring|field; lra].
  - exact (C25_degree_one _ _ _ 0%nat quarter_turn 0%nat 1%nat Hd eq_refl (rotation_orthogonal _ quarter_turn_rotation) ltac:(lia) ltac:(lia) ltac:(lia)).
Qed.
