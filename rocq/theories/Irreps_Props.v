(** Properties C21-C25, C59 and C60: spherical harmonics, Wigner-D matrices, Clebsch-Gordan arrays. *)
Require Import String List Reals ZArith Bool Lia Lra Permutation ZifyNat FunctionalExtensionality.
Require Import Verif.Base Verif.RSum Verif.Common_Model Verif.Common_Spec Verif.Common_Proofs Verif.Common_Enum_Proofs Verif.Common_Props
  Verif.LUT_Model Verif.LUT_Spec Verif.LUT_Props Verif.Symbolic_Model
  Verif.Rotations_Model Verif.Rotations_Spec Verif.Poly_Proofs Verif.PolyDiff_Proofs Verif.Harmonics_Basis_Proofs
  Verif.PolyCalc_Proofs Verif.Symbolic_Proofs Verif.Irreps_Model Verif.Irreps_Spec Verif.Irreps_Proofs Verif.Irreps_Wigner_Proofs Verif.Irreps_Laws_Proofs Verif.Irreps_CG_Proofs.
Import ListNotations.
Open Scope R_scope.
Open Scope list_scope.
Local Notation row := Rotations_Spec.row.

(** The hypotheses below are met: a state of the cache that can occur and a call. *)
Lemma sh_ready_empty : sh_ready empty_world.
Proof. exists empty_world, []. split; [|split; [constructor|reflexivity]]. split; [reflexivity|]. left. exists OSError. split; [reflexivity|now left]. Qed.
Lemma wd_ready_empty : wd_ready empty_world.
Proof. exists empty_world, []. split; [|split; [constructor|reflexivity]]. split; [reflexivity|]. left. exists OSError. split; [reflexivity|now left]. Qed.
Lemma call_ok_serial : call_ok None IoOk.
Proof. split; [exact I|now left]. Qed.

Lemma Forall2_length : forall A B (P : A -> B -> Prop) l l', Forall2 P l l' -> length l = length l'.
Proof. intros A B P l l' H. induction H; cbn; congruence. Qed.

(** * C21 *)

(** Every call returns one row of (L+1)^2 numbers for every vector; the numbers do not depend on the
    state of the cache, on the process pool or on whether saving works. *)
Theorem C21_solid_harmonics_total : forall empty tiny w s o rs L cartesian, sh_ready w -> call_ok s o -> (0 <= L)%Z ->
  exists ys, snd (solid_harmonics empty tiny w s o 3 (map vlist rs) L cartesian) = Ok ys /\
    length ys = length rs /\ Forall (fun y => length y = (degrees L * degrees L)%nat) ys.
Proof.
  intros empty tiny w s o rs L c Hw Hc HL.
  destruct (spherical_ok empty tiny w s o rs L true c "racah" Hw Hc HL racah_known (or_introl eq_refl)) as [ys [E F]].
  exists ys. split; [exact E|]. split; [symmetry; eapply Forall2_length; exact F|].
  clear E. induction F as [|v y rs ys [H _] F IH]; constructor; assumption.
Qed.
Print Assumptions C21_solid_harmonics_total.

Theorem C21_solid_harmonics_deterministic : forall rs L cartesian ys ys',
  solid_returns rs L cartesian ys -> solid_returns rs L cartesian ys' -> ys = ys'.
Proof.
  intros rs L c ys ys' H H'. apply solid_inv in H as [_ H]. apply solid_inv in H' as [_ H'].
  eapply Forall2_unique; [|exact H|exact H']. intros a b b' Hb Hb'. eapply row_of_unique; eauto.
Qed.
Print Assumptions C21_solid_harmonics_deterministic.

(** A last axis that is not 3 and a negative degree are rejected. *)
Theorem C21_rejected : forall empty tiny w s o dim r L r_is_normalized cartesian norm, dim <> 3%nat \/ (L < 0)%Z ->
  spherical_harmonics empty tiny w s o dim r L r_is_normalized cartesian norm = (w, Err ValueError).
Proof.
  intros empty tiny w s o dim r L nrm c norm [H|H]; [|now apply spherical_negative].
  unfold spherical_harmonics. apply Nat.eqb_neq in H. now rewrite H.
Qed.
Print Assumptions C21_rejected.

(** Solid harmonics of degree l are homogeneous of degree l. *)
Theorem C21_homogeneous : forall rs rs' L cartesian ys ys' b b' r t l k,
  solid_returns rs L cartesian ys -> solid_returns rs' L cartesian ys' ->
  nth_error rs b = Some r -> nth_error rs' b' = Some (times t r) ->
  (l < degrees L)%nat -> (k < 2 * l + 1)%nat ->
  at2 ys' b' (l * l + k) = t ^ l * at2 ys b (l * l + k).
Proof.
  intros rs rs' L c ys ys' b b' r t l k H H' Er Er' Hl Hk. unfold degrees in Hl. apply solid_inv in H as [_ H]. apply solid_inv in H' as [_ H'].
  destruct (Forall2_get _ _ _ _ _ [] _ _ H Er) as [[_ R1] _]. destruct (Forall2_get _ _ _ _ _ [] _ _ H' Er') as [[_ R2] _].
  unfold at2. rewrite (R1 l k), (R2 l k) by lia. rewrite peval_times by now apply pos_lt. ring.
Qed.
Print Assumptions C21_homogeneous.

(** Parity. *)
Theorem C21_parity : forall rs rs' L cartesian ys ys' b b' x y z l k,
  solid_returns rs L cartesian ys -> solid_returns rs' L cartesian ys' ->
  nth_error rs b = Some (x, y, z) -> nth_error rs' b' = Some (- x, - y, - z) ->
  (l < degrees L)%nat -> (k < 2 * l + 1)%nat ->
  at2 ys' b' (l * l + k) = (if Nat.even l then 1 else -1) * at2 ys b (l * l + k).
Proof.
  intros rs rs' L c ys ys' b b' x y z l k H H' Er Er' Hl Hk.
  replace (- x, - y, - z) with (times (-1) (x, y, z)) in Er' by (cbn [times]; f_equal; [f_equal|]; ring).
  rewrite (C21_homogeneous rs rs' L c ys ys' b b' (x, y, z) (-1) l k H H' Er Er' Hl Hk). f_equal.
  clear. induction l as [|l IH]; [reflexivity|]. rewrite Nat.even_succ, <- Nat.negb_even. cbn [pow]. rewrite IH. destruct (Nat.even l); cbn; ring.
Qed.
Print Assumptions C21_parity.

(** The spherical harmonics of a vector whose squared length exceeds the threshold of [normalize]
    depend only on its direction: they are the solid harmonics, times the constant of the
    normalisation, of the unit vector. *)
Theorem C21_direction_only : forall tiny rs rs' L cartesian norm ys ys' b b' r t c,
  0 < tiny -> 0 < t ->
  spherical_returns tiny rs L false cartesian norm ys -> spherical_returns tiny rs' L false cartesian norm ys' ->
  nth_error rs b = Some r -> nth_error rs' b' = Some (times t r) ->
  tiny < dot r r -> tiny < dot (times t r) (times t r) ->
  at2 ys' b' c = at2 ys b c.
Proof.
  intros tiny rs rs' L ca norm ys ys' b b' r t c Ht Hpos H H' Er Er' H1 H2.
  apply spherical_inv in H as [_ [_ H]]; [|exact Ht]. apply spherical_inv in H' as [_ [_ H']]; [|exact Ht].
  destruct (Forall2_get _ _ _ _ _ [] _ _ H Er) as [R1 _]. destruct (Forall2_get _ _ _ _ _ [] _ _ H' Er') as [R2 _]. cbv beta iota in *.
  assert (E : direction tiny (times t r) = direction tiny r).
  { rewrite !direction_def. destruct (Rlt_dec tiny (dot r r)); [|contradiction]. destruct (Rlt_dec tiny (dot (times t r) (times t r))); [|contradiction].
    destruct r as [[x y] z]. cbn [times dot]. replace (t * x * (t * x) + t * y * (t * y) + t * z * (t * z)) with (t * t * (x * x + y * y + z * z)) by ring.
    rewrite sqrt_mult_alt, sqrt_square by nra. cbn [dot] in H1. assert (sqrt (x * x + y * y + z * z) <> 0) by (apply Rgt_not_eq, sqrt_lt_R0; lra).
    f_equal; [f_equal|]; field; split; lra. }
  rewrite E in R2. unfold at2. now rewrite (row_of_unique _ _ _ _ _ _ R1 R2).
Qed.
Print Assumptions C21_direction_only.

(** Shorter vectors are not normalised: their values are those of [r_is_normalized = True]. *)
Theorem C21_short_vectors : forall tiny rs rs' L cartesian norm ys ys' b b' r c,
  0 < tiny ->
  spherical_returns tiny rs L false cartesian norm ys -> spherical_returns tiny rs' L true cartesian norm ys' ->
  nth_error rs b = Some r ->
  (dot r r <= tiny -> nth_error rs' b' = Some r -> at2 ys' b' c = at2 ys b c) /\
  (tiny < dot r r -> nth_error rs' b' = Some (unit_of r) -> at2 ys' b' c = at2 ys b c).
Proof.
  intros tiny rs rs' L ca norm ys ys' b b' r c Ht H H' Er.
  apply spherical_inv in H as [_ [_ H]]; [|exact Ht]. apply spherical_inv in H' as [_ [_ H']]; [|exact Ht].
  destruct (Forall2_get _ _ _ _ _ [] _ _ H Er) as [R1 _]. cbv beta iota in *. rewrite direction_def in R1.
  split; intros Hr Er'; destruct (Forall2_get _ _ _ _ _ [] _ _ H' Er') as [R2 _]; cbv beta iota in *; (destruct (Rlt_dec tiny (dot r r)); [|]); try lra.
  - unfold at2. now rewrite (row_of_unique _ _ _ _ _ _ R1 R2).
  - unfold at2. fold (size r) in R1. fold (unit_of r) in R1. now rewrite (row_of_unique _ _ _ _ _ _ R1 R2).
Qed.
Print Assumptions C21_short_vectors.

(** Degree 0 is 1 and degree 1 in Cartesian order is the vector itself. *)
Theorem C21_low_degrees : forall rs L ys b x y z cartesian,
  solid_returns rs L cartesian ys -> nth_error rs b = Some (x, y, z) ->
  at2 ys b 0 = 1 /\
  ((1 <= L)%Z -> if cartesian then at2 ys b 1 = x /\ at2 ys b 2 = y /\ at2 ys b 3 = z
                 else at2 ys b 1 = y /\ at2 ys b 2 = z /\ at2 ys b 3 = x).
Proof.
  intros rs L ys b x y z c H Er. apply solid_inv in H as [HL H]. destruct (Forall2_get _ _ _ _ _ [] _ _ H Er) as [[_ R1] _]. unfold at2. split.
  - specialize (R1 0%nat 0%nat ltac:(lia) ltac:(lia)). cbn [Nat.mul Nat.add] in R1. rewrite R1, const_racah. replace (pos c 0 0) with 0%nat by (destruct c; reflexivity).
    rewrite (peval_peq _ _ _ Y_00). unfold pone. rewrite peval_const. ring.
  - intros H1. pose proof (R1 1%nat 0%nat ltac:(lia) ltac:(lia)) as A. pose proof (R1 1%nat 1%nat ltac:(lia) ltac:(lia)) as B. pose proof (R1 1%nat 2%nat ltac:(lia) ltac:(lia)) as C.
    cbn [Nat.mul Nat.add] in A, B, C. rewrite A, B, C, const_racah. destruct c; cbn [pos].
    + rewrite !Y1_cart by lia. cbn [coord]. repeat split; ring.
    + rewrite (peval_peq _ _ _ Y_10), (peval_peq _ _ _ Y_11), (peval_peq _ _ _ Y_12), peval_x, peval_y, peval_z. repeat split; ring.
Qed.
Print Assumptions C21_low_degrees.

Lemma solid_exists : forall rs L cartesian, (0 <= L)%Z -> exists ys, solid_returns rs L cartesian ys.
Proof.
  intros rs L c HL. destruct (C21_solid_harmonics_total 0 1 empty_world None IoOk rs L c sh_ready_empty call_ok_serial HL) as [ys [E _]].
  exists ys, 0%nat, 1, empty_world, None, IoOk. auto using sh_ready_empty, call_ok_serial.
Qed.
Lemma spherical_exists : forall tiny rs L nrm cartesian norm, (0 <= L)%Z -> 0 < tiny -> rs <> [] -> known_normalization norm ->
  exists ys, spherical_returns tiny rs L nrm cartesian norm ys.
Proof.
  intros tiny rs L nrm c norm HL Ht Hr Hn. destruct (spherical_ok 0 tiny empty_world None IoOk rs L nrm c norm sh_ready_empty call_ok_serial HL Hn (or_intror (conj Ht Hr))) as [ys [E _]].
  exists ys, 0%nat, empty_world, None, IoOk. auto using sh_ready_empty, call_ok_serial.
Qed.

(** The hypotheses are met, and not by zeros only: doubling (1,2,3) doubles degree 1 and quadruples
    degree 2. *)
Example C21_case : exists ys ys', solid_returns [(1, 2, 3)] 2 true ys /\ solid_returns [(2, 4, 6)] 2 true ys' /\
  at2 ys 0 1 = 1 /\ at2 ys' 0 1 = 2 /\ (forall k, (k < 5)%nat -> at2 ys' 0 (4 + k) = 4 * at2 ys 0 (4 + k)).
Proof.
  destruct (solid_exists [(1, 2, 3)] 2 true ltac:(lia)) as [ys H]. destruct (solid_exists [(2, 4, 6)] 2 true ltac:(lia)) as [ys' H'].
  exists ys, ys'. split; [exact H|]. split; [exact H'|].
  destruct (C21_low_degrees _ _ _ 0%nat _ _ _ _ H eq_refl) as [_ A]. destruct (C21_low_degrees _ _ _ 0%nat _ _ _ _ H' eq_refl) as [_ A'].
  split; [apply A; lia|]. split; [apply A'; lia|]. intros k Hk.
  assert (E : nth_error [(2, 4, 6)] 0 = Some (times 2 (1, 2, 3))) by (cbn; apply f_equal; repeat f_equal; ring).
  pose proof (C21_homogeneous _ _ _ _ _ _ 0 0 (1, 2, 3) 2 2 k H H' eq_refl E) as G. unfold degrees in G. specialize (G ltac:(cbn; lia) ltac:(lia)).
  change (2 * 2 + k)%nat with (4 + k)%nat in G. rewrite G. ring.
Qed.

(** * C22 *)

(** Every entry of the result, as a function of the three coordinates, has second partial derivatives
    everywhere and their sum is zero. *)
Theorem C22_laplace : forall L cartesian c, (0 <= L)%Z -> (c < degrees L * degrees L)%nat ->
  exists f, harmonic f /\
    forall rs ys b x y z, solid_returns rs L cartesian ys -> nth_error rs b = Some (x, y, z) -> at2 ys b c = f x y z.
Proof.
  intros L ca c HL Hc. unfold degrees in Hc. destruct (block_decomp c) as [l [k [-> [Hk _]]]]. assert (Hl : (l <= Z.to_nat L)%nat) by nia.
  set (p := Yi l (pos ca l k)). exists (fun x y z => peval p (x, y, z)). split.
  - exists (fun x y z => peval (pd 0 p) (x, y, z)), (fun x y z => peval (pd 1 p) (x, y, z)), (fun x y z => peval (pd 2 p) (x, y, z)),
      (fun x y z => peval (pd 0 (pd 0 p)) (x, y, z)), (fun x y z => peval (pd 1 (pd 1 p)) (x, y, z)), (fun x y z => peval (pd 2 (pd 2 p)) (x, y, z)).
    split; [|split].
    + intros x y z. split; [|split]; [exact (peval_derivative 0 p (x, y, z) ltac:(lia))|exact (peval_derivative 1 p (x, y, z) ltac:(lia))|exact (peval_derivative 2 p (x, y, z) ltac:(lia))].
    + intros x y z. split; [|split]; [exact (peval_derivative 0 (pd 0 p) (x, y, z) ltac:(lia))|exact (peval_derivative 1 (pd 1 p) (x, y, z) ltac:(lia))|exact (peval_derivative 2 (pd 2 p) (x, y, z) ltac:(lia))].
    + intros x y z. rewrite <- !peval_add. change (peval (lap p) (x, y, z) = 0). rewrite (peval_peq (lap p) pzero); [reflexivity|].
      apply lap_Y. apply order_bound. now apply pos_lt.
  - intros rs ys b x y z H Er. apply solid_inv in H as [_ H]. destruct (Forall2_get _ _ _ _ _ [] _ _ H Er) as [[_ R1] _]. unfold at2. rewrite R1 by assumption. rewrite const_racah. unfold p. ring.
Qed.
Print Assumptions C22_laplace.

(** Not a vacuous sum of zeros: entry 3 of degree 1 in Cartesian order is the coordinate z. *)
Example C22_case : exists ys ys', solid_returns [(0, 0, 1)] 1 true ys /\ solid_returns [(0, 0, 2)] 1 true ys' /\ at2 ys 0 3 <> at2 ys' 0 3.
Proof.
  destruct (solid_exists [(0, 0, 1)] 1 true ltac:(lia)) as [ys H]. destruct (solid_exists [(0, 0, 2)] 1 true ltac:(lia)) as [ys' H'].
  exists ys, ys'. split; [exact H|]. split; [exact H'|].
  destruct (C21_low_degrees _ _ _ 0%nat _ _ _ _ H eq_refl) as [_ A]. destruct (C21_low_degrees _ _ _ 0%nat _ _ _ _ H' eq_refl) as [_ A'].
  destruct (A ltac:(lia)) as [_ [_ ->]]. destruct (A' ltac:(lia)) as [_ [_ ->]]. lra.
Qed.

(** * C23 *)

Lemma total_lsum : forall f ks, total f ks = lsum f ks.
Proof. intros f ks. induction ks as [|k ks IH]; cbn; [reflexivity|]. now rewrite IH. Qed.

Lemma in_exponents : forall d a b e, In (a, b, e) (exponents d) <-> (a + b + e = d)%nat.
Proof.
  intros d a b e. unfold exponents. rewrite in_flat_map. split.
  - intros [a' [Ha H]]. apply in_seq in Ha. apply in_map_iff in H as [b' [E Hb]]. apply in_seq in Hb. injection E as <- <- <-. lia.
  - intros H. exists a. split; [apply in_seq; lia|]. apply in_map_iff. exists b. split; [f_equal; lia|apply in_seq; lia].
Qed.

Lemma nodup_exponents : forall d, NoDup (exponents d).
Proof.
  intros d. unfold exponents. assert (G : forall n s, NoDup (flat_map (fun a => map (fun b => (a, b, d - a - b)%nat) (seq 0 (d - a + 1))) (seq s n))).
  { induction n as [|n IH]; intros s; [constructor|]. cbn [seq flat_map].
    assert (App : forall a b : list (nat * nat * nat), NoDup a -> NoDup b -> (forall x, In x a -> ~ In x b) -> NoDup (a ++ b)).
    { induction a as [|x a IHa]; intros b Ha Hb Hab; [exact Hb|]. inversion Ha; subst. cbn. constructor.
      - rewrite in_app_iff. intros [|]; [contradiction|]. eapply Hab; [left; reflexivity|eassumption].
      - apply IHa; auto. intros y Hy. apply Hab. now right. }
    apply App; [|apply IH|].
    - apply FinFun.Injective_map_NoDup; [intros x y E; congruence|apply seq_NoDup].
    - intros x Hx Hx'. apply in_map_iff in Hx as [b [<- _]]. apply in_flat_map in Hx' as [a [Ha Hb]]. apply in_seq in Ha. apply in_map_iff in Hb as [b' [E _]]. injection E. lia. }
  apply G.
Qed.

Lemma keys_in : forall d p, homogeneous d p -> forall k, In k (map snd p) -> In k (exponents d).
Proof. intros d p H [[a b] e] Hk. apply in_exponents. apply in_map_iff in Hk as [t [Et Ht]]. specialize (H t Ht). rewrite Et in H. exact H. Qed.

Lemma form_peval : forall d p x y z, homogeneous d p -> peval p (x, y, z) = form_value d (p3_coef p) x y z.
Proof.
  intros d p x y z H. unfold peval, form_value. rewrite (lin_coef _ p (exponents d) (nodup_exponents d) (keys_in d p H)), total_lsum.
  apply lsum_ext. intros [[a b] e] _. reflexivity.
Qed.

Lemma coefficient_product_fischer : forall l p q, homogeneous l p -> coefficient_product l (p3_coef p) (p3_coef q) = fischer p q / ynorm l.
Proof.
  intros l p q H. unfold coefficient_product, fischer. rewrite (lin_coef _ p (exponents l) (nodup_exponents l) (keys_in l p H)), total_lsum. unfold ynorm.
  pose proof (INR_fact_neq_0 l) as H1. pose proof (INR_fact_neq_0 (2 * l)) as H2. assert (H3 : 2 ^ l <> 0) by (apply pow_nonzero; lra).
  rewrite (lsum_ext _ (fun k => / INR (fact l) * (p3_coef p k * (kfact k * p3_coef q k)))).
  - assert (G : forall c f ks, lsum (fun k => c * f k) ks = c * lsum f ks) by (intros c f; induction ks as [|k ks IH]; cbn; [ring|]; unfold lsum in IH; rewrite IH; ring).
    rewrite G. field. repeat split; assumption.
  - intros [[a b] e] _. cbn [kfact]. pose proof (INR_fact_neq_0 a). pose proof (INR_fact_neq_0 b). pose proof (INR_fact_neq_0 e). field. repeat split; assumption.
Qed.

(** The entries of the degree-l block are homogeneous polynomials of degree l whose coefficients are
    orthonormal for the inner product of [_polynomial_dot_product]. *)
Theorem C23_orthonormal : forall L cartesian l, (l < degrees L)%nat -> exists coefficients : nat -> (nat * nat * nat -> R),
  (forall k rs ys b x y z, (k < 2 * l + 1)%nat -> solid_returns rs L cartesian ys -> nth_error rs b = Some (x, y, z) ->
     at2 ys b (l * l + k) = form_value l (coefficients k) x y z) /\
  (forall k k', (k < 2 * l + 1)%nat -> (k' < 2 * l + 1)%nat ->
     coefficient_product l (coefficients k) (coefficients k') = if Nat.eqb k k' then 1 else 0).
Proof.
  intros L c l Hl. unfold degrees in Hl. exists (fun k => p3_coef (Yi l (pos c l k))). split.
  - intros k rs ys b x y z Hk H Er. apply solid_inv in H as [_ H]. destruct (Forall2_get _ _ _ _ _ [] _ _ H Er) as [[_ R1] _]. unfold at2. rewrite R1 by lia. rewrite const_racah.
    rewrite <- form_peval; [ring|]. apply homogeneous_Y, order_bound. now apply pos_lt.
  - intros k k' Hk Hk'. rewrite coefficient_product_fischer by (apply homogeneous_Y, order_bound; now apply pos_lt).
    rewrite fischer_Yi by now apply pos_lt. rewrite kron_pos by assumption. rewrite <- kron_eqb. pose proof (ynorm_pos l). field. lra.
Qed.
Print Assumptions C23_orthonormal.

Lemma harmonic_lap : forall p, harmonic (fun x y z => peval p (x, y, z)) -> lap p == pzero.
Proof.
  intros p [fx [fy [fz [fxx [fyy [fzz [H1 [H2 H3]]]]]]]].
  assert (Ex : forall x y z, fx x y z = peval (pd 0 p) (x, y, z)).
  { intros x y z. destruct (H1 x y z) as [A _]. eapply uniqueness_limite; [exact A|exact (peval_derivative 0 p (x, y, z) ltac:(lia))]. }
  assert (Ey : forall x y z, fy x y z = peval (pd 1 p) (x, y, z)).
  { intros x y z. destruct (H1 x y z) as [_ [A _]]. eapply uniqueness_limite; [exact A|exact (peval_derivative 1 p (x, y, z) ltac:(lia))]. }
  assert (Ez : forall x y z, fz x y z = peval (pd 2 p) (x, y, z)).
  { intros x y z. destruct (H1 x y z) as [_ [_ A]]. eapply uniqueness_limite; [exact A|exact (peval_derivative 2 p (x, y, z) ltac:(lia))]. }
  apply peval_zero. intros [[x y] z]. unfold lap. rewrite !peval_add. rewrite <- (H3 x y z). destruct (H2 x y z) as [A [B C]].
  assert (Fx : (fun t => fx t y z) = (fun t => peval (pd 0 p) (put_at 0 (x, y, z) t))) by (apply functional_extensionality; intros t; apply Ex).
  assert (Fy : (fun t => fy x t z) = (fun t => peval (pd 1 p) (put_at 1 (x, y, z) t))) by (apply functional_extensionality; intros t; apply Ey).
  assert (Fz : (fun t => fz x y t) = (fun t => peval (pd 2 p) (put_at 2 (x, y, z) t))) by (apply functional_extensionality; intros t; apply Ez).
  rewrite Fx in A. rewrite Fy in B. rewrite Fz in C.
  f_equal; [f_equal|].
  - eapply uniqueness_limite; [exact (peval_derivative 0 (pd 0 p) (x, y, z) ltac:(lia))|exact A].
  - eapply uniqueness_limite; [exact (peval_derivative 1 (pd 1 p) (x, y, z) ltac:(lia))|exact B].
  - eapply uniqueness_limite; [exact (peval_derivative 2 (pd 2 p) (x, y, z) ltac:(lia))|exact C].
Qed.

(** Every homogeneous polynomial of degree l that satisfies Laplace's equation is a linear combination
    of the entries of the degree-l block. *)
Theorem C23_complete : forall L cartesian l c, (l < degrees L)%nat -> harmonic (form_value l c) -> exists a : nat -> R,
  forall rs ys b x y z, solid_returns rs L cartesian ys -> nth_error rs b = Some (x, y, z) ->
    form_value l c x y z = rsum (2 * l + 1) (fun k => a k * at2 ys b (l * l + k)).
Proof.
  intros L ca l c Hl Hh. unfold degrees in Hl. set (h := map (fun k => (c k, k)) (exponents l) : poly3).
  assert (Eh : forall x y z, form_value l c x y z = peval h (x, y, z)).
  { intros x y z. unfold form_value, peval, h. induction (exponents l) as [|[[a b] e] ks IH]; [reflexivity|]. cbn [map total]. rewrite lin_cons. cbn [fst snd]. rewrite IH. reflexivity. }
  assert (Hhom : homogeneous l h).
  { intros t Ht. apply in_map_iff in Ht as [[[a b] e] [<- Hk]]. apply in_exponents in Hk. exact Hk. }
  assert (Hlap : lap h == pzero).
  { apply harmonic_lap. replace (fun x y z => peval h (x, y, z)) with (form_value l c); [exact Hh|]. do 3 (apply functional_extensionality; intro). apply Eh. }
  exists (fun k => fischer (Yi l (pos ca l k)) h / ynorm l). intros rs ys b x y z H Er. apply solid_inv in H as [_ H].
  destruct (Forall2_get _ _ _ _ _ [] _ _ H Er) as [[_ R1] _]. rewrite Eh. rewrite (peval_peq _ _ _ (Y_complete l h Hhom Hlap)), peval_sum.
  rewrite <- (rsum_pos ca l). apply rsum_ext. intros k Hk. rewrite peval_scal. unfold at2. rewrite R1 by lia. rewrite const_racah. ring.
Qed.
Print Assumptions C23_complete.

(** The hypothesis of completeness is met by a form that is not a multiple of one entry: x y + y z. *)
Example C23_case : harmonic (form_value 2 (fun k => let '(a, b, e) := k in if ((b =? 1) && negb (b =? 2))%nat then 1 else 0)).
Proof.
  assert (E : forall x y z, form_value 2 (fun k => let '(a, b, e) := k in if ((b =? 1) && negb (b =? 2))%nat then 1 else 0) x y z = x * y + y * z).
  { intros x y z. unfold form_value. cbn. ring. }
  replace (form_value 2 _) with (fun x y z : R => x * y + y * z) by (do 3 (apply functional_extensionality; intro); symmetry; apply E).
  exists (fun x y z => y), (fun x y z => x + z), (fun x y z => y), (fun _ _ _ => 0), (fun _ _ _ => 0), (fun _ _ _ => 0).
  assert (L : forall f a b x, (forall t, f t = a * t + b) -> derivable_pt_lim f x a).
  { intros f a b x Hf eps He. exists (mkposreal 1 Rlt_0_1). intros h Hh _. rewrite !Hf. replace ((a * (x + h) + b - (a * x + b)) / h - a) with 0 by (field; exact Hh). rewrite Rabs_R0. exact He. }
  split; [|split].
  - intros x y z. split; [|split]; [apply (L _ _ (y * z))|apply (L _ _ 0)|apply (L _ _ (x * y))]; intros t; ring.
  - intros x y z. split; [|split]; [apply (L _ _ y)|apply (L _ _ (x + z))|apply (L _ _ y)]; intros t; ring.
  - intros. ring.
Qed.

(** * C24 *)

(** Rotating the vector and evaluating = evaluating and multiplying with the Wigner-D matrix from the
    right; for every orthogonal matrix, both index orders, all normalisations, normalised or not. *)
Theorem C24_rotate : forall tiny rs rs' ms L r_is_normalized cartesian norm ys ys' ds a b b' r m j,
  0 < tiny ->
  spherical_returns tiny rs L r_is_normalized cartesian norm ys ->
  spherical_returns tiny rs' L r_is_normalized cartesian norm ys' ->
  wigner_returns ms L cartesian ds ->
  nth_error rs b = Some r -> nth_error ms a = Some m -> nth_error rs' b' = Some (act r m) -> orthogonal m ->
  (j < degrees L * degrees L)%nat ->
  at2 ys' b' j = rsum (degrees L * degrees L) (fun k => at2 ys b k * at3 0 ds a k j).
Proof.
  intros tiny rs rs' ms L nrm c norm ys ys' ds a b b' r m j Ht H H' HD Er Em Er' Ho Hj. unfold degrees in *.
  apply spherical_inv in H as [_ [_ H]]; [|exact Ht]. apply spherical_inv in H' as [_ [_ H']]; [|exact Ht]. apply wigner_inv in HD as [_ HD].
  destruct (Forall2_get _ _ _ _ _ [] _ _ H Er) as [R1 _]. destruct (Forall2_get _ _ _ _ _ [] _ _ H' Er') as [R2 _]. destruct (Forall2_get _ _ _ _ _ [] _ _ HD Em) as [D _].
  destruct (block_decomp j) as [l [k [-> [Hk _]]]]. assert (Hl : (l <= Z.to_nat L)%nat) by nia.
  change (rsum ((Z.to_nat L + 1) * (Z.to_nat L + 1)) (fun k0 => at2 ys b k0 * at3 0 ds a k0 (l * l + k)))
    with (rsum ((Z.to_nat L + 1) * (Z.to_nat L + 1)) (fun k0 => nth k0 (nth b ys []) 0 * at2 (nth a ds []) k0 (l * l + k))).
  rewrite (full_sum _ _ _ _ _ _ _ l k R1 D Hl Hk). destruct R2 as [_ R2]. cbv beta in R2. unfold at2. rewrite R2 by assumption. f_equal.
  assert (E : (if nrm then act r m else direction tiny (act r m)) = act (if nrm then r else direction tiny r) m).
  { destruct nrm; [reflexivity|]. now apply direction_act. }
  rewrite E. apply Y_act; [exact Ho|]. now apply pos_lt.
Qed.
Print Assumptions C24_rotate.

(** The same for solid harmonics. *)
Theorem C24_rotate_solid : forall rs rs' ms L cartesian ys ys' ds a b b' r m j,
  solid_returns rs L cartesian ys -> solid_returns rs' L cartesian ys' -> wigner_returns ms L cartesian ds ->
  nth_error rs b = Some r -> nth_error ms a = Some m -> nth_error rs' b' = Some (act r m) -> orthogonal m ->
  (j < degrees L * degrees L)%nat ->
  at2 ys' b' j = rsum (degrees L * degrees L) (fun k => at2 ys b k * at3 0 ds a k j).
Proof.
  intros rs rs' ms L c ys ys' ds a b b' r m j H H' HD Er Em Er' Ho Hj. unfold degrees in *.
  apply solid_inv in H as [_ H]. apply solid_inv in H' as [_ H']. apply wigner_inv in HD as [_ HD].
  destruct (Forall2_get _ _ _ _ _ [] _ _ H Er) as [R1 _]. destruct (Forall2_get _ _ _ _ _ [] _ _ H' Er') as [R2 _]. destruct (Forall2_get _ _ _ _ _ [] _ _ HD Em) as [D _].
  destruct (block_decomp j) as [l [k [-> [Hk _]]]]. assert (Hl : (l <= Z.to_nat L)%nat) by nia.
  change (rsum ((Z.to_nat L + 1) * (Z.to_nat L + 1)) (fun k0 => at2 ys b k0 * at3 0 ds a k0 (l * l + k)))
    with (rsum ((Z.to_nat L + 1) * (Z.to_nat L + 1)) (fun k0 => nth k0 (nth b ys []) 0 * at2 (nth a ds []) k0 (l * l + k))).
  rewrite (full_sum _ _ _ _ _ _ _ l k R1 D Hl Hk). destruct R2 as [_ R2]. unfold at2. rewrite R2 by assumption. f_equal.
  apply Y_act; [exact Ho|]. now apply pos_lt.
Qed.
Print Assumptions C24_rotate_solid.

(** Proper rotations are orthogonal, so the theorems apply to the matrices of C26-C29. *)
Theorem C24_rotations_are_orthogonal : forall m, proper_rotation m -> orthogonal m.
Proof. exact rotation_orthogonal. Qed.
Print Assumptions C24_rotations_are_orthogonal.

Lemma wigner_exists : forall ms L cartesian, (0 <= L)%Z -> exists ds, wigner_returns ms L cartesian ds.
Proof.
  intros ms L c HL. destruct (wigner_ok 0 empty_world None IoOk ms L c wd_ready_empty call_ok_serial HL) as [ds [E _]].
  exists ds, 0%nat, empty_world, None, IoOk. auto using wd_ready_empty, call_ok_serial.
Qed.

(** A quarter turn about the z axis. *)
Definition quarter_turn : mat := ((0, 1, 0), (-1, 0, 0), (0, 0, 1)).
Lemma quarter_turn_rotation : proper_rotation quarter_turn.
Proof.
  split; [|cbn; ring]. intros i j Hi Hj. destruct i as [|[|[|]]]; [| | |lia]; (destruct j as [|[|[|]]]; [| | |lia]); cbn; ring.
Qed.

Example C24_case : exists ys ys' ds, solid_returns [(1, 2, 3)] 3 true ys /\ solid_returns [(-2, 1, 3)] 3 true ys' /\ wigner_returns [quarter_turn] 3 true ds /\
  (forall j, (j < 16)%nat -> at2 ys' 0 j = rsum 16 (fun k => at2 ys 0 k * at3 0 ds 0 k j)) /\ at2 ys' 0 1 <> at2 ys 0 1.
Proof.
  destruct (solid_exists [(1, 2, 3)] 3 true ltac:(lia)) as [ys H]. destruct (solid_exists [(-2, 1, 3)] 3 true ltac:(lia)) as [ys' H']. destruct (wigner_exists [quarter_turn] 3 true ltac:(lia)) as [ds HD].
  exists ys, ys', ds. split; [exact H|]. split; [exact H'|]. split; [exact HD|]. split.
  - intros j Hj. apply (C24_rotate_solid _ _ _ _ _ _ _ _ 0 0 0 (1, 2, 3) quarter_turn j H H' HD eq_refl eq_refl); [|apply rotation_orthogonal, quarter_turn_rotation|exact Hj].
    cbn. apply f_equal; repeat f_equal; ring.
  - destruct (C21_low_degrees _ _ _ 0%nat _ _ _ _ H eq_refl) as [_ A]. destruct (C21_low_degrees _ _ _ 0%nat _ _ _ _ H' eq_refl) as [_ A'].
    destruct (A ltac:(lia)) as [-> _]. destruct (A' ltac:(lia)) as [-> _]. lra.
Qed.

(** * C25 *)

Theorem C25_total : forall empty w s o ms L cartesian, wd_ready w -> call_ok s o -> (0 <= L)%Z ->
  exists ds, snd (wigner_d empty w s o (3, 3)%nat (map mlist ms) L cartesian) = Ok ds /\ length ds = length ms /\
    Forall (fun d => length d = (degrees L * degrees L)%nat /\ Forall (fun r => length r = (degrees L * degrees L)%nat) d) ds.
Proof.
  intros empty w s o ms L c Hw Hc HL. destruct (wigner_ok empty w s o ms L c Hw Hc HL) as [ds [E F]]. exists ds. split; [exact E|].
  split; [symmetry; eapply Forall2_length; exact F|]. clear E. induction F as [|m d ms ds [H1 [H2 _]] F IH]; constructor; [|exact IH].
  split; [exact H1|]. apply Forall_forall. exact H2.
Qed.
Print Assumptions C25_total.

Theorem C25_deterministic : forall ms L cartesian ds ds', wigner_returns ms L cartesian ds -> wigner_returns ms L cartesian ds' -> ds = ds'.
Proof.
  intros ms L c ds ds' H H'. apply wigner_inv in H as [_ H]. apply wigner_inv in H' as [_ H'].
  eapply Forall2_unique; [|exact H|exact H']. intros a b b' Hb Hb'. eapply matrix_of_unique; eauto.
Qed.
Print Assumptions C25_deterministic.

Theorem C25_rejected : forall empty w s o dims ms L cartesian, dims <> (3, 3)%nat \/ (L < 0)%Z ->
  wigner_d empty w s o dims ms L cartesian = (w, Err ValueError).
Proof.
  intros empty w s o [p q] ms L c [H|H]; [|now apply wigner_negative]. unfold wigner_d. cbn [fst snd].
  destruct (Nat.eqb_spec p 3) as [->|]; [|reflexivity]. destruct (Nat.eqb_spec q 3) as [->|]; [congruence|reflexivity].
Qed.
Print Assumptions C25_rejected.

(** Zero outside the degree blocks, for every 3x3 matrix; the degree-0 entry is 1. *)
Theorem C25_block_diagonal : forall ms L cartesian ds a m,
  wigner_returns ms L cartesian ds -> nth_error ms a = Some m ->
  at3 0 ds a 0 0 = 1 /\
  forall l l' i j, (l < degrees L)%nat -> (l' < degrees L)%nat -> (i < 2 * l + 1)%nat -> (j < 2 * l' + 1)%nat -> l <> l' ->
    at3 0 ds a (l * l + i) (l' * l' + j) = 0.
Proof.
  intros ms L c ds a m H Em. apply wigner_inv in H as [HL H]. destruct (Forall2_get _ _ _ _ _ [] _ _ H Em) as [[_ [_ D]] _]. unfold degrees. split.
  - specialize (D 0 0 0 0 ltac:(lia) ltac:(lia) ltac:(lia) ltac:(lia))%nat. cbn [Nat.mul Nat.add] in D. unfold at3. unfold at2 in D. rewrite D. cbn [Nat.eq_dec].
    replace (pos c 0 0) with 0%nat by (destruct c; reflexivity). apply dmat_0.
  - intros l l' i j Hl Hl' Hi Hj N. specialize (D l l' i j ltac:(lia) ltac:(lia) Hi Hj). unfold at2 in D. unfold at3. rewrite D. destruct (Nat.eq_dec l l'); [contradiction|reflexivity].
Qed.
Print Assumptions C25_block_diagonal.

(** The identity matrix gives the identity. *)
Theorem C25_identity : forall ms L cartesian ds a i j,
  wigner_returns ms L cartesian ds -> nth_error ms a = Some unit_matrix ->
  (i < degrees L * degrees L)%nat -> (j < degrees L * degrees L)%nat ->
  at3 0 ds a i j = if Nat.eqb i j then 1 else 0.
Proof.
  intros ms L c ds a i j H Em Hi Hj. unfold degrees in *. apply wigner_inv in H as [HL H]. destruct (Forall2_get _ _ _ _ _ [] _ _ H Em) as [[_ [_ D]] _].
  destruct (block_decomp i) as [l [p [-> [Hp _]]]]. destruct (block_decomp j) as [l' [q [-> [Hq _]]]].
  specialize (D l l' p q ltac:(nia) ltac:(nia) Hp Hq). unfold at2 in D. unfold at3. rewrite D. destruct (Nat.eq_dec l l') as [<-|N].
  - rewrite (dmat_ext _ kron) by (intros x y Hx Hy; destruct x as [|[|[|]]]; [| | |lia]; (destruct y as [|[|[|]]]; [| | |lia]); reflexivity).
    rewrite dmat_id by now apply pos_lt. rewrite kron_pos by assumption. rewrite kron_eqb. destruct (Nat.eqb_spec p q), (Nat.eqb_spec (l * l + p) (l * l + q)); try reflexivity; lia.
  - destruct (Nat.eqb_spec (l * l + p) (l' * l' + q)) as [E|]; [|reflexivity]. exfalso. apply N. nia.
Qed.
Print Assumptions C25_identity.

(** Products of orthogonal matrices give products of Wigner-D matrices. *)
Theorem C25_product : forall ms1 ms2 ms3 L cartesian ds1 ds2 ds3 a1 a2 a3 m1 m2 i j,
  wigner_returns ms1 L cartesian ds1 -> wigner_returns ms2 L cartesian ds2 -> wigner_returns ms3 L cartesian ds3 ->
  nth_error ms1 a1 = Some m1 -> nth_error ms2 a2 = Some m2 -> nth_error ms3 a3 = Some (matmul m1 m2) ->
  orthogonal m1 -> orthogonal m2 ->
  (i < degrees L * degrees L)%nat -> (j < degrees L * degrees L)%nat ->
  at3 0 ds3 a3 i j = rsum (degrees L * degrees L) (fun k => at3 0 ds1 a1 i k * at3 0 ds2 a2 k j).
Proof.
  intros ms1 ms2 ms3 L c ds1 ds2 ds3 a1 a2 a3 m1 m2 i j H1 H2 H3 E1 E2 E3 O1 O2 Hi Hj. unfold degrees in *.
  apply wigner_inv in H1 as [_ H1]. apply wigner_inv in H2 as [_ H2]. apply wigner_inv in H3 as [_ H3].
  destruct (Forall2_get _ _ _ _ _ [] _ _ H1 E1) as [D1 _]. destruct (Forall2_get _ _ _ _ _ [] _ _ H2 E2) as [D2 _]. destruct (Forall2_get _ _ _ _ _ [] _ _ H3 E3) as [D3 _].
  destruct (block_decomp i) as [l [p [-> [Hp _]]]]. destruct (block_decomp j) as [l' [q [-> [Hq _]]]].
  assert (Hl : (l <= Z.to_nat L)%nat) by nia. assert (Hl' : (l' <= Z.to_nat L)%nat) by nia.
  change (rsum ((Z.to_nat L + 1) * (Z.to_nat L + 1)) (fun k => at3 0 ds1 a1 (l * l + p) k * at3 0 ds2 a2 k (l' * l' + q)))
    with (rsum ((Z.to_nat L + 1) * (Z.to_nat L + 1)) (fun k => at2 (nth a1 ds1 []) (l * l + p) k * at2 (nth a2 ds2 []) k (l' * l' + q))).
  rewrite (matrix_sum _ _ _ _ _ _ l l' p q D1 D2 Hl Hl' Hp Hq). destruct D3 as [_ [_ D3]].
  specialize (D3 l l' p q Hl Hl' Hp Hq). unfold at2 in D3. unfold at3. rewrite D3. destruct (Nat.eq_dec l l') as [<-|]; [|reflexivity].
  rewrite <- dmat_mul by (first [apply orthogonal_rows; assumption | now apply pos_lt]). apply dmat_ext. intros x y Hx Hy.
  destruct m1 as [[[[b1 b2] b3] [[b4 b5] b6]] [[b7 b8] b9]], m2 as [[[[d1 d2] d3] [[d4 d5] d6]] [[d7 d8] d9]].
  unfold mprod. destruct x as [|[|[|]]]; [| | |lia]; (destruct y as [|[|[|]]]; [| | |lia]); cbn; ring.
Qed.
Print Assumptions C25_product.

(** The matrices are orthogonal: D D^T = D^T D = 1. *)
Theorem C25_orthogonal : forall ms L cartesian ds a m i j,
  wigner_returns ms L cartesian ds -> nth_error ms a = Some m -> orthogonal m ->
  (i < degrees L * degrees L)%nat -> (j < degrees L * degrees L)%nat ->
  rsum (degrees L * degrees L) (fun k => at3 0 ds a i k * at3 0 ds a j k) = (if Nat.eqb i j then 1 else 0) /\
  rsum (degrees L * degrees L) (fun k => at3 0 ds a k i * at3 0 ds a k j) = (if Nat.eqb i j then 1 else 0).
Proof.
  intros ms L c ds a m i j H E O Hi Hj. unfold degrees in *. apply wigner_inv in H as [_ H]. destruct (Forall2_get _ _ _ _ _ [] _ _ H E) as [D _].
  destruct (block_decomp i) as [l [p [-> [Hp _]]]]. destruct (block_decomp j) as [l' [q [-> [Hq _]]]].
  assert (Hl : (l <= Z.to_nat L)%nat) by nia. assert (Hl' : (l' <= Z.to_nat L)%nat) by nia.
  assert (K : (if Nat.eq_dec l l' then kron p q else 0) = (if Nat.eqb (l * l + p) (l' * l' + q) then 1 else 0)).
  { destruct (Nat.eq_dec l l') as [<-|N].
    - rewrite kron_eqb. destruct (Nat.eqb_spec p q), (Nat.eqb_spec (l * l + p) (l * l + q)); try reflexivity; lia.
    - destruct (Nat.eqb_spec (l * l + p) (l' * l' + q)); [|reflexivity]. exfalso. apply N. nia. }
  split; rewrite <- K.
  - exact (matrix_gram_rows _ _ _ _ l l' p q D O Hl Hl' Hp Hq).
  - exact (matrix_gram_cols _ _ _ _ l l' p q D O Hl Hl' Hp Hq).
Qed.
Print Assumptions C25_orthogonal.

(** In Cartesian order the degree-1 block is the matrix itself. *)
Theorem C25_degree_one : forall ms L ds a m i j,
  wigner_returns ms L true ds -> nth_error ms a = Some m -> orthogonal m -> (1 <= L)%Z -> (i < 3)%nat -> (j < 3)%nat ->
  at3 0 ds a (1 + i) (1 + j) = entry m i j.
Proof.
  intros ms L ds a m i j H E O HL Hi Hj. apply wigner_inv in H as [_ H]. destruct (Forall2_get _ _ _ _ _ [] _ _ H E) as [[_ [_ D]] _].
  specialize (D 1 1 i j ltac:(lia) ltac:(lia) ltac:(lia) ltac:(lia))%nat. unfold at2 in D. unfold at3. change (1 * 1 + i)%nat with (1 + i)%nat in D. change (1 * 1 + j)%nat with (1 + j)%nat in D. rewrite D.
  cbn [Nat.eq_dec]. apply dmat_1; [apply orthogonal_rows; exact O|exact Hi|exact Hj].
Qed.
Print Assumptions C25_degree_one.

Lemma psubst_scale : forall t M l p, homogeneous l p -> psubst (fun i j => t * M i j) p == p3_scal (t ^ l) (psubst M p).
Proof.
  intros t M l p Hp.
  assert (G : forall v, peval (p3_add (psubst (fun i j => t * M i j) p) (p3_scal (-1) (p3_scal (t ^ l) (psubst M p)))) v = 0).
  { intros [[x y] z]. rewrite peval_add, !peval_scal, !peval_subst.
    replace (mapply (fun i j => t * M i j) (x, y, z)) with (let '(a, b, c) := mapply M (x, y, z) in (t * a, t * b, t * c)) by (cbn; f_equal; [f_equal|]; ring).
    destruct (mapply M (x, y, z)) as [[a b] c]. rewrite (peval_homogeneous l p t a b c Hp). ring. }
  apply peval_zero in G. intros w. specialize (G w). rewrite lin_add, !lin_scal, lin_nil in G. rewrite lin_scal. lra.
Qed.

(** Scaling the matrix scales the degree-l block with the l-th power; in particular the inversion -1
    multiplies it with the parity (-1)^l. *)
Theorem C25_parity : forall ms ms' L cartesian ds ds' a a' m l i j,
  wigner_returns ms L cartesian ds -> wigner_returns ms' L cartesian ds' ->
  nth_error ms a = Some m -> nth_error ms' a' = Some (negative m) ->
  (l < degrees L)%nat -> (i < 2 * l + 1)%nat -> (j < 2 * l + 1)%nat ->
  at3 0 ds' a' (l * l + i) (l * l + j) = (if Nat.even l then 1 else -1) * at3 0 ds a (l * l + i) (l * l + j).
Proof.
  intros ms ms' L c ds ds' a a' m l i j H H' E E' Hl Hi Hj. unfold degrees in Hl. apply wigner_inv in H as [_ H]. apply wigner_inv in H' as [_ H'].
  destruct (Forall2_get _ _ _ _ _ [] _ _ H E) as [[_ [_ D]] _]. destruct (Forall2_get _ _ _ _ _ [] _ _ H' E') as [[_ [_ D']] _].
  specialize (D l l i j ltac:(lia) ltac:(lia) Hi Hj). specialize (D' l l i j ltac:(lia) ltac:(lia) Hi Hj). unfold at2 in D, D'. unfold at3. rewrite D, D'. destruct (Nat.eq_dec l l); [|congruence].
  rewrite (dmat_ext _ (fun x y => -1 * entry m x y)).
  2:{ intros x y Hx Hy. destruct m as [[[[b1 b2] b3] [[b4 b5] b6]] [[b7 b8] b9]]. destruct x as [|[|[|]]]; [| | |lia]; (destruct y as [|[|[|]]]; [| | |lia]); reflexivity. }
  unfold dmat. pose proof (homogeneous_Y l _ (order_bound l (pos c l i) (pos_lt c l i Hi))) as Hh. fold (Yi l (pos c l i)) in Hh.
  rewrite (fischer_proper _ _ (peq_refl (Yi l (pos c l j))) _ _ (psubst_scale (-1) (entry m) l _ Hh)), fischer_scal_r.
  replace (if Nat.even l then 1 else -1) with ((-1) ^ l); [unfold Rdiv; ring|].
  clear. induction l as [|l IH]; [reflexivity|]. rewrite Nat.even_succ, <- Nat.negb_even. cbn [pow]. rewrite IH. destruct (Nat.even l); cbn; ring.
Qed.
Print Assumptions C25_parity.

Example C25_case : exists ds, wigner_returns [quarter_turn; unit_matrix] 2 true ds /\ at3 0 ds 0 1 2 = 1 /\ at3 0 ds 0 1 1 = 0 /\ at3 0 ds 1 5 5 = 1 /\
  rsum 9 (fun k => at3 0 ds 0 7 k * at3 0 ds 0 7 k) = 1.
Proof.
  destruct (wigner_exists [quarter_turn; unit_matrix] 2 true ltac:(lia)) as [ds H]. exists ds. split; [exact H|].
  pose proof (rotation_orthogonal _ quarter_turn_rotation) as O.
  split; [exact (C25_degree_one _ _ _ 0 _ 0 1 H eq_refl O ltac:(lia) ltac:(lia) ltac:(lia))|].
  split; [exact (C25_degree_one _ _ _ 0 _ 0 0 H eq_refl O ltac:(lia) ltac:(lia) ltac:(lia))|].
  split; [exact (C25_identity _ _ _ _ 1 5 5 H eq_refl ltac:(cbn; lia) ltac:(cbn; lia))|].
  exact (proj1 (C25_orthogonal _ _ _ _ 0 _ 7 7 H eq_refl O ltac:(cbn; lia) ltac:(cbn; lia))).
Qed.

(** * C60 *)

(** Another normalisation multiplies every degree with its documented constant. *)
Theorem C60_spherical_harmonics : forall tiny rs rs' L r_is_normalized cartesian norm ys ys' b b' r l k c,
  0 < tiny ->
  spherical_returns tiny rs L r_is_normalized cartesian norm ys -> spherical_returns tiny rs' L r_is_normalized cartesian "racah" ys' ->
  nth_error rs b = Some r -> nth_error rs' b' = Some r -> (l < degrees L)%nat -> (k < 2 * l + 1)%nat -> documented_constant norm l c ->
  at2 ys b (l * l + k) = c * at2 ys' b' (l * l + k).
Proof.
  intros tiny rs rs' L nrm ca norm ys ys' b b' r l k c Ht H H' E E' Hl Hk Hc. unfold degrees in Hl.
  apply spherical_inv in H as [_ [Hn H]]; [|exact Ht]. apply spherical_inv in H' as [_ [_ H']]; [|exact Ht].
  destruct (Forall2_get _ _ _ _ _ [] _ _ H E) as [[_ R1] _]. destruct (Forall2_get _ _ _ _ _ [] _ _ H' E') as [[_ R2] _]. cbv beta in *.
  unfold at2. rewrite R1, R2 by lia. rewrite const_racah, Rmult_1_l. f_equal.
  destruct (normalization_known norm l Hn) as [_ D]. unfold documented_constant in *. destruct Hc as [[[->| ->] ->]|[[-> ->]|[-> ->]]]; intuition (try discriminate; auto).
Qed.
Print Assumptions C60_spherical_harmonics.

(** Every normalisation has exactly one documented constant; unknown names are rejected. *)
Theorem C60_constants : forall norm, known_normalization norm <-> forall l, exists c, documented_constant norm l c.
Proof.
  intros norm. split.
  - intros H l. exists (const_of norm l). now apply normalization_known.
  - intros H. destruct (H 0%nat) as [c [[[->| ->] _]|[[-> _]|[-> _]]]]; unfold known_normalization; cbn; auto.
Qed.
Print Assumptions C60_constants.

Theorem C60_unknown_rejected : forall empty tiny w s o rs L r_is_normalized cartesian norm,
  sh_ready w -> call_ok s o -> (0 <= L)%Z -> ~ known_normalization norm ->
  snd (spherical_harmonics empty tiny w s o 3 rs L r_is_normalized cartesian norm) = Err ValueError.
Proof. exact spherical_unknown. Qed.
Print Assumptions C60_unknown_rejected.

(** The two index orders: entry k of the degree-l block in Cartesian order is the entry of order m in
    the standard order, where m is the k-th of l, -l, l-1, ..., -1, 0. *)
Theorem C60_index_orders : forall tiny rs rs' L r_is_normalized norm ys ys' b b' r l k,
  0 < tiny ->
  spherical_returns tiny rs L r_is_normalized true norm ys -> spherical_returns tiny rs' L r_is_normalized false norm ys' ->
  nth_error rs b = Some r -> nth_error rs' b' = Some r -> (l < degrees L)%nat -> (k < 2 * l + 1)%nat ->
  at2 ys b (l * l + k) = at2 ys' b' (Z.to_nat (Z.of_nat (l * l + l) + nth k (documented_orders l) 0%Z)).
Proof.
  intros tiny rs rs' L nrm norm ys ys' b b' r l k Ht H H' E E' Hl Hk. unfold degrees in Hl.
  apply spherical_inv in H as [_ [Hn H]]; [|exact Ht]. apply spherical_inv in H' as [_ [_ H']]; [|exact Ht].
  destruct (Forall2_get _ _ _ _ _ [] _ _ H E) as [[_ R1] _]. destruct (Forall2_get _ _ _ _ _ [] _ _ H' E') as [[_ R2] _]. cbv beta in *.
  pose proof (C12_cartesian_permutation_order 0 l l k ltac:(lia) Hk) as P. rewrite cart_perm_nth in P by lia.
  rewrite <- P, Nat2Z.id. unfold at2. rewrite (R2 l (cart_index l k)) by (lia || now apply cart_index_lt). rewrite R1 by lia. reflexivity.
Qed.
Print Assumptions C60_index_orders.

Example C60_case : exists ys, spherical_returns 1 [(0, 0, 2)] 1 false true "4pi" ys /\ at2 ys 0 3 = sqrt 3.
Proof.
  assert (N : [(0, 0, 2)] <> []) by discriminate.
  destruct (spherical_exists 1 [(0, 0, 2)] 1 false true "4pi" ltac:(lia) ltac:(lra) N ltac:(cbn; auto)) as [ys H].
  destruct (spherical_exists 1 [(0, 0, 2)] 1 false true "racah" ltac:(lia) ltac:(lra) N ltac:(cbn; auto)) as [y1 H1].
  assert (N' : [(0, 0, 1)] <> []) by discriminate.
  destruct (spherical_exists 1 [(0, 0, 1)] 1 true true "racah" ltac:(lia) ltac:(lra) N' ltac:(cbn; auto)) as [y2 H2].
  exists ys. split; [exact H|].
  pose proof (C60_spherical_harmonics 1 _ _ _ _ _ _ _ _ 0 0 (0, 0, 2) 1 2 (sqrt (2 * INR 1 + 1)) ltac:(lra) H H1 eq_refl eq_refl ltac:(cbn; lia) ltac:(lia)) as G.
  cbn [Nat.mul Nat.add] in G. rewrite G by (right; left; split; reflexivity).
  destruct (C21_short_vectors 1 _ _ _ _ _ _ _ 0 0 (0, 0, 2) 3 ltac:(lra) H1 H2 eq_refl) as [_ U]. rewrite <- U.
  - assert (S2 : solid_returns [(0, 0, 1)] 1 true y2).
    { destruct H2 as [e [w [s [o [A [B C]]]]]]. exists e, 1, w, s, o. auto. }
    destruct (C21_low_degrees _ _ _ 0%nat _ _ _ _ S2 eq_refl) as [_ A]. destruct (A ltac:(lia)) as [_ [_ ->]]. cbn [INR]. rewrite Rmult_1_r. f_equal. ring.
  - cbn. lra.
  - assert (Es : size (0, 0, 2) = 2). { unfold size. cbn [dot]. replace (0 * 0 + 0 * 0 + 2 * 2) with (2 * 2) by ring. apply sqrt_square. lra. }
    unfold unit_of. rewrite Es. cbn. apply f_equal; repeat f_equal; field.
Qed.

(** * C59 *)

(** Shapes, and the value of every entry: the coefficient of [_clebsch_gordan] where the selection rules
    allow one and zero elsewhere.  In Cartesian order position k of degree l stands for the k-th of the
    orders l, -l, ..., 0. *)
Definition order_at (cartesian : bool) (l k : nat) : Z :=
  if cartesian then nth k (documented_orders l) 0%Z else (Z.of_nat k - Z.of_nat l)%Z.

Lemma order_at_pos : forall c l k, (k < 2 * l + 1)%nat -> (Z.of_nat (pos c l k) - Z.of_nat l)%Z = order_at c l k.
Proof.
  intros c l k Hk. destruct c; cbn [pos order_at]; [|reflexivity]. pose proof (C12_cartesian_permutation_order 0 l l k ltac:(lia) Hk) as P. rewrite cart_perm_nth in P by lia. lia.
Qed.

Theorem C59_entries : forall (A : Type) (zero : A) is_zero (value : cg_key -> A) empty w s o L1 L2 L3 cartesian,
  zero_test zero is_zero -> cg_ready A zero is_zero value w -> call_ok s o -> (0 <= L1)%Z -> (0 <= L2)%Z -> (0 <= L3)%Z ->
  exists c, snd (clebsch_gordan A zero is_zero value empty w s o L1 L2 L3 cartesian) = Ok c /\
    shape3 (degrees L1 * degrees L1) (degrees L2 * degrees L2) (degrees L3 * degrees L3) c /\
    forall l1 i l2 j l3 k, (l1 < degrees L1)%nat -> (l2 < degrees L2)%nat -> (l3 < degrees L3)%nat ->
      (i < 2 * l1 + 1)%nat -> (j < 2 * l2 + 1)%nat -> (k < 2 * l3 + 1)%nat ->
      let m1 := order_at cartesian l1 i in let m2 := order_at cartesian l2 j in let m3 := order_at cartesian l3 k in
      let e := at3 zero c (l1 * l1 + i) (l2 * l2 + j) (l3 * l3 + k) in
      (selected l1 m1 l2 m2 l3 m3 -> e = value (l1, m1, l2, m2, l3, m3)) /\ (~ selected l1 m1 l2 m2 l3 m3 -> e = zero).
Proof.
  intros A zero is_zero value empty w s o L1 L2 L3 ca Hz Hw Hc H1 H2 H3.
  destruct (cg_total A zero is_zero value Hz empty w s o L1 L2 L3 ca Hw Hc H1 H2 H3) as [t [y [Et [Ey [Sh V]]]]].
  exists y. split; [exact Ey|]. split; [exact Sh|]. intros l1 i l2 j l3 k B1 B2 B3 Hi Hj Hk. cbv zeta. rewrite V by assumption. unfold degrees in *.
  destruct (cg_table_entry A zero is_zero value Hz w (Z.max (Z.max L1 L2) L3) s o Hw Hc ltac:(lia)) as [t' [Et' V']]. rewrite Et in Et'. injection Et' as <-.
  specialize (V' l1 (pos ca l1 i) l2 (pos ca l2 j) l3 (pos ca l3 k) ltac:(lia) ltac:(lia) ltac:(lia) (pos_lt _ _ _ Hi) (pos_lt _ _ _ Hj) (pos_lt _ _ _ Hk)).
  rewrite !order_at_pos in V' by assumption. exact V'.
Qed.
Print Assumptions C59_entries.

(** [clebsch_gordan_for_degrees] is the block of [clebsch_gordan], whatever the two caches contain. *)
Theorem C59_block : forall (A : Type) (zero : A) is_zero (value : cg_key -> A) L1 L2 L3 (l1 l2 l3 : nat) cartesian c d,
  zero_test zero is_zero ->
  cg_returns A zero is_zero value L1 L2 L3 cartesian c ->
  cg_degrees_return A zero is_zero value (Z.of_nat l1) (Z.of_nat l2) (Z.of_nat l3) cartesian d ->
  (Z.of_nat l1 <= L1)%Z -> (Z.of_nat l2 <= L2)%Z -> (Z.of_nat l3 <= L3)%Z ->
  shape3 (2 * l1 + 1) (2 * l2 + 1) (2 * l3 + 1) d /\
  forall i j k, (i < 2 * l1 + 1)%nat -> (j < 2 * l2 + 1)%nat -> (k < 2 * l3 + 1)%nat ->
    at3 zero d i j k = at3 zero c (l1 * l1 + i) (l2 * l2 + j) (l3 * l3 + k).
Proof.
  intros A zero is_zero value L1 L2 L3 l1 l2 l3 ca c d Hz [e [w [s [o [Hw [Hc Ec]]]]]] [e' [w' [s' [o' [Hw' [Hc' Ed]]]]]] B1 B2 B3.
  destruct (cg_total A zero is_zero value Hz e w s o L1 L2 L3 ca Hw Hc ltac:(lia) ltac:(lia) ltac:(lia)) as [t [y [Et [Ey [_ V]]]]]. rewrite Ec in Ey. injection Ey as <-.
  destruct (cg_degrees_total A zero is_zero value Hz e' w' s' o' (Z.of_nat l1) (Z.of_nat l2) (Z.of_nat l3) ca Hw' Hc' ltac:(lia) ltac:(lia) ltac:(lia)) as [t' [y' [Et' [Ey' [Sh V']]]]].
  rewrite Ed in Ey'. injection Ey' as <-. rewrite !Nat2Z.id in Sh, V'. split; [exact Sh|]. intros i j k Hi Hj Hk. unfold degrees in *.
  rewrite V' by assumption. rewrite V by (lia || assumption).
  destruct (cg_table_prefix A zero is_zero value Hz w w' _ _ s s' o o' Hw Hc Hw' Hc' (ltac:(lia) : (0 <= Z.max (Z.max L1 L2) L3)%Z)
    (ltac:(lia) : (0 <= Z.max (Z.max (Z.of_nat l1) (Z.of_nat l2)) (Z.of_nat l3))%Z)) as [u [u' [Eu [Eu' P]]]].
  rewrite Et in Eu. injection Eu as <-. rewrite Et' in Eu'. injection Eu' as <-. symmetry. apply P; try lia; now apply pos_lt.
Qed.
Print Assumptions C59_block.

(** [clebsch_gordan_for_degrees] succeeds on all non-negative degrees; negative degrees raise
    ValueError in both functions. *)
Theorem C59_total : forall (A : Type) (zero : A) is_zero (value : cg_key -> A) empty w s o l1 l2 l3 cartesian,
  zero_test zero is_zero -> cg_ready A zero is_zero value w -> call_ok s o -> (0 <= l1)%Z -> (0 <= l2)%Z -> (0 <= l3)%Z ->
  exists d, snd (clebsch_gordan_for_degrees A zero is_zero value empty w s o l1 l2 l3 cartesian) = Ok d.
Proof.
  intros A zero is_zero value empty w s o l1 l2 l3 c Hz Hw Hc H1 H2 H3.
  destruct (cg_degrees_total A zero is_zero value Hz empty w s o l1 l2 l3 c Hw Hc H1 H2 H3) as [_ [d [_ [E _]]]]. now exists d.
Qed.
Print Assumptions C59_total.

Theorem C59_rejected : forall (A : Type) (zero : A) is_zero (value : cg_key -> A) empty w s o l1 l2 l3 cartesian,
  (l1 < 0)%Z \/ (l2 < 0)%Z \/ (l3 < 0)%Z ->
  clebsch_gordan A zero is_zero value empty w s o l1 l2 l3 cartesian = (w, Err ValueError) /\
  clebsch_gordan_for_degrees A zero is_zero value empty w s o l1 l2 l3 cartesian = (w, Err ValueError).
Proof.
  intros A zero is_zero value empty w s o l1 l2 l3 c H. unfold clebsch_gordan, clebsch_gordan_for_degrees, check_degree.
  destruct (l1 <? 0)%Z eqn:E1; [split; reflexivity|]. destruct (l2 <? 0)%Z eqn:E2; [split; reflexivity|]. destruct (l3 <? 0)%Z eqn:E3; [split; reflexivity|]. lia.
Qed.
Print Assumptions C59_rejected.

Lemma cg_ready_empty : forall A (zero : A) is_zero value, cg_ready A zero is_zero value empty_world.
Proof. intros. exists empty_world, []. split; [|split; [constructor|reflexivity]]. split; [reflexivity|]. left. exists OSError. split; [reflexivity|now left]. Qed.

(** Both calls succeed, and the shared block has non-zero entries (coefficients that are all 1). *)
Example C59_case : exists c d, cg_returns R 0 rzero (fun _ => 1) 2 3 2 true c /\ cg_degrees_return R 0 rzero (fun _ => 1) (Z.of_nat 1) (Z.of_nat 1) (Z.of_nat 2) true d /\
  at3 0 d 0 0 0 = 1 /\ at3 0 c 1 1 4 = 1 /\ at3 0 d 2 2 0 = 0.
Proof.
  destruct (C59_entries R 0 rzero (fun _ => 1) 0 empty_world None IoOk 2 3 2 true rzero_test (cg_ready_empty _ _ _ _) call_ok_serial ltac:(lia) ltac:(lia) ltac:(lia)) as [c [Ec [_ V]]].
  destruct (C59_total R 0 rzero (fun _ => 1) 0 empty_world None IoOk (Z.of_nat 1) (Z.of_nat 1) (Z.of_nat 2) true rzero_test (cg_ready_empty _ _ _ _) call_ok_serial ltac:(lia) ltac:(lia) ltac:(lia)) as [d Ed].
  assert (C : cg_returns R 0 rzero (fun _ => 1) 2 3 2 true c) by (exists 0%nat, empty_world, None, IoOk; auto using cg_ready_empty, call_ok_serial).
  assert (D : cg_degrees_return R 0 rzero (fun _ => 1) (Z.of_nat 1) (Z.of_nat 1) (Z.of_nat 2) true d) by (exists 0%nat, empty_world, None, IoOk; auto using cg_ready_empty, call_ok_serial).
  exists c, d. split; [exact C|]. split; [exact D|]. destruct (C59_block R 0 rzero _ _ _ _ 1 1 2 _ _ _ rzero_test C D ltac:(lia) ltac:(lia) ltac:(lia)) as [_ B].
  assert (B1 : (1 < degrees 2)%nat) by (cbn; lia). assert (B2 : (1 < degrees 3)%nat) by (cbn; lia). assert (B3 : (2 < degrees 2)%nat) by (cbn; lia).
  split; [|split].
  - rewrite (B 0 0 0)%nat by lia. apply (V 1 0 1 0 2 0)%nat; try assumption; try lia. cbn. unfold selected. lia.
  - apply (V 1 0 1 0 2 0)%nat; try assumption; try lia. cbn. unfold selected. lia.
  - rewrite (B 2 2 0)%nat by lia. apply (V 1 2 1 2 2 0)%nat; try assumption; try lia. cbn. unfold selected. lia.
Qed.
