(** Magnitudes of the terms of spherical harmonics, and the entries of the lookup table, for C91. *)
Require Import String List Reals Lra Lia ZArith Bool.
Require Import Verif.Base Verif.RSum Verif.Common_Model Verif.Common_Spec Verif.Common_Props Verif.LUT_Model Verif.LUT_Spec Verif.LUT_Props Verif.Symbolic_Model Verif.Poly_Proofs Verif.PolyDiff_Proofs Verif.PolyCalc_Proofs Verif.Harmonics_Basis_Proofs Verif.Symbolic_Proofs Verif.Rotations_Model Verif.Rotations_Spec Verif.Rotations_More_Proofs Verif.Irreps_Model Verif.Irreps_Spec Verif.Irreps_Proofs Verif.Irreps_Laws_Proofs Verif.Tensor_Conversion_Proofs Verif.Irreps_Props.
Require Import Verif.LUT_Entry_Proofs Verif.LUT_SH_Proofs Verif.LUT_Mono_Proofs.
Require Import Verif.Float_Model Verif.Float_Spec Verif.Float_Einsum_Model Verif.Float_Einsum_Spec Verif.Float_Einsum_Proofs Verif.Float_Harmonics_Model Verif.Float_Harmonics_Spec.
Import ListNotations.
Open Scope R_scope.

(** ** The multinomial theorem *)
Lemma total_app {X} (f : X -> R) a b : total f (a ++ b) = total f a + total f b.
Proof. induction a as [|x a IH]; cbn; [lra|]. rewrite IH. lra. Qed.
Lemma total_flat_map {X Y} (f : Y -> R) (g : X -> list Y) l : total f (flat_map g l) = total (fun x => total f (g x)) l.
Proof. induction l as [|x l IH]; cbn; [lra|]. now rewrite total_app, IH. Qed.
Lemma total_map {X Y} (f : Y -> R) (g : X -> Y) l : total f (map g l) = total (fun x => f (g x)) l.
Proof. induction l as [|x l IH]; cbn; [lra|]. now rewrite IH. Qed.
Lemma total_ext {X} (f g : X -> R) l : (forall x, In x l -> f x = g x) -> total f l = total g l.
Proof. induction l as [|x l IH]; intro H; [reflexivity|]. cbn. rewrite (H x) by now left. rewrite IH; [reflexivity|]. intros y I. apply H. now right. Qed.
Lemma total_scale {X} (f : X -> R) c l : total (fun x => c * f x) l = c * total f l.
Proof. induction l as [|x l IH]; cbn; [lra|]. rewrite IH. lra. Qed.
Lemma total_seq (f : nat -> R) n : total f (seq 0 (n + 1)) = sum_f_R0 f n.
Proof. induction n as [|n IH]; [cbn; lra|]. replace (S n + 1)%nat with (S (n + 1)) by lia. rewrite seq_S, total_app, IH. cbn [total sum_f_R0]. replace (0 + (n + 1))%nat with (S n) by lia. lra. Qed.
Lemma multinomial l x y z : total (fun k => let '(a, b, e) := k in INR (fact l) / (INR (fact a) * INR (fact b) * INR (fact e)) * (x ^ a * y ^ b * z ^ e)) (exponents l) = (x + (y + z)) ^ l.
Proof.
  unfold exponents. rewrite total_flat_map, binomial, <- total_seq. apply total_ext. intros a IA. apply in_seq in IA. rewrite total_map, binomial, <- total_seq, <- total_scale.
  apply total_ext. intros b IB. apply in_seq in IB. unfold C. pose proof (INR_fact_neq_0 a). pose proof (INR_fact_neq_0 b). pose proof (INR_fact_neq_0 (l - a - b)). pose proof (INR_fact_neq_0 (l - a)). field. repeat split; assumption.
Qed.

(** ** Cauchy-Schwarz *)
Lemma inner_total {X} (f g : X -> R) l : inner (map f l) (map g l) = total (fun x => f x * g x) l.
Proof. unfold inner. induction l as [|x l IH]; [reflexivity|]. cbn in *. now rewrite IH. Qed.
Lemma length_total {X} (f : X -> R) l : length_of (map f l) = sqrt (total (fun x => f x * f x) l).
Proof. unfold length_of. f_equal. induction l as [|x l IH]; [reflexivity|]. cbn in *. rewrite IH. lra. Qed.

Definition amplitude (l i : nat) (x y z : R) : R := total (fun k => let '(a, b, e) := k in Rabs (p3_coef (Yi l i) k) * (Rabs x ^ a * Rabs y ^ b * Rabs z ^ e)) (exponents l).
Lemma amplitude_bound l i x y z : (i < 2 * l + 1)%nat -> amplitude l i x y z <= amplification l * length_of [x; y; z] ^ l.
Proof.
  intro I. pose (w := fun k : nat * nat * nat => let '(a, b, e) := k in INR (fact l) / (INR (fact a) * INR (fact b) * INR (fact e))).
  pose (m := fun k : nat * nat * nat => let '(a, b, e) := k in Rabs x ^ a * Rabs y ^ b * Rabs z ^ e).
  assert (WP : forall k, 0 < w k). { intros [[a b] e]. cbn. apply Rdiv_lt_0_compat; [apply INR_fact_lt_0|]. repeat apply Rmult_lt_0_compat; apply INR_fact_lt_0. }
  pose proof (cauchy (map (fun k => Rabs (p3_coef (Yi l i) k) / sqrt (w k)) (exponents l)) (map (fun k => m k * sqrt (w k)) (exponents l))) as CS.
  rewrite !map_length in CS. specialize (CS eq_refl). rewrite inner_total, !length_total in CS.
  rewrite (total_ext _ (fun k => Rabs (p3_coef (Yi l i) k) * m k)) in CS by (intros k _; assert (sqrt (w k) <> 0) by (apply Rgt_not_eq, sqrt_lt_R0, WP); field; assumption).
  assert (A1 : total (fun x0 => Rabs (p3_coef (Yi l i) x0) / sqrt (w x0) * (Rabs (p3_coef (Yi l i) x0) / sqrt (w x0))) (exponents l) = INR (fact (2 * l)) / (INR (fact l) * INR (fact l)) / 2 ^ l).
  { pose proof (coefficient_product_fischer l (Yi l i) (Yi l i) (homogeneous_Y l _ (order_bound l i I))) as CP. rewrite fischer_Yi in CP by exact I. unfold kron in CP. destruct (Nat.eq_dec i i) as [_|NE]; [|congruence].
    pose proof (ynorm_pos l) as YP. replace (ynorm l * 1 / ynorm l) with 1 in CP by (field; lra). unfold coefficient_product in CP.
    match type of CP with _ * ?q = _ => match goal with |- ?p = _ => replace p with q end end.
    - pose proof (INR_fact_neq_0 l) as N1. pose proof (INR_fact_neq_0 (2 * l)) as N2. assert (N3 : 2 ^ l <> 0) by (apply pow_nonzero; lra). apply (Rmult_eq_reg_l (2 ^ l / (INR (fact (2 * l)) / (INR (fact l) * INR (fact l))))); [rewrite CP; field; repeat split; assumption|].
      unfold Rdiv. repeat apply Rmult_integral_contrapositive_currified; try assumption; try apply Rinv_neq_0_compat; repeat apply Rmult_integral_contrapositive_currified; try assumption; try apply Rinv_neq_0_compat; apply Rmult_integral_contrapositive_currified; assumption.
    - apply total_ext. intros [[a b] e] _. set (c := p3_coef (Yi l i) (a, b, e)). pose proof (WP (a, b, e)) as W0. change (INR (fact l) / (INR (fact a) * INR (fact b) * INR (fact e))) with (w (a, b, e)).
      assert (SQ : sqrt (w (a, b, e)) * sqrt (w (a, b, e)) = w (a, b, e)) by (apply sqrt_sqrt; lra). assert (S0 : sqrt (w (a, b, e)) <> 0) by (apply Rgt_not_eq, sqrt_lt_R0, W0).
      replace (Rabs c / sqrt (w (a, b, e)) * (Rabs c / sqrt (w (a, b, e)))) with (Rabs c * Rabs c / (sqrt (w (a, b, e)) * sqrt (w (a, b, e)))) by (field; exact S0). rewrite SQ. f_equal. rewrite <- Rabs_mult. symmetry. apply Rabs_right, Rle_ge. apply Rle_0_sqr. }
  assert (A2 : total (fun x0 => m x0 * sqrt (w x0) * (m x0 * sqrt (w x0))) (exponents l) = (x * x + (y * y + z * z)) ^ l).
  { rewrite <- multinomial. apply total_ext. intros [[a b] e] _. change (INR (fact l) / (INR (fact a) * INR (fact b) * INR (fact e))) with (w (a, b, e)).
    assert (SQ : sqrt (w (a, b, e)) * sqrt (w (a, b, e)) = w (a, b, e)) by (apply sqrt_sqrt; left; apply WP). replace (m (a, b, e) * sqrt (w (a, b, e)) * (m (a, b, e) * sqrt (w (a, b, e)))) with (m (a, b, e) * m (a, b, e) * (sqrt (w (a, b, e)) * sqrt (w (a, b, e)))) by ring. rewrite SQ. unfold m.
    assert (PW : forall q n, (q * q) ^ n = Rabs q ^ n * Rabs q ^ n). { intros q n. rewrite <- Rpow_mult_distr, <- Rabs_mult. f_equal. symmetry. apply Rabs_right, Rle_ge, Rle_0_sqr. }
    rewrite !PW. ring. }
  rewrite A1, A2 in CS. unfold amplitude. rewrite (total_ext _ (fun k => Rabs (p3_coef (Yi l i) k) * m k)) by (intros [[a b] e] _; reflexivity).
  eapply Rle_trans; [apply Rle_abs|]. eapply Rle_trans; [exact CS|]. apply Req_le. unfold amplification. f_equal. unfold length_of. cbn [map sum_of fold_right]. replace (x ^ 2 + (y ^ 2 + (z ^ 2 + 0))) with (x * x + (y * y + z * z)) by ring.
  assert (Q : 0 <= x * x + (y * y + z * z)) by (pose proof (Rle_0_sqr x); pose proof (Rle_0_sqr y); pose proof (Rle_0_sqr z); unfold Rsqr in *; lra). generalize (x * x + (y * y + z * z)) Q. clear. intros q Q.
  apply sqrt_lem_1; [now apply pow_le|apply pow_le, sqrt_pos|]. rewrite <- Rpow_mult_distr, sqrt_sqrt by exact Q. reflexivity.
Qed.

(** ** The entries of the lookup table *)
Definition mono (x y z : R) (p : list nat) : R := x ^ nth 0 p 0%nat * y ^ nth 1 p 0%nat * z ^ nth 2 p 0%nat.
Lemma nth_all {A} (d : A) M : map (fun i => nth i M d) (seq 0 (length M)) = M.
Proof.
  induction M as [|a M IH]; [reflexivity|]. cbn [length seq map nth]. f_equal. rewrite <- seq_shift, map_map. exact IH.
Qed.
Lemma all_powers_length L : length (all_powers L) = num_car L.
Proof.
  unfold all_powers. rewrite num_car_rowstart. pose proof (length_flat_powers monomial_powers_of_degree (L + 1) 0) as H. unfold rowstart at 1 in H. simpl in H. change rs with (rowstart monomial_powers_of_degree). lia.
Qed.
Lemma coefficient_abs T p : coefficient 0 (map (fun t => (fst t, Rabs (snd t))) T) p = Rabs (coefficient 0 T p).
Proof. induction T as [|[q v] T IH]; cbn [map coefficient fst snd]; [now rewrite Rabs_R0|]. destruct (list_eq_dec Nat.eq_dec q p); [reflexivity|exact IH]. Qed.

Section Harmonic.
Variables (L l k : nat).
Hypothesis Hl : (l <= L)%nat.
Hypothesis Hk : (k < 2 * l + 1)%nat.
Let T := sph_terms l (Z.of_nat k - Z.of_nat l).

Lemma T_order : T = poly3_terms (Yi l k).
Proof using. reflexivity. Qed.
Lemma T_facts : NoDup (map fst T) /\ (forall p v, In (p, v) T -> length p = 3%nat /\ Common_Spec.sum_list p = l) /\
  forall x y z, peval (Yi l k) (x, y, z) = rsum_list (map (fun t => snd t * mono x y z (fst t)) T).
Proof using Hk. rewrite T_order. exact (poly3_terms_ok l (Yi l k) (homogeneous_Y l _ (order_bound l k Hk)) (Yi_nonzero l k Hk)). Qed.
Lemma T_rows p : In p (map fst T) -> In p (all_powers L).
Proof using Hl Hk. intro I. destruct T_facts as (_ & B & _). apply in_map_iff in I as [[q v] [<- I]]. destruct (B _ _ I). apply (proj2 (car_rows L)); cbn [fst]; lia. Qed.

Lemma harmonic_value x y z : rsum (length (all_powers L)) (fun i => mono x y z (nth i (all_powers L) []) * coefficient 0 T (nth i (all_powers L) [])) = peval (Yi l k) (x, y, z).
Proof using Hl Hk.
  destruct T_facts as (A & B & C). rewrite C. apply (table_sum _ (fun i => nth i (all_powers L) []) (all_powers L)); [apply nth_all|apply car_rows|exact A|exact T_rows|reflexivity].
Qed.
Lemma harmonic_magnitude x y z : rsum (length (all_powers L)) (fun i => mono (Rabs x) (Rabs y) (Rabs z) (nth i (all_powers L) []) * Rabs (coefficient 0 T (nth i (all_powers L) []))) = amplitude l k x y z.
Proof using Hl Hk.
  destruct T_facts as (A & B & _). set (T' := map (fun t => (fst t, Rabs (snd t))) T). assert (F : map fst T' = map fst T) by (unfold T'; rewrite map_map; apply map_ext; reflexivity).
  rewrite (table_sum _ (fun i => nth i (all_powers L) []) (all_powers L) _ T'); [|apply nth_all|apply car_rows|now rewrite F|rewrite F; exact T_rows|intros i _; unfold T'; now rewrite coefficient_abs].
  rewrite <- (sum_coefficient T' (map keyl (exponents l))).
  - unfold amplitude. rewrite map_map. generalize (exponents l) as ks. intro ks. induction ks as [|[[a b] e] ks IH]; [reflexivity|]. cbn [map total]. unfold rsum_list in *. cbn [fold_right]. rewrite <- IH. f_equal. unfold T'. rewrite coefficient_abs. unfold mono. cbn [keyl nth]. rewrite Rmult_comm. f_equal. f_equal.
    destruct (Req_dec (p3_coef (Yi l k) (a, b, e)) 0) as [Z|Z].
    + rewrite Z. apply LUT_Entry_Proofs.coefficient_out. intros v I. rewrite T_order in I. apply (poly3_terms_coef l (Yi l k) (homogeneous_Y l _ (order_bound l k Hk)) (Yi_nonzero l k Hk) (a, b, e)) in I as [-> I]. contradiction.
    + apply coefficient_in; [exact A|]. rewrite T_order. apply (poly3_terms_coef l (Yi l k) (homogeneous_Y l _ (order_bound l k Hk)) (Yi_nonzero l k Hk) (a, b, e)). now split.
  - now rewrite F.
  - apply FinFun.Injective_map_NoDup; [|apply nodup_exponents]. intros [[a b] c] [[a' b'] c'] E. cbn in E. congruence.
  - intros p I. rewrite F in I. apply in_map_iff in I as [[q v] [<- I]]. destruct (B _ _ I) as [B1 B2]. cbn [fst]. destruct q as [|a [|b [|c [|]]]]; try discriminate. apply in_map_iff. exists (a, b, c). split; [reflexivity|]. apply in_exponents. cbn in B2. lia.
Qed.

(** The sum of the products of an evaluation. *)
Lemma product_repeat {V} (env : V -> R) v n : fold_right Rmult 1 (map env (repeat v n)) = env v ^ n.
Proof using. induction n as [|n IH]; [reflexivity|]. cbn. now rewrite IH. Qed.
Lemma harmonic_products env : sum_of_products env (harmonic_terms L) =
  rsum (length (all_powers L)) (fun i => mono (env (Coordinate 0)) (env (Coordinate 1)) (env (Coordinate 2)) (nth i (all_powers L) []) * (env (Table i) * env Constant)).
Proof using.
  unfold harmonic_terms. generalize (length (all_powers L)) as n. intro n. induction n as [|n IH]; [reflexivity|]. rewrite seq_S, map_app, sop_app, IH. cbn [rsum]. f_equal. unfold sum_of_products. change (0 + n)%nat with n. cbn [map fold_right].
  unfold factors. rewrite !product_app, !product_repeat. cbn [map fold_right]. unfold mono. ring.
Qed.
Lemma exact_value c x y z : sum_of_products (exact_operands L c [x; y; z] l k) (harmonic_terms L) = c * peval (Yi l k) (x, y, z).
Proof using Hl Hk.
  rewrite harmonic_products, <- harmonic_value, <- rsum_scal_l. apply rsum_ext. intros i _. unfold exact_operands. cbn [harmonic_env nth]. fold T. ring.
Qed.
Lemma exact_magnitude c x y z : 0 <= c -> sum_of_products (fun v => Rabs (exact_operands L c [x; y; z] l k v)) (harmonic_terms L) <= c * amplification l * length_of [x; y; z] ^ l.
Proof using Hl Hk.
  intro C0. rewrite harmonic_products. rewrite Rmult_assoc. apply Rle_trans with (c * amplitude l k x y z); [|apply Rmult_le_compat_l; [exact C0|now apply amplitude_bound]]. apply Req_le.
  rewrite <- harmonic_magnitude, <- rsum_scal_l. apply rsum_ext. intros i _. unfold exact_operands. cbn [harmonic_env nth]. fold T. rewrite (Rabs_right c) by lra. ring.
Qed.
End Harmonic.

(** The table that a call reads. *)
Lemma table_entries w L s o : sh_ready w -> call_ok s o -> (0 <= L)%Z ->
  exists t, snd (spherical_harmonics_table w L s o) = Ok t /\
    forall i l k, (i < num_car (Z.to_nat L))%nat -> (l <= Z.to_nat L)%nat -> (k < 2 * l + 1)%nat ->
      sh_cm R t (i, (l * l + k)%nat) = coefficient 0 (sph_terms l (Z.of_nat k - Z.of_nat l)) (nth i (all_powers (Z.to_nat L)) []).
Proof.
  intros Hw Hc HL. pose proof (sh_ready_reply w L s o Hw Hc) as H. cbn [as_cold] in H.
  destruct (snd (spherical_harmonics_table w L s o)) as [t|e]; [|destruct H; lia]. exists t. split; [reflexivity|].
  destruct H as [t0 [_ [E [_ [_ [Hcm Hls]]]]]].
  destruct (C16_cold_table R 0 rzero sph_terms L rzero_test sph_terms_ok HL) as [t1 [E1 [_ [HM HC]]]].
  rewrite E in E1. injection E1 as <-. intros i l k Hi Hl Hk.
  rewrite <- Hcm by (assumption || (rewrite num_sph_sq; nia)). unfold all_powers. rewrite <- HM.
  change (@nil nat) with ([] : list nat). rewrite (nth_indep _ [] (sh_ls R t0 0)) by (rewrite map_length, seq_length; exact Hi). rewrite map_nth, seq_nth by exact Hi.
  change (0 + i)%nat with i. rewrite <- (HC i l (Z.of_nat k - Z.of_nat l)%Z) by lia. do 2 f_equal. lia.
Qed.
