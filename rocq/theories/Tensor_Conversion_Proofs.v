(** The matrices computed by [_tensor_conversion_matrices]. *)
Require Import List Reals ZArith Bool Arith Lra Lia Setoid Morphisms Ring Field Permutation Sorting.Sorted.
Require Import Verif.Base Verif.RSum Verif.Common_Model Verif.Common_Spec Verif.Common_Proofs Verif.Common_Enum_Proofs Verif.LUT_Model Verif.Symbolic_Model
  Verif.Poly_Proofs Verif.PolyDiff_Proofs Verif.Harmonics_Proofs Verif.Harmonics_Basis_Proofs Verif.PolyCalc_Proofs Verif.Symbolic_Proofs
  Verif.Tensor_Model Verif.Tensor_Spec Verif.Tensor_Index_Proofs Verif.Tensor_Detrace_Proofs Verif.Tensor_Harmonic_Proofs Verif.Tensor_Solve_Proofs.
Import ListNotations.
Open Scope R_scope.
Local Notation cwr := combinations_with_replacement.
Local Notation key3 := Symbolic_Model.key3.

(** * Monomials and coefficients *)
Definition keyl (k : key3) : list nat := let '(a, b, c) := k in [a; b; c].
Definition keyr (l : list nat) : key3 := (nth 0 l 0, nth 1 l 0, nth 2 l 0)%nat.
Definition mkey (l r : nat) : key3 := keyr (nth r (monomial_powers_of_degree l) []).

Lemma keyr_keyl : forall k, keyr (keyl k) = k. Proof. intros [[a b] c]. reflexivity. Qed.
Lemma keyl_inj : forall k k', keyl k = keyl k' -> k = k'.
Proof. intros k k' H. rewrite <- (keyr_keyl k), <- (keyr_keyl k'). now rewrite H. Qed.

Lemma in_monomials : forall l k, In k (monomial_powers_of_degree l) <-> length k = 3%nat /\ sum_list k = l.
Proof. intros l k. unfold monomial_powers_of_degree. apply in_multicombinations. lia. Qed.
Lemma monomials_keyl : forall l r, (r < number_of_cartesian_monomials_of_degree l)%nat ->
  nth r (monomial_powers_of_degree l) [] = keyl (mkey l r) /\ key3_deg (mkey l r) = l.
Proof.
  intros l r Hr. rewrite <- length_monomials in Hr. pose proof (nth_In _ [] Hr) as H. apply in_monomials in H as [H1 H2].
  unfold mkey. destruct (nth r (monomial_powers_of_degree l) []) as [|a [|b [|c [|]]]]; cbn in H1; try discriminate. cbn in *. split; [reflexivity|lia].
Qed.
Lemma mkey_surj : forall l k, key3_deg k = l -> exists r, (r < number_of_cartesian_monomials_of_degree l)%nat /\ mkey l r = k.
Proof.
  intros l [[a b] c] H. assert (I : In [a; b; c] (monomial_powers_of_degree l)) by (apply in_monomials; cbn in *; split; [reflexivity|lia]).
  destruct (In_nth _ _ [] I) as (r & Hr & E). exists r. rewrite length_monomials in Hr. split; [exact Hr|]. unfold mkey. now rewrite E.
Qed.
Lemma position_monomial : forall l k i, position k (monomial_powers_of_degree l) = Some i ->
  (i < number_of_cartesian_monomials_of_degree l)%nat /\ nth i (monomial_powers_of_degree l) [] = k.
Proof. intros l k i H. apply position_Some in H. now rewrite length_monomials in H. Qed.

(** A polynomial that is homogeneous of degree l is determined by its coefficients at [mkey l]. *)
Lemma coef_outside : forall l p k, homogeneous l p -> key3_deg k <> l -> p3_coef p k = 0.
Proof.
  intros l p k H Hk. rewrite coef_lin. transitivity (lin (fun _ => 0) p); [|apply lin_w_zero]. apply lin_ext_in.
  intros k' Hk'. apply in_map_iff in Hk' as (t & <- & Ht). apply H in Ht. unfold delta. destruct (key3_eq (snd t) k); [congruence|reflexivity].
Qed.

Lemma poly3_terms_coef : forall l p, homogeneous l p -> ~ p == pzero ->
  forall k v, In (keyl k, v) (poly3_terms p) <-> v = p3_coef p k /\ v <> 0.
Proof.
  intros l p Hp Hn k v.
  assert (E : poly3_terms p = map (fun t => (keyl (snd t), fst t)) (as_dict key3_eq rsum_list rzero p)).
  { unfold poly3_terms. destruct (as_dict key3_eq rsum_list rzero p) as [|t d] eqn:E.
    - exfalso. apply Hn. intros w. change (lin w p) with (glin w p). now rewrite (dict_nil _ key3_eq w p E).
    - apply map_ext. intros [c [[x y] z]]. reflexivity. }
  rewrite E, in_map_iff. split.
  - intros ([c k'] & E' & Ht). cbn [fst snd] in E'. injection E' as Ek <-. apply keyl_inj in Ek. subst k'.
    apply (in_dict _ key3_eq) in Ht. cbn [fst snd] in Ht. tauto.
  - intros [-> Hv]. exists (p3_coef p k, k). split; [reflexivity|]. apply (in_dict _ key3_eq). cbn [fst snd]. split; [|split; [reflexivity|exact Hv]].
    destruct (in_dec key3_eq k (map snd p)) as [I|I]; [exact I|]. exfalso. apply Hv. rewrite coef_lin.
    transitivity (lin (fun _ => 0) p); [|apply lin_w_zero]. apply lin_ext_in. intros k' Hk'. unfold delta. destruct (key3_eq k' k); [congruence|reflexivity].
Qed.

(** * Filling the matrices *)
Lemma fill_terms : forall l col terms m, NoDup (map fst terms) -> (forall k v, In (k, v) terms -> length k = 3%nat /\ sum_list k = l) ->
  exists m', fill_column l col terms m = Ok m' /\
    (forall r q, q <> col -> m' r q = m r q) /\
    (forall r v, (r < number_of_cartesian_monomials_of_degree l)%nat -> In (nth r (monomial_powers_of_degree l) [], v) terms -> m' r col = v) /\
    (forall r, (r < number_of_cartesian_monomials_of_degree l)%nat -> (forall v, ~ In (nth r (monomial_powers_of_degree l) [], v) terms) -> m' r col = m r col).
Proof.
  intros l col terms. induction terms as [|[k v] terms IH]; intros m HN HT.
  - exists m. repeat split; auto. intros r v0 _ [].
  - cbn [map fst] in HN. inversion HN as [|? ? Hk HN']; subst.
    assert (I : In k (monomial_powers_of_degree l)) by (apply in_monomials; apply (HT k v); now left).
    destruct (position_in _ _ I) as [i Ei]. pose proof (position_monomial l k i Ei) as [Hi Eki].
    destruct (IH (set_matrix i col v m) HN') as (m' & E & H1 & H2 & H3); [intros k' v' H'; apply (HT k' v'); now right|].
    exists m'. split.
    { unfold fill_column in *. cbn [rfold fst snd]. rewrite Ei. cbn [bind]. exact E. }
    assert (NI : forall r, (r < number_of_cartesian_monomials_of_degree l)%nat -> nth r (monomial_powers_of_degree l) [] = k -> r = i).
    { intros r Hr Er. apply (NoDup_nth_eq (monomial_powers_of_degree l)); [apply NoDup_multicombinations|now rewrite length_monomials|now rewrite length_monomials|congruence]. }
    split; [|split].
    + intros r q Hq. rewrite H1 by exact Hq. unfold set_matrix. destruct (Nat.eqb_spec q col); [contradiction|]. now rewrite andb_false_r.
    + intros r v' Hr [Ev|Ev].
      * injection Ev as Ek <-. assert (r = i) by (apply NI; congruence). subst r. rewrite H3 by (try exact Hr; intros v' Hv'; apply Hk; apply in_map_iff; exists (k, v'); rewrite Eki in Hv'; auto).
        unfold set_matrix. now rewrite !Nat.eqb_refl.
      * now apply H2.
    + intros r Hr Hno. rewrite H3; [|exact Hr|intros v' Hv'; apply (Hno v'); now right]. unfold set_matrix.
      destruct (Nat.eqb_spec r i) as [->|]; [|reflexivity]. exfalso. apply (Hno v). left. now rewrite Eki.
Qed.

Lemma fill_poly : forall l col p m, homogeneous l p -> ~ p == pzero -> (forall r, m r col = 0) ->
  exists m', fill_column l col (poly3_terms p) m = Ok m' /\ (forall r q, q <> col -> m' r q = m r q) /\
    (forall r, (r < number_of_cartesian_monomials_of_degree l)%nat -> m' r col = p3_coef p (mkey l r)).
Proof.
  intros l col p m Hp Hn Hm. destruct (poly3_terms_ok l p Hp Hn) as (A & B & _).
  destruct (fill_terms l col (poly3_terms p) m A B) as (m' & E & H1 & H2 & H3). exists m'. split; [exact E|]. split; [exact H1|].
  intros r Hr. destruct (monomials_keyl l r Hr) as [Ek _]. destruct (Req_dec (p3_coef p (mkey l r)) 0) as [Z|Z].
  - rewrite Z, H3; [apply Hm|exact Hr|]. intros v Hv. rewrite Ek in Hv. apply (poly3_terms_coef l p Hp Hn) in Hv as [-> Hv]. contradiction.
  - apply H2; [exact Hr|]. rewrite Ek. now apply (poly3_terms_coef l p Hp Hn).
Qed.

Lemma fill_polys : forall l ps s m, (forall p, In p ps -> homogeneous l p /\ ~ p == pzero) -> (forall r q, (s <= q)%nat -> m r q = 0) ->
  exists m', rfold (fun m ic => fill_column l (fst ic) (poly3_terms (snd ic)) m) (combine (seq s (length ps)) ps) m = Ok m' /\
    (forall r q, (q < s)%nat -> m' r q = m r q) /\
    (forall r i, (r < number_of_cartesian_monomials_of_degree l)%nat -> (i < length ps)%nat -> m' r (s + i)%nat = p3_coef (nth i ps pzero) (mkey l r)).
Proof.
  intros l ps. induction ps as [|p ps IH]; intros s m HP Hm.
  - exists m. split; [reflexivity|]. split; [reflexivity|]. cbn. lia.
  - destruct (HP p (or_introl eq_refl)) as [Hp Hn].
    destruct (fill_poly l s p m Hp Hn) as (m1 & E1 & A1 & B1); [intros r; apply Hm; lia|].
    destruct (IH (S s) m1) as (m2 & E2 & A2 & B2).
    { intros p' Hp'. apply HP. now right. }
    { intros r q Hq. rewrite A1 by lia. apply Hm. lia. }
    exists m2. split; [|split].
    + cbn [length seq combine rfold fst snd]. rewrite E1. cbn [bind]. exact E2.
    + intros r q Hq. rewrite A2 by lia. apply A1. lia.
    + intros r [|i] Hr Hi; cbn [nth].
      * rewrite Nat.add_0_r, A2 by lia. now apply B1.
      * cbn [length] in Hi. rewrite <- B2 by (try exact Hr; lia). f_equal. lia.
Qed.

Lemma m2t_ok : forall l, exists m, monomials_to_tensor l = Ok m /\
  forall r i, (r < number_of_cartesian_monomials_of_degree l)%nat -> (i < number_of_cartesian_monomials_of_degree l)%nat ->
    m r i = p3_coef (detraced l (keyof (nth i (cwr l axes) []))) (mkey l r).
Proof.
  intros l. unfold monomials_to_tensor.
  destruct (fill_polys l (traceless_tensor l) 0 zeros) as (m & E & _ & H).
  - intros p Hp. destruct (In_nth _ _ pzero Hp) as (i & Hi & <-). rewrite traceless_tensor_length in Hi.
    destruct (traceless_tensor_entry l i Hi) as [Ei Hh]. split; [exact Hh|]. intros Z. rewrite Ei in Z. exact (detraced_nonzero _ _ Z).
  - reflexivity.
  - exists m. split; [exact E|]. intros r i Hr Hi. rewrite <- cwr_length in Hi. specialize (H r i Hr). cbn [Nat.add] in H.
    rewrite H by (now rewrite traceless_tensor_length). destruct (traceless_tensor_entry l i Hi) as [Ei _]. now rewrite Ei.
Qed.

Lemma rfold_map : forall S0 X Y (f : S0 -> Y -> result S0) (g : X -> Y) xs s, rfold f (map g xs) s = rfold (fun s x => f s (g x)) xs s.
Proof. intros S0 X Y f g xs. induction xs as [|x xs IH]; intros s; cbn; [reflexivity|]. destruct (f s (g x)); cbn; [apply IH|reflexivity]. Qed.
Lemma combine_map_seq : forall X (f : nat -> X) n s, combine (seq s n) (map f (seq s n)) = map (fun i => (i, f i)) (seq s n).
Proof. intros X f n. induction n as [|n IH]; intros s; [reflexivity|]. cbn [seq map combine]. now rewrite IH. Qed.

Lemma m2s_ok : forall l, exists m, monomials_to_spherical l = Ok m /\
  forall r j, (r < number_of_cartesian_monomials_of_degree l)%nat -> (j < 2 * l + 1)%nat -> m r j = p3_coef (Yi l j) (mkey l r).
Proof.
  intros l. unfold monomials_to_spherical.
  destruct (fill_polys l (map (Yi l) (seq 0 (2 * l + 1))) 0 zeros) as (m & E & _ & H).
  - intros p Hp. apply in_map_iff in Hp as (j & <- & Hj). apply in_seq in Hj. assert (Hj' : (j < 2 * l + 1)%nat) by lia.
    split; [apply homogeneous_Y, order_bound, Hj'|apply Yi_nonzero, Hj'].
  - reflexivity.
  - rewrite map_length, seq_length, combine_map_seq, rfold_map in E. exists m. split; [exact E|]. intros r j Hr Hj.
    specialize (H r j Hr). rewrite map_length, seq_length in H. cbn [Nat.add] in H. rewrite H by exact Hj.
    f_equal. rewrite (nth_indep _ pzero (Yi l 0)) by (now rewrite map_length, seq_length). rewrite map_nth, seq_nth by exact Hj. reflexivity.
Qed.

(** * The conversion matrices *)

(** Entry (j, i) of the first matrix *)
Definition s2t_entry (l j : nat) (t : list nat) : R := fischer (mono (keyof t)) (Yi l j) / ynorm l.

Lemma coef_sum_Y : forall l (x : nat -> R) k n, rsum n (fun j => p3_coef (Yi l j) k * x j) = p3_coef (p3_sum n (fun j => p3_scal (x j) (Yi l j))) k.
Proof. intros l x k n. rewrite !coef_lin, lin_sum. apply rsum_ext. intros j _. rewrite lin_scal, coef_lin. ring. Qed.

Lemma hom_sum_Y : forall l x, homogeneous l (p3_sum (2 * l + 1) (fun j => p3_scal (x j) (Yi l j))).
Proof. intros l x. apply homogeneous_sum. intros j Hj. apply homogeneous_scal, homogeneous_Y, order_bound, Hj. Qed.

(** The spherical harmonics are linearly independent, also as columns of coefficients. *)
Lemma columns_independent : forall l y,
  (forall r, (r < number_of_cartesian_monomials_of_degree l)%nat -> rsum (2 * l + 1) (fun j => p3_coef (Yi l j) (mkey l r) * y j) = 0) ->
  forall j, (j < 2 * l + 1)%nat -> y j = 0.
Proof.
  intros l y H j Hj.
  assert (Z : p3_sum (2 * l + 1) (fun j => p3_scal (y j) (Yi l j)) == pzero).
  { apply peq_coef. intros k. change (p3_coef pzero k) with 0. destruct (Nat.eq_dec (key3_deg k) l) as [Hk|Hk].
    - destruct (mkey_surj l k Hk) as (r & Hr & <-). rewrite <- coef_sum_Y. now apply H.
    - apply (coef_outside l); [apply hom_sum_Y|exact Hk]. }
  assert (F : fischer (Yi l j) (p3_sum (2 * l + 1) (fun j => p3_scal (y j) (Yi l j))) = 0) by (rewrite Z; apply fischer_zero_r).
  rewrite fischer_sum_r in F. rewrite (rsum_ext _ _ (fun i => (ynorm l * y i) * kron i j)) in F.
  - rewrite rsum_kron in F by exact Hj. pose proof (ynorm_pos l). apply Rmult_integral in F as [F|F]; [lra|exact F].
  - intros i Hi. rewrite fischer_scal_r, fischer_Yi by assumption. unfold kron. destruct (Nat.eq_dec i j), (Nat.eq_dec j i); try congruence; ring.
Qed.

Lemma tuple_deg : forall l i, (i < number_of_cartesian_monomials_of_degree l)%nat -> key3_deg (keyof (nth i (cwr l axes) [])) = l.
Proof. intros l i Hi. rewrite keyof_deg. rewrite <- cwr_length in Hi. now apply cwr_nth_ok in Hi as [[H _] _]. Qed.

Lemma detraced_hom : forall l i, (i < number_of_cartesian_monomials_of_degree l)%nat ->
  exists p, detraced l (keyof (nth i (cwr l axes) [])) == p /\ homogeneous l p.
Proof. intros l i Hi. rewrite <- cwr_length in Hi. destruct (traceless_tensor_entry l i Hi) as [E H]. exists (nth i (traceless_tensor l) pzero). split; [now rewrite E|exact H]. Qed.

(** The detraced monomial in the basis of the spherical harmonics *)
Lemma detraced_expand : forall l i, (i < number_of_cartesian_monomials_of_degree l)%nat ->
  detraced l (keyof (nth i (cwr l axes) [])) == p3_sum (2 * l + 1) (fun j => p3_scal (s2t_entry l j (nth i (cwr l axes) [])) (Yi l j)).
Proof.
  intros l i Hi. destruct (detraced_hom l i Hi) as (p & E & Hp).
  assert (HL : lap p == pzero) by (rewrite <- E; apply lap_detraced; now apply tuple_deg).
  rewrite E. rewrite (Y_complete l p Hp HL) at 1. apply psum_ext. intros j Hj. unfold s2t_entry.
  rewrite <- E. rewrite (fischer_detraced l _ (Yi l j)) by (apply lap_Y, order_bound, Hj). now rewrite fischer_sym.
Qed.

Section Matrices.
Variable lu_solve : nat -> nat -> matrix -> (nat -> R) -> result (nat -> R).
Variable inverse : nat -> matrix -> result matrix.
Hypothesis lu_ok : solves_systems lu_solve.
Hypothesis inv_ok : inverts_matrices inverse.

Lemma num_car_ge : forall l, (2 * l + 1 <= number_of_cartesian_monomials_of_degree l)%nat.
Proof. intros l. unfold number_of_cartesian_monomials_of_degree. apply Nat.div_le_lower_bound; nia. Qed.

(** Rows of the first matrix are independent. *)
Lemma s2t_rows : forall l x,
  (forall i, (i < number_of_cartesian_monomials_of_degree l)%nat -> rsum (2 * l + 1) (fun j => x j * s2t_entry l j (nth i (cwr l axes) [])) = 0) ->
  forall j, (j < 2 * l + 1)%nat -> x j = 0.
Proof.
  intros l x H. apply columns_independent. intros r Hr.
  assert (Hk : key3_deg (mkey l r) = l) by (now apply monomials_keyl).
  set (t := (repeat 0 (fst (fst (mkey l r))) ++ repeat 1 (snd (fst (mkey l r))) ++ repeat 2 (snd (mkey l r)))%nat).
  assert (Kt : keyof t = mkey l r).
  { unfold t. destruct (mkey l r) as [[a b] c]. cbn [fst snd]. rewrite !keyof_app.
    assert (R0 : forall n, keyof (repeat 0%nat n) = (n, 0, 0)%nat) by (induction n as [|n IH]; [reflexivity|]; cbn [repeat keyof]; rewrite IH; reflexivity).
    assert (R1 : forall n, keyof (repeat 1%nat n) = (0, n, 0)%nat) by (induction n as [|n IH]; [reflexivity|]; cbn [repeat keyof]; rewrite IH; reflexivity).
    assert (R2 : forall n, keyof (repeat 2%nat n) = (0, 0, n)%nat) by (induction n as [|n IH]; [reflexivity|]; cbn [repeat keyof]; rewrite IH; reflexivity).
    rewrite R0, R1, R2. cbn [key3_mul Nat.add]. rewrite ?Nat.add_0_r; reflexivity. }
  assert (It : In t (cwr l axes)).
  { assert (Iok : index_ok l t).
    { split; [now rewrite <- keyof_deg, Kt|]. unfold t. rewrite !Forall_app. repeat split; apply Forall_forall; intros i Hi; apply repeat_spec in Hi; lia. }
    assert (Ip : In (isort t) (cwr l axes)) by (apply in_cwr_axes; split; [eapply index_ok_perm; [apply isort_perm|exact Iok]|apply isort_sorted]).
    apply in_cwr_axes. split; [exact Iok|]. unfold t.
    assert (S0 : forall v n, StronglySorted le (repeat v n)).
    { intros v n. induction n as [|n IH]; constructor; [exact IH|]. apply Forall_forall. intros i Hi. apply repeat_spec in Hi. lia. }
    assert (SA : forall u v, StronglySorted le u -> StronglySorted le v -> (forall p q, In p u -> In q v -> (p <= q)%nat) -> StronglySorted le (u ++ v)).
    { intros u v Hu Hv Hc. induction u as [|p u IH]; [exact Hv|]. inversion Hu; subst. cbn. constructor.
      - apply IH; [assumption|]. intros; apply Hc; [now right|assumption].
      - apply Forall_app. split; [assumption|]. apply Forall_forall. intros q Hq. apply Hc; [now left|exact Hq]. }
    apply SA; [apply S0|apply SA; [apply S0|apply S0|]|].
    - intros p q Hp Hq. apply repeat_spec in Hp, Hq. lia.
    - intros p q Hp Hq. apply repeat_spec in Hp. lia. }
  destruct (In_nth _ _ [] It) as (i & Hi & Ei). rewrite cwr_length in Hi. specialize (H i Hi). rewrite Ei in H.
  unfold s2t_entry in H. rewrite Kt in H.
  assert (E : rsum (2 * l + 1) (fun j => x j * (fischer (mono (mkey l r)) (Yi l j) / ynorm l))
    = kfact (mkey l r) / ynorm l * rsum (2 * l + 1) (fun j => p3_coef (Yi l j) (mkey l r) * x j)).
  { rewrite <- rsum_scal_l. apply rsum_ext. intros j _. rewrite fischer_mono. unfold Rdiv. ring. }
  rewrite E in H. apply Rmult_integral in H as [H|H]; [|exact H]. exfalso.
  assert (0 < kfact (mkey l r) / ynorm l); [|lra]. apply Rmult_lt_0_compat; [|apply Rinv_0_lt_compat, ynorm_pos].
  destruct (mkey l r) as [[a b] c]. cbn. repeat apply Rmult_lt_0_compat; apply INR_fact_pos.
Qed.

Lemma conversion_ok : forall l, exists s2t t2s, tensor_conversion_matrices lu_solve inverse l = Ok (s2t, t2s) /\
  (forall j i, (j < 2 * l + 1)%nat -> (i < number_of_cartesian_monomials_of_degree l)%nat -> s2t j i = s2t_entry l j (nth i (cwr l axes) [])) /\
  (forall j k, (j < 2 * l + 1)%nat -> (k < 2 * l + 1)%nat ->
     rsum (number_of_cartesian_monomials_of_degree l) (fun i => s2t j i * t2s i k) = if (j =? k)%nat then 1 else 0).
Proof.
  intros l. unfold tensor_conversion_matrices. set (nc := number_of_cartesian_monomials_of_degree l). set (ns := (2 * l + 1)%nat).
  destruct (m2s_ok l) as (m2s & -> & Hs). destruct (m2t_ok l) as (m2t & -> & Ht). cbn [bind].
  assert (LU : forall i, (i < nc)%nat -> exists x, lu_solve nc ns m2s (fun r => m2t r i) = Ok x /\
            forall j, (j < ns)%nat -> x j = s2t_entry l j (nth i (cwr l axes) [])).
  { intros i Hi. apply lu_ok; [apply num_car_ge| |].
    - intros r Hr. rewrite Ht by assumption. rewrite (detraced_expand l i Hi).
      rewrite <- coef_sum_Y. apply rsum_ext. intros j Hj. now rewrite Hs.
    - intros y Hy. apply columns_independent. intros r Hr. rewrite <- (Hy r Hr). apply rsum_ext. intros j Hj. now rewrite Hs. }
  set (step := fun (s2t : matrix) (i : nat) => bind (lu_solve nc ns m2s (fun r => m2t r i)) (fun x => Ok ((fun p q => if (q =? i)%nat then x p else s2t p q) : matrix))).
  assert (Loop : forall n, (n <= nc)%nat -> exists s2t : matrix, rfold step (seq 0 n) zeros = Ok s2t /\
            forall j i, (j < ns)%nat -> (i < n)%nat -> s2t j i = s2t_entry l j (nth i (cwr l axes) [])).
  { induction n as [|n IH]; intros Hn; [exists zeros; split; [reflexivity|lia]|]. destruct (IH ltac:(lia)) as (s & E & Hsn).
    destruct (LU n ltac:(lia)) as (x & Ex & Hx).
    assert (RA : forall (f : matrix -> nat -> result matrix) xs a c, rfold f (xs ++ [a]) c = bind (rfold f xs c) (fun c' => f c' a)).
    { intros f xs. induction xs as [|z xs IHx]; intros a c; cbn; [now destruct (f c a)|]. destruct (f c z); cbn; [apply IHx|reflexivity]. }
    rewrite seq_S, RA. cbn [Nat.add]. rewrite E. cbn [bind]. unfold step. rewrite Ex. cbn [bind]. eexists. split; [reflexivity|]. intros j i Hj Hi. cbn beta.
    destruct (Nat.eqb_spec i n) as [->|Hne]; [now apply Hx|]. apply Hsn; [exact Hj|lia]. }
  destruct (Loop nc (le_n _)) as (s2t & ES & HS).
  change (rfold _ (seq 0 nc) zeros) with (rfold step (seq 0 nc) zeros). rewrite ES. cbn [bind].
  set (g := multiply nc s2t (transpose s2t)).
  assert (PD : positive_definite ns g).
  { apply gram_positive. intros x Hx. apply s2t_rows. intros i Hi. rewrite <- (Hx i Hi). apply rsum_ext. intros j Hj. now rewrite HS. }
  assert (SY : symmetric_matrix ns g) by apply gram_symmetric.
  destruct (inv_ok ns g (spd_inverse ns g)) as (c & -> & Hc).
  { intros i j Hi Hj. exact (spd_inverse_right ns g SY PD i j Hi Hj). }
  { intros i j Hi Hj. exact (spd_inverse_left ns g SY PD i j Hi Hj). }
  cbn [bind]. exists s2t, (multiply ns (transpose s2t) c). split; [reflexivity|]. split; [exact HS|].
  intros j k Hj Hk. rewrite <- (spd_inverse_right ns g SY PD j k Hj Hk). unfold multiply at 1, g at 1, multiply.
  transitivity (rsum nc (fun i => rsum ns (fun p => s2t j i * transpose s2t i p * c p k))).
  - apply rsum_ext. intros i _. rewrite <- rsum_scal_l. apply rsum_ext. intros. ring.
  - rewrite rsum_swap. apply rsum_ext. intros p Hp. rewrite rsum_scal_r, Hc by assumption. reflexivity.
Qed.
End Matrices.
