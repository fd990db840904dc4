(** Values of [irreps_to_tensor] and [tensor_to_irreps]. *)
Require Import String List Reals ZArith Bool Arith Lra Lia Setoid Morphisms Ring Field Permutation Sorting.Sorted.
Require Import Verif.Base Verif.RSum Verif.Common_Model Verif.Common_Spec Verif.Common_Proofs Verif.Common_Enum_Proofs Verif.LUT_Model Verif.LUT_Spec Verif.LUT_Props
  Verif.Symbolic_Model Verif.Poly_Proofs Verif.PolyDiff_Proofs Verif.Harmonics_Proofs Verif.Harmonics_Basis_Proofs Verif.PolyCalc_Proofs Verif.Symbolic_Proofs
  Verif.Rotations_Model Verif.Rotations_Spec Verif.Irreps_Model Verif.Irreps_Spec Verif.Irreps_Proofs Verif.Irreps_Laws_Proofs
  Verif.Tensor_Model Verif.Tensor_Spec Verif.Tensor_Index_Proofs Verif.Tensor_Detrace_Proofs Verif.Tensor_Harmonic_Proofs Verif.Tensor_Conversion_Proofs.
Import ListNotations.
Open Scope R_scope.
Open Scope list_scope.
Local Notation cwr := combinations_with_replacement.
Local Notation key3 := Symbolic_Model.key3.
Local Notation row := PolyDiff_Proofs.row.
Local Notation nc := number_of_cartesian_monomials_of_degree.

Lemma pos_nth : forall (c : bool) empty l k, (k < 2 * l + 1)%nat ->
  nth k (if c then cartesian_permutation_for_degree empty l else seq 0 (2 * l + 1)) 0%nat = pos c l k.
Proof. intros [] empty l k Hk; [now apply cart_perm_degree_nth|now rewrite seq_nth]. Qed.
Lemma pos_length : forall (c : bool) empty l,
  length (if c then cartesian_permutation_for_degree empty l else seq 0 (2 * l + 1)) = (2 * l + 1)%nat.
Proof. intros [] empty l; [apply cart_perm_degree_length|apply seq_length]. Qed.

Lemma const_nonzero : forall norm l, known_normalization norm -> const_of norm l <> 0.
Proof.
  intros norm l H. destruct (normalization_known norm l H) as [_ D]. pose proof (pos_INR l). pose proof PI_RGT_0.
  destruct D as [[_ ->]|[[_ ->]|[_ ->]]]; [lra| |]; apply Rgt_not_eq, sqrt_lt_R0; [lra|]. apply Rdiv_lt_0_compat; lra.
Qed.
Lemma documented_const : forall norm l c, known_normalization norm -> documented_constant norm l c -> c = const_of norm l.
Proof.
  intros norm l c Hn Hc. destruct (normalization_known norm l Hn) as [_ D]. unfold documented_constant in *.
  destruct Hc as [[[->| ->] ->]|[[-> ->]|[-> ->]]]; intuition (try discriminate; auto).
Qed.

(** The key of an index tuple of a tensor; tensors of degree 0 have one dimension of size 1. *)
Definition place (l : nat) (t : list nat) : list nat := if (l =? 0)%nat then [] else t.
Definition tail_shape (l : nat) : list nat := if (l =? 0)%nat then [1%nat] else repeat 3%nat l.

Lemma tensor_shape_tail : forall d, (0 <= d)%Z -> tensor_shape d = tail_shape (Z.to_nat d).
Proof. intros d H. unfold tensor_shape, tail_shape. destruct (Z.eqb_spec d 0) as [->|Hd]; [reflexivity|]. destruct (Nat.eqb_spec (Z.to_nat d) 0); [lia|reflexivity]. Qed.
Lemma tail_ok : forall l t, Forall2 lt t (tail_shape l) ->
  (l = 0%nat /\ t = [0%nat]) \/ ((0 < l)%nat /\ index_ok l t /\ place l t = t).
Proof.
  intros l t H. unfold tail_shape, place in *. destruct (Nat.eqb_spec l 0) as [->|Hl].
  - left. inversion H as [|a b t' s' Hab Ht]; subst. inversion Ht; subst. split; [reflexivity|]. f_equal. lia.
  - right. split; [lia|]. split; [|reflexivity]. clear Hl. revert t H. unfold index_ok. induction l as [|l IH]; intros t H; inversion H; subst.
    + split; [reflexivity|constructor].
    + match goal with Ht : Forall2 lt _ (repeat 3%nat l) |- _ => apply IH in Ht as [A B] end. cbn. split; [lia|now constructor].
Qed.
Lemma tail_of_index : forall l t, (0 < l)%nat -> index_ok l t -> Forall2 lt t (tail_shape l).
Proof.
  intros l t Hl [A B]. unfold tail_shape. destruct (Nat.eqb_spec l 0); [lia|]. clear Hl n. subst l.
  induction B; constructor; assumption.
Qed.
Lemma tail_length : forall l, length (tail_shape l) = if (l =? 0)%nat then 1%nat else l.
Proof. intros l. unfold tail_shape. destruct (l =? 0)%nat; [reflexivity|apply repeat_length]. Qed.

Lemma s2t_entry_perm : forall l j t t', Permutation t t' -> s2t_entry l j t = s2t_entry l j t'.
Proof. intros l j t t' H. unfold s2t_entry. now rewrite (keyof_perm _ _ H). Qed.

Section Values.
Variable lu_solve : nat -> nat -> matrix -> (nat -> R) -> result (nat -> R).
Variable inverse : nat -> matrix -> result matrix.
Local Notation i2t := (irreps_to_tensor lu_solve inverse).
Local Notation t2i := (tensor_to_irreps lu_solve inverse).
Local Notation table := (tensor_conversion_table lu_solve inverse).
Local Notation conv := (conversion lu_solve inverse).

Lemma tc_table : forall w s o d, tc_ready lu_solve inverse w -> call_ok s o -> (0 <= d)%Z ->
  exists t, snd (table w d s o) = Ok t /\
    nth_error (tc_s2t matrix t) (Z.to_nat d) = Some (fst (conv (Z.to_nat d))) /\
    nth_error (tc_t2s matrix t) (Z.to_nat d) = Some (snd (conv (Z.to_nat d))).
Proof.
  intros w s o d [w0 [h [Hf [Hh ->]]]] Hc Hd.
  assert (Hh2 : Forall uninterrupted (h ++ [Request d s o])) by (apply Forall_app; split; [exact Hh|constructor; [exact Hc|constructor]]).
  pose proof (C18_tensor_conversion_history matrix conv w0 _ Hf Hh2) as H.
  unfold tc_run in H. rewrite run_last in H. apply Forall2_last in H.
  destruct (C18_cold_table matrix conv d Hd) as [t0 [E0 T0]]. cbn [as_cold] in H. rewrite E0 in H.
  unfold tensor_conversion_table, tc_generate in *. destruct (snd _) as [t|e]; [|destruct H as [H _]; lia].
  destruct H as [t1 [_ [E1 S]]]. injection E1 as <-. exists t. split; [reflexivity|]. destruct S as [_ [_ [S1 [S2 _]]]]. rewrite <- S1, <- S2. apply T0. lia.
Qed.

Hypothesis lu_ok : solves_systems lu_solve.
Hypothesis inv_ok : inverts_matrices inverse.

Lemma conv_ok : forall l,
  (forall j i, (j < 2 * l + 1)%nat -> (i < nc l)%nat -> fst (conv l) j i = s2t_entry l j (nth i (cwr l axes) [])) /\
  (forall j k, (j < 2 * l + 1)%nat -> (k < 2 * l + 1)%nat ->
     rsum (nc l) (fun i => s2t_entry l j (nth i (cwr l axes) []) * snd (conv l) i k) = if (j =? k)%nat then 1 else 0).
Proof.
  intros l. destruct (conversion_ok lu_solve inverse lu_ok inv_ok l) as (s2t & t2s & E & H1 & H2). unfold conversion. rewrite E. cbn [fst snd].
  split; [exact H1|]. intros j k Hj Hk. rewrite <- (H2 j k Hj Hk). apply rsum_ext. intros i Hi. now rewrite H1.
Qed.

(** What [irreps_to_tensor] returns. *)
Lemma i2t_ok : forall empty ei w s o x d c norm batch, tc_ready lu_solve inverse w -> call_ok s o -> (0 <= d)%Z -> known_normalization norm ->
  shape x = batch ++ [2 * Z.to_nat d + 1]%nat ->
  exists y, snd (i2t empty ei w s o x d c norm) = Ok y /\ shape y = batch ++ tensor_shape d /\
  forall b t, length b = length batch -> Forall2 lt t (tensor_shape d) ->
    get y (b ++ t) = rsum (2 * Z.to_nat d + 1) (fun k => get x (b ++ [k]) * s2t_entry (Z.to_nat d) (pos c (Z.to_nat d) k) (place (Z.to_nat d) t)) / const_of norm (Z.to_nat d).
Proof.
  intros empty ei w s o x d c norm batch Hw Hc Hd Hn Hx. set (l := Z.to_nat d) in *.
  destruct (tc_table w s o d Hw Hc Hd) as (tt & Et & T1 & _). unfold irreps_to_tensor, check_degree.
  destruct (Z.ltb_spec d 0); [lia|]. cbn [bind]. fold l. rewrite Hx, rev_app_distr. cbn [rev app]. rewrite Nat.eqb_refl. cbn [negb].
  destruct (table w d s o) as [w' r]. cbn [snd] in Et. subst r. cbn [snd bind]. fold l in T1. rewrite T1.
  destruct (normalization_known norm l Hn) as [-> _]. cbn [bind].
  destruct (expansion_exists ei d Hd) as (e & -> & Le & He). cbn [bind]. fold l in He.
  eexists. split; [reflexivity|]. cbn [shape get]. rewrite app_length. cbn [length]. rewrite Nat.add_sub, firstn_app, Nat.sub_diag, firstn_all. cbn [firstn].
  rewrite app_nil_r. split; [f_equal; now rewrite (tensor_shape_tail d Hd)|]. intros b t Hb Ht. rewrite (tensor_shape_tail d Hd) in Ht. fold l in Ht.
  rewrite <- Hb, firstn_app, Nat.sub_diag, firstn_all. cbn [firstn]. rewrite app_nil_r.
  rewrite skipn_app, Nat.sub_diag, skipn_all. cbn [skipn app].
  assert (Q : exists q, nth (if (l =? 0)%nat then nth (length b) (b ++ t) 0%nat else ravel t) e 0%nat = q /\ (q < nc l)%nat /\ Permutation (place l t) (nth q (cwr l axes) [])).
  { eexists. split; [reflexivity|]. destruct (tail_ok l t Ht) as [[E ->]|[Hl [It Pt]]].
    - rewrite E. cbn [Nat.eqb]. rewrite app_nth2, Nat.sub_diag by lia. cbn [nth]. rewrite E in He. destruct (He [] ) as [A B]; [split; [reflexivity|constructor]|].
      rewrite <- cwr_length. exact (conj A B).
    - destruct (Nat.eqb_spec l 0); [lia|]. rewrite Pt, <- cwr_length. now apply He. }
  destruct Q as (q & -> & Hq & Pq). unfold Rdiv. rewrite <- rsum_scal_r. apply rsum_ext. intros k Hk.
  rewrite pos_nth by exact Hk. destruct (conv_ok l) as [C1 _]. rewrite C1 by (try exact Hq; now apply pos_lt).
  rewrite (s2t_entry_perm _ _ _ _ Pq). unfold Rdiv. ring.
Qed.

(** Index tuple of compressed entry i. *)
Definition compressed_index (l i : nat) : list nat := if (l =? 0)%nat then [0%nat] else nth i (cwr l axes) [].

Lemma compressed_index_ok : forall l i, (i < nc l)%nat -> Forall2 lt (compressed_index l i) (tail_shape l) /\ place l (compressed_index l i) = nth i (cwr l axes) [].
Proof.
  intros l i Hi. unfold compressed_index, place. destruct (Nat.eqb_spec l 0) as [->|Hl].
  - split; [repeat constructor|]. change (nc 0) with 1%nat in Hi. replace i with 0%nat by lia. reflexivity.
  - split; [|reflexivity]. apply tail_of_index; [lia|]. rewrite <- cwr_length in Hi. now apply cwr_nth_ok in Hi.
Qed.

Lemma t2i_ok : forall empty w s o x d c norm batch, tc_ready lu_solve inverse w -> call_ok s o -> (0 <= d)%Z -> known_normalization norm ->
  shape x = batch ++ tensor_shape d ->
  exists y, snd (t2i empty w s o x d c norm) = Ok y /\ shape y = batch ++ [2 * Z.to_nat d + 1]%nat /\
  forall b k, length b = length batch -> (k < 2 * Z.to_nat d + 1)%nat ->
    get y (b ++ [k]) = rsum (nc (Z.to_nat d)) (fun i => get x (b ++ compressed_index (Z.to_nat d) i) * (snd (conv (Z.to_nat d)) i (pos c (Z.to_nat d) k))) * const_of norm (Z.to_nat d).
Proof.
  intros empty w s o x d c norm batch Hw Hc Hd Hn Hx. rewrite (tensor_shape_tail d Hd) in Hx. set (l := Z.to_nat d) in *.
  destruct (tc_table w s o d Hw Hc Hd) as (tt & Et & _ & T2). unfold tensor_to_irreps, check_degree.
  destruct (Z.ltb_spec d 0); [lia|]. cbn [bind]. fold l.
  assert (CS : check_tensor_shape x d = Ok Datatypes.tt).
  { unfold check_tensor_shape, check_degree. destruct (Z.ltb_spec d 0); [lia|]. cbn [bind]. fold l. rewrite Hx, app_length, tail_length.
    destruct (Nat.eqb_spec (length batch + (if (l =? 0)%nat then 1 else l)) 0) as [Z0|_]; [destruct (Nat.eqb_spec l 0); lia|].
    unfold tail_shape. destruct (Nat.eqb_spec l 0) as [E|Hl].
    - rewrite last_last. reflexivity.
    - rewrite Nat.add_sub, skipn_app, Nat.sub_diag, skipn_all. cbn [skipn app]. destruct (list_eq_dec _ _ _); [reflexivity|congruence]. }
  rewrite CS. cbn [bind].
  destruct (table w d s o) as [w' r]. cbn [snd] in Et. subst r. cbn [snd bind]. fold l in T2. rewrite T2.
  destruct (normalization_known norm l Hn) as [-> _]. cbn [bind].
  assert (CI : exists ci, tensor_compression_indices d = Ok ci /\
     forall i, (i < nc l)%nat -> (if (l =? 0)%nat then [i] else map (fun a => nth i a 0%nat) ci) = compressed_index l i).
  { unfold compressed_index. destruct (Nat.eqb_spec l 0) as [E|Hl].
    - assert (d = 0%Z) by lia. subst d. exists []. split; [reflexivity|]. intros i Hi. rewrite E in Hi. change (nc 0) with 1%nat in Hi. f_equal. lia.
    - destruct (compression_exists d) as (ci & E & _ & _ & H1); [lia|]. exists ci. split; [exact E|]. exact H1. }
  destruct CI as (ci & -> & HC). cbn [bind]. eexists. split; [reflexivity|]. cbn [shape get].
  rewrite Hx, app_length, tail_length, Nat.add_sub, firstn_app, Nat.sub_diag, firstn_all. cbn [firstn]. rewrite app_nil_r, pos_length.
  split; [reflexivity|]. intros b k Hb Hk. rewrite <- Hb, firstn_app, Nat.sub_diag, firstn_all. cbn [firstn]. rewrite app_nil_r.
  rewrite app_nth2, Nat.sub_diag by lia. cbn [nth]. rewrite pos_nth by exact Hk. rewrite <- rsum_scal_r. apply rsum_ext. intros i Hi.
  rewrite HC by exact Hi. ring.
Qed.

End Values.

(** * Symmetric traceless tensors and harmonic polynomials *)
Definition poly_of (l : nat) (T : list nat -> R) : poly3 :=
  p3_sum (nc l) (fun i => p3_scal (T (nth i (cwr l axes) []) / kfact (keyof (nth i (cwr l axes) []))) (mono (keyof (nth i (cwr l axes) [])))).

Lemma kfact_pos : forall k, 0 < kfact k.
Proof. intros [[a b] c]. cbn. repeat apply Rmult_lt_0_compat; apply INR_fact_pos. Qed.

Lemma keyof_count_inj : forall t t', Forall (fun i => (i < 3)%nat) t -> Forall (fun i => (i < 3)%nat) t' -> keyof t = keyof t' -> Permutation t t'.
Proof.
  assert (A : forall t, Forall (fun i => (i < 3)%nat) t -> Permutation t (repeat 0%nat (fst (fst (keyof t))) ++ repeat 1%nat (snd (fst (keyof t))) ++ repeat 2%nat (snd (keyof t)))).
  { induction t as [|i t IH]; intros F; [reflexivity|]. inversion F as [|? ? Hi F']; subst. specialize (IH F'). cbn [keyof]. destruct (keyof t) as [[a b] c]. cbn [fst snd] in IH.
    destruct i as [|[|[|i]]]; [| | |lia]; cbn [ek key3_mul fst snd Nat.add repeat].
    - cbn. now constructor.
    - cbn [app]. rewrite <- Permutation_middle. now constructor.
    - rewrite app_assoc, <- Permutation_middle, <- app_assoc. now constructor. }
  intros t t' H H' E. rewrite (A t H), (A t' H'), E. reflexivity.
Qed.

Lemma poly_of_fischer : forall l T t, symmetric l T -> index_ok l t -> fischer (mono (keyof t)) (poly_of l T) = T t.
Proof.
  intros l T t HS Ht.
  assert (I : In (isort t) (cwr l axes)) by (apply in_cwr_axes; split; [eapply index_ok_perm; [apply isort_perm|exact Ht]|apply isort_sorted]).
  destruct (In_nth _ _ [] I) as (i & Hi & Ei).
  assert (Kt : keyof t = keyof (nth i (cwr l axes) [])) by (rewrite Ei; apply keyof_perm, Permutation_sym, isort_perm).
  unfold poly_of. rewrite fischer_sum_r. rewrite (rsum_single _ _ i).
  - rewrite fischer_scal_r, fischer_mono, Kt, coef_lin, lin_mono. unfold delta. destruct (key3_eq _ _); [|contradiction].
    rewrite Ei. pose proof (kfact_pos (keyof (isort t))). rewrite (HS t (isort t) Ht (Permutation_sym (isort_perm t))). field. lra.
  - now rewrite <- cwr_length.
  - intros j Hj Hne. rewrite fischer_scal_r, fischer_mono, coef_lin, lin_mono. unfold delta. destruct (key3_eq _ _) as [E|]; [|ring]. exfalso. apply Hne.
    rewrite <- cwr_length in Hj. apply (NoDup_nth_eq (cwr l axes)); [apply NoDup_cwr, axes_sorted|exact Hj|exact Hi|].
    destruct (cwr_nth_ok l j Hj) as [[_ J1] J2]. destruct (cwr_nth_ok l i Hi) as [[_ I1] I2].
    apply sorted_perm_eq; [exact J2|exact I2|]. apply keyof_count_inj; [exact J1|exact I1|]. congruence.
Qed.

Lemma poly_of_hom : forall l T, homogeneous l (poly_of l T).
Proof.
  intros l T. unfold poly_of. apply homogeneous_sum. intros i Hi. apply homogeneous_scal. rewrite <- (tuple_deg l i Hi) at 1.
  intros t [<-|[]]. reflexivity.
Qed.

Lemma poly_of_harmonic : forall l T, symmetric l T -> traceless l T -> lap (poly_of l T) == pzero.
Proof.
  intros l T HS HT. apply peq_coef. intros k. change (p3_coef pzero k) with 0.
  assert (F : kfact k * p3_coef (lap (poly_of l T)) k = 0); [|pose proof (kfact_pos k); apply Rmult_integral in F as [F|F]; [lra|exact F]].
  rewrite <- fischer_mono, <- fischer_r2.
  assert (E : p3_mul sh_r2 (mono k) == p3_add (p3_add (mono (key3_mul (2, 0, 0)%nat k)) (mono (key3_mul (0, 2, 0)%nat k))) (mono (key3_mul (0, 0, 2)%nat k))).
  { rewrite <- !mono_mul. unfold sh_r2.
    rewrite pow_x, pow_y, pow_z. cbn [ek key3_mul Nat.add]. ring. }
  rewrite E, !fischer_add_l.
  destruct (Nat.eq_dec (key3_deg k + 2) l) as [Hl|Hl].
  - set (t := (repeat 0 (fst (fst k)) ++ repeat 1 (snd (fst k)) ++ repeat 2 (snd k))%nat).
    assert (Kt : keyof t = k).
    { unfold t. destruct k as [[a b] c]. cbn [fst snd]. rewrite !keyof_app.
      assert (R0 : forall n, keyof (repeat 0%nat n) = (n, 0, 0)%nat) by (induction n as [|n IH]; [reflexivity|]; cbn [repeat keyof]; rewrite IH; reflexivity).
      assert (R1 : forall n, keyof (repeat 1%nat n) = (0, n, 0)%nat) by (induction n as [|n IH]; [reflexivity|]; cbn [repeat keyof]; rewrite IH; reflexivity).
      assert (R2 : forall n, keyof (repeat 2%nat n) = (0, 0, n)%nat) by (induction n as [|n IH]; [reflexivity|]; cbn [repeat keyof]; rewrite IH; reflexivity).
      rewrite R0, R1, R2. cbn [key3_mul Nat.add]. rewrite ?Nat.add_0_r. reflexivity. }
    assert (It : forall i, (i < 3)%nat -> index_ok l ([i] ++ [] ++ [i] ++ t)).
    { intros i Hi. split.
      - cbn. rewrite <- keyof_deg, Kt. lia.
      - cbn [app]. constructor; [exact Hi|]. constructor; [exact Hi|]. unfold t. rewrite !Forall_app. repeat split; apply Forall_forall; intros q Hq; apply repeat_spec in Hq; lia. }
    rewrite <- Kt.
    assert (Y0 : key3_mul (2, 0, 0)%nat (keyof t) = keyof ([] ++ [0%nat] ++ [] ++ [0%nat] ++ t)) by (cbn [app keyof ek]; rewrite Kt; destruct k as [[a b] c]; reflexivity).
    assert (Y1 : key3_mul (0, 2, 0)%nat (keyof t) = keyof ([] ++ [1%nat] ++ [] ++ [1%nat] ++ t)) by (cbn [app keyof ek]; rewrite Kt; destruct k as [[a b] c]; reflexivity).
    assert (Y2 : key3_mul (0, 0, 2)%nat (keyof t) = keyof ([] ++ [2%nat] ++ [] ++ [2%nat] ++ t)) by (cbn [app keyof ek]; rewrite Kt; destruct k as [[a b] c]; reflexivity).
    rewrite Y0, Y1, Y2, !poly_of_fischer by (try exact HS; apply It; lia). apply HT, It. lia.
  - rewrite !fischer_mono. destruct k as [[a b] c]. cbn [key3_mul key3_deg] in *.
    rewrite !(coef_outside l) by (try apply poly_of_hom; cbn; lia). ring.
Qed.

(** Entries of a symmetric traceless tensor in terms of the first conversion matrix *)
Lemma tensor_expand : forall l T t, symmetric l T -> traceless l T -> index_ok l t ->
  T t = rsum (2 * l + 1) (fun j => fischer (Yi l j) (poly_of l T) * s2t_entry l j t).
Proof.
  intros l T t HS HT Ht. rewrite <- (poly_of_fischer l T t HS Ht).
  rewrite (Y_complete l (poly_of l T) (poly_of_hom l T) (poly_of_harmonic l T HS HT)) at 1.
  rewrite fischer_sum_r. apply rsum_ext. intros j Hj. rewrite fischer_scal_r. unfold s2t_entry. unfold Rdiv. ring.
Qed.

(** The tensors that are produced are traceless. *)
Lemma s2t_traceless : forall l j, (j < 2 * l + 1)%nat -> traceless l (s2t_entry l j).
Proof.
  intros l j Hj t1 t2 t3 Ht. unfold s2t_entry. set (k := keyof (t1 ++ t2 ++ t3)).
  assert (K : forall i, keyof (t1 ++ [i] ++ t2 ++ [i] ++ t3) = key3_mul (key3_mul (ek i) (ek i)) k).
  { intros i. rewrite (keyof_perm (t1 ++ [i] ++ t2 ++ [i] ++ t3) (i :: i :: t1 ++ t2 ++ t3)).
    - cbn [keyof]. fold k. destruct k as [[a b] c], (ek i) as [[x y] z]. cbn. f_equal; [f_equal|]; lia.
    - cbn [app]. rewrite <- Permutation_middle. constructor. rewrite !app_assoc, <- Permutation_middle. constructor. reflexivity. }
  rewrite !K. unfold Rdiv. rewrite <- !Rmult_plus_distr_r, <- !fischer_add_l.
  assert (E : p3_mul sh_r2 (mono k) == p3_add (p3_add (mono (key3_mul (key3_mul (ek 0) (ek 0)) k)) (mono (key3_mul (key3_mul (ek 1) (ek 1)) k))) (mono (key3_mul (key3_mul (ek 2) (ek 2)) k))).
  { change (key3_mul (ek 0) (ek 0)) with (2, 0, 0)%nat. change (key3_mul (ek 1) (ek 1)) with (0, 2, 0)%nat. change (key3_mul (ek 2) (ek 2)) with (0, 0, 2)%nat.
    rewrite <- !mono_mul. unfold sh_r2.
    rewrite pow_x, pow_y, pow_z. cbn [ek key3_mul Nat.add]. ring. }
  assert (L : lap (Yi l j) == pzero) by (apply lap_Y, order_bound, Hj).
  rewrite <- E, fischer_r2, L, fischer_zero_r. ring.
Qed.

(** * Sums over all index tuples *)
Lemma total_app : forall X (f : X -> R) a b, total f (a ++ b) = total f a + total f b.
Proof. intros X f a b. induction a as [|x a IH]; cbn [app total]; [ring|]. rewrite IH. ring. Qed.
Lemma total_map : forall X Y (f : Y -> R) (g : X -> Y) a, total f (map g a) = total (fun x => f (g x)) a.
Proof. intros X Y f g a. induction a as [|x a IH]; cbn [map total]; [reflexivity|]. now rewrite IH. Qed.
Lemma total_ext : forall X (f g : X -> R) a, (forall x, In x a -> f x = g x) -> total f a = total g a.
Proof. intros X f g a H. induction a as [|x a IH]; cbn [total]; [reflexivity|]. rewrite H by now left. rewrite IH; [reflexivity|]. intros y Hy. apply H. now right. Qed.
Lemma total_scal : forall X c (f : X -> R) a, total (fun x => c * f x) a = c * total f a.
Proof. intros X c f a. induction a as [|x a IH]; cbn [total]; [ring|]. rewrite IH. ring. Qed.
Lemma total_rsum : forall X n (f : X -> nat -> R) a, total (fun x => rsum n (f x)) a = rsum n (fun k => total (fun x => f x k) a).
Proof.
  intros X n f a. induction a as [|x a IH]; cbn [total]; [symmetry; now apply rsum_zero|]. rewrite IH, <- rsum_plus. reflexivity.
Qed.

Lemma index_tuples_S : forall l, index_tuples (S l) = map (cons 0%nat) (index_tuples l) ++ map (cons 1%nat) (index_tuples l) ++ map (cons 2%nat) (index_tuples l).
Proof. intros l. cbn [index_tuples flat_map]. now rewrite app_nil_r. Qed.
Lemma in_index_tuples : forall l t, In t (index_tuples l) <-> index_ok l t.
Proof.
  unfold index_ok. induction l as [|l IH]; intros t.
  - cbn. split; [intros [<-|[]]; now split|]. intros [H _]. left. now destruct t.
  - rewrite index_tuples_S, !in_app_iff, !in_map_iff. split.
    + intros [(t' & <- & H)|[(t' & <- & H)|(t' & <- & H)]]; apply IH in H; destruct H as [H F]; cbn; (split; [lia|constructor; [lia|exact F]]).
    + intros [H F]. destruct t as [|i t]; [discriminate|]. inversion F as [|? ? Hi F']; subst. cbn in H.
      assert (I : In t (index_tuples l)) by (apply IH; split; [lia|exact F']).
      destruct i as [|[|[|i]]]; [left; eauto|right; left; eauto|right; right; eauto|lia].
Qed.

(** Contracting with a product of linear forms. *)
Lemma fischer_row : forall M i p q, fischer (p3_mul (row M i) p) q
  = M i 0%nat * fischer p (pd 0 q) + M i 1%nat * fischer p (pd 1 q) + M i 2%nat * fischer p (pd 2 q).
Proof.
  intros M i p q. assert (E : p3_mul (row M i) p == p3_add (p3_add (p3_scal (M i 0%nat) (p3_mul (pvar 0) p)) (p3_scal (M i 1%nat) (p3_mul (pvar 1) p))) (p3_scal (M i 2%nat) (p3_mul (pvar 2) p))).
  { unfold row. cbn [pvar]. rewrite !scal_mul. ring. }
  rewrite E, !fischer_add_l, !fischer_scal_l, !fischer_var by lia. reflexivity.
Qed.

Lemma contract_subst : forall M t q, Forall (fun i => (i < 3)%nat) t ->
  total (fun t' => factors M t t' * fischer (mono (keyof t')) q) (index_tuples (length t)) = fischer (psubst M (mono (keyof t))) q.
Proof.
  intros M t. induction t as [|i t IH]; intros q F.
  - cbn [length index_tuples total factors keyof]. assert (E : psubst M (mono (0, 0, 0)%nat) == mono (0, 0, 0)%nat) by apply psubst_one. rewrite E. ring.
  - inversion F as [|? ? Hi F']; subst. cbn [length]. rewrite mono_cons, psubst_var_mul, fischer_row by exact Hi.
    rewrite <- !IH by exact F'. rewrite index_tuples_S, !total_app, !total_map, <- !total_scal, Rplus_assoc.
    f_equal; [|f_equal]; apply total_ext; intros t' _; cbn [factors]; rewrite mono_cons, fischer_var by lia; ring.
Qed.

Lemma contract_form : forall r l q,
  total (fun t' => factors (fun _ j => get_at j r) t' t' * fischer (mono (keyof t')) q) (index_tuples l) = fischer (p3_pow (PolyCalc_Proofs.form r) l) q.
Proof.
  intros r l. induction l as [|l IH]; intros q.
  - cbn [index_tuples total factors keyof]. change (p3_pow (PolyCalc_Proofs.form r) 0) with (mono (0, 0, 0)%nat). ring.
  - rewrite ppow_S. assert (E : PolyCalc_Proofs.form r = row (fun _ j => get_at j r) 0) by (destruct r as [[a b] c]; reflexivity). rewrite E at 1. rewrite fischer_row.
    rewrite <- !IH, index_tuples_S, !total_app, !total_map, <- !total_scal, Rplus_assoc.
    f_equal; [|f_equal]; apply total_ext; intros t' _; cbn [factors]; rewrite mono_cons, fischer_var by lia; ring.
Qed.

(** Rotating the tensor of one irrep *)
Lemma s2t_rotate : forall m l j t, orthogonal m -> (j < 2 * l + 1)%nat -> index_ok l t ->
  total (fun t' => factors (fun i i' => entry m i' i) t t' * s2t_entry l j t') (index_tuples l)
  = rsum (2 * l + 1) (fun k => dmat (entry m) l j k * s2t_entry l k t).
Proof.
  intros m l j t Hm Hj [Lt Ft]. destruct (orthogonal_rows m Hm) as [H1 H2]. unfold s2t_entry.
  rewrite (total_ext _ _ (fun t' => / ynorm l * (factors (mtrans (entry m)) t t' * fischer (mono (keyof t')) (Yi l j)))) by (intros; unfold Rdiv, mtrans; ring).
  rewrite total_scal, <- Lt, contract_subst by exact Ft. rewrite Lt.
  rewrite <- (fischer_subst (entry m)) by exact H1.
  assert (E : psubst (entry m) (psubst (mtrans (entry m)) (mono (keyof t))) == mono (keyof t)).
  { rewrite subst_subst. rewrite (subst_ext _ kron); [apply subst_id|]. intros a b Ha Hb. unfold mprod. exact (H2 a b Ha Hb). }
  rewrite E, (subst_Y (entry m) l j H1 Hj), fischer_sum_r, <- rsum_scal_l. apply rsum_ext. intros k Hk. rewrite fischer_scal_r. unfold Rdiv. ring.
Qed.
