(** Properties C55, C56 and C60: Cartesian tensors. *)
Require Import String List Reals ZArith Bool Arith Lra Lia Permutation Sorting.Sorted Setoid.
Require Import Verif.Base Verif.RSum Verif.Common_Model Verif.Common_Spec Verif.Common_Proofs Verif.Common_Enum_Proofs Verif.LUT_Model Verif.LUT_Spec Verif.LUT_Props
  Verif.Symbolic_Model Verif.Poly_Proofs Verif.PolyDiff_Proofs Verif.Harmonics_Basis_Proofs Verif.PolyCalc_Proofs
  Verif.Rotations_Model Verif.Rotations_Spec Verif.Irreps_Model Verif.Irreps_Spec Verif.Irreps_Proofs Verif.Irreps_Laws_Proofs Verif.Irreps_Props
  Verif.Tensor_Model Verif.Tensor_Spec Verif.Tensor_Index_Proofs Verif.Tensor_Detrace_Proofs Verif.Tensor_Harmonic_Proofs Verif.Tensor_Solve_Proofs
  Verif.Tensor_Conversion_Proofs Verif.Tensor_Values_Proofs Verif.Tensor_Check_Proofs.
Import ListNotations.
Open Scope R_scope.
Open Scope list_scope.
Local Notation cwr := combinations_with_replacement.

(** * C55 *)

Lemma nth_seq_list : forall A (l : list A) d, map (fun k => nth k l d) (seq 0 (length l)) = l.
Proof. intros A l d. induction l as [|a l IH]; [reflexivity|]. cbn [length seq map nth]. f_equal. rewrite <- seq_shift, map_map. exact IH. Qed.


(** Entry i of an array indexed with the tuple of index arrays [c], as in [x[(..., *c)]]. *)
Definition selected (c : list (list nat)) (i : nat) : list nat := map (fun a => nth i a 0%nat) c.

(** The compression indices are one array per dimension, of length (l+1)(l+2)/2; together they list
    every sorted index tuple exactly once. *)
Theorem C55_compression_indices : forall d, (0 < d)%Z ->
  exists c n, tensor_compression_indices d = Ok c /\ length c = Z.to_nat d /\ (2 * n = (Z.to_nat d + 1) * (Z.to_nat d + 2))%nat /\
    Forall (fun a => length a = n) c /\
    NoDup (map (selected c) (seq 0 n)) /\
    forall t, In t (map (selected c) (seq 0 n)) <-> sorted_index (Z.to_nat d) t.
Proof.
  intros d Hd. destruct (compression_exists d Hd) as (c & E & Lc & Fc & Hc). exists c, (number_of_cartesian_monomials_of_degree (Z.to_nat d)).
  split; [exact E|]. split; [exact Lc|]. split.
  { rewrite <- cwr_length. pose proof (cwr_length3 (Z.to_nat d) 0 1 2). unfold axes. lia. }
  split; [apply Forall_forall; exact Fc|].
  assert (M : map (selected c) (seq 0 (number_of_cartesian_monomials_of_degree (Z.to_nat d))) = cwr (Z.to_nat d) axes).
  { rewrite (map_ext_in _ (fun i => nth i (cwr (Z.to_nat d) axes) [])).
    - rewrite <- cwr_length. apply nth_seq_list.
    - intros i Hi. apply in_seq in Hi. apply Hc. lia. }
  rewrite M. split; [apply NoDup_cwr, axes_sorted|]. intros t. apply in_cwr_axes.
Qed.
Print Assumptions C55_compression_indices.

(** Compressing a symmetric tensor and expanding the result gives the tensor back: entry t of the
    reshaped array is T t.  The result does not depend on the contents of [jnp.empty]. *)
Theorem C55_expand_compressed : forall (V : Type) (T : list nat -> V) dflt empty d c n, (0 < d)%Z ->
  symmetric (Z.to_nat d) T ->
  tensor_compression_indices d = Ok c -> (2 * n = (Z.to_nat d + 1) * (Z.to_nat d + 2))%nat ->
  exists e, tensor_expansion_indices empty d = Ok e /\ length e = (3 ^ Z.to_nat d)%nat /\
    let compressed := map (fun i => T (selected c i)) (seq 0 n) in
    let expanded := map (fun i => nth i compressed dflt) e in
    forall t, tensor_index (Z.to_nat d) t -> nth (row_major t) expanded dflt = T t.
Proof.
  intros V T dflt empty d c n Hd HS Ec Hn. destruct (compression_exists d Hd) as (c' & E & Lc & Fc & Hc). assert (c' = c) by congruence. subst c'.
  assert (n = number_of_cartesian_monomials_of_degree (Z.to_nat d)).
  { rewrite <- cwr_length. pose proof (cwr_length3 (Z.to_nat d) 0 1 2). unfold axes. lia. } subst n.
  destruct (expansion_exists empty d) as (e & Ee & Le & He); [lia|]. exists e. split; [exact Ee|]. split; [exact Le|]. cbv zeta. intros t Ht.
  assert (RM : row_major t = ravel t). { clear. induction t as [|i t IH]; [reflexivity|]. rewrite ravel_cons. cbn [row_major]. now rewrite IH. }
  rewrite RM. pose proof (ravel_lt _ _ Ht) as HL. destruct (He t Ht) as [H1 H2].
  rewrite (nth_indep _ dflt (nth 0 (map (fun i => T (selected c i)) (seq 0 (number_of_cartesian_monomials_of_degree (Z.to_nat d)))) dflt)) by (rewrite map_length; lia).
  rewrite (map_nth (fun i => nth i _ dflt) e 0%nat). rewrite cwr_length in H1.
  rewrite (nth_indep _ dflt (T (selected c 0))) by (rewrite map_length, seq_length; exact H1). rewrite (map_nth (fun i => T (selected c i))).
  rewrite seq_nth by exact H1. cbn [Nat.add]. unfold selected. rewrite Hc by exact H1. symmetry. apply HS; [exact Ht|exact H2].
Qed.
Print Assumptions C55_expand_compressed.

(** Conversely, expanding any list of (l+1)(l+2)/2 values gives a symmetric tensor that compresses to
    these values. *)
Theorem C55_compress_expanded : forall (V : Type) (v : list V) dflt empty d c, (0 < d)%Z ->
  (2 * length v = (Z.to_nat d + 1) * (Z.to_nat d + 2))%nat ->
  tensor_compression_indices d = Ok c ->
  exists e, tensor_expansion_indices empty d = Ok e /\
    let T := fun t => nth (row_major t) (map (fun i => nth i v dflt) e) dflt in
    symmetric (Z.to_nat d) T /\ map (fun i => T (selected c i)) (seq 0 (length v)) = v.
Proof.
  intros V v dflt empty d c Hd Hv Ec. destruct (compression_exists d Hd) as (c' & E & Lc & Fc & Hc). assert (c' = c) by congruence. subst c'.
  assert (Lv : length v = number_of_cartesian_monomials_of_degree (Z.to_nat d)).
  { rewrite <- cwr_length. pose proof (cwr_length3 (Z.to_nat d) 0 1 2). unfold axes. lia. }
  destruct (expansion_exists empty d) as (e & Ee & Le & He); [lia|]. exists e. split; [exact Ee|]. cbv zeta.
  assert (RM : forall t, row_major t = ravel t). { clear. induction t as [|i t IH]; [reflexivity|]. rewrite ravel_cons. cbn [row_major]. now rewrite IH. }
  assert (ET : forall t, tensor_index (Z.to_nat d) t -> nth (row_major t) (map (fun i => nth i v dflt) e) dflt = nth (nth (ravel t) e 0%nat) v dflt).
  { intros t Ht. rewrite RM. pose proof (ravel_lt _ _ Ht) as HL.
    rewrite (nth_indep _ dflt (nth 0 v dflt)) by (rewrite map_length; lia). apply (map_nth (fun i => nth i v dflt) e 0%nat). }
  split.
  - intros t t' Ht P. assert (Ht' : tensor_index (Z.to_nat d) t') by (eapply index_ok_perm; [|exact Ht]; first [exact P|now apply Permutation_sym]).
    rewrite !ET by assumption. f_equal. destruct (He t Ht) as [A1 A2], (He t' Ht') as [B1 B2].
    apply (NoDup_nth_eq (cwr (Z.to_nat d) axes)); [apply NoDup_cwr, axes_sorted|exact A1|exact B1|].
    apply sorted_perm_eq; [apply (cwr_nth_ok _ _ A1)|apply (cwr_nth_ok _ _ B1)|]. rewrite <- A2, P. exact B2.
  - rewrite <- (nth_seq_list V v dflt) at 2. apply map_ext_in. intros i Hi. apply in_seq in Hi. assert (Hi' : (i < length (cwr (Z.to_nat d) axes))%nat) by (rewrite cwr_length; lia).
    unfold selected. rewrite Hc by lia. destruct (cwr_nth_ok _ _ Hi') as [I1 I2]. rewrite ET by exact I1. f_equal. destruct (He _ I1) as [A1 A2].
    apply (NoDup_nth_eq (cwr (Z.to_nat d) axes)); [apply NoDup_cwr, axes_sorted|exact A1|exact Hi'|].
    apply sorted_perm_eq; [apply (cwr_nth_ok _ _ A1)|exact I2|]. now apply Permutation_sym.
Qed.
Print Assumptions C55_compress_expanded.

(** Degree 0 has no tensor indices and one entry; negative degrees are rejected. *)
Theorem C55_scalars_and_errors : forall empty d,
  tensor_compression_indices 0 = Ok [] /\ tensor_expansion_indices empty 0 = Ok [0%nat] /\
  ((d < 0)%Z -> tensor_compression_indices d = Err ValueError /\ tensor_expansion_indices empty d = Err ValueError).
Proof.
  intros empty d. split; [reflexivity|]. split; [reflexivity|]. intros H. unfold tensor_compression_indices, tensor_expansion_indices, check_degree.
  destruct (Z.ltb_spec d 0); [split; reflexivity|lia].
Qed.
Print Assumptions C55_scalars_and_errors.

(** For matrices: the upper triangle. *)
Example C55_case : exists c e, tensor_compression_indices 2 = Ok c /\ c = [[0; 0; 0; 1; 1; 2]; [0; 1; 2; 1; 2; 2]]%nat /\
  tensor_expansion_indices (fun i => i + 7)%nat 2 = Ok e /\ e = [0; 1; 2; 1; 3; 4; 2; 4; 5]%nat /\
  symmetric 2 (fun t => list_sum t).
Proof.
  eexists. eexists. split; [reflexivity|]. split; [reflexivity|]. split; [vm_compute; reflexivity|]. split; [reflexivity|].
  intros t t' _ H. clear -H. induction H; unfold list_sum in *; cbn [fold_right] in *; lia.
Qed.

(** * C56 *)
Lemma Forall2_app_split : forall A B (P : A -> B -> Prop) l1 l2 q, Forall2 P q (l1 ++ l2) -> exists q1 q2, q = q1 ++ q2 /\ Forall2 P q1 l1 /\ Forall2 P q2 l2.
Proof. intros A B P l1 l2 q H. apply Forall2_app_inv_r in H. destruct H as (q1 & q2 & H1 & H2 & ->). eauto. Qed.

Lemma bad_shape : forall x d, (0 <= d)%Z -> (~ exists batch, shape x = batch ++ tensor_shape d) -> check_tensor_shape x d = Err ValueError.
Proof.
  intros x d Hd H. unfold check_tensor_shape, check_degree. destruct (Z.ltb_spec d 0); [lia|]. cbn [bind]. set (l := Z.to_nat d).
  rewrite (tensor_shape_tail d Hd) in H. fold l in H. destruct (Nat.eqb_spec (length (shape x)) 0); [reflexivity|].
  unfold tail_shape in H. destruct (Nat.eqb_spec l 0) as [E|Hl].
  - destruct (Nat.eqb_spec (last (shape x) 0%nat) 1) as [E1|]; [|reflexivity]. exfalso. apply H. exists (removelast (shape x)).
    rewrite <- E1. apply app_removelast_last. intros Z0. now rewrite Z0 in n.
  - destruct (list_eq_dec _ _ _) as [E1|]; [|reflexivity]. exfalso. apply H. exists (firstn (length (shape x) - l) (shape x)). rewrite <- E1. symmetry. apply firstn_skipn.
Qed.

Section Conversions.
Variable lu_solve : nat -> nat -> matrix -> (nat -> R) -> result (nat -> R).
Variable inverse : nat -> matrix -> result matrix.
Hypothesis lu_ok : solves_systems lu_solve.
Hypothesis inv_ok : inverts_matrices inverse.
Local Notation tensor_returns := (tensor_returns lu_solve inverse).
Local Notation irreps_returns := (irreps_returns lu_solve inverse).

(** Both functions return for every array of the documented shape, in every state of the table cache,
    with every process pool, for every known normalisation. *)
Theorem C56_total : forall empty empty_indices w s o x degree cartesian norm batch,
  tc_ready lu_solve inverse w -> call_ok s o -> (0 <= degree)%Z -> known_normalization norm ->
  (shape x = batch ++ [2 * Z.to_nat degree + 1]%nat ->
   exists y, snd (irreps_to_tensor lu_solve inverse empty empty_indices w s o x degree cartesian norm) = Ok y /\ shape y = batch ++ tensor_shape degree) /\
  (shape x = batch ++ tensor_shape degree ->
   exists y, snd (tensor_to_irreps lu_solve inverse empty w s o x degree cartesian norm) = Ok y /\ shape y = batch ++ [2 * Z.to_nat degree + 1]%nat).
Proof.
  intros empty ei w s o x d c norm batch Hw Hc Hd Hn. split; intros Hx.
  - destruct (i2t_ok lu_solve inverse lu_ok inv_ok empty ei w s o x d c norm batch Hw Hc Hd Hn Hx) as (y & E & S & _). eauto.
  - destruct (t2i_ok lu_solve inverse empty w s o x d c norm batch Hw Hc Hd Hn Hx) as (y & E & S & _). eauto.
Qed.

(** irreps -> tensor -> irreps is the identity. *)
Theorem C56_irreps_round_trip : forall x y z degree cartesian norm batch,
  (0 <= degree)%Z -> known_normalization norm -> shape x = batch ++ [2 * Z.to_nat degree + 1]%nat ->
  tensor_returns x degree cartesian norm y -> irreps_returns y degree cartesian norm z -> same_array z x.
Proof.
  intros x y z d c norm batch Hd Hn Hx (e1 & e2 & w & s & o & Hw & Hc & Ey) (e3 & w' & s' & o' & Hw' & Hc' & Ez).
  destruct (i2t_ok lu_solve inverse lu_ok inv_ok e1 e2 w s o x d c norm batch Hw Hc Hd Hn Hx) as (y' & Ey' & Sy & Vy). assert (y' = y) by congruence. subst y'.
  destruct (t2i_ok lu_solve inverse e3 w' s' o' y d c norm batch Hw' Hc' Hd Hn Sy) as (z' & Ez' & Sz & Vz). assert (z' = z) by congruence. subst z'.
  split; [congruence|]. intros q Hq. rewrite Sz in Hq. apply Forall2_app_split in Hq as (b & k' & -> & Hb & Hk).
  inversion Hk as [|k ? ? ? Hk1 Hk2]; subst. inversion Hk2; subst. pose proof (Forall2_length _ _ _ _ _ Hb) as Lb.
  rewrite Vz by assumption. set (l := Z.to_nat d) in *. pose proof (const_nonzero norm l Hn) as NZ.
  destruct (conv_ok lu_solve inverse lu_ok inv_ok l) as [_ C2].
  rewrite (rsum_ext _ _ (fun i => rsum (2 * l + 1) (fun k0 => / const_of norm l * (get x (b ++ [k0]) * (s2t_entry l (pos c l k0) (nth i (cwr l axes) []) * snd (conversion lu_solve inverse l) i (pos c l k)))))).
  - rewrite rsum_swap. rewrite (rsum_single _ _ k); [|assumption|].
    + rewrite !rsum_scal_l. rewrite C2 by (now apply pos_lt). rewrite Nat.eqb_refl. field. exact NZ.
    + intros k0 Hk0 Hne. rewrite !rsum_scal_l. rewrite C2 by (now apply pos_lt). destruct (Nat.eqb_spec (pos c l k0) (pos c l k)) as [E|_]; [|ring].
      exfalso. apply Hne. now apply (pos_inj c l).
  - intros i Hi. destruct (compressed_index_ok l i Hi) as [P1 P2]. rewrite Vy by (rewrite ?(tensor_shape_tail d Hd); assumption). fold l. rewrite P2.
    unfold Rdiv. rewrite <- !rsum_scal_r. apply rsum_ext. intros k0 _. ring.
Qed.

(** The tensors are symmetric and all their traces vanish. *)
Theorem C56_symmetric_traceless : forall x y degree cartesian norm batch b,
  (0 <= degree)%Z -> known_normalization norm -> shape x = batch ++ [2 * Z.to_nat degree + 1]%nat ->
  tensor_returns x degree cartesian norm y -> Forall2 lt b batch ->
  symmetric (Z.to_nat degree) (fun t => get y (b ++ t)) /\ traceless (Z.to_nat degree) (fun t => get y (b ++ t)).
Proof.
  intros x y d c norm batch b Hd Hn Hx (e1 & e2 & w & s & o & Hw & Hc & Ey) Hb.
  destruct (i2t_ok lu_solve inverse lu_ok inv_ok e1 e2 w s o x d c norm batch Hw Hc Hd Hn Hx) as (y' & Ey' & Sy & Vy). assert (y' = y) by congruence. subst y'.
  pose proof (Forall2_length _ _ _ _ _ Hb) as Lb. set (l := Z.to_nat d) in *. destruct (Nat.eq_dec l 0) as [E|Hl].
  - split.
    + intros t t' [Lt _] P. rewrite E in Lt. destruct t; [|discriminate]. apply Permutation_nil in P. now subst.
    + intros t1 t2 t3 [Lt _]. rewrite E, app_length in Lt. cbn in Lt. lia.
  - assert (V : forall t, index_ok l t -> get y (b ++ t) = rsum (2 * l + 1) (fun k => get x (b ++ [k]) * s2t_entry l (pos c l k) t) / const_of norm l).
    { intros t Ht. rewrite Vy; [|exact Lb|rewrite (tensor_shape_tail d Hd); apply tail_of_index; [unfold l in *; lia|exact Ht]].
      fold l. unfold place. destruct (Nat.eqb_spec l 0); [contradiction|reflexivity]. }
    split.
    + intros t t' Ht P. assert (Ht' : index_ok l t') by (eapply index_ok_perm; [apply Permutation_sym, P|exact Ht]).
      rewrite !V by assumption. f_equal. apply rsum_ext. intros k _. now rewrite (s2t_entry_perm _ _ _ _ P).
    + intros t1 t2 t3 Ht.
      assert (I : forall i, (i < 3)%nat -> index_ok l (t1 ++ [i] ++ t2 ++ [i] ++ t3)).
      { intros i Hi. destruct Ht as [L F]. split; [rewrite !app_length in L |- *; cbn [length] in *; exact L|].
        rewrite !Forall_app in *. destruct F as (F1 & _ & F2 & _ & F3). repeat split; auto. }
      rewrite !V by (apply I; lia). unfold Rdiv. rewrite <- !Rmult_plus_distr_r, <- !rsum_plus.
      rewrite (rsum_zero (2 * l + 1)); [ring|]. intros k Hk. rewrite <- !Rmult_plus_distr_l.
      rewrite (s2t_traceless l (pos c l k) (pos_lt c l k Hk) t1 t2 t3 Ht). ring.
Qed.

(** tensor -> irreps -> tensor is the identity on symmetric traceless tensors (one for every index of
    the leading dimensions). *)
Theorem C56_tensor_round_trip : forall x y z degree cartesian norm batch,
  (0 <= degree)%Z -> known_normalization norm -> shape x = batch ++ tensor_shape degree ->
  (forall b, Forall2 lt b batch -> symmetric (Z.to_nat degree) (fun t => get x (b ++ t)) /\ traceless (Z.to_nat degree) (fun t => get x (b ++ t))) ->
  irreps_returns x degree cartesian norm y -> tensor_returns y degree cartesian norm z -> same_array z x.
Proof.
  intros x y z d c norm batch Hd Hn Hx HT (e3 & w & s & o & Hw & Hc & Ey) (e1 & e2 & w' & s' & o' & Hw' & Hc' & Ez).
  destruct (t2i_ok lu_solve inverse e3 w s o x d c norm batch Hw Hc Hd Hn Hx) as (y' & Ey' & Sy & Vy). assert (y' = y) by congruence. subst y'.
  destruct (i2t_ok lu_solve inverse lu_ok inv_ok e1 e2 w' s' o' y d c norm batch Hw' Hc' Hd Hn Sy) as (z' & Ez' & Sz & Vz). assert (z' = z) by congruence. subst z'.
  split; [congruence|]. intros q Hq. rewrite Sz in Hq. apply Forall2_app_split in Hq as (b & t & -> & Hb & Ht).
  pose proof (Forall2_length _ _ _ _ _ Hb) as Lb. rewrite Vz by assumption. set (l := Z.to_nat d) in *. pose proof (const_nonzero norm l Hn) as NZ.
  destruct (conv_ok lu_solve inverse lu_ok inv_ok l) as [_ C2]. rewrite (tensor_shape_tail d Hd) in Ht. fold l in Ht.
  assert (X : exists a : nat -> R, forall t, Forall2 lt t (tail_shape l) -> get x (b ++ t) = rsum (2 * l + 1) (fun j => a j * s2t_entry l j (place l t))).
  { destruct (Nat.eq_dec l 0) as [E|Hl].
    - rewrite E. exists (fun _ => get x (b ++ [0%nat]) / s2t_entry 0 0 []). intros t' Ht'. destruct (tail_ok 0 t' Ht') as [[_ ->]|[H _]]; [|lia].
      change (place 0 [0%nat]) with (@nil nat). cbn [Nat.mul Nat.add rsum]. assert (s2t_entry 0 0 [] <> 0); [|field; assumption].
      intros Z0. assert (Q : (fun _ : nat => 1) 0%nat = 0); [|lra]. apply (s2t_rows 0 (fun _ => 1)) with (j := 0%nat); [|lia].
      intros i Hi. change (number_of_cartesian_monomials_of_degree 0) with 1%nat in Hi. replace i with 0%nat by lia. change (nth 0 (cwr 0 axes) []) with (@nil nat).
      cbn [Nat.mul Nat.add rsum]. rewrite Z0. ring.
    - destruct (HT b Hb) as [T1 T2]. exists (fun j => fischer (Yi l j) (poly_of l (fun t => get x (b ++ t)))). intros t' Ht'.
      destruct (tail_ok l t' Ht') as [[H _]|[_ [I ->]]]; [contradiction|]. exact (tensor_expand l _ t' T1 T2 I). }
  destruct X as [a Ha].
  assert (Y : forall k, (k < 2 * l + 1)%nat -> get y (b ++ [k]) = a (pos c l k) * const_of norm l).
  { intros k Hk. rewrite Vy by assumption. fold l. f_equal.
    rewrite (rsum_ext _ _ (fun i => rsum (2 * l + 1) (fun j => a j * (s2t_entry l j (nth i (cwr l axes) []) * snd (conversion lu_solve inverse l) i (pos c l k))))).
    - rewrite rsum_swap. rewrite (rsum_single _ _ (pos c l k)); [|now apply pos_lt|].
      + rewrite rsum_scal_l, C2 by (now apply pos_lt). rewrite Nat.eqb_refl. ring.
      + intros j Hj Hne. rewrite rsum_scal_l, C2 by (try assumption; now apply pos_lt). destruct (Nat.eqb_spec j (pos c l k)); [contradiction|ring].
    - intros i Hi. destruct (compressed_index_ok l i Hi) as [P1 P2]. rewrite Ha by exact P1. rewrite P2, <- rsum_scal_r. apply rsum_ext. intros j _. ring. }
  rewrite (rsum_ext _ _ (fun k => const_of norm l * ((fun j => a j * s2t_entry l j (place l t)) (pos c l k)))) by (intros k Hk; rewrite Y by exact Hk; ring).
  rewrite rsum_scal_l, (rsum_pos c l (fun j => a j * s2t_entry l j (place l t))). rewrite <- Ha by exact Ht. field. exact NZ.
Qed.

(** The tensor is the one that belongs to the solid harmonics: contracted with a vector in every index
    it gives 2^l l! l! / (2l)! times the combination of the solid harmonics of that vector with the
    irreps as coefficients (divided by the constant of the normalisation). *)
Theorem C56_contraction : forall x y degree cartesian norm batch b rs ys a r c,
  (0 < degree)%Z -> shape x = batch ++ [2 * Z.to_nat degree + 1]%nat -> documented_constant norm (Z.to_nat degree) c ->
  tensor_returns x degree cartesian norm y -> solid_returns rs degree cartesian ys -> nth_error rs a = Some r -> Forall2 lt b batch ->
  let l := Z.to_nat degree in
  total (fun t => factors (fun _ j => nth j (vlist r) 0) t t * get y (b ++ t)) (index_tuples l)
  = 2 ^ l * INR (fact l) * INR (fact l) / INR (fact (2 * l)) / c * rsum (2 * l + 1) (fun k => get x (b ++ [k]) * at2 ys a (l * l + k)).
Proof.
  intros x y d c norm batch b rs ys a r cst Hd Hx Hcst (e1 & e2 & w & s & o & Hw & Hc & Ey) HS Er Hb l.
  assert (Hn : known_normalization norm) by (destruct Hcst as [[[->| ->] _]|[[-> _]|[-> _]]]; unfold known_normalization; cbn; auto).
  rewrite (documented_const norm l cst Hn Hcst).
  destruct (i2t_ok lu_solve inverse lu_ok inv_ok e1 e2 w s o x d c norm batch Hw Hc ltac:(lia) Hn Hx) as (y' & Ey' & Sy & Vy). assert (y' = y) by congruence. subst y'.
  pose proof (Forall2_length _ _ _ _ _ Hb) as Lb. fold l in Vy. apply solid_inv in HS as [_ HS]. destruct (Forall2_get _ _ _ _ _ [] _ _ HS Er) as [[_ R1] _]. fold l in R1.
  pose proof (const_nonzero norm l Hn) as NZ. pose proof (ynorm_pos l) as NY.
  rewrite (total_ext _ _ (fun t => rsum (2 * l + 1) (fun k => get x (b ++ [k]) / (const_of norm l * ynorm l) * (factors (fun _ j => get_at j r) t t * fischer (mono (keyof t)) (Yi l (pos c l k)))))).
  - rewrite total_rsum, <- rsum_scal_l. apply rsum_ext. intros k Hk. rewrite total_scal, contract_form, fischer_form by (apply hom_of, homogeneous_Y, order_bound, pos_lt, Hk).
    unfold at2. rewrite R1 by (try lia; exact Hk). rewrite const_racah.
    assert (E : ynorm l = / 2 ^ l * (INR (fact (2 * l)) / INR (fact l))) by (unfold ynorm; field; split; [apply INR_fact_neq_0|apply pow_nonzero; lra]).
    rewrite E. field. repeat split; try apply INR_fact_neq_0; try apply pow_nonzero; try lra; exact NZ.
  - intros t It. apply in_index_tuples in It. rewrite Vy; [|exact Lb|rewrite (tensor_shape_tail d) by lia; apply tail_of_index; [unfold l in *; lia|exact It]].
    assert (PL : place l t = t) by (unfold place; destruct (Nat.eqb_spec l 0); [unfold l in *; lia|reflexivity]). rewrite PL.
    assert (EF : factors (fun _ j => nth j (vlist r) 0) t t = factors (fun _ j => get_at j r) t t).
    { destruct It as [_ F]. clear -F. induction F as [|i t Hi F IH]; [reflexivity|]. cbn [factors]. rewrite IH. f_equal.
      destruct r as [[u v] w]. destruct i as [|[|[|i]]]; [reflexivity|reflexivity|reflexivity|lia]. }
    rewrite EF. unfold Rdiv. rewrite <- rsum_scal_r, <- rsum_scal_l. apply rsum_ext. intros k Hk. unfold s2t_entry. field. split; lra || exact NZ.
Qed.

(** Rotating and reflecting irreps with the matrices of [wigner_d] rotates the tensor in every index. *)
Theorem C56_equivariance : forall x x' y y' degree cartesian norm batch b ms ds a m t,
  (0 < degree)%Z -> known_normalization norm ->
  shape x = batch ++ [2 * Z.to_nat degree + 1]%nat -> shape x' = batch ++ [2 * Z.to_nat degree + 1]%nat ->
  wigner_returns ms degree cartesian ds -> nth_error ms a = Some m -> orthogonal m -> Forall2 lt b batch ->
  let l := Z.to_nat degree in
  (forall k, (k < 2 * l + 1)%nat -> get x' (b ++ [k]) = rsum (2 * l + 1) (fun i => get x (b ++ [i]) * at3 0 ds a (l * l + i) (l * l + k))) ->
  tensor_returns x degree cartesian norm y -> tensor_returns x' degree cartesian norm y' -> tensor_index l t ->
  get y' (b ++ t) = total (fun t' => factors (fun i i' => entry m i' i) t t' * get y (b ++ t')) (index_tuples l).
Proof.
  intros x x' y y' d c norm batch b ms ds a m t Hd Hn Hx Hx' HW Em Hm Hb l HD (e1 & e2 & w & s & o & Hw & Hc & Ey) (e1' & e2' & w' & s' & o' & Hw' & Hc' & Ey') Ht.
  destruct (i2t_ok lu_solve inverse lu_ok inv_ok e1 e2 w s o x d c norm batch Hw Hc ltac:(lia) Hn Hx) as (y0 & E0 & Sy & Vy). assert (y0 = y) by congruence. subst y0.
  destruct (i2t_ok lu_solve inverse lu_ok inv_ok e1' e2' w' s' o' x' d c norm batch Hw' Hc' ltac:(lia) Hn Hx') as (y0 & E0' & Sy' & Vy'). assert (y0 = y') by congruence. subst y0.
  pose proof (Forall2_length _ _ _ _ _ Hb) as Lb. fold l in Vy, Vy'. apply wigner_inv in HW as [_ HW]. destruct (Forall2_get _ _ _ _ _ [] _ _ HW Em) as [[_ [_ D]] _].
  pose proof (const_nonzero norm l Hn) as NZ.
  assert (PL : forall t, place l t = t) by (intros; unfold place; destruct (Nat.eqb_spec l 0); [unfold l in *; lia|reflexivity]).
  assert (TS : forall t, index_ok l t -> Forall2 lt t (tensor_shape d)) by (intros; rewrite (tensor_shape_tail d) by lia; apply tail_of_index; [unfold l in *; lia|assumption]).
  rewrite Vy', PL by (try exact Lb; now apply TS).
  rewrite (total_ext _ _ (fun t' => rsum (2 * l + 1) (fun k => get x (b ++ [k]) / const_of norm l * (factors (fun i i' => entry m i' i) t t' * s2t_entry l (pos c l k) t')))).
  - rewrite total_rsum. rewrite (rsum_ext _ (fun k => total _ _) (fun k => get x (b ++ [k]) / const_of norm l * rsum (2 * l + 1) (fun i => dmat (entry m) l (pos c l k) (pos c l i) * s2t_entry l (pos c l i) t))).
    + rewrite (rsum_ext _ (fun k => get x' (b ++ [k]) * _) (fun k => rsum (2 * l + 1) (fun i => get x (b ++ [i]) * (dmat (entry m) l (pos c l i) (pos c l k) * s2t_entry l (pos c l k) t)))).
      * rewrite rsum_swap. unfold Rdiv. rewrite <- rsum_scal_r. apply rsum_ext. intros i Hi. rewrite rsum_scal_l. ring.
      * intros k Hk. rewrite HD by exact Hk. rewrite <- rsum_scal_r. apply rsum_ext. intros i Hi. unfold at3.
        specialize (D l l i k (le_n _) (le_n _) Hi Hk). unfold at2 in D. fold l in D. rewrite D. destruct (Nat.eq_dec l l); [ring|contradiction].
    + intros k Hk. rewrite total_scal, s2t_rotate by (try assumption; now apply pos_lt). f_equal. symmetry.
      exact (rsum_pos c l (fun j => dmat (entry m) l (pos c l k) j * s2t_entry l j t)).
  - intros t' It. apply in_index_tuples in It. rewrite Vy, PL by (try exact Lb; now apply TS). unfold Rdiv. rewrite <- rsum_scal_r, <- rsum_scal_l.
    apply rsum_ext. intros k _. ring.
Qed.

(** Rejected arguments. *)
Theorem C56_rejected : forall empty empty_indices w s o x degree cartesian norm,
  ((degree < 0)%Z \/ (shape x <> [] /\ ~ exists batch, shape x = batch ++ [2 * Z.to_nat degree + 1]%nat) ->
   irreps_to_tensor lu_solve inverse empty empty_indices w s o x degree cartesian norm = (w, Err ValueError)) /\
  ((degree < 0)%Z \/ (~ exists batch, shape x = batch ++ tensor_shape degree) ->
   tensor_to_irreps lu_solve inverse empty w s o x degree cartesian norm = (w, Err ValueError)).
Proof.
  intros empty ei w s o x d c norm. unfold irreps_to_tensor, tensor_to_irreps, check_degree.
  destruct (Z.ltb_spec d 0) as [Hd|Hd]; [split; reflexivity|]. cbn [bind]. set (l := Z.to_nat d). split.
  - intros [H|[Hne H]]; [lia|]. destruct (rev (shape x)) as [|e r] eqn:Er.
    + exfalso. apply Hne. rewrite <- (rev_involutive (shape x)), Er. reflexivity.
    + destruct (Nat.eqb_spec e (2 * l + 1)) as [E|]; [|reflexivity]. exfalso. apply H. exists (rev r). rewrite <- (rev_involutive (shape x)), Er. cbn [rev]. now rewrite E.
  - intros [H|H]; [lia|]. rewrite bad_shape by assumption. reflexivity.
Qed.

(** An array without dimensions: [irreps_to_tensor] raises IndexError instead of the documented ValueError. *)
Theorem C56_no_dimensions : forall empty empty_indices w s o x degree cartesian norm, (0 <= degree)%Z -> shape x = [] ->
  irreps_to_tensor lu_solve inverse empty empty_indices w s o x degree cartesian norm = (w, Err IndexError).
Proof.
  intros empty ei w s o x d c norm Hd Hx. unfold irreps_to_tensor, check_degree. destruct (Z.ltb_spec d 0); [lia|]. cbn [bind]. now rewrite Hx.
Qed.

(** * C60 *)

(** Another normalisation divides the tensor by the documented constant, or multiplies the irreps with
    it; in particular the conversions remain mutually inverse (C56). *)
Theorem C60_tensors : forall x y y' degree cartesian norm batch c,
  (0 <= degree)%Z -> documented_constant norm (Z.to_nat degree) c ->
  (shape x = batch ++ [2 * Z.to_nat degree + 1]%nat -> tensor_returns x degree cartesian norm y -> tensor_returns x degree cartesian "racah" y' ->
   shape y = shape y' /\ forall q, Forall2 lt q (shape y) -> get y q = get y' q / c) /\
  (shape x = batch ++ tensor_shape degree -> irreps_returns x degree cartesian norm y -> irreps_returns x degree cartesian "racah" y' ->
   shape y = shape y' /\ forall q, Forall2 lt q (shape y) -> get y q = c * get y' q).
Proof.
  intros x y y' d c norm batch cst Hd Hcst.
  assert (Hn : known_normalization norm) by (destruct Hcst as [[[->| ->] _]|[[-> _]|[-> _]]]; unfold known_normalization; cbn; auto).
  rewrite (documented_const norm _ cst Hn Hcst). split; intros Hx.
  - intros (e1 & e2 & w & s & o & Hw & Hc & Ey) (e1' & e2' & w' & s' & o' & Hw' & Hc' & Ey').
    destruct (i2t_ok lu_solve inverse lu_ok inv_ok e1 e2 w s o x d c norm batch Hw Hc Hd Hn Hx) as (y0 & E0 & Sy & Vy). assert (y0 = y) by congruence. subst y0.
    destruct (i2t_ok lu_solve inverse lu_ok inv_ok e1' e2' w' s' o' x d c "racah" batch Hw' Hc' Hd racah_known Hx) as (y0 & E0' & Sy' & Vy'). assert (y0 = y') by congruence. subst y0.
    split; [congruence|]. intros q Hq. rewrite Sy in Hq. apply Forall2_app_split in Hq as (b & t & -> & Hb & Ht). pose proof (Forall2_length _ _ _ _ _ Hb) as Lb.
    rewrite Vy, Vy', const_racah by assumption. unfold Rdiv. rewrite Rinv_1, Rmult_1_r. reflexivity.
  - intros (e1 & w & s & o & Hw & Hc & Ey) (e1' & w' & s' & o' & Hw' & Hc' & Ey').
    destruct (t2i_ok lu_solve inverse e1 w s o x d c norm batch Hw Hc Hd Hn Hx) as (y0 & E0 & Sy & Vy). assert (y0 = y) by congruence. subst y0.
    destruct (t2i_ok lu_solve inverse e1' w' s' o' x d c "racah" batch Hw' Hc' Hd racah_known Hx) as (y0 & E0' & Sy' & Vy'). assert (y0 = y') by congruence. subst y0.
    split; [congruence|]. intros q Hq. rewrite Sy in Hq. apply Forall2_app_split in Hq as (b & t & -> & Hb & Ht). pose proof (Forall2_length _ _ _ _ _ Hb) as Lb.
    inversion Ht as [|k ? ? ? Hk Hk2]; subst. inversion Hk2; subst. rewrite Vy, Vy', const_racah by assumption. ring.
Qed.

Theorem C60_tensors_unknown_rejected : forall empty empty_indices w s o x degree cartesian norm batch,
  tc_ready lu_solve inverse w -> call_ok s o -> (0 <= degree)%Z -> ~ known_normalization norm ->
  (shape x = batch ++ [2 * Z.to_nat degree + 1]%nat ->
   snd (irreps_to_tensor lu_solve inverse empty empty_indices w s o x degree cartesian norm) = Err ValueError) /\
  (shape x = batch ++ tensor_shape degree ->
   snd (tensor_to_irreps lu_solve inverse empty w s o x degree cartesian norm) = Err ValueError).
Proof.
  intros empty ei w s o x d c norm batch Hw Hc Hd Hn. destruct (tc_table lu_solve inverse w s o d Hw Hc Hd) as (tt & Et & T1 & T2). split; intros Hx.
  - unfold irreps_to_tensor, check_degree. destruct (Z.ltb_spec d 0); [lia|]. cbn [bind]. rewrite Hx, rev_app_distr. cbn [rev app]. rewrite Nat.eqb_refl. cbn [negb].
    destruct (tensor_conversion_table lu_solve inverse w d s o) as [w' r]. cbn [snd] in Et. subst r. cbn [snd bind]. rewrite T1, (normalization_unknown norm _ Hn). reflexivity.
  - unfold tensor_to_irreps. destruct (bind _ _) as [l|e] eqn:EB.
    + unfold check_degree in EB. destruct (Z.ltb_spec d 0); [lia|]. cbn [bind] in EB. destruct (check_tensor_shape x d); [|discriminate]. injection EB as <-.
      destruct (tensor_conversion_table lu_solve inverse w d s o) as [w' r]. cbn [snd] in Et. subst r. cbn [snd bind]. rewrite T2, (normalization_unknown norm _ Hn). reflexivity.
    + cbn [snd]. f_equal. unfold check_degree in EB. destruct (Z.ltb_spec d 0); [lia|]. cbn [bind] in EB. unfold check_tensor_shape, check_degree in EB.
      destruct (Z.ltb_spec d 0); [lia|]. cbn [bind] in EB.
      repeat match type of EB with context [if ?b then _ else _] => destruct b end; cbn [bind] in EB; congruence.
Qed.
End Conversions.
Print Assumptions C56_total.
Print Assumptions C56_irreps_round_trip.
Print Assumptions C56_symmetric_traceless.
Print Assumptions C56_tensor_round_trip.
Print Assumptions C56_contraction.
Print Assumptions C56_equivariance.
Print Assumptions C56_rejected.
Print Assumptions C56_no_dimensions.
Print Assumptions C60_tensors.
Print Assumptions C60_tensors_unknown_rejected.

(** Solvers that meet the hypotheses: least squares. *)
Definition example_solve : nat -> nat -> matrix -> (nat -> R) -> result (nat -> R) := fun m n a b => Ok (least_squares m n a b).
Definition example_inverse : nat -> matrix -> result matrix := fun n a => Ok (fun i j => least_squares n n a (unit_vector j) i).
Lemma example_solve_ok : solves_systems example_solve.
Proof. intros m n a b x Hmn Hx Hu. eexists. split; [reflexivity|]. intros j Hj. apply least_squares_ok with (x := x); assumption. Qed.
Lemma example_inverse_ok : inverts_matrices example_inverse.
Proof.
  intros n a b H1 H2. eexists. split; [reflexivity|]. intros i j Hi Hj. cbn beta. apply (least_squares_ok n n a (unit_vector j) (fun k => b k j)); [| |exact Hi].
  - intros r Hr. unfold apply_to, unit_vector. rewrite H1 by assumption. reflexivity.
  - intros y Hy k Hk. unfold apply_to in Hy.
    transitivity (rsum n (fun r => b k r * rsum n (fun q => a r q * y q))); [|rewrite (rsum_ext _ _ (fun _ => 0)) by (intros r Hr; rewrite Hy by exact Hr; ring); now apply rsum_zero].
    rewrite (rsum_ext _ _ (fun r => rsum n (fun q => b k r * a r q * y q))) by (intros r _; rewrite <- rsum_scal_l; apply rsum_ext; intros; ring).
    rewrite rsum_swap, (rsum_ext _ _ (fun q => (if (k =? q)%nat then 1 else 0) * y q)) by (intros q Hq; rewrite rsum_scal_r, H2 by assumption; reflexivity).
    rewrite (rsum_single _ _ k Hk); [rewrite Nat.eqb_refl; ring|]. intros q _ Hne. destruct (Nat.eqb_spec k q); [congruence|ring].
Qed.
Lemma tc_ready_empty : tc_ready example_solve example_inverse empty_world.
Proof. exists empty_world, []. split; [|split; [constructor|reflexivity]]. split; [reflexivity|]. left. exists OSError. split; [reflexivity|now left]. Qed.

(** Two irreps of degree 2 in one array: the tensors exist, are symmetric and traceless, and are
    converted back. *)
Example C56_case : let x := mkArray [2; 5]%nat (fun q => INR (list_sum q) + 1) in
  exists y z, tensor_returns example_solve example_inverse x 2 true "racah" y /\ shape y = [2; 3; 3]%nat /\
    irreps_returns example_solve example_inverse y 2 true "racah" z /\ same_array z x /\ get z [1; 4]%nat = 6 /\
    get y [1; 0; 0]%nat + get y [1; 1; 1]%nat + get y [1; 2; 2]%nat = 0 /\ get y [1; 0; 2]%nat = get y [1; 2; 0]%nat.
Proof.
  intros x. assert (K : known_normalization "racah") by exact racah_known.
  destruct (proj1 (C56_total _ _ example_solve_ok example_inverse_ok 0 (fun _ => 0%nat) empty_world None IoOk x 2 true "racah" [2%nat] tc_ready_empty call_ok_serial ltac:(lia) K) eq_refl) as (y & Ey & Sy).
  destruct (proj2 (C56_total _ _ example_solve_ok example_inverse_ok 0 (fun _ => 0%nat) empty_world None IoOk y 2 true "racah" [2%nat] tc_ready_empty call_ok_serial ltac:(lia) K) Sy) as (z & Ez & Sz).
  assert (TY : tensor_returns example_solve example_inverse x 2 true "racah" y) by (exists 0%nat, (fun _ => 0%nat), empty_world, None, IoOk; auto using tc_ready_empty, call_ok_serial).
  assert (TZ : irreps_returns example_solve example_inverse y 2 true "racah" z) by (exists 0%nat, empty_world, None, IoOk; auto using tc_ready_empty, call_ok_serial).
  exists y, z. split; [exact TY|]. split; [exact Sy|]. split; [exact TZ|].
  pose proof (C56_irreps_round_trip _ _ example_solve_ok example_inverse_ok x y z 2 true "racah" [2%nat] ltac:(lia) K eq_refl TY TZ) as SA. split; [exact SA|].
  destruct (C56_symmetric_traceless _ _ example_solve_ok example_inverse_ok x y 2 true "racah" [2%nat] [1%nat] ltac:(lia) K eq_refl TY ltac:(repeat constructor)) as [SY TR].
  split; [|split].
  - rewrite (proj2 SA). + cbn. ring. + rewrite Sz. change (Z.to_nat 2) with 2%nat. cbn. repeat constructor.
  - apply (TR [] [] []). split; [reflexivity|]. repeat constructor.
  - apply (SY [0; 2]%nat [2; 0]%nat); [split; [reflexivity|repeat constructor]|]. apply perm_swap.
Qed.

(** A quarter turn of a vector, as irreps of degree 1: the hypotheses of the equivariance theorem are met. *)
Example C56_equivariance_case : exists ds x x' y y',
  wigner_returns [quarter_turn] 1 true ds /\ orthogonal quarter_turn /\
  (forall k, (k < 3)%nat -> get x' [k] = rsum 3 (fun i => get x [i] * at3 0 ds 0 (1 + i) (1 + k))) /\
  tensor_returns example_solve example_inverse x 1 true "racah" y /\ tensor_returns example_solve example_inverse x' 1 true "racah" y' /\
  get y' [1]%nat = get y [0]%nat.
Proof.
  destruct (wigner_exists [quarter_turn] 1 true ltac:(lia)) as [ds Hds].
  set (x := mkArray [3%nat] (fun q => INR (list_sum q) + 1)).
  set (x' := mkArray [3%nat] (fun q => rsum 3 (fun i => get x [i] * at3 0 ds 0 (1 + i) (1 + nth 0 q 0%nat)))).
  assert (K : known_normalization "racah") by exact racah_known.
  destruct (proj1 (C56_total _ _ example_solve_ok example_inverse_ok 0 (fun _ => 0%nat) empty_world None IoOk x 1 true "racah" [] tc_ready_empty call_ok_serial ltac:(lia) K) eq_refl) as (y & Ey & Sy).
  destruct (proj1 (C56_total _ _ example_solve_ok example_inverse_ok 0 (fun _ => 0%nat) empty_world None IoOk x' 1 true "racah" [] tc_ready_empty call_ok_serial ltac:(lia) K) eq_refl) as (y' & Ey' & Sy').
  assert (TY : tensor_returns example_solve example_inverse x 1 true "racah" y) by (exists 0%nat, (fun _ => 0%nat), empty_world, None, IoOk; auto using tc_ready_empty, call_ok_serial).
  assert (TY' : tensor_returns example_solve example_inverse x' 1 true "racah" y') by (exists 0%nat, (fun _ => 0%nat), empty_world, None, IoOk; auto using tc_ready_empty, call_ok_serial).
  exists ds, x, x', y, y'. split; [exact Hds|]. split; [exact (rotation_orthogonal _ quarter_turn_rotation)|]. split; [reflexivity|]. split; [exact TY|]. split; [exact TY'|].
  pose proof (C56_equivariance _ _ example_solve_ok example_inverse_ok x x' y y' 1 true "racah" [] [] [quarter_turn] ds 0 quarter_turn [1%nat] ltac:(lia) K eq_refl eq_refl Hds eq_refl
    (rotation_orthogonal _ quarter_turn_rotation) (Forall2_nil _) (fun k Hk => eq_refl) TY TY' (conj eq_refl (Forall_cons _ (le_n_S _ _ (le_n_S _ _ (Nat.le_0_l _))) (Forall_nil _)))) as E.
  cbn [app] in E. rewrite E. change (Z.to_nat 1) with 1%nat. cbn. ring.
Qed.

(** * C64 *)

(** Scalars and vectors are always accepted. *)
Theorem C64_low_degrees : forall x degree rtol atol batch, (0 <= degree < 2)%Z -> shape x = batch ++ tensor_shape degree ->
  is_traceless_symmetric x degree rtol atol = Ok true.
Proof.
  intros x d rtol atol batch Hd Hx. unfold is_traceless_symmetric.
  assert (E : check_tensor_shape x d = Ok tt).
  { destruct (Z.eq_dec d 0) as [->|N].
    - unfold check_tensor_shape, check_degree. cbn [Z.ltb Z.compare bind Z.to_nat Nat.eqb]. cbn [tensor_shape Z.eqb] in Hx. rewrite Hx, app_length, last_last.
      destruct (Nat.eqb_spec (length batch + length [1%nat]) 0) as [Q|_]; [cbn in Q; lia|reflexivity].
    - apply check_shape_ok with (batch := batch); [lia|]. unfold tensor_shape in Hx. now destruct (Z.eqb_spec d 0). }
  rewrite E. unfold check_degree. destruct (Z.ltb_spec d 0); [lia|]. cbn [bind]. now destruct (Z.ltb_spec d 2); [|lia].
Qed.
Print Assumptions C64_low_degrees.

(** The answer is True exactly if every entry agrees with each entry at a rearranged index, and every
    trace over the last two indices with zero, within the tolerances. *)
Theorem C64_tolerance : forall x degree rtol atol batch, (2 <= degree)%Z -> shape x = batch ++ tensor_shape degree ->
  exists r, is_traceless_symmetric x degree rtol atol = Ok r /\
  (r = true <->
   forall b, Forall2 lt b batch ->
     (forall t t', tensor_index (Z.to_nat degree) t -> Permutation t t' ->
        Rabs (get x (b ++ t) - get x (b ++ t')) <= atol + rtol * Rabs (get x (b ++ t'))) /\
     (forall t, tensor_index (Z.to_nat degree - 2) t ->
        Rabs (get x (b ++ t ++ [0; 0]%nat) + get x (b ++ t ++ [1; 1]%nat) + get x (b ++ t ++ [2; 2]%nat)) <= atol)).
Proof.
  intros x d rtol atol batch Hd Hx. unfold tensor_shape in Hx. destruct (Z.eqb_spec d 0); [lia|].
  destruct (check_ok x d rtol atol batch Hd Hx) as (r & E & H). exists r. split; [exact E|]. rewrite H. unfold passes. split; intros Q b Hb; destruct (Q b Hb) as [Q1 Q2]; (split; [exact Q1|]).
  - intros t [L F]. now apply Q2.
  - intros t L F. apply Q2. now split.
Qed.
Print Assumptions C64_tolerance.

(** Without tolerance the answer is True exactly for tensors that are symmetric and whose traces over
    any two indices vanish. *)
Theorem C64_exact : forall x degree batch, (2 <= degree)%Z -> shape x = batch ++ tensor_shape degree ->
  exists r, is_traceless_symmetric x degree 0 0 = Ok r /\
  (r = true <-> forall b, Forall2 lt b batch ->
     symmetric (Z.to_nat degree) (fun t => get x (b ++ t)) /\ traceless (Z.to_nat degree) (fun t => get x (b ++ t))).
Proof.
  intros x d batch Hd Hx. unfold tensor_shape in Hx. destruct (Z.eqb_spec d 0); [lia|].
  destruct (check_ok x d 0 0 batch Hd Hx) as (r & E & H). exists r. split; [exact E|]. rewrite H. split; intros Q b Hb; specialize (Q b Hb); apply passes_zero in Q || apply passes_zero; auto; lia.
Qed.
Print Assumptions C64_exact.

(** The tensors of [irreps_to_tensor] are accepted, whatever the tolerances. *)
Theorem C64_accepts_converted : forall lu_solve inverse, solves_systems lu_solve -> inverts_matrices inverse ->
  forall x y degree cartesian norm batch rtol atol,
  (0 <= degree)%Z -> known_normalization norm -> shape x = batch ++ [2 * Z.to_nat degree + 1]%nat -> 0 <= rtol -> 0 <= atol ->
  tensor_returns lu_solve inverse x degree cartesian norm y -> is_traceless_symmetric y degree rtol atol = Ok true.
Proof.
  intros lu_solve inverse lu_ok inv_ok x y d c norm batch rtol atol Hd Hn Hx Hr Ha HY.
  pose proof HY as (e1 & e2 & w & s & o & Hw & Hc & Ey).
  destruct (i2t_ok lu_solve inverse lu_ok inv_ok e1 e2 w s o x d c norm batch Hw Hc Hd Hn Hx) as (y' & Ey' & Sy & _). assert (y' = y) by congruence. subst y'.
  destruct (Z.ltb_spec d 2) as [Hd2|Hd2]; [apply C64_low_degrees with (batch := batch); [lia|exact Sy]|].
  pose proof Sy as Sy'. unfold tensor_shape in Sy'. destruct (Z.eqb_spec d 0); [lia|].
  destruct (check_ok y d rtol atol batch Hd2 Sy') as (r & -> & H). apply f_equal. apply H. intros b Hb.
  destruct (C56_symmetric_traceless lu_solve inverse lu_ok inv_ok x y d c norm batch b Hd Hn Hx HY Hb). apply passes_exact; auto. lia.
Qed.
Print Assumptions C64_accepts_converted.

Theorem C64_rejected : forall x degree rtol atol,
  (degree < 0)%Z \/ (~ exists batch, shape x = batch ++ tensor_shape degree) -> is_traceless_symmetric x degree rtol atol = Err ValueError.
Proof.
  intros x d rtol atol H. unfold is_traceless_symmetric, check_degree. destruct (Z.ltb_spec d 0) as [Hd|Hd]; [reflexivity|]. cbn [bind].
  destruct H as [H|H]; [lia|]. now rewrite bad_shape.
Qed.
Print Assumptions C64_rejected.

(** xy is accepted, x^2 is not traceless, and the matrix with the single entry (0, 1) is not symmetric. *)
Example C64_case :
  is_traceless_symmetric (mkArray [3; 3]%nat (fun q => if list_eq_dec Nat.eq_dec q [0; 1]%nat then 1 else if list_eq_dec Nat.eq_dec q [1; 0]%nat then 1 else 0)) 2 0 0 = Ok true /\
  is_traceless_symmetric (mkArray [3; 3]%nat (fun q => if list_eq_dec Nat.eq_dec q [0; 0]%nat then 1 else 0)) 2 0 0 = Ok false /\
  is_traceless_symmetric (mkArray [3; 3]%nat (fun q => if list_eq_dec Nat.eq_dec q [0; 1]%nat then 1 else 0)) 2 0 0 = Ok false.
Proof.
  split; [|split].
  - match goal with |- is_traceless_symmetric ?x _ _ _ = _ => destruct (C64_exact x 2 [] ltac:(lia) eq_refl) as (r & -> & H) end. apply f_equal, H. intros b Hb. inversion Hb. cbn [app get].
    assert (Q : forall t, tensor_index 2 t -> exists i j, t = [i; j] /\ (i < 3)%nat /\ (j < 3)%nat).
    { intros t [L F]. destruct t as [|i [|j [|? ?]]]; try discriminate. inversion F as [|? ? Hi F']; inversion F'; subst. eauto. }
    split.
    + intros t t' Ht P. destruct (Q t Ht) as (i & j & -> & _ & _). apply Permutation_length_2_inv in P as [-> | ->]; [reflexivity|].
      repeat destruct (list_eq_dec _ _ _); congruence || reflexivity.
    + intros t1 t2 t3 Ht. destruct Ht as [L _]. rewrite !app_length in L. cbn [length] in L.
      destruct t1; [|cbn in L; lia]. destruct t2; [|cbn in L; lia]. destruct t3; [|cbn in L; lia]. cbn [app].
      repeat destruct (list_eq_dec _ _ _); try discriminate; ring.
  - match goal with |- is_traceless_symmetric ?x _ _ _ = _ => destruct (C64_exact x 2 [] ltac:(lia) eq_refl) as (r & -> & H) end. apply f_equal. destruct r; [|reflexivity]. exfalso.
    destruct (proj1 H eq_refl [] (Forall2_nil _)) as [_ T]. assert (I : tensor_index (Z.to_nat 2) [0; 0]%nat) by (split; [reflexivity|repeat constructor]). specialize (T [] [] [] I). cbn [app get] in T.
    repeat destruct (list_eq_dec _ _ _); try discriminate; try contradiction; lra.
  - match goal with |- is_traceless_symmetric ?x _ _ _ = _ => destruct (C64_exact x 2 [] ltac:(lia) eq_refl) as (r & -> & H) end. apply f_equal. destruct r; [|reflexivity]. exfalso.
    destruct (proj1 H eq_refl [] (Forall2_nil _)) as [S _]. assert (I : tensor_index (Z.to_nat 2) [0; 1]%nat) by (split; [reflexivity|repeat constructor]). specialize (S [0; 1]%nat [1; 0]%nat I (perm_swap _ _ _)). cbn [app get] in S.
    repeat destruct (list_eq_dec _ _ _); try discriminate; try contradiction; lra.
Qed.
