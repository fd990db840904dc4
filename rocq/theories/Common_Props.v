(** Property theorems C10-C14: broadcasting, configuration, index orders, enumerations. *)
Require Import String List ZArith Bool Lia Permutation Reals.
Require Import Verif.Base Verif.Common_Model Verif.Common_Spec Verif.Common_Proofs Verif.Common_Enum_Proofs.
Import ListNotations.

(** * C10: is_broadcastable *)

(** True exactly when some shape exists to which both shapes broadcast. *)
Theorem C10_is_broadcastable_iff : forall s1 s2,
  is_broadcastable s1 s2 = true <-> exists t, broadcasts_to s1 t /\ broadcasts_to s2 t.
Proof. exact is_broadcastable_spec. Qed.
Print Assumptions C10_is_broadcastable_iff.

Theorem C10_is_broadcastable_symmetric : forall s1 s2, is_broadcastable s1 s2 = is_broadcastable s2 s1.
Proof. exact is_broadcastable_sym. Qed.
Print Assumptions C10_is_broadcastable_symmetric.

Theorem C10_is_broadcastable_self_and_scalar : forall s,
  is_broadcastable s s = true /\ is_broadcastable s [] = true /\ is_broadcastable [] s = true.
Proof.
  intros s. split; [apply is_broadcastable_refl|]. split; [apply is_broadcastable_nil|].
  rewrite is_broadcastable_sym. apply is_broadcastable_nil.
Qed.
Print Assumptions C10_is_broadcastable_self_and_scalar.

Example C10_example :
  is_broadcastable [5; 1; 3]%Z [7; 3]%Z = true /\ is_broadcastable [2; 3]%Z [3; 2]%Z = false
  /\ broadcasts_to [5; 1; 3]%Z [5; 7; 3]%Z.
Proof.
  repeat split; simpl; [lia|]. intros i Hi.
  destruct i as [|[|[|i]]]; simpl in *; try lia; auto.
Qed.

(** * C11: Config *)

(** After any history every option holds the argument of the last successful call of its own
    setter, or the initial value; invalid normalizations are not successful. *)
Theorem C11_config_histories : forall c h,
  let c' := run_setters c h in
  cartesian_order c' = last_value sel_cartesian (cartesian_order c) h
  /\ use_fused_tensor c' = last_value sel_fused (use_fused_tensor c) h
  /\ normalization c' = last_value sel_normalization (normalization c) h
  /\ spherical_harmonics_cache c' = last_value sel_sph (spherical_harmonics_cache c) h
  /\ clebsch_gordan_cache c' = last_value sel_cg (clebsch_gordan_cache c) h
  /\ wigner_d_cache c' = last_value sel_wig (wigner_d_cache c) h
  /\ tensor_conversion_cache c' = last_value sel_ten (tensor_conversion_cache c) h.
Proof. intros c h. cbv zeta. rewrite run_setters_spec. repeat split. Qed.
Print Assumptions C11_config_histories.

(** A setter call raises exactly for an invalid normalization, with ValueError, and then
    changes nothing. *)
Theorem C11_config_errors : forall c s,
  (snd (run_setter c s) = Err ValueError
   <-> exists n, s = SetNormalization n /\ ~ In n ["4pi"; "orthonormal"; "racah"; "schmidt"]%string)
  /\ (forall e, snd (run_setter c s) = Err e -> e = ValueError /\ fst (run_setter c s) = c).
Proof.
  intros c s. split.
  - split.
    + destruct s; simpl; try discriminate. intros H. exists n. split; [reflexivity|].
      intros Hin. apply check_valid_iff in Hin. rewrite Hin in H. discriminate.
    + intros [n [-> Hn]]. simpl run_setter. rewrite (check_valid_err n Hn). reflexivity.
  - intros e H. split; [|now apply run_setter_error with e].
    destruct s; simpl in H; try discriminate.
    unfold check_normalization_is_valid in H. destruct (existsb _ _); simpl in H; congruence.
Qed.
Print Assumptions C11_config_errors.

(** Starting from the defaults the stored normalization is always one that the rest of the
    library accepts. *)
Theorem C11_normalization_always_valid : forall h degree,
  exists r, normalization_constant (normalization (run_setters default_config h)) degree = Ok r.
Proof.
  intros h degree.
  assert (Hin := run_setters_normalization_valid h default_config ltac:(simpl; auto)).
  apply check_valid_iff in Hin. unfold normalization_constant. rewrite Hin. simpl.
  destruct (String.eqb _ _); [eauto|]. destruct (String.eqb _ _); eauto.
Qed.
Print Assumptions C11_normalization_always_valid.

Example C11_example :
  let c := run_setters default_config
    [SetNormalization "4pi"; SetCartesianOrder false; SetNormalization "bogus";
     SetWignerDCache (Some "/tmp/w"); SetWignerDCache None]%string in
  normalization c = "4pi"%string /\ cartesian_order c = false /\ wigner_d_cache c = None.
Proof. repeat split. Qed.

(** * C12: Cartesian order *)

(** The index vector is a permutation of [0 .. (L+1)^2 - 1]. *)
Theorem C12_cartesian_permutation_bijective : forall e L,
  Permutation (cartesian_permutation e L) (seq 0 ((L + 1) * (L + 1))).
Proof. exact cart_perm_perm. Qed.
Print Assumptions C12_cartesian_permutation_bijective.

(** Entry [k] of the block of degree [l] points to the entry of the same block whose order [m]
    is the [k]-th of [l, -l, l-1, -(l-1), ..., 1, -1, 0] (order [m] is stored at [l^2+l+m]). *)
Theorem C12_cartesian_permutation_order : forall e L l k,
  l <= L -> k < 2 * l + 1 ->
  Z.of_nat (nth (l * l + k) (cartesian_permutation e L) 0)
  = (Z.of_nat (l * l + l) + nth k (documented_orders l) 0)%Z.
Proof.
  intros e L l k Hl Hk. rewrite cart_perm_nth by assumption. rewrite documented_orders_nth by assumption.
  unfold cart_index. destruct (Nat.even k); lia.
Qed.
Print Assumptions C12_cartesian_permutation_order.

(** In particular each degree block is mapped to itself. *)
Theorem C12_cartesian_permutation_blocks : forall e L l k,
  l <= L -> k < 2 * l + 1 ->
  l * l <= nth (l * l + k) (cartesian_permutation e L) 0 < (l + 1) * (l + 1).
Proof.
  intros e L l k Hl Hk. rewrite cart_perm_nth by assumption.
  pose proof (cart_index_lt l k Hk). lia.
Qed.
Print Assumptions C12_cartesian_permutation_blocks.

(** The vector for a smaller degree is a prefix of the vector for a larger one. *)
Theorem C12_cartesian_permutation_prefix : forall e e' L L' i,
  L <= L' -> i < (L + 1) * (L + 1) ->
  nth i (cartesian_permutation e L) 0 = nth i (cartesian_permutation e' L') 0.
Proof.
  intros e e' L L' i HL Hi. destruct (block_decomp i) as [l [k [Ei [Hk _]]]].
  assert (Hl : l <= L) by (apply (block_degree_le L i l k); assumption).
  rewrite Ei, !cart_perm_nth by (assumption || lia). reflexivity.
Qed.
Print Assumptions C12_cartesian_permutation_prefix.

Example C12_example : cartesian_permutation 99 2 = [0; 3; 1; 2; 8; 4; 7; 5; 6].
Proof. reflexivity. Qed.

(** * C13: Wigner-D entries *)

(** [w] holds, block after block, the row-major flattened matrices of degree 0..L; block [l]
    starts after the [(2k+1)^2] entries of every smaller degree [k]. *)
Definition block_start (l : nat) : nat := sum_nat l (fun k => (2 * k + 1) * (2 * k + 1)).
Definition wigner_entry {A : Type} (d : A) (w : list A) (l a b : nat) : A :=
  nth (block_start l + a * (2 * l + 1) + b) w d.

(** Reordering by the index vector reorders rows and columns of every block by the Cartesian
    permutation of its degree. *)
Theorem C13_wigner_entries_reordered : forall A (d : A) e e' L w l a b,
  length w = block_start (L + 1) -> l <= L -> a < 2 * l + 1 -> b < 2 * l + 1 ->
  let reordered := map (fun i => nth i w d) (cartesian_permutation_wigner_d_entries e L) in
  let p := cartesian_permutation_for_degree e' l in
  length reordered = length w /\
  wigner_entry d reordered l a b = wigner_entry d w l (nth a p 0) (nth b p 0).
Proof.
  intros A d e e' L w l a b Hw Hl Ha Hb. cbv zeta.
  destruct (wigner_entries_spec e L) as [Hlen Hn]. cbv zeta in *. change wigner_offset with block_start in *.
  split; [now rewrite map_length, Hlen, Hw|]. unfold wigner_entry.
  assert (Hin : block_start l + a * (2 * l + 1) + b < block_start (L + 1)).
  { assert (Hm : forall n m, n <= m -> block_start n <= block_start m).
    { intros n m H; induction H; [lia|]. unfold block_start in *. cbn [sum_nat]. lia. }
    specialize (Hm (S l) (L + 1) ltac:(lia)). unfold block_start in Hm at 1. cbn [sum_nat] in Hm.
    fold (block_start l) in Hm. nia. }
  rewrite (nth_indep _ d (nth 0 w d)) by (rewrite map_length; lia).
  rewrite (map_nth (fun i => nth i w d)). rewrite Hn by assumption.
  rewrite !cart_perm_degree_nth by assumption. reflexivity.
Qed.
Print Assumptions C13_wigner_entries_reordered.

(** Block starts are the totals used by the code. *)
Theorem C13_block_start_total : forall L, total_number_of_wigner_d_entries L = block_start (L + 1).
Proof. exact total_wigner_is_sum. Qed.
Print Assumptions C13_block_start_total.

Example C13_example :
  cartesian_permutation_wigner_d_entries 7 1 = [0; 9; 7; 8; 3; 1; 2; 6; 4; 5].
Proof. reflexivity. Qed.

(** * C14: enumeration of monomials *)

(** Exactly the exponent triples of the given degree, each once. *)
Theorem C14_monomials_complete : forall d,
  NoDup (monomial_powers_of_degree d) /\
  forall p, In p (monomial_powers_of_degree d) <-> exists a b c, p = [a; b; c] /\ a + b + c = d.
Proof.
  intros d. split; [apply NoDup_multicombinations|]. intros p.
  unfold monomial_powers_of_degree. rewrite in_multicombinations by lia. split.
  - intros [Hl Hs]. destruct p as [|a [|b [|c [|x p]]]]; simpl in *; try lia.
    exists a, b, c. split; [reflexivity|lia].
  - intros [a [b [c [-> H]]]]. simpl. lia.
Qed.
Print Assumptions C14_monomials_complete.

(** Exactly the exponent 9-tuples of the given degree, each once. *)
Theorem C14_rotation_monomials_complete : forall d,
  NoDup (rotation_matrix_powers_of_degree d) /\
  forall p, In p (rotation_matrix_powers_of_degree d) <-> length p = 9 /\ fold_right Nat.add 0 p = d.
Proof.
  intros d. split; [apply NoDup_multicombinations|]. intros p.
  unfold rotation_matrix_powers_of_degree. rewrite in_multicombinations by lia.
  assert (E : fold_right Nat.add 0 p = sum_list p) by (induction p; simpl; congruence). now rewrite E.
Qed.
Print Assumptions C14_rotation_monomials_complete.

(** The closed formulas used as table sizes count them. *)
Theorem C14_counts : forall d,
  length (monomial_powers_of_degree d) = number_of_cartesian_monomials_of_degree d /\
  length (rotation_matrix_powers_of_degree d) = number_of_rotation_matrix_monomials_of_degree d.
Proof. intros d. split; [apply length_monomials|apply length_rotation_monomials]. Qed.
Print Assumptions C14_counts.

(** The totals are the sums of the per-degree counts. *)
Theorem C14_totals : forall L,
  total_number_of_cartesian_monomials L
    = sum_nat (L + 1) (fun d => length (monomial_powers_of_degree d)) /\
  total_number_of_rotation_matrix_monomials L
    = sum_nat (L + 1) (fun d => length (rotation_matrix_powers_of_degree d)) /\
  total_number_of_spherical_harmonics L = sum_nat (L + 1) (fun d => 2 * d + 1) /\
  total_number_of_wigner_d_entries L = sum_nat (L + 1) (fun d => (2 * d + 1) * (2 * d + 1)).
Proof.
  intros L. repeat split.
  - rewrite total_cartesian_is_sum. apply sum_nat_ext. intros. symmetry. apply length_monomials.
  - rewrite total_rot_is_sum. apply sum_nat_ext. intros. symmetry. apply length_rotation_monomials.
  - apply total_sph_is_sum.
  - apply total_wigner_is_sum.
Qed.
Print Assumptions C14_totals.

(** A row written for monomial number [i] of degree [d], after those of smaller degree, is a
    row of the table of every maximal degree [L >= d], and different monomials get different rows. *)
Theorem C14_rows_inside_table : forall L d i,
  d <= L -> i < length (monomial_powers_of_degree d) ->
  sum_nat d (fun k => length (monomial_powers_of_degree k)) + i < total_number_of_cartesian_monomials L.
Proof.
  intros L d i Hd Hi. destruct (C14_totals L) as [-> _].
  assert (Hm : forall f n m, n <= m -> sum_nat n f <= sum_nat m f).
  { intros f n m H; induction H; [lia|]. simpl. lia. }
  specialize (Hm (fun k => length (monomial_powers_of_degree k)) (S d) (L + 1) ltac:(lia)).
  cbn [sum_nat] in Hm. lia.
Qed.
Print Assumptions C14_rows_inside_table.

Theorem C14_rotation_rows_inside_table : forall L d i,
  d <= L -> i < length (rotation_matrix_powers_of_degree d) ->
  sum_nat d (fun k => length (rotation_matrix_powers_of_degree k)) + i
  < total_number_of_rotation_matrix_monomials L.
Proof.
  intros L d i Hd Hi. destruct (C14_totals L) as [_ [-> _]].
  assert (Hm : forall f n m, n <= m -> sum_nat n f <= sum_nat m f).
  { intros f n m H; induction H; [lia|]. simpl. lia. }
  specialize (Hm (fun k => length (rotation_matrix_powers_of_degree k)) (S d) (L + 1) ltac:(lia)).
  cbn [sum_nat] in Hm. lia.
Qed.
Print Assumptions C14_rotation_rows_inside_table.

(** Different (degree, position) pairs get different rows. *)
Theorem C14_rows_distinct : forall (f : nat -> nat) d d' i i',
  i < f d -> i' < f d' -> sum_nat d f + i = sum_nat d' f + i' -> d = d' /\ i = i'.
Proof.
  intros f d d' i i' Hi Hi' E.
  assert (Hm : forall n m, n <= m -> sum_nat n f <= sum_nat m f).
  { intros n m H; induction H; [lia|]. simpl. lia. }
  assert (d = d').
  { destruct (Nat.lt_trichotomy d d') as [H|[H|H]]; [|assumption|].
    - specialize (Hm (S d) d' H). simpl in Hm. lia.
    - specialize (Hm (S d') d H). simpl in Hm. lia. }
  subst. lia.
Qed.
Print Assumptions C14_rows_distinct.

Example C14_example :
  monomial_powers_of_degree 2 = [[0; 0; 2]; [0; 2; 0]; [2; 0; 0]; [0; 1; 1]; [1; 0; 1]; [1; 1; 0]]
  /\ total_number_of_cartesian_monomials 2 = 10.
Proof. split; reflexivity. Qed.

(** Cumulative products are the powers used to evaluate monomials. *)
Theorem C14_integer_powers : forall x L i, i <= L -> nth i (integer_powers x L) 0%R = (x ^ i)%R.
Proof.
  intros x L i H. unfold integer_powers.
  assert (G : forall n i acc, i < n -> nth i (cumprod acc (repeat x n)) 0%R = (acc * x ^ (S i))%R).
  { induction n as [|n IH]; intros j acc Hj; [lia|]. simpl repeat. cbn [cumprod].
    destruct j as [|j]; [simpl; ring|]. simpl nth. rewrite IH by lia. simpl. ring. }
  cbn [cumprod]. destruct i as [|i]; simpl nth; [simpl; ring|]. rewrite G by lia. simpl. ring.
Qed.
Print Assumptions C14_integer_powers.
