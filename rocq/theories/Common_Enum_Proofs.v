(** Enumeration of monomials and counting (C14). *)
Require Import List Arith Lia Permutation Sorting.Sorted Bool ZArith.
Require Import ZifyNat.
Require Import Verif.Base Verif.Common_Model Verif.Common_Spec Verif.Common_Proofs Verif.Indexed_Pair_Proofs.
Import ListNotations.
Local Open Scope nat_scope.

(** ** Partitions *)

Lemma sum_list_perm : forall p q, Permutation p q -> sum_list p = sum_list q.
Proof. intros p q H; induction H; simpl; lia. Qed.

Lemma in_partitions : forall k n l p,
  In p (partitions k n l) <-> 1 <= k /\ length p = k /\ sum_list p = n /\ StronglySorted le (l :: p).
Proof.
  induction k as [|k IH]; intros n l p.
  - simpl. split; [tauto|]. intros [H _]. lia.
  - cbn [partitions]. destruct k as [|k].
    + split.
      * destruct (Nat.leb_spec l n) as [H|H]; simpl; [|tauto]. intros [<-|[]]. simpl.
        repeat split; try lia. repeat constructor. assumption.
      * intros [_ [Hl [Hs Hst]]]. destruct p as [|a [|b p]]; simpl in *; try lia.
        inversion Hst as [|? ? _ Hf]; subst. inversion Hf; subst.
        replace (a + 0) with a by lia. destruct (Nat.leb_spec l a); [now left|lia].
    + rewrite in_flat_map. split.
      * intros [i [Hi Hp]]. apply in_seq in Hi. apply in_map_iff in Hp. destruct Hp as [q [<- Hq]].
        apply IH in Hq. destruct Hq as [_ [Hl [Hs Hst]]]. simpl. repeat split; try lia.
        constructor; [assumption|]. constructor; [lia|].
        inversion Hst as [|? ? Hst' Hf]; subst. eapply Forall_impl; [|exact Hf]. simpl. lia.
      * intros [_ [Hl [Hs Hst]]]. destruct p as [|a p]; [discriminate|]. simpl in Hl, Hs.
        inversion Hst as [|? ? Hst' Hf]; subst. inversion Hf; subst.
        exists a. split; [apply in_seq; lia|]. apply in_map. apply IH.
        repeat split; try lia. assumption.
Qed.

Lemma NoDup_partitions : forall k n l, NoDup (partitions k n l).
Proof.
  induction k as [|k IH]; intros n l; [constructor|]. cbn [partitions]. destruct k as [|k].
  - destruct (l <=? n); repeat constructor. simpl. tauto.
  - generalize (seq_NoDup (n + 1 - l) l). induction (seq l (n + 1 - l)) as [|i s IHs]; simpl; intros Hd; [constructor|].
    inversion Hd as [|? ? Hi Hd']; subst. apply NoDup_app_intro.
    + apply NoDup_map_inj; [|apply IH]. intros a b _ _ E. now injection E.
    + now apply IHs.
    + intros x Hx Hx'. apply in_map_iff in Hx. destruct Hx as [q [<- _]].
      apply in_flat_map in Hx'. destruct Hx' as [j [Hj Hx']]. apply in_map_iff in Hx'.
      destruct Hx' as [q' [E _]]. injection E as E1 _. subst j. contradiction.
Qed.

(** ** Distinct permutations *)

Lemma remove_one_perm : forall x l, In x l -> Permutation l (x :: remove_one x l).
Proof.
  intros x l; induction l as [|y l IH]; simpl; [tauto|]. intros H.
  destruct (Nat.eqb_spec x y) as [->|Hne]; [apply Permutation_refl|].
  destruct H as [H|H]; [congruence|]. eapply perm_trans; [apply perm_skip, IH, H|apply perm_swap].
Qed.

Lemma in_distinct_permutations_fuel : forall n l p, length l = n ->
  (In p (distinct_permutations_fuel n l) <-> Permutation p l).
Proof.
  induction n as [|n IH]; intros l p Hl.
  - destruct l; [|discriminate]. simpl. split; [intros [<-|[]]; constructor|].
    intros H. apply Permutation_sym, Permutation_nil in H. now left.
  - cbn [distinct_permutations_fuel]. rewrite in_flat_map. split.
    + intros [x [Hx Hp]]. apply nodup_In in Hx. apply in_map_iff in Hp. destruct Hp as [q [<- Hq]].
      pose proof (remove_one_perm x l Hx) as Hr.
      apply IH in Hq; [|apply Permutation_length in Hr; simpl in Hr; lia].
      eapply perm_trans; [apply perm_skip, Hq|]. now apply Permutation_sym.
    + intros H. destruct p as [|x p]; [apply Permutation_length in H; simpl in H; lia|].
      assert (Hx : In x l) by (eapply Permutation_in; [exact H|now left]).
      exists x. split; [now apply nodup_In|]. apply in_map.
      pose proof (remove_one_perm x l Hx) as Hr.
      apply IH; [apply Permutation_length in Hr; simpl in Hr; lia|].
      eapply Permutation_cons_inv. eapply perm_trans; [exact H|exact Hr].
Qed.

Lemma NoDup_distinct_permutations_fuel : forall n l, NoDup (distinct_permutations_fuel n l).
Proof.
  induction n as [|n IH]; intros l; cbn [distinct_permutations_fuel]; [repeat constructor; simpl; tauto|].
  generalize (NoDup_nodup Nat.eq_dec l).
  generalize (fun x => remove_one x l) as rm. intros rm.
  induction (nodup Nat.eq_dec l) as [|i s IHs]; simpl; intros Hd; [constructor|].
  inversion Hd as [|? ? Hi Hd']; subst. apply NoDup_app_intro.
  + apply NoDup_map_inj; [|apply IH]. intros a b _ _ E. now injection E.
  + now apply IHs.
  + intros x Hx Hx'. apply in_map_iff in Hx. destruct Hx as [q [<- _]].
    apply in_flat_map in Hx'. destruct Hx' as [j [Hj Hx']]. apply in_map_iff in Hx'.
    destruct Hx' as [q' [E _]]. injection E as E1 _. subst j. contradiction.
Qed.

(** ** Sorting *)

Fixpoint ins (x : nat) (l : list nat) : list nat :=
  match l with [] => [x] | y :: t => if x <=? y then x :: l else y :: ins x t end.
Fixpoint isort (l : list nat) : list nat := match l with [] => [] | x :: t => ins x (isort t) end.

Lemma ins_perm : forall x l, Permutation (ins x l) (x :: l).
Proof.
  intros x l; induction l as [|y l IH]; simpl; [apply Permutation_refl|].
  destruct (x <=? y); [apply Permutation_refl|]. eapply perm_trans; [apply perm_skip, IH|apply perm_swap].
Qed.

Lemma isort_perm : forall l, Permutation (isort l) l.
Proof.
  induction l as [|x l IH]; simpl; [constructor|]. eapply perm_trans; [apply ins_perm|now apply perm_skip].
Qed.

Lemma ins_sorted : forall x l, StronglySorted le l -> StronglySorted le (ins x l).
Proof.
  intros x l H; induction H as [|y l H IH Hf]; simpl; [repeat constructor|].
  destruct (Nat.leb_spec x y) as [Hle|Hlt].
  - constructor; [now constructor|]. constructor; [assumption|].
    eapply Forall_impl; [|exact Hf]. simpl. lia.
  - constructor; [assumption|]. eapply Permutation_Forall; [apply Permutation_sym, ins_perm|].
    constructor; [lia|assumption].
Qed.

Lemma isort_sorted : forall l, StronglySorted le (isort l).
Proof. induction l; simpl; [constructor|now apply ins_sorted]. Qed.

Lemma sorted_perm_eq : forall p q, StronglySorted le p -> StronglySorted le q -> Permutation p q -> p = q.
Proof.
  induction p as [|a p IH]; intros q Hp Hq H.
  - apply Permutation_nil in H. now subst.
  - destruct q as [|b q]; [apply Permutation_sym, Permutation_nil in H; discriminate|].
    inversion Hp as [|? ? Hp' Fp]; subst. inversion Hq as [|? ? Hq' Fq]; subst.
    assert (a = b).
    { assert (Ha : In a (b :: q)) by (eapply Permutation_in; [exact H|now left]).
      assert (Hb : In b (a :: p)) by (eapply Permutation_in; [apply Permutation_sym, H|now left]).
      rewrite Forall_forall in Fp, Fq.
      destruct Ha as [Ha|Ha]; [now symmetry|]. destruct Hb as [Hb|Hb]; [assumption|].
      specialize (Fp b Hb). specialize (Fq a Ha). lia. }
    subst b. f_equal. apply IH; try assumption. eapply Permutation_cons_inv; exact H.
Qed.

(** ** Multicombinations *)

Lemma sorted_from_0 : forall p, StronglySorted le p -> StronglySorted le (0 :: p).
Proof. intros p H. constructor; [assumption|]. apply Forall_forall. intros; lia. Qed.

Lemma in_multicombinations : forall n k p, 1 <= k ->
  (In p (multicombinations n k) <-> length p = k /\ sum_list p = n).
Proof.
  intros n k p Hk. unfold multicombinations. rewrite in_flat_map. split.
  - intros [q [Hq Hp]]. apply in_partitions in Hq. destruct Hq as [_ [Hl [Hs _]]].
    apply in_distinct_permutations_fuel in Hp; [|reflexivity].
    split; [rewrite <- Hl; now apply Permutation_length|rewrite <- Hs; now apply sum_list_perm].
  - intros [Hl Hs]. exists (isort p). split.
    + apply in_partitions. repeat split.
      * assumption.
      * rewrite (Permutation_length (isort_perm p)). assumption.
      * rewrite (sum_list_perm _ _ (isort_perm p)). assumption.
      * apply sorted_from_0, isort_sorted.
    + apply in_distinct_permutations_fuel; [reflexivity|]. apply Permutation_sym, isort_perm.
Qed.

Lemma multicombinations_0 : forall n, multicombinations n 0 = [].
Proof. reflexivity. Qed.

Lemma NoDup_multicombinations : forall n k, NoDup (multicombinations n k).
Proof.
  intros n k. unfold multicombinations.
  assert (Hs : forall q, In q (partitions k n 0) -> StronglySorted le q).
  { intros q Hq. apply in_partitions in Hq. destruct Hq as [_ [_ [_ H]]]. now inversion H. }
  generalize (NoDup_partitions k n 0). revert Hs.
  induction (partitions k n 0) as [|q ps IH]; intros Hs Hd; simpl; [constructor|].
  inversion Hd as [|? ? Hq Hd']; subst. apply NoDup_app_intro.
  - apply NoDup_distinct_permutations_fuel.
  - apply IH; [intros; apply Hs; now right|assumption].
  - intros x Hx Hx'. apply in_distinct_permutations_fuel in Hx; [|reflexivity].
    apply in_flat_map in Hx'. destruct Hx' as [q' [Hq' Hx']].
    apply in_distinct_permutations_fuel in Hx'; [|reflexivity].
    assert (q = q').
    { apply sorted_perm_eq; [apply Hs; now left|apply Hs; now right|].
      eapply perm_trans; [apply Permutation_sym, Hx|exact Hx']. }
    subst q'. contradiction.
Qed.

(** ** Counting *)

Fixpoint compositions (k n : nat) : list (list nat) :=
  match k with
  | O => if n =? 0 then [[]] else []
  | S k' => flat_map (fun i => map (cons i) (compositions k' (n - i))) (seq 0 (S n))
  end.

Lemma in_compositions : forall k n p, In p (compositions k n) <-> length p = k /\ sum_list p = n.
Proof.
  induction k as [|k IH]; intros n p; cbn [compositions].
  - destruct (Nat.eqb_spec n 0) as [->|H]; simpl.
    + split; [intros [<-|[]]; auto|]. intros [H _]. destruct p; [now left|discriminate].
    + split; [tauto|]. intros [H1 H2]. destruct p; [simpl in H2; congruence|discriminate].
  - rewrite in_flat_map. split.
    + intros [i [Hi Hp]]. apply in_seq in Hi. apply in_map_iff in Hp. destruct Hp as [q [<- Hq]].
      apply IH in Hq. simpl. lia.
    + intros [Hl Hs]. destruct p as [|a p]; [discriminate|]. simpl in Hl, Hs. exists a.
      split; [apply in_seq; lia|]. apply in_map, IH. lia.
Qed.

Lemma NoDup_compositions : forall k n, NoDup (compositions k n).
Proof.
  induction k as [|k IH]; intros n; cbn [compositions].
  - destruct (n =? 0); repeat constructor. simpl; tauto.
  - generalize (seq_NoDup (S n) 0). induction (seq 0 (S n)) as [|i s IHs]; simpl; intros Hd; [constructor|].
    inversion Hd as [|? ? Hi Hd']; subst. apply NoDup_app_intro.
    + apply NoDup_map_inj; [|apply IH]. intros a b _ _ E. now injection E.
    + now apply IHs.
    + intros x Hx Hx'. apply in_map_iff in Hx. destruct Hx as [q [<- _]].
      apply in_flat_map in Hx'. destruct Hx' as [j [Hj Hx']]. apply in_map_iff in Hx'.
      destruct Hx' as [q' [E _]]. injection E as E1 _. subst j. contradiction.
Qed.

Lemma comb_pascal : forall n k, comb (S n) (S k) = comb n k + comb n (S k).
Proof. reflexivity. Qed.

Lemma comb_0 : forall n, comb n 0 = 1.
Proof. destruct n; reflexivity. Qed.

Lemma comb_gt : forall n k, n < k -> comb n k = 0.
Proof.
  induction n as [|n IH]; intros [|k] H; try lia; [reflexivity|].
  rewrite comb_pascal, !IH by lia. reflexivity.
Qed.

Lemma comb_diag : forall n, comb n n = 1.
Proof. induction n as [|n IH]; [reflexivity|]. rewrite comb_pascal, IH, comb_gt by lia. reflexivity. Qed.

Lemma comb_absorb : forall n k, S k * comb (S n) (S k) = S n * comb n k.
Proof.
  induction n as [|n IH]; intros k.
  - destruct k as [|k]; [reflexivity|]. rewrite comb_pascal, !comb_gt by lia. lia.
  - rewrite comb_pascal. destruct k as [|k].
    + rewrite comb_0. specialize (IH 0). rewrite comb_0 in *. lia.
    + pose proof (IH k) as H1. pose proof (IH (S k)) as H2.
      replace (S (S k) * (comb (S n) (S k) + comb (S n) (S (S k))))
        with (S k * comb (S n) (S k) + comb (S n) (S k) + S (S k) * comb (S n) (S (S k))) by lia.
      rewrite H1, H2. pose proof (comb_pascal n k). nia.
Qed.

Lemma comb_sym : forall a b, comb (a + b) a = comb (a + b) b.
Proof.
  induction a as [|a IH]; intros b; simpl (0 + b).
  - now rewrite comb_0, comb_diag.
  - induction b as [|b IHb].
    + rewrite comb_0, Nat.add_0_r, comb_diag. reflexivity.
    + replace (S a + S b) with (S (a + S b)) by lia. rewrite !comb_pascal.
      rewrite (IH (S b)). replace (a + S b) with (S a + b) by lia. rewrite <- IHb. lia.
Qed.

Lemma hockey : forall n k, sum_nat (S n) (fun i => comb (i + k) k) = comb (n + S k) (S k).
Proof.
  induction n as [|n IH]; intros k.
  - change (0 + comb (0 + k) k = comb (S k) (S k)). now rewrite Nat.add_0_l, !comb_diag.
  - change (sum_nat (S (S n)) (fun i => comb (i + k) k))
      with (sum_nat (S n) (fun i => comb (i + k) k) + comb (S n + k) k).
    rewrite IH. replace (S n + S k) with (S (n + S k)) by lia. rewrite comb_pascal.
    replace (S n + k) with (n + S k) by lia. lia.
Qed.

Lemma sum_nat_ext : forall n f g, (forall i, i < n -> f i = g i) -> sum_nat n f = sum_nat n g.
Proof. induction n as [|n IH]; intros f g H; simpl; [reflexivity|]. rewrite (IH f g), H; auto. Qed.

Lemma sum_nat_first : forall n f, sum_nat (S n) f = f 0 + sum_nat n (fun i => f (S i)).
Proof.
  induction n as [|n IH]; intros f; [simpl; lia|].
  change (sum_nat (S (S n)) f) with (sum_nat (S n) f + f (S n)). rewrite IH. simpl. lia.
Qed.

Lemma sum_nat_rev : forall n f, sum_nat (S n) (fun i => f (n - i)) = sum_nat (S n) f.
Proof.
  induction n as [|n IH]; intros f; [reflexivity|].
  rewrite sum_nat_first. change (sum_nat (S (S n)) f) with (sum_nat (S n) f + f (S n)).
  rewrite (sum_nat_ext (S n) (fun i => f (S n - S i)) (fun i => f (n - i))) by reflexivity.
  rewrite IH, Nat.sub_0_r. lia.
Qed.

Lemma length_flat_map_seq : forall A (f : nat -> list A) n,
  length (flat_map f (seq 0 n)) = sum_nat n (fun i => length (f i)).
Proof.
  induction n as [|n IH]; [reflexivity|].
  rewrite seq_S, flat_map_app, app_length, IH. simpl. rewrite app_nil_r. reflexivity.
Qed.

Lemma compositions_length : forall k n, length (compositions (S k) n) = comb (n + k) k.
Proof.
  induction k as [|k IH]; intros n.
  - cbn [compositions]. rewrite length_flat_map_seq.
    rewrite (sum_nat_ext (S n) _ (fun i => if i =? n then 1 else 0)).
    2:{ intros i Hi. rewrite map_length. destruct (Nat.eqb_spec i n) as [->|Hne].
        - rewrite Nat.sub_diag. reflexivity.
        - destruct (Nat.eqb_spec (n - i) 0); [lia|reflexivity]. }
    rewrite comb_0. cbn [sum_nat]. rewrite Nat.eqb_refl.
    rewrite (sum_nat_ext n _ (fun _ => 0)).
    + clear. induction n; simpl; lia.
    + intros i Hi. destruct (Nat.eqb_spec i n); [lia|reflexivity].
  - cbn [compositions]. rewrite length_flat_map_seq.
    rewrite (sum_nat_ext (S n) _ (fun i => comb ((n - i) + k) k)).
    + rewrite (sum_nat_rev n (fun i => comb (i + k) k)). apply hockey.
    + intros i Hi. rewrite map_length. apply IH.
Qed.

Lemma multicombinations_perm : forall k n, Permutation (multicombinations n (S k)) (compositions (S k) n).
Proof.
  intros k n. apply NoDup_Permutation; [apply NoDup_multicombinations|apply NoDup_compositions|].
  intros p. rewrite in_multicombinations by lia. now rewrite in_compositions.
Qed.

Lemma multicombinations_length : forall k n, length (multicombinations n (S k)) = comb (n + k) k.
Proof.
  intros k n. rewrite (Permutation_length (multicombinations_perm k n)). apply compositions_length.
Qed.

Lemma comb_1 : forall n, comb n 1 = n.
Proof. induction n as [|n IH]; [reflexivity|]. rewrite comb_pascal, comb_0, IH. reflexivity. Qed.

Lemma comb_2 : forall n, 2 * comb n 2 = n * (n - 1).
Proof.
  induction n as [|n IH]; [reflexivity|]. rewrite comb_pascal, comb_1.
  destruct n as [|n]; [reflexivity|]. simpl (S n - 1) in IH. rewrite Nat.sub_0_r in IH.
  replace (S (S n) - 1) with (S n) by lia. nia.
Qed.

Lemma number_of_cartesian_monomials_comb : forall d,
  number_of_cartesian_monomials_of_degree d = comb (d + 2) 2.
Proof.
  intros d. unfold number_of_cartesian_monomials_of_degree. symmetry.
  apply (Nat.div_unique _ 2 _ 0); [lia|]. pose proof (comb_2 (d + 2)) as H.
  replace (d + 2 - 1) with (d + 1) in H by lia. nia.
Qed.

Lemma sum_nat_odd : forall n, sum_nat n (fun d => 2 * d + 1) = n * n.
Proof. induction n as [|n IH]; [reflexivity|]. cbn [sum_nat]. rewrite IH. nia. Qed.

Lemma sum_nat_odd_sq : forall n, 3 * sum_nat n (fun d => (2 * d + 1) * (2 * d + 1)) = n * (2 * n - 1) * (2 * n + 1).
Proof.
  induction n as [|n IH]; [reflexivity|]. cbn [sum_nat]. rewrite Nat.mul_add_distr_l, IH.
  destruct n as [|n]; [reflexivity|]. replace (2 * S n - 1) with (2 * n + 1) by lia.
  replace (2 * S (S n) - 1) with (2 * n + 3) by lia. nia.
Qed.

Lemma sum_nat_mono3 : forall n, 6 * sum_nat n number_of_cartesian_monomials_of_degree = n * (n + 1) * (n + 2).
Proof.
  induction n as [|n IH]; [reflexivity|]. cbn [sum_nat]. rewrite Nat.mul_add_distr_l, IH.
  rewrite number_of_cartesian_monomials_comb. pose proof (comb_2 (n + 2)) as H.
  replace (n + 2 - 1) with (n + 1) in H by lia. nia.
Qed.

Lemma total_cartesian_is_sum : forall L,
  total_number_of_cartesian_monomials L = sum_nat (L + 1) number_of_cartesian_monomials_of_degree.
Proof.
  intros L. unfold total_number_of_cartesian_monomials. symmetry. apply (Nat.div_unique _ 6 _ 0); [lia|].
  pose proof (sum_nat_mono3 (L + 1)) as H. nia.
Qed.

Lemma total_sph_is_sum : forall L,
  total_number_of_spherical_harmonics L = sum_nat (L + 1) number_of_spherical_harmonics_of_degree.
Proof. intros L. unfold total_number_of_spherical_harmonics. symmetry. apply sum_nat_odd. Qed.

Lemma total_wigner_is_sum : forall L,
  total_number_of_wigner_d_entries L = sum_nat (L + 1) number_of_wigner_d_entries_of_degree.
Proof.
  intros L. unfold total_number_of_wigner_d_entries. symmetry. apply (Nat.div_unique _ 3 _ 0); [lia|].
  pose proof (sum_nat_odd_sq (L + 1)) as H. unfold number_of_wigner_d_entries_of_degree.
  replace (2 * (L + 1) - 1) with (2 * L + 1) in H by lia. nia.
Qed.

Lemma total_rot_is_sum : forall L,
  total_number_of_rotation_matrix_monomials L = sum_nat (L + 1) number_of_rotation_matrix_monomials_of_degree.
Proof.
  intros L. unfold total_number_of_rotation_matrix_monomials. symmetry. apply (Nat.div_unique _ 9 _ 0); [lia|].
  replace (L + 1) with (S L) by lia.
  rewrite (sum_nat_ext (S L) _ (fun i => comb (i + 8) 8)).
  2:{ intros i _. unfold number_of_rotation_matrix_monomials_of_degree. apply comb_sym. }
  rewrite hockey.
  (* (L+1) comb(L+9, L+1) = 9 comb(L+9, 9) *)
  rewrite Nat.add_0_r.
  replace (L + 9) with (S (L + 8)) by lia.
  rewrite (comb_absorb (L + 8) L), (comb_absorb (L + 8) 8), (comb_sym L 8). reflexivity.
Qed.

Lemma length_monomials : forall d, length (monomial_powers_of_degree d) = number_of_cartesian_monomials_of_degree d.
Proof. intros d. unfold monomial_powers_of_degree. rewrite multicombinations_length. symmetry. apply number_of_cartesian_monomials_comb. Qed.

Lemma length_rotation_monomials : forall d,
  length (rotation_matrix_powers_of_degree d) = number_of_rotation_matrix_monomials_of_degree d.
Proof. intros d. unfold rotation_matrix_powers_of_degree. rewrite multicombinations_length. symmetry. apply comb_sym. Qed.
