(** Lemmas about util.py, config.py and so3/_common.py (C10-C13). *)
Require Import String List ZArith Bool Lia Permutation Reals.
Require Import ZifyNat.
Require Import Verif.Base Verif.Common_Model Verif.Common_Spec.
Import ListNotations.
Ltac Zify.zify_post_hook ::= Z.div_mod_to_equations.

(** ** is_broadcastable *)

Lemma broadcast_loop_spec : forall a b,
  broadcast_loop a b = true <->
  forall i, i < length a -> i < length b ->
    nth i a 1%Z = nth i b 1%Z \/ nth i a 1%Z = 1%Z \/ nth i b 1%Z = 1%Z.
Proof.
  induction a as [|x a IH]; intros [|y b]; simpl.
  - split; [intros _ i H; lia|reflexivity].
  - split; [intros _ i H; lia|reflexivity].
  - split; [intros _ i _ H; lia|reflexivity].
  - destruct (Z.eqb_spec x y) as [E|E]; [|destruct (Z.eqb_spec x 1) as [E1|E1];
      [|destruct (Z.eqb_spec y 1) as [E2|E2]]]; simpl.
    + rewrite IH. split; intros H i Hi Hj; [destruct i; [now left|apply H; lia]|apply (H (S i)); simpl; lia].
    + rewrite IH. split; intros H i Hi Hj; [destruct i; [right; now left|apply H; lia]|apply (H (S i)); simpl; lia].
    + rewrite IH. split; intros H i Hi Hj; [destruct i; [right; now right|apply H; lia]|apply (H (S i)); simpl; lia].
    + split; [discriminate|]. intros H. destruct (H 0 ltac:(simpl; lia) ltac:(simpl; lia)) as [H0|[H0|H0]]; simpl in H0; congruence.
Qed.

(** The broadcast shape (reversed). *)
Fixpoint join (a b : list Z) : list Z :=
  match a, b with
  | [], _ => b
  | _, [] => a
  | x :: a', y :: b' => (if (x =? 1)%Z then y else x) :: join a' b'
  end.

Lemma join_length : forall a b, length (join a b) = Nat.max (length a) (length b).
Proof.
  induction a as [|x a IH]; intros [|y b]; simpl; try reflexivity. now rewrite IH.
Qed.

Lemma join_nth : forall a b i, 
  (forall i, i < length a -> i < length b ->
    nth i a 1%Z = nth i b 1%Z \/ nth i a 1%Z = 1%Z \/ nth i b 1%Z = 1%Z) ->
  (nth i a 1%Z = nth i (join a b) 1%Z \/ nth i a 1%Z = 1%Z) /\
  (nth i b 1%Z = nth i (join a b) 1%Z \/ nth i b 1%Z = 1%Z).
Proof.
  induction a as [|x a IH]; intros [|y b] i H; simpl.
  - destruct i; split; now right.
  - destruct i; split; (now right) || (now left).
  - destruct i; split; (now right) || (now left).
  - destruct i as [|i].
    + specialize (H 0 ltac:(simpl; lia) ltac:(simpl; lia)). simpl in H.
      destruct (Z.eqb_spec x 1) as [->|E]; [split; auto|]. split; [auto|].
      destruct H as [H|[H|H]]; [left; symmetry; exact H|contradiction|right; exact H].
    + apply IH. intros j Hj Hk. apply (H (S j)); simpl; lia.
Qed.

Lemma is_broadcastable_spec : forall a b,
  is_broadcastable a b = true <-> exists t, broadcasts_to a t /\ broadcasts_to b t.
Proof.
  intros a b. unfold is_broadcastable. rewrite broadcast_loop_spec, !rev_length. split.
  - intros H. exists (rev (join (rev a) (rev b))).
    assert (H' : forall i, i < length (rev a) -> i < length (rev b) ->
      nth i (rev a) 1%Z = nth i (rev b) 1%Z \/ nth i (rev a) 1%Z = 1%Z \/ nth i (rev b) 1%Z = 1%Z).
    { intros i. rewrite !rev_length. apply H. }
    unfold broadcasts_to. rewrite rev_involutive, rev_length, join_length, !rev_length.
    split; (split; [lia|]); intros i Hi; apply (join_nth (rev a) (rev b) i H').
  - intros [t [[H1 H2] [H3 H4]]] i Hi Hj.
    destruct (H2 i Hi) as [E|E]; destruct (H4 i Hj) as [E'|E']; auto. left. congruence.
Qed.

Lemma is_broadcastable_sym : forall a b, is_broadcastable a b = is_broadcastable b a.
Proof.
  intros a b. apply eq_true_iff_eq. rewrite !is_broadcastable_spec.
  split; intros [t [H1 H2]]; exists t; split; assumption.
Qed.

Lemma is_broadcastable_refl : forall a, is_broadcastable a a = true.
Proof. intros a. apply is_broadcastable_spec. exists a. split; (split; [lia|]); intros; now left. Qed.

Lemma is_broadcastable_nil : forall a, is_broadcastable a [] = true.
Proof.
  intros a. apply is_broadcastable_spec. exists a. split; (split; [simpl; lia|]); intros; [now left|simpl in *; lia].
Qed.

(** ** Config *)

Lemma check_valid_iff : forall n,
  check_normalization_is_valid n = Ok tt <-> In n ["4pi"; "orthonormal"; "racah"; "schmidt"]%string.
Proof.
  intros n. unfold check_normalization_is_valid.
  destruct (existsb (String.eqb n) valid_normalizations) eqn:E.
  - split; [|reflexivity]. intros _. apply existsb_exists in E. destruct E as [x [Hx E]].
    apply String.eqb_eq in E. now subst.
  - split; [discriminate|]. intros H. assert (existsb (String.eqb n) valid_normalizations = true) as E'; [|congruence].
    apply existsb_exists. exists n. split; [assumption|apply String.eqb_refl].
Qed.

Lemma check_valid_err : forall n,
  ~ In n ["4pi"; "orthonormal"; "racah"; "schmidt"]%string -> check_normalization_is_valid n = Err ValueError.
Proof.
  intros n H. unfold check_normalization_is_valid.
  destruct (existsb (String.eqb n) valid_normalizations) eqn:E; [|reflexivity].
  exfalso. apply H. apply check_valid_iff. unfold check_normalization_is_valid. now rewrite E.
Qed.

Lemma run_setters_spec : forall h c,
  run_setters c h = mkConfig
    (last_value sel_cartesian (cartesian_order c) h)
    (last_value sel_fused (use_fused_tensor c) h)
    (last_value sel_normalization (normalization c) h)
    (last_value sel_sph (spherical_harmonics_cache c) h)
    (last_value sel_cg (clebsch_gordan_cache c) h)
    (last_value sel_wig (wigner_d_cache c) h)
    (last_value sel_ten (tensor_conversion_cache c) h).
Proof.
  induction h as [|s h IH]; intros c; simpl; [now destruct c|].
  rewrite IH. unfold last_value. destruct s; try reflexivity.
  cbn [fold_left sel_cartesian sel_fused sel_sph sel_cg sel_wig sel_ten sel_normalization run_setter].
  destruct (in_dec string_dec n ["4pi"; "orthonormal"; "racah"; "schmidt"]%string) as [Hin|Hin].
  - apply check_valid_iff in Hin. rewrite Hin. reflexivity.
  - rewrite (check_valid_err n Hin). reflexivity.
Qed.

Lemma run_setter_error : forall c s e, snd (run_setter c s) = Err e -> fst (run_setter c s) = c.
Proof.
  intros c s e. destruct s; simpl; try discriminate.
  destruct (check_normalization_is_valid n); simpl; [discriminate|reflexivity].
Qed.

Lemma run_setters_normalization_valid : forall h c,
  In (normalization c) ["4pi"; "orthonormal"; "racah"; "schmidt"]%string ->
  In (normalization (run_setters c h)) ["4pi"; "orthonormal"; "racah"; "schmidt"]%string.
Proof.
  induction h as [|s h IH]; intros c H; simpl run_setters; [assumption|].
  apply IH. destruct s; simpl run_setter; try assumption.
  destruct (check_normalization_is_valid n) as [[]|e] eqn:E; [|assumption].
  apply check_valid_iff in E. exact E.
Qed.

(** ** Cartesian permutation *)

Lemma set_nth_length : forall A (v : A) p i, length (set_nth i v p) = length p.
Proof. intros A v; induction p as [|a p IH]; intros [|i]; simpl; auto. Qed.

Lemma nth_set_nth : forall A (v d : A) p i k, k < length p ->
  nth k (set_nth i v p) d = if k =? i then v else nth k p d.
Proof.
  intros A v d; induction p as [|a p IH]; intros i k H; simpl in *; [lia|].
  destruct i as [|i]; destruct k as [|k]; simpl; try reflexivity. apply IH. lia.
Qed.

Lemma cart_perm_loop_spec : forall l n s p,
  length p = 2 * l + 1 -> s + n <= l ->
  let '(p', i) := cart_perm_loop l (seq s n) (p, 2 * s) in
  i = 2 * (s + n) /\ length p' = 2 * l + 1 /\
  forall k, k < 2 * l + 1 ->
    nth k p' 0 = if (2 * s <=? k) && (k <? 2 * (s + n))
                 then (if Nat.even k then 2 * l - k / 2 else k / 2) else nth k p 0.
Proof.
  intros l n; induction n as [|n IH]; intros s p Hp Hs.
  - cbn [seq cart_perm_loop]. rewrite Nat.add_0_r. split; [reflexivity|]. split; [assumption|]. intros k Hk.
    destruct (Nat.leb_spec (2 * s) k); destruct (Nat.ltb_spec k (2 * s)); simpl; try reflexivity; simpl in *; lia.
  - simpl seq. cbn [cart_perm_loop].
    set (p1 := set_nth (2 * s) (2 * l + 1 - (s + 1)) p).
    set (p2 := set_nth (2 * s + 1) s p1).
    assert (Hp1 : length p1 = 2 * l + 1) by (unfold p1; now rewrite set_nth_length).
    assert (Hp2 : length p2 = 2 * l + 1) by (unfold p2; now rewrite set_nth_length).
    specialize (IH (S s) p2 Hp2 ltac:(lia)).
    replace (2 * s + 1 + 1) with (2 * S s) by lia.
    destruct (cart_perm_loop l (seq (S s) n) (p2, 2 * S s)) as [p' i].
    destruct IH as [Hi [Hl Hn]]. split; [lia|]. split; [assumption|]. intros k Hk.
    rewrite Hn by assumption.
    assert (Hcase : k < 2 * s \/ k = 2 * s \/ k = 2 * s + 1 \/ (2 * S s <= k < 2 * (s + S n)) \/ 2 * (s + S n) <= k) by lia.
    assert (E2 : nth k p2 0 = if k =? 2 * s + 1 then s else if k =? 2 * s then 2 * l + 1 - (s + 1) else nth k p 0).
    { unfold p2. rewrite nth_set_nth by lia. destruct (k =? 2 * s + 1); [reflexivity|].
      unfold p1. now rewrite nth_set_nth by lia. }
    rewrite E2. clear E2.
    destruct Hcase as [Hc|[->|[->|[Hc|Hc]]]].
    + replace (2 * S s <=? k) with false by (symmetry; apply Nat.leb_gt; lia).
      replace (2 * s <=? k) with false by (symmetry; apply Nat.leb_gt; lia). simpl andb. cbn iota.
      replace (k =? 2 * s + 1) with false by (symmetry; apply Nat.eqb_neq; lia).
      replace (k =? 2 * s) with false by (symmetry; apply Nat.eqb_neq; lia). reflexivity.
    + replace (2 * S s <=? 2 * s) with false by (symmetry; apply Nat.leb_gt; lia). rewrite andb_false_l.
      replace (2 * s =? 2 * s + 1) with false by (symmetry; apply Nat.eqb_neq; lia). rewrite Nat.eqb_refl.
      replace (2 * s <=? 2 * s) with true by (symmetry; apply Nat.leb_le; lia).
      replace (2 * s <? 2 * (s + S n)) with true by (symmetry; apply Nat.ltb_lt; lia). simpl andb. cbn iota.
      replace (Nat.even (2 * s)) with true by (symmetry; rewrite Nat.even_mul; reflexivity).
      lia.
    + replace (2 * S s <=? 2 * s + 1) with false by (symmetry; apply Nat.leb_gt; lia). rewrite andb_false_l.
      rewrite Nat.eqb_refl.
      replace (2 * s <=? 2 * s + 1) with true by (symmetry; apply Nat.leb_le; lia).
      replace (2 * s + 1 <? 2 * (s + S n)) with true by (symmetry; apply Nat.ltb_lt; lia). simpl andb. cbn iota.
      replace (Nat.even (2 * s + 1)) with false
        by (symmetry; rewrite Nat.even_add, Nat.even_mul; reflexivity).
      lia.
    + replace (2 * S s <=? k) with true by (symmetry; apply Nat.leb_le; lia).
      replace (2 * s <=? k) with true by (symmetry; apply Nat.leb_le; lia).
      replace (k <? 2 * (S s + n)) with true by (symmetry; apply Nat.ltb_lt; lia).
      replace (k <? 2 * (s + S n)) with true by (symmetry; apply Nat.ltb_lt; lia). reflexivity.
    + replace (k <? 2 * (S s + n)) with false by (symmetry; apply Nat.ltb_ge; lia).
      replace (k <? 2 * (s + S n)) with false by (symmetry; apply Nat.ltb_ge; lia). rewrite !andb_false_r.
      replace (k =? 2 * s + 1) with false by (symmetry; apply Nat.eqb_neq; lia).
      replace (k =? 2 * s) with false by (symmetry; apply Nat.eqb_neq; lia). reflexivity.
Qed.

(** Closed form of the permutation of one degree. *)
Definition cart_index (l k : nat) : nat := if Nat.even k then 2 * l - k / 2 else k / 2.

Lemma cart_perm_degree_length : forall e l, length (cartesian_permutation_for_degree e l) = 2 * l + 1.
Proof.
  intros e l. unfold cartesian_permutation_for_degree.
  pose proof (cart_perm_loop_spec l l 0 (repeat e (2 * l + 1))) as H. rewrite repeat_length in H.
  specialize (H eq_refl ltac:(lia)). simpl (2 * 0) in H.
  destruct (cart_perm_loop l (seq 0 l) (repeat e (2 * l + 1), 0)) as [p i].
  destruct H as [_ [H _]]. now rewrite set_nth_length.
Qed.

Lemma cart_perm_degree_nth : forall e l k, k < 2 * l + 1 ->
  nth k (cartesian_permutation_for_degree e l) 0 = cart_index l k.
Proof.
  intros e l k Hk. unfold cartesian_permutation_for_degree.
  pose proof (cart_perm_loop_spec l l 0 (repeat e (2 * l + 1))) as H. rewrite repeat_length in H.
  specialize (H eq_refl ltac:(lia)). simpl (2 * 0) in H.
  destruct (cart_perm_loop l (seq 0 l) (repeat e (2 * l + 1), 0)) as [p i].
  destruct H as [Hi [Hl Hn]]. rewrite nth_set_nth by lia. rewrite Hi. simpl (0 + l) in *.
  unfold cart_index. destruct (Nat.eqb_spec k (2 * l)) as [->|Hne].
  - replace (Nat.even (2 * l)) with true by (symmetry; rewrite Nat.even_mul; reflexivity). lia.
  - rewrite Hn by assumption. replace (0 <=? k) with true by reflexivity.
    replace (k <? 2 * l) with true by (symmetry; apply Nat.ltb_lt; lia). reflexivity.
Qed.

Lemma cart_index_lt : forall l k, k < 2 * l + 1 -> cart_index l k < 2 * l + 1.
Proof. intros l k H. unfold cart_index. destruct (Nat.even k); lia. Qed.

Lemma even_true_double : forall k, Nat.even k = true -> k = 2 * (k / 2).
Proof. intros k H. apply Nat.even_spec in H. destruct H as [m ->]. rewrite Nat.mul_comm at 1. rewrite (Nat.mul_comm 2 m), Nat.div_mul; lia. Qed.

Lemma even_false_double : forall k, Nat.even k = false -> k = 2 * (k / 2) + 1.
Proof.
  intros k H. assert (Ho : Nat.odd k = true) by (unfold Nat.odd; now rewrite H).
  apply Nat.odd_spec in Ho. destruct Ho as [m ->]. lia.
Qed.

Lemma cart_index_inj : forall l a b, a < 2 * l + 1 -> b < 2 * l + 1 ->
  cart_index l a = cart_index l b -> a = b.
Proof.
  intros l a b Ha Hb. unfold cart_index.
  destruct (Nat.even a) eqn:Ea; destruct (Nat.even b) eqn:Eb; intros H;
    try (apply even_true_double in Ea); try (apply even_true_double in Eb);
    try (apply even_false_double in Ea); try (apply even_false_double in Eb); lia.
Qed.

Lemma list_as_map_nth : forall (p : list nat), p = map (fun k => nth k p 0) (seq 0 (length p)).
Proof.
  intros p. apply nth_ext with (d := 0) (d' := nth 0 p 0).
  - now rewrite map_length, seq_length.
  - intros n Hn. rewrite (map_nth (fun k => nth k p 0)). now rewrite seq_nth.
Qed.

Lemma cart_perm_degree_closed : forall e l,
  cartesian_permutation_for_degree e l = map (cart_index l) (seq 0 (2 * l + 1)).
Proof.
  intros e l. rewrite (list_as_map_nth (cartesian_permutation_for_degree e l)).
  rewrite cart_perm_degree_length. apply map_ext_in. intros k Hk. apply in_seq in Hk.
  apply cart_perm_degree_nth. lia.
Qed.

Lemma NoDup_map_inj : forall A B (f : A -> B) l,
  (forall a b, In a l -> In b l -> f a = f b -> a = b) -> NoDup l -> NoDup (map f l).
Proof.
  intros A B f l Hf H; induction H as [|a l Ha H IH]; simpl; constructor.
  - intros Hin. apply in_map_iff in Hin. destruct Hin as [b [E Hb]]. apply Ha.
    rewrite (Hf a b); auto; [now left|now right].
  - apply IH. intros x y Hx Hy. apply Hf; now right.
Qed.

Lemma perm_of_seq : forall (p : list nat) n, length p = n -> NoDup p -> (forall x, In x p -> x < n) ->
  Permutation p (seq 0 n).
Proof.
  intros p n Hl Hd Hb. apply NoDup_Permutation_bis; [assumption| |].
  - rewrite seq_length. lia.
  - intros x Hx. apply in_seq. specialize (Hb x Hx). lia.
Qed.

Lemma cart_perm_degree_perm : forall e l,
  Permutation (cartesian_permutation_for_degree e l) (seq 0 (2 * l + 1)).
Proof.
  intros e l. apply perm_of_seq.
  - apply cart_perm_degree_length.
  - rewrite cart_perm_degree_closed. apply NoDup_map_inj; [|apply seq_NoDup].
    intros a b Ha Hb. apply in_seq in Ha. apply in_seq in Hb. apply cart_index_inj; lia.
  - intros x Hx. rewrite cart_perm_degree_closed in Hx. apply in_map_iff in Hx.
    destruct Hx as [k [<- Hk]]. apply in_seq in Hk. apply cart_index_lt. lia.
Qed.

(** The orders appear in the documented sequence. *)
Lemma documented_orders_length : forall l, length (documented_orders l) = 2 * l + 1.
Proof. induction l as [|l IH]; [reflexivity|]. cbn [documented_orders length]. rewrite IH. lia. Qed.

Lemma documented_orders_nth : forall l k, k < 2 * l + 1 ->
  nth k (documented_orders l) 0%Z = (if Nat.even k then Z.of_nat (l - k / 2) else - Z.of_nat (l - k / 2))%Z.
Proof.
  induction l as [|l IH]; intros k Hk.
  - assert (k = 0) by lia. subst. reflexivity.
  - cbn [documented_orders]. destruct k as [|[|k]]; [reflexivity|reflexivity|].
    cbn [nth]. rewrite IH by lia. change (Nat.even (S (S k))) with (Nat.even k).
    replace (S (S k) / 2) with (S (k / 2)) by lia.
    replace (S l - S (k / 2)) with (l - k / 2) by lia. reflexivity.
Qed.

Lemma cart_perm_documented : forall e l,
  map (fun j => (Z.of_nat j - Z.of_nat l)%Z) (cartesian_permutation_for_degree e l) = documented_orders l.
Proof.
  intros e l. apply nth_ext with (d := (Z.of_nat 0 - Z.of_nat l)%Z) (d' := 0%Z).
  - rewrite map_length, cart_perm_degree_length, documented_orders_length. reflexivity.
  - intros k Hk. rewrite map_length, cart_perm_degree_length in Hk.
    rewrite (map_nth (fun j => (Z.of_nat j - Z.of_nat l)%Z)).
    rewrite cart_perm_degree_nth by assumption. rewrite documented_orders_nth by assumption.
    unfold cart_index. destruct (Nat.even k); lia.
Qed.

(** ** All degrees *)

Lemma set_slice_length : forall A start (vals p : list A), start + length vals <= length p ->
  length (set_slice start vals p) = length p.
Proof.
  intros. unfold set_slice. rewrite !app_length, firstn_length, skipn_length. lia.
Qed.

Lemma nth_set_slice : forall A (d : A) start vals p k, start + length vals <= length p ->
  nth k (set_slice start vals p) d
  = if (start <=? k) && (k <? start + length vals) then nth (k - start) vals d else nth k p d.
Proof.
  intros A d start vals p k H. unfold set_slice.
  destruct (Nat.leb_spec start k) as [H1|H1]; simpl.
  - rewrite app_nth2 by (rewrite firstn_length; lia). rewrite firstn_length, Nat.min_l by lia.
    destruct (Nat.ltb_spec k (start + length vals)) as [H2|H2].
    + now rewrite app_nth1 by lia.
    + rewrite app_nth2 by lia. rewrite <- (firstn_skipn (start + length vals) p) at 2.
      rewrite app_nth2 by (rewrite firstn_length; lia). rewrite firstn_length, Nat.min_l by lia.
      f_equal. lia.
  - rewrite app_nth1 by (rewrite firstn_length; lia).
    rewrite <- (firstn_skipn start p) at 2. now rewrite app_nth1 by (rewrite firstn_length; lia).
Qed.

Lemma pow2_sq : forall l, l ^ 2 = l * l.
Proof. intros l. simpl. lia. Qed.

Lemma cart_perm_fold : forall e n L p, n <= L + 1 -> length p = (L + 1) * (L + 1) ->
  let q := fold_left
    (fun p l => set_slice (l ^ 2) (map (fun x => x + l ^ 2) (cartesian_permutation_for_degree e l)) p)
    (seq 0 n) p in
  length q = (L + 1) * (L + 1) /\
  forall l k, l < n -> k < 2 * l + 1 -> nth (l * l + k) q 0 = l * l + cart_index l k.
Proof.
  intros e n; induction n as [|n IH]; intros L p Hn Hp.
  - simpl. split; [assumption|]. intros l k Hl. lia.
  - rewrite seq_S, fold_left_app. cbn [fold_left]. rewrite Nat.add_0_l.
    destruct (IH L p ltac:(lia) Hp) as [Hq Hnth]. cbv zeta in Hq, Hnth.
    set (q := fold_left _ (seq 0 n) p) in *. cbv zeta.
    set (v := map (fun x => x + n ^ 2) (cartesian_permutation_for_degree e n)).
    assert (Hv : length v = 2 * n + 1) by (unfold v; rewrite map_length; apply cart_perm_degree_length).
    assert (Hfit : n ^ 2 + length v <= length q) by (rewrite pow2_sq, Hv, Hq; nia).
    split; [now rewrite set_slice_length|].
    intros l k Hl Hk. rewrite nth_set_slice by assumption. rewrite pow2_sq, Hv.
    destruct (Nat.eq_dec l n) as [->|Hne].
    + replace (n * n <=? n * n + k) with true by (symmetry; apply Nat.leb_le; lia).
      replace (n * n + k <? n * n + (2 * n + 1)) with true by (symmetry; apply Nat.ltb_lt; lia).
      simpl. replace (n * n + k - n * n) with k by lia. unfold v.
      rewrite (nth_indep _ 0 (0 + n ^ 2)) by (fold v; lia).
      rewrite (map_nth (fun x => x + n ^ 2)), cart_perm_degree_nth, pow2_sq by assumption. lia.
    + replace (n * n <=? l * l + k) with false by (symmetry; apply Nat.leb_gt; nia).
      simpl. apply Hnth; lia.
Qed.

Lemma cart_perm_length : forall e L, length (cartesian_permutation e L) = (L + 1) * (L + 1).
Proof.
  intros e L. unfold cartesian_permutation.
  apply (cart_perm_fold e (L + 1) L (repeat e ((L + 1) ^ 2))); [lia|]. now rewrite repeat_length, pow2_sq.
Qed.

Lemma cart_perm_nth : forall e L l k, l <= L -> k < 2 * l + 1 ->
  nth (l * l + k) (cartesian_permutation e L) 0 = l * l + cart_index l k.
Proof.
  intros e L l k Hl Hk. unfold cartesian_permutation.
  apply (cart_perm_fold e (L + 1) L (repeat e ((L + 1) ^ 2))); try lia. now rewrite repeat_length, pow2_sq.
Qed.

(** Every index below [(L+1)^2] belongs to exactly one degree. *)
Lemma block_decomp : forall i, exists l k, i = l * l + k /\ k < 2 * l + 1 /\ l = Nat.sqrt i.
Proof.
  intros i. exists (Nat.sqrt i), (i - Nat.sqrt i * Nat.sqrt i).
  pose proof (Nat.sqrt_spec i ltac:(lia)) as [H1 H2]. simpl in H2. split; [lia|]. split; [|reflexivity]. nia.
Qed.

Lemma block_degree_le : forall L i l k, i < (L + 1) * (L + 1) -> i = l * l + k -> l <= L.
Proof. intros. nia. Qed.

Lemma block_unique : forall l l' k k', k < 2 * l + 1 -> k' < 2 * l' + 1 ->
  l * l + k = l' * l' + k' -> l = l' /\ k = k'.
Proof. intros l l' k k' H H' E. assert (l = l') by nia. subst. split; [reflexivity|lia]. Qed.

Lemma cart_perm_perm : forall e L, Permutation (cartesian_permutation e L) (seq 0 ((L + 1) * (L + 1))).
Proof.
  intros e L. apply perm_of_seq; [apply cart_perm_length| |].
  - apply (NoDup_nth (cartesian_permutation e L) 0). intros i j Hi Hj E.
    rewrite cart_perm_length in Hi, Hj.
    destruct (block_decomp i) as [l [k [Ei [Hk _]]]]. destruct (block_decomp j) as [l' [k' [Ej [Hk' _]]]].
    assert (Hl : l <= L) by (apply (block_degree_le L i l k); assumption).
    assert (Hl' : l' <= L) by (apply (block_degree_le L j l' k'); assumption).
    rewrite Ei, Ej in E. rewrite !cart_perm_nth in E by assumption.
    destruct (block_unique l l' (cart_index l k) (cart_index l' k')) as [El Ek]; try assumption;
      try (apply cart_index_lt; assumption).
    subst l'. apply cart_index_inj in Ek; [|assumption|assumption]. lia.
  - intros x Hx. destruct (In_nth _ _ 0 Hx) as [i [Hi <-]]. rewrite cart_perm_length in Hi.
    destruct (block_decomp i) as [l [k [Ei [Hk _]]]].
    assert (Hl : l <= L) by (apply (block_degree_le L i l k); assumption).
    rewrite Ei, cart_perm_nth by assumption. pose proof (cart_index_lt l k Hk). nia.
Qed.

(** ** Wigner-D entries *)

Definition wigner_offset (l : nat) : nat := sum_nat l (fun k => (2 * k + 1) * (2 * k + 1)).

Lemma permuted_entries_length : forall num p q, length (flat_map (fun r => map (fun c => r * num + c) q) p)
  = length p * length q.
Proof.
  intros num p q; induction p as [|r p IH]; simpl; [reflexivity|]. rewrite app_length, map_length, IH. lia.
Qed.

Lemma permuted_entries_nth : forall num q p a b, a < length p -> b < length q ->
  nth (a * length q + b) (flat_map (fun r => map (fun c => r * num + c) q) p) 0
  = nth a p 0 * num + nth b q 0.
Proof.
  intros num q p; induction p as [|r p IH]; intros a b Ha Hb; simpl in *; [lia|].
  destruct a as [|a].
  - rewrite app_nth1 by (rewrite map_length; lia). simpl.
    rewrite (nth_indep _ 0 (r * num + 0)) by (rewrite map_length; lia).
    now rewrite (map_nth (fun c => r * num + c)).
  - rewrite app_nth2 by (rewrite map_length; lia). rewrite map_length.
    replace (S a * length q + b - length q) with (a * length q + b) by lia. apply IH; lia.
Qed.

Lemma wigner_loop_spec : forall e n s acc, length acc = wigner_offset s ->
  let q := wigner_perm_loop e (seq s n) acc (wigner_offset s) in
  length q = wigner_offset (s + n) /\
  (forall i, i < length acc -> nth i q 0 = nth i acc 0) /\
  forall l a b, s <= l < s + n -> a < 2 * l + 1 -> b < 2 * l + 1 ->
    nth (wigner_offset l + a * (2 * l + 1) + b) q 0
    = wigner_offset l + cart_index l a * (2 * l + 1) + cart_index l b.
Proof.
  intros e n; induction n as [|n IH]; intros s acc Hacc; cbv zeta.
  - simpl. rewrite Nat.add_0_r. repeat split; auto. intros; lia.
  - cbn [seq wigner_perm_loop].
    set (pvec := cartesian_permutation_for_degree e s).
    assert (Hp : length pvec = 2 * s + 1) by apply cart_perm_degree_length.
    rewrite Hp. unfold permuted_entries. rewrite permuted_entries_length, Hp.
    set (blk := map (fun x => x + wigner_offset s) _).
    assert (Hblk : length blk = (2 * s + 1) * (2 * s + 1)).
    { unfold blk. rewrite map_length, permuted_entries_length, Hp. reflexivity. }
    assert (Hoff : wigner_offset s + (2 * s + 1) * (2 * s + 1) = wigner_offset (S s)) by reflexivity.
    rewrite Hoff.
    assert (Hacc' : length (acc ++ blk) = wigner_offset (S s)) by (rewrite app_length, Hblk, Hacc; reflexivity).
    destruct (IH (S s) (acc ++ blk) Hacc') as [H1 [H2 H3]]. cbv zeta in *.
    split; [rewrite H1; f_equal; lia|]. split.
    + intros i Hi. rewrite H2 by (rewrite app_length; lia). now rewrite app_nth1.
    + intros l a b Hl Ha Hb. destruct (Nat.eq_dec l s) as [->|Hne]; [|apply H3; lia].
      rewrite H2 by (rewrite app_length, Hblk, Hacc; nia).
      rewrite app_nth2 by lia. rewrite Hacc.
      replace (wigner_offset s + a * (2 * s + 1) + b - wigner_offset s) with (a * (2 * s + 1) + b) by lia.
      unfold blk. rewrite (nth_indep _ 0 (0 + wigner_offset s)) by (fold blk; rewrite Hblk; nia).
      rewrite (map_nth (fun x => x + wigner_offset s)).
      pose proof (permuted_entries_nth (2 * s + 1) pvec pvec a b ltac:(lia) ltac:(lia)) as Hn.
      rewrite Hp in Hn. rewrite Hn. unfold pvec.
      rewrite !cart_perm_degree_nth by assumption. lia.
Qed.

Lemma wigner_entries_spec : forall e L,
  let q := cartesian_permutation_wigner_d_entries e L in
  length q = wigner_offset (L + 1) /\
  forall l a b, l <= L -> a < 2 * l + 1 -> b < 2 * l + 1 ->
    nth (wigner_offset l + a * (2 * l + 1) + b) q 0
    = wigner_offset l + cart_index l a * (2 * l + 1) + cart_index l b.
Proof.
  intros e L. destruct (wigner_loop_spec e (L + 1) 0 [] eq_refl) as [H1 [_ H3]]. cbv zeta in *.
  split; [exact H1|]. intros. apply H3; lia.
Qed.
