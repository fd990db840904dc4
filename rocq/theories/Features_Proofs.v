(** Proofs about the model of e3x/nn/features.py. *)
Require Import List Reals ZArith Bool Lia Lra Permutation.
Require Import ZifyNat.
Require Import Verif.Base Verif.RSum Verif.Features_Model Verif.Features_Spec.
Import ListNotations.
Open Scope R_scope.
Arguments Nat.modulo : simpl never.
Arguments Nat.mul : simpl never.

(** * Shapes *)

Lemma round_sqrt_square : forall n, round_sqrt (n * n) = n.
Proof.
  intros n. unfold round_sqrt. rewrite Nat.sqrt_square.
  destruct (Nat.leb_spec (n * n) (n * n + n)); lia.
Qed.

Lemma round_sqrt_nearest : forall n, Rabs (sqrt (INR n) - INR (round_sqrt n)) < / 2.
Proof.
  intros n. unfold round_sqrt. pose proof (Nat.sqrt_spec n ltac:(lia)) as [H1 H2]. cbv zeta in *.
  set (s := Nat.sqrt n) in *.
  assert (Hs0 : 0 <= INR s) by apply pos_INR.
  assert (Hn0 : 0 <= INR n) by apply pos_INR.
  assert (Hsq : 0 <= sqrt (INR n)) by apply sqrt_pos.
  assert (Hss : sqrt (INR n) * sqrt (INR n) = INR n) by now apply sqrt_sqrt.
  apply le_INR in H1. rewrite mult_INR in H1.
  assert (H3 : INR n < (INR s + 1) * (INR s + 1)).
  { apply lt_INR in H2. rewrite mult_INR, S_INR in H2. exact H2. }
  assert (Hlow : INR s <= sqrt (INR n)) by nra.
  assert (Hupp : sqrt (INR n) < INR s + 1) by nra.
  destruct (Nat.leb_spec n (s * s + s)) as [H|H].
  - apply le_INR in H. rewrite plus_INR, mult_INR in H. rewrite Rabs_right by lra.
    apply Rnot_le_lt. intros Hc. assert (INR s + /2 <= sqrt (INR n)) by lra. nra.
  - assert (H' : (s * s + s + 1 <= n)%nat) by lia. apply le_INR in H'.
    rewrite !plus_INR, mult_INR in H'. simpl in H'. rewrite S_INR. rewrite Rabs_left by lra.
    apply Rnot_le_lt. intros Hc. assert (sqrt (INR n) <= INR s + /2) by lra. nra.
Qed.

Lemma nth_shape : forall (B : list nat) s d f,
  let sh := B ++ [s; d; f] in
  length sh = (length B + 3)%nat
  /\ nth (length sh - 3) sh 0%nat = s /\ nth (length sh - 2) sh 0%nat = d.
Proof.
  intros B s d f. cbv zeta. rewrite app_length. simpl. split; [lia|].
  split; rewrite app_nth2 by lia.
  - replace (length B + 3 - 3 - length B)%nat with 0%nat by lia. reflexivity.
  - replace (length B + 3 - 2 - length B)%nat with 1%nat by lia. reflexivity.
Qed.

Lemma extract_raw : forall B s d f,
  extract_max_degree_and_check_shape (B ++ [s; d; f]) =
  if negb ((s =? 1)%nat || (s =? 2)%nat) then Err ValueError
  else if negb (Z.of_nat d =? (Z.of_nat (round_sqrt d)) * (Z.of_nat (round_sqrt d)))%Z then Err ValueError
  else Ok (Z.of_nat (round_sqrt d) - 1)%Z.
Proof.
  intros B s d f. destruct (nth_shape B s d f) as [Hl [Hs Hd]].
  unfold extract_max_degree_and_check_shape. rewrite Hs, Hd, Hl.
  destruct (Nat.ltb_spec (length B + 3) 3); [lia|].
  unfold round_sqrt_minus_1. rewrite Z.sub_add. reflexivity.
Qed.

Lemma extract_valid : forall x n, valid n x ->
  extract_max_degree_and_check_shape (shape_of x) = Ok (Z.of_nat n - 1)%Z.
Proof.
  intros x n [HS HD]. unfold shape_of. rewrite extract_raw, HD, round_sqrt_square.
  replace ((fS x =? 1)%nat || (fS x =? 2)%nat) with true by (destruct HS as [-> | ->]; reflexivity).
  simpl. rewrite Nat2Z.inj_mul, Z.eqb_refl. reflexivity.
Qed.

Lemma extract_ok : forall x L, extract_max_degree_and_check_shape (shape_of x) = Ok L ->
  exists n, valid n x /\ L = (Z.of_nat n - 1)%Z.
Proof.
  intros x L. unfold shape_of. rewrite extract_raw.
  destruct ((fS x =? 1)%nat || (fS x =? 2)%nat) eqn:HS; simpl; [|discriminate].
  destruct (Z.eqb_spec (Z.of_nat (fD x)) (Z.of_nat (round_sqrt (fD x)) * Z.of_nat (round_sqrt (fD x)))) as [HD|HD];
    simpl; [|discriminate].
  intros [= <-]. exists (round_sqrt (fD x)). split; [|reflexivity]. split; [|lia].
  apply orb_true_iff in HS. rewrite !Nat.eqb_eq in HS. exact HS.
Qed.

Lemma extract_err : forall x, ~ well_formed x -> extract_max_degree_and_check_shape (shape_of x) = Err ValueError.
Proof.
  intros x H. destruct (extract_max_degree_and_check_shape (shape_of x)) as [L|e] eqn:E.
  - destruct (extract_ok _ _ E) as [n [Hn _]]. destruct H. now exists n.
  - revert E. unfold shape_of. rewrite extract_raw.
    destruct (negb _); [congruence|]. destruct (negb _); congruence.
Qed.

Lemma valid_unique : forall n m x, valid n x -> valid m x -> n = m.
Proof. intros n m x [_ H1] [_ H2]. nia. Qed.

Lemma sq_le : forall a b : nat, (a * a <= b * b <-> a <= b)%nat.
Proof. intros a b. split; intros H; nia. Qed.

Lemma lt_split : forall n d, (d < n * n)%nat -> exists l k, (l < n)%nat /\ (k < 2 * l + 1)%nat /\ d = (l * l + k)%nat.
Proof.
  intros n d H. exists (Nat.sqrt d), (d - Nat.sqrt d * Nat.sqrt d)%nat.
  pose proof (Nat.sqrt_spec d ltac:(lia)) as [H1 H2]. cbv zeta in *. repeat split; nia.
Qed.

Lemma comp_valid : forall n x i p l k f, valid n x ->
  comp x i p l k f =
  if (l <? n)%nat then
    if (fS x =? 2)%nat then fv x i p (l * l + k)%nat f
    else if (p =? l mod 2)%nat then fv x i 0%nat (l * l + k)%nat f else 0
  else 0.
Proof.
  intros n x i p l k f [_ HD]. unfold comp. rewrite HD.
  destruct (Nat.leb_spec ((l + 1) * (l + 1)) (n * n)) as [H|H]; destruct (Nat.ltb_spec l n) as [H'|H']; try reflexivity; nia.
Qed.

(** The components determine the array. *)
Lemma comp_determines : forall n x y, valid n x -> valid n y ->
  fB x = fB y -> fS x = fS y -> fF x = fF y -> fdt x = fdt y ->
  (forall i p l k f, (p < 2)%nat -> (l < n)%nat -> (k < 2 * l + 1)%nat -> comp x i p l k f = comp y i p l k f) ->
  same_feature x y.
Proof.
  intros n x y Hx Hy HB HS HF Hd H.
  repeat split; try assumption.
  - destruct Hx as [_ ->], Hy as [_ ->]. reflexivity.
  - intros i s d f Hs Hdd. pose proof (proj2 Hx) as HD. rewrite HD in Hdd.
    destruct (lt_split n d Hdd) as [l [k [Hl [Hk ->]]]].
    destruct (proj1 Hx) as [E|E].
    + assert (s = 0)%nat by lia. subst s.
      specialize (H i (l mod 2)%nat l k f (Nat.mod_upper_bound l 2 ltac:(lia)) Hl Hk).
      rewrite (comp_valid n x), (comp_valid n y) in H by assumption.
      rewrite <- HS, E, Nat.eqb_refl in H. destruct (Nat.ltb_spec l n); [exact H|lia].
    + specialize (H i s l k f ltac:(lia) Hl Hk).
      rewrite (comp_valid n x), (comp_valid n y) in H by assumption.
      rewrite <- HS, E in H. destruct (Nat.ltb_spec l n); [exact H|lia].
Qed.

Lemma same_feature_comp : forall n x y, valid n x -> same_feature x y -> forall i p l k f,
  (p < 2)%nat -> (k < 2 * l + 1)%nat -> comp x i p l k f = comp y i p l k f.
Proof.
  intros n x y Hx [HB [HS [HD [HF [Hd H]]]]] i p l k f Hp Hk.
  assert (Hy : valid n y) by (destruct Hx as [a b]; split; congruence).
  rewrite (comp_valid n x), (comp_valid n y) by assumption. rewrite <- HS.
  destruct (Nat.ltb_spec l n) as [Hl|Hl]; [|reflexivity].
  assert (Hb : (l * l + k < fD x)%nat) by (destruct Hx as [_ ->]; nia).
  destruct (proj1 Hx) as [E|E]; rewrite E; simpl.
  - destruct (p =? l mod 2)%nat; [apply H; lia|reflexivity].
  - apply H; lia.
Qed.

(** * Masks *)

Lemma flat_map_degrees : forall (A : Type) (g : nat -> A) (d : A) n l k, (l < n)%nat -> (k < 2 * l + 1)%nat ->
  nth (l * l + k) (flat_map (fun l => repeat (g l) (2 * l + 1)) (seq 0 n)) d = g l
  /\ length (flat_map (fun l => repeat (g l) (2 * l + 1)) (seq 0 n)) = (n * n)%nat.
Proof.
  intros A g d n l k Hl Hk.
  assert (Hlen : forall n, length (flat_map (fun l => repeat (g l) (2 * l + 1)) (seq 0 n)) = (n * n)%nat).
  { clear. induction n as [|n IH]; [reflexivity|]. rewrite seq_S, flat_map_app, app_length, IH. cbn [flat_map].
    rewrite app_nil_r, repeat_length. lia. }
  split; [|apply Hlen].
  induction n as [|n IH]; [lia|].
  rewrite seq_S, flat_map_app. destruct (Nat.eq_dec l n) as [->|Hne].
  - rewrite app_nth2 by (rewrite Hlen; lia). rewrite Hlen. cbn [flat_map]. rewrite app_nil_r. cbn [Nat.add] in *.
    assert (Hr : forall c j, (j < c)%nat -> nth j (repeat (g n) c) d = g n).
    { induction c; intros [|j] Hj; simpl; try lia; auto. apply IHc. lia. }
    apply Hr. lia.
  - rewrite app_nth1 by (rewrite Hlen; nia). apply IH. lia.
Qed.

(** * rotate *)

Lemma list_nat_eqb_spec : forall a b, list_nat_eqb a b = true <-> a = b.
Proof.
  induction a as [|x a IH]; intros [|y b]; simpl; try (split; congruence).
  rewrite andb_true_iff, Nat.eqb_eq, IH. split; [intros [-> ->]; reflexivity|intros [= -> ->]; auto].
Qed.

Lemma rotate_ok : forall n x shared D, valid n x ->
  rotate x (wigner_for shared D x) =
  Ok (mkFeat (fB x) (fS x) (fD x) (fF x) (fdt x)
        (fun b s m f => rsum (fD x) (fun l => fv x b s l f * D (wigner_batch shared b) l m))).
Proof.
  intros n x shared D Hx. unfold rotate. rewrite (extract_valid x n Hx). simpl.
  destruct Hx as [_ HD]. rewrite HD.
  replace ((Z.of_nat (n * n) =? (Z.of_nat n - 1 + 1) * (Z.of_nat n - 1 + 1))%Z) with true by (symmetry; apply Z.eqb_eq; lia).
  simpl. destruct shared; simpl; [reflexivity|].
  replace (list_nat_eqb (fB x) (fB x)) with true by (symmetry; now apply list_nat_eqb_spec). reflexivity.
Qed.

Lemma rsum_block : forall n D b (v : nat -> R) l k, block_diagonal D -> (l < n)%nat -> (k < 2 * l + 1)%nat ->
  rsum (n * n) (fun j => v j * D b j (l * l + k)%nat)
  = rsum (2 * l + 1) (fun k' => v (l * l + k')%nat * D b (l * l + k')%nat (l * l + k)%nat).
Proof.
  intros n D b v l k HD Hl Hk. rewrite rsum_degrees.
  rewrite (rsum_single n _ l) by
    (assumption || (intros j Hj Hne; apply rsum_zero; intros k' Hk'; rewrite HD by assumption; ring)).
  reflexivity.
Qed.

Lemma rotate_comp : forall n x shared D, valid n x -> block_diagonal D ->
  exists y, rotate x (wigner_for shared D x) = Ok y /\ valid n y
    /\ fB y = fB x /\ fS y = fS x /\ fF y = fF x /\ fdt y = fdt x
    /\ forall i p l k f, (p < 2)%nat -> (k < 2 * l + 1)%nat ->
       comp y i p l k f = rsum (2 * l + 1) (fun k' => comp x i p l k' f * D (wigner_batch shared i) (l * l + k')%nat (l * l + k)%nat).
Proof.
  intros n x shared D Hx HD. eexists. split; [now apply (rotate_ok n)|].
  split; [exact Hx|]. do 4 (split; [reflexivity|]).
  intros i p l k f Hp Hk. rewrite (comp_valid n) by exact Hx. simpl.
  destruct (Nat.ltb_spec l n) as [Hl|Hl].
  - rewrite (proj2 Hx). rewrite !rsum_block by assumption.
    destruct (fS x =? 2)%nat eqn:ES.
    + apply rsum_ext. intros k' Hk'. rewrite (comp_valid n x) by exact Hx. rewrite ES.
      destruct (Nat.ltb_spec l n); [reflexivity|lia].
    + destruct (p =? l mod 2)%nat eqn:EP.
      * apply rsum_ext. intros k' Hk'. rewrite (comp_valid n x) by exact Hx. rewrite ES, EP.
        destruct (Nat.ltb_spec l n); [reflexivity|lia].
      * symmetry. apply rsum_zero. intros k' Hk'. rewrite (comp_valid n x) by exact Hx. rewrite ES, EP.
        destruct (Nat.ltb_spec l n); ring.
  - symmetry. apply rsum_zero. intros k' Hk'. rewrite (comp_valid n x) by exact Hx.
    destruct (Nat.ltb_spec l n); [lia|ring].
Qed.

(** * reflect *)

Lemma negate_fold_meta : forall ls x,
  let y := fold_left (fun y l => negate_range y (l * l) ((l + 1) * (l + 1))) ls x in
  fB y = fB x /\ fS y = fS x /\ fD y = fD x /\ fF y = fF x /\ fdt y = fdt x.
Proof.
  induction ls as [|a ls IH]; intros x; simpl; [repeat split|]. apply (IH (negate_range x (a * a) ((a + 1) * (a + 1)))).
Qed.

Lemma negate_fold_value : forall ls x i s l k f, NoDup ls -> (k < 2 * l + 1)%nat ->
  fv (fold_left (fun y l => negate_range y (l * l) ((l + 1) * (l + 1))) ls x) i s (l * l + k)%nat f
  = if existsb (Nat.eqb l) ls then - fv x i s (l * l + k)%nat f else fv x i s (l * l + k)%nat f.
Proof.
  induction ls as [|a ls IH]; intros x i s l k f Hnd Hk; simpl; [reflexivity|].
  inversion Hnd as [|? ? Ha Hnd']; subst. rewrite IH by assumption. simpl.
  destruct (Nat.eqb_spec l a) as [->|Hne]; simpl.
  - destruct (existsb (Nat.eqb a) ls) eqn:E.
    { apply existsb_exists in E. destruct E as [b [Hb Eb]]. apply Nat.eqb_eq in Eb. now subst. }
    destruct (Nat.leb_spec (a * a) (a * a + k)); [|lia].
    destruct (Nat.ltb_spec (a * a + k) ((a + 1) * (a + 1))); [|lia]. simpl. ring.
  - replace ((a * a <=? l * l + k)%nat && (l * l + k <? (a + 1) * (a + 1))%nat) with false; [reflexivity|].
    symmetry. apply andb_false_iff. rewrite Nat.leb_gt, Nat.ltb_ge. nia.
Qed.

Lemma odd_range_in : forall n l, existsb (Nat.eqb l) (odd_range n) = (Nat.odd l && (l <? n)%nat)%bool.
Proof.
  intros n l. apply eq_iff_eq_true. rewrite existsb_exists, andb_true_iff, Nat.ltb_lt. unfold odd_range.
  split.
  - intros [b [Hb E]]. apply Nat.eqb_eq in E. subst b. apply filter_In in Hb. destruct Hb as [Hb Ho].
    apply in_seq in Hb. split; [exact Ho|lia].
  - intros [Ho Hl]. exists l. split; [|apply Nat.eqb_refl]. apply filter_In. split; [|exact Ho].
    apply in_seq. destruct l; [discriminate|lia].
Qed.

Lemma odd_range_nodup : forall n, NoDup (odd_range n).
Proof. intros n. apply NoDup_filter, seq_NoDup. Qed.

Lemma mod2_odd : forall l, (l mod 2)%nat = if Nat.odd l then 1%nat else 0%nat.
Proof.
  intros l. rewrite <- Nat.bit0_mod, Nat.bit0_odd. destruct (Nat.odd l); reflexivity.
Qed.

Lemma reflect_comp : forall n x, valid n x ->
  exists y, reflect x = Ok y /\ valid n y
    /\ fB y = fB x /\ fS y = fS x /\ fF y = fF x /\ fdt y = fdt x
    /\ forall i p l k f, (p < 2)%nat -> (k < 2 * l + 1)%nat ->
       comp y i p l k f = if (p =? 1)%nat then - comp x i p l k f else comp x i p l k f.
Proof.
  intros n x Hx. unfold reflect. rewrite (extract_valid x n Hx). simpl.
  destruct (fS x =? 2)%nat eqn:ES.
  - eexists. split; [reflexivity|]. split; [exact Hx|]. do 4 (split; [reflexivity|]).
    intros i p l k f Hp Hk. rewrite (comp_valid n) by exact Hx. rewrite (comp_valid n x) by exact Hx. simpl. rewrite ES.
    destruct (l <? n)%nat, (p =? 1)%nat; ring.
  - eexists. split; [reflexivity|].
    match goal with |- valid n ?Y /\ _ => set (y := Y) end.
    destruct (negate_fold_meta (odd_range (Z.to_nat (Z.of_nat n - 1 + 1))) x) as [H1 [H2 [H3 [H4 H5]]]].
    fold y in H1, H2, H3, H4, H5.
    assert (Hy : valid n y) by (destruct Hx as [a b]; split; congruence).
    split; [exact Hy|]. do 4 (split; [assumption|]).
    intros i p l k f Hp Hk. rewrite (comp_valid n y) by exact Hy. rewrite (comp_valid n x) by exact Hx.
    rewrite H2, ES. destruct (Nat.ltb_spec l n) as [Hl|Hl]; [|destruct (p =? 1)%nat; ring].
    destruct (Nat.eqb_spec p (l mod 2)) as [->|Hne]; [|destruct (p =? 1)%nat; ring].
    unfold y. rewrite negate_fold_value by (apply odd_range_nodup || assumption).
    rewrite odd_range_in, mod2_odd.
    replace (l <? Z.to_nat (Z.of_nat n - 1 + 1))%nat with true by (symmetry; apply Nat.ltb_lt; lia).
    destruct (Nat.odd l); reflexivity.
Qed.

(** * change_max_degree_or_type *)

Lemma cat_value_degrees : forall (g : nat -> piece) cnt a i s l k f,
  (forall l, (a <= l < a + cnt)%nat -> fst (g l) = (2 * l + 1)%nat) ->
  (a <= l < a + cnt)%nat -> (k < 2 * l + 1)%nat ->
  cat_value (map g (seq a cnt)) i s (l * l + k - a * a)%nat f = snd (g l) i s k f.
Proof.
  intros g cnt; induction cnt as [|cnt IH]; intros a i s l k f Hg Hl Hk; [lia|].
  simpl. destruct (g a) as [na va] eqn:Ea.
  assert (na = (2 * a + 1)%nat) by (specialize (Hg a ltac:(lia)); rewrite Ea in Hg; exact Hg). subst na.
  destruct (Nat.eq_dec l a) as [->|Hne].
  - destruct (Nat.ltb_spec (a * a + k - a * a) (2 * a + 1)) as [H|H]; [|lia].
    rewrite Ea. simpl. f_equal. lia.
  - destruct (Nat.ltb_spec (l * l + k - a * a) (2 * a + 1)) as [H|H]; [nia|].
    replace (l * l + k - a * a - (2 * a + 1))%nat with (l * l + k - S a * S a)%nat by nia.
    apply IH; [intros; apply Hg; lia|lia|exact Hk].
Qed.

Lemma cat_size_degrees : forall (g : nat -> piece) cnt a,
  (forall l, (a <= l < a + cnt)%nat -> fst (g l) = (2 * l + 1)%nat) ->
  (cat_size (map g (seq a cnt)) + a * a = (a + cnt) * (a + cnt))%nat.
Proof.
  intros g cnt; induction cnt as [|cnt IH]; intros a Hg; [simpl; rewrite Nat.add_0_r; lia|].
  simpl. rewrite (Hg a) by lia. specialize (IH (S a) ltac:(intros; apply Hg; lia)).
  change (fold_right _ _ _) with (cat_size (map g (seq (S a) cnt))). nia.
Qed.

Lemma concatenate_degrees : forall x S (g : nat -> piece) cnt, (0 < cnt)%nat ->
  (forall l, (l < cnt)%nat -> fst (g l) = (2 * l + 1)%nat) ->
  exists y, concatenate x S (map g (seq 0 cnt)) = Ok y /\ fB y = fB x /\ fS y = S /\ fD y = (cnt * cnt)%nat
    /\ fF y = fF x /\ fdt y = fdt x
    /\ forall i s l k f, (l < cnt)%nat -> (k < 2 * l + 1)%nat -> fv y i s (l * l + k)%nat f = snd (g l) i s k f.
Proof.
  intros x S g cnt Hc Hg.
  assert (H : concatenate x S (map g (seq 0 cnt)) =
    Ok (mkFeat (fB x) S (cat_size (map g (seq 0 cnt))) (fF x) (fdt x) (cat_value (map g (seq 0 cnt))))).
  { destruct cnt; [lia|reflexivity]. }
  eexists. split; [exact H|]. simpl. do 2 (split; [reflexivity|]).
  split; [pose proof (cat_size_degrees g cnt 0 ltac:(intros; apply Hg; lia)); lia|].
  do 2 (split; [reflexivity|]).
  intros i s l k f Hl Hk. rewrite <- (cat_value_degrees g cnt 0) by (lia || (intros; apply Hg; lia)).
  f_equal. lia.
Qed.

Lemma degree_slice_spec : forall m x p l, fD x = (m * m)%nat -> (l < m)%nat ->
  fst (degree_slice x p l) = (2 * l + 1)%nat
  /\ forall i s k f, snd (degree_slice x p l) i s k f = fv x i (p + s)%nat (l * l + k)%nat f.
Proof.
  intros m x p l HD Hl. unfold degree_slice. rewrite HD.
  assert ((l + 1) * (l + 1) <= m * m)%nat by (apply sq_le; lia).
  rewrite !Nat.min_l by nia. simpl. split; [nia|reflexivity].
Qed.

(** The slice/pad step alone. *)
Lemma resize_spec : forall n x m, valid n x ->
  let L := (Z.of_nat m - 1)%Z in
  let N := Z.to_nat ((L + 1) * (L + 1)) in
  let x1 :=
      if (L <? Z.of_nat n - 1)%Z
      then mkFeat (fB x) (fS x) (Nat.min N (fD x)) (fF x) (fdt x) (fv x)
      else if (Z.of_nat n - 1 <? L)%Z
      then mkFeat (fB x) (fS x) (fD x + (N - Z.to_nat ((Z.of_nat n - 1 + 1) * (Z.of_nat n - 1 + 1))))%nat
             (fF x) (fdt x) (fun i s d f => if (d <? fD x)%nat then fv x i s d f else 0)
      else x in
  fB x1 = fB x /\ fS x1 = fS x /\ fD x1 = (m * m)%nat /\ fF x1 = fF x /\ fdt x1 = fdt x
  /\ forall i s l k f, (l < m)%nat -> (k < 2 * l + 1)%nat ->
       fv x1 i s (l * l + k)%nat f = if (l <? n)%nat then fv x i s (l * l + k)%nat f else 0.
Proof.
  intros n x m [HS HD]. cbv zeta.
  replace (Z.of_nat m - 1 + 1)%Z with (Z.of_nat m) by lia.
  replace (Z.of_nat n - 1 + 1)%Z with (Z.of_nat n) by lia.
  rewrite <- !Nat2Z.inj_mul, !Nat2Z.id.
  destruct (Z.ltb_spec (Z.of_nat m - 1) (Z.of_nat n - 1)) as [H|H].
  - simpl. rewrite HD, Nat.min_l by nia. repeat split.
    intros i s l k f Hl Hk. destruct (Nat.ltb_spec l n); [reflexivity|lia].
  - destruct (Z.ltb_spec (Z.of_nat n - 1) (Z.of_nat m - 1)) as [H'|H']; simpl.
    + rewrite HD. split; [reflexivity|]. split; [reflexivity|]. split; [nia|]. do 2 (split; [reflexivity|]).
      intros i s l k f Hl Hk.
      destruct (Nat.ltb_spec (l * l + k) (n * n)); destruct (Nat.ltb_spec l n); try reflexivity; nia.
    + assert (m = n) by lia. subst m. repeat split; try assumption.
      intros i s l k f Hl Hk. destruct (Nat.ltb_spec l n); [reflexivity|lia].
Qed.

Definition opt_default {A} (o : option A) (d : A) : A := match o with Some a => a | None => d end.

(** Full description for m target degrees; a change of type needs at least one degree. *)
Lemma change_comp : forall n x m md incl, valid n x ->
  (md = Some (Z.of_nat m - 1)%Z \/ (md = None /\ m = n)) ->
  ((0 < m)%nat \/ incl = None \/ incl = Some (negb (fS x =? 1)%nat)) ->
  exists y, change_max_degree_or_type x md incl = Ok y /\ valid m y
    /\ fB y = fB x /\ fS y = (if opt_default incl (fS x =? 2)%nat then 2%nat else 1%nat)
    /\ fF y = fF x /\ fdt y = fdt x
    /\ forall i p l k f, (p < 2)%nat -> (k < 2 * l + 1)%nat ->
       comp y i p l k f = if (l <? m)%nat && ((fS y =? 2)%nat || (p =? l mod 2)%nat)%bool then comp x i p l k f else 0.
Proof.
  intros n x m md incl Hx Hmd Hincl.
  pose proof (resize_spec n x m Hx) as HR. cbv zeta in HR.
  unfold change_max_degree_or_type. rewrite (extract_valid x n Hx). simpl bind. cbv zeta.
  assert (HL : match md with Some d => d | None => (Z.of_nat n - 1)%Z end = (Z.of_nat m - 1)%Z).
  { destruct Hmd as [-> | [-> ->]]; reflexivity. }
  rewrite HL. match type of HR with fB ?X = _ /\ _ => set (x1 := X) in * end.
  destruct HR as [R1 [R2 [R3 [R4 [R5 R6]]]]].
  set (ib := match incl with Some b => b | None => negb (fS x =? 1)%nat end).
  assert (Hib : opt_default incl (fS x =? 2)%nat = ib).
  { unfold ib, opt_default. destruct incl; [reflexivity|]. destruct (proj1 Hx) as [-> | ->]; reflexivity. }
  rewrite Hib. replace (Z.to_nat (Z.of_nat m - 1 + 1)) with m by lia.
  destruct (negb (fS x =? 1)%nat && negb ib) eqn:C1.
  - (* drop pseudotensors *)
    apply andb_true_iff in C1. destruct C1 as [C1 C2]. apply negb_true_iff in C2, C1. rewrite C2.
    assert (ES : fS x = 2%nat) by (destruct (proj1 Hx) as [E|E]; [rewrite E in C1; discriminate|exact E]).
    assert (Hm : (0 < m)%nat).
    { destruct Hincl as [H|[H|H]]; [exact H| |]; subst incl; unfold ib in C2; rewrite ES in C2; discriminate. }
    destruct (concatenate_degrees x1 1 (fun l => degree_slice x1 (l mod 2) l) m Hm) as [y [Ey [Y1 [Y2 [Y3 [Y4 [Y5 Y6]]]]]]].
    { intros l Hl. now apply (degree_slice_spec m). }
    exists y. split; [exact Ey|].
    assert (Hy : valid m y) by (split; [left; exact Y2|exact Y3]).
    split; [exact Hy|]. split; [congruence|]. split; [exact Y2|]. split; [congruence|]. split; [congruence|].
    intros i p l k f Hp Hk. rewrite (comp_valid m y), (comp_valid n x) by assumption. rewrite Y2, ES. simpl.
    destruct (Nat.ltb_spec l m) as [Hl|Hl]; [|reflexivity]. simpl.
    destruct (Nat.eqb_spec p (l mod 2)) as [->|Hne]; [|reflexivity].
    rewrite Y6 by assumption. rewrite (proj2 (degree_slice_spec m x1 (l mod 2) l R3 Hl)), R6 by assumption.
    rewrite Nat.add_0_r. reflexivity.
  - destruct (ib && negb (negb (fS x =? 1)%nat)) eqn:C2.
    + (* add pseudotensors *)
      apply andb_true_iff in C2. destruct C2 as [C2 C3]. rewrite negb_involutive in C3. apply Nat.eqb_eq in C3.
      rewrite C2.
      assert (Hm : (0 < m)%nat).
      { destruct Hincl as [H|[H|H]]; [exact H| |]; subst incl; unfold ib in C2; rewrite C3 in C2; discriminate. }
      destruct (concatenate_degrees x1 1 (fun l => if Nat.even l then degree_slice x1 0 l
                                           else zero_piece (degree_slice x1 0 l)) m Hm) as [e [Ee [E1 [E2 [E3 [E4 [E5 E6]]]]]]].
      { intros l Hl. destruct (Nat.even l); now apply (degree_slice_spec m). }
      destruct (concatenate_degrees x1 1 (fun l => if negb (Nat.even l) then degree_slice x1 0 l
                                           else zero_piece (degree_slice x1 0 l)) m Hm) as [o [Eo [O1 [O2 [O3 [O4 [O5 O6]]]]]]].
      { intros l Hl. destruct (negb (Nat.even l)); now apply (degree_slice_spec m). }
      rewrite Ee. simpl bind. rewrite Eo. simpl bind. eexists. split; [reflexivity|].
      split; [split; [right; reflexivity|exact E3]|]. simpl.
      split; [exact R1|]. split; [reflexivity|]. split; [exact R4|]. split; [exact R5|].
      intros i p l k f Hp Hk. rewrite (comp_valid m) by (split; [right; reflexivity|exact E3]).
      rewrite (comp_valid n x) by assumption. rewrite C3. simpl.
      destruct (Nat.ltb_spec l m) as [Hl|Hl]; [|reflexivity]. simpl.
      rewrite E6, O6 by assumption.
      pose proof (proj2 (degree_slice_spec m x1 0 l R3 Hl)) as HD. rewrite <- Nat.negb_odd, negb_involutive.
      rewrite mod2_odd.
      destruct (Nat.eqb_spec p 0) as [->|Hp0].
      * destruct (Nat.odd l); cbn [negb Nat.eqb zero_piece snd]; [destruct (l <? n)%nat; reflexivity|].
        rewrite HD, R6 by assumption. destruct (l <? n)%nat; reflexivity.
      * assert (p = 1)%nat by lia. subst p.
        destruct (Nat.odd l); cbn [negb Nat.eqb zero_piece snd]; [|destruct (l <? n)%nat; reflexivity].
        rewrite HD, R6 by assumption. destruct (l <? n)%nat; reflexivity.
    + (* same type *)
      assert (Hsame : fS x1 = if ib then 2%nat else 1%nat).
      { rewrite R2. destruct (proj1 Hx) as [E|E]; rewrite E in C1, C2 |- *; destruct ib; simpl in *; congruence. }
      exists x1. split; [reflexivity|].
      assert (Hy : valid m x1) by (split; [rewrite R2; apply (proj1 Hx)|exact R3]).
      split; [exact Hy|]. split; [exact R1|]. split; [exact Hsame|]. split; [exact R4|]. split; [exact R5|].
      intros i p l k f Hp Hk. rewrite (comp_valid m x1), (comp_valid n x) by assumption. rewrite R2.
      destruct (Nat.ltb_spec l m) as [Hl|Hl]; [|reflexivity]. simpl.
      rewrite !R6 by assumption.
      destruct (fS x =? 2)%nat, (p =? l mod 2)%nat, (l <? n)%nat; reflexivity.
Qed.

Lemma comp_slotless : forall n x i p l k f, valid n x -> (p < 2)%nat ->
  (l <? n)%nat && ((fS x =? 2)%nat || (p =? l mod 2)%nat)%bool = false -> comp x i p l k f = 0.
Proof.
  intros n x i p l k f Hx Hp H. rewrite (comp_valid n) by assumption.
  destruct (l <? n)%nat; [|reflexivity]. simpl in H.
  destruct (fS x =? 2)%nat; [discriminate|]. simpl in H. rewrite H. reflexivity.
Qed.

(** Going to a representation with all the slots and back is the identity. *)
Lemma change_round_trip : forall n x m incl, valid n x -> (0 < n)%nat -> (n <= m)%nat -> 
  (fS x = 2%nat -> incl = true) ->
  exists y z, change_max_degree_or_type x (Some (Z.of_nat m - 1)%Z) (Some incl) = Ok y
    /\ change_max_degree_or_type y (Some (Z.of_nat n - 1)%Z) (Some (fS x =? 2)%nat) = Ok z
    /\ same_feature z x.
Proof.
  intros n x m incl Hx Hn Hnm Hincl.
  destruct (change_comp n x m (Some (Z.of_nat m - 1)%Z) (Some incl) Hx) as [y [Ey [Vy [B1 [S1 [F1 [D1 C1]]]]]]];
    [now left|left; lia|].
  destruct (change_comp m y n (Some (Z.of_nat n - 1)%Z) (Some (fS x =? 2)%nat) Vy) as [z [Ez [Vz [B2 [S2 [F2 [D2 C2]]]]]]];
    [now left|now left|].
  exists y, z. split; [exact Ey|]. split; [exact Ez|].
  simpl in S1, S2.
  assert (ESz : fS z = fS x) by (rewrite S2; destruct (proj1 Hx) as [-> | ->]; reflexivity).
  apply (comp_determines n); try assumption; try congruence.
  intros i p l k f Hp Hl Hk. rewrite C2, C1 by assumption. rewrite ESz, S1.
  destruct (Nat.ltb_spec l n); [|lia]. destruct (Nat.ltb_spec l m); [|lia]. simpl.
  destruct (Nat.eqb_spec (fS x) 2) as [E|E].
  - rewrite Hincl by exact E. reflexivity.
  - destruct (Nat.eqb_spec p (l mod 2)) as [Ep|Ep]; simpl.
    + rewrite orb_true_r. reflexivity.
    + symmetry. apply (comp_slotless n); try assumption.
      apply andb_false_iff. right. apply orb_false_iff. rewrite !Nat.eqb_neq. auto.
Qed.

(** * add *)

Lemma add_scan_ok : forall B F dt xs L pseudo,
  Forall (fun x => fB x = B /\ fF x = F /\ fdt x = dt /\ well_formed x) xs ->
  (-1 <= L)%Z ->
  exists m, add_scan B F dt xs L pseudo = Ok ((Z.of_nat m - 1)%Z, (pseudo || existsb (fun x => (fS x =? 2)%nat) xs)%bool)
    /\ (L <= Z.of_nat m - 1)%Z /\ Forall (fun x => (fD x <= m * m)%nat) xs
    /\ ((Z.of_nat m - 1)%Z = L \/ exists x, In x xs /\ fD x = (m * m)%nat).
Proof.
  intros B F dt xs; induction xs as [|x xs IH]; intros L pseudo H HL.
  - exists (Z.to_nat (L + 1)). simpl. rewrite orb_false_r.
    replace (Z.of_nat (Z.to_nat (L + 1)) - 1)%Z with L by lia. repeat split; [lia|constructor|now left].
  - inversion H as [|? ? [HB [HF [Hd [n Hn]]]] Hxs]; subst. simpl.
    replace (list_nat_eqb (fB x) (fB x)) with true by (symmetry; now apply list_nat_eqb_spec).
    rewrite !Nat.eqb_refl. cbn [negb]. rewrite (extract_valid x n Hn). cbn [bind].
    destruct (IH (Z.max L (Z.of_nat n - 1)) (pseudo || (fS x =? 2)%nat)%bool Hxs ltac:(lia)) as [m [E [H1 [H2 H3]]]].
    exists m. rewrite E, orb_assoc. split; [reflexivity|]. split; [lia|].
    split.
    + constructor; [|exact H2]. destruct Hn as [_ ->]. apply sq_le. lia.
    + destruct H3 as [H3|[x' [Hin Hx']]]; [|right; exists x'; split; [now right|exact Hx']].
      destruct (Z.max_spec L (Z.of_nat n - 1)) as [[Hm1 Hm2]|[Hm1 Hm2]].
      * right. exists x. split; [now left|]. destruct Hn as [_ ->]. assert (m = n) by lia. now subst.
      * left. lia.
Qed.

Lemma add_scan_err : forall B F dt xs L pseudo,
  ~ Forall (fun x => fB x = B /\ fF x = F /\ fdt x = dt /\ well_formed x) xs ->
  add_scan B F dt xs L pseudo = Err ValueError.
Proof.
  intros B F dt xs; induction xs as [|x xs IH]; intros L pseudo H; [destruct H; constructor|]. simpl.
  destruct (list_nat_eqb (fB x) B) eqn:E1; simpl; [|reflexivity]. apply list_nat_eqb_spec in E1.
  destruct (Nat.eqb_spec (fF x) F) as [E2|E2]; simpl; [|reflexivity].
  destruct (Nat.eqb_spec (fdt x) dt) as [E3|E3]; simpl; [|reflexivity].
  destruct (extract_max_degree_and_check_shape (shape_of x)) as [Lx|e] eqn:E4; simpl.
  - apply IH. intros Hc. apply H. constructor; [|exact Hc].
    destruct (extract_ok _ _ E4) as [n [Hn _]]. repeat split; try assumption. now exists n.
  - assert (~ well_formed x). { intros [n Hn]. rewrite (extract_valid x n Hn) in E4. discriminate. }
    rewrite (extract_err x) in E4 by assumption. congruence.
Qed.

Lemma sum_R_app : forall a b, sum_R (a ++ b) = sum_R a + sum_R b.
Proof. induction a as [|x a IH]; intros b; simpl; [ring|]. rewrite IH. ring. Qed.

Lemma add_acc_ok : forall m pseudo xs y, (0 < m)%nat ->
  Forall (fun x => fB x = fB y /\ fF x = fF y /\ fdt x = fdt y /\ well_formed x /\ (fD x <= m * m)%nat
                   /\ (fS x = 2%nat -> pseudo = true)) xs ->
  valid m y -> fS y = (if pseudo then 2%nat else 1%nat) ->
  exists z, add_acc (Z.of_nat m - 1) pseudo y xs = Ok z /\ valid m z
    /\ fB z = fB y /\ fS z = fS y /\ fF z = fF y /\ fdt z = fdt y
    /\ forall i p l k f, (p < 2)%nat -> (k < 2 * l + 1)%nat ->
       comp z i p l k f = comp y i p l k f + sum_R (map (fun x => comp x i p l k f) xs).
Proof.
  intros m pseudo xs; induction xs as [|x xs IH]; intros y Hm H Hy HS.
  - exists y. simpl. split; [reflexivity|]. split; [exact Hy|]. repeat split. intros. ring.
  - inversion H as [|? ? [HB [HF [Hd [[n Hn] [Hle Hps]]]]] Hxs]; subst. simpl.
    destruct (change_comp n x m (Some (Z.of_nat m - 1)%Z) (Some pseudo) Hn) as [c [Ec [Vc [B1 [S1 [F1 [D1 C1]]]]]]];
      [now left|now left|].
    rewrite Ec. simpl bind.
    match goal with |- context [add_acc _ _ ?Y _] => set (y' := Y) end.
    assert (Vy' : valid m y') by exact Hy.
    destruct (IH y' Hm) as [z [Ez [Vz [B2 [S2 [F2 [D2 C2]]]]]]]; [exact Hxs|exact Vy'|exact HS|].
    exists z. split; [exact Ez|]. split; [exact Vz|]. do 4 (split; [assumption|]).
    intros i p l k f Hp Hk. rewrite C2 by assumption.
    rewrite <- Rplus_assoc. f_equal.
    simpl in S1.
    assert (Hx : comp c i p l k f = comp x i p l k f).
    { rewrite C1 by assumption. rewrite S1.
      destruct ((l <? m)%nat && (((if pseudo then 2 else 1) =? 2)%nat || (p =? l mod 2)%nat)) eqn:E; [reflexivity|].
      symmetry. apply (comp_slotless n); try assumption.
      apply andb_false_iff in E. apply andb_false_iff.
      destruct E as [E|E].
      - left. apply Nat.ltb_ge in E. apply Nat.ltb_ge. destruct Hn as [_ HnD]. rewrite HnD in Hle. apply (proj1 (sq_le n m)) in Hle. lia.
      - right. apply orb_false_iff in E. destruct E as [E ->]. rewrite orb_false_r. apply Nat.eqb_neq. intros E2.
        rewrite (Hps E2) in E. discriminate. }
    rewrite <- Hx. rewrite !(comp_valid m) by assumption. unfold y'. simpl. rewrite S1, HS.
    destruct (l <? m)%nat; [|ring]. destruct pseudo; simpl; [ring|]. destruct (p =? l mod 2)%nat; ring.
Qed.

Lemma add_ok : forall x0 t, let xs := x0 :: t in
  Forall (compatible x0) xs ->
  exists m y, add xs = Ok y /\ valid m y /\ (0 < m)%nat
    /\ fB y = fB x0 /\ fF y = fF x0 /\ fdt y = fdt x0
    /\ fS y = (if existsb (fun x => (fS x =? 2)%nat) xs then 2%nat else 1%nat)
    /\ Forall (fun x => (fD x <= m * m)%nat) xs
    /\ (m = 1%nat \/ exists x, In x xs /\ fD x = (m * m)%nat)
    /\ forall i p l k f, (p < 2)%nat -> (k < 2 * l + 1)%nat ->
       comp y i p l k f = sum_R (map (fun x => comp x i p l k f) xs).
Proof.
  intros x0 t xs H.
  destruct (add_scan_ok (fB x0) (fF x0) (fdt x0) xs 0 false) as [m [E [H1 [H2 H3]]]];
    [exact H|lia|].
  assert (Hm : (0 < m)%nat) by lia. simpl orb in E.
  set (ps := existsb (fun x => (fS x =? 2)%nat) xs) in *.
  set (z0 := mkFeat (fB x0) (if ps then 2%nat else 1%nat) (Z.to_nat ((Z.of_nat m - 1 + 1) * (Z.of_nat m - 1 + 1))) (fF x0) (fdt x0)
                            (fun _ _ _ _ => 0)).
  assert (V0 : valid m z0).
  { split; [simpl; destruct ps; auto|]. simpl. lia. }
  destruct (add_acc_ok m ps xs z0 Hm) as [y [Ey [Vy [B2 [S2 [F2 [D2 C2]]]]]]]; [|exact V0|reflexivity|].
  { apply Forall_forall. intros x Hx. rewrite Forall_forall in H, H2.
    destruct (H x Hx) as [a [b [c d]]]. repeat split; try assumption; [now apply H2|].
    intros HS. unfold ps. apply existsb_exists. exists x. split; [exact Hx|]. now rewrite HS. }
  exists m, y. split.
  { unfold add, xs. fold xs. rewrite E. exact Ey. }
  split; [exact Vy|]. split; [exact Hm|]. do 3 (split; [assumption|]). split; [exact S2|].
  split; [exact H2|]. split.
  { destruct H3 as [H3|H3]; [left; lia|right; exact H3]. }
  intros i p l k f Hp Hk. rewrite C2 by assumption.
  rewrite (comp_valid m z0) by exact V0. simpl.
  destruct (l <? m)%nat, ps, (p =? l mod 2)%nat; simpl; ring.
Qed.

Lemma add_err : forall x0 t, ~ Forall (compatible x0) (x0 :: t) -> add (x0 :: t) = Err ValueError.
Proof. intros x0 t H. unfold add. rewrite add_scan_err by exact H. reflexivity. Qed.

Lemma add_ok_inv : forall xs y, add xs = Ok y -> exists x0 t, xs = x0 :: t /\ Forall (compatible x0) xs.
Proof.
  intros [|x0 t] y H; [discriminate|]. exists x0, t. split; [reflexivity|].
  destruct (add_scan (fB x0) (fF x0) (fdt x0) (x0 :: t) 0 false) as [[L ps]|e] eqn:E.
  - apply Forall_forall. intros x Hx. clear H. revert E Hx.
    set (xs := x0 :: t). clearbody xs. generalize 0%Z false.
    induction xs as [|a xs IH]; intros L0 b E Hx; [destruct Hx|]. simpl in E.
    destruct (list_nat_eqb (fB a) (fB x0)) eqn:E1; simpl in E; [|discriminate]. apply list_nat_eqb_spec in E1.
    destruct (Nat.eqb_spec (fF a) (fF x0)) as [E2|E2]; simpl in E; [|discriminate].
    destruct (Nat.eqb_spec (fdt a) (fdt x0)) as [E3|E3]; simpl in E; [|discriminate].
    destruct (extract_max_degree_and_check_shape (shape_of a)) as [La|e] eqn:E4; simpl in E; [|discriminate].
    destruct Hx as [<-|Hx]; [|now apply (IH _ _ E)].
    destruct (extract_ok _ _ E4) as [n [Hn _]]. repeat split; try assumption. now exists n.
  - unfold add in H. rewrite E in H. discriminate.
Qed.
