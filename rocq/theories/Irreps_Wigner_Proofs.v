(** Values returned by wigner_d. *)
Require Import String List Reals ZArith Bool Lia Lra Permutation ZifyNat.
Require Import Verif.Base Verif.RSum Verif.Common_Model Verif.Common_Spec Verif.Common_Proofs Verif.Common_Enum_Proofs Verif.Common_Props
  Verif.LUT_Model Verif.LUT_Spec Verif.LUT_Props Verif.Symbolic_Model
  Verif.Rotations_Model Verif.Rotations_Spec Verif.Poly_Proofs Verif.PolyDiff_Proofs Verif.Harmonics_Basis_Proofs
  Verif.PolyCalc_Proofs Verif.Symbolic_Proofs Verif.Irreps_Model Verif.Irreps_Spec Verif.Irreps_Proofs.
Import ListNotations.
Open Scope R_scope.
Open Scope list_scope.
Local Notation key3 := Symbolic_Model.key3.
Local Notation sum_list := Common_Spec.sum_list.

Lemma list_sum_nat : forall f l, list_sum (map f (seq 0 l)) = sum_nat l f.
Proof. intros f. induction l as [|l IH]; [reflexivity|]. rewrite seq_S, map_app, list_sum_app, IH. simpl. lia. Qed.

Lemma wigner_column_start : forall l i j, (i < 2 * l + 1)%nat -> (j < 2 * l + 1)%nat ->
  wigner_column l (order l i) (order l j) = (wigner_offset l + i * (2 * l + 1) + j)%nat.
Proof.
  intros l i j Hi Hj. unfold wigner_column, wigner_offset. rewrite list_sum_nat. unfold order.
  replace (Z.to_nat (Z.of_nat i - Z.of_nat l + Z.of_nat l)) with i by lia. replace (Z.to_nat (Z.of_nat j - Z.of_nat l + Z.of_nat l)) with j by lia. reflexivity.
Qed.

Lemma offset_S : forall l, wigner_offset (S l) = (wigner_offset l + (2 * l + 1) * (2 * l + 1))%nat.
Proof. reflexivity. Qed.
Lemma offset_mono : forall n m, (n <= m)%nat -> (wigner_offset n <= wigner_offset m)%nat.
Proof. intros n m H; induction H; [lia|]. rewrite offset_S. lia. Qed.
Lemma num_wig_offset : forall L, num_wig L = wigner_offset (L + 1).
Proof. exact C13_block_start_total. Qed.
Lemma in_block : forall L l i j, (l <= L)%nat -> (i < 2 * l + 1)%nat -> (j < 2 * l + 1)%nat -> (wigner_offset l + i * (2 * l + 1) + j < wigner_offset (L + 1))%nat.
Proof. intros L l i j Hl Hi Hj. pose proof (offset_mono (S l) (L + 1) ltac:(lia)) as H. rewrite offset_S in H. nia. Qed.

Lemma mflat : forall m, concat (mlist m) = [entry m 0 0; entry m 0 1; entry m 0 2; entry m 1 0; entry m 1 1; entry m 1 2; entry m 2 0; entry m 2 1; entry m 2 2].
Proof. intros [[[[a b] c] [[d e] f]] [[g h] i]]. reflexivity. Qed.

Lemma wd_table_value : forall w L s o, wd_ready w -> call_ok s o -> (0 <= L)%Z ->
  exists t, snd (wigner_d_table w L s o) = Ok t /\
  forall m l i j, (l <= Z.to_nat L)%nat -> (i < 2 * l + 1)%nat -> (j < 2 * l + 1)%nat ->
    rsum (num_rot (Z.to_nat L)) (fun r => monomial (Z.to_nat L) (concat (mlist m)) (wd_ls R t r) * wd_cm R t (r, (wigner_offset l + i * (2 * l + 1) + j)%nat))
    = dmat (entry m) l i j.
Proof.
  intros w L s o Hw Hc HL. pose proof (wd_ready_reply w L s o Hw Hc) as H. cbn [as_cold] in H.
  destruct (snd (wigner_d_table w L s o)) as [t|e]; [|destruct H; lia]. exists t. split; [reflexivity|].
  destruct H as [t0 [_ [E [_ [_ [Hcm Hls]]]]]].
  destruct (C17_cold_table R 0 rzero poly39 sph_poly rotate_xyz_polynomial dot_terms L rzero_test wd_terms_ok HL) as [t1 [E1 [_ [HM HC]]]].
  rewrite E in E1. injection E1 as <-. intros m l i j Hl Hi Hj. set (n := Z.to_nat L) in *.
  destruct (dot_terms_ok l i j Hi Hj) as [A [B C]]. rewrite C.
  set (T := dot_terms (sph_poly (l, order l j), rotate_xyz_polynomial (sph_poly (l, order l i)))) in *.
  destruct (rot_rows n) as [ND Hall]. rewrite mflat.
  rewrite (table_sum (num_rot n) (wd_ls R t) (flat_map rotation_matrix_powers_of_degree (seq 0 (n + 1))) _ T
    (monomial n [entry m 0 0; entry m 0 1; entry m 0 2; entry m 1 0; entry m 1 1; entry m 1 2; entry m 2 0; entry m 2 1; entry m 2 2])).
  - apply rsum_list_ext. intros [p v] Hp. cbn [fst snd]. destruct (B _ _ Hp) as [Hp1 Hp2]. rewrite (monomial9 n (entry m)) by lia. reflexivity.
  - rewrite <- HM. symmetry. apply map_seq_ext. exact Hls.
  - exact ND.
  - exact A.
  - intros p Hp. apply in_map_iff in Hp as [[q v] [<- Hp]]. destruct (B _ _ Hp). apply Hall; cbn [fst]; lia.
  - intros r Hr. rewrite <- Hls, <- Hcm by (assumption || (rewrite num_wig_offset; now apply in_block)).
    rewrite <- wigner_column_start by assumption. apply HC; [assumption|lia|now apply order_bound|now apply order_bound].
Qed.

(** Block structure. *)
Definition matrix_of (L : nat) (cartesian : bool) (m : mat) (d : list (list R)) : Prop :=
  length d = ((L + 1) * (L + 1))%nat /\ (forall r, In r d -> length r = ((L + 1) * (L + 1))%nat) /\
  forall l l' i j, (l <= L)%nat -> (l' <= L)%nat -> (i < 2 * l + 1)%nat -> (j < 2 * l' + 1)%nat ->
    at2 d (l * l + i) (l' * l' + j) = if Nat.eq_dec l l' then dmat (entry m) l (pos cartesian l i) (pos cartesian l j) else 0.

Lemma rows_at : forall n m f i j, (i < n)%nat -> (j < m)%nat -> at2 (rows n m f) i j = f i j.
Proof.
  intros n m f i j Hi Hj. unfold at2, rows. rewrite (nth_indep _ [] ((fun p => map (fun q => f p q) (seq 0 m)) 0%nat)) by (rewrite map_length, seq_length; exact Hi).
  rewrite (map_nth (fun p => map (fun q => f p q) (seq 0 m))), seq_nth by exact Hi. cbn [Nat.add].
  rewrite nth_cols by (now rewrite seq_length). now rewrite seq_nth.
Qed.

Lemma sq_range : forall l i n, (i < 2 * l + 1)%nat -> (n * n <= l * l + i < (n + 1) * (n + 1))%nat -> l = n.
Proof. intros l i n Hi H. nia. Qed.

Lemma assemble_at : forall L ent l l' i j, (l <= L)%nat -> (l' <= L)%nat -> (i < 2 * l + 1)%nat -> (j < 2 * l' + 1)%nat ->
  assemble L ent (l * l + i) (l' * l' + j) = if Nat.eq_dec l l' then nth (wigner_offset l + i * (2 * l + 1) + j) ent 0 else 0.
Proof.
  intros L ent l l' i j Hl Hl' Hi Hj. unfold assemble.
  assert (G : forall n, fold_left (fun dmat l => set_block (l ^ 2) ((l + 1) ^ 2) ((l + 1) * (2 * l + 1) * (2 * l + 3) / 3 - (2 * l + 1) ^ 2) (2 * l + 1) ent dmat)
      (seq 0 n) (fun _ _ => 0) (l * l + i)%nat (l' * l' + j)%nat = if Nat.eq_dec l l' then (if (l <? n)%nat then nth (wigner_offset l + i * (2 * l + 1) + j) ent 0 else 0) else 0).
  { induction n as [|n IH]; [simpl; destruct (Nat.eq_dec l l'); reflexivity|].
    rewrite seq_S, fold_left_app. cbn [fold_left Nat.add]. unfold set_block at 1.
    set (b := ((n + 1) * (2 * n + 1) * (2 * n + 3) / 3)%nat).
    assert (Eb : b = wigner_offset (n + 1)) by exact (C13_block_start_total n). rewrite Nat.add_1_r, offset_S in Eb.
    destruct ((n ^ 2 <=? l * l + i)%nat && (l * l + i <? (n + 1) ^ 2)%nat && (n ^ 2 <=? l' * l' + j)%nat && (l' * l' + j <? (n + 1) ^ 2)%nat)%bool eqn:E.
    - rewrite !andb_true_iff in E. destruct E as [[[E1 E2] E3] E4]. apply Nat.leb_le in E1, E3. apply Nat.ltb_lt in E2, E4. rewrite !Nat.pow_2_r in *.
      assert (l = n) by (apply (sq_range l i n); lia). assert (l' = n) by (apply (sq_range l' j n); lia). subst l l'.
      destruct (Nat.eq_dec n n); [|congruence]. rewrite (proj2 (Nat.ltb_lt _ _)) by lia. f_equal. rewrite Eb.
      replace (n * n + i - n * n)%nat with i by lia. replace (n * n + j - n * n)%nat with j by lia. lia.
    - rewrite IH. destruct (Nat.eq_dec l l') as [<-|]; [|reflexivity]. destruct (Nat.eq_dec l n) as [->|N].
      + exfalso. rewrite !andb_false_iff, !Nat.pow_2_r in E. rewrite !Nat.leb_gt, !Nat.ltb_ge in E. nia.
      + destruct (Nat.ltb_spec l n); destruct (Nat.ltb_spec l (S n)); try reflexivity; lia. }
  rewrite G. destruct (Nat.eq_dec l l'); [|reflexivity]. now rewrite (proj2 (Nat.ltb_lt _ _)) by lia.
Qed.

Lemma wigner_ok : forall empty w s o ms L cartesian, wd_ready w -> call_ok s o -> (0 <= L)%Z ->
  exists ds, snd (wigner_d empty w s o (3, 3)%nat (map mlist ms) L cartesian) = Ok ds /\
    Forall2 (matrix_of (Z.to_nat L) cartesian) ms ds.
Proof.
  intros empty w s o ms L cartesian Hw Hc HL. unfold wigner_d. cbn [fst snd Nat.eqb negb andb].
  destruct (wd_table_value w L s o Hw Hc HL) as [t [Et Hv]]. destruct (wigner_d_table w L s o) as [w' r]. cbn [snd] in *. subst r. cbn [bind].
  eexists. split; [reflexivity|]. set (n := Z.to_nat L) in *. rewrite map_map, <- (map_id ms) at 1. apply Forall2_map_both. intros m _.
  set (cols := if cartesian then cartesian_permutation_wigner_d_entries empty n else seq 0 (num_wig n)).
  set (ent := combine_monomials n (num_rot n) (wd_ls R t) (wd_cm R t) cols (concat (mlist m))).
  replace ((n + 1) ^ 2)%nat with ((n + 1) * (n + 1))%nat by (rewrite Nat.pow_2_r; reflexivity).
  split; [unfold rows; now rewrite map_length, seq_length|]. split.
  { intros r Hr. unfold rows in Hr. apply in_map_iff in Hr as [p [<- _]]. now rewrite map_length, seq_length. }
  intros l l' i j Hl Hl' Hi Hj. rewrite rows_at by nia. rewrite assemble_at by assumption.
  destruct (Nat.eq_dec l l') as [<-|]; [|reflexivity].
  assert (Hlen : length cols = wigner_offset (n + 1)).
  { unfold cols. destruct cartesian; [apply wigner_entries_spec|rewrite seq_length; apply num_wig_offset]. }
  pose proof (in_block n l i j Hl Hi Hj) as Hin.
  assert (E : nth (wigner_offset l + i * (2 * l + 1) + j) cols 0%nat = (wigner_offset l + pos cartesian l i * (2 * l + 1) + pos cartesian l j)%nat).
  { unfold cols. destruct cartesian; [apply wigner_entries_spec; assumption|]. rewrite seq_nth by (rewrite num_wig_offset; exact Hin). reflexivity. }
  unfold ent, combine_monomials. rewrite nth_cols by (rewrite Hlen; exact Hin). rewrite E. apply Hv; [exact Hl| |]; now apply pos_lt.
Qed.
