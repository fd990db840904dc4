(** Entries of the tables in terms of the polynomials (C16, C17) and storage (C20). *)
Require Import String List ZArith Bool Lia Permutation.
Require Import Verif.Base Verif.Common_Model Verif.Common_Spec Verif.Common_Proofs Verif.Common_Enum_Proofs
  Verif.LUT_Model Verif.LUT_Spec Verif.LUT_Proofs Verif.LUT_CG_Proofs Verif.LUT_Mono_Proofs Verif.LUT_SH_Proofs
  Verif.LUT_WD_Proofs.
Import ListNotations.

Lemma pos_nth : forall l i, NoDup l -> i < length l -> pos (nth i l []) l = i.
Proof.
  induction l as [|a l IH]; intros i Hn Hi; simpl in Hi; [lia|]. inversion Hn as [|? ? Ha Hn']; subst.
  destruct i as [|i]; simpl.
  - now destruct (list_eq_dec Nat.eq_dec a a).
  - destruct (list_eq_dec Nat.eq_dec a (nth i l [])) as [E|E].
    + exfalso. apply Ha. rewrite E. apply nth_In. lia.
    + f_equal. apply IH; [assumption|lia].
Qed.

Lemma row_nth : forall powers,
  (forall l, NoDup (powers l)) -> (forall l p, In p (powers l) -> sum_list p = l) ->
  forall n i, i < rowstart powers n ->
  exists l, l < n /\ In (nth i (monos powers n) []) (powers l) /\ row powers (nth i (monos powers n) []) = i.
Proof.
  intros powers Hnd Hs n i Hi.
  pose proof (length_flat_powers powers n 0) as Hlen. unfold rowstart at 1 in Hlen. simpl in Hlen.
  assert (Hin : In (nth i (monos powers n) []) (monos powers n)) by (apply nth_In; unfold monos; lia).
  pose proof Hin as H. unfold monos in H at 2. apply in_flat_map in H. destruct H as [l [Hl H]]. apply in_seq in Hl.
  exists l. split; [lia|]. split; [exact H|].
  rewrite <- (pos_flat_powers powers Hnd Hs n 0 l _ ltac:(lia) H). unfold rowstart. simpl.
  apply pos_nth; [apply (NoDup_flat_powers powers Hnd Hs)|unfold monos in *; lia].
Qed.

Lemma coefficient_in : forall A (zero : A) terms p v, NoDup (map fst terms) -> In (p, v) terms -> coefficient zero terms p = v.
Proof.
  intros A zero terms p v; induction terms as [|[q u] t IH]; simpl; [tauto|]. intros Hn H.
  inversion Hn as [|? ? Hq Hn']; subst. destruct (list_eq_dec Nat.eq_dec q p) as [->|Hne].
  - destruct H as [H|H]; [congruence|]. exfalso. apply Hq. apply (in_map fst) in H. exact H.
  - destruct H as [H|H]; [congruence|]. now apply IH.
Qed.

Lemma coefficient_out : forall A (zero : A) terms p, (forall v, ~ In (p, v) terms) -> coefficient zero terms p = zero.
Proof.
  intros A zero terms p; induction terms as [|[q u] t IH]; simpl; [reflexivity|]. intros H.
  destruct (list_eq_dec Nat.eq_dec q p) as [->|Hne]; [exfalso; apply (H u); now left|].
  apply IH. intros v Hv. apply (H v). now right.
Qed.

Lemma in_terms_dec : forall A (terms : list (list nat * A)) p, (exists v, In (p, v) terms) \/ (forall v, ~ In (p, v) terms).
Proof.
  intros A terms p; induction terms as [|[q u] t [[v H]|H]]; [right; auto|left; exists v; now right|].
  destruct (list_eq_dec Nat.eq_dec q p) as [->|Hne]; [left; exists u; now left|].
  right. intros v [E|E]; [congruence|exact (H v E)].
Qed.

Lemma wc_list_sum : forall l, wc l = list_sum (map (fun k => (2 * k + 1) * (2 * k + 1)) (seq 0 l)).
Proof.
  induction l as [|l IH]; [reflexivity|]. rewrite seq_S, map_app, list_sum_app, <- IH, wc_S.
  unfold nwig, number_of_wigner_d_entries_of_degree. cbn [map list_sum fold_right]. rewrite Nat.add_0_l. simpl. lia.
Qed.

Lemma in_combine_nth : forall X Y (a : list X) (b : list Y) i x y,
  nth_error a i = Some x -> nth_error b i = Some y -> In (x, y) (combine a b).
Proof.
  intros X Y a; induction a as [|x0 a IH]; intros [|y0 b] [|i] x y; simpl; try discriminate.
  - intros E1 E2. injection E1 as <-. injection E2 as <-. now left.
  - intros E1 E2. right. now apply IH with i.
Qed.

Lemma nth_error_list_prod : forall X Y (a : list X) (b : list Y) i j x y,
  nth_error a i = Some x -> nth_error b j = Some y -> nth_error (list_prod a b) (i * length b + j) = Some (x, y).
Proof.
  intros X Y a b; induction a as [|x0 a IH]; intros [|i] j x y; simpl; try discriminate.
  - intros E Hj. injection E as <-.
    assert (j < length b) by (apply nth_error_Some; congruence).
    rewrite nth_error_app1 by (rewrite map_length; lia). rewrite nth_error_map, Hj. reflexivity.
  - intros E Hj. rewrite nth_error_app2 by (rewrite map_length; lia). rewrite map_length.
    rewrite <- (IH i j x y E Hj). f_equal. lia.
Qed.

Section WDEntry.
Variable A : Type.
Variable poly : Type.
Variable sph_poly : nat * Z -> poly.
Variable rotate_poly : poly -> poly.
Variable dot_terms : poly * poly -> list (list nat * A).

Lemma in_wcols : forall l mrot msph, (Z.abs mrot <= Z.of_nat l)%Z -> (Z.abs msph <= Z.of_nat l)%Z ->
  In (wigner_column l mrot msph, wterms A poly sph_poly rotate_poly dot_terms l mrot msph)
     (wcols A poly sph_poly rotate_poly dot_terms l).
Proof.
  intros l a b Ha Hb. unfold wcols.
  assert (E : nth_error (wpairs l) (Z.to_nat (a + Z.of_nat l) * (2 * l + 1) + Z.to_nat (b + Z.of_nat l)) = Some (a, b)).
  { unfold wpairs. rewrite <- (length_orders l). apply nth_error_list_prod; now apply nth_error_orders. }
  apply in_combine_nth with (i := Z.to_nat (a + Z.of_nat l) * (2 * l + 1) + Z.to_nat (b + Z.of_nat l)).
  - assert (B : Z.to_nat (a + Z.of_nat l) * (2 * l + 1) + Z.to_nat (b + Z.of_nat l) < nwig l).
    { rewrite <- length_wpairs. apply nth_error_Some. congruence. }
    rewrite (nth_error_nth' _ 0) by (now rewrite seq_length). rewrite seq_nth by assumption.
    unfold wigner_column. rewrite <- wc_list_sum. f_equal. lia.
  - rewrite nth_error_map, E. reflexivity.
Qed.
End WDEntry.

(** ** Storage of arbitrary tables *)
Section Storage.
Variable A : Type.
Variable zero : A.
Variable is_zero : A -> bool.
Hypothesis is_zero_iff : forall a, is_zero a = true <-> a = zero.

Lemma cg_storage : forall L t, exists t', cg_load A zero L (cg_compress A is_zero t) = Ok (Z.of_nat (cg_max A t), t') /\
  cg_max A t' = L /\
  forall q, in3 (num_sph L) q = true -> cg_at A t' q = if in3 (num_sph (cg_max A t)) q then cg_at A t q else zero.
Proof.
  intros L t. unfold cg_load, cg_compress. cbn [cgf_max cgf_entries].
  destruct (Z.ltb_spec (Z.of_nat (cg_max A t)) 0); [lia|]. rewrite Nat2Z.id.
  rewrite scatter_ok by (intros k v H0; apply nonzeros_in in H0; apply in_keys3; apply H0). simpl bind.
  assert (G : forall q, in3 (num_sph (cg_max A t)) q = true ->
    puts A key3 eq3 (nonzeros A is_zero key3 (keys3 (num_sph (cg_max A t))) (cg_at A t)) (zeros A zero) q = cg_at A t q).
  { intros q Hq. apply (nonzeros_scatter A zero is_zero is_zero_iff key3 eq3 eq3_iff). now apply in_keys3. }
  destruct (Z.leb_spec (Z.of_nat L) (Z.of_nat (cg_max A t))); eexists; (split; [reflexivity|]); (split; [reflexivity|]);
    intros q Hq; simpl.
  - assert (Hq' : in3 (num_sph (cg_max A t)) q = true).
    { apply in3_iff in Hq. apply in3_iff.
      assert (num_sph L <= num_sph (cg_max A t)) by (unfold num_sph, total_number_of_spherical_harmonics; nia). lia. }
    rewrite Hq'. now apply G.
  - destruct (in3 (num_sph (cg_max A t)) q) eqn:E; [now apply G|reflexivity].
Qed.

Lemma sh_storage : forall L t, exists t', sh_load A zero L (sh_compress A is_zero t) = Ok (Z.of_nat (sh_max A t), t') /\
  sh_max A t' = L /\
  (forall q, in2 (num_car L) (num_sph L) q = true ->
     sh_cm A t' q = if in2 (num_car (sh_max A t)) (num_sph (sh_max A t)) q then sh_cm A t q else zero) /\
  (forall i, i < num_car L -> i < num_car (sh_max A t) -> sh_ls A t' i = sh_ls A t i).
Proof.
  intros L t. unfold sh_load, sh_compress. cbn [shf_max shf_entries shf_ls].
  destruct (Z.ltb_spec (Z.of_nat (sh_max A t)) 0); [lia|]. rewrite Nat2Z.id.
  rewrite scatter_ok by (intros k v H0; apply nonzeros_in in H0; apply in_keys2; apply H0). simpl bind.
  set (n := num_car (sh_max A t)). set (m := num_sph (sh_max A t)).
  assert (G : forall q, in2 n m q = true ->
    puts A key2 eq2 (nonzeros A is_zero key2 (keys2 n m) (sh_cm A t)) (zeros A zero) q = sh_cm A t q).
  { intros q Hq. apply (nonzeros_scatter A zero is_zero is_zero_iff key2 eq2 eq2_iff). now apply in_keys2. }
  assert (P : forall i, i < n -> nth i (map (sh_ls A t) (seq 0 n)) [] = sh_ls A t i).
  { intros i Hi. rewrite (nth_indep _ [] (sh_ls A t 0)) by (now rewrite map_length, seq_length).
    now rewrite (map_nth (sh_ls A t)), seq_nth. }
  destruct (Z.leb_spec (Z.of_nat L) (Z.of_nat (sh_max A t))); eexists; (split; [reflexivity|]); (split; [reflexivity|]);
    split; simpl.
  - intros q Hq.
    assert (Hq' : in2 n m q = true).
    { apply in2_iff in Hq. apply in2_iff.
      assert (num_sph L <= m) by (unfold m, num_sph, total_number_of_spherical_harmonics; nia).
      assert (num_car L <= n) by (unfold n; rewrite !num_car_rowstart; apply rowstart_mono; lia). lia. }
    rewrite Hq'. now apply G.
  - intros i _ Hi. now apply P.
  - intros q Hq. destruct (in2 n m q) eqn:E; [now apply G|reflexivity].
  - intros i _ Hi. fold n. destruct (Nat.ltb_spec i n); [now apply P|lia].
Qed.

(** Index (r, c) lies in the diagonal block of degree l. *)
Definition in_block (l : nat) (q : key2) : Prop :=
  rr l <= fst q < rr l + nrot l /\ wc l <= snd q < wc l + nwig l.

Lemma wd_storage_blocks : forall t L n, n <= wd_max A t + 1 ->
  exists cm ls, rfold (wd_load_block A zero (wd_compress A is_zero t)) (seq 0 n)
       (0, 0, wd_cm A (wd_init_empty A zero L), wd_ls A (wd_init_empty A zero L)) = Ok (rr n, wc n, cm, ls) /\
   (forall l q, l < n -> in_block l q -> cm q = wd_cm A t q) /\
   (forall q, (forall l, l < n -> ~ in_block l q) -> cm q = zero) /\
   (forall i, i < rr n -> ls i = wd_ls A t i).
Proof.
  intros t L n; induction n as [|n IH]; intros Hn.
  - eexists _, _. split; [reflexivity|]. split; [lia|]. split; [reflexivity|]. intros i Hi. unfold rowstart in Hi. simpl in Hi. lia.
  - destruct (IH ltac:(lia)) as [cm [ls [E [H1 [H2 H3]]]]]. clear IH.
    rewrite seq_S, rfold_app, E. cbn [bind rfold wd_load_block Nat.add]. 
    unfold wd_compress at 1. cbn [wdf_blocks]. rewrite wd_compress_blocks. cbn [snd].
    rewrite nth_error_map, (nth_error_nth' _ 0) by (rewrite seq_length; lia). rewrite seq_nth by lia.
    cbn [option_map Nat.add]. unfold wd_block_of at 1. cbn [wdb_entries].
    rewrite scatter_ok by (intros k v H0; apply nonzeros_in in H0; apply in_keys2; apply H0). cbn [bind].
    eexists _, _. split; [rewrite rr_S, wc_S; reflexivity|]. split; [|split].
    + intros l [r c] Hl Hq. cbn [fst snd].
      destruct ((rr n <=? r) && (r <? rr n + nrot n) && (wc n <=? c) && (c <? wc n + nwig n)) eqn:Eb.
      * rewrite !andb_true_iff, !Nat.leb_le, !Nat.ltb_lt in Eb.
        rewrite (nonzeros_scatter A zero is_zero is_zero_iff key2 eq2 eq2_iff).
        -- cbn [fst snd]. f_equal. f_equal; lia.
        -- apply in_keys2, in2_iff. simpl. lia.
      * apply (H1 l); [|assumption]. destruct (Nat.eq_dec l n) as [->|]; [|lia]. exfalso.
        unfold in_block in Hq. simpl in Hq. rewrite !andb_false_iff, !Nat.leb_gt, !Nat.ltb_ge in Eb. lia.
    + intros [r c] Hq. cbn [fst snd].
      destruct ((rr n <=? r) && (r <? rr n + nrot n) && (wc n <=? c) && (c <? wc n + nwig n)) eqn:Eb.
      * rewrite !andb_true_iff, !Nat.leb_le, !Nat.ltb_lt in Eb. exfalso. apply (Hq n); [lia|]. unfold in_block. simpl. lia.
      * apply H2. intros l Hl. apply Hq. lia.
    + intros i Hi. rewrite rr_S in Hi. cbn [wdb_ls wd_block_of].
      destruct (Nat.leb_spec (rr n) i); destruct (Nat.ltb_spec i (rr n + nrot n)); simpl; try lia.
      * rewrite (nth_indep _ [] (wd_ls A t (rr n + 0))) by (rewrite map_length, seq_length; lia).
        rewrite (map_nth (fun i => wd_ls A t (rr n + i))), seq_nth by lia. f_equal. lia.
      * apply H3. lia.
Qed.

Lemma wd_storage : forall L t, exists t', wd_load A zero L (wd_compress A is_zero t) = Ok (Z.of_nat (wd_max A t), t') /\
  wd_max A t' = L /\
  (forall l q, l <= L -> l <= wd_max A t -> in_block l q -> wd_cm A t' q = wd_cm A t q) /\
  (forall q, (forall l, l <= L -> l <= wd_max A t -> ~ in_block l q) -> wd_cm A t' q = zero) /\
  (forall i, i < num_rot L -> i < num_rot (wd_max A t) -> wd_ls A t' i = wd_ls A t i).
Proof.
  intros L t. unfold wd_load. change (wdf_max A (wd_compress A is_zero t)) with (Z.of_nat (wd_max A t)).
  destruct (Z.ltb_spec (Z.of_nat (wd_max A t)) 0); [lia|]. rewrite Nat2Z.id.
  destruct (wd_storage_blocks t L (Nat.min (wd_max A t) L + 1) ltac:(lia)) as [cm [ls [E [H1 [H2 H3]]]]].
  cbv zeta. rewrite E. cbn [bind]. eexists. split; [reflexivity|]. split; [reflexivity|]. cbn [wd_cm wd_ls].
  split; [|split].
  - intros l q Hl Hl' Hq. apply (H1 l); [lia|assumption].
  - intros q Hq. apply H2. intros l Hl. apply Hq; lia.
  - intros i Hi Hi'. apply H3. rewrite !num_rot_rowstart in *.
    destruct (Nat.min_spec (wd_max A t) L) as [[_ ->]|[_ ->]]; assumption.
Qed.

Lemma wd_in_block_unique : forall l l' q, in_block l q -> in_block l' q -> l = l'.
Proof.
  intros l l' q [H _] [H' _]. rewrite <- rr_S in H, H'.
  destruct (Nat.lt_trichotomy l l') as [G|[G|G]]; [|assumption|].
  - pose proof (rowstart_mono rpow (S l) l' ltac:(lia)). lia.
  - pose proof (rowstart_mono rpow (S l') l ltac:(lia)). lia.
Qed.
End Storage.

Section TCStorage.
Variable M : Type.
Lemma firstn_map_nth : forall X (l : list X) d n, n <= length l -> firstn n l = map (fun i => nth i l d) (seq 0 n).
Proof.
  intros X l d n; revert l; induction n as [|n IH]; intros l H; [reflexivity|].
  destruct l as [|a l]; simpl in H; [lia|]. simpl. f_equal. rewrite (IH l) by lia. rewrite <- seq_shift, map_map. reflexivity.
Qed.

Lemma tc_storage : forall L (t : tc_table M), length (tc_s2t M t) = tc_max M t + 1 -> length (tc_t2s M t) = tc_max M t + 1 ->
  tc_load M L (tc_unpack M t) = Ok (Z.of_nat (tc_max M t),
    mkTC M L (firstn (L + 1) (tc_s2t M t)) (firstn (L + 1) (tc_t2s M t))).
Proof.
  intros L t H1 H2. unfold tc_load, tc_unpack. cbn [tcf_max tcf_s2t tcf_t2s].
  destruct (Z.ltb_spec (Z.of_nat (tc_max M t)) 0); [lia|]. rewrite Nat2Z.id.
  rewrite !firstn_all2 by lia.
  destruct (tc_s2t M t) as [|a0 a] eqn:Ea; [simpl in H1; lia|]. rewrite <- Ea in *. clear Ea.
  destruct (tc_t2s M t) as [|b0 b] eqn:Eb; [simpl in H2; lia|]. rewrite <- Eb in *. clear Eb.
  rewrite (rmapM_ok _ _ _ (fun l => (nth l (tc_s2t M t) a0, nth l (tc_t2s M t) b0))).
  2:{ intros l Hl. apply in_seq in Hl. unfold get_key.
      rewrite (nth_error_nth' _ a0) by lia. cbn [bind]. rewrite (nth_error_nth' _ b0) by lia. reflexivity. }
  cbn [bind]. rewrite !map_map. cbn [fst snd].
  assert (F : forall (x : list M) d, length x = tc_max M t + 1 ->
     map (fun i => nth i x d) (seq 0 (Nat.min L (tc_max M t) + 1)) = firstn (L + 1) x).
  { intros x d Hx. rewrite <- firstn_map_nth by lia.
    destruct (Nat.min_spec L (tc_max M t)) as [[_ ->]|[? ->]]; [reflexivity|]. rewrite !firstn_all2 by lia. reflexivity. }
  rewrite !F by assumption. reflexivity.
Qed.
End TCStorage.
