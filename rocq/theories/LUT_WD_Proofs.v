(** The Wigner-D table (C17). *)
Require Import String List ZArith Bool Lia Permutation.
Require Import Verif.Base Verif.Common_Model Verif.Common_Spec Verif.Common_Proofs Verif.Common_Enum_Proofs
  Verif.LUT_Model Verif.LUT_Spec Verif.LUT_Proofs Verif.LUT_CG_Proofs Verif.LUT_Mono_Proofs Verif.LUT_SH_Proofs.
Import ListNotations.

Notation rpow := rotation_matrix_powers_of_degree.

Lemma rpow_nodup : forall l, NoDup (rpow l).
Proof. intros. apply NoDup_multicombinations. Qed.

Lemma rpow_in : forall l p, In p (rpow l) <-> length p = 9 /\ sum_list p = l.
Proof. intros. unfold rotation_matrix_powers_of_degree. apply in_multicombinations. lia. Qed.

Lemma rpow_sum : forall l p, In p (rpow l) -> sum_list p = l.
Proof. intros l p H. now apply rpow_in in H. Qed.

Notation rr := (rowstart rotation_matrix_powers_of_degree).

Lemma num_rot_rowstart : forall L, num_rot L = rr (L + 1).
Proof.
  intros L. unfold num_rot. rewrite total_rot_is_sum. unfold rowstart. apply sum_nat_ext.
  intros i _. symmetry. apply length_rotation_monomials.
Qed.

Lemma start_row_rot : forall l, start_row num_rot l = rr l.
Proof. intros [|l]; [reflexivity|]. simpl start_row. rewrite num_rot_rowstart. f_equal. lia. Qed.

Lemma rr_S : forall l, rr (S l) = rr l + nrot l.
Proof. intros l. unfold rowstart, nrot. simpl sum_nat. now rewrite length_rotation_monomials. Qed.

Definition wc (l : nat) : nat := sum_nat l nwig.

Lemma wc_S : forall l, wc (S l) = wc l + nwig l.
Proof. reflexivity. Qed.

Lemma num_wig_wc : forall L, num_wig L = wc (L + 1).
Proof. intros L. unfold num_wig. apply total_wigner_is_sum. Qed.

Lemma start_row_wig : forall l, start_row num_wig l = wc l.
Proof. intros [|l]; [reflexivity|]. simpl start_row. rewrite num_wig_wc. f_equal. lia. Qed.

Lemma wc_mono : forall a b, a <= b -> wc a <= wc b.
Proof. intros a b H; induction H; [lia|]. rewrite wc_S. lia. Qed.

Definition orders (l : nat) : list Z := zrange (- Z.of_nat l) (Z.of_nat l + 1).

Lemma in_orders : forall l m, In m (orders l) <-> (Z.abs m <= Z.of_nat l)%Z.
Proof. intros. unfold orders. rewrite in_zrange. lia. Qed.

Lemma length_orders : forall l, length (orders l) = 2 * l + 1.
Proof. intros l. unfold orders, zrange. rewrite map_length, seq_length. lia. Qed.

Lemma nth_error_orders : forall l m, (Z.abs m <= Z.of_nat l)%Z -> nth_error (orders l) (Z.to_nat (m + Z.of_nat l)) = Some m.
Proof.
  intros l m Hm. unfold orders, zrange.
  rewrite nth_error_map. rewrite (nth_error_nth' _ 0) by (rewrite seq_length; lia).
  rewrite seq_nth by lia. simpl. f_equal. lia.
Qed.

(** The list of degrees and orders is indexed by l*l + l + m. *)
Lemma nth_error_dao : forall n s l m, s <= l < s + n -> (Z.abs m <= Z.of_nat l)%Z ->
  nth_error (flat_map (fun l => map (fun m => (l, m)) (orders l)) (seq s n))
            (Z.to_nat (Z.of_nat (l * l + l - s * s) + m)) = Some (l, m).
Proof.
  induction n as [|n IH]; intros s l m Hl Hm; [lia|]. cbn [seq flat_map].
  destruct (Nat.eq_dec l s) as [->|Hne].
  - rewrite nth_error_app1 by (rewrite map_length, length_orders; nia).
    rewrite nth_error_map. replace (Z.to_nat _) with (Z.to_nat (m + Z.of_nat s)) by nia.
    now rewrite nth_error_orders.
  - rewrite nth_error_app2 by (rewrite map_length, length_orders; nia).
    rewrite map_length, length_orders.
    rewrite <- (IH (S s) l m ltac:(lia) Hm). f_equal. nia.
Qed.

Lemma rmapM_ok : forall X Y (f : X -> result Y) g l, (forall x, In x l -> f x = Ok (g x)) -> rmapM f l = Ok (map g l).
Proof.
  intros X Y f g l; induction l as [|a l IH]; intros H; simpl; [reflexivity|].
  rewrite H by now left. simpl. rewrite IH by (intros; apply H; now right). reflexivity.
Qed.

Definition wpairs (l : nat) : list (Z * Z) := list_prod (orders l) (orders l).

Lemma length_wpairs : forall l, length (wpairs l) = nwig l.
Proof.
  intros l. unfold wpairs. rewrite prod_length, !length_orders. unfold nwig, number_of_wigner_d_entries_of_degree.
  simpl. lia.
Qed.

Definition wd_inside := inside rpow wc.

Lemma wd_inside_iff : forall L q, wd_inside L q = in2 (num_rot L) (num_wig L) q.
Proof. intros L q. unfold wd_inside, inside. now rewrite num_rot_rowstart, num_wig_wc. Qed.

Lemma map_fst_combine : forall X Y (a : list X) (b : list Y), length a = length b -> map fst (combine a b) = a.
Proof. intros X Y a; induction a as [|x a IH]; intros [|y b] H; simpl in *; try lia; [reflexivity|]. rewrite IH by lia. reflexivity. Qed.

Lemma rfold_app : forall S X (f : S -> X -> result S) a b s, rfold f (a ++ b) s = bind (rfold f a s) (rfold f b).
Proof.
  intros S X f a; induction a as [|x a IH]; intros b s; simpl; [reflexivity|].
  destruct (f s x); simpl; [apply IH|reflexivity].
Qed.

Lemma flat_map_map : forall X Y Z (f : X -> Y) (g : Y -> list Z) l, flat_map g (map f l) = flat_map (fun x => g (f x)) l.
Proof. intros X Y Z f g l; induction l as [|a l IH]; simpl; [reflexivity|]. now rewrite IH. Qed.

Lemma list_prod_flat : forall X Y (a : list X) (b : list Y), list_prod a b = flat_map (fun x => map (fun y => (x, y)) b) a.
Proof. intros X Y a b; induction a as [|x a IH]; simpl; [reflexivity|]. now rewrite IH. Qed.

Lemma combine_app : forall X Y (a a' : list X) (b b' : list Y), length a = length b ->
  combine (a ++ a') (b ++ b') = combine a b ++ combine a' b'.
Proof. intros X Y a; induction a as [|x a IH]; intros a' [|y b] b' H; simpl in *; try lia; [reflexivity|]. rewrite IH by lia. reflexivity. Qed.

Lemma seq_shift_add : forall n k, map (fun i => i + k) (seq 0 n) = seq k n.
Proof.
  induction n as [|n IH]; intros k; [reflexivity|].
  rewrite seq_S, map_app, IH, seq_S. simpl. f_equal. f_equal. lia.
Qed.

Section WD.
Variable A : Type.
Variable zero : A.
Variable is_zero : A -> bool.
Hypothesis is_zero_iff : forall a, is_zero a = true <-> a = zero.
Variable poly : Type.
Variable sph_poly : nat * Z -> poly.
Variable rotate_poly : poly -> poly.
Variable dot_terms : poly * poly -> list (list nat * A).

(** The polynomial of entry (mrot, msph) of the degree l block. *)
Definition wterms (l : nat) (mrot msph : Z) : list (list nat * A) :=
  dot_terms (sph_poly (l, msph), rotate_poly (sph_poly (l, mrot))).

Hypothesis dot_homogeneous : forall l mrot msph p v,
  (Z.abs mrot <= Z.of_nat l)%Z -> (Z.abs msph <= Z.of_nat l)%Z ->
  In (p, v) (wterms l mrot msph) -> length p = 9 /\ sum_list p = l.
Hypothesis dot_nodup : forall l mrot msph, (Z.abs mrot <= Z.of_nat l)%Z -> (Z.abs msph <= Z.of_nat l)%Z ->
  NoDup (map fst (wterms l mrot msph)).


Definition wcols (l : nat) : list (nat * list (list nat * A)) :=
  combine (seq (wc l) (nwig l)) (map (fun mm => wterms l (fst mm) (snd mm)) (wpairs l)).

Lemma wcols_bounds : forall l c terms, In (c, terms) (wcols l) -> wc l <= c < wc (l + 1).
Proof.
  intros l c terms H. apply in_combine_l in H. apply in_seq in H. replace (l + 1) with (S l) by lia.
  rewrite wc_S. lia.
Qed.

Lemma wcols_terms : forall l c terms, In (c, terms) (wcols l) -> exists mrot msph,
  (Z.abs mrot <= Z.of_nat l)%Z /\ (Z.abs msph <= Z.of_nat l)%Z /\ terms = wterms l mrot msph.
Proof.
  intros l c terms H. apply in_combine_r in H. apply in_map_iff in H. destruct H as [[a b] [<- H]].
  apply in_prod_iff in H. rewrite !in_orders in H. exists a, b. tauto.
Qed.


Lemma wcols_nodup : forall l, NoDup (map fst (wcols l)).
Proof.
  intros l. unfold wcols. rewrite map_fst_combine; [apply seq_NoDup|].
  now rewrite seq_length, map_length, length_wpairs.
Qed.

Lemma wterms_ok : forall l c terms p v, In (c, terms) (wcols l) -> In (p, v) terms -> In p (rpow l).
Proof.
  intros l c terms p v H Hp. destruct (wcols_terms l c terms H) as [a [b [Ha [Hb ->]]]].
  apply rpow_in. now apply dot_homogeneous with a b v.
Qed.

Lemma wterms_nodup : forall l c terms, In (c, terms) (wcols l) -> NoDup (map fst terms).
Proof. intros l c terms H. destruct (wcols_terms l c terms H) as [a [b [Ha [Hb ->]]]]. now apply dot_nodup. Qed.

Local Notation wer := (entries_range A rpow wcols).
Definition wd_cold := cold A zero rpow wcols.

Definition wd_good (L : nat) (t : wd_table A) : Prop :=
  wd_max A t = L /\ (forall q, wd_inside L q = true -> wd_cm A t q = wd_cold L q) /\
  (forall i, i < rr (L + 1) -> wd_ls A t i = nth i (monos rpow (L + 1)) []).

Definition wd_part (d : Z) (L : nat) (t : wd_table A) : Prop :=
  (forall q, wd_inside L q = true ->
     wd_cm A t q = puts A key2 eq2 (wer 0 (Z.to_nat (d + 1))) (zeros A zero) q) /\
  (forall i, i < rr (Z.to_nat (d + 1)) -> wd_ls A t i = nth i (monos rpow (L + 1)) []).

Definition wd_valid (c : wd_file A) (d : Z) : Prop :=
  ((wdf_max A c < 0)%Z /\ d = (-1)%Z) \/
  exists L, d = Z.of_nat L /\ wdf_max A c = d /\
    forall l, l <= L -> exists b, nth_error (wdf_blocks A c) l = Some b /\
      (forall k v, In (k, v) (wdb_entries A b) -> in2 (nrot l) (nwig l) k = true) /\
      (forall r k, r < nrot l -> k < nwig l ->
         puts A key2 eq2 (wdb_entries A b) (zeros A zero) (r, k) = wd_cold L (rr l + r, wc l + k)) /\
      (forall i, i < nrot l -> nth i (wdb_ls A b) [] = nth (rr l + i) (monos rpow (L + 1)) []).


Lemma wd_cold_restrict : forall L L' q, L <= L' -> wd_inside L q = true -> wd_cold L' q = wd_cold L q.
Proof. exact (cold_restrict A zero rpow rpow_nodup rpow_sum wcols wc wc_mono wcols_bounds wcols_nodup wterms_ok wterms_nodup). Qed.

Lemma wd_init_ok : forall L, wd_part (-1) L (wd_init_empty A zero L).
Proof. intros L. split; [reflexivity|]. intros i Hi. simpl in Hi. unfold rowstart in Hi. simpl in Hi. lia. Qed.

(** Entries of degree n lie in the n-th diagonal block. *)
Lemma wd_entries_block : forall n r c v, In ((r, c), v) (entries A rpow wcols n) ->
  rr n <= r < rr n + nrot n /\ wc n <= c < wc n + nwig n.
Proof.
  intros n r c v H. apply entries_in in H. destruct H as [terms [p [Hc [Hp ->]]]].
  pose proof (wcols_bounds n c terms Hc) as B. replace (n + 1) with (S n) in B by lia. rewrite wc_S in B.
  pose proof (row_bounds rpow rpow_nodup rpow_sum n p (wterms_ok n c terms p v Hc Hp)) as B'.
  replace (n + 1) with (S n) in B' by lia. rewrite rr_S in B'. lia.
Qed.


Lemma wd_load_blocks : forall c Lc L n,
  (forall l, l <= Lc -> exists b, nth_error (wdf_blocks A c) l = Some b /\
      (forall k v, In (k, v) (wdb_entries A b) -> in2 (nrot l) (nwig l) k = true) /\
      (forall r k, r < nrot l -> k < nwig l ->
         puts A key2 eq2 (wdb_entries A b) (zeros A zero) (r, k) = wd_cold Lc (rr l + r, wc l + k)) /\
      (forall i, i < nrot l -> nth i (wdb_ls A b) [] = nth (rr l + i) (monos rpow (Lc + 1)) [])) ->
  n <= Lc + 1 ->
  exists cm ls, rfold (wd_load_block A zero c) (seq 0 n) (0, 0, wd_cm A (wd_init_empty A zero L), wd_ls A (wd_init_empty A zero L))
     = Ok (rr n, wc n, cm, ls) /\
     (forall q, cm q = puts A key2 eq2 (wer 0 n) (zeros A zero) q) /\
     (forall i, i < rr n -> ls i = nth i (monos rpow (Lc + 1)) []).
Proof.
  intros c Lc L n Hb; induction n as [|n IH]; intros Hn.
  - eexists _, _. split; [reflexivity|]. split; [reflexivity|]. intros i Hi. unfold rowstart in Hi. simpl in Hi. lia.
  - destruct (IH ltac:(lia)) as [cm [ls [E [Hcm Hls]]]].
    rewrite seq_S, rfold_app, E. simpl. clear E IH.
    destruct (Hb n ltac:(lia)) as [b [Eb [Hin [Hval Hpow]]]]. rewrite Eb. rewrite scatter_ok by assumption.
    simpl bind. eexists _, _. split; [rewrite rr_S, wc_S; reflexivity|]. split.
    + intros [r k]. cbn [fst snd]. replace (S n) with (n + 1) by lia.
      assert (Estep : puts A key2 eq2 (wer 0 (n + 1)) (zeros A zero) (r, k)
        = puts A key2 eq2 (entries A rpow wcols n) (puts A key2 eq2 (wer 0 n) (zeros A zero)) (r, k)).
      { rewrite entries_range_app, puts_app. unfold entries_range at 1. simpl. now rewrite app_nil_r. }
      destruct ((rr n <=? r) && (r <? rr n + nrot n) && (wc n <=? k) && (k <? wc n + nwig n)) eqn:Eq.
      * rewrite !andb_true_iff, !Nat.leb_le, !Nat.ltb_lt in Eq.
        rewrite Hval by lia. replace (rr n + (r - rr n)) with r by lia. replace (wc n + (k - wc n)) with k by lia.
        change (puts A key2 eq2 (wer 0 (n + 1)) (zeros A zero) (r, k)) with (wd_cold n (r, k)).
        apply wd_cold_restrict; [lia|]. unfold wd_inside, inside. apply in2_iff. simpl.
        replace (n + 1) with (S n) by lia. rewrite rr_S, wc_S. lia.
      * rewrite Estep, (puts_miss A zero key2 eq2 eq2_iff); [apply Hcm|].
        intros v Hv. apply wd_entries_block in Hv.
        rewrite !andb_false_iff, !Nat.leb_gt, !Nat.ltb_ge in Eq. lia.
    + intros i Hi. rewrite rr_S in Hi.
      destruct (Nat.leb_spec (rr n) i); destruct (Nat.ltb_spec i (rr n + nrot n)); simpl; try lia.
      * rewrite Hpow by lia. f_equal. lia.
      * apply Hls. lia.
Qed.

Lemma wd_load_ok : forall L c d, wd_valid c d ->
  exists t, wd_load A zero L c = Ok (d, t) /\ ((Z.of_nat L <= d)%Z -> wd_good L t)
    /\ ((d < Z.of_nat L)%Z -> wd_part d L t).
Proof.
  intros L c d [[Hneg ->]|[Lc [-> [Hmax Hb]]]].
  - unfold wd_load. destruct (Z.ltb_spec (wdf_max A c) 0); [|lia].
    exists (wd_init_empty A zero L). split; [reflexivity|]. split; [lia|]. intros _. apply wd_init_ok.
  - unfold wd_load. rewrite Hmax. destruct (Z.ltb_spec (Z.of_nat Lc) 0); [lia|]. rewrite Nat2Z.id.
    destruct (wd_load_blocks c Lc L (Nat.min Lc L + 1) Hb ltac:(lia)) as [cm [ls [E [Hcm Hls]]]].
    rewrite E. simpl bind. eexists. split; [reflexivity|]. split.
    + intros Hle. replace (Nat.min Lc L) with L in * by lia. split; [reflexivity|]. split; simpl.
      * intros q _. rewrite Hcm. reflexivity.
      * intros i Hi. rewrite Hls by assumption. symmetry. apply monos_prefix; [lia|assumption].
    + intros Hlt. replace (Nat.min Lc L) with Lc in * by lia.
      replace (Z.to_nat (Z.of_nat Lc + 1)) with (Lc + 1) by lia. split.
      * intros q _. replace (Z.to_nat (Z.of_nat Lc + 1)) with (Lc + 1) by lia. apply Hcm.
      * replace (Z.to_nat (Z.of_nat Lc + 1)) with (Lc + 1) by lia. intros i Hi. simpl.
        rewrite Hls by assumption. apply monos_prefix; [lia|assumption].
Qed.

Definition wd_block_of (t : wd_table A) (l : nat) : wd_block A :=
  mkWDBlock A (nonzeros A is_zero key2 (keys2 (nrot l) (nwig l)) (fun q : key2 => wd_cm A t (rr l + fst q, wc l + snd q)))
              (map (fun i => wd_ls A t (rr l + i)) (seq 0 (nrot l))).

Lemma wd_compress_blocks : forall t n,
  fold_left (wd_compress_block A is_zero t) (seq 0 n) (0, 0, []) = (rr n, wc n, map (wd_block_of t) (seq 0 n)).
Proof.
  intros t n; induction n as [|n IH]; [reflexivity|].
  rewrite seq_S, fold_left_app, IH. simpl. rewrite map_app. simpl. now rewrite rr_S, wc_S.
Qed.

Lemma wd_compress_ok : forall L t, wd_good L t -> wd_valid (wd_compress A is_zero t) (Z.of_nat L).
Proof.
  intros L t [HL [Hcm Hls]]. right. exists L. split; [reflexivity|]. unfold wd_compress. simpl. rewrite HL.
  split; [reflexivity|]. rewrite wd_compress_blocks. simpl. intros l Hl. exists (wd_block_of t l).
  assert (Rm : rr (S l) <= rr (L + 1)) by (apply rowstart_mono; lia). rewrite rr_S in Rm.
  assert (Cm : wc (S l) <= wc (L + 1)) by (apply wc_mono; lia). rewrite wc_S in Cm.
  split; [|split; [|split]].
  - rewrite nth_error_map, (nth_error_nth' _ 0) by (rewrite seq_length; lia). rewrite seq_nth by lia. reflexivity.
  - intros k v H. simpl in H. apply nonzeros_in in H. apply in_keys2. apply H.
  - intros r k Hr Hk. simpl. rewrite (nonzeros_scatter A zero is_zero is_zero_iff key2 eq2 eq2_iff).
    + simpl. apply Hcm. unfold wd_inside, inside. apply in2_iff. simpl. lia.
    + apply in_keys2, in2_iff. simpl. lia.
  - intros i Hi. simpl. rewrite (nth_indep _ [] (wd_ls A t (rr l + 0))) by (now rewrite map_length, seq_length).
    rewrite (map_nth (fun i => wd_ls A t (rr l + i))), seq_nth by assumption. apply Hls. lia.
Qed.



Lemma construct_ok : forall lstart L, 
  construct_polynomial_pairs poly lstart L (map sph_poly (degrees_and_orders lstart L))
    (map rotate_poly (map sph_poly (degrees_and_orders lstart L)))
  = Ok (flat_map (fun l => map (fun mm => (sph_poly (l, snd mm), rotate_poly (sph_poly (l, fst mm)))) (wpairs l))
         (seq lstart (L + 1 - lstart))).
Proof.
  intros lstart L. unfold construct_polynomial_pairs.
  set (g := fun k : nat * Z * Z => let '(l, a, b) := k in (sph_poly (l, b), rotate_poly (sph_poly (l, a)))).
  rewrite (rmapM_ok _ _ _ g).
  - f_equal. rewrite map_flat_map. apply flat_map_ext. intros l. unfold wpairs. rewrite list_prod_flat.
    rewrite !map_flat_map. apply flat_map_ext. intros a. rewrite !map_map. reflexivity.
  - intros [[l a] b] H. apply in_flat_map in H. destruct H as [l' [Hl H]]. apply in_seq in Hl.
    apply in_flat_map in H. destruct H as [a' [Ha H]]. apply in_map_iff in H. destruct H as [b' [E Hb]].
    injection E as -> -> ->. fold (orders l) in Ha, Hb. apply in_orders in Ha. apply in_orders in Hb.
    unfold get.
    rewrite (nth_error_map _ (Z.to_nat (Z.of_nat (l * l + l - lstart * lstart) + b)) (degrees_and_orders lstart L)).
    unfold degrees_and_orders at 1.
    pose proof (nth_error_dao (L + 1 - lstart) lstart l b ltac:(lia) Hb) as E. unfold orders in E. rewrite E. clear E.
    simpl bind.
    rewrite !nth_error_map. unfold degrees_and_orders.
    pose proof (nth_error_dao (L + 1 - lstart) lstart l a ltac:(lia) Ha) as E. unfold orders in E. rewrite E.
    reflexivity.
Qed.


Definition allw (l : nat) : list (list (list nat * A)) := map (fun mm => wterms l (fst mm) (snd mm)) (wpairs l).

Lemma wcols_all : forall n s,
  combine (seq (wc s) (length (flat_map allw (seq s n)))) (flat_map allw (seq s n)) = flat_map wcols (seq s n).
Proof.
  induction n as [|n IH]; intros s; simpl; [reflexivity|].
  rewrite app_length, seq_app.
  assert (E : length (allw s) = nwig s) by (unfold allw; now rewrite map_length, length_wpairs).
  rewrite combine_app by (now rewrite seq_length). rewrite E.
  change (wc s + nwig s) with (wc (S s)). rewrite IH. reflexivity.
Qed.


Lemma wd_extend_ok : forall s d L t, valid_schedule s -> (-1 <= d < Z.of_nat L)%Z -> wd_part d L t ->
  exists t', wd_extend A poly sph_poly rotate_poly dot_terms s L (Z.to_nat (d + 1)) t = Ok t' /\ wd_good L t'.
Proof.
  intros s d L t Hs Hd [Hcm Hls]. unfold wd_extend. set (lstart := Z.to_nat (d + 1)) in *.
  rewrite pool_map_ok by assumption. simpl bind. rewrite pool_map_ok by assumption. simpl bind.
  rewrite construct_ok. simpl bind. rewrite pool_map_ok by assumption. simpl bind.
  rewrite start_row_rot, start_row_wig.
  pose proof (number_monomials_spec rpow rpow_nodup rpow_sum lstart L (wd_ls A t) ltac:(lia)) as Hn.
  destruct (number_monomials rpow lstart L (rr lstart) (wd_ls A t)) as [[i0 dict] ls'].
  destruct Hn as [Hdict Hls'].
  rewrite map_flat_map.
  rewrite (flat_map_ext (fun x => map dot_terms (map _ (wpairs x))) allw)
    by (intros l; unfold allw; rewrite map_map; reflexivity).
  rewrite seq_shift_add, wcols_all.
  rewrite (all_entries_ok A rpow).
  2:{ intros c terms p v Hc Hp. apply in_flat_map in Hc. destruct Hc as [l [Hl Hc]]. apply in_seq in Hl.
      apply (Hdict l); [lia|]. now apply wterms_ok with c terms v. }
  simpl bind. rewrite flat_flat.
  change (flat_map _ (seq lstart (L + 1 - lstart))) with (wer lstart (L + 1 - lstart)).
  rewrite scatter_ok.
  2:{ intros [r c] v H. apply entries_range_in in H. destruct H as [l [Hl H]].
      rewrite <- wd_inside_iff.
      apply (entries_inside A rpow rpow_nodup rpow_sum wcols wc wc_mono wcols_bounds wcols_nodup wterms_ok wterms_nodup l L r c v); [lia|assumption]. }
  simpl bind. eexists. split; [reflexivity|]. split; [reflexivity|]. split; simpl.
  - intros q Hq. apply (extend_cold A zero rpow rpow_nodup rpow_sum wcols wc wc_mono wcols_bounds wcols_nodup wterms_ok wterms_nodup); [lia|]. now apply Hcm.
  - intros i Hi. rewrite Hls' by assumption. destruct (Nat.leb_spec (rr lstart) i); [reflexivity|]. now apply Hls.
Qed.

Lemma wd_valid_deg : forall c d, wd_valid c d -> (-1 <= d)%Z.
Proof. intros c d [[_ ->]|[L [-> _]]]; lia. Qed.

Lemma wd_valid_fun : forall c d d', wd_valid c d -> wd_valid c d' -> d = d'.
Proof. intros c d d' [[H ->]|[L [-> [H _]]]] [[H' ->]|[L' [-> [H' _]]]]; try lia. Qed.

Definition wd_run_ok := run_ok (wd_file A) (wd_table A) (wd_load A zero) (wd_init_empty A zero) schedule
  (wd_extend A poly sph_poly rotate_poly dot_terms) (wd_compress A is_zero) wd_valid wd_good wd_part valid_schedule
  wd_valid_deg wd_valid_fun wd_load_ok wd_init_ok wd_extend_ok wd_compress_ok.
End WD.
