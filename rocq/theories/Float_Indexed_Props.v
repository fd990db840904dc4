(** Properties C85 and C86: [indexed_sum] and [indexed_softmax] in floating point arithmetic. *)
Require Import List Reals Lra Lia Permutation ZArith.
From Flocq Require Import Core.
Require Import Verif.Base Verif.Indexed_Spec Verif.Indexed_Model Verif.Indexed_Conv_Proofs Verif.Indexed_Red_Proofs Verif.Float_Model Verif.Float_Spec Verif.Float_Proofs Verif.Float_Norm_Proofs Verif.Float_Formats Verif.Float_Indexed_Model Verif.Float_Indexed_Spec Verif.Float_Sum_Proofs Verif.Float_Softmax_Proofs.
Import ListNotations.
Open Scope R_scope.

(** * C85: sums over neighbours *)

(** In any order of summation, and with any number of added zeros. *)
Theorem C85_sum u tiny huge rnd (t : nat -> order) n dst vals s : rounding u tiny rnd ->
  length dst = length vals -> (s < n)%nat -> sums_segment dst (Z.of_nat s) (t s) ->
  let m := INR (summands (t s)) in let terms := values_at (Z.of_nat s) (combine dst vals) in
  m * u <= 1 / 64 -> 2 * list_sum (map Rabs terms) + 4 * (m * tiny) < huge ->
  exists v, nth_error (float_indexed_sum rnd huge t n vals) s = Some (Some v) /\
    Rabs (v - list_sum terms) <= 2 * (m * u * list_sum (map Rabs terms) + m * tiny).
Proof.
  intros H L S SU m terms MU MH.
  assert (T : forall f : R -> R, total (fun i => f (nth i vals 0)) (entries (t s)) = list_sum (map f terms)).
  { intro f. rewrite (total_perm _ _ _ SU). now apply segment_total. }
  destruct (reduce_signed_simple u tiny huge rnd (fun i => nth i (map Some vals) None) (fun i => nth i vals 0) (t s) H) as (v & E & B).
  - intros i I. apply (Permutation_in _ SU) in I. apply filter_In in I. destruct I as [I _]. apply in_seq in I.
    rewrite (nth_indep _ None (Some 0)) by (rewrite map_length; lia). apply map_nth.
  - exact MU.
  - rewrite T. exact MH.
  - rewrite !T in B. exists v. split.
    + unfold float_indexed_sum, float_segment_sums. rewrite nth_error_map. rewrite (nth_error_nth' _ 0%nat) by (rewrite seq_length; lia). rewrite seq_nth by lia. cbn. now rewrite E.
    + rewrite (T (fun x => x)), map_id in B. exact B.
Qed.
Print Assumptions C85_sum.

(** Listing the same edges in another order, or adding in another order, changes the sums by rounding
    errors only. *)
Theorem C85_order u tiny huge rnd (t t' : nat -> order) n dst vals dst' vals' s : rounding u tiny rnd ->
  length dst = length vals -> length dst' = length vals' -> Permutation (combine dst vals) (combine dst' vals') ->
  (s < n)%nat -> sums_segment dst (Z.of_nat s) (t s) -> sums_segment dst' (Z.of_nat s) (t' s) -> summands (t s) = summands (t' s) ->
  let m := INR (summands (t s)) in let size := list_sum (map Rabs (values_at (Z.of_nat s) (combine dst vals))) in
  m * u <= 1 / 64 -> 2 * size + 4 * (m * tiny) < huge ->
  exists v v', nth_error (float_indexed_sum rnd huge t n vals) s = Some (Some v) /\ nth_error (float_indexed_sum rnd huge t' n vals') s = Some (Some v') /\
    Rabs (v - v') <= 4 * (m * u * size + m * tiny).
Proof.
  intros H L L' P S SU SU' SM m size MU MH.
  assert (LP : forall l l', Permutation l l' -> list_sum l = list_sum l').
  { intros l l' Q. induction Q; cbn; try lra. }
  pose proof (values_at_perm (Z.of_nat s) _ _ P) as VP.
  destruct (C85_sum u tiny huge rnd t n dst vals s H L S SU MU MH) as (v & E & B).
  destruct (C85_sum u tiny huge rnd t' n dst' vals' s H L' S SU') as (v' & E' & B').
  - rewrite <- SM. exact MU.
  - rewrite <- SM, <- (LP _ _ (Permutation_map Rabs VP)). exact MH.
  - exists v, v'. split; [exact E|]. split; [exact E'|]. rewrite <- SM, <- (LP _ _ (Permutation_map Rabs VP)), <- (LP _ _ VP) in B'. fold m size in B, B'.
    set (x := list_sum (values_at (Z.of_nat s) (combine dst vals))) in *. replace (v - v') with ((v - x) + - (v' - x)) by ring. eapply Rle_trans; [apply Rabs_triang|]. rewrite Rabs_Ropp. lra.
Qed.
Print Assumptions C85_order.

(** They are not equal: in float32 the order of three terms matters. *)
Lemma rounded_tie : rounded (-149) 24 (1 + bpow radix2 (-24)) = 1.
Proof.
  unfold rounded, round, scaled_mantissa, cexp. rewrite (mag_unique radix2 _ 1).
  - change (FLT_exp (-149) 24 1) with (-23)%Z. assert (E : (1 + bpow radix2 (-24)) * bpow radix2 (- -23) = IZR 8388608 + / 2).
    { change (- -23)%Z with 23%Z. rewrite Rmult_plus_distr_r, <- bpow_plus. cbn. lra. }
    rewrite E. assert (Z : ZnearestE (IZR 8388608 + / 2) = 8388608%Z).
    { unfold Znearest. assert (F : Zfloor (IZR 8388608 + / 2) = 8388608%Z) by (apply Zfloor_imp; rewrite plus_IZR; lra). rewrite F.
      rewrite Rcompare_Eq by lra. reflexivity. }
    rewrite Z. unfold F2R. cbn. lra.
  - rewrite Rabs_right by (pose proof (bpow_gt_0 radix2 (-24)); lra). cbn. lra.
Qed.
Theorem C85_order_matters : let sum t := float_indexed_sum (rounded (-149) 24) (bpow radix2 128) (fun _ => t) 1 [1; bpow radix2 (-24); bpow radix2 (-24)] in
  sum (Plus (Plus (Entry 0) (Entry 1)) (Entry 2)) = [Some 1] /\
  sum (Plus (Entry 0) (Plus (Entry 1) (Entry 2))) = [Some (1 + bpow radix2 (-23))].
Proof.
  cbv zeta. assert (HH : 2 < bpow radix2 128) by (change 2 with (bpow radix2 1); apply bpow_lt; lia). pose proof (bpow_gt_0 radix2 (-24)) as G. pose proof (bpow_gt_0 radix2 (-23)) as G'.
  assert (F1 : fl (rounded (-149) 24) (bpow radix2 128) (1 + bpow radix2 (-24)) = Some 1).
  { rewrite fl_some; rewrite rounded_tie; [reflexivity|rewrite Rabs_R1; lra]. }
  assert (F2 : fl (rounded (-149) 24) (bpow radix2 128) (bpow radix2 (-24) + bpow radix2 (-24)) = Some (bpow radix2 (-23))).
  { replace (bpow radix2 (-24) + bpow radix2 (-24)) with (bpow radix2 (-23)) by (cbn; lra). rewrite fl_some; rewrite rounded_power by lia; [reflexivity|].
    rewrite Rabs_right by lra. apply bpow_lt. lia. }
  assert (F3 : fl (rounded (-149) 24) (bpow radix2 128) (1 + bpow radix2 (-23)) = Some (1 + bpow radix2 (-23))).
  { assert (E : rounded (-149) 24 (1 + bpow radix2 (-23)) = 1 + bpow radix2 (-23)).
    { unfold rounded. apply round_generic; [typeclasses eauto|]. apply generic_format_FLT. exists (Float radix2 8388609 (-23)); [unfold F2R; cbn; lra|cbn; lia|cbn; lia]. }
    rewrite fl_some; rewrite E; [reflexivity|]. rewrite Rabs_right by lra. assert (bpow radix2 (-23) <= 1) by (change 1 with (bpow radix2 0); apply bpow_le; lia). lra. }
  unfold float_indexed_sum, float_segment_sums. cbn [map seq reduce nth fbind]. unfold fadd. rewrite F1, F2. cbn [fbind]. rewrite F1, F3. split; reflexivity.
Qed.
Print Assumptions C85_order_matters.

(** * C86: softmax over neighbours *)

(** If the largest logit belongs to an edge that is not (almost) masked, the weights are finite, they sum to one up to rounding
    errors, and they are close to the weights of exact arithmetic. *)
Theorem C86_weights u tiny huge rnd fexp (t : nat -> order) n dst vals mult s top lo hi :
  let w := match mult with None => repeat 1 (length vals) | Some mk => mk end in
  rounding u tiny rnd -> float_exp u tiny fexp ->
  length dst = length vals -> length w = length vals -> (forall x, In x w -> 0 <= x <= 1) -> (forall v, In v vals -> 4 * Rabs v <= huge) ->
  (s < n)%nat -> sums_segment dst (Z.of_nat s) (t s) ->
  let m := INR (summands (t s)) in m * u <= 1 / 64 -> 4 * m <= huge ->
  (top < length dst)%nat -> nth top dst 0%Z = Z.of_nat s -> (forall e, (e < length dst)%nat -> nth e dst 0%Z = Z.of_nat s -> nth e vals 0 <= nth top vals 0) ->
  0 < nth top w 0 -> 128 * (m * tiny) <= u * nth top w 0 ->
  exists weight : nat -> R,
    (forall e, (e < length dst)%nat -> nth e dst 0%Z = Z.of_nat s ->
       nth_error (float_softmax rnd huge fexp t n dst vals mult) e = Some (Some (weight e)) /\ 0 <= weight e /\
       Rabs (weight e - nth e (softmax_sparse lo hi n dst vals mult) 0) <= 17 * (m + 1) * u / nth top w 0) /\
    Rabs (list_sum (values_at (Z.of_nat s) (combine dst (map weight (seq 0 (length dst))))) - 1) <= (2 * m + 2) * u.
Proof.
  intros w H X L LW WR VB S SU m MU MH TL TS TOP W0 MT.
  pose proof (unit_bounds _ _ _ H) as [U0 U1]. pose proof (tiny_bounds _ _ _ H) as [T0 T1].
  assert (M1 : 1 <= m) by (pose proof (le_INR _ _ (summands_pos (t s))) as Z; exact Z).
  set (M := nth top vals 0). set (w0 := nth top w 0) in *.
  assert (W1 : w0 <= 1) by (apply WR, nth_In; lia).
  (* the maximum *)
  set (maximum := gather_sparse 0 (reduce_sparse (- huge) huge RMax n dst vals) dst).
  assert (LM : length maximum = length dst) by (unfold maximum, gather_sparse; now rewrite map_length).
  assert (HVB : forall v, In v vals -> - huge <= v) by (intros v V; specialize (VB v V); pose proof (Rle_abs (- v)) as Q; rewrite Rabs_Ropp in Q; lra).
  assert (HM : forall e, (e < length dst)%nat -> nth e dst 0%Z = Z.of_nat s -> nth e maximum 0 = M).
  { intros e E ES. unfold maximum. rewrite gather_reduce_nth by (rewrite ?ES; lia). rewrite ES. cbn [op_of init_of].
    assert (IN : forall v, In v (values_at (Z.of_nat s) (combine dst vals)) <-> exists j, (j < length dst)%nat /\ nth j dst 0%Z = Z.of_nat s /\ nth j vals 0 = v).
    { intro v. unfold values_at. rewrite in_map_iff. split.
      - intros ([d v'] & EV & F). cbn in EV. subst v'. apply filter_In in F. destruct F as [F1 F2]. cbn in F2. apply Z.eqb_eq in F2.
        destruct (In_nth _ _ (0%Z, 0) F1) as (j & J1 & J2). rewrite combine_length, <- L, Nat.min_id in J1. rewrite combine_nth in J2 by exact L. injection J2 as J2 J3.
        exists j. split; [exact J1|]. split; [now rewrite J2|exact J3].
      - intros (j & J1 & J2 & J3). exists (nth j dst 0%Z, nth j vals 0). split; [exact J3|]. apply filter_In. split; [|cbn; now apply Z.eqb_eq].
        rewrite <- combine_nth by exact L. apply nth_In. rewrite combine_length, <- L, Nat.min_id. exact J1. }
    destruct (list_extreme_max (- huge) (values_at (Z.of_nat s) (combine dst vals))) as [X1 X2].
    - intros v V. apply IN in V. destruct V as (j & J1 & _ & <-). apply HVB, nth_In. lia.
    - intro N. assert (V : In M (values_at (Z.of_nat s) (combine dst vals))) by (apply IN; now exists top). rewrite N in V. destruct V.
    - apply Rle_antisym; [|apply X2, IN; now exists top]. apply IN in X1. destruct X1 as (j & J1 & J2 & <-). now apply TOP. }
  (* numerators *)
  set (d := fun e => nth e vals 0 - M). set (E := fun e => fexp (rnd (d e))).
  set (p := fun e => if (nth e dst 0 =? Z.of_nat s)%Z then if (e <? length dst)%nat then match mult with None => E e | Some _ => rnd (E e * nth e w 0) end else 0 else 0).
  set (a := fun e => exp (d e) * nth e w 0).
  set (num := float_numerators rnd huge fexp n dst vals mult).
  assert (D0 : forall e, (e < length dst)%nat -> nth e dst 0%Z = Z.of_nat s -> d e <= 0) by (intros e E1 E2; unfold d, M; specialize (TOP e E1 E2); lra).
  assert (RD : forall e, (e < length dst)%nat -> nth e dst 0%Z = Z.of_nat s -> rnd (d e) <= 0).
  { intros e E1 E2. pose proof (rnd_mono _ _ _ H _ _ (D0 e E1 E2)) as Q. now rewrite (rnd_zero _ _ _ H) in Q. }
  assert (WE : forall e, (e < length dst)%nat -> 0 <= nth e w 0 <= 1) by (intros e E1; apply WR, nth_In; lia).
  assert (P01 : forall e, 0 <= p e <= 1).
  { intro e. unfold p. destruct (Z.eqb_spec (nth e dst 0%Z) (Z.of_nat s)) as [E2|]; [|lra]. destruct (Nat.ltb_spec e (length dst)) as [E1|]; [|lra].
    pose proof (fexp_range _ _ _ X _ (RD e E1 E2)) as ER. fold (E e) in ER. destruct mult as [mk|]; [|exact ER]. specialize (WE e E1).
    assert (Q0 : 0 <= E e * nth e w 0) by (apply Rmult_le_pos; lra). assert (Q1 : E e * nth e w 0 <= 1 * 1) by (apply Rmult_le_compat; lra).
    pose proof (rnd_nonneg _ _ _ H _ Q0). assert (Q1' : E e * nth e w 0 <= 1) by lra. pose proof (rnd_mono _ _ _ H _ _ Q1') as Q. rewrite (rnd_one _ _ _ H) in Q. lra. }
  assert (NUM : forall e, (e < length dst)%nat -> nth e dst 0%Z = Z.of_nat s -> nth e num None = Some (p e)).
  { intros e E1 E2. unfold num, float_numerators, p. rewrite E2, Z.eqb_refl. destruct (Nat.ltb_spec e (length dst)) as [_|]; [|lia]. fold maximum.
    assert (N0 : nth e (map (fun q => fbind (fl rnd huge (fst q - snd q)) (fun z => Some (fexp z))) (combine vals maximum)) None = Some (E e)).
    { rewrite (nth_map_d _ _ _ _ e (0, 0)) by (rewrite combine_length; lia). rewrite combine_nth by lia. cbn [fst snd]. rewrite (HM e E1 E2). fold (d e). rewrite fl_some; [reflexivity|].
      assert (IE : In (nth e vals 0) vals) by (apply nth_In; lia). assert (IM : In M vals) by (apply nth_In; lia).
      pose proof (VB _ IE). pose proof (VB _ IM). pose proof (rnd_any u tiny rnd H (d e)) as Q.
      assert (DB : Rabs (d e) <= huge / 2). { unfold d. pose proof (Rabs_triang (nth e vals 0) (- M)) as Q'. rewrite Rabs_Ropp in Q'. unfold Rminus. lra. }
      assert (QD : u * Rabs (d e) <= 1 / 64 * (huge / 2)) by (apply Rmult_le_compat; try lra; apply Rabs_pos).
      replace (rnd (d e)) with (d e + (rnd (d e) - d e)) by ring. eapply Rle_lt_trans; [apply Rabs_triang|]. lra. }
    destruct mult as [mk|]; [|exact N0].
    rewrite (nth_map_d _ _ _ _ e (None, 0)) by (rewrite combine_length, map_length, combine_length; unfold w in LW; lia).
    rewrite combine_nth by (rewrite map_length, combine_length; unfold w in LW; lia). cbn [fst snd]. rewrite N0. cbn [fbind]. unfold fmul.
    specialize (P01 e). unfold p in P01. rewrite E2, Z.eqb_refl in P01. destruct (Nat.ltb_spec e (length dst)) as [_|]; [|lia]. unfold w. unfold w in P01. apply fl_some. rewrite Rabs_right by lra. lra. }
  assert (ENT : forall e, In e (entries (t s)) <-> (e < length dst)%nat /\ nth e dst 0%Z = Z.of_nat s).
  { intro e. split.
    - intro I. apply (Permutation_in _ SU) in I. apply filter_In in I. destruct I as [I1 I2]. apply in_seq in I1. apply Z.eqb_eq in I2. split; [lia|exact I2].
    - intros [I1 I2]. apply (Permutation_in _ (Permutation_sym SU)). apply filter_In. split; [apply in_seq; lia|now apply Z.eqb_eq]. }
  assert (PT : w0 - (u * w0 + tiny) <= p top).
  { unfold p. rewrite TS, Z.eqb_refl. destruct (Nat.ltb_spec top (length dst)) as [_|]; [|lia]. unfold E, d. replace (nth top vals 0 - M) with 0 by (unfold M; ring).
    rewrite (rnd_zero _ _ _ H), (fexp_zero _ _ _ X). assert (0 <= u * w0) by (apply Rmult_le_pos; lra). destruct mult as [mk|]; [|lra]. rewrite Rmult_1_l. apply (rnd_pos u tiny rnd H). unfold w0 in *. lra. }
  destruct (denominator_error u tiny huge rnd H (fun i => nth i num None) p (t s) top w0) as (D & ED & PW & DE & DP); try assumption.
  { intros i I. apply ENT in I. destruct I. now apply NUM. }
  { now apply ENT. }
  set (P := total p (entries (t s))) in *. fold m in DE.
  (* one weight *)
  assert (WT : forall e, (e < length dst)%nat -> nth e dst 0%Z = Z.of_nat s ->
    exists z, fdiv rnd huge (p e) D = Some z /\ 0 <= z /\ 0 <= p e / D <= 50 / 49 /\ Rabs (z - p e / D) <= u * (p e / D) + tiny).
  { intros e E1 E2. apply (weight_error u tiny huge rnd H (p e) D P); try lra. split; [apply P01|]. unfold P. apply total_member; [intro; apply P01|now apply ENT]. }
  set (weight := fun e => match fdiv rnd huge (p e) D with Some z => z | None => 0 end).
  assert (WT' : forall e, (e < length dst)%nat -> nth e dst 0%Z = Z.of_nat s ->
    fdiv rnd huge (p e) D = Some (weight e) /\ 0 <= weight e /\ Rabs (weight e - p e / D) <= u * (p e / D) + tiny).
  { intros e E1 E2. unfold weight. destruct (WT e E1 E2) as (z & Z1 & Z2 & _ & Z3). rewrite Z1. now split. }
  exists weight. split.
  - intros e E1 E2. destruct (WT' e E1 E2) as (F1 & F2 & F3). split; [|split; [exact F2|]].
    + assert (LN : length num = length dst).
      { unfold num, float_numerators. fold maximum. destruct mult as [mk|]; repeat rewrite map_length || rewrite combine_length; unfold w in LW; lia. }
      unfold float_softmax. fold num. rewrite nth_error_map. rewrite (nth_error_nth' _ (None, None)) by (rewrite combine_length; unfold gather_sparse; rewrite map_length; lia).
      rewrite combine_nth by (unfold gather_sparse; rewrite map_length; lia). cbn [option_map fst snd]. rewrite (NUM e E1 E2).
      rewrite gather_sparse_nth; [|exact E1|unfold float_segment_sums; rewrite map_length, seq_length, E2; lia]. rewrite E2, Nat2Z.id.
      unfold float_segment_sums. rewrite (nth_map_d _ _ _ _ s 0%nat) by (rewrite seq_length; lia). rewrite seq_nth by lia. cbn [Nat.add]. rewrite ED. cbn [fbind]. now rewrite F1.
    + (* accuracy *)
      assert (A0 : forall j, (j < length dst)%nat -> 0 <= a j) by (intros j J1; apply Rmult_le_pos; [left; apply exp_pos|apply WE; lia]).
      assert (PA : forall j, (j < length dst)%nat -> nth j dst 0%Z = Z.of_nat s -> Rabs (p j - a j) <= 12 * u).
      { intros j J1 J2. unfold p. rewrite J2, Z.eqb_refl. destruct (Nat.ltb_spec j (length dst)) as [_|]; [|lia].
        pose proof (exp_rounded u tiny rnd H (d j) (D0 j J1 J2)) as Q1. pose proof (fexp_error _ _ _ X _ (RD j J1 J2)) as Q2. pose proof (fexp_range _ _ _ X _ (RD j J1 J2)) as Q3. fold (E j) in Q2, Q3.
        assert (Q4 : exp (rnd (d j)) <= 1). { rewrite <- exp_0. destruct (RD j J1 J2) as [Q|Q]; [left; now apply exp_increasing|rewrite Q; lra]. }
        assert (Q5 : u * exp (rnd (d j)) <= u * 1) by (apply Rmult_le_compat_l; lra).
        assert (Q6 : Rabs (E j - exp (d j)) <= 10 * u).
        { replace (E j - exp (d j)) with ((E j - exp (rnd (d j))) + (exp (rnd (d j)) - exp (d j))) by ring. eapply Rle_trans; [apply Rabs_triang|]. lra. }
        specialize (WE j J1). unfold a. destruct mult as [mk|].
        - replace (rnd (E j * nth j w 0) - exp (d j) * nth j w 0) with ((rnd (E j * nth j w 0) - E j * nth j w 0) + (E j - exp (d j)) * nth j w 0) by ring.
          eapply Rle_trans; [apply Rabs_triang|]. rewrite (Rabs_mult (E j - exp (d j))), (Rabs_right (nth j w 0)) by lra.
          assert (Rabs (E j - exp (d j)) * nth j w 0 <= 10 * u * 1) by (apply Rmult_le_compat; try lra; apply Rabs_pos).
          pose proof (rnd_any u tiny rnd H (E j * nth j w 0)) as Q7. assert (Q8 : 0 <= E j * nth j w 0) by (apply Rmult_le_pos; lra). rewrite (Rabs_right (E j * nth j w 0)) in Q7 by lra.
          assert (Q9 : E j * nth j w 0 <= 1 * 1) by (apply Rmult_le_compat; lra). assert (u * (E j * nth j w 0) <= u * (1 * 1)) by (apply Rmult_le_compat_l; lra). lra.
        - assert (EW : nth j w 0 = 1). { unfold w. rewrite (nth_indep _ 0 1) by (rewrite repeat_length; lia). apply nth_repeat. } rewrite EW, Rmult_1_r. lra. }
      set (a' := fun j => if (j <? length dst)%nat then a j else 0). set (A := total a' (entries (t s))).
      assert (A0' : forall j, 0 <= a' j) by (intro j; unfold a'; destruct (Nat.ltb_spec j (length dst)); [now apply A0|lra]).
      assert (AE : forall j, (j < length dst)%nat -> a' j = a j) by (intros j J; unfold a'; destruct (Nat.ltb_spec j (length dst)); [reflexivity|lia]).
      assert (PAA : Rabs (P - A) <= m * (12 * u)).
      { eapply Rle_trans; [apply (total_close_in p a' 0 (12 * u))|].
        - intros j J. apply ENT in J. destruct J as [J1 J2]. rewrite AE by exact J1. specialize (PA j J1 J2). lra.
        - rewrite Rmult_0_l, Rplus_0_l. apply Rmult_le_compat_r; [lra|]. apply le_INR, entries_summands. }
      assert (AT : w0 <= A).
      { pose proof (total_member a' (entries (t s)) top A0' (proj2 (ENT top) (conj TL TS))) as Q. rewrite AE in Q by exact TL. unfold a, d in Q. replace (nth top vals 0 - M) with 0 in Q by (unfold M; ring). rewrite exp_0, Rmult_1_l in Q. exact Q. }
      assert (AM : a e <= A). { rewrite <- (AE e E1). apply total_member; [exact A0'|now apply ENT]. }
      (* the exact softmax *)
      assert (EXACT : nth e (softmax_sparse lo hi n dst vals mult) 0 = a e / A).
      { change w with (weight_list (length vals) mult) in *. set (ws := weight_list (length vals) mult) in *.
        set (Q := list_sum (values_at (Z.of_nat s) (combine dst (exp_weights vals ws)))).
        assert (EA : Q = exp M * A).
        { unfold A. rewrite (total_perm _ _ _ SU). assert (LE : length dst = length (exp_weights vals ws)) by (unfold exp_weights; rewrite map_length, combine_length; lia).
          unfold Q. rewrite <- (map_id (values_at _ _)), <- (segment_total (fun x => x) (Z.of_nat s) dst (exp_weights vals ws) LE), <- total_scale.
          unfold total. f_equal. apply map_ext_in. intros j J. apply filter_In in J. destruct J as [J1 _]. apply in_seq in J1. rewrite AE by lia. rewrite exp_weights_nth by lia. unfold a, d.
          unfold Rminus. rewrite exp_plus, exp_Ropp. field. pose proof (exp_pos M). lra. }
        assert (EP : 0 < exp M) by apply exp_pos. assert (AP : 0 < A) by lra.
        rewrite softmax_sparse_formula; [|exact L|exact LW|exact E1|rewrite E2; lia|rewrite E2; fold ws; fold Q; rewrite EA; assert (0 < exp M * A) by (apply Rmult_lt_0_compat; lra); lra].
        rewrite E2. fold ws. fold Q. rewrite EA. unfold a, d, Rminus. rewrite exp_plus, exp_Ropp. field. lra. }
      rewrite EXACT. eapply Rle_trans; [apply (weight_accuracy u tiny rnd H 12 (p e) (a e) A (weight e) D P m w0)|]; try lra; try exact F3; try exact DE; try exact PAA.
      * apply P01.
      * split; [apply A0; exact E1|exact AM].
      * apply PA; assumption.
      * unfold P. apply total_member; [intro; apply P01|now apply ENT].
      * unfold Rdiv. apply Rmult_le_compat_r; [left; now apply Rinv_0_lt_compat|]. assert (0 <= (m + 1) * u) by (apply Rmult_le_pos; lra). lra.
  - (* the sum *)
    assert (LW' : length dst = length (map weight (seq 0 (length dst)))) by now rewrite map_length, seq_length.
    rewrite <- (map_id (values_at _ _)), <- (segment_total (fun x => x) (Z.of_nat s) dst (map weight (seq 0 (length dst))) LW').
    replace (total (fun i => nth i (map weight (seq 0 (length dst))) 0) (filter (fun i => (nth i dst 0 =? Z.of_nat s)%Z) (seq 0 (length dst)))) with (total weight (entries (t s))).
    + apply (weights_sum u tiny rnd H p weight (entries (t s)) D P m); try assumption; try lra; try reflexivity.
      * intros i I. apply ENT in I. destruct I as [I1 I2]. apply (WT' i I1 I2).
      * apply le_INR, entries_summands.
      * assert (u * w0 <= u * 1) by (apply Rmult_le_compat_l; lra). lra.
    + rewrite (total_perm _ _ _ SU). unfold total. f_equal. apply map_ext_in. intros j J. apply filter_In in J. destruct J as [J1 _]. apply in_seq in J1.
      rewrite (nth_indep _ 0 (weight 0%nat)) by (rewrite map_length, seq_length; lia). rewrite map_nth, seq_nth by lia. reflexivity.
Qed.
Print Assumptions C86_weights.

(** A correctly rounded exponential is an instance. *)
Lemma float_exp_rounded u tiny rnd : rounding u tiny rnd -> float_exp u tiny (fun x => rnd (exp x)).
Proof.
  intro H. pose proof (unit_bounds _ _ _ H) as [U0 U1]. split.
  - rewrite exp_0. apply (rnd_one _ _ _ H).
  - intros x X. assert (E : exp x <= 1). { rewrite <- exp_0. destruct X as [X| ->]; [left; now apply exp_increasing|lra]. } pose proof (exp_pos x) as P.
    split; [apply (rnd_nonneg _ _ _ H); lra|]. pose proof (rnd_mono _ _ _ H _ _ E) as M. now rewrite (rnd_one _ _ _ H) in M.
  - intros x _. pose proof (exp_pos x) as P. pose proof (rnd_any u tiny rnd H (exp x)) as A. rewrite (Rabs_right (exp x)) in A by lra. assert (0 <= u * exp x) by (apply Rmult_le_pos; lra). lra.
Qed.

(** The maximum is taken over all edges, also over those with a mask of 0.  If the largest logit belongs
    to a masked edge, all numerators of a node may underflow and its weights are not finite, whatever the
    order of summation; in exact arithmetic the second edge has weight 1. *)
Lemma reduce_zero_in rnd huge q t : rnd 0 = 0 -> 0 < huge -> (forall i, In i (entries t) -> q i = Some 0) -> reduce rnd huge q t = Some 0.
Proof.
  intros Z HH Q. induction t as [|i|l IHl r IHr]; cbn [reduce]; [reflexivity|apply Q; now left|].
  rewrite IHl, IHr by (intros i I; apply Q; cbn [entries]; apply in_or_app; auto). cbn [fbind]. unfold fadd. rewrite Rplus_0_r, fl_some; rewrite Z; [reflexivity|now rewrite Rabs_R0].
Qed.
Theorem C86_masked_refuted (t : nat -> order) : sums_segment [0%Z; 0%Z] 0 (t 0%nat) ->
  let rnd := rounded (-149) 24 in
  float_softmax rnd (bpow radix2 128) (fun x => rnd (exp x)) t 1 [0%Z; 0%Z] [0; -200] (Some [0; 1]) = [None; None] /\
  (forall lo hi, nth 1 (softmax_sparse lo hi 1 [0%Z; 0%Z] [0; -200] (Some [0; 1])) 0 = 1) /\
  (forall lo hi, nth 0 (softmax_sparse lo hi 1 [0%Z; 0%Z] [0; -200] (Some [0; 1])) 0 = 0).
Proof.
  intros SU rnd. split.
  - pose proof rounding_float32 as H. fold rnd in H. set (huge := bpow radix2 128). assert (HH : 1000 < huge).
    { apply Rlt_trans with (bpow radix2 10); [cbn; lra|apply bpow_lt; lia]. }
    assert (R0 : rnd 0 = 0) by apply (rnd_zero _ _ _ H).
    assert (F0 : fl rnd huge 0 = Some 0) by (rewrite fl_some; rewrite R0; [reflexivity|rewrite Rabs_R0; lra]).
    assert (R200 : rnd (-200) = -200).
    { unfold rnd, rounded. apply round_generic; [typeclasses eauto|]. apply generic_format_FLT. exists (Float radix2 (-200) 0); [unfold F2R; cbn; lra|cbn; lia|cbn; lia]. }
    assert (EX : rnd (exp (-200)) = 0).
    { apply Rle_antisym; [|apply (rnd_nonneg _ _ _ H); left; apply exp_pos]. rewrite <- (rounded_too_small (-149) 24 (-200) ltac:(lia)). apply (rnd_mono _ _ _ H).
      replace (-200) with (- (200)) by lra. rewrite exp_Ropp. replace 200 with (INR 200) by (rewrite INR_IZR_INZ; reflexivity).
      assert (P : forall k, exp (INR k) = exp 1 ^ k). { induction k as [|k IH]; [apply exp_0|]. rewrite S_INR, Rplus_comm, exp_plus, IH. reflexivity. }
      rewrite P. replace (bpow radix2 (-200)) with (/ 2 ^ 200).
      - apply Rinv_le_contravar; [apply pow_lt; lra|]. apply pow_incr. pose proof (exp_ineq1 1 ltac:(lra)). lra.
      - change (-200)%Z with (- Z.of_nat 200)%Z. rewrite bpow_opp. f_equal. rewrite bpow_powerRZ, <- pow_powerRZ. reflexivity. }
    assert (NUM : float_numerators rnd huge (fun x => rnd (exp x)) 1 [0%Z; 0%Z] [0; -200] (Some [0; 1]) = [Some 0; Some 0]).
    { unfold float_numerators. assert (MX : gather_sparse 0 (reduce_sparse (- huge) huge RMax 1 [0%Z; 0%Z] [0; -200]) [0%Z; 0%Z] = [0; 0]).
      { assert (MM : list_extreme Rmax (- huge) [0; -200] = 0).
        { unfold list_extreme. cbn [fold_right]. rewrite (Rmax_left (-200) (- huge)) by lra. apply Rmax_left. lra. }
        apply (nth_ext _ _ 0 0); [reflexivity|]. intros e E. change (length (gather_sparse 0 (reduce_sparse (- huge) huge RMax 1 [0%Z; 0%Z] [0; -200]) [0%Z; 0%Z])) with 2%nat in E.
        rewrite gather_reduce_nth by (destruct e as [|[|e]]; cbn in *; lia). destruct e as [|[|e]]; [exact MM|exact MM|lia]. }
      rewrite MX. cbn [combine map fst snd]. rewrite !Rminus_0_r, F0. rewrite (fl_some huge rnd (-200)) by (rewrite R200, Rabs_left; lra). rewrite R200. cbn [fbind combine map fst snd].
      rewrite EX. unfold fmul. rewrite Rmult_0_r, Rmult_0_l, F0. reflexivity. }
    unfold float_softmax. rewrite NUM. unfold float_segment_sums. cbn [seq map].
    rewrite (reduce_zero_in rnd huge _ (t 0%nat) R0); [|lra|].
    + unfold gather_sparse. cbn. unfold fdiv. destruct (Req_EM_T 0 0); [reflexivity|contradiction].
    + intros i I. apply (Permutation_in _ SU) in I. cbn in I. destruct I as [<-|[<-|[]]]; reflexivity.
  - split; intros lo hi; (rewrite softmax_sparse_formula; [|reflexivity|reflexivity|cbn; lia|cbn; lia|]; cbn; pose proof (exp_pos (-200)); [field|]; lra).
Qed.
Print Assumptions C86_masked_refuted.

Example C85_instance : exists v, nth_error (float_indexed_sum (rounded (-149) 24) (bpow radix2 128) (fun _ => Plus (Entry 2) (Plus Zero (Entry 0))) 1 [1; 7; -3]) 0 = Some (Some v) /\
  Rabs (v - -2) <= 2 * (3 * bpow radix2 (-24) * 4 + 3 * bpow radix2 (-126)).
Proof.
  destruct (C85_sum _ _ (bpow radix2 128) _ (fun _ => Plus (Entry 2) (Plus Zero (Entry 0))) 1 [0%Z; 1%Z; 0%Z] [1; 7; -3] 0 rounding_float32) as (v & E & B).
  - reflexivity.
  - lia.
  - unfold sums_segment. cbn. apply perm_swap.
  - cbn. lra.
  - assert (bpow radix2 (-126) <= 1) by (change 1 with (bpow radix2 0); apply bpow_le; lia). assert (1000 < bpow radix2 128) by (apply Rlt_trans with (bpow radix2 10); [cbn; lra|apply bpow_lt; lia]).
    change (INR (summands (Plus (Entry 2) (Plus Zero (Entry 0))))) with (1 + 1 + 1). cbn [values_at map filter combine fst snd list_sum Z.eqb Z.of_nat]. rewrite Rabs_R1, Rabs_left by lra. lra.
  - exists v. split; [exact E|]. change (INR (summands (Plus (Entry 2) (Plus Zero (Entry 0))))) with (1 + 1 + 1) in B.
    cbn [values_at map filter combine fst snd list_sum Z.eqb Z.of_nat] in B. rewrite Rabs_R1, (Rabs_left (-3)) in B by lra. replace (v - -2) with (v - (1 + (-3 + 0))) by ring. lra.
Qed.
Example C86_instance : let rnd := rounded (-149) 24 in let softmax := float_softmax rnd (bpow radix2 128) (fun x => rnd (exp x)) (fun _ => Plus (Entry 2) (Plus Zero (Entry 0))) 1 [0%Z; 1%Z; 0%Z] [1; 7; -3] (Some [1 / 2; 1; 1]) in
  exists a b, nth_error softmax 0 = Some (Some a) /\ nth_error softmax 2 = Some (Some b) /\ 0 <= a /\ 0 <= b /\ Rabs (a + b - 1) <= 8 * bpow radix2 (-24).
Proof.
  intros rnd softmax.
  destruct (C86_weights _ _ (bpow radix2 128) rnd _ (fun _ => Plus (Entry 2) (Plus Zero (Entry 0))) 1 [0%Z; 1%Z; 0%Z] [1; 7; -3] (Some [1 / 2; 1; 1]) 0 0 0 0 rounding_float32 (float_exp_rounded _ _ _ rounding_float32)) as (weight & W & S).
  - reflexivity.
  - reflexivity.
  - cbn. intros x X. repeat destruct X as [<-|X]; [lra|lra|lra|easy].
  - assert (1000 < bpow radix2 128) by (apply Rlt_trans with (bpow radix2 10); [cbn; lra|apply bpow_lt; lia]). intros x X. cbn in X. repeat destruct X as [<-|X]; [rewrite Rabs_R1; lra|rewrite Rabs_right; lra|rewrite Rabs_left; lra|easy].
  - lia.
  - unfold sums_segment. cbn. apply perm_swap.
  - cbn. lra.
  - assert (1000 < bpow radix2 128) by (apply Rlt_trans with (bpow radix2 10); [cbn; lra|apply bpow_lt; lia]). change (INR (summands (Plus (Entry 2) (Plus Zero (Entry 0))))) with (1 + 1 + 1). lra.
  - cbn; lia.
  - reflexivity.
  - intros e E ES. destruct e as [|[|[|e]]]; cbn in *; try lra; try lia.
  - cbn. lra.
  - change (INR (summands (Plus (Entry 2) (Plus Zero (Entry 0))))) with (1 + 1 + 1). cbn [nth].
    assert (128 * (3 * bpow radix2 (-126)) <= bpow radix2 (-25)).
    { apply Rle_trans with (bpow radix2 10 * bpow radix2 (-126)); [|rewrite <- bpow_plus; apply bpow_le; lia]. change (bpow radix2 10) with 1024. pose proof (bpow_gt_0 radix2 (-126)). lra. }
    replace (bpow radix2 (-24) * (1 / 2)) with (bpow radix2 (-25)) by (change (-25)%Z with (-24 + -1)%Z; rewrite bpow_plus; change (bpow radix2 (-1)) with (/ 2); lra). lra.
  - destruct (W 0%nat ltac:(cbn; lia) eq_refl) as (W1 & W2 & _). destruct (W 2%nat ltac:(cbn; lia) eq_refl) as (W3 & W4 & _). exists (weight 0%nat), (weight 2%nat).
    split; [exact W1|]. split; [exact W3|]. split; [exact W2|]. split; [exact W4|]. change (INR (summands (Plus (Entry 2) (Plus Zero (Entry 0))))) with (1 + 1 + 1) in S.
    cbn [values_at map filter combine fst snd list_sum Z.eqb Z.of_nat length seq] in S. replace (weight 0%nat + weight 2%nat - 1) with (weight 0%nat + (weight 2%nat + 0) - 1) by ring. lra.
Qed.
