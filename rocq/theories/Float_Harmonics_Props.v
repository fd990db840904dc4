(** Property C91: spherical and solid harmonics in floating point arithmetic. *)
Require Import String List Reals Lra Lia ZArith Bool.
From Flocq Require Import Core Relative.
Require Import Verif.Base Verif.RSum Verif.Common_Model Verif.Common_Spec Verif.Common_Proofs Verif.LUT_Model Verif.LUT_Spec Verif.Symbolic_Model Verif.Poly_Proofs Verif.Harmonics_Basis_Proofs Verif.Rotations_Model Verif.Rotations_Spec Verif.Irreps_Model Verif.Irreps_Spec Verif.Irreps_Proofs Verif.Irreps_Laws_Proofs Verif.Irreps_Props.
Require Import Verif.Radial_Model Verif.Float_Model Verif.Float_Spec Verif.Float_Proofs Verif.Float_Norm_Proofs Verif.Float_Formats Verif.Float_Props Verif.Float_Einsum_Model Verif.Float_Einsum_Spec Verif.Float_Einsum_Proofs Verif.Float_Einsum_Props Verif.Float_Harmonics_Model Verif.Float_Harmonics_Spec Verif.Float_Harmonics_Proofs.
Import ListNotations.
Open Scope R_scope.

(** The magnitudes grow at most like the root of [2^l]. *)
Theorem C91_amplification l : amplification 0 = 1 /\ amplification 1 = 1 /\ 0 < amplification l /\ amplification l * amplification l <= 2 ^ l.
Proof.
  assert (FP : forall n, 0 < INR (fact n)) by (intro; apply INR_fact_lt_0). assert (P2 : forall n, 0 < 2 ^ n) by (intro; apply pow_lt; lra).
  assert (Q : forall n, 0 < INR (fact (2 * n)) / (INR (fact n) * INR (fact n)) / 2 ^ n). { intro n. apply Rdiv_lt_0_compat; [|apply P2]. apply Rdiv_lt_0_compat; [apply FP|]. apply Rmult_lt_0_compat; apply FP. }
  unfold amplification. split; [|split; [|split]].
  - match goal with |- sqrt ?a = 1 => replace a with 1; [apply sqrt_1|] end. change (fact (2 * 0)) with 1%nat. change (fact 0) with 1%nat. change (INR 1) with 1. cbn [pow]. field.
  - match goal with |- sqrt ?a = 1 => replace a with 1; [apply sqrt_1|] end. change (fact (2 * 1)) with 2%nat. change (fact 1) with 1%nat. change (INR 1) with 1. change (INR 2) with 2. cbn [pow]. field.
  - apply sqrt_lt_R0, Q.
  - rewrite sqrt_sqrt by (left; apply Q). induction l as [|l IH]; [change (fact (2 * 0)) with 1%nat; change (fact 0) with 1%nat; change (INR 1) with 1; cbn [pow]; lra|].
    replace (2 * S l)%nat with (S (S (2 * l))) by lia. rewrite !fact_simpl, !mult_INR, !S_INR, mult_INR. change (INR 2) with 2. cbn [pow]. pose proof (pos_INR l) as LP. pose proof (FP l) as F1. pose proof (FP (2 * l)%nat) as F2. pose proof (P2 l) as P3.
    replace ((2 * INR l + 1 + 1) * ((2 * INR l + 1) * INR (fact (2 * l))) / ((INR l + 1) * INR (fact l) * ((INR l + 1) * INR (fact l))) / (2 * 2 ^ l)) with ((2 * INR l + 1) / (INR l + 1) * (INR (fact (2 * l)) / (INR (fact l) * INR (fact l)) / 2 ^ l)) by (field; lra).
    apply Rmult_le_compat; [left; apply Rdiv_lt_0_compat; lra|left; apply Q| |exact IH]. apply (Rmult_le_reg_r (INR l + 1)); [lra|]. unfold Rdiv. rewrite Rmult_assoc, Rinv_l by lra. lra.
Qed.
Print Assumptions C91_amplification.

Lemma roundings_passes c e : passes (fun v => S (match v with Coordinate _ => c | _ => 1%nat end)) e = harmonic_roundings (S c) e.
Proof. induction e as [|v|a IHa b IHb|a IHa b IHb]; cbn [passes harmonic_roundings]; [reflexivity|now destruct v|congruence|congruence]. Qed.

(** ** One entry *)
Lemma entry_accurate u tiny huge rnd store n l k c const g x y z e (cm : nat -> R) : rounding u tiny rnd -> (forall a, Rabs (store a - a) <= u * Rabs a + tiny) ->
  (l <= n)%nat -> (k < 2 * l + 1)%nat -> 0 <= const -> length g = 3%nat ->
  (forall i, Rabs (nth i g 0 - nth i [x; y; z] 0) <= INR c * u * Rabs (nth i [x; y; z] 0) + tiny) ->
  (forall i, (i < num_car n)%nat -> cm i = coefficient 0 (sph_terms l (Z.of_nat k - Z.of_nat l)) (nth i (all_powers n) [])) ->
  evaluates e (harmonic_terms n) -> harmonic_in_range u tiny huge (S c) (exact_operands n const [x; y; z] l k) e ->
  exists f, float_eval rnd huge (harmonic_env g (fun i => store (if (i <? num_car n)%nat then cm i else 0)) (store const)) e = Some f /\
    Rabs (f - const * peval (Yi l k) (x, y, z)) <= harmonic_error u tiny (S c) n const [x; y; z] l k e.
Proof.
  intros H ST Hl Hk C0 LG G CM EV [K P]. pose proof (unit_bounds _ _ _ H) as [U0 U1]. pose proof (tiny_bounds _ _ _ H) as [T0 T1]. set (env := exact_operands n const [x; y; z] l k) in *.
  set (kv := fun v => match v with Coordinate _ => c | _ => 1%nat end). rewrite <- roundings_passes in K. fold kv in K.
  destruct (float_eval_inexact u tiny huge rnd _ env (harmonic_env g (fun i => store (if (i <? num_car n)%nat then cm i else 0)) (store const)) kv e H) as (f & E & B); [|exact K|exact P|].
  - intros [i|i|]; cbn [harmonic_env kv]; unfold env, exact_operands; cbn [harmonic_env].
    + apply G.
    + replace (coefficient 0 (sph_terms l (Z.of_nat k - Z.of_nat l)) (nth i (all_powers n) [])) with (if (i <? num_car n)%nat then cm i else 0); [change (INR 1) with 1; rewrite Rmult_1_l; apply ST|].
      destruct (Nat.ltb_spec i (num_car n)) as [I|I]; [now apply CM|]. rewrite nth_overflow by (rewrite all_powers_length; exact I). symmetry. apply LUT_Entry_Proofs.coefficient_out.
      intros v IV. destruct (T_facts l k Hk) as (_ & F & _). destruct (F _ _ IV). discriminate.
    + change (INR 1) with 1. rewrite Rmult_1_l. apply ST.
  - exists f. split; [exact E|]. rewrite (evaluates_value _ env e _ EV) in B. unfold env in B at 1. rewrite (exact_value n l k Hl Hk) in B. eapply Rle_trans; [exact B|].
    unfold harmonic_error, underflow. fold env. unfold kv in K |- *. rewrite roundings_passes. apply Rplus_le_compat_r. apply Rmult_le_compat_l.
    + rewrite roundings_passes in K. assert (0 <= INR (harmonic_roundings (S c) e) * u) by (apply Rmult_le_pos; [apply pos_INR|lra]). lra.
    + rewrite magnitude_eval, (evaluates_value _ _ e _ EV). exact (exact_magnitude n l k Hl Hk const x y z C0).
Qed.

Lemma documented_unique norm l c c' : documented_constant norm l c -> documented_constant norm l c' -> c = c'.
Proof. intros [([A|A] & ->)|[(A & ->)|(A & ->)]] [([B|B] & ->)|[(B & ->)|(B & ->)]]; congruence. Qed.
Lemma documented_pos norm l c : documented_constant norm l c -> 0 <= c.
Proof. intros [(_ & ->)|[(_ & ->)|(_ & ->)]]; [lra|apply sqrt_pos|apply sqrt_pos]. Qed.
Lemma numbers_some g : numbers (map Some g) = Some g.
Proof. induction g as [|a g IH]; [reflexivity|]. cbn. now rewrite IH. Qed.
Lemma sqrt_position l k : (k < 2 * l + 1)%nat -> Nat.sqrt (l * l + k) = l.
Proof. intro K. apply Nat.sqrt_unique. nia. Qed.

Section Calls.
Variables (u tiny huge : R) (rnd store : R -> R) (t : list R -> order) (E : nat -> nat -> expr harmonic_operand).
Hypothesis H : rounding u tiny rnd.
Hypothesis ST : forall a, Rabs (store a - a) <= u * Rabs a + tiny.

(** The result of a call: shapes, and entries for rows that are numbers. *)
Lemma call_result empty w s o (rs : list vec) L (nrm cartesian : bool) norm (gs : list (list (option R))) : sh_ready w -> call_ok s o -> (0 <= L)%Z -> known_normalization norm ->
  (forall b j, evaluates (E b j) (harmonic_terms (Z.to_nat L))) ->
  (if nrm then gs = map (fun v => map Some (vlist v)) rs else 0 < tiny /\ rs <> [] /\ gs = float_normalize rnd tiny huge t (map vlist rs)) ->
  exists fs, snd (float_spherical_harmonics rnd tiny huge store t E empty w s o 3 (map vlist rs) L nrm cartesian norm) = Ok fs /\
    length fs = length rs /\ Forall (fun y => length y = (degrees L * degrees L)%nat) fs /\
    forall b l k m, (b < length rs)%nat -> (l < degrees L)%nat -> (k < 2 * l + 1)%nat -> m = pos cartesian l k ->
      forall c const g x y z, documented_constant norm l const -> nth b gs [] = map Some g -> length g = 3%nat ->
        (forall i, Rabs (nth i g 0 - nth i [x; y; z] 0) <= INR c * u * Rabs (nth i [x; y; z] 0) + tiny) ->
        harmonic_in_range u tiny huge (S c) (exact_operands (Z.to_nat L) const [x; y; z] l m) (E b (l * l + m)%nat) ->
        exists f, entry_of fs b (l * l + k) = Some f /\
          Rabs (f - const * peval (Yi l m) (x, y, z)) <= harmonic_error u tiny (S c) (Z.to_nat L) const [x; y; z] l m (E b (l * l + m)%nat).
Proof using H ST.
  intros Hw Hc HL Hn PL GS. unfold float_spherical_harmonics. cbn [Nat.eqb negb]. unfold check_degree at 1. destruct (L <? 0)%Z eqn:E0; [lia|]. cbv beta iota.
  destruct (table_entries w L s o Hw Hc HL) as (tab & Et & Hv). destruct (spherical_harmonics_table w L s o) as [w' r]. cbn [snd] in *. subst r. cbn [bind].
  destruct (normalize_columns_ok norm (Z.to_nat L) (sh_cm R tab) Hn) as (cm' & EC & _). rewrite EC. cbn [bind]. set (n := Z.to_nat L) in *.
  set (cols := if cartesian then cartesian_permutation empty n else seq 0 ((n + 1) ^ 2)).
  assert (LC : length cols = (degrees L * degrees L)%nat). { unfold cols, degrees. destruct cartesian; [apply cart_perm_length|]. rewrite seq_length. cbn. fold n. ring. }
  assert (LG : length gs = length rs). { destruct nrm; [subst gs; now rewrite map_length|]. destruct GS as (_ & _ & ->). unfold float_normalize. now rewrite !map_length. }
  assert (RES : bind (if nrm then Ok (map (map Some) (map vlist rs)) else match normalize tiny (map vlist rs) with Err e => Err e | Ok _ => Ok (float_normalize rnd tiny huge t (map vlist rs)) end)
    (fun rs0 => Ok (map (fun bg => map (fun j => match numbers (snd bg) with Some g => float_eval rnd huge (harmonic_env g (fun i => store (if (i <? num_car n)%nat then sh_cm R tab (i, j) else 0)) (store (column_constant norm j))) (E (fst bg) j) | None => None end) cols) (combine (seq 0 (length rs0)) rs0))) =
    Ok (map (fun bg => map (fun j => match numbers (snd bg) with Some g => float_eval rnd huge (harmonic_env g (fun i => store (if (i <? num_car n)%nat then sh_cm R tab (i, j) else 0)) (store (column_constant norm j))) (E (fst bg) j) | None => None end) cols) (combine (seq 0 (length gs)) gs))).
  { destruct nrm; [rewrite map_map; now subst gs|]. destruct GS as (TP & NE & ->). rewrite normalize_direction by assumption. reflexivity. }
  rewrite RES. eexists. split; [reflexivity|]. split; [|split].
  - rewrite map_length, combine_length, seq_length, LG. lia.
  - apply Forall_forall. intros y I. apply in_map_iff in I as (bg & <- & _). now rewrite map_length.
  - intros b l k m Hb Hl Hk Em c const g x y z DC GB LG3 GE IR. unfold degrees in Hl. fold n in Hl. assert (Hm : (m < 2 * l + 1)%nat) by (subst m; now apply pos_lt). assert (Hl' : (l <= n)%nat) by lia.
    assert (CO : nth (l * l + k) cols 0%nat = (l * l + m)%nat). { unfold cols. rewrite Em. unfold pos. destruct cartesian; [now apply cart_perm_nth|]. rewrite seq_nth; [reflexivity|]. cbn. nia. }
    unfold entry_of. set (F := fun bg : nat * list (option R) => map _ cols). rewrite (nth_indep _ [] (F (0%nat, []))) by (rewrite map_length, combine_length, seq_length; lia). rewrite map_nth, combine_nth by now rewrite seq_length. rewrite seq_nth by lia. change (0 + b)%nat with b. rewrite GB. unfold F. cbn [fst snd].
    rewrite nth_cols by (rewrite LC; unfold degrees; fold n; nia). rewrite CO, numbers_some.
    assert (CC : column_constant norm (l * l + m) = const). { unfold column_constant. rewrite sqrt_position by exact Hm. destruct (normalization_known norm l Hn) as [-> D]. now apply (documented_unique norm l). }
    rewrite CC. apply (entry_accurate u tiny huge rnd store n l m c const g x y z (E b (l * l + m)%nat) (fun i => sh_cm R tab (i, (l * l + m)%nat)) H ST Hl' Hm (documented_pos _ _ _ DC) LG3 GE); [intros i Hi; now apply Hv|apply PL|exact IR].
Qed.
End Calls.

(** ** Calls *)
Lemma Forall2_map_right A B C (P : A -> C -> Prop) (h : B -> C) l l' : Forall2 (fun y v => P y (h v)) l l' -> Forall2 P l (map h l').
Proof. intro F. induction F; constructor; assumption. Qed.

(** With [r_is_normalized] the entries are those of the given vector: they go through one rounding each. *)
Theorem C91_given u tiny huge rnd store t E empty w s o rs L cartesian norm :
  rounding u tiny rnd -> (forall a, Rabs (store a - a) <= u * Rabs a + tiny) ->
  sh_ready w -> call_ok s o -> (0 <= L)%Z -> known_normalization norm ->
  (forall b j, evaluates (E b j) (harmonic_terms (Z.to_nat L))) ->
  exists ys fs, snd (spherical_harmonics empty tiny w s o 3 (map vlist rs) L true cartesian norm) = Ok ys /\
    snd (float_spherical_harmonics rnd tiny huge store t E empty w s o 3 (map vlist rs) L true cartesian norm) = Ok fs /\
    length fs = length rs /\ Forall (fun y => length y = (degrees L * degrees L)%nat) fs /\
    forall b r l k, nth_error rs b = Some r -> (l < degrees L)%nat -> (k < 2 * l + 1)%nat ->
      exists m, (m < 2 * l + 1)%nat /\ (cartesian = false -> m = k) /\
        close_entry u tiny huge 1 (Z.to_nat L) norm (vlist r) l m (E b (l * l + m)%nat) (at2 ys b (l * l + k)) (entry_of fs b (l * l + k)).
Proof.
  intros H ST Hw Hc HL Hn PL. destruct (spherical_ok empty tiny w s o rs L true cartesian norm Hw Hc HL Hn (or_introl eq_refl)) as (ys & EY & RO).
  destruct (call_result u tiny huge rnd store t E H ST empty w s o rs L true cartesian norm _ Hw Hc HL Hn PL eq_refl) as (fs & EF & LF & SF & CF).
  exists ys, fs. split; [exact EY|]. split; [exact EF|]. split; [exact LF|]. split; [exact SF|]. intros b r l k Er Hl Hk. exists (pos cartesian l k).
  split; [now apply pos_lt|]. split; [intros ->; reflexivity|]. intros const DC IR. destruct (Forall2_get _ _ _ _ _ [] _ _ RO Er) as [[_ RW] _].
  assert (Hb : (b < length rs)%nat) by (apply nth_error_Some; congruence). destruct r as [[x y] z].
  destruct (CF b l k _ Hb Hl Hk eq_refl 0%nat const [x; y; z] x y z DC) as (f & F1 & F2); [| reflexivity | | exact IR |].
  - rewrite (nth_indep _ [] (map Some (vlist (0, 0, 0)))) by now rewrite map_length. rewrite (map_nth (fun v => map Some (vlist v))). now rewrite (nth_error_nth _ _ _ Er).
  - intro i. replace (nth i [x; y; z] 0 - nth i [x; y; z] 0) with 0 by ring. rewrite Rabs_R0. pose proof (tiny_bounds _ _ _ H). change (INR 0) with 0. lra.
  - exists f. split; [exact F1|]. unfold at2. rewrite RW by (unfold degrees in Hl; lia). destruct (normalization_known norm l Hn) as [_ D]. rewrite (documented_unique norm l _ const D DC). exact F2.
Qed.
Print Assumptions C91_given.

Theorem C91_solid u tiny huge rnd store t E empty w s o rs L cartesian :
  rounding u tiny rnd -> (forall a, Rabs (store a - a) <= u * Rabs a + tiny) ->
  sh_ready w -> call_ok s o -> (0 <= L)%Z -> (forall b j, evaluates (E b j) (harmonic_terms (Z.to_nat L))) ->
  exists ys fs, snd (solid_harmonics empty tiny w s o 3 (map vlist rs) L cartesian) = Ok ys /\
    snd (float_solid_harmonics rnd tiny huge store t E empty w s o 3 (map vlist rs) L cartesian) = Ok fs /\
    length fs = length rs /\ Forall (fun y => length y = (degrees L * degrees L)%nat) fs /\
    forall b r l k, nth_error rs b = Some r -> (l < degrees L)%nat -> (k < 2 * l + 1)%nat ->
      exists m, (m < 2 * l + 1)%nat /\ (cartesian = false -> m = k) /\
        close_entry u tiny huge 1 (Z.to_nat L) "racah" (vlist r) l m (E b (l * l + m)%nat) (at2 ys b (l * l + k)) (entry_of fs b (l * l + k)).
Proof. intros H ST Hw Hc HL PL. exact (C91_given u tiny huge rnd store t E empty w s o rs L cartesian "racah" H ST Hw Hc HL racah_known PL). Qed.
Print Assumptions C91_solid.

(** Without it the vector is normalised first.  For a row that C84 covers, its coordinates go through three roundings for
    each square that is added and eleven more. *)
Theorem C91_spherical u tiny huge rnd store t E empty w s o rs L cartesian norm a :
  rounding u tiny rnd -> (forall a, Rabs (store a - a) <= u * Rabs a + tiny) ->
  sh_ready w -> call_ok s o -> (0 <= L)%Z -> known_normalization norm -> rs <> [] ->
  (forall b j, evaluates (E b j) (harmonic_terms (Z.to_nat L))) ->
  tiny <= a -> (forall r v, In r rs -> In v (vlist r) -> Rabs v <= a) -> 256 * tiny <= u * u ->
  exists ys fs, snd (spherical_harmonics empty tiny w s o 3 (map vlist rs) L false cartesian norm) = Ok ys /\
    snd (float_spherical_harmonics rnd tiny huge store t E empty w s o 3 (map vlist rs) L false cartesian norm) = Ok fs /\
    length fs = length rs /\ Forall (fun y => length y = (degrees L * degrees L)%nat) fs /\
    forall b r l k, nth_error rs b = Some r -> (l < degrees L)%nat -> (k < 2 * l + 1)%nat ->
      let x := vlist r in let n := summands (t x) in
      sums_up 3 (t x) -> INR n * u <= 1 / 64 -> 4 * INR n <= huge -> 64 * INR n * tiny * (a * a) <= u * (length_of x * length_of x) ->
      2 * length_of x + 2 * tiny <= huge -> 4 * tiny <= length_of x * length_of x ->
      exists m, (m < 2 * l + 1)%nat /\ (cartesian = false -> m = k) /\
        close_entry u tiny huge (3 * n + 11) (Z.to_nat L) norm (map (fun v => v / length_of x) x) l m (E b (l * l + m)%nat) (at2 ys b (l * l + k)) (entry_of fs b (l * l + k)).
Proof.
  intros H ST Hw Hc HL Hn NE PL TA RA UT. pose proof (tiny_bounds _ _ _ H) as [T0 _].
  destruct (spherical_ok empty tiny w s o rs L false cartesian norm Hw Hc HL Hn (or_intror (conj T0 NE))) as (ys & EY & RO).
  destruct (call_result u tiny huge rnd store t E H ST empty w s o rs L false cartesian norm _ Hw Hc HL Hn PL (conj T0 (conj NE eq_refl))) as (fs & EF & LF & SF & CF).
  exists ys, fs. split; [exact EY|]. split; [exact EF|]. split; [exact LF|]. split; [exact SF|]. intros b r l k Er Hl Hk x n SU NU NH N1 N2 N3. exists (pos cartesian l k).
  split; [now apply pos_lt|]. split; [intros ->; reflexivity|]. intros const DC IR. destruct (Forall2_get _ _ _ _ _ [] _ _ RO Er) as [[_ RW] _].
  assert (Hb : (b < length rs)%nat) by (apply nth_error_Some; congruence).
  assert (LX : length x = 3%nat) by (unfold x; destruct r as [[? ?] ?]; reflexivity).
  destruct (C84_direction u tiny huge rnd t (map vlist rs) b x a H) as (g & EG & BG); [now rewrite nth_error_map, Er|now rewrite LX|exact TA| |exact NU|exact NH|exact N1|exact N2|exact UT|exact N3|].
  { intros row v I J. apply in_map_iff in I as (r' & <- & I). exact (RA r' v I J). }
  assert (DI : direction tiny r = vof (map (fun v => v / length_of x) x)). { unfold direction. fold x. destruct (Rlt_dec tiny (length_of x ^ 2)) as [_|Q]; [reflexivity|]. exfalso. apply Q. cbn [pow]. rewrite Rmult_1_r. lra. }
  rewrite DI in RW. set (d := map (fun v => v / length_of x) x) in *. assert (FD : Forall2 (fun y v => Rabs (y - v) <= (3 * INR n + 10) * u * Rabs v + tiny) g d).
  { unfold d. apply Forall2_map_right. exact BG. }
  assert (LD : length d = 3%nat) by (unfold d; now rewrite map_length). clearbody d. destruct d as [|dx [|dy [|dz [|? ?]]]]; try discriminate LD.
  assert (LG : length g = 3%nat) by (erewrite Forall2_length by exact FD; reflexivity).
  replace (3 * n + 11)%nat with (S (3 * n + 10)) in IR |- * by lia.
  destruct (CF b l k _ Hb Hl Hk eq_refl (3 * n + 10)%nat const g dx dy dz DC) as (f & F1 & F2); [|exact LG| |exact IR|].
  - apply nth_error_nth. exact EG.
  - rewrite plus_INR, mult_INR. replace (INR 3) with 3 by (cbn; ring). replace (INR 10) with 10 by (cbn; ring).
    destruct g as [|ga [|gb [|gc [|? ?]]]]; try discriminate LG. inversion FD as [|? ? ? ? B1 FD1]; subst. inversion FD1 as [|? ? ? ? B2 FD2]; subst. inversion FD2 as [|? ? ? ? B3 FD3]; subst.
    intros [|[|[|i]]]; [exact B1|exact B2|exact B3|]. rewrite !nth_overflow by (cbn; lia). replace (0 - 0) with 0 by ring. rewrite Rabs_R0, Rmult_0_r. lra.
  - exists f. split; [exact F1|]. unfold at2. rewrite RW by (unfold degrees in Hl; lia). destruct (normalization_known norm l Hn) as [_ D]. rewrite (documented_unique norm l _ const D DC). exact F2.
Qed.
Print Assumptions C91_spherical.

(** A direction has length one, so the bound does not depend on it. *)
Theorem C91_bound u tiny c L constant x l m e : 0 < length_of x -> let r := map (fun v => v / length_of x) x in
  harmonic_error u tiny c L constant r l m e = 2 * (INR (harmonic_roundings c e) * u) * (constant * amplification l) + underflow tiny (exact_operands L constant r l m) e.
Proof.
  intros P r. unfold harmonic_error. replace (length_of r) with 1; [rewrite pow1, Rmult_1_r; reflexivity|]. unfold r. set (n := length_of x) in *.
  assert (E : forall y, sum_of (map (fun v => v ^ 2) (map (fun v => v / n) y)) = sum_of (map (fun v => v ^ 2) y) / (n * n)). { induction y as [|v y IH]; cbn [map sum_of fold_right]; [unfold Rdiv; ring|]. rewrite IH. field. lra. }
  unfold length_of. rewrite E. replace (sum_of (map (fun v => v ^ 2) x)) with (n * n). { replace (n * n / (n * n)) with 1 by (field; lra). symmetry. apply sqrt_1. }
  unfold n, length_of. apply sqrt_sqrt. clear. induction x as [|v x IH]; cbn [map sum_of fold_right]; [lra|]. pose proof (pow2_ge_0 v). lra.
Qed.
Print Assumptions C91_bound.

(** ** The state and the errors are those of the exact functions *)
Local Ltac same_error := split; [intro; split; intro X; inversion X; reflexivity|split; intros [? X]; discriminate X].
Theorem C91_errors rnd tiny huge store t E empty w s o dim r L nrm cartesian norm : let exact := spherical_harmonics empty tiny w s o dim r L nrm cartesian norm in
  let computed := float_spherical_harmonics rnd tiny huge store t E empty w s o dim r L nrm cartesian norm in
  fst computed = fst exact /\ (forall e, snd computed = Err e <-> snd exact = Err e) /\ ((exists fs, snd computed = Ok fs) <-> exists ys, snd exact = Ok ys).
Proof.
  cbv zeta. unfold spherical_harmonics, float_spherical_harmonics. destruct (negb (dim =? 3)%nat); cbn [fst snd]; [split; [reflexivity|]; same_error|].
  destruct (check_degree L) as [n|e]; cbn [fst snd]; [|split; [reflexivity|]; same_error].
  destruct (spherical_harmonics_table w L s o) as [w' tab]. cbn [fst snd]. split; [reflexivity|].
  destruct tab as [tab|e]; cbn [bind]; [|same_error].
  destruct (normalize_columns norm n (sh_cm R tab)) as [cm|e]; cbn [bind]; [|same_error].
  destruct nrm; cbn [bind]; [split; [split; discriminate|split; intros _; eexists; reflexivity]|].
  destruct (normalize tiny r) as [r'|e]; cbn [bind]; [split; [split; discriminate|split; intros _; eexists; reflexivity]|same_error].
Qed.
Print Assumptions C91_errors.

(** ** Sufficient conditions *)

(** All operands are at most [a] in magnitude. *)
Lemma magnitude_bounds V (env : V -> R) tau a e : 0 <= tau <= 1 -> 0 <= a -> (forall v, Rabs (env v) <= a) ->
  0 <= magnitude 0 env e <= magnitude tau env e /\ magnitude tau env e <= (2 * a + 3) ^ size e /\ magnitude tau env e - magnitude 0 env e <= tau * (2 * a + 3) ^ size e /\ peak tau env e <= (2 * a + 3) ^ size e.
Proof.
  intros T A V0. set (q := 2 * a + 3). assert (Q : 3 <= q) by (unfold q; lra). assert (PQ : forall n, 1 <= q ^ n) by (intro; apply pow_R1_Rle; lra).
  induction e as [|v|x IHx y IHy|x IHx y IHy]; cbn [magnitude peak size].
  - cbn. lra.
  - pose proof (V0 v). pose proof (Rabs_pos (env v)). rewrite pow_1. assert (tau * 1 <= tau * q) by (apply Rmult_le_compat_l; lra). repeat split; unfold q in *; lra.
  - destruct IHx as (X1 & X2 & X3 & X4). destruct IHy as (Y1 & Y2 & Y3 & Y4). cbn [pow]. rewrite pow_add. set (p := q ^ size x) in *. set (r := q ^ size y) in *. assert (P1 : 1 <= p) by apply PQ. assert (R1 : 1 <= r) by apply PQ.
    assert (PR : 1 * 1 <= p * r) by (apply Rmult_le_compat; lra). assert (PR1 : p * 1 <= p * r) by (apply Rmult_le_compat_l; lra). assert (PR2 : 1 * r <= p * r) by (apply Rmult_le_compat_r; lra).
    assert (Q0 : 3 * (p * r) <= q * (p * r)) by (apply Rmult_le_compat_r; lra). assert (B : tau * (p + r + 1) <= tau * (q * (p * r))) by (apply Rmult_le_compat_l; lra). rewrite !Rmult_plus_distr_l, Rmult_1_r in B. repeat split; try lra. repeat apply Rmax_lub; lra.
  - destruct IHx as (X1 & X2 & X3 & X4). destruct IHy as (Y1 & Y2 & Y3 & Y4). cbn [pow]. rewrite pow_add. set (p := q ^ size x) in *. set (r := q ^ size y) in *. assert (P1 : 1 <= p) by apply PQ. assert (R1 : 1 <= r) by apply PQ.
    set (x0 := magnitude 0 env x) in *. set (y0 := magnitude 0 env y) in *. set (x1 := magnitude tau env x) in *. set (y1 := magnitude tau env y) in *.
    assert (PR : 1 * 1 <= p * r) by (apply Rmult_le_compat; lra). assert (PR1 : p * 1 <= p * r) by (apply Rmult_le_compat_l; lra). assert (PR2 : 1 * r <= p * r) by (apply Rmult_le_compat_r; lra).
    assert (Q0 : 3 * (p * r) <= q * (p * r)) by (apply Rmult_le_compat_r; lra). assert (B : tau * (p * r + p * r + 1) <= tau * (q * (p * r))) by (apply Rmult_le_compat_l; lra). rewrite !Rmult_plus_distr_l, Rmult_1_r in B.
    assert (M0 : 0 <= x0 * y0) by (apply Rmult_le_pos; lra). assert (M1 : x0 * y0 <= x1 * y1) by (apply Rmult_le_compat; lra). assert (M2 : x1 * y1 <= p * r) by (apply Rmult_le_compat; lra).
    assert (D1 : (x1 - x0) * y1 <= tau * p * r) by (apply Rmult_le_compat; lra). assert (D2 : x0 * (y1 - y0) <= p * (tau * r)) by (apply Rmult_le_compat; lra).
    assert (D : x1 * y1 - x0 * y0 <= tau * (p * r) + tau * (p * r)) by (replace (x1 * y1 - x0 * y0) with ((x1 - x0) * y1 + x0 * (y1 - y0)) by ring; lra). repeat split; try lra. repeat apply Rmax_lub; lra.
Qed.

(** Operands that are at most [a] in magnitude do not overflow for a short evaluation, and underflow is negligible. *)
Theorem C91_range u tiny huge c (env : harmonic_operand -> R) e a : 0 < tiny -> 3 * tiny <= 1 -> 0 <= a -> (forall v, Rabs (env v) <= a) ->
  INR (harmonic_roundings c e) * u <= 1 / 64 -> 2 * (2 * a + 3) ^ size e < huge ->
  harmonic_in_range u tiny huge c env e /\ underflow tiny env e <= 6 * tiny * (2 * a + 3) ^ size e.
Proof.
  intros T0 T1 A B K P. destruct (magnitude_bounds _ env (3 * tiny) a e ltac:(lra) A B) as (_ & _ & M & PK). split; [split; [exact K|lra]|]. unfold underflow. lra.
Qed.
Print Assumptions C91_range.

(** Every plan that contracts the terms one after the other is an evaluation (C90_plans has others). *)
Theorem C91_plan L : evaluates (direct (harmonic_terms L)) (harmonic_terms L).
Proof. apply C90_direct. intros t I. unfold harmonic_terms in I. apply in_map_iff in I as (i & <- & _). intro Q. apply (f_equal (@length _)) in Q. rewrite app_length in Q. cbn in Q. lia. Qed.
Print Assumptions C91_plan.

(** Tables that are stored in double precision and then rounded to single precision: two roundings, which the hypothesis on
    stored numbers allows with a slightly larger unit. *)
Lemma rounding_weaken u u' tiny rnd : rounding u tiny rnd -> u <= u' <= 1 / 64 -> rounding u' tiny rnd.
Proof.
  intros [A B C D E F G I] U. constructor; try assumption; [lra|lra|]. intros x X. eapply Rle_trans; [now apply G|]. apply Rmult_le_compat_r; [apply Rabs_pos|lra].
Qed.
Lemma rounded_error emin prec x : (0 < prec)%Z -> Rabs (rounded emin prec x - x) <= bpow radix2 (- prec) * Rabs x + bpow radix2 emin.
Proof.
  intro P. unfold rounded. destruct (error_N_FLT radix2 emin prec ltac:(lia) (fun t => negb (Z.even t)) x) as (eps & eta & A & B & _ & ->).
  replace (/ 2 * bpow radix2 (- prec + 1)) with (bpow radix2 (- prec)) in A by (rewrite bpow_plus; change (bpow radix2 1) with 2; field).
  replace (x * (1 + eps) + eta - x) with (eps * x + eta) by ring. eapply Rle_trans; [apply Rabs_triang|]. rewrite Rabs_mult. pose proof (bpow_gt_0 radix2 emin). apply Rplus_le_compat; [apply Rmult_le_compat_r; [apply Rabs_pos|exact A]|lra].
Qed.
Theorem C91_stored : let store := fun x => rounded (-149) 24 (rounded (-1074) 53 x) in let u := bpow radix2 (-24) + bpow radix2 (-50) in let tiny := bpow radix2 (-126) in
  rounding u tiny (rounded (-149) 24) /\ forall a, Rabs (store a - a) <= u * Rabs a + tiny.
Proof.
  intros store u tiny. assert (UV : bpow radix2 (-24) = / 16777216) by (cbn; lra). assert (VV : bpow radix2 (-50) = / 1125899906842624) by (cbn; lra). split.
  - apply (rounding_weaken (bpow radix2 (-24))); [exact rounding_float32|]. unfold u. rewrite UV, VV. lra.
  - intro a. unfold store. set (a' := rounded (-1074) 53 a). pose proof (rounded_error (-1074) 53 a ltac:(lia)) as E1. fold a' in E1. pose proof (rounded_error (-149) 24 a' ltac:(lia)) as E2.
    set (f := rounded (-149) 24 a') in *. assert (D1 : bpow radix2 (-53) = / 9007199254740992) by (cbn; lra). change (- (53))%Z with (-53)%Z in E1. change (- (24))%Z with (-24)%Z in E2.
    assert (T1 : bpow radix2 (-1074) <= bpow radix2 (-149)) by (apply bpow_le; lia). assert (T2 : 4 * bpow radix2 (-149) <= tiny). { replace 4 with (bpow radix2 2) by (cbn; lra). unfold tiny. rewrite <- bpow_plus. apply bpow_le. lia. }
    pose proof (bpow_gt_0 radix2 (-149)) as P1. pose proof (bpow_gt_0 radix2 (-1074)) as P2. rewrite D1 in E1. rewrite UV in E2. unfold u. rewrite UV, VV.
    pose proof (Rabs_pos a). assert (A' : Rabs a' <= Rabs a + Rabs (a' - a)). { replace a' with (a + (a' - a)) at 1 by ring. apply Rabs_triang. }
    assert (TR : Rabs (f - a) <= Rabs (f - a') + Rabs (a' - a)). { replace (f - a) with ((f - a') + (a' - a)) by ring. apply Rabs_triang. }
    lra.
Qed.
Print Assumptions C91_stored.

(** ** Equivariance up to rounding *)
Theorem C91_equivariant tiny rs rs' ms L nrm cartesian norm ys ys' ds a b b' r m j (f f' err err' : nat -> R) : 0 < tiny ->
  spherical_returns tiny rs L nrm cartesian norm ys -> spherical_returns tiny rs' L nrm cartesian norm ys' -> wigner_returns ms L cartesian ds ->
  nth_error rs b = Some r -> nth_error ms a = Some m -> nth_error rs' b' = Some (act r m) -> orthogonal m -> (j < degrees L * degrees L)%nat ->
  (forall k, (k < degrees L * degrees L)%nat -> Rabs (f k - at2 ys b k) <= err k) -> Rabs (f' j - at2 ys' b' j) <= err' j ->
  Rabs (f' j - rsum (degrees L * degrees L) (fun k => f k * at3 0 ds a k j)) <= err' j + rsum (degrees L * degrees L) (fun k => err k * Rabs (at3 0 ds a k j)).
Proof.
  intros T0 Y Y' W Er Em Er' O Hj F F'. rewrite (C24_rotate tiny rs rs' ms L nrm cartesian norm ys ys' ds a b b' r m j T0 Y Y' W Er Em Er' O Hj) in F'.
  set (n := (degrees L * degrees L)%nat) in *. set (d := fun k => at3 0 ds a k j) in *.
  assert (D : Rabs (rsum n (fun k => at2 ys b k * d k) - rsum n (fun k => f k * d k)) <= rsum n (fun k => err k * Rabs (d k))).
  { clear - F. induction n as [|n IH]; [cbn; rewrite Rminus_0_r, Rabs_R0; lra|]. cbn [rsum]. assert (F0 : Rabs (f n - at2 ys b n) <= err n) by (apply F; lia).
    match goal with |- Rabs (?A + ?B - (?C + ?D)) <= _ => replace (A + B - (C + D)) with ((A - C) + (B - D)) by ring end. eapply Rle_trans; [apply Rabs_triang|]. apply Rplus_le_compat; [apply IH; intros; apply F; lia|].
    replace (at2 ys b n * d n - f n * d n) with (- (f n - at2 ys b n) * d n) by ring. rewrite Rabs_mult, Rabs_Ropp. apply Rmult_le_compat_r; [apply Rabs_pos|exact F0]. }
  change (Rabs (f' j - rsum n (fun k => f k * d k)) <= err' j + rsum n (fun k => err k * Rabs (d k))).
  replace (f' j - rsum n (fun k => f k * d k)) with ((f' j - rsum n (fun k => at2 ys b k * d k)) + (rsum n (fun k => at2 ys b k * d k) - rsum n (fun k => f k * d k))) by ring.
  eapply Rle_trans; [apply Rabs_triang|]. apply Rplus_le_compat; [exact F'|exact D].
Qed.
Print Assumptions C91_equivariant.

(** ** An instance: the solid harmonics of (3/5, 0, 4/5) up to degree one in single precision *)
Example C91_instance : let rnd := rounded (-149) 24 in let tiny := bpow radix2 (-126) in let huge := bpow radix2 128 in let E := fun _ _ : nat => direct (harmonic_terms 1) in
  exists ys fs, solid_returns [(3 / 5, 0, 4 / 5)] 1 true ys /\
    snd (float_solid_harmonics rnd tiny huge rnd (fun _ => left_to_right) E 0 empty_world None IoOk 3 [[3 / 5; 0; 4 / 5]] 1 true) = Ok fs /\
    forall j, (j < 4)%nat -> exists f, entry_of fs 0 j = Some f /\ Rabs (f - at2 ys 0 j) <= 1 / 500000.
Proof.
  intros rnd tiny huge E. pose proof rounding_float32 as H. fold rnd in H. fold tiny in H.
  destruct (C91_solid (bpow radix2 (-24)) tiny huge rnd rnd (fun _ => left_to_right) E 0 empty_world None IoOk [(3 / 5, 0, 4 / 5)] 1 true H) as (ys & fs & EY & EF & _ & _ & C);
    [intro a; apply (rnd_any _ _ _ H)|apply sh_ready_empty|apply call_ok_serial|lia|intros; apply C91_plan|].
  exists ys, fs. split; [exists 0%nat, tiny, empty_world, None, IoOk; auto using sh_ready_empty, call_ok_serial|]. split; [exact EF|]. intros j Hj.
  assert (exists l k, j = (l * l + k)%nat /\ (l < 2)%nat /\ (k < 2 * l + 1)%nat) as (l & k & -> & Hl & Hk).
  { destruct j as [|j]; [exists 0%nat, 0%nat; lia|exists 1%nat, j; lia]. }
  destruct (C 0%nat _ l k eq_refl Hl Hk) as (m & Hm & _ & CL). set (e := E 0%nat (l * l + m)%nat) in *. set (r := vlist (3 / 5, 0, 4 / 5)) in *. change (Z.to_nat 1) with 1%nat in CL.
  set (env := exact_operands 1 1 r l m) in *. assert (LR : length_of r = 1). { unfold length_of, r, vlist. cbn [map sum_of]. match goal with |- sqrt ?A = 1 => replace A with 1 by field end. apply sqrt_1. }
  destruct (C91_amplification l) as (A0 & A1 & AP & _). assert (AL : amplification l = 1) by (destruct l as [|[|?]]; [exact A0|exact A1|lia]).
  assert (TB : forall i, Rabs (coefficient 0 (sph_terms l (Z.of_nat m - Z.of_nat l)) (nth i (all_powers 1) [])) <= 2).
  { intro i. pose proof (exact_magnitude 1 l m ltac:(lia) Hm 1 1 1 1 ltac:(lra)) as B. rewrite AL in B. set (ex := exact_operands 1 1 [1; 1; 1] l m) in B.
    destruct (Nat.lt_ge_cases i 4) as [I|I]; [|rewrite nth_overflow by exact I; rewrite LUT_Entry_Proofs.coefficient_out; [rewrite Rabs_R0; lra|intros v IV; destruct (T_facts l m Hm) as (_ & FF & _); destruct (FF _ _ IV); discriminate]].
    assert (B3 : length_of [1; 1; 1] ^ l <= 2). { assert (L3 : 0 <= length_of [1; 1; 1] <= 2) by (split; [apply sqrt_pos|]; unfold length_of; cbn [map sum_of]; rewrite <- (sqrt_square 2) by lra; apply sqrt_le_1_alt; lra). destruct l as [|[|?]]; [rewrite pow_O; lra|rewrite pow_1; lra|lia]. }
    pose proof (fun v => Rabs_pos (ex v)) as EP. pose proof (EP (Table 0)) as P0. pose proof (EP (Table 1)) as P1. pose proof (EP (Table 2)) as P2. pose proof (EP (Table 3)) as P3.
    assert (C0 : Rabs (ex (Coordinate 0)) = 1) by apply Rabs_R1. assert (C1 : Rabs (ex (Coordinate 1)) = 1) by apply Rabs_R1. assert (C2 : Rabs (ex (Coordinate 2)) = 1) by apply Rabs_R1. assert (CC : Rabs (ex Constant) = 1) by apply Rabs_R1.
    change (Rabs (ex (Table i)) <= 2). clearbody ex. cbn in B. rewrite ?C0, ?C1, ?C2, ?CC in B. destruct i as [|[|[|[|?]]]]; [lra|lra|lra|lra|lia]. }
  assert (OB : forall v, Rabs (env v) <= 2).
  { intros [c|i|]; unfold env, exact_operands; cbn [harmonic_env]; [|apply TB|rewrite Rabs_R1; lra]. destruct c as [|[|[|c]]]; unfold r; cbn [nth vlist]; [| | |destruct c]; unfold Rabs; destruct Rcase_abs; lra. }
  assert (RN : harmonic_roundings 1 e = 11%nat) by reflexivity. assert (SZ : size e = 22%nat) by reflexivity.
  assert (UV : bpow radix2 (-24) = / 16777216) by (cbn; lra). assert (T0 : 0 < tiny) by apply bpow_gt_0. assert (TV : tiny * bpow radix2 66 <= bpow radix2 (-60)) by (unfold tiny; rewrite <- bpow_plus; apply bpow_le; lia).
  assert (B66 : bpow radix2 66 = 73786976294838206464) by (cbn; lra). assert (B60 : bpow radix2 (-60) = / 1152921504606846976) by (cbn; lra). rewrite B66, B60 in TV.
  assert (HB : 1000000000000000000000 <= huge) by (apply Rle_trans with (bpow radix2 70); [cbn; lra|apply bpow_le; lia]). assert (N11 : INR 11 = 11) by (cbn; lra).
  assert (S22 : (2 * 2 + 3) ^ 22 = 3909821048582988049) by ring.
  destruct (C91_range (bpow radix2 (-24)) tiny huge 1 env e 2 T0 ltac:(lra) ltac:(lra) OB) as [IR UF]; [rewrite RN, N11, UV; lra|rewrite SZ, S22; lra|].
  destruct (CL 1) as (f & F1 & F2); [left; auto|exact IR|]. exists f. split; [exact F1|]. eapply Rle_trans; [exact F2|]. unfold harmonic_error. fold env. rewrite LR, AL, pow1, RN, N11, UV. rewrite SZ, S22 in UF. lra.
Qed.
