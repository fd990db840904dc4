(** Properties C51 and C65: radial-angular basis functions. *)
Require Import String List Reals ZArith Bool Arith Lra Lia.
Require Import Verif.Base Verif.RSum Verif.Common_Proofs Verif.LUT_Model Verif.LUT_Spec Verif.Radial_Model Verif.Radial_Spec Verif.Radial_Props
  Verif.Rotations_Model Verif.Rotations_Spec Verif.Rotations_Proofs
  Verif.Irreps_Model Verif.Irreps_Spec Verif.Irreps_Proofs Verif.Irreps_Laws_Proofs Verif.Irreps_Props Verif.Wrappers_Model Verif.Wrappers_Spec Verif.Wrappers_Proofs.
Import ListNotations.
Open Scope R_scope.
Open Scope list_scope.

(** * C51 *)

(** For any angular function: the values are products of an angular, a radial, a cutoff and (for all
    entries but the first) a damping factor; the shape is (..., 1, K, num); the optional results are
    the cutoff values and the lengths of the vectors. *)
Theorem C51_any_angular_function : forall W tiny (w w' : W) rs L num radial_fn angular_fn cutoff_fn return_cutoff return_norm damping_fn cartesian g cut dmp ylm K,
  0 < tiny -> rs <> [] -> radial_values radial_fn num rs g -> factor_values cutoff_fn rs cut -> factor_values damping_fn rs dmp ->
  angular_fn w (map vlist (map heading rs)) L cartesian = (w', Ok ylm) -> length ylm = length rs -> Forall (fun y => length y = K) ylm ->
  (return_cutoff = true -> cutoff_fn <> None) ->
  exists y, basis W tiny w 3 (map vlist rs) L num radial_fn angular_fn cutoff_fn return_cutoff return_norm damping_fn cartesian = (w', Ok y) /\
    cutoffs y = (if return_cutoff then Some cut else None) /\ norms y = (if return_norm then Some (map size rs) else None) /\
    length (values y) = length rs /\
    Forall (fun v => exists m, v = [m] /\ length m = K /\ Forall (fun row => length row = Z.to_nat num) m) (values y) /\
    forall b i f, (b < length rs)%nat -> (i < K)%nat -> (f < Z.to_nat num)%nat ->
      entry_of y b i f = at2 ylm b i * (at2 g b f * nth b cut 0 * (if (i =? 0)%nat then 1 else nth b dmp 0)).
Proof.
  intros W tiny w w' rs L num radial angular cutoff rc rn damping cart g cut dmp ylm K Ht Hne Hg Hcut Hdmp Ea Ly Fy Hrc.
  eexists. split; [eapply basis_run; eassumption|]. cbn [cutoffs norms values]. split; [reflexivity|]. split; [reflexivity|].
  destruct Hg as (_ & Lg & Fg). pose proof (factor_length _ _ _ Hcut) as Lc. pose proof (factor_length _ _ _ Hdmp) as Ld.
  destruct (combined_shape (length rs) (Z.to_nat num) K ylm g cut dmp Ly Fy Lg Fg Lc Ld) as [S1 S2].
  split; [now rewrite map_length|]. split.
  - apply Forall_forall. intros v Hv. apply in_map_iff in Hv as (m & <- & Hm). rewrite Forall_forall in S2. destruct (S2 m Hm). eauto.
  - intros b i f Hb Hi Hf. unfold entry_of. cbn [values]. rewrite (nth_map' _ _ _ _ []) by lia. cbn [nth].
    rewrite (combined_entry (length rs) (Z.to_nat num) K) by assumption. ring.
Qed.
Print Assumptions C51_any_angular_function.

(** With the default angular function (spherical harmonics of the directions) the call succeeds for
    every degree >= 0, state of the cache and schedule. *)
Theorem C51_total : forall tiny empty w s o rs L num radial_fn cutoff_fn return_cutoff return_norm damping_fn cartesian g cut dmp,
  0 < tiny -> rs <> [] -> sh_ready w -> call_ok s o -> (0 <= L)%Z ->
  radial_values radial_fn num rs g -> factor_values cutoff_fn rs cut -> factor_values damping_fn rs dmp -> (return_cutoff = true -> cutoff_fn <> None) ->
  exists y, snd (basis _ tiny w 3 (map vlist rs) L num radial_fn (default_angular_fn empty tiny s o) cutoff_fn return_cutoff return_norm damping_fn cartesian) = Ok y.
Proof.
  intros tiny empty w s o rs L num radial cutoff rc rn damping c g cut dmp Ht Hne Hw Hc HL Hg Hcut Hdmp Hrc.
  destruct (spherical_ok empty tiny w s o (map heading rs) L true c "racah" Hw Hc HL racah_known (or_introl eq_refl)) as (ys & Ey & F).
  destruct (default_angular_fn empty tiny s o w (map vlist (map heading rs)) L c) as [w' r] eqn:Ea. unfold default_angular_fn in Ea. rewrite Ea in Ey. cbn [snd] in Ey. subst r.
  eexists. erewrite basis_run; [reflexivity|eassumption..|exact Ea| |exact Hrc]. apply Forall2_length in F. rewrite map_length in F. now symmetry.
Qed.
Print Assumptions C51_total.

Lemma basis_inv : forall tiny rs L num radial cutoff rc rn damping c g cut dmp y,
  0 < tiny -> rs <> [] -> (0 <= L)%Z ->
  radial_values radial num rs g -> factor_values cutoff rs cut -> factor_values damping rs dmp -> (rc = true -> cutoff <> None) ->
  basis_returns tiny rs L num radial cutoff rc rn damping c y ->
  exists ys, solid_returns (map heading rs) L c ys /\
    cutoffs y = (if rc then Some cut else None) /\ norms y = (if rn then Some (map size rs) else None) /\
    length (values y) = length rs /\
    Forall (fun v => exists m, v = [m] /\ length m = (degrees L * degrees L)%nat /\ Forall (fun row => length row = Z.to_nat num) m) (values y) /\
    forall b i f, (b < length rs)%nat -> (i < degrees L * degrees L)%nat -> (f < Z.to_nat num)%nat ->
      entry_of y b i f = at2 ys b i * (at2 g b f * nth b cut 0 * (if (i =? 0)%nat then 1 else nth b dmp 0)).
Proof.
  intros tiny rs L num radial cutoff rc rn damping c g cut dmp y Ht Hne HL Hg Hcut Hdmp Hrc (empty & w & s & o & Hw & Hc & E).
  destruct (spherical_ok empty tiny w s o (map heading rs) L true c "racah" Hw Hc HL racah_known (or_introl eq_refl)) as (ys & Ey & F).
  destruct (default_angular_fn empty tiny s o w (map vlist (map heading rs)) L c) as [w' r] eqn:Ea. pose proof Ea as Ea'. unfold default_angular_fn in Ea. rewrite Ea in Ey. cbn [snd] in Ey. subst r.
  assert (Ly : length ys = length rs) by (apply Forall2_length in F; rewrite map_length in F; now symmetry).
  assert (Fy : Forall (fun y => length y = (degrees L * degrees L)%nat) ys) by (clear -F; induction F as [|v0 y0 vs ys0 [H _] F0 IH]; constructor; assumption).
  destruct (C51_any_angular_function _ tiny w w' rs L num radial (default_angular_fn empty tiny s o) cutoff rc rn damping c g cut dmp ys _ Ht Hne Hg Hcut Hdmp Ea' Ly Fy Hrc) as (y' & E' & R).
  rewrite E' in E. cbn [snd] in E. injection E as ->. exists ys. split; [|exact R].
  exists empty, tiny, w, s, o. split; [exact Hw|]. split; [exact Hc|]. unfold solid_harmonics. rewrite Ea. reflexivity.
Qed.

Lemma solid_unique : forall rs L c ys ys' b i, solid_returns rs L c ys -> solid_returns rs L c ys' -> (b < length rs)%nat -> (i < degrees L * degrees L)%nat -> at2 ys b i = at2 ys' b i.
Proof.
  intros rs L c ys ys' b i H H' Hb Hi. apply solid_inv in H as [_ H]. apply solid_inv in H' as [_ H'].
  destruct (nth_error rs b) as [r|] eqn:E; [|apply nth_error_None in E; lia].
  destruct (Forall2_get _ _ _ _ _ [] _ _ H E) as [[_ R1] _]. destruct (Forall2_get _ _ _ _ _ [] _ _ H' E) as [[_ R2] _].
  destruct (block_decomp i) as (l & k & -> & Hk & _). unfold degrees in Hi. assert (l <= Z.to_nat L)%nat by nia. unfold at2. now rewrite R1, R2.
Qed.

(** B(r) = Y(r/|r|) g(|r|) c(|r|), and for degrees above zero also times d(|r|). *)
Theorem C51_factorises : forall tiny rs L num radial_fn cutoff_fn return_cutoff return_norm damping_fn cartesian g cut dmp y ys,
  0 < tiny -> rs <> [] -> (0 <= L)%Z ->
  radial_values radial_fn num rs g -> factor_values cutoff_fn rs cut -> factor_values damping_fn rs dmp -> (return_cutoff = true -> cutoff_fn <> None) ->
  basis_returns tiny rs L num radial_fn cutoff_fn return_cutoff return_norm damping_fn cartesian y -> solid_returns (map heading rs) L cartesian ys ->
  cutoffs y = (if return_cutoff then Some cut else None) /\ norms y = (if return_norm then Some (map size rs) else None) /\
  length (values y) = length rs /\
  Forall (fun v => exists m, v = [m] /\ length m = (degrees L * degrees L)%nat /\ Forall (fun row => length row = Z.to_nat num) m) (values y) /\
  forall b f l k, (b < length rs)%nat -> (f < Z.to_nat num)%nat -> (l < degrees L)%nat -> (k < 2 * l + 1)%nat ->
    entry_of y b (l * l + k) f = at2 ys b (l * l + k) * (at2 g b f * nth b cut 0 * (if (l =? 0)%nat then 1 else nth b dmp 0)).
Proof.
  intros tiny rs L num radial cutoff rc rn damping c g cut dmp y ys Ht Hne HL Hg Hcut Hdmp Hrc HB HS.
  destruct (basis_inv _ _ _ _ _ _ _ _ _ _ _ _ _ _ Ht Hne HL Hg Hcut Hdmp Hrc HB) as (ys' & HS' & R1 & R2 & R3 & R4 & V).
  repeat (split; [assumption|]). intros b f l k Hb Hf Hl Hk. assert (Hi : (l * l + k < degrees L * degrees L)%nat) by nia.
  rewrite V by assumption. rewrite (solid_unique _ _ _ _ _ _ _ HS' HS) by (rewrite ?map_length; assumption). f_equal. f_equal.
  destruct (Nat.eqb_spec l 0) as [->|]; [replace k with 0%nat by lia; reflexivity|]. destruct (Nat.eqb_spec (l * l + k) 0); [nia|reflexivity].
Qed.
Print Assumptions C51_factorises.

(** The degree-0 part is the radial part alone, and all entries vanish where the cutoff does. *)
Theorem C51_degree_zero : forall tiny rs L num radial_fn cutoff_fn return_cutoff return_norm damping_fn cartesian g cut dmp y b f,
  0 < tiny -> rs <> [] -> (0 <= L)%Z ->
  radial_values radial_fn num rs g -> factor_values cutoff_fn rs cut -> factor_values damping_fn rs dmp -> (return_cutoff = true -> cutoff_fn <> None) ->
  basis_returns tiny rs L num radial_fn cutoff_fn return_cutoff return_norm damping_fn cartesian y ->
  (b < length rs)%nat -> (f < Z.to_nat num)%nat ->
  entry_of y b 0 f = at2 g b f * nth b cut 0 /\
  (nth b cut 0 = 0 -> forall i, (i < degrees L * degrees L)%nat -> entry_of y b i f = 0).
Proof.
  intros tiny rs L num radial cutoff rc rn damping c g cut dmp y b f Ht Hne HL Hg Hcut Hdmp Hrc HB Hb Hf.
  destruct (basis_inv _ _ _ _ _ _ _ _ _ _ _ _ _ _ Ht Hne HL Hg Hcut Hdmp Hrc HB) as (ys & HS & _ & _ & _ & _ & V).
  destruct (nth_error (map heading rs) b) as [[[x y0] z]|] eqn:E; [|apply nth_error_None in E; rewrite map_length in E; lia]. split.
  - rewrite V by (try assumption; unfold degrees; nia). cbn [Nat.eqb]. rewrite (proj1 (C21_low_degrees _ _ _ _ _ _ _ _ HS E)). ring.
  - intros Z0 i Hi. rewrite V by assumption. rewrite Z0. ring.
Qed.
Print Assumptions C51_degree_zero.

(** With the cutoff functions of the package: zero for all vectors that are at least as long as the
    cutoff. *)
Theorem C51_beyond_cutoff : forall tiny rs L num radial_fn cutoff_fn c return_cutoff return_norm damping_fn cartesian g dmp y b r i f,
  0 < tiny -> (0 <= L)%Z -> 0 < c ->
  cutoff_fn = elementwise (fun x => smooth_cutoff x c) \/ cutoff_fn = elementwise (fun x => cosine_cutoff x c) ->
  radial_values radial_fn num rs g -> factor_values damping_fn rs dmp ->
  basis_returns tiny rs L num radial_fn (Some cutoff_fn) return_cutoff return_norm damping_fn cartesian y ->
  nth_error rs b = Some r -> c <= size r -> (i < degrees L * degrees L)%nat -> (f < Z.to_nat num)%nat ->
  entry_of y b i f = 0.
Proof.
  intros tiny rs L num radial cf c rc rn damping ca g dmp y b r i f Ht HL Hc Hcf Hg Hdmp HB Er Hr Hi Hf.
  assert (EL : forall (h : R -> result R) h' l, (forall x, h x = Ok (h' x)) -> elementwise h l = Ok (map h' l)).
  { intros h h' l Hh. unfold elementwise. induction l as [|x l IH]; [reflexivity|]. cbn [rmapM]. rewrite Hh. cbn [bind]. rewrite IH. reflexivity. }
  assert (X : exists h', (forall l, cf l = Ok (map h' l)) /\ forall x, c <= x -> h' x = 0).
  { destruct Hcf as [-> | ->].
    - destruct (C41_smooth_cutoff c Hc) as (h' & H1 & _ & _ & _ & _ & H2 & _). exists h'. split; [intros; now apply EL|exact H2].
    - destruct (C41_cosine_cutoff c Hc) as (h' & H1 & _ & _ & _ & H2 & _). exists h'. split; [intros; now apply EL|exact H2]. }
  destruct X as (h' & H1 & H2). assert (Hb : (b < length rs)%nat) by (apply nth_error_Some; congruence).
  assert (Hcut : factor_values (Some cf) rs (map h' (map size rs))) by (split; [apply H1|now rewrite !map_length]).
  refine (proj2 (C51_degree_zero tiny rs L num radial (Some cf) rc rn damping ca g _ dmp y b f Ht _ HL Hg Hcut Hdmp _ HB Hb Hf) _ i Hi).
  - intros ->. cbn in Hb. lia.
  - discriminate.
  - rewrite map_map. rewrite (nth_map' _ _ _ _ r) by exact Hb. apply H2. rewrite (nth_error_nth _ _ _ Er). exact Hr.
Qed.
Print Assumptions C51_beyond_cutoff.

Lemma same_ones : forall A B (a : list A) (b : list B), length a = length b -> map (fun _ => 1) a = map (fun _ => 1) b.
Proof. intros A B a. induction a as [|x a IH]; intros [|y b] L; try discriminate; [reflexivity|]. cbn [map]. f_equal. apply IH. cbn in L. lia. Qed.

(** Rotating or reflecting the vectors multiplies the values with the matrices of [wigner_d]. *)
Theorem C51_rotate : forall tiny rs rs' ms L num radial_fn cutoff_fn return_cutoff return_norm damping_fn cartesian g cut dmp y y' ds b i f,
  0 < tiny -> rs <> [] -> (0 <= L)%Z ->
  radial_values radial_fn num rs g -> factor_values cutoff_fn rs cut -> factor_values damping_fn rs dmp -> (return_cutoff = true -> cutoff_fn <> None) ->
  length ms = length rs -> Forall orthogonal ms -> rs' = map (fun p => act (fst p) (snd p)) (combine rs ms) ->
  basis_returns tiny rs L num radial_fn cutoff_fn return_cutoff return_norm damping_fn cartesian y ->
  basis_returns tiny rs' L num radial_fn cutoff_fn return_cutoff return_norm damping_fn cartesian y' ->
  wigner_returns ms L cartesian ds ->
  (b < length rs)%nat -> (i < degrees L * degrees L)%nat -> (f < Z.to_nat num)%nat ->
  entry_of y' b i f = rsum (degrees L * degrees L) (fun k => entry_of y b k f * at3 0 ds b k i).
Proof.
  intros tiny rs rs' ms L num radial cutoff rc rn damping c g cut dmp y y' ds b i f Ht Hne HL Hg Hcut Hdmp Hrc Lm Fm -> HB HB' HW Hb Hi Hf.
  set (rs' := map (fun p => act (fst p) (snd p)) (combine rs ms)) in *.
  assert (Lr : length rs' = length rs) by (unfold rs'; apply map_combine_length; lia).
  assert (SZ : map size rs' = map size rs).
  { clear -Lm Fm. unfold rs'. clear rs'. revert ms Lm Fm. induction rs as [|r rs IH]; intros [|m ms] Lm Fm; try discriminate; [reflexivity|]. inversion Fm; subst. cbn [combine map fst snd].
    rewrite size_act by assumption. f_equal. apply IH; [cbn in Lm; lia|assumption]. }
  assert (Hg' : radial_values radial num rs' g) by (unfold radial_values in *; rewrite SZ, Lr; exact Hg).
  assert (HF : forall h v, factor_values h rs v -> factor_values h rs' v).
  { intros [h|] v H; unfold factor_values in *; [rewrite SZ, Lr; exact H|]. subst v. apply same_ones. now symmetry. }
  destruct (basis_inv _ _ _ _ _ _ _ _ _ _ _ _ _ _ Ht Hne HL Hg Hcut Hdmp Hrc HB) as (ys & HS & _ & _ & _ & _ & V).
  assert (Hne' : rs' <> []) by (intros Q; rewrite Q in Lr; destruct rs; [contradiction|discriminate]).
  destruct (basis_inv _ _ _ _ _ _ _ _ _ _ _ _ _ _ Ht Hne' HL Hg' (HF _ _ Hcut) (HF _ _ Hdmp) Hrc HB') as (ys' & HS' & _ & _ & _ & _ & V').
  assert (Er : nth_error rs b = Some (nth b rs (0, 0, 0))) by (apply nth_error_nth'; exact Hb).
  assert (Em : nth_error ms b = Some (nth b ms unit_matrix)) by (apply nth_error_nth'; lia).
  set (r := nth b rs (0, 0, 0)) in *. set (m := nth b ms unit_matrix) in *.
  assert (Ho : orthogonal m) by (rewrite Forall_forall in Fm; apply Fm; eapply nth_error_In; exact Em).
  assert (E1 : nth_error (map heading rs) b = Some (heading r)) by (now apply map_nth_error).
  assert (E2 : nth_error (map heading rs') b = Some (act (heading r) m)).
  { rewrite <- heading_act by exact Ho. apply map_nth_error. rewrite (nth_error_nth' rs' (act (0, 0, 0) unit_matrix)) by lia. f_equal.
    unfold rs'. rewrite (nth_map_combine _ _ _ _ _ _ _ (0, 0, 0) unit_matrix); [reflexivity|exact Hb|now symmetry]. }
  rewrite V' by (try assumption; lia). rewrite (C24_rotate_solid _ _ _ _ _ _ _ _ b b b _ _ i HS HS' HW E1 Em E2 Ho Hi).
  rewrite <- rsum_scal_r. apply rsum_ext. intros k Hk. rewrite V by assumption.
  pose proof HW as HW'. apply wigner_inv in HW' as [_ HW']. destruct (Forall2_get _ _ _ _ _ [] _ _ HW' Em) as [[_ [_ D]] _].
  destruct (Nat.eqb_spec i 0) as [Ei|Ni]; destruct (Nat.eqb_spec k 0) as [Ek|Nk]; try ring.
  - destruct (block_decomp k) as (l & q & -> & Hq & _). assert (Hl : (0 < l)%nat) by nia. unfold degrees in Hk. assert (l <= Z.to_nat L)%nat by nia.
    specialize (D l 0%nat q 0%nat ltac:(lia) ltac:(lia) Hq ltac:(lia)). unfold at3, at2 in *. cbn [Nat.mul Nat.add] in D. rewrite Ei, D. destruct (Nat.eq_dec l 0); [lia|]. ring.
  - destruct (block_decomp i) as (l & q & -> & Hq & _). assert (Hl : (0 < l)%nat) by nia. unfold degrees in Hi. assert (l <= Z.to_nat L)%nat by nia.
    specialize (D 0%nat l 0%nat q ltac:(lia) ltac:(lia) ltac:(lia) Hq). unfold at3, at2 in *. cbn [Nat.mul Nat.add] in D. rewrite Ek, D. destruct (Nat.eq_dec 0 l); [lia|]. ring.
Qed.
Print Assumptions C51_rotate.

(** Parity: turning all vectors around multiplies degree l by (-1)^l. *)
Theorem C51_parity : forall tiny rs rs' L num radial_fn cutoff_fn return_cutoff return_norm damping_fn cartesian g cut dmp y y' b l k f,
  0 < tiny -> rs <> [] -> (0 <= L)%Z ->
  radial_values radial_fn num rs g -> factor_values cutoff_fn rs cut -> factor_values damping_fn rs dmp -> (return_cutoff = true -> cutoff_fn <> None) ->
  rs' = map (times (-1)) rs ->
  basis_returns tiny rs L num radial_fn cutoff_fn return_cutoff return_norm damping_fn cartesian y ->
  basis_returns tiny rs' L num radial_fn cutoff_fn return_cutoff return_norm damping_fn cartesian y' ->
  (b < length rs)%nat -> (l < degrees L)%nat -> (k < 2 * l + 1)%nat -> (f < Z.to_nat num)%nat ->
  entry_of y' b (l * l + k) f = (if Nat.even l then 1 else -1) * entry_of y b (l * l + k) f.
Proof.
  intros tiny rs rs' L num radial cutoff rc rn damping c g cut dmp y y' b l k f Ht Hne HL Hg Hcut Hdmp Hrc -> HB HB' Hb Hl Hk Hf.
  assert (S1 : forall r, size (times (-1) r) = size r) by (intros [[u v] w]; unfold size; cbn; f_equal; ring).
  assert (SZ : map size (map (times (-1)) rs) = map size rs) by (rewrite map_map; apply map_ext; exact S1).
  assert (Hg' : radial_values radial num (map (times (-1)) rs) g) by (unfold radial_values in *; rewrite SZ, map_length; exact Hg).
  assert (HF : forall h v, factor_values h rs v -> factor_values h (map (times (-1)) rs) v) by (intros [h|] v H; unfold factor_values in *; [rewrite SZ, map_length; exact H|now rewrite map_map]).
  destruct (basis_inv _ _ _ _ _ _ _ _ _ _ _ _ _ _ Ht Hne HL Hg Hcut Hdmp Hrc HB) as (ys & HS & _ & _ & _ & _ & V).
  assert (Hne' : map (times (-1)) rs <> []) by (destruct rs; [contradiction|discriminate]).
  destruct (basis_inv _ _ _ _ _ _ _ _ _ _ _ _ _ _ Ht Hne' HL Hg' (HF _ _ Hcut) (HF _ _ Hdmp) Hrc HB') as (ys' & HS' & _ & _ & _ & _ & V').
  assert (Er : nth_error rs b = Some (nth b rs (0, 0, 0))) by (apply nth_error_nth'; exact Hb). set (r := nth b rs (0, 0, 0)) in *.
  assert (Eh : heading (times (-1) r) = times (-1) (heading r)).
  { unfold heading. rewrite S1. destruct (Req_EM_T (size r) 0); [reflexivity|]. unfold unit_of. rewrite S1. destruct r as [[u v] w]. cbn [times]. f_equal; [f_equal|]; ring. }
  assert (E1 : nth_error (map heading rs) b = Some (heading r)) by (now apply map_nth_error).
  assert (E2 : nth_error (map heading (map (times (-1)) rs)) b = Some (times (-1) (heading r))) by (rewrite <- Eh; now apply map_nth_error, map_nth_error).
  assert (Hi : (l * l + k < degrees L * degrees L)%nat) by nia.
  rewrite V, V' by (rewrite ?map_length; assumption). destruct (heading r) as [[u v] w]. cbn [times] in E2.
  replace (-1 * u, -1 * v, -1 * w) with (- u, - v, - w) in E2 by (f_equal; [f_equal|]; ring).
  rewrite (C21_parity _ _ _ _ _ _ b b _ _ _ l k HS HS' E1 E2 Hl Hk). ring.
Qed.
Print Assumptions C51_parity.

(** The zero vector: only the degree-0 entries can differ from zero, with or without damping. *)
Theorem C51_zero_vector : forall tiny rs L num radial_fn cutoff_fn return_cutoff return_norm damping_fn cartesian g cut dmp y b i f,
  0 < tiny -> rs <> [] -> (0 <= L)%Z ->
  radial_values radial_fn num rs g -> factor_values cutoff_fn rs cut -> factor_values damping_fn rs dmp -> (return_cutoff = true -> cutoff_fn <> None) ->
  basis_returns tiny rs L num radial_fn cutoff_fn return_cutoff return_norm damping_fn cartesian y ->
  nth_error rs b = Some (0, 0, 0) -> (0 < i < degrees L * degrees L)%nat -> (f < Z.to_nat num)%nat ->
  entry_of y b i f = 0.
Proof.
  intros tiny rs L num radial cutoff rc rn damping c g cut dmp y b i f Ht Hne HL Hg Hcut Hdmp Hrc HB Er [Hi0 Hi] Hf.
  destruct (basis_inv _ _ _ _ _ _ _ _ _ _ _ _ _ _ Ht Hne HL Hg Hcut Hdmp Hrc HB) as (ys & HS & _ & _ & _ & _ & V).
  assert (Hb : (b < length rs)%nat) by (apply nth_error_Some; congruence). rewrite V by assumption.
  assert (Eh : heading (0, 0, 0) = (0, 0, 0)).
  { unfold heading. destruct (Req_EM_T _ _) as [|N]; [reflexivity|]. exfalso. apply N. unfold size. cbn [dot]. replace (0 * 0 + 0 * 0 + 0 * 0) with 0 by ring. apply sqrt_0. }
  assert (E1 : nth_error (map heading rs) b = Some (times 0 (0, 0, 0))).
  { rewrite (map_nth_error _ _ _ Er), Eh. cbn. now rewrite Rmult_0_l. }
  assert (E0 : nth_error (map heading rs) b = Some (0, 0, 0)) by (rewrite (map_nth_error _ _ _ Er), Eh; reflexivity).
  destruct (block_decomp i) as (l & k & -> & Hk & _). assert (Hl : (l < degrees L)%nat) by nia. assert (0 < l)%nat by nia.
  rewrite (C21_homogeneous _ _ _ _ _ _ b b _ 0 l k HS HS E0 E1 Hl Hk). rewrite pow_ne_zero by lia. ring.
Qed.
Print Assumptions C51_zero_vector.

(** Rejected arguments, for every angular function: wrong last dimension, cutoff values requested
    without a cutoff function; with the default angular function also negative degrees. An array
    without vectors raises, too. *)
Theorem C51_rejected : forall W tiny (w : W) dim r L num radial_fn angular_fn cutoff_fn return_cutoff return_norm damping_fn cartesian,
  (dim <> 3%nat \/ (return_cutoff = true /\ cutoff_fn = None) \/ r = [] ->
   basis W tiny w dim r L num radial_fn angular_fn cutoff_fn return_cutoff return_norm damping_fn cartesian = (w, Err ValueError)).
Proof.
  intros W tiny w dim r L num radial angular cutoff rc rn damping c H. unfold basis. destruct (Nat.eqb_spec dim 3) as [E|N]; cbn [negb]; [|reflexivity].
  destruct (rc && _) eqn:G; [reflexivity|]. destruct H as [H|[[-> ->]|H]]; [contradiction|discriminate|]. subst r. reflexivity.
Qed.
Print Assumptions C51_rejected.

Theorem C51_negative_degree : forall tiny empty w s o rs L num radial_fn cutoff_fn return_cutoff return_norm damping_fn cartesian g cut,
  0 < tiny -> rs <> [] -> (L < 0)%Z -> radial_values radial_fn num rs g -> factor_values cutoff_fn rs cut ->
  snd (basis _ tiny w 3 (map vlist rs) L num radial_fn (default_angular_fn empty tiny s o) cutoff_fn return_cutoff return_norm damping_fn cartesian) = Err ValueError.
Proof.
  intros tiny empty w s o rs L num radial cutoff rc rn damping c g cut Ht Hne HL (Eg & _) Hcut. unfold basis. cbn [Nat.eqb negb]. destruct (rc && _); [reflexivity|].
  rewrite norm_ok by (try exact Ht; now apply concat_vlist). cbn [bind]. rewrite map_map.
  rewrite (map_ext (fun x => length_of (vlist x)) size) by apply size_length. rewrite Eg. cbn [bind].
  assert (A : forall u, default_angular_fn empty tiny s o w u L c = (w, Err ValueError)).
  { intros u. unfold default_angular_fn, spherical_harmonics, Common_Model.check_degree. cbn [Nat.eqb negb]. destruct (Z.ltb_spec L 0); [reflexivity|lia]. }
  destruct cutoff as [h|]; cbn in Hcut; [destruct Hcut as [-> _]; cbn [bind]|]; rewrite A; reflexivity.
Qed.
Print Assumptions C51_negative_degree.

(** Two vectors, a cutoff at 2 and a damping function; the second vector is beyond the cutoff. *)
Example C51_case : let rs := [(1, 0, 0); (0, 3, 0)] in
  exists y, basis_returns 1 rs 1 2 (fun n _ => Ok (map (fun x => [x; x + 1]) n)) (Some (elementwise (fun x => smooth_cutoff x 2))) true true
      (Some (fun n => Ok (map (fun x => x / 2) n))) true y /\
    norms y = Some [1; 3] /\ (exists c, c <> 0 /\ entry_of y 0 0 1 = 2 * c /\ entry_of y 0 1 1 = c) /\ entry_of y 1 2 1 = 0.
Proof.
  intros rs. set (radial := fun (n : list R) (_ : Z) => Ok (map (fun x => [x; x + 1]) n)). set (cf := elementwise (fun x => smooth_cutoff x 2)). set (df := fun n : list R => Ok (map (fun x => x / 2) n)).
  assert (S1 : size (1, 0, 0) = 1) by (unfold size; cbn [dot]; replace (1 * 1 + 0 * 0 + 0 * 0) with 1 by ring; apply sqrt_1).
  assert (S2 : size (0, 3, 0) = 3) by (unfold size; cbn [dot]; replace (0 * 0 + 3 * 3 + 0 * 0) with (3 * 3) by ring; apply sqrt_square; lra).
  assert (SZ : map size rs = [1; 3]) by (unfold rs; cbn [map]; now rewrite S1, S2).
  destruct (C41_smooth_cutoff 2 ltac:(lra)) as (h & H1 & _ & _ & HP & _ & H2 & _).
  assert (Hg : radial_values radial 2 rs [[1; 1 + 1]; [3; 3 + 1]]) by (unfold radial_values; rewrite SZ; repeat constructor).
  assert (Hcut : factor_values (Some cf) rs [h 1; h 3]) by (unfold factor_values, cf, elementwise; rewrite SZ; cbn [rmapM]; rewrite !H1; repeat constructor).
  assert (Hdmp : factor_values (Some df) rs [1 / 2; 3 / 2]) by (unfold factor_values, df; rewrite SZ; repeat constructor).
  assert (Hne : rs <> []) by discriminate. assert (Hrc : true = true -> Some cf <> None) by discriminate.
  destruct (C51_total 1 0 empty_world None IoOk rs 1 2 radial (Some cf) true true (Some df) true _ _ _ ltac:(lra) Hne sh_ready_empty call_ok_serial ltac:(lia) Hg Hcut Hdmp Hrc) as [y Ey].
  assert (HB : basis_returns 1 rs 1 2 radial (Some cf) true true (Some df) true y) by (exists 0%nat, empty_world, None, IoOk; auto using sh_ready_empty, call_ok_serial).
  destruct (solid_exists (map heading rs) 1 true ltac:(lia)) as [ys HS].
  destruct (C51_factorises 1 rs 1 2 _ _ _ _ _ _ _ _ _ _ _ ltac:(lra) Hne ltac:(lia) Hg Hcut Hdmp Hrc HB HS) as (_ & N & _ & _ & V).
  exists y. split; [exact HB|]. split; [rewrite N, SZ; reflexivity|].
  assert (E : nth_error (map heading rs) 0 = Some (1, 0, 0)).
  { unfold rs. cbn [map nth_error]. f_equal. unfold heading. rewrite S1. destruct (Req_EM_T 1 0); [lra|]. unfold unit_of. rewrite S1. cbn [times]. rewrite Rinv_1. f_equal; [f_equal|]; ring. }
  destruct (C21_low_degrees _ _ _ _ _ _ _ _ HS E) as [Y0 Y1]. destruct (Y1 ltac:(lia)) as (Y2 & _ & _).
  split.
  - exists (h 1). pose proof (V 0%nat 1%nat 0%nat 0%nat ltac:(cbn; lia) ltac:(cbn; lia) ltac:(cbn; lia) ltac:(lia)) as A. pose proof (V 0%nat 1%nat 1%nat 0%nat ltac:(cbn; lia) ltac:(cbn; lia) ltac:(cbn; lia) ltac:(lia)) as B.
    cbn [Nat.mul Nat.add Nat.eqb] in A, B. rewrite Y0 in A. rewrite Y2 in B. cbn [at2 nth] in A, B. unfold at2 in A, B. cbn [nth] in A, B. split; [|split; [rewrite A; ring|rewrite B; field]].
    specialize (HP 1). lra.
  - change 2%nat with (1 * 1 + 1)%nat. rewrite (V 1%nat 1%nat 1%nat 1%nat ltac:(cbn; lia) ltac:(cbn; lia) ltac:(cbn; lia) ltac:(lia)). cbn [nth]. rewrite (H2 3) by lra. ring.
Qed.

(** * C65 *)

(** A freshly initialised [ExponentialBasis] computes [basis] with the radial function at
    gamma = initial_gamma; whatever the parameter is trained to, gamma is positive, and every positive
    gamma can be reached. *)
Theorem C65_exponential_basis : forall W tiny (w : W) dim r L num radial_fn angular_fn cutoff_fn return_cutoff return_norm damping_fn cartesian,
  (forall initial_gamma, 0 < initial_gamma ->
     exponential_basis (exponential_basis_init initial_gamma) W tiny w dim r L num radial_fn angular_fn cutoff_fn return_cutoff return_norm damping_fn cartesian
     = basis W tiny w dim r L num (radial_fn initial_gamma) angular_fn cutoff_fn return_cutoff return_norm damping_fn cartesian) /\
  (forall param, exists gamma, 0 < gamma /\
     exponential_basis param W tiny w dim r L num radial_fn angular_fn cutoff_fn return_cutoff return_norm damping_fn cartesian
     = basis W tiny w dim r L num (radial_fn gamma) angular_fn cutoff_fn return_cutoff return_norm damping_fn cartesian).
Proof.
  intros W tiny w dim r L num radial angular cutoff rc rn damping c. destruct C57_inverse_softplus as [H1 H2]. split.
  - intros g Hg. unfold exponential_basis, exponential_basis_init. change (jax_softplus (inverse_softplus g)) with (softplus (inverse_softplus g)). now rewrite H1.
  - intros p. exists (jax_softplus p). split; [|reflexivity]. apply (proj1 (H2 p)).
Qed.
Print Assumptions C65_exponential_basis.

(** The radial function sees gamma = 3. *)
Example C65_case : exists y,
  exponential_basis (exponential_basis_init 3) unit 1 tt 3 [[0; 0; 2]] 0 1 (fun gamma n _ => Ok (map (fun x => [gamma * x]) n)) (fun w r _ _ => (w, Ok (map (fun _ => [1]) r))) None false true None true = (tt, Ok y) /\
  entry_of y 0 0 0 = 6 /\ norms y = Some [2].
Proof.
  rewrite (proj1 (C65_exponential_basis unit 1 tt 3 [[0; 0; 2]] 0 1 _ _ None false true None true)) by lra.
  assert (N : norm 1 [[0; 0; 2]] = Ok [2]).
  { rewrite norm_ok by (lra || discriminate). cbn [map]. f_equal. f_equal. unfold length_of. cbn [map sum_of]. replace (0 ^ 2 + (0 ^ 2 + (2 ^ 2 + 0))) with (2 * 2) by ring. apply sqrt_square. lra. }
  unfold basis. cbn [Nat.eqb negb andb]. rewrite N. eexists. split; [reflexivity|]. split; [unfold entry_of; cbn; ring|reflexivity].
Qed.
