(** C76: predictions are continuous functions of the positions.  C77: forces exist.  C78: predictions and forces are
    smooth functions of the positions. *)
Require Import List Reals ZArith Bool Lia Lra.
Require Import Verif.Base Verif.RSum Verif.Features_Model Verif.Features_Spec Verif.Activations_Model Verif.Activations_Proofs Verif.Modules_Model Verif.Modules_Graph_Spec Verif.Radial_Model Verif.Radial_Props Verif.Rotations_Model Verif.Rotations_Spec Verif.Rotations_Proofs Verif.Smooth
  Verif.Equivariance_Spec Verif.Equivariance_Props Verif.Network_Spec Verif.Network_Props Verif.Shapes_Proofs Verif.Locality_Spec Verif.Locality_Props Verif.Molecule_Spec Verif.Molecule_Props Verif.Cutoff_Props Verif.Regular_Spec Verif.Regular_Proofs Verif.Regular_Molecule_Proofs Verif.Regular_Class_Proofs.
Import ListNotations.
Open Scope R_scope.

(** * Predictions as functions of the positions, for any of the classes *)

Lemma scalar_part : forall y i f, has_scalars y -> comp y i 0 0 0 f = fv y i 0%nat 0%nat f /\ (0 < fS y)%nat /\ (0 < fD y)%nat.
Proof.
  intros y i f [n [HS HD]]. assert (0 < fD y)%nat by nia. unfold comp. destruct (Nat.leb_spec ((0 + 1) * (0 + 1)) (fD y)); [|lia]. split; [|lia]. destruct (fS y =? 2)%nat; reflexivity.
Qed.

Lemma predicts_scalars : forall M A ys k y, proper_model M -> predicts M A ys -> nth_error ys k = Some y -> has_scalars y.
Proof.
  intros M A ys k y [HP [Hc _]] [e [x [b [Ee [Ax [_ H]]]]]] Hk. destruct (embed_part M A e x Ee Ax) as [X1 [X2 [X3 _]]].
  assert (SN : Forall has_scalars [x]) by (constructor; [|constructor]; exists 0%nat; split; [now left|exact X3]).
  pose proof (run_scalars (m_cg M) (m_low M) (m_high M) (C67_checked _ _ HP) _ _ _ _ _ _ Hc SN H) as S1. rewrite Forall_forall in S1. exact (S1 _ (nth_error_In _ _ Hk)).
Qed.

Section Class.
Variables (M : model) (A : molecule) (U : (nat -> vec) -> Prop) (K : ((nat -> vec) -> R) -> Prop).
Hypotheses (PM : proper_model M) (PA : proper_molecule M A) (C : closed_class U K) (AL : allowed M A U).
Hypotheses (k_sqrt : closed_positive U K sqrt) (k_inv : closed_positive U K Rinv) (k_exp : closed_under K exp).
Hypothesis parts : built_from (closed_positive U K) (closed_under K) M.
Hypothesis k_pos : forall n j, (n < atoms A)%nat -> K (fun p => coord (p n) j).

Lemma class_predictions : forall p0 k, U p0 -> (exists ys y, predicts M (with_positions A p0) ys /\ nth_error ys k = Some y) ->
  exists z : (nat -> vec) -> feat, regular (nat -> vec) K (atoms A) z /\ (forall t, has_scalars (z t)) /\
    forall p ys y, U p -> predicts M (with_positions A p) ys -> nth_error ys k = Some y -> forall n, (n < atoms A)%nat -> alike y [n] (z p) [n].
Proof using PM PA C AL k_sqrt k_inv k_exp parts k_pos.
  intros p0 k U0 H. destruct AL as [_ AL2].
  exact (predictions_regular (nat -> vec) p0 U K C M A (fun p => p) PM PA U0 k_sqrt k_inv (fun _ => k_exp) parts (fun n j Hn _ => k_pos n j Hn) (fun p Up => proj1 (AL2 p Up)) (fun p Up => proj2 (AL2 p Up)) k H).
Qed.

Lemma class_value : forall p0 k n s d f v, U p0 -> (forall p, U p -> predicted M (with_positions A p) k n s d f (v p)) -> K v.
Proof using PM PA C AL k_sqrt k_inv k_exp parts k_pos.
  intros p0 k n s d f v U0 H. destruct (class_predictions p0 k U0) as [z [[S0 [D [F [dt [_ Hz]]]]] [_ HA]]].
  - destruct (H p0 U0) as [ys [y [H1 [H2 _]]]]. eauto.
  - apply (kc_ext _ _ C (fun p => fv (z p) [n] s d f)); [|apply Hz]. intros p Up. destruct (H p Up) as [ys [y [H1 [H2 [H3 [H4 [H5 [_ ->]]]]]]]].
    destruct (HA p ys y Up H1 H2 n H3) as [_ [_ [_ [_ E]]]]. now apply E.
Qed.

Lemma class_total : forall p0 k f, U p0 -> (exists ys y, predicts M (with_positions A p0) ys /\ nth_error ys k = Some y) ->
  exists E, K E /\ forall p, U p -> forall v, total M (with_positions A p) k f v -> v = E p.
Proof using PM PA C AL k_sqrt k_inv k_exp parts k_pos.
  intros p0 k f U0 H. destruct (class_predictions p0 k U0 H) as [z [[S0 [D [F [dt [_ Hz]]]]] [ZS HA]]]. exists (fun p => rsum (atoms A) (fun n => fv (z p) [n] 0%nat 0%nat f)). split.
  - apply (k_rsum _ U K C). intros n _. apply Hz.
  - intros p Up v [ys [y [H1 [H2 ->]]]]. cbn [with_positions atoms]. apply rsum_ext. intros n Hn. pose proof (predicts_scalars _ _ _ _ _ PM H1 H2) as HS. destruct (scalar_part y [n] f HS) as [-> [X1 X2]].
    destruct (HA p ys y Up H1 H2 n Hn) as [_ [_ [_ [_ E]]]]. symmetry. now apply E.
Qed.

Lemma class_energy : forall p0 k f v, U p0 -> (forall p, U p -> total M (with_positions A p) k f (v p)) -> K v.
Proof using PM PA C AL k_sqrt k_inv k_exp parts k_pos.
  intros p0 k f v U0 H. destruct (class_total p0 k f U0) as [E [KE HE]]; [destruct (H p0 U0) as [ys [y [H1 [H2 _]]]]; eauto|].
  apply (kc_ext _ _ C E); [|exact KE]. intros p Up. symmetry. exact (HE p Up _ (H p Up)).
Qed.
End Class.

(** * C76 *)

Section Parts.
Variable M : model.

Lemma built_mono : forall (P P' Q Q' : (R -> R) -> Prop), (forall g, P g -> P' g) -> (forall g, Q g -> Q' g) -> built_from P Q M -> built_from P' Q' M.
Proof using.
  intros P P' Q Q' H1 H2 [B1 [B2 [B3 B4]]]. split; [intros f; apply H1, B1|]. split; [intros c Hc; apply H1, (B2 c Hc)|]. split; [intros c Hc; apply H1, (B3 c Hc)|].
  intros i act Hi. destruct (B4 i act Hi) as [g [G1 G2]]. exists g. auto.
Qed.
End Parts.

Lemma inv_differentiable : differentiable_positive Rinv.
Proof. apply tdp_differentiable, tdp_inv. Qed.
Lemma sqrt_differentiable : differentiable_positive sqrt.
Proof. apply tdp_differentiable, tdp_sqrt. Qed.
Lemma differentiable_positive_continuous : forall g, differentiable_positive g -> continuous_positive g.
Proof. intros g H r Hr. apply differentiable_continuous. now apply H. Qed.
Lemma exp_differentiable : differentiable exp.
Proof. intros x. exists (exp x). apply derivable_pt_lim_exp. Qed.
Lemma differentiable_continuity : forall g, differentiable g -> continuity g.
Proof. intros g H x. apply differentiable_continuous. apply H. Qed.

(** If radial functions, cutoff, damping and gates are continuous, every predicted feature is a continuous function of
    the positions, wherever interacting atoms do not coincide (and attention is defined). *)
Theorem C76_continuous : forall M A U k n s d f v, proper_model M -> proper_molecule M A -> allowed M A U -> built_from continuous_positive continuity M ->
  (forall p, U p -> predicted M (with_positions A p) k n s d f (v p)) -> forall p, U p -> continuous_at (atoms A) v p.
Proof.
  intros M A U k n s d f v PM PA AL B H p Up. pose proof AL as [UO _]. assert (X : c_class (atoms A) U v); [|now apply X].
  refine (class_value M A U (c_class (atoms A) U) PM PA (continuous_class _ _ UO) AL _ _ _ _ _ p k n s d f v Up H).
  - apply c_positive, differentiable_positive_continuous, sqrt_differentiable.
  - apply c_positive, differentiable_positive_continuous, inv_differentiable.
  - apply c_under, differentiable_continuity, exp_differentiable.
  - exact (built_mono M _ _ _ _ (c_positive _ _) (c_under _ _) B).
  - intros m j Hm. now apply c_coord.
Qed.
Print Assumptions C76_continuous.

(** Energies are continuous. *)
Theorem C76_energy : forall M A U k f E, proper_model M -> proper_molecule M A -> allowed M A U -> built_from continuous_positive continuity M ->
  (forall p, U p -> total M (with_positions A p) k f (E p)) -> forall p, U p -> continuous_at (atoms A) E p.
Proof.
  intros M A U k f v PM PA AL B H p Up. pose proof AL as [UO _]. assert (X : c_class (atoms A) U v); [|now apply X].
  refine (class_energy M A U (c_class (atoms A) U) PM PA (continuous_class _ _ UO) AL _ _ _ _ _ p k f v Up H).
  - apply c_positive, differentiable_positive_continuous, sqrt_differentiable.
  - apply c_positive, differentiable_positive_continuous, inv_differentiable.
  - apply c_under, differentiable_continuity, exp_differentiable.
  - exact (built_mono M _ _ _ _ (c_positive _ _) (c_under _ _) B).
  - intros m j Hm. now apply c_coord.
Qed.
Print Assumptions C76_energy.

(** ** The largest such set *)

Lemma everything_open : forall N, open_set N (fun _ => True).
Proof. intros N p _. exists 1. split; [lra|auto]. Qed.

Lemma distance_continuous : forall A e p, (fst e < atoms A)%nat -> (snd e < atoms A)%nat -> continuous_at (atoms A) (fun q => distance (with_positions A q) e) p.
Proof.
  intros A [a b] p Ha Hb. cbn [fst snd] in *. pose proof (continuous_class _ _ (everything_open (atoms A))) as C. pose (D := fun j (q : nat -> vec) => coord (q b) j + (-1) * coord (q a) j).
  assert (HD : forall j, c_class (atoms A) (fun _ => True) (D j)).
  { intros j. apply (kc_plus _ _ C); [now apply c_coord|]. apply (kc_mult _ _ C); [exact (kc_const _ _ C (-1))|now apply c_coord]. }
  assert (H : c_class (atoms A) (fun _ => True) (fun q => D 0%nat q * D 0%nat q + D 1%nat q * D 1%nat q + D 2%nat q * D 2%nat q)) by (repeat first [exact (HD _)|apply (kc_plus _ _ C)|apply (kc_mult _ _ C)]).
  assert (E : forall q, distance (with_positions A q) (a, b) = sqrt (D 0%nat q * D 0%nat q + D 1%nat q * D 1%nat q + D 2%nat q * D 2%nat q)).
  { intros q. unfold distance, size, D. cbn [with_positions position fst snd]. destruct (q a) as [[x y] z], (q b) as [[x' y'] z']. apply (f_equal sqrt). cbn [plus times dot coord]. ring. }
  assert (Y : continuous_at (atoms A) (fun q => sqrt (D 0%nat q * D 0%nat q + D 1%nat q * D 1%nat q + D 2%nat q * D 2%nat q)) p).
  { apply (c_comp (atoms A) sqrt); [now apply H|]. apply continuity_pt_sqrt. nra. }
  intros eps He. destruct (Y eps He) as [dl [H1 H2]]. exists dl. split; [exact H1|]. intros d Hd. rewrite !E. now apply H2.
Qed.

Lemma open_all : forall (X : Type) N (l : list X) (P : X -> (nat -> vec) -> Prop) p, (forall x, In x l -> exists delta, 0 < delta /\ forall d, extent N d < delta -> P x (displaced p d)) ->
  exists delta, 0 < delta /\ forall d, extent N d < delta -> forall x, In x l -> P x (displaced p d).
Proof.
  intros X N l P p H. induction l as [|a l IH]; [exists 1; split; [lra|]; intros d _ x []|].
  destruct (H a (or_introl eq_refl)) as [d1 [H1 H2]]. destruct IH as [d2 [H3 H4]]; [intros x Hx; apply H; now right|].
  exists (Rmin d1 d2). split; [now apply Rmin_pos|]. intros d Hd x [<-|Hx]; [apply H2|apply H4; [|exact Hx]]; (eapply Rlt_le_trans; [exact Hd|]); [apply Rmin_l|apply Rmin_r].
Qed.

(** If the cutoff is continuous, the positions in which interacting atoms do not coincide and attention is defined form
    such a set: small displacements do not lead out of it. *)
Theorem C76_positions : forall M A, proper_molecule M A -> (forall c, m_cutoff M = Some c -> continuous_positive c) ->
  allowed M A (fun p => (forall e, In e (pairs A) -> distance (with_positions A p) e <> 0) /\ close_enough M (with_positions A p)).
Proof.
  intros M A [_ [PA _]] HC. rewrite Forall_forall in PA. split; [|auto]. intros p [H1 H2].
  assert (S0 : forall q e, 0 <= distance (with_positions A q) e) by (intros q e; unfold distance; apply size_nonneg).
  destruct (open_all (nat * nat) (atoms A) (pairs A) (fun e q => distance (with_positions A q) e <> 0) p) as [d1 [D1 D2]].
  { intros e He. destruct (PA e He) as [X1 X2]. specialize (H1 e He). specialize (S0 p e). destruct (distance_continuous A e p X1 X2 (distance (with_positions A p) e) ltac:(lra)) as [dl [L1 L2]].
    exists dl. split; [exact L1|]. intros d Hd. specialize (L2 d Hd). intros Z. rewrite Z in L2. rewrite Rabs_left in L2 by lra. lra. }
  destruct (m_cutoff M) as [c|] eqn:EC.
  - destruct (open_all (nat * nat) (atoms A) (pairs A) (fun e q => m_return_cutoff M = true -> has_attention (m_calls M) -> exists e', In e' (pairs A) /\ fst e' = fst e /\ 0 < c (distance (with_positions A q) e')) p) as [d2 [D3 D4]].
    { intros e He. destruct (Bool.bool_dec (m_return_cutoff M) true) as [R1|R1]; [|exists 1; split; [lra|]; intros d _ X; contradiction].
      assert (DEC : has_attention (m_calls M) \/ ~ has_attention (m_calls M)).
      { clear. induction (m_calls M) as [|x l [[i [j [o [q IH]]]]|IH]].
        - right. intros [i [j [o [q []]]]].
        - left. exists i, j, o, q. now right.
        - destruct x; try (right; intros [i' [j' [o' [q' [X|X]]]]]; [discriminate|apply IH; now exists i', j', o', q']). left. eexists _, _, _, _. now left. }
      destruct DEC as [R2|R2]; [|exists 1; split; [lra|]; intros d _ _ X; contradiction].
      destruct (H2 R1 R2 c EC) as [_ Q]. destruct (Q e He) as [e' [I1 [I2 I3]]]. cbn [with_positions pairs] in I1. destruct (PA e' I1) as [X1 X2].
      assert (HP : 0 < distance (with_positions A p) e') by (specialize (S0 p e'); specialize (H1 e' I1); lra).
      destruct (c_comp (atoms A) c (fun q => distance (with_positions A q) e') p (distance_continuous A e' p X1 X2) (HC c eq_refl _ HP) (c (distance (with_positions A p) e')) I3) as [dl [L1 L2]].
      exists dl. split; [exact L1|]. intros d Hd _ _. exists e'. split; [exact I1|]. split; [exact I2|]. specialize (L2 d Hd). cbn beta in L2.
      destruct (Rlt_le_dec 0 (c (distance (with_positions A (displaced p d)) e'))) as [X|X]; [exact X|]. rewrite Rabs_left1 in L2 by lra. lra. }
    exists (Rmin d1 d2). split; [now apply Rmin_pos|]. intros d Hd. split.
    + apply D2. eapply Rlt_le_trans; [exact Hd|apply Rmin_l].
    + intros R1 R2 c' Ec'. rewrite EC in Ec'. injection Ec' as <-. split; [exact (proj1 (H2 R1 R2 c EC))|]. intros e He. cbn [with_positions pairs] in *. apply D4; auto. eapply Rlt_le_trans; [exact Hd|apply Rmin_r].
  - exists d1. split; [exact D1|]. intros d Hd. split; [now apply D2|]. intros _ _ c' X. congruence.
Qed.
Print Assumptions C76_positions.

(** * C77 *)

(** If radial functions, cutoff, damping and gates are differentiable, all forces exist; they are the derivatives of the
    energy in the sense of C73. *)
Theorem C77_forces_exist : forall M A U k f E, proper_model M -> proper_molecule M A -> allowed M A U -> built_from differentiable_positive differentiable M ->
  (forall p, U p -> total M (with_positions A p) k f (E p)) -> forall p, U p -> exists F, forces (atoms A) E p F.
Proof.
  intros M A U k f v PM PA AL B H p Up. pose proof AL as [UO _]. assert (X : d_class (atoms A) U v); [|now apply X].
  refine (class_energy M A U (d_class (atoms A) U) PM PA (differentiable_class _ _ UO) AL _ _ _ _ _ p k f v Up H).
  - apply d_positive, sqrt_differentiable.
  - apply d_positive, inv_differentiable.
  - apply d_under, exp_differentiable.
  - exact (built_mono M _ _ _ _ (d_positive _ _) (d_under _ _) B).
  - intros m j Hm. now apply d_coord.
Qed.
Print Assumptions C77_forces_exist.

(** The same holds for every other predicted feature. *)
Theorem C77_differentiable : forall M A U k n s d f v, proper_model M -> proper_molecule M A -> allowed M A U -> built_from differentiable_positive differentiable M ->
  (forall p, U p -> predicted M (with_positions A p) k n s d f (v p)) -> forall p, U p -> exists F, forces (atoms A) v p F.
Proof.
  intros M A U k n s d f v PM PA AL B H p Up. pose proof AL as [UO _]. assert (X : d_class (atoms A) U v); [|now apply X].
  refine (class_value M A U (d_class (atoms A) U) PM PA (differentiable_class _ _ UO) AL _ _ _ _ _ p k n s d f v Up H).
  - apply d_positive, sqrt_differentiable.
  - apply d_positive, inv_differentiable.
  - apply d_under, exp_differentiable.
  - exact (built_mono M _ _ _ _ (d_positive _ _) (d_under _ _) B).
  - intros m j Hm. now apply d_coord.
Qed.
Print Assumptions C77_differentiable.

(** There is only one force on every atom. *)
Theorem C77_unique : forall N E p F F', forces N E p F -> forces N E p F' -> forall n, (n < N)%nat -> F n = F' n.
Proof.
  intros N E p F F' H H' n Hn.
  assert (Z : forall v : vec, dot (plus (F n) (times (-1) (F' n))) v = 0).
  { intros v. set (w := dot (plus (F n) (times (-1) (F' n))) v). destruct (Req_dec w 0) as [|NZ]; [assumption|exfalso].
    assert (VS : 0 < size v). { pose proof (size_nonneg v). destruct (Req_dec (size v) 0) as [Z|]; [|lra]. exfalso. apply NZ. unfold w. pose proof (coord_size v 0). pose proof (coord_size v 1). pose proof (coord_size v 2).
      destruct v as [[x y] z]. cbn [coord] in *. rewrite Z in *. assert (X0 : forall a, Rabs a <= 0 -> a = 0) by (intros a Ha; destruct (Req_dec a 0) as [|Na]; [assumption|]; pose proof (Rabs_pos_lt a Na); lra).
      rewrite (X0 x), (X0 y), (X0 z) by assumption. destruct (plus (F n) (times (-1) (F' n))) as [[a b] c]. cbn. ring. }
    set (eps := Rabs w / (4 * size v)). assert (EP : 0 < eps) by (apply Rdiv_lt_0_compat; [now apply Rabs_pos_lt|lra]).
    destruct (H eps EP) as [d1 [H1 H2]]. destruct (H' eps EP) as [d2 [H3 H4]].
    set (a := Rmin d1 d2 / (2 * size v)). assert (MP : 0 < Rmin d1 d2) by (now apply Rmin_pos). assert (AP : 0 < a) by (apply Rdiv_lt_0_compat; lra).
    pose (d := fun k => if (k =? n)%nat then times a v else (0, 0, 0)).
    assert (S00 : size (0, 0, 0) = 0) by (unfold size; replace (dot (0, 0, 0) (0, 0, 0)) with 0 by (cbn; ring); apply sqrt_0).
    assert (EX : extent N d = a * size v). { unfold extent. rewrite (rsum_single N _ n Hn). - unfold d. rewrite Nat.eqb_refl, size_times, Rabs_right by lra. reflexivity. - intros i _ Hi. unfold d. destruct (Nat.eqb_spec i n); [contradiction|exact S00]. }
    assert (EX2 : extent N d = Rmin d1 d2 / 2) by (rewrite EX; unfold a; field; lra).
    assert (L1 : extent N d < d1) by (rewrite EX2; pose proof (Rmin_l d1 d2); lra). assert (L2 : extent N d < d2) by (rewrite EX2; pose proof (Rmin_r d1 d2); lra).
    specialize (H2 d L1). specialize (H4 d L2).
    assert (W : forall G : nat -> vec, rsum N (fun k => dot (G k) (d k)) = a * dot (G n) v). { intros G. rewrite (rsum_single N _ n Hn). - unfold d. rewrite Nat.eqb_refl. destruct (G n) as [[x y] z], v as [[x' y'] z']. cbn. ring. - intros i _ Hi. unfold d. destruct (Nat.eqb_spec i n); [contradiction|]. destruct (G i) as [[x y] z]. cbn. ring. }
    rewrite W in H2, H4. assert (WW : w = dot (F n) v - dot (F' n) v) by (unfold w; destruct (F n) as [[x y] z], (F' n) as [[x' y'] z'], v as [[k l] m]; cbn; ring).
    assert (T : Rabs (a * w) <= 2 * (eps * extent N d)).
    { replace (a * w) with ((E (displaced p d) - E p + a * dot (F n) v) + - (E (displaced p d) - E p + a * dot (F' n) v)) by (rewrite WW; ring). eapply Rle_trans; [apply Rabs_triang|]. rewrite Rabs_Ropp. lra. }
    rewrite Rabs_mult, (Rabs_right a) in T by lra. assert (EE : 2 * (eps * extent N d) = a * Rabs w / 2) by (rewrite EX; unfold eps; field; lra). rewrite EE in T. pose proof (Rabs_pos_lt w NZ) as WP. nra. }
  pose proof (dot_axes _ (Z e1) (Z e2) (Z e3)) as X. destruct (F n) as [[x y] z], (F' n) as [[x' y'] z']. cbn in X. injection X as X1 X2 X3. apply triple_eq; lra.
Qed.
Print Assumptions C77_unique.

(** So every molecule has exactly one set of forces; they conserve momentum and angular momentum (C73). *)
Theorem C77_conservation : forall M A U k f E, proper_model M -> proper_molecule M A -> allowed M A U -> built_from differentiable_positive differentiable M -> U (position A) -> energy_function M A k f E ->
  (exists F, forces (atoms A) E (position A) F) /\
  forall F, forces (atoms A) E (position A) F -> vsum (atoms A) F = (0, 0, 0) /\ vsum (atoms A) (fun n => outer (position A n) (F n)) = (0, 0, 0).
Proof.
  intros M A U k f E PM PA AL B U0 HE. split; [exact (C77_forces_exist M A U k f E PM PA AL B (fun p _ => HE p) _ U0)|].
  intros F HF. refine (C73_conservation M A k f E F PM PA _ HE HF). destruct AL as [UO AL]. destruct (UO _ U0) as [dl [D1 D2]]. exists dl. split; [exact D1|]. intros d Hd. exact (proj2 (AL _ (D2 d Hd))).
Qed.
Print Assumptions C77_conservation.

(** * C78 *)

(** If radial functions, cutoff, damping and gates are smooth, energies can be differentiated any number of times with
    respect to the positions. *)
Theorem C78_smooth : forall M A U k f E, proper_model M -> proper_molecule M A -> allowed M A U -> built_from smooth_positive infinitely_differentiable M ->
  (forall p, U p -> total M (with_positions A p) k f (E p)) -> (exists p, U p) -> smooth_on (atoms A) U E.
Proof.
  intros M A U k f v PM PA AL B H [p Up]. pose proof AL as [UO _].
  refine (class_energy M A U (smooth_on (atoms A) U) PM PA (smooth_class _ _ UO) AL _ _ _ _ _ p k f v Up H).
  - apply s_positive; [exact UO|]. intros n. apply tdp_sqrt.
  - apply s_positive; [exact UO|]. intros n. apply tdp_inv.
  - apply s_under; [exact UO|exact id_exp].
  - exact (built_mono M _ _ _ _ (s_positive _ _ UO) (s_under _ _ UO) B).
  - intros m j Hm. now apply s_coord.
Qed.
Print Assumptions C78_smooth.
Theorem C78_smooth_features : forall M A U k n s d f v, proper_model M -> proper_molecule M A -> allowed M A U -> built_from smooth_positive infinitely_differentiable M ->
  (forall p, U p -> predicted M (with_positions A p) k n s d f (v p)) -> (exists p, U p) -> smooth_on (atoms A) U v.
Proof.
  intros M A U k n s d f v PM PA AL B H [p Up]. pose proof AL as [UO _].
  refine (class_value M A U (smooth_on (atoms A) U) PM PA (smooth_class _ _ UO) AL _ _ _ _ _ p k n s d f v Up H).
  - apply s_positive; [exact UO|]. intros m. apply tdp_sqrt.
  - apply s_positive; [exact UO|]. intros m. apply tdp_inv.
  - apply s_under; [exact UO|exact id_exp].
  - exact (built_mono M _ _ _ _ (s_positive _ _ UO) (s_under _ _ UO) B).
  - intros m j Hm. now apply s_coord.
Qed.
Print Assumptions C78_smooth_features.

(** A model that accepts a molecule has an energy surface: for all positions in U there is exactly one energy, it is a
    smooth function of the positions, and so are the forces. *)
Theorem C78_energy_surface : forall M A U k f, proper_model M -> proper_molecule M A -> allowed M A U -> built_from smooth_positive infinitely_differentiable M ->
  (exists v, total M A k f v) -> (exists p, U p) ->
  exists E F, (forall p, U p -> forall v, total M (with_positions A p) k f v <-> v = E p) /\ smooth_on (atoms A) U E
    /\ (forall p, U p -> forces (atoms A) E p (F p)) /\ forall n j, (n < atoms A)%nat -> (j < 3)%nat -> smooth_on (atoms A) U (fun p => coord (F p n) j).
Proof.
  intros M A U k f PM PA AL B [v0 [ys0 [y0 [P0 [K0 _]]]]] [p0 U0]. pose proof AL as [UO _].
  assert (TOT : forall p, exists v, total M (with_positions A p) k f v).
  { intros p. destruct (C72_accepted M A p (number A) PM PA (proj2 (proj2 PA)) (ex_intro _ ys0 P0)) as [ys H]. fold (with_positions A p) in H.
    assert (L : length ys = length ys0). { clear -H P0. destruct H as [? [? [? [_ [_ [_ H]]]]]]. destruct P0 as [? [? [? [_ [_ [_ P0]]]]]]. rewrite (run_length _ _ _ _ _ _ _ _ _ H), (run_length _ _ _ _ _ _ _ _ _ P0). reflexivity. }
    destruct (nth_error ys k) as [y|] eqn:Ey; [|apply nth_error_None in Ey; assert (k < length ys0)%nat by (apply nth_error_Some; congruence); lia].
    eexists. exists ys, y. auto. }
  destruct (class_total M A U (smooth_on (atoms A) U) PM PA (smooth_class _ _ UO) AL) with (p0 := p0) (k := k) (f := f) as [E [KE HE]].
  - apply s_positive; [exact UO|]. intros n. apply tdp_sqrt.
  - apply s_positive; [exact UO|]. intros n. apply tdp_inv.
  - apply s_under; [exact UO|exact id_exp].
  - exact (built_mono M _ _ _ _ (s_positive _ _ UO) (s_under _ _ UO) B).
  - intros m j Hm. now apply s_coord.
  - exact U0.
  - destruct (TOT p0) as [v [ys [y [H1 [H2 _]]]]]. eauto.
  - destruct (KE 1%nat) as [F [F1 _]]. exists E, F. split; [|split; [exact KE|split; [exact F1|]]].
    + intros p Up v. split; [now apply HE|]. intros ->. destruct (TOT p) as [v Hv]. now rewrite <- (HE p Up v Hv).
    + intros n j Hn Hj m. destruct (KE (S m)) as [F' [F1' F2']]. apply (do_ext (atoms A) U UO m (fun p => coord (F' p n) j)); [|now apply F2'].
      intros p Up. now rewrite (C77_unique (atoms A) E p (F' p) (F p) (F1' p Up) (F1 p Up) n Hn).
Qed.
Print Assumptions C78_energy_surface.

(** ** A case: a pair of atoms, the smooth cutoff of the package and the SiLU activation *)

Lemma run_snoc : forall cgf lo hi b cu g cs c xs ys z, run cgf lo hi b cu g xs cs = Ok ys -> perform cgf lo hi b cu g ys c = Ok z -> run cgf lo hi b cu g xs (cs ++ [c]) = Ok (ys ++ [z]).
Proof.
  intros cgf lo hi b cu g cs. induction cs as [|a cs IH]; intros c xs ys z H1 H2; cbn [run app] in *.
  - injection H1 as <-. rewrite H2. reflexivity.
  - destruct (perform cgf lo hi b cu g xs a) as [y|e]; [|discriminate]. cbn [bind] in *. eapply IH; eauto.
Qed.

Definition bond (c : R -> R) : model := mkModel true (package_cg true) 0 0 2 1 0 (fun _ _ => 1) 1 0 1 (fun x => [x * x]) (Some c) None false (soft_network false ++ [UseActivation 1 silu]).

Lemma bond_proper : forall c, proper_model (bond c).
Proof.
  intros c. split; [apply package_cg_uses|]. split; [constructor; [intros d E; injection E as <-; lia|]; constructor; [|constructor]; exists (fun x => x), 0, 0; cbn; tauto|].
  split; [cbn; lra|]. split; [cbn; lia|]. split; [reflexivity|discriminate].
Qed.
Lemma bond_total : forall c d, 0 <= d -> exists v, total (bond c) (soft_pair d [(0, 1); (1, 0)]%nat) 2 0 v.
Proof.
  intros c d Hd. destruct (soft_total false c d Hd) as [[ys [y [[e [x [b [H1 [H2 [H3 H4]]]]]] [K1 _]]]] _].
  assert (R2 := run_snoc _ _ _ _ _ _ _ (UseActivation 1 silu) _ _ (gated expit y) H4). cbn [perform] in R2. unfold select in R2. rewrite K1 in R2. cbn [bind] in R2. unfold silu in R2 at 1. specialize (R2 (gated_ok _ _)).
  assert (L := run_length _ _ _ _ _ _ _ _ _ H4). cbn in L. eexists. exists (ys ++ [gated expit y]), (gated expit y). split; [|split; [|reflexivity]].
  - exists e, x, b. auto.
  - rewrite nth_error_app2 by lia. rewrite L. reflexivity.
Qed.
Lemma gate_silu : gate_of silu expit.
Proof. intros x y H. unfold silu in H. rewrite gated_ok in H. injection H as <-. cbn. repeat split. Qed.
Lemma smooth_expit : infinitely_differentiable expit.
Proof.
  apply (id_ext (fun x => / (1 + exp (-1 * x)))); [intros x; unfold expit; replace (-1 * x) with (- x) by ring; unfold Rdiv; ring|]. apply id_inv; [intros x; pose proof (exp_pos (-1 * x)); lra|].
  apply id_plus; [apply id_const|]. apply (id_comp exp (fun x => -1 * x)); [apply id_exp|]. apply id_mult; [apply id_const|apply id_id].
Qed.
Lemma smooth_cutoff_positive : forall r, 0 < r -> exists c, (forall x, smooth_cutoff x r = Ok (c x)) /\ smooth_positive c.
Proof.
  intros r Hr. destruct (C41_smooth_cutoff r Hr) as [c [H1 [_ [_ [_ [_ [_ [F [F1 F2]]]]]]]]]. exists c. split; [exact H1|]. intros n. apply (tdp_ext n F); [intros x Hx; symmetry; apply F2; lra|]. apply tdp_of_td, F1.
Qed.
Lemma bond_built : forall c, smooth_positive c -> built_from smooth_positive infinitely_differentiable (bond c).
Proof.
  intros c Hc. split; [intros [|[|f]]; cbn; intros n; apply tdp_of_td|split; [|split]].
  - apply td_mult; apply td_id.
  - apply td_const.
  - apply td_const.
  - cbn [bond m_cutoff]. intros c' E. injection E as <-. exact Hc.
  - discriminate.
  - cbn. intros i act [H|[H|[]]]; [discriminate|]. injection H as <- <-. exists expit. split; [apply gate_silu|apply smooth_expit].
Qed.

Example C78_case : exists c, (forall x, smooth_cutoff x 3 = Ok (c x)) /\ let A := soft_pair 1 [(0, 1); (1, 0)]%nat in let U := fun p => distance (with_positions A p) (0, 1)%nat <> 0 in
  proper_model (bond c) /\ proper_molecule (bond c) A /\ allowed (bond c) A U /\ built_from smooth_positive infinitely_differentiable (bond c) /\ (exists v, total (bond c) A 2 0 v) /\ (exists p, U p)
  /\ exists E F, (forall p, U p -> forall v, total (bond c) (with_positions A p) 2 0 v <-> v = E p) /\ smooth_on 2 U E /\ (forall p, U p -> forces 2 E p (F p)).
Proof.
  destruct (smooth_cutoff_positive 3 ltac:(lra)) as [c [H1 H2]]. exists c. split; [exact H1|]. cbn zeta.
  set (A := soft_pair 1 [(0, 1); (1, 0)]%nat). set (U := fun p => distance (with_positions A p) (0, 1)%nat <> 0).
  assert (P1 : proper_model (bond c)) by apply bond_proper.
  assert (P2 : proper_molecule (bond c) A) by (split; [discriminate|]; split; [repeat constructor|]; cbn [A soft_pair atoms number bond m_species]; intros n Hn; lia).
  assert (P3 : allowed (bond c) A U).
  { destruct (C76_positions (bond c) A P2) as [O1 O2].
    - cbn [bond m_cutoff]. intros c' E. injection E as <-. apply differentiable_positive_continuous, tdp_differentiable, H2.
    - assert (SY : forall q, U q -> (forall e, In e (pairs A) -> distance (with_positions A q) e <> 0) /\ close_enough (bond c) (with_positions A q)).
      { intros q Uq. split; [|intros X; discriminate]. cbn. intros e [<-|[<-|[]]]; [exact Uq|]. intros Z. apply Uq. rewrite <- Z. unfold distance, size. f_equal. cbn. destruct (q 0%nat) as [[x y] z], (q 1%nat) as [[x' y'] z']. cbn. ring. }
      split; [|exact SY]. intros p Up. destruct (O1 p (SY p Up)) as [dl [L1 L2]]. exists dl. split; [exact L1|]. intros d Hd. apply (proj1 (L2 d Hd)). now left. }
  assert (P4 := bond_built c H2). assert (P5 : exists v, total (bond c) A 2 0 v) by (apply bond_total; lra).
  assert (P6 : exists p, U p). { exists (position A). unfold U, distance. cbn [with_positions position fst snd A soft_pair]. rewrite (proj1 (size_axis 1 ltac:(lra))). lra. }
  repeat (split; [assumption|]). destruct (C78_energy_surface _ _ _ 2 0 P1 P2 P3 P4 P5 P6) as [E [F [X1 [X2 [X3 _]]]]]. exists E, F. auto.
Qed.
