(** Gradients of radial-angular basis functions with respect to the displacement (C82). *)
Require Import String List Reals Lra Lia ZArith Bool.
Require Import Verif.Base Verif.RSum Verif.Smooth Verif.Common_Spec Verif.Common_Proofs Verif.Common_Props Verif.LUT_Model Verif.LUT_Spec Verif.LUT_Props.
Require Import Verif.Radial_Model Verif.Radial_Spec Verif.Radial_Proofs Verif.Radial_Props Verif.Activations_Model.
Require Import Verif.Rotations_Model Verif.Rotations_Spec Verif.Rotations_Proofs Verif.Symbolic_Model Verif.PolyCalc_Proofs Verif.Poly_Proofs Verif.Symbolic_Proofs Verif.Irreps_Model Verif.Irreps_Spec Verif.Irreps_Proofs Verif.Irreps_Laws_Proofs.
Require Import Verif.Wrappers_Model Verif.Wrappers_Spec Verif.Wrappers_Proofs Verif.Wrappers_Props.
Require Import Verif.AutoDiff_Model Verif.AutoDiff_Spec Verif.AutoDiff_Proofs Verif.AutoDiff_Props Verif.AutoDiff_Radial_Proofs Verif.AutoDiff_Radial_Props.
Require Import Verif.AutoDiff_Basis_Model.
Import ListNotations.
Open Scope R_scope.

(** * Vocabulary *)

(** The displacement has the components [r 0], [r 1] and [r 2]. *)
Definition distance (r : nat -> R) : R := sqrt (r 0%nat * r 0%nat + r 1%nat * r 1%nat + r 2%nat * r 2%nat).
(** The unit vector in the direction of the displacement; the zero vector is kept. *)
Definition direction (r : nat -> R) (k : nat) : R := if Req_EM_T (distance r) 0 then 0 else r k / distance r.
(** A polynomial in the components of [u]. *)
Definition polynomial (n : nat) (ls : nat -> list nat) (column : nat -> R) (u : nat -> R) : R :=
  rsum n (fun i => u 0%nat ^ nth 0 (ls i) 0%nat * u 1%nat ^ nth 1 (ls i) 0%nat * u 2%nat ^ nth 2 (ls i) 0%nat * column i).
Definition nonnegative (x : R) : Prop := 0 <= x.
(** A function of the distance whose gradients are finite at all distances, or no such function
    (which counts as the constant one). *)
Definition factor (e : option expr) (f : R -> R) (exceptions : R -> Prop) : Prop :=
  match e with
  | Some e => differentiates e f nonnegative exceptions
  | None => (forall x, f x = 1) /\ forall x, ~ exceptions x
  end.

(** * Lemmas *)

Lemma distance_norm r : norm3 (r 0%nat) (r 1%nat) (r 2%nat) = distance r.
Proof. reflexivity. Qed.
Lemma distance_nonneg r : 0 <= distance r.
Proof. apply sqrt_pos. Qed.

Lemma distance_zero r : distance r = 0 -> r 0%nat = 0 /\ r 1%nat = 0 /\ r 2%nat = 0.
Proof.
  intro Z. destruct (Req_dec (r 0%nat) 0), (Req_dec (r 1%nat) 0), (Req_dec (r 2%nat) 0); auto; exfalso;
    (assert (P : 0 < norm3 (r 0%nat) (r 1%nat) (r 2%nat)) by (apply norm3_pos; intros (? & ? & ?); contradiction));
    rewrite distance_norm in P; lra.
Qed.

Lemma diff_any k r i : exists d, diff (Var k) r i (r k) d.
Proof. destruct (Nat.eq_dec k i) as [->|N]; [exists 1; apply diff_var|exists 0; now apply diff_other]. Qed.

Lemma length_diff r i : exists d, diff length_prog r i (distance r) d /\ (distance r = 0 -> d = 0).
Proof.
  destruct (diff_any 0 r i) as [d0 D0], (diff_any 1 r i) as [d1 D1], (diff_any 2 r i) as [d2 D2].
  eexists. split; [exact (diff_norm _ _ _ _ _ _ _ _ _ _ _ D0 D1 D2)|].
  intro Z. rewrite distance_norm, Z. destruct (distance_zero r Z) as (-> & -> & ->).
  unfold norm3_partial. cases; try lra; unfold Rdiv; ring.
Qed.

Lemma length_settled r i : 0 < distance r -> settled length_prog r i.
Proof.
  intro P. cbn. repeat split; auto. intros (A & B & C). injection A as A. injection B as B. injection C as C.
  unfold distance in P. rewrite A, B, C in P. replace (0 * 0 + 0 * 0 + 0 * 0) with 0 in P by ring. rewrite sqrt_0 in P. lra.
Qed.

Lemma direction_diff k r i : (k < 3)%nat -> exists d, diff (direction_prog k) r i (direction r k) d.
Proof.
  intro K. destruct (diff_any k r i) as [d D]. destruct (length_diff r i) as (d' & L & _). unfold direction_prog.
  eexists. eapply diff_eq; [tree| |reflexivity].
  - cases; lra.
  - pose proof (distance_nonneg r). unfold direction. destruct (Req_EM_T (distance r) 0) as [Z|N]; cases; try lra; try reflexivity.
    destruct (distance_zero r Z) as (A & B & C).
    assert (Q : r k = 0) by (destruct k as [|[|[|]]]; auto; lia). rewrite Q. unfold Rdiv. ring.
Qed.

Lemma direction_settled k r i : 0 < distance r -> settled (direction_prog k) r i.
Proof.
  intro P. destruct (length_diff r i) as (d' & L & _). pose proof (length_settled r i P) as S.
  unfold direction_prog. change (settled (Var k) r i /\ settled (Where (Less (Const 0) length_prog) length_prog (Const 1)) r i /\ True).
  split; [exact I|]. split; [|exact I]. split.
  - eapply steady_less; [apply cont_const|exact (cont_diff _ _ _ _ _ S L)|lra].
  - rewrite (holds_less (Const 0) length_prog r 0 (distance r) eq_refl (proj1 L)). unfold Rltb. destruct Rlt_dec; [exact S|lra].
Qed.

Lemma power_diff n : exists D : R -> R -> R, forall a r i u d, diff a r i u d -> diff (power_prog a n) r i (u ^ n) (D u d).
Proof.
  induction n as [|n [D IH]]; [exists (fun _ _ => 0); intros; apply diff_const|].
  exists (fun u d => u * D u d + u ^ n * d). intros a r i u d A.
  eapply diff_eq; [exact (diff_mul _ _ _ _ _ _ _ _ (IH _ _ _ _ _ A) A)|cbn; ring|reflexivity].
Qed.
Lemma power_settled a r i n : settled a r i -> settled (power_prog a n) r i.
Proof. intro A. induction n; cbn; auto. Qed.

(** The derivative depends only on the values and derivatives of the three components. *)
Lemma angular_diff n ls column : exists D : (nat -> R) -> R -> R -> R -> R,
  forall x y z r i (u : nat -> R) d0 d1 d2,
    diff x r i (u 0%nat) d0 -> diff y r i (u 1%nat) d1 -> diff z r i (u 2%nat) d2 ->
    diff (angular_prog n ls column x y z) r i (polynomial n ls column u) (D u d0 d1 d2).
Proof.
  unfold angular_prog, polynomial. induction n as [|n [D IH]]; [exists (fun _ _ _ _ => 0); intros; apply diff_const|].
  destruct (power_diff (nth 0 (ls n) 0%nat)) as [E0 P0]. destruct (power_diff (nth 1 (ls n) 0%nat)) as [E1 P1].
  destruct (power_diff (nth 2 (ls n) 0%nat)) as [E2 P2].
  set (m := fun k (u : nat -> R) => u k ^ nth k (ls n) 0%nat).
  exists (fun u d0 d1 d2 => D u d0 d1 d2 + column n * (m 2%nat u * (m 1%nat u * E0 (u 0%nat) d0 + m 0%nat u * E1 (u 1%nat) d1)
    + m 0%nat u * m 1%nat u * E2 (u 2%nat) d2)). intros x y z r i u d0 d1 d2 X Y Z.
  pose proof (diff_mul _ _ _ _ _ _ _ _ (diff_mul _ _ _ _ _ _ _ _ (P0 _ _ _ _ _ X) (P1 _ _ _ _ _ Y)) (P2 _ _ _ _ _ Z)) as M.
  pose proof (diff_mul _ _ _ _ _ _ _ _ M (diff_const (column n) r i)) as T.
  pose proof (diff_add _ _ _ _ _ _ _ _ (IH x y z r i u d0 d1 d2 X Y Z) T) as S. cbn [sum_prog rsum].
  eapply diff_eq; [exact S|reflexivity|unfold m; ring].
Qed.
Lemma angular_settled n ls column x y z r i :
  settled x r i -> settled y r i -> settled z r i -> settled (angular_prog n ls column x y z) r i.
Proof.
  intros X Y Z. unfold angular_prog. induction n as [|n IH]; [exact I|].
  cbn. repeat split; auto; now apply power_settled.
Qed.

Lemma call_diff f g E a r i u d : differentiates f g nonnegative E -> 0 <= u -> diff a r i u d ->
  exists p, diff (call f a) r i (g u) (p * d).
Proof.
  intros F U A. destruct (F (fun _ => u) U) as (V & p & G & _). exists p. exact (diff_custom _ _ _ _ _ _ _ _ _ A V G).
Qed.

Lemma call_settled f g E a r i u d : differentiates f g nonnegative E -> 0 < u -> ~ E u -> diff a r i u d ->
  settled a r i -> settled (call f a) r i.
Proof.
  intros F U N [V _] S. cbn. split; [exact S|]. intros u' V' d' G'. rewrite V in V'. injection V' as <-.
  destruct (F (fun _ => u) ltac:(unfold nonnegative; lra)) as (_ & p & G & L). rewrite G in G'. injection G' as <-.
  exists g, u. split; [exact U|]. split; [|exact (L N)].
  intros t T. apply Rabs_def2 in T. exact (proj1 (F (fun _ => t) ltac:(unfold nonnegative; lra))).
Qed.

(** * Finite gradients at every displacement *)

(** Value of entry [c] of the angular axis at the displacement [r]. *)
Definition basis_function n ls column (c : nat) (f g h : R -> R) (r : nat -> R) : R :=
  polynomial n ls column (direction r) * (f (distance r) * g (distance r)) * (if (c =? 0)%nat then 1 else h (distance r)).

(** For every radial function, cutoff, damping and angular polynomial, at every displacement - the
    zero vector included - the gradient is a finite number.  Where the distance is positive and not
    an exception of one of the three functions, it is the derivative. *)
Theorem C82_finite : forall n ls column c radial cutoff damping f g h Ef Eg Eh,
  differentiates radial f nonnegative Ef -> factor cutoff g Eg -> factor damping h Eh ->
  let B := basis_prog n ls column c radial cutoff damping in
  forall r i,
    value B r = Some (basis_function n ls column c f g h r) /\
    exists d, gradient B r i = Some d /\
      (0 < distance r -> ~ Ef (distance r) -> ~ Eg (distance r) -> ~ Eh (distance r) ->
       partial_derivative (value B) r i d).
Proof.
  intros n ls column c radial cutoff damping f g h Ef Eg Eh F G H B r i.
  pose proof (distance_nonneg r) as P.
  destruct (length_diff r i) as (dl & L & _).
  destruct (direction_diff 0 r i ltac:(lia)) as [d0 D0]. destruct (direction_diff 1 r i ltac:(lia)) as [d1 D1].
  destruct (direction_diff 2 r i ltac:(lia)) as [d2 D2].
  destruct (angular_diff n ls column) as [D A0]. pose proof (A0 _ _ _ r i (direction r) _ _ _ D0 D1 D2) as A. clear A0.
  destruct (call_diff _ _ _ _ _ _ _ _ F P L) as [p R0].
  assert (X : exists d, diff B r i (basis_function n ls column c f g h r) d).
  { unfold B, basis_prog, basis_function. cbv zeta.
    assert (Q : exists q, diff (match cutoff with Some f => call radial length_prog *! call f length_prog | None => call radial length_prog end)
                  r i (f (distance r) * g (distance r)) q).
    { destruct cutoff as [e|]; cbn in G.
      - destruct (call_diff _ _ _ _ _ _ _ _ G P L) as [q R1]. eexists. eapply diff_mul; eassumption.
      - destruct G as [G _]. eexists. rewrite G. eapply diff_eq; [exact R0|ring|reflexivity]. }
    destruct Q as [q Q]. pose proof (diff_mul _ _ _ _ _ _ _ _ A Q) as O.
    destruct damping as [e|]; cbn in H.
    - destruct (c =? 0)%nat.
      + eexists. eapply diff_eq; [exact O|ring|reflexivity].
      + destruct (call_diff _ _ _ _ _ _ _ _ H P L) as [q' R2]. eexists. eapply diff_mul; eassumption.
    - destruct H as [H _]. rewrite H. eexists. eapply diff_eq; [exact O|destruct (c =? 0)%nat; ring|reflexivity]. }
  destruct X as [d X]. split; [exact (proj1 X)|]. exists d. split; [exact (diff_gradient _ _ _ _ _ X)|].
  intros Pos NF NG NH.
  assert (S : settled B r i).
  { pose proof (length_settled r i Pos) as SL.
    pose proof (call_settled _ _ _ _ _ _ _ _ F Pos NF L SL) as S0.
    pose proof (angular_settled n ls column _ _ _ r i (direction_settled 0 r i Pos) (direction_settled 1 r i Pos) (direction_settled 2 r i Pos)) as SA.
    unfold B, basis_prog. cbv zeta.
    assert (SC : settled (match cutoff with Some f => call radial length_prog *! call f length_prog | None => call radial length_prog end) r i).
    { destruct cutoff as [e|]; [|exact S0]. cbn in G. split; [exact S0|]. split; [|exact I].
      exact (call_settled _ _ _ _ _ _ _ _ G Pos NG L SL). }
    destruct damping as [e|]; [destruct (c =? 0)%nat|].
    - split; [exact SA|]. split; [exact SC|exact I].
    - split; [split; [exact SA|]; split; [exact SC|exact I]|]. split; [|exact I]. cbn in H.
      exact (call_settled _ _ _ _ _ _ _ _ H Pos NH L SL).
    - split; [exact SA|]. split; [exact SC|exact I]. }
  destruct (sound B r i 1 _ S (proj2 X 1) (ex_intro _ _ (proj1 X))) as (d' & E & PD).
  replace d with d' by lra. exact PD.
Qed.
Print Assumptions C82_finite.

(** * Correct gradients at the zero vector *)

Lemma direction_zero k r i : distance r = 0 -> (k < 3)%nat ->
  diff (direction_prog k) r i 0 (if (k =? i)%nat then 1 else 0).
Proof.
  intros Z K. destruct (length_diff r i) as (d' & L & _). rewrite Z in L.
  assert (Q : r k = 0) by (destruct (distance_zero r Z) as (A & B & C); destruct k as [|[|[|]]]; auto; lia).
  assert (V : diff (Var k) r i 0 (if (k =? i)%nat then 1 else 0)).
  { rewrite <- Q at 1. destruct (Nat.eqb_spec k i) as [->|N]; [apply diff_var|now apply diff_other]. }
  unfold direction_prog. eapply diff_eq; [tree| |]; cases; try lra. all: destruct (k =? i)%nat; lra.
Qed.

Lemma constant_gradient n ls column r i : distance r = 0 ->
  (forall u v, polynomial n ls column u = polynomial n ls column v) ->
  diff (angular_prog n ls column (direction_prog 0) (direction_prog 1) (direction_prog 2)) r i
    (polynomial n ls column (fun _ => 0)) 0.
Proof.
  intros Z C. destruct (angular_diff n ls column) as [D A].
  set (d := fun k => if (k =? i)%nat then 1 else 0).
  pose proof (A _ _ _ r i (fun _ => 0) _ _ _ (direction_zero 0 r i Z ltac:(lia)) (direction_zero 1 r i Z ltac:(lia)) (direction_zero 2 r i Z ltac:(lia))) as A1.
  fold (d 0%nat) (d 1%nat) (d 2%nat) in A1.
  destruct (distance_zero r Z) as (Z0 & Z1 & Z2).
  assert (V : forall k, r k = 0 -> diff (Var k) r i 0 (d k)).
  { intros k Q. rewrite <- Q at 1. unfold d. destruct (Nat.eqb_spec k i) as [->|N]; [apply diff_var|now apply diff_other]. }
  pose proof (A _ _ _ r i (fun _ => 0) _ _ _ (V 0%nat Z0) (V 1%nat Z1) (V 2%nat Z2)) as A2.
  set (e := angular_prog n ls column (Var 0) (Var 1) (Var 2)) in *.
  assert (S : settled e r i) by (apply angular_settled; exact I).
  destruct (sound e r i 1 _ S (proj2 A2 1) (ex_intro _ _ (proj1 A2))) as (d' & E & PD).
  eapply diff_eq; [exact A1|reflexivity|].
  replace (D (fun _ => 0) (d 0%nat) (d 1%nat) (d 2%nat)) with d' by lra.
  destruct PD as (F & delta & P & HF & L).
  apply (uniqueness_limite (fun _ => polynomial n ls column (fun _ => 0)) (r i)); [|apply derivable_pt_lim_const].
  apply (local_deriv F _ (r i) _ delta P); [|exact L]. intros t T. specialize (HF t T).
  assert (W : value e (replace r i t) = Some (polynomial n ls column (replace r i t))).
  { destruct (diff_any 0 (replace r i t) i) as [e0 D0], (diff_any 1 (replace r i t) i) as [e1 D1], (diff_any 2 (replace r i t) i) as [e2 D2].
    exact (proj1 (A _ _ _ _ _ _ _ _ _ D0 D1 D2)). }
  rewrite W in HF. injection HF as <-. apply C.
Qed.

Lemma distance_axis r i t : distance r = 0 -> distance (replace r i t) = if (i <? 3)%nat then Rabs t else 0.
Proof.
  intro Z. destruct (distance_zero r Z) as (A & B & C). unfold distance, replace.
  destruct i as [|[|[|i]]]; cbn [Nat.eqb Nat.ltb Nat.leb]; rewrite ?A, ?B, ?C.
  - replace (t * t + 0 * 0 + 0 * 0) with (Rsqr t) by (unfold Rsqr; ring). apply sqrt_Rsqr_abs.
  - replace (0 * 0 + t * t + 0 * 0) with (Rsqr t) by (unfold Rsqr; ring). apply sqrt_Rsqr_abs.
  - replace (0 * 0 + 0 * 0 + t * t) with (Rsqr t) by (unfold Rsqr; ring). apply sqrt_Rsqr_abs.
  - replace (0 * 0 + 0 * 0 + 0 * 0) with 0 by ring. apply sqrt_0.
Qed.

Lemma even_derivative F d : derivable_pt_lim F 0 d -> (exists delta, 0 < delta /\ forall t, Rabs t < delta -> F (- t) = F t) -> d = 0.
Proof.
  intros L (delta & P & E).
  assert (L' : derivable_pt_lim (fun t => F (- t)) 0 (d * -1)).
  { apply (derivable_pt_lim_comp Ropp F 0 (-1) d); [|now rewrite Ropp_0].
    pose proof (derivable_pt_lim_scal id (-1) 0 1 (derivable_pt_lim_id 0)) as Q. rewrite Rmult_1_r in Q.
    apply (deriv_ext (mult_real_fct (-1) id)); [intro; unfold mult_real_fct, id; ring|exact Q]. }
  assert (d = d * -1); [|lra].
  apply (uniqueness_limite F 0); [exact L|].
  apply (local_deriv (fun t => F (- t)) _ 0 _ delta P); [|exact L'].
  intros t T. rewrite Rminus_0_r in T. now apply E.
Qed.

(** Entries of degree zero: at the zero vector the gradient is zero, and so is every partial
    derivative that exists there. *)
Theorem C82_zero_scalar : forall n ls column radial cutoff damping f g Ef Eg,
  differentiates radial f nonnegative Ef -> factor cutoff g Eg ->
  (forall u v, polynomial n ls column u = polynomial n ls column v) ->
  let B := basis_prog n ls column 0 radial cutoff damping in
  forall r i, distance r = 0 ->
    gradient B r i = Some 0 /\
    forall d, partial_derivative (value B) r i d -> d = 0.
Proof.
  intros n ls column radial cutoff damping f g Ef Eg F G C B r i Z.
  assert (BE : B = angular_prog n ls column (direction_prog 0) (direction_prog 1) (direction_prog 2)
      *! match cutoff with Some f => call radial length_prog *! call f length_prog | None => call radial length_prog end).
  { unfold B, basis_prog. destruct damping; reflexivity. }
  split.
  - destruct (length_diff r i) as (dl & L & DL). rewrite (DL Z), Z in L.
    destruct (call_diff _ _ _ _ _ _ _ _ F (Rle_refl 0) L) as [p R0].
    assert (Q : exists v, diff (match cutoff with Some f => call radial length_prog *! call f length_prog | None => call radial length_prog end) r i v 0).
    { destruct cutoff as [e|]; cbn in G.
      - destruct (call_diff _ _ _ _ _ _ _ _ G (Rle_refl 0) L) as [q R1]. eexists.
        eapply diff_eq; [eapply diff_mul; eassumption|reflexivity|ring].
      - eexists. eapply diff_eq; [exact R0|reflexivity|ring]. }
    destruct Q as [v Q]. pose proof (diff_mul _ _ _ _ _ _ _ _ (constant_gradient n ls column r i Z C) Q) as O.
    rewrite BE, (diff_gradient _ _ _ _ _ O). f_equal. ring.
  - intros d (w & delta & P & W & L). destruct (le_lt_dec 3 i) as [I3|I3].
    + apply (uniqueness_limite (fun _ => w (r i)) (r i)); [|apply derivable_pt_lim_const].
      apply (local_deriv w _ (r i) _ delta P); [|exact L]. intros t T.
      assert (E : value B (replace r i t) = value B (replace r i (r i))).
      { rewrite replace_self.
        pose proof (C82_finite n ls column 0 radial cutoff None f g (fun _ => 1) Ef Eg (fun _ => False) F G (conj (fun _ => eq_refl) (fun _ x => x))) as V.
        cbv zeta in V. assert (BN : basis_prog n ls column 0 radial cutoff None = B) by (rewrite BE; reflexivity). rewrite BN in V.
        rewrite (proj1 (V r i)), (proj1 (V (replace r i t) i)). f_equal. unfold basis_function.
        rewrite Z, (distance_axis r i t Z), (proj2 (Nat.ltb_ge i 3) I3). now rewrite (C (direction (replace r i t)) (direction r)). }
      rewrite W in E by exact T. rewrite W in E by (rewrite Rminus_eq_0, Rabs_R0; exact P). now injection E.
    + assert (RI : r i = 0) by (destruct (distance_zero r Z) as (A1 & A2 & A3); destruct i as [|[|[|]]]; auto; lia).
      rewrite RI in *. apply (even_derivative w d L). exists delta. split; [exact P|]. intros t T.
      assert (E : value B (replace r i (- t)) = value B (replace r i t)).
      { pose proof (C82_finite n ls column 0 radial cutoff None f g (fun _ => 1) Ef Eg (fun _ => False) F G (conj (fun _ => eq_refl) (fun _ x => x))) as V.
        cbv zeta in V. assert (BN : basis_prog n ls column 0 radial cutoff None = B) by (rewrite BE; reflexivity). rewrite BN in V.
        rewrite (proj1 (V (replace r i (- t)) i)), (proj1 (V (replace r i t) i)). f_equal. unfold basis_function.
        rewrite !(distance_axis r i _ Z), (proj2 (Nat.ltb_lt i 3) I3), Rabs_Ropp. now rewrite (C (direction (replace r i (- t))) (direction (replace r i t))). }
      rewrite W in E by (rewrite Rminus_0_r, Rabs_Ropp; exact T). rewrite W in E by (rewrite Rminus_0_r; exact T). now injection E.
Qed.
Print Assumptions C82_zero_scalar.

Lemma direction_bound r k : (k < 3)%nat -> Rabs (direction r k) <= 1.
Proof.
  intro K. unfold direction. destruct (Req_EM_T (distance r) 0) as [Z|N]; [rewrite Rabs_R0; lra|].
  pose proof (distance_nonneg r) as P0. assert (P : 0 < distance r) by lra.
  assert (Q : Rabs (r k) <= distance r).
  { unfold distance. rewrite <- sqrt_Rsqr_abs. apply sqrt_le_1_alt. unfold Rsqr.
    pose proof (Rle_0_sqr (r 0%nat)) as A0. pose proof (Rle_0_sqr (r 1%nat)) as A1. pose proof (Rle_0_sqr (r 2%nat)) as A2.
    unfold Rsqr in *. destruct k as [|[|[|]]]; try lia; lra. }
  unfold Rdiv. rewrite Rabs_mult, (Rabs_right (/ distance r)) by (left; now apply Rinv_0_lt_compat).
  apply (Rmult_le_reg_r (distance r)); [exact P|]. rewrite Rmult_assoc, Rinv_l by lra. lra.
Qed.

Lemma polynomial_bound n ls column u : (forall k, (k < 3)%nat -> Rabs (u k) <= 1) ->
  Rabs (polynomial n ls column u) <= rsum n (fun i => Rabs (column i)).
Proof.
  intro U. unfold polynomial. induction n as [|n IH]; cbn [rsum]; [rewrite Rabs_R0; lra|].
  eapply Rle_trans; [apply Rabs_triang|]. apply Rplus_le_compat; [exact IH|].
  assert (M : forall x m, Rabs x <= 1 -> Rabs (x ^ m) <= 1).
  { intros x m X. induction m as [|m IHm]; cbn [pow]; [rewrite Rabs_R1; lra|]. rewrite Rabs_mult.
    pose proof (Rabs_pos x). pose proof (Rabs_pos (x ^ m)). nra. }
  rewrite !Rabs_mult.
  pose proof (M _ (nth 0 (ls n) 0%nat) (U 0%nat ltac:(lia))). pose proof (M _ (nth 1 (ls n) 0%nat) (U 1%nat ltac:(lia))).
  pose proof (M _ (nth 2 (ls n) 0%nat) (U 2%nat ltac:(lia))).
  pose proof (Rabs_pos (column n)). pose proof (Rabs_pos (u 0%nat ^ nth 0 (ls n) 0%nat)).
  pose proof (Rabs_pos (u 1%nat ^ nth 1 (ls n) 0%nat)). pose proof (Rabs_pos (u 2%nat ^ nth 2 (ls n) 0%nat)).
  set (a := Rabs (u 0%nat ^ nth 0 (ls n) 0%nat)) in *. set (b := Rabs (u 1%nat ^ nth 1 (ls n) 0%nat)) in *.
  set (c := Rabs (u 2%nat ^ nth 2 (ls n) 0%nat)) in *. set (e := Rabs (column n)) in *. clearbody a b c e.
  assert (a * b <= 1) by nra. assert (0 <= a * b) by nra. assert (a * b * c <= 1) by nra. nra.
Qed.

(** [h] vanishes at zero faster than the distance. *)
Definition vanishes (h : R -> R) : Prop :=
  h 0 = 0 /\ forall eps, 0 < eps -> exists delta, 0 < delta /\ forall x, 0 < x < delta -> Rabs (h x) <= eps * x.
(** [k] is bounded for small distances. *)
Definition bounded_near_zero (k : R -> R) : Prop := exists bound delta, 0 < delta /\ forall x, 0 <= x < delta -> Rabs (k x) <= bound.

(** Entries of a degree greater than zero with a damping function: at the zero vector the basis
    function has partial derivatives although the direction is undefined, they are zero, and the
    gradient is zero. *)
Theorem C82_zero_damped : forall n ls column c radial cutoff damping f g h Ef Eg Eh,
  differentiates radial f nonnegative Ef -> factor cutoff g Eg -> differentiates damping h nonnegative Eh ->
  (c <> 0)%nat -> vanishes h -> bounded_near_zero (fun x => f x * g x) ->
  let B := basis_prog n ls column c radial cutoff (Some damping) in
  forall r i, distance r = 0 ->
    value B r = Some 0 /\ gradient B r i = Some 0 /\ partial_derivative (value B) r i 0.
Proof.
  intros n ls column c radial cutoff damping f g h Ef Eg Eh F G H C [H0 HV] (bound & del & DP & BD) B r i Z.
  pose proof (C82_finite n ls column c radial cutoff (Some damping) f g h Ef Eg Eh F G H) as V. cbv zeta in V. fold B in V.
  assert (V0 : value B r = Some 0).
  { rewrite (proj1 (V r i)). f_equal. unfold basis_function. rewrite Z, (proj2 (Nat.eqb_neq c 0) C), H0. ring. }
  split; [exact V0|]. split.
  - destruct (length_diff r i) as (dl & L & DL). rewrite (DL Z), Z in L.
    destruct (call_diff _ _ _ _ _ _ _ _ F (Rle_refl 0) L) as [p R0]. destruct (call_diff _ _ _ _ _ _ _ _ H (Rle_refl 0) L) as [q R1].
    destruct (direction_diff 0 r i ltac:(lia)) as [d0 D0]. destruct (direction_diff 1 r i ltac:(lia)) as [d1 D1].
    destruct (direction_diff 2 r i ltac:(lia)) as [d2 D2].
    destruct (angular_diff n ls column) as [D A0]. pose proof (A0 _ _ _ r i (direction r) _ _ _ D0 D1 D2) as A. clear A0.
    assert (Q : exists v q, diff (match cutoff with Some f => call radial length_prog *! call f length_prog | None => call radial length_prog end) r i v q).
    { destruct cutoff as [e|]; cbn in G; [|eauto].
      destruct (call_diff _ _ _ _ _ _ _ _ G (Rle_refl 0) L) as [q' R2]. do 2 eexists. eapply diff_mul; eassumption. }
    destruct Q as (v & q' & Q). pose proof (diff_mul _ _ _ _ _ _ _ _ (diff_mul _ _ _ _ _ _ _ _ A Q) R1) as O.
    unfold B, basis_prog. cbv zeta. rewrite (proj2 (Nat.eqb_neq c 0) C), (diff_gradient _ _ _ _ _ O), H0. f_equal. ring.
  - exists (fun t => basis_function n ls column c f g h (replace r i t)), 1. split; [lra|].
    split; [intros t _; exact (proj1 (V (replace r i t) i))|].
    set (K := rsum n (fun i => Rabs (column i))).
    assert (K0 : 0 <= K) by (unfold K; clear; induction n as [|n IH]; cbn [rsum]; [lra|pose proof (Rabs_pos (column n)); lra]).
    assert (B0 : 0 <= bound) by (pose proof (BD 0 ltac:(lra)) as X; pose proof (Rabs_pos (f 0 * g 0)); lra).
    intros eps EP. destruct (HV (eps / (2 * (K * bound + 1)))) as (del' & DP' & HB).
    { apply Rmult_lt_0_compat; [exact EP|apply Rinv_0_lt_compat; nra]. }
    assert (MP : 0 < Rmin del del') by now apply Rmin_glb_lt.
    exists (mkposreal _ MP). intros t T0 T. cbn [pos] in T.
    assert (T1 : Rabs t < del) by (eapply Rlt_le_trans; [exact T|apply Rmin_l]).
    assert (T2 : Rabs t < del') by (eapply Rlt_le_trans; [exact T|apply Rmin_r]).
    assert (TP : 0 < Rabs t) by now apply Rabs_pos_lt.
    assert (Start : basis_function n ls column c f g h (replace r i (r i)) = 0).
    { pose proof (proj1 (V r i)) as W. rewrite V0 in W. injection W as W. now rewrite replace_self. }
    rewrite Start, Rminus_0_r, Rminus_0_r. unfold Rdiv. rewrite Rabs_mult, Rabs_inv.
    apply (Rmult_lt_reg_r (Rabs t)); [exact TP|]. rewrite Rmult_assoc, Rinv_l by lra. rewrite Rmult_1_r.
    set (r' := replace r i (r i + t)).
    assert (DT : distance r' = Rabs t \/ distance r' = 0).
    { unfold r'. destruct (le_lt_dec 3 i) as [I3|I3].
      - right. rewrite (distance_axis r i _ Z), (proj2 (Nat.ltb_ge i 3) I3). reflexivity.
      - left. assert (RI : r i = 0) by (destruct (distance_zero r Z) as (A1 & A2 & A3); destruct i as [|[|[|]]]; auto; lia).
        rewrite (distance_axis r i _ Z), (proj2 (Nat.ltb_lt i 3) I3), RI, Rplus_0_l. reflexivity. }
    unfold basis_function. rewrite (proj2 (Nat.eqb_neq c 0) C). rewrite !Rabs_mult.
    pose proof (polynomial_bound n ls column (direction r') (fun k Hk => direction_bound r' k Hk)) as PB. fold K in PB.
    destruct DT as [DT|DT]; rewrite DT.
    + pose proof (BD (Rabs t) ltac:(lra)) as FB. rewrite Rabs_mult in FB. pose proof (HB (Rabs t) ltac:(lra)) as XB.
      pose proof (Rabs_pos (polynomial n ls column (direction r'))) as P1.
      pose proof (Rmult_le_pos _ _ (Rabs_pos (f (Rabs t))) (Rabs_pos (g (Rabs t)))) as P2. pose proof (Rabs_pos (h (Rabs t))) as P3.
      set (a := Rabs (polynomial n ls column (direction r'))) in *. set (b := Rabs (f (Rabs t)) * Rabs (g (Rabs t))) in *.
      set (e := Rabs (h (Rabs t))) in *. set (x := Rabs t) in *. clearbody a b e x.
      assert (AB : a * b <= K * bound) by (apply Rmult_le_compat; assumption).
      apply (Rle_lt_trans _ ((K * bound) * (eps / (2 * (K * bound + 1)) * x))).
      * apply Rmult_le_compat; try assumption. now apply Rmult_le_pos.
      * set (m := K * bound) in *. assert (0 <= m) by (unfold m; nra). clearbody m.
        replace (m * (eps / (2 * (m + 1)) * x)) with (eps * x * (m / (2 * (m + 1)))) by (field; lra).
        assert (m / (2 * (m + 1)) < 1).
        { apply (Rmult_lt_reg_r (2 * (m + 1))); [lra|]. unfold Rdiv. rewrite Rmult_assoc, Rinv_l by lra. lra. }
        assert (0 < eps * x) by now apply Rmult_lt_0_compat. nra.
    + rewrite H0, Rabs_R0, Rmult_0_r. now apply Rmult_lt_0_compat.
Qed.
Print Assumptions C82_zero_damped.

(** [smooth_damping] is such a damping function. *)
Theorem C82_smooth_damping : forall gamma, 0 < gamma ->
  vanishes (fun x => smooth_damping x gamma) /\
  differentiates (smooth_damping_prog gamma X) (fun x => smooth_damping x gamma) nonnegative (fun x => x = 0).
Proof.
  intros gamma G. split; [split|].
  - exact (proj1 (C43_smooth_damping gamma G)).
  - intros eps EP. destruct (C43_smooth_damping_flat gamma G) as (F & E & Flat).
    destruct (Flat 1%nat) as (F0 & F' & D & Z & _). specialize (D 0). rewrite (Z 0) in D by lra.
    destruct (D eps EP) as [delta H]. exists delta. split; [apply cond_pos|]. intros x [X0 X1].
    specialize (H x ltac:(lra) ltac:(rewrite Rabs_right; lra)).
    rewrite Rplus_0_l, (F0 0), !Rminus_0_r in H by lra. rewrite E by lra.
    unfold Rdiv in H. rewrite Rabs_mult, (Rabs_right (/ x)) in H by (left; now apply Rinv_0_lt_compat).
    left. apply (Rmult_lt_reg_r (/ x)); [now apply Rinv_0_lt_compat|]. rewrite (Rmult_assoc eps), Rinv_r by lra. lra.
  - intros r _. exact (C81_damping gamma G r I).
Qed.
Print Assumptions C82_smooth_damping.

(** * The programs compute what [basis] returns *)

Definition components (v : vec) : nat -> R := fun k => nth k (vlist v) 0.

Lemma distance_size v : distance (components v) = size v.
Proof. destruct v as [[x y] z]. reflexivity. Qed.

Lemma direction_heading v k : (k < 3)%nat -> direction (components v) k = components (heading v) k.
Proof.
  intro K. unfold direction, heading. rewrite distance_size. destruct (Req_EM_T (size v) 0) as [Z|N].
  - assert (Q : distance (components v) = 0) by now rewrite distance_size.
    destruct (distance_zero _ Q) as (A & B & C). destruct k as [|[|[|]]]; auto; lia.
  - destruct v as [[x y] z]. unfold unit_of, times, components. destruct k as [|[|[|]]]; cbn; unfold Rdiv; try ring; lia.
Qed.

Lemma polynomial_ext n ls column u v : (forall k, (k < 3)%nat -> u k = v k) -> polynomial n ls column u = polynomial n ls column v.
Proof. intro H. unfold polynomial. apply rsum_ext. intros i _. rewrite !H by lia. reflexivity. Qed.

Lemma racah_known : known_normalization "racah".
Proof. left. reflexivity. Qed.

Lemma table_exponents w L s o : sh_ready w -> call_ok s o -> (0 <= L)%Z ->
  exists t, snd (spherical_harmonics_table w L s o) = Ok t /\
    forall i, (i < num_car (Z.to_nat L))%nat -> length (sh_ls R t i) = 3%nat /\ (Common_Spec.sum_list (sh_ls R t i) <= Z.to_nat L)%nat.
Proof.
  intros Hw Hc HL. pose proof (sh_ready_reply w L s o Hw Hc) as H. cbn [as_cold] in H.
  destruct (snd (spherical_harmonics_table w L s o)) as [t|e]; [|destruct H; lia]. exists t. split; [reflexivity|].
  destruct H as [t0 [_ [E [_ [_ [Hcm Hls]]]]]].
  destruct (C16_cold_table R 0 rzero sph_terms L rzero_test sph_terms_ok HL) as [t1 [E1 [_ [HM HC]]]].
  rewrite E in E1. injection E1 as <-. intros i Hi.
  assert (I1 : In (sh_ls R t i) (flat_map Common_Model.monomial_powers_of_degree (seq 0 (Z.to_nat L + 1)))).
  { rewrite <- HM, <- Hls by exact Hi. apply in_map_iff. exists i. split; [reflexivity|]. apply in_seq. lia. }
  apply in_flat_map in I1 as (d & Hd & I1). apply in_seq in Hd.
  apply C14_monomials_complete in I1 as (a & b & c & -> & S). split; [reflexivity|]. cbn. lia.
Qed.

(** Spherical harmonics are polynomials of the components, with coefficients that depend on the
    degree and the cache but not on the vectors. *)
Lemma harmonics_are_polynomials empty tiny w s o L cartesian : sh_ready w -> call_ok s o -> (0 <= L)%Z ->
  exists n ls (column : nat -> nat -> R),
    (forall u, polynomial n ls (column 0%nat) u = 1) /\
    forall rs, exists w', default_angular_fn empty tiny s o w (map vlist rs) L cartesian =
      (w', Ok (map (fun v => map (fun c => polynomial n ls (column c) (components v)) (seq 0 ((Z.to_nat L + 1) * (Z.to_nat L + 1)))) rs)).
Proof.
  intros Hw Hc HL.
  assert (S : exists n ls (column : nat -> nat -> R), forall rs, exists w',
    default_angular_fn empty tiny s o w (map vlist rs) L cartesian =
      (w', Ok (map (fun v => map (fun c => polynomial n ls (column c) (components v)) (seq 0 ((Z.to_nat L + 1) * (Z.to_nat L + 1)))) rs))).
  { destruct (table_exponents w L s o Hw Hc HL) as (t & Et & Ht).
    unfold default_angular_fn, spherical_harmonics. cbn [Nat.eqb negb]. unfold Common_Model.check_degree at 1.
    destruct (L <? 0)%Z eqn:E0; [lia|]. cbv beta iota.
    destruct (spherical_harmonics_table w L s o) as [w' rep]. cbn [snd] in Et. subst rep. cbn [bind].
    destruct (normalize_columns_ok "racah"%string (Z.to_nat L) (sh_cm R t) racah_known) as (cm' & E & _). rewrite E. cbn [bind].
    set (cols := if cartesian then Common_Model.cartesian_permutation empty (Z.to_nat L) else seq 0 ((Z.to_nat L + 1) ^ 2)).
    assert (LC : length cols = ((Z.to_nat L + 1) * (Z.to_nat L + 1))%nat).
    { unfold cols. destruct cartesian; [|rewrite seq_length; cbn; ring]. apply cart_perm_length. }
    exists (num_car (Z.to_nat L)), (sh_ls R t), (fun c i => cm' (i, nth c cols 0%nat)).
    intro rs. exists w'. f_equal. f_equal. rewrite map_map. apply map_ext. intro v. unfold combine_monomials.
    rewrite <- LC. rewrite <- (map_map (fun c => nth c cols 0%nat) (fun j => polynomial (num_car (Z.to_nat L)) (sh_ls R t) (fun i => cm' (i, j)) (components v))).
    assert (M : forall l : list nat, map (fun c => nth c l 0%nat) (seq 0 (length l)) = l).
    { clear. induction l as [|a l IH]; [reflexivity|]. cbn. f_equal. rewrite <- seq_shift, map_map. exact IH. }
    rewrite M. apply map_ext. intro j. unfold polynomial. apply rsum_ext. intros i Hi.
    destruct (Ht i Hi) as [T1 T2]. destruct v as [[x y] z]. cbn [vlist]. rewrite monomial3 by assumption. reflexivity. }
  destruct S as (n & ls & column & S). exists n, ls, column. split; [|exact S].
  intro u. set (v := (u 0%nat, u 1%nat, u 2%nat)).
  destruct (S [v]) as [w' E].
  destruct (spherical_ok empty tiny w s o [v] L true cartesian "racah"%string Hw Hc HL racah_known (or_introl eq_refl)) as (ys & Ey & F).
  unfold default_angular_fn in E. rewrite E in Ey. cbn [snd] in Ey. injection Ey as <-.
  inversion F as [|? ? ? ? (_ & Row) _]; subst. specialize (Row 0%nat 0%nat ltac:(lia) ltac:(lia)).
  rewrite (nth_map' _ _ _ _ 0%nat) in Row by (rewrite seq_length; lia). rewrite seq_nth in Row by lia. cbn [Nat.add Nat.mul] in Row.
  rewrite (polynomial_ext n ls (column 0%nat) u (components v)) by (intros k K; destruct k as [|[|[|]]]; try reflexivity; lia).
  rewrite Row. assert (P : pos cartesian 0 0 = 0%nat) by (pose proof (pos_lt cartesian 0 0 ltac:(lia)); lia). rewrite P.
  rewrite (peval_peq _ _ _ Y_00). unfold pone. rewrite peval_const.
  destruct (proj2 (normalization_known "racah" 0 racah_known)) as [[_ ->]|[[Q _]|[Q _]]]; [ring|discriminate..].
Qed.

(** [e] is the program of the function [fn] (of an array of distances), which computes [g] elementwise. *)
Definition program_of (fn : option (list R -> result (list R))) (e : option expr) (g : R -> R) (exceptions : R -> Prop) : Prop :=
  factor e g exceptions /\
  match fn, e with
  | Some fn, Some _ => forall xs, fn xs = Ok (map g xs)
  | None, None => True
  | _, _ => False
  end.

Lemma program_values fn e g E rs : program_of fn e g E -> factor_values fn rs (map g (map size rs)).
Proof.
  intros [F H]. destruct fn, e; try contradiction; cbn; [split; [apply H|now rewrite !map_length]|].
  rewrite map_map. destruct F as [F _]. apply map_ext. intro. apply F.
Qed.

(** For every degree, state of the table cache and schedule there are coefficients of the angular
    polynomials such that, for every batch of displacements, the programs of the entries compute what
    [basis] returns. *)
Theorem C82_programs : forall empty tiny w s o L cartesian, 0 < tiny -> sh_ready w -> call_ok s o -> (0 <= L)%Z ->
  exists n ls (column : nat -> nat -> R),
    (forall u, polynomial n ls (column 0%nat) u = 1) /\
    forall num radial_fn cutoff_fn damping_fn radial cutoff damping f g h Ef Eg Eh rs return_cutoff return_norm,
      (forall k, differentiates (radial k) (f k) nonnegative (Ef k)) ->
      (forall xs, radial_fn xs num = Ok (map (fun x => map (fun k => f k x) (seq 0 (Z.to_nat num))) xs)) ->
      program_of cutoff_fn cutoff g Eg -> program_of damping_fn damping h Eh ->
      rs <> [] -> (return_cutoff = true -> cutoff_fn <> None) ->
      exists y,
        snd (basis _ tiny w 3 (map vlist rs) L num radial_fn (default_angular_fn empty tiny s o)
               cutoff_fn return_cutoff return_norm damping_fn cartesian) = Ok y /\
        forall b c k v, nth_error rs b = Some v -> (c < (Z.to_nat L + 1) * (Z.to_nat L + 1))%nat -> (k < Z.to_nat num)%nat ->
          value (basis_prog n ls (column c) c (radial k) cutoff damping) (components v) = Some (entry_of y b c k).
Proof.
  intros empty tiny w s o L cartesian Ht Hw Hc HL.
  destruct (harmonics_are_polynomials empty tiny w s o L cartesian Hw Hc HL) as (n & ls & column & One & Poly).
  exists n, ls, column. split; [exact One|].
  intros num radial_fn cutoff_fn damping_fn radial cutoff damping f g h Ef Eg Eh rs rc rn HF HR HG HH Hne Hrc.
  destruct (Poly (map heading rs)) as [w' Ea].
  set (K := ((Z.to_nat L + 1) * (Z.to_nat L + 1))%nat) in *.
  assert (RV : radial_values radial_fn num rs (map (fun x => map (fun k => f k x) (seq 0 (Z.to_nat num))) (map size rs))).
  { split; [apply HR|]. split; [now rewrite !map_length|]. apply Forall_forall. intros row Hr.
    apply in_map_iff in Hr as (x & <- & _). now rewrite map_length, seq_length. }
  destruct (C51_any_angular_function _ tiny w w' rs L num radial_fn (default_angular_fn empty tiny s o) cutoff_fn rc rn damping_fn cartesian
    _ _ _ _ K Ht Hne RV (program_values _ _ _ _ rs HG) (program_values _ _ _ _ rs HH) Ea) as (y & Ey & _ & _ & _ & _ & Val).
  { now rewrite !map_length. }
  { apply Forall_forall. intros row Hr. apply in_map_iff in Hr as (x & <- & _). now rewrite map_length, seq_length. }
  { exact Hrc. }
  exists y. rewrite Ey. split; [reflexivity|]. intros b c k v Hb Hcc Hk.
  assert (Lb : (b < length rs)%nat) by (apply nth_error_Some; congruence).
  rewrite (Val b c k Lb Hcc Hk).
  pose proof (C82_finite n ls (column c) c (radial k) cutoff damping (f k) g h (Ef k) Eg Eh (HF k) (proj1 HG) (proj1 HH) (components v) 0%nat) as [V _].
  rewrite V. f_equal. unfold basis_function. rewrite distance_size.
  pose proof (nth_error_nth rs b v Hb) as Nb. unfold at2. rewrite !map_map.
  rewrite !(nth_map' _ _ _ _ v) by exact Lb. rewrite Nb.
  rewrite !(nth_map' _ _ _ _ 0%nat) by (now rewrite seq_length). rewrite !seq_nth by assumption. cbn [Nat.add].
  rewrite (polynomial_ext n ls (column c) (direction (components v)) (components (heading v))) by (intros; now apply direction_heading).
  destruct (c =? 0)%nat; ring.
Qed.
Print Assumptions C82_programs.

(** * [normalize] *)

Lemma length_square_settled tiny r i : distance r * distance r <> tiny -> 0 < tiny ->
  steady (Less (Const tiny) (length_prog *! length_prog)) r i.
Proof.
  intros N T. pose proof (distance_nonneg r) as P. destruct (length_diff r i) as (d & L & _).
  destruct (Req_dec (distance r) 0) as [Z|NZ].
  - exists (Rmin 1 tiny). split; [apply Rmin_glb_lt; lra|]. intros t Ht.
    assert (V : forall q, value (length_prog *! length_prog) q = Some (distance q * distance q)).
    { intro q. destruct (length_diff q i) as (d' & L' & _). exact (proj1 (diff_mul _ _ _ _ _ _ _ _ L' L')). }
    rewrite (holds_less (Const tiny) (length_prog *! length_prog) r tiny _ eq_refl (V r)).
    rewrite (holds_less (Const tiny) (length_prog *! length_prog) (replace r i t) tiny _ eq_refl (V _)). f_equal.
    rewrite Z, (distance_axis r i t Z).
    assert (Q : (if (i <? 3)%nat then Rabs t else 0) * (if (i <? 3)%nat then Rabs t else 0) < tiny).
    { destruct (Nat.ltb_spec i 3) as [I3|I3]; [|lra].
      assert (RI : r i = 0) by (destruct (distance_zero r Z) as (A1 & A2 & A3); destruct i as [|[|[|]]]; auto; lia).
      rewrite RI, Rminus_0_r in Ht. pose proof (Rmin_l 1 tiny). pose proof (Rmin_r 1 tiny). pose proof (Rabs_pos t). nra. }
    unfold Rltb. destruct Rlt_dec, Rlt_dec; try reflexivity; lra.
  - eapply steady_less; [apply cont_const| |intro E; symmetry in E; exact (N E)].
    eapply cont_diff; [|exact (diff_mul _ _ _ _ _ _ _ _ L L)].
    split; [apply length_settled; lra|]. split; [apply length_settled; lra|exact I].
Qed.

(** For every vector with three components, the zero vector included, [normalize] has finite
    gradients; they are the derivatives unless the square of the length is the threshold. *)
Theorem C82_normalize : forall tiny v, 0 < tiny ->
  exists u, normalize tiny [vlist v] = Ok [u] /\
    forall k i, (k < 3)%nat ->
      value (normalize_prog tiny k) (components v) = Some (nth k u 0) /\
      exists d, gradient (normalize_prog tiny k) (components v) i = Some d /\
        (size v * size v <> tiny -> partial_derivative (value (normalize_prog tiny k)) (components v) i d).
Proof.
  intros tiny v T. pose proof (normalize_direction tiny [v] T ltac:(discriminate)) as N.
  cbn [map] in N. eexists. split; [exact N|]. intros k i K.
  set (r := components v) in *. destruct (diff_any k r i) as [d D]. destruct (length_diff r i) as (d' & L & _).
  pose proof (distance_nonneg r) as P0. pose proof (distance_size v) as DS. fold r in DS.
  assert (X : exists d, diff (normalize_prog tiny k) r i (r k / (if Rltb tiny (distance r * distance r) then distance r else 1)) d).
  { unfold normalize_prog. eexists. tree. cases; [|lra]. intro Z. rewrite Z in *. lra. }
  destruct X as [dx X]. split.
  - rewrite (proj1 X). f_equal. unfold Irreps_Proofs.direction. rewrite size_length. rewrite DS. unfold Rltb.
    replace (size v ^ 2) with (size v * size v) by ring.
    unfold r, components. destruct v as [[x y] z].
    destruct Rlt_dec as [Q|Q]; destruct k as [|[|[|]]]; try lia; cbn; unfold Rdiv; rewrite ?Rinv_1; ring.
  - exists dx. split; [exact (diff_gradient _ _ _ _ _ X)|]. rewrite <- DS. intro NT.
    assert (S : settled (normalize_prog tiny k) r i).
    { split; [exact I|]. split; [|exact I]. split; [now apply length_square_settled|].
      rewrite (holds_less (Const tiny) (length_prog *! length_prog) r tiny (distance r * distance r) eq_refl (proj1 (diff_mul _ _ _ _ _ _ _ _ L L))).
      unfold Rltb. destruct Rlt_dec as [Q|Q]; [|exact I]. apply length_settled.
      destruct (Req_dec (distance r) 0) as [Z|NZ]; [rewrite Z in Q; lra|lra]. }
    destruct (sound _ r i 1 _ S (proj2 X 1) (ex_intro _ _ (proj1 X))) as (d2 & E & PD).
    replace dx with d2 by lra. exact PD.
Qed.
Print Assumptions C82_normalize.

(** At the zero vector the gradient is the identity matrix. *)
Theorem C82_normalize_zero : forall tiny k i r, 0 < tiny -> distance r = 0 -> (k < 3)%nat ->
  gradient (normalize_prog tiny k) r i = Some (if (k =? i)%nat then 1 else 0).
Proof.
  intros tiny k i r T Z K. destruct (length_diff r i) as (d' & L & _). rewrite Z in L.
  assert (V : exists d, diff (Var k) r i (r k) d /\ d = if (k =? i)%nat then 1 else 0).
  { destruct (Nat.eqb_spec k i) as [->|N]; [exists 1|exists 0]; (split; [|reflexivity]); [apply diff_var|now apply diff_other]. }
  destruct V as (d & V & <-).
  assert (X : exists e, diff (normalize_prog tiny k) r i (r k) e /\ e = d).
  { unfold normalize_prog. eexists. split; [eapply diff_eq; [tree| |reflexivity]; cases; lra|cases; lra]. }
  destruct X as (e & X & ->). exact (diff_gradient _ _ _ _ _ X).
Qed.
Print Assumptions C82_normalize_zero.

(** * What goes wrong without the guards *)

(** Three ways to write the same values: dividing by the length where it is positive, without
    replacing the divisor elsewhere; taking the square root of a sum of squares; dividing by the
    length.  At the zero vector the first has the same value as the guarded program, but none of them
    has a finite gradient. *)
Definition unguarded_direction (k : nat) : expr := Where (Less (Const 0) length_prog) (Var k /! length_prog) (Var k).
Definition unguarded_length : expr := Un Sqrt (Var 0 *! Var 0 +! Var 1 *! Var 1 +! Var 2 *! Var 2).
Theorem C82_guards_matter : forall k i, (k < 3)%nat ->
  let origin := fun _ : nat => 0 in
  value (unguarded_direction k) origin = value (direction_prog k) origin /\
  gradient (unguarded_direction k) origin i = None /\
  value unguarded_length origin = value length_prog origin /\
  gradient unguarded_length origin i = None /\
  gradient (Var k /! length_prog) origin i = None.
Proof.
  intros k i K origin.
  assert (Z : distance origin = 0) by (unfold distance, origin; replace (0 * 0 + 0 * 0 + 0 * 0) with 0 by ring; apply sqrt_0).
  assert (N : norm3 0 0 0 = 0) by exact Z.
  assert (L : Rltb 0 0 = false) by (unfold Rltb; destruct Rlt_dec; [lra|reflexivity]).
  assert (Q : Reqb 0 0 = true) by (unfold Reqb; destruct Req_EM_T; [reflexivity|lra]).
  assert (Q1 : Reqb 1 0 = false) by (unfold Reqb; destruct Req_EM_T; [lra|reflexivity]).
  unfold gradient, unguarded_direction, direction_prog, length_prog, unguarded_length, origin. cbn.
  rewrite !N, L, Q. cbn. rewrite ?Q, ?Q1, ?N, ?L. cbn.
  assert (S0 : 0 * 0 + 0 * 0 + 0 * 0 = 0) by ring. assert (P0 : Rleb 0 0 = true) by (unfold Rleb; destruct Rle_dec; [reflexivity|lra]).
  rewrite S0. repeat split.
  - f_equal. field.
  - destruct (k =? i)%nat, i as [|[|[|]]]; reflexivity.
  - now rewrite P0, sqrt_0.
  - rewrite ?P0, ?L. destruct i as [|[|[|]]]; reflexivity.
  - destruct (k =? i)%nat, i as [|[|[|]]]; reflexivity.
Qed.
Print Assumptions C82_guards_matter.

(** * Without damping (finding) *)

(** A basis function of degree one without damping jumps at the zero vector, so it has no derivative
    there; the gradient is a finite number nevertheless. *)
Theorem C82_undamped : let B := basis_prog 1 (fun _ => [1; 0; 0]%nat) (fun _ => 1) 1 (Const 1) None None in
  let origin := fun _ : nat => 0 in
  gradient B origin 0 = Some 1 /\ forall d, ~ partial_derivative (value B) origin 0 d.
Proof.
  intros B origin.
  assert (Z : distance origin = 0) by (unfold distance, origin; replace (0 * 0 + 0 * 0 + 0 * 0) with 0 by ring; apply sqrt_0).
  assert (F : differentiates (Const 1) (fun _ => 1) nonnegative (fun _ => False)).
  { intros r _. split; [reflexivity|]. exists 0. split; [unfold gradient; cbn; f_equal; ring|]. intros _. apply derivable_pt_lim_const. }
  assert (NF : factor None (fun _ => 1) (fun _ => False)) by (split; auto).
  split.
  - destruct (length_diff origin 0) as (dl & L & DL). rewrite (DL Z), Z in L.
    destruct (call_diff _ _ _ _ _ _ _ _ F (Rle_refl 0) L) as [p R0].
    pose proof (direction_zero 0 origin 0 Z ltac:(lia)) as D0. pose proof (direction_zero 1 origin 0 Z ltac:(lia)) as D1.
    pose proof (direction_zero 2 origin 0 Z ltac:(lia)) as D2. cbn [Nat.eqb] in *.
    unfold B, basis_prog, angular_prog, monomial_prog. cbn [nth sum_prog power_prog]. cbv zeta.
    set (x := direction_prog 0) in *. set (y := direction_prog 1) in *. set (z := direction_prog 2) in *.
    set (c := call (Const 1) length_prog) in *. clearbody x y z c.
    assert (X : exists v d, diff ((Const 0 +! Const 1 *! x *! Const 1 *! Const 1 *! Const 1) *! c) origin 0 v d /\ d = 1).
    { do 2 eexists. split; [tree|]. lra. }
    destruct X as (v & d & X & ->). exact (diff_gradient _ _ _ _ _ X).
  - intros d (w & delta & P & W & L).
    pose proof (C82_finite 1 (fun _ => [1; 0; 0]%nat) (fun _ => 1) 1 (Const 1) None None _ _ _ _ _ _ F NF NF) as V. cbv zeta in V. fold B in V.
    assert (E : forall t, Rabs t < delta -> 0 < t -> w t = 1 /\ w (- t) = -1).
    { intros t T T0. assert (U : forall q, q <> 0 -> value B (replace origin 0 q) = Some (q / Rabs q)).
      { intros q NQ. rewrite (proj1 (V (replace origin 0 q) 0%nat)). f_equal. unfold basis_function, polynomial, direction.
        rewrite !(distance_axis origin 0 q Z). cbn [Nat.ltb Nat.leb nth rsum Nat.eqb pow]. destruct (Req_EM_T (Rabs q) 0) as [A|A].
        - exfalso. now apply (Rabs_no_R0 q NQ).
        - cbn. field. exact A. }
      pose proof (W t ltac:(unfold origin; rewrite Rminus_0_r; exact T)) as W1. pose proof (W (- t) ltac:(unfold origin; rewrite Rminus_0_r, Rabs_Ropp; exact T)) as W2.
      rewrite U in W1, W2 by lra. rewrite Rabs_Ropp in W2. rewrite (Rabs_right t) in W1, W2 by lra. injection W1 as <-. injection W2 as <-.
      split; field; lra. }
    assert (Cont : continuity_pt w 0) by (apply derivable_continuous_pt; exists d; exact L).
    destruct (Cont (1 / 2) ltac:(lra)) as (al & AP & HA).
    set (t := Rmin (delta / 2) (al / 2)). assert (t0 : 0 < t) by (apply Rmin_glb_lt; lra).
    assert (t1 : t <= delta / 2) by apply Rmin_l. assert (t2 : t <= al / 2) by apply Rmin_r.
    destruct (E t ltac:(rewrite Rabs_right; lra) t0) as [E1 E2].
    pose proof (HA t) as H1. pose proof (HA (- t)) as H2. cbn in H1, H2. unfold R_dist, D_x, no_cond in H1, H2.
    specialize (H1 ltac:(split; [split; [exact I|lra]|rewrite Rminus_0_r, Rabs_right; lra])).
    specialize (H2 ltac:(split; [split; [exact I|lra]|rewrite Rminus_0_r, Rabs_Ropp, Rabs_right; lra])).
    rewrite E1 in H1. rewrite E2 in H2. apply Rabs_def2 in H1, H2. lra.
Qed.
Print Assumptions C82_undamped.

(** * An instance: exponential mapping, smooth cutoff at 5 and smooth damping *)

Example C82_instance : exists f g h Ef Eg Eh,
  differentiates (exponential_mapping_prog 1 false X) f nonnegative Ef /\
  program_of (Some (fun xs => Ok (map g xs))) (Some (smooth_cutoff_prog 5 X)) g Eg /\
  (forall x, smooth_cutoff x 5 = Ok (g x)) /\
  differentiates (smooth_damping_prog 1 X) h nonnegative Eh /\
  vanishes h /\ bounded_near_zero (fun x => f x * g x) /\ forall x, 0 < x -> ~ Ef x /\ ~ Eg x /\ ~ Eh x.
Proof.
  destruct (C81_cutoffs 5 ltac:(lra)) as (g & _ & G & DG & _).
  destruct (C82_smooth_damping 1 ltac:(lra)) as [V DH].
  exists (fun x => exponential_mapping x 1 false), g, (fun x => smooth_damping x 1), nowhere, nowhere, (fun x => x = 0).
  split; [intros r _; exact (C81_exponential_mapping 1 false r I)|].
  split; [split; [|reflexivity]; intros r P; apply DG; unfold nonnegative in P; lra|].
  split; [exact G|]. split; [exact DH|]. split; [exact V|]. split.
  - exists 1, 1. split; [lra|]. intros x X. 
    assert (GX : g x = doc_smooth_cutoff 5 x) by (specialize (G x); rewrite smooth_cutoff_doc in G by lra; now injection G).
    rewrite GX, Rabs_mult. unfold exponential_mapping, doc_smooth_cutoff. destruct (Rlt_dec x 5); [|lra].
    rewrite !Rabs_right by (left; apply exp_pos).
    assert (A : exp (- 1 * x) <= 1).
    { pose proof exp_0 as E0. destruct (Req_dec x 0) as [->|N]; [rewrite Rmult_0_r; lra|].
      pose proof (exp_increasing (- 1 * x) 0 ltac:(lra)). lra. }
    assert (C : exp (1 - 1 / (1 - (x / 5) ^ 2)) <= 1).
    { assert (B : 0 < 1 - (x / 5) ^ 2 <= 1) by (split; nra).
      assert (Q : 1 <= 1 / (1 - (x / 5) ^ 2)).
      { apply (Rmult_le_reg_r (1 - (x / 5) ^ 2)); [lra|]. unfold Rdiv at 2. rewrite Rmult_assoc, Rinv_l by lra. lra. }
      set (q := 1 / (1 - (x / 5) ^ 2)) in *. pose proof exp_0 as E0.
      destruct (Req_dec q 1) as [->|N]; [rewrite Rminus_eq_0; lra|]. pose proof (exp_increasing (1 - q) 0 ltac:(lra)). lra. }
    pose proof (exp_pos (- (1) * x)). pose proof (exp_pos (1 - 1 / (1 - (x / 5) ^ 2))).
    change (IZR (-1)) with (- (1)) in *. set (p := exp (- (1) * x)) in *. set (q := exp (1 - 1 / (1 - (x / 5) ^ 2))) in *. clearbody p q. nra.
  - intros x X. repeat split; intro; try contradiction; lra.
Qed.
