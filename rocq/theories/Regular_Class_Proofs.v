(** Continuous, differentiable and smooth functions of the positions of N atoms are closed under sums, products and
    compositions. *)
Require Import List Reals ZArith Bool Lia Lra.
Require Import Verif.Base Verif.RSum Verif.Rotations_Model Verif.Rotations_Spec Verif.Rotations_Proofs Verif.Smooth Verif.Molecule_Spec Verif.Molecule_Props Verif.Regular_Spec Verif.Regular_Proofs Verif.Regular_Molecule_Proofs.
Import ListNotations.
Open Scope R_scope.

(** * Sizes *)

Lemma size_nonneg : forall v, 0 <= size v.
Proof. intros v. apply sqrt_pos. Qed.
Lemma coord_size : forall v j, Rabs (coord v j) <= size v.
Proof.
  intros v j. pose proof (size_nonneg v) as H0. pose proof (size_sq v) as H1. apply Rsqr_incr_0_var; [|exact H0]. rewrite <- Rsqr_abs. unfold Rsqr. rewrite H1. destruct v as [[x y] z].
  destruct j as [|[|j]]; cbn; nra.
Qed.
Lemma size_extent : forall N d n, (n < N)%nat -> size (d n) <= extent N d.
Proof.
  intros N d n H. unfold extent. induction N as [|N IH]; [lia|]. cbn [rsum]. assert (X : 0 <= rsum N (fun n => size (d n))) by (apply rsum_nonneg; intros; apply size_nonneg).
  destruct (Nat.eq_dec n N) as [->|E]; [lra|]. pose proof (size_nonneg (d N)). assert (size (d n) <= rsum N (fun n => size (d n))) by (apply IH; lia). lra.
Qed.
Lemma extent_nonneg : forall N d, 0 <= extent N d.
Proof. intros N d. apply rsum_nonneg. intros. apply size_nonneg. Qed.

Definition slope (N : nat) (F : nat -> vec) : R := rsum N (fun n => Rabs (coord (F n) 0) + Rabs (coord (F n) 1) + Rabs (coord (F n) 2)).
Lemma slope_nonneg : forall N F, 0 <= slope N F.
Proof. intros N F. apply rsum_nonneg. intros n _. pose proof (Rabs_pos (coord (F n) 0)). pose proof (Rabs_pos (coord (F n) 1)). pose proof (Rabs_pos (coord (F n) 2)). lra. Qed.
Lemma dot_bound : forall a b, Rabs (dot a b) <= (Rabs (coord a 0) + Rabs (coord a 1) + Rabs (coord a 2)) * size b.
Proof.
  intros a b. pose proof (coord_size b 0) as H0. pose proof (coord_size b 1) as H1. pose proof (coord_size b 2) as H2. destruct a as [[x y] z], b as [[u v] w]. cbn [coord dot] in *.
  pose proof (Rabs_triang (x * u + y * v) (z * w)) as T1. pose proof (Rabs_triang (x * u) (y * v)) as T2. rewrite !Rabs_mult in *.
  pose proof (Rabs_pos x). pose proof (Rabs_pos y). pose proof (Rabs_pos z). nra.
Qed.
Lemma work_bound : forall N F d, Rabs (rsum N (fun n => dot (F n) (d n))) <= slope N F * extent N d.
Proof.
  intros N F d. induction N as [|N IH]; [cbn; rewrite Rabs_R0; lra|]. cbn [rsum].
  eapply Rle_trans; [apply Rabs_triang|]. pose proof (dot_bound (F N) (d N)) as H1. set (c := Rabs (coord (F N) 0) + Rabs (coord (F N) 1) + Rabs (coord (F N) 2)) in *.
  assert (C0 : 0 <= c) by (unfold c; pose proof (Rabs_pos (coord (F N) 0)); pose proof (Rabs_pos (coord (F N) 1)); pose proof (Rabs_pos (coord (F N) 2)); lra).
  assert (EX : extent (S N) d = extent N d + size (d N)) by reflexivity. assert (ES : slope (S N) F = slope N F + c) by reflexivity. rewrite EX, ES.
  pose proof (extent_nonneg N d) as E0. pose proof (size_nonneg (d N)) as S0. pose proof (slope_nonneg N F) as L0. nra.
Qed.

(** * Continuity *)

Section Sets.
Variables (N : nat) (U : (nat -> vec) -> Prop).
Hypothesis U_open : open_set N U.

Lemma zero_displacement : forall p, exists d, extent N d = 0 /\ forall n, displaced p d n = p n.
Proof using.
  intros p. exists (fun _ => (0, 0, 0)). split.
  - unfold extent. apply rsum_zero. intros n _. unfold size. replace (dot (0, 0, 0) (0, 0, 0)) with 0 by (cbn; ring). apply sqrt_0.
  - intros n. unfold displaced. destruct (p n) as [[x y] z]. cbn. repeat apply f_equal2; ring.
Qed.

Definition c_class (u : (nat -> vec) -> R) : Prop := forall p, U p -> continuous_at N u p.

Lemma c_comp : forall g u p, continuous_at N u p -> continuity_pt g (u p) -> continuous_at N (fun q => g (u q)) p.
Proof using.
  intros g u p Hu Hg eps He. destruct (Hg eps He) as [a [Ha Hg']]. destruct (Hu a Ha) as [dl [Hd Hu']]. exists dl. split; [exact Hd|]. intros d Ed.
  destruct (Req_dec (u (displaced p d)) (u p)) as [E|E]; [rewrite E, Rminus_diag_eq by reflexivity; now rewrite Rabs_R0|]. apply (Hg' (u (displaced p d))). split; [split; [exact I|congruence]|]. now apply Hu'.
Qed.

Lemma continuous_class : closed_class U c_class.
Proof using U_open.
  split.
  - intros u v E Hu p Up eps He. destruct (Hu p Up eps He) as [d1 [H1 H2]]. destruct (U_open p Up) as [d2 [H3 H4]]. exists (Rmin d1 d2). split; [now apply Rmin_pos|].
    intros d Hd. rewrite <- !E; [apply H2| |]; try exact Up; [eapply Rlt_le_trans; [exact Hd|apply Rmin_l]|apply H4; eapply Rlt_le_trans; [exact Hd|apply Rmin_r]].
  - intros c p _ eps He. exists 1. split; [lra|]. intros d _. rewrite Rminus_diag_eq by reflexivity. now rewrite Rabs_R0.
  - intros u v Hu Hv p Up eps He. destruct (Hu p Up (eps / 2) ltac:(lra)) as [d1 [H1 H2]]. destruct (Hv p Up (eps / 2) ltac:(lra)) as [d2 [H3 H4]]. exists (Rmin d1 d2). split; [now apply Rmin_pos|].
    intros d Hd. assert (D1 : extent N d < d1) by (eapply Rlt_le_trans; [exact Hd|apply Rmin_l]). assert (D2 : extent N d < d2) by (eapply Rlt_le_trans; [exact Hd|apply Rmin_r]).
    replace (u (displaced p d) + v (displaced p d) - (u p + v p)) with ((u (displaced p d) - u p) + (v (displaced p d) - v p)) by ring. eapply Rle_lt_trans; [apply Rabs_triang|]. specialize (H2 d D1). specialize (H4 d D2). lra.
  - intros u v Hu Hv p Up eps He. set (B := Rabs (u p) + Rabs (v p) + 1). assert (HB : 1 <= B) by (unfold B; pose proof (Rabs_pos (u p)); pose proof (Rabs_pos (v p)); lra).
    set (e := Rmin 1 (eps / (2 * B))). assert (He0 : 0 < e) by (apply Rmin_pos; [lra|apply Rdiv_lt_0_compat; lra]). assert (E1 : e <= 1) by apply Rmin_l. assert (E2 : e * (2 * B) <= eps).
    { apply Rle_trans with (eps / (2 * B) * (2 * B)); [apply Rmult_le_compat_r; [lra|apply Rmin_r]|right; field; lra]. }
    destruct (Hu p Up e He0) as [d1 [H1 H2]]. destruct (Hv p Up e He0) as [d2 [H3 H4]]. exists (Rmin d1 d2). split; [now apply Rmin_pos|].
    intros d Hd. assert (D1 : extent N d < d1) by (eapply Rlt_le_trans; [exact Hd|apply Rmin_l]). assert (D2 : extent N d < d2) by (eapply Rlt_le_trans; [exact Hd|apply Rmin_r]).
    specialize (H2 d D1). specialize (H4 d D2). set (a := u (displaced p d) - u p) in *. set (b := v (displaced p d) - v p) in *.
    replace (u (displaced p d) * v (displaced p d) - u p * v p) with (a * b + (a * v p + u p * b)) by (unfold a, b; ring).
    pose proof (Rabs_triang (a * b) (a * v p + u p * b)) as T1. pose proof (Rabs_triang (a * v p) (u p * b)) as T2. rewrite !Rabs_mult in *. unfold B in *.
    pose proof (Rabs_pos a). pose proof (Rabs_pos b). pose proof (Rabs_pos (u p)). pose proof (Rabs_pos (v p)). nra.
Qed.

Lemma c_coord : forall i j, (i < N)%nat -> c_class (fun p => coord (p i) j).
Proof using.
  intros i j Hi p _ eps He. exists eps. split; [exact He|]. intros d Hd. replace (coord (displaced p d i) j - coord (p i) j) with (coord (d i) j).
  - eapply Rle_lt_trans; [apply coord_size|]. eapply Rle_lt_trans; [apply (size_extent N d i Hi)|exact Hd].
  - unfold displaced. destruct (p i) as [[x y] z], (d i) as [[a b] c]. destruct j as [|[|j]]; cbn; ring.
Qed.

Lemma c_under : forall g, continuity g -> closed_under c_class g.
Proof using. intros g Hg u Hu p Up. apply c_comp; [now apply Hu|apply Hg]. Qed.
Lemma c_positive : forall g, continuous_positive g -> closed_positive U c_class g.
Proof using. intros g Hg u Hu Hp p Up. apply c_comp; [now apply Hu|apply Hg; now apply Hp]. Qed.

(** * Forces *)

Lemma forces_near : forall u v p F, (exists dl, 0 < dl /\ forall d, extent N d < dl -> u (displaced p d) = v (displaced p d)) -> u p = v p -> forces N u p F -> forces N v p F.
Proof using.
  intros u v p F [d0 [H0 E]] E0 H eps He. destruct (H eps He) as [d1 [H1 H2]]. exists (Rmin d0 d1). split; [now apply Rmin_pos|]. intros d Hd.
  rewrite <- E, <- E0 by (eapply Rlt_le_trans; [exact Hd|apply Rmin_l]). apply H2. eapply Rlt_le_trans; [exact Hd|apply Rmin_r].
Qed.
Lemma forces_same : forall u p F F', (forall n, (n < N)%nat -> F n = F' n) -> forces N u p F -> forces N u p F'.
Proof using.
  intros u p F F' E H eps He. destruct (H eps He) as [d1 [H1 H2]]. exists d1. split; [exact H1|]. intros d Hd. rewrite <- (rsum_ext N (fun n => dot (F n) (d n))); [now apply H2|]. intros n Hn. now rewrite E.
Qed.
Lemma forces_const : forall c p, forces N (fun _ => c) p (fun _ => (0, 0, 0)).
Proof using.
  intros c p eps He. exists 1. split; [lra|]. intros d _. rewrite rsum_zero by (intros n _; destruct (d n) as [[x y] z]; cbn; ring). replace (c - c + 0) with 0 by ring. rewrite Rabs_R0. pose proof (extent_nonneg N d). nra.
Qed.
Lemma forces_plus : forall u v p F F', forces N u p F -> forces N v p F' -> forces N (fun q => u q + v q) p (fun n => plus (F n) (F' n)).
Proof using.
  intros u v p F F' Hu Hv eps He. destruct (Hu (eps / 2) ltac:(lra)) as [d1 [H1 H2]]. destruct (Hv (eps / 2) ltac:(lra)) as [d2 [H3 H4]]. exists (Rmin d1 d2). split; [now apply Rmin_pos|].
  intros d Hd. assert (D1 : extent N d < d1) by (eapply Rlt_le_trans; [exact Hd|apply Rmin_l]). assert (D2 : extent N d < d2) by (eapply Rlt_le_trans; [exact Hd|apply Rmin_r]).
  rewrite (rsum_ext N _ (fun n => dot (F n) (d n) + dot (F' n) (d n))) by (intros n _; destruct (F n) as [[a b] c], (F' n) as [[x y] z], (d n) as [[k l] m]; cbn; ring). rewrite rsum_plus.
  match goal with |- Rabs ?t <= _ => replace t with ((u (displaced p d) - u p + rsum N (fun n => dot (F n) (d n))) + (v (displaced p d) - v p + rsum N (fun n => dot (F' n) (d n)))) by ring end.
  eapply Rle_trans; [apply Rabs_triang|]. specialize (H2 d D1). specialize (H4 d D2). lra.
Qed.

Lemma forces_comp : forall g u p F l, forces N u p F -> derivable_pt_lim g (u p) l -> forces N (fun q => g (u q)) p (fun n => times l (F n)).
Proof using.
  intros g u p F l Hu Hg eps He. set (B := slope N F). assert (HB : 0 <= B) by apply slope_nonneg.
  set (e2 := eps / (2 * (B + 1))). assert (He2 : 0 < e2) by (apply Rdiv_lt_0_compat; lra).
  set (e1 := Rmin 1 (eps / (2 * (Rabs l + 1)))). pose proof (Rabs_pos l) as HL. assert (He1 : 0 < e1) by (apply Rmin_pos; [lra|apply Rdiv_lt_0_compat; lra]).
  destruct (Hu e1 He1) as [d1 [H1 H2]]. destruct (Hg e2 He2) as [[d2 H3] H4]. cbn [pos] in H4.
  exists (Rmin d1 (d2 / (B + 1))). split; [apply Rmin_pos; [exact H1|apply Rdiv_lt_0_compat; lra]|]. intros d Hd.
  assert (D1 : extent N d < d1) by (eapply Rlt_le_trans; [exact Hd|apply Rmin_l]). assert (D2 : extent N d * (B + 1) < d2).
  { replace d2 with (d2 / (B + 1) * (B + 1)) by (field; lra). apply Rmult_lt_compat_r; [lra|]. eapply Rlt_le_trans; [exact Hd|apply Rmin_r]. }
  pose proof (extent_nonneg N d) as X0. specialize (H2 d D1). set (h := u (displaced p d) - u p) in *. set (w := rsum N (fun n => dot (F n) (d n))) in *.
  assert (W : Rabs w <= B * extent N d) by apply work_bound. assert (E1 : e1 <= 1) by apply Rmin_l.
  assert (HH : Rabs h <= (B + 1) * extent N d). { replace h with ((h + w) + - w) by ring. eapply Rle_trans; [apply Rabs_triang|]. rewrite Rabs_Ropp. assert (e1 * extent N d <= 1 * extent N d) by (apply Rmult_le_compat_r; lra). lra. }
  assert (GG : Rabs (g (u (displaced p d)) - g (u p) - l * h) <= e2 * Rabs h).
  { destruct (Req_dec h 0) as [E|E].
    - assert (E' : u (displaced p d) = u p) by (unfold h in E; lra). rewrite E', E. replace (g (u p) - g (u p) - l * 0) with 0 by ring. rewrite Rabs_R0. lra.
    - specialize (H4 h E ltac:(lra)). replace (u p + h) with (u (displaced p d)) in H4 by (unfold h; ring).
      replace (g (u (displaced p d)) - g (u p) - l * h) with (((g (u (displaced p d)) - g (u p)) / h - l) * h) by (field; exact E). rewrite Rabs_mult. apply Rmult_le_compat_r; [apply Rabs_pos|lra]. }
  rewrite (rsum_ext N _ (fun n => l * dot (F n) (d n))) by (intros n _; destruct (F n) as [[a b] c], (d n) as [[x y] z]; cbn; ring). rewrite rsum_scal_l. fold w.
  replace (g (u (displaced p d)) - g (u p) + l * w) with ((g (u (displaced p d)) - g (u p) - l * h) + l * (h + w)) by ring. eapply Rle_trans; [apply Rabs_triang|]. rewrite Rabs_mult.
  assert (A1 : e2 * Rabs h <= eps / 2 * extent N d).
  { apply Rle_trans with (e2 * ((B + 1) * extent N d)); [apply Rmult_le_compat_l; lra|]. unfold e2. right. field. lra. }
  assert (A2 : Rabs l * Rabs (h + w) <= eps / 2 * extent N d).
  { apply Rle_trans with (Rabs l * (e1 * extent N d)); [apply Rmult_le_compat_l; [apply Rabs_pos|exact H2]|]. rewrite <- Rmult_assoc. apply Rmult_le_compat_r; [exact X0|].
    apply Rle_trans with (Rabs l * (eps / (2 * (Rabs l + 1)))); [apply Rmult_le_compat_l; [exact HL|apply Rmin_r]|]. apply Rmult_le_reg_r with (2 * (Rabs l + 1)); [lra|].
    replace (Rabs l * (eps / (2 * (Rabs l + 1))) * (2 * (Rabs l + 1))) with (Rabs l * eps) by (field; lra). nra. }
  lra.
Qed.

Lemma forces_scal : forall c u p F, forces N u p F -> forces N (fun q => c * u q) p (fun n => times c (F n)).
Proof using.
  intros c u p F H. apply (forces_comp (fun x => c * x) u p F c H). pose proof (derivable_pt_lim_scal (fun x => x) c (u p) 1 (derivable_pt_lim_id (u p))) as X. rewrite Rmult_1_r in X. exact X.
Qed.
Lemma forces_square : forall u p F, forces N u p F -> forces N (fun q => u q * u q) p (fun n => times (2 * u p) (F n)).
Proof using.
  intros u p F H. apply (forces_comp (fun x => x * x) u p F (2 * u p) H). replace (2 * u p) with (1 * u p + u p * 1) by ring. apply (derivable_pt_lim_mult (fun x => x) (fun x => x)); apply derivable_pt_lim_id.
Qed.
Lemma forces_mult : forall u v p F F', forces N u p F -> forces N v p F' -> forces N (fun q => u q * v q) p (fun n => plus (times (v p) (F n)) (times (u p) (F' n))).
Proof using.
  intros u v p F F' Hu Hv. pose proof (forces_square _ _ _ (forces_plus _ _ _ _ _ Hu Hv)) as H1. pose proof (forces_square _ _ _ (forces_plus _ _ _ _ _ Hu (forces_scal (-1) _ _ _ Hv))) as H2.
  pose proof (forces_plus _ _ _ _ _ (forces_scal (1 / 4) _ _ _ H1) (forces_scal (- (1 / 4)) _ _ _ H2)) as H3. cbn beta in H3.
  apply (forces_near (fun q => 1 / 4 * ((u q + v q) * (u q + v q)) + - (1 / 4) * ((u q + -1 * v q) * (u q + -1 * v q)))); [exists 1; split; [lra|]; intros; field|field|].
  refine (forces_same _ _ _ _ _ H3). intros n _. destruct (F n) as [[a b] c], (F' n) as [[x y] z]. cbn. apply triple_eq; field.
Qed.

Definition axis (j : nat) : vec := match j with O => e1 | 1%nat => e2 | _ => e3 end.
Lemma forces_coord : forall i j p, (i < N)%nat -> forces N (fun q => coord (q i) j) p (fun n => if (n =? i)%nat then times (-1) (axis j) else (0, 0, 0)).
Proof using.
  intros i j p Hi eps He. exists 1. split; [lra|]. intros d _. rewrite (rsum_single N _ i Hi) by (intros n _ E; destruct (Nat.eqb_spec n i); [contradiction|]; destruct (d n) as [[x y] z]; cbn; ring).
  rewrite Nat.eqb_refl. replace (coord (displaced p d i) j - coord (p i) j + dot (times (-1) (axis j)) (d i)) with 0.
  - rewrite Rabs_R0. pose proof (extent_nonneg N d). nra.
  - unfold displaced. destruct (p i) as [[x y] z], (d i) as [[a b] c]. destruct j as [|[|j]]; cbn; ring.
Qed.

Definition d_class (u : (nat -> vec) -> R) : Prop := forall p, U p -> exists F, forces N u p F.
Lemma same_near : forall (u v : (nat -> vec) -> R) p, (forall q, U q -> u q = v q) -> U p -> exists dl, 0 < dl /\ forall d, extent N d < dl -> u (displaced p d) = v (displaced p d).
Proof using U_open. intros u v p E Up. destruct (U_open p Up) as [dl [H1 H2]]. exists dl. split; [exact H1|]. intros d Hd. apply E. now apply H2. Qed.

Lemma differentiable_class : closed_class U d_class.
Proof using U_open.
  split.
  - intros u v E Hu p Up. destruct (Hu p Up) as [F HF]. exists F. exact (forces_near u v p F (same_near u v p E Up) (E p Up) HF).
  - intros c p _. exists (fun _ => (0, 0, 0)). apply forces_const.
  - intros u v Hu Hv p Up. destruct (Hu p Up) as [F HF], (Hv p Up) as [F' HF']. eexists. exact (forces_plus _ _ _ _ _ HF HF').
  - intros u v Hu Hv p Up. destruct (Hu p Up) as [F HF], (Hv p Up) as [F' HF']. eexists. exact (forces_mult _ _ _ _ _ HF HF').
Qed.
Lemma d_coord : forall i j, (i < N)%nat -> d_class (fun p => coord (p i) j).
Proof using. intros i j Hi p _. eexists. exact (forces_coord i j p Hi). Qed.
Lemma d_under : forall g, differentiable g -> closed_under d_class g.
Proof using. intros g Hg u Hu p Up. destruct (Hu p Up) as [F HF]. destruct (Hg (u p)) as [l Hl]. eexists. exact (forces_comp g u p F l HF Hl). Qed.
Lemma d_positive : forall g, differentiable_positive g -> closed_positive U d_class g.
Proof using. intros g Hg u Hu Hp p Up. destruct (Hu p Up) as [F HF]. destruct (Hg (u p) (Hp p Up)) as [l Hl]. eexists. exact (forces_comp g u p F l HF Hl). Qed.

(** * Smoothness *)

Lemma do_pred : forall n u, differentiable_on N U (S n) u -> differentiable_on N U n u.
Proof using. induction n as [|n IH]; intros u H; [exact I|]. destruct H as [F [H1 H2]]. exists F. split; [exact H1|]. intros i j Hi Hj. apply IH. now apply H2. Qed.
Lemma do_ext : forall n u v, (forall p, U p -> u p = v p) -> differentiable_on N U n u -> differentiable_on N U n v.
Proof using U_open.
  intros [|n] u v E H; [exact I|]. destruct H as [F [H1 H2]]. exists F. split; [|exact H2]. intros p Up. exact (forces_near u v p (F p) (same_near u v p E Up) (E p Up) (H1 p Up)).
Qed.
Lemma do_const : forall n c, differentiable_on N U n (fun _ => c).
Proof using.
  induction n as [|n IH]; intros c; [exact I|]. exists (fun _ _ => (0, 0, 0)). split; [intros; apply forces_const|]. intros i j _ _. destruct j as [|[|j]]; apply IH.
Qed.
Lemma coord_plus : forall a b j, coord (plus a b) j = coord a j + coord b j.
Proof using. intros [[a b] c] [[x y] z] [|[|j]]; reflexivity. Qed.
Lemma coord_times : forall a b j, coord (times a b) j = a * coord b j.
Proof using. intros a [[x y] z] [|[|j]]; reflexivity. Qed.

Lemma do_plus : forall n u v, differentiable_on N U n u -> differentiable_on N U n v -> differentiable_on N U n (fun p => u p + v p).
Proof using U_open.
  induction n as [|n IH]; intros u v Hu Hv; [exact I|]. destruct Hu as [F [H1 H2]], Hv as [F' [H3 H4]]. exists (fun p i => plus (F p i) (F' p i)). split.
  - intros p Up. apply forces_plus; auto.
  - intros i j Hi Hj. apply (do_ext n (fun p => coord (F p i) j + coord (F' p i) j)); [intros p _; now rewrite coord_plus|]. apply IH; auto.
Qed.
Lemma do_mult : forall n u v, differentiable_on N U n u -> differentiable_on N U n v -> differentiable_on N U n (fun p => u p * v p).
Proof using U_open.
  induction n as [|n IH]; intros u v Hu Hv; [exact I|]. pose proof (do_pred _ _ Hu) as Hu'. pose proof (do_pred _ _ Hv) as Hv'. destruct Hu as [F [H1 H2]], Hv as [F' [H3 H4]].
  exists (fun p i => plus (times (v p) (F p i)) (times (u p) (F' p i))). split.
  - intros p Up. apply forces_mult; auto.
  - intros i j Hi Hj. apply (do_ext n (fun p => v p * coord (F p i) j + u p * coord (F' p i) j)); [intros p _; now rewrite coord_plus, !coord_times|]. apply do_plus; apply IH; auto.
Qed.
Lemma do_under : forall n g u, times_differentiable n g -> differentiable_on N U n u -> differentiable_on N U n (fun p => g (u p)).
Proof using U_open.
  induction n as [|n IH]; intros g u Hg Hu; [exact I|]. pose proof (do_pred _ _ Hu) as Hu'. destruct Hg as [g' [G1 G2]], Hu as [F [H1 H2]]. exists (fun p i => times (g' (u p)) (F p i)). split.
  - intros p Up. apply forces_comp; [now apply H1|apply G1].
  - intros i j Hi Hj. apply (do_ext n (fun p => g' (u p) * coord (F p i) j)); [intros p _; now rewrite coord_times|]. apply do_mult; [now apply IH|now apply H2].
Qed.
Lemma do_positive : forall n g u, times_differentiable_positive n g -> (forall p, U p -> 0 < u p) -> differentiable_on N U n u -> differentiable_on N U n (fun p => g (u p)).
Proof using U_open.
  induction n as [|n IH]; intros g u Hg Hp Hu; [exact I|]. pose proof (do_pred _ _ Hu) as Hu'. destruct Hg as [g' [G1 G2]], Hu as [F [H1 H2]]. exists (fun p i => times (g' (u p)) (F p i)). split.
  - intros p Up. apply forces_comp; [now apply H1|apply G1; now apply Hp].
  - intros i j Hi Hj. apply (do_ext n (fun p => g' (u p) * coord (F p i) j)); [intros p _; now rewrite coord_times|]. apply do_mult; [now apply IH|now apply H2].
Qed.

Lemma smooth_class : closed_class U (smooth_on N U).
Proof using U_open.
  split.
  - intros u v E H n. exact (do_ext n u v E (H n)).
  - intros c n. apply do_const.
  - intros u v Hu Hv n. now apply do_plus.
  - intros u v Hu Hv n. now apply do_mult.
Qed.
Lemma s_coord : forall i j, (i < N)%nat -> smooth_on N U (fun p => coord (p i) j).
Proof using.
  intros i j Hi [|n]; [exact I|]. exists (fun _ k => if (k =? i)%nat then times (-1) (axis j) else (0, 0, 0)). split; [intros p _; now apply forces_coord|]. intros i' j' _ _. apply do_const.
Qed.
Lemma s_under : forall g, infinitely_differentiable g -> closed_under (smooth_on N U) g.
Proof using U_open. intros g Hg u Hu n. now apply do_under. Qed.
Lemma s_positive : forall g, smooth_positive g -> closed_positive U (smooth_on N U) g.
Proof using U_open. intros g Hg u Hu Hp n. now apply do_positive. Qed.
End Sets.

(** * Functions on the positive half line *)

Lemma positive_near : forall f g x l, 0 < x -> (forall y, 0 < y -> f y = g y) -> derivable_pt_lim f x l -> derivable_pt_lim g x l.
Proof.
  intros f g x l Hx E H e He. destruct (H e He) as [[d Hd] H1]. cbn [pos] in H1. assert (Hm : 0 < Rmin d x) by (apply Rmin_pos; lra). exists (mkposreal _ Hm). intros h Hh Hl. cbn [pos] in Hl.
  rewrite <- !E; [apply H1; [exact Hh|eapply Rlt_le_trans; [exact Hl|apply Rmin_l]]|exact Hx|]. assert (Rabs h < x) by (eapply Rlt_le_trans; [exact Hl|apply Rmin_r]). pose proof (Rle_abs (- h)). rewrite Rabs_Ropp in *. lra.
Qed.
Lemma tdp_ext : forall n f g, (forall r, 0 < r -> f r = g r) -> times_differentiable_positive n f -> times_differentiable_positive n g.
Proof. intros [|n] f g E H; [exact I|]. destruct H as [f' [H1 H2]]. exists f'. split; [|exact H2]. intros r Hr. apply (positive_near f); auto. Qed.
Lemma tdp_pred : forall n f, times_differentiable_positive (S n) f -> times_differentiable_positive n f.
Proof. induction n as [|n IH]; intros f H; [exact I|]. destruct H as [f' [H1 H2]]. exists f'. auto. Qed.
Lemma tdp_of_td : forall n f, times_differentiable n f -> times_differentiable_positive n f.
Proof. induction n as [|n IH]; intros f H; [exact I|]. destruct H as [f' [H1 H2]]. exists f'. auto. Qed.
Lemma tdp_plus : forall n f g, times_differentiable_positive n f -> times_differentiable_positive n g -> times_differentiable_positive n (fun r => f r + g r).
Proof.
  induction n as [|n IH]; intros f g Hf Hg; [exact I|]. destruct Hf as [f' [F1 F2]], Hg as [g' [G1 G2]]. exists (fun r => f' r + g' r). split; [|now apply IH].
  intros r Hr. exact (derivable_pt_lim_plus f g r _ _ (F1 r Hr) (G1 r Hr)).
Qed.
Lemma tdp_mult : forall n f g, times_differentiable_positive n f -> times_differentiable_positive n g -> times_differentiable_positive n (fun r => f r * g r).
Proof.
  induction n as [|n IH]; intros f g Hf Hg; [exact I|]. pose proof (tdp_pred _ _ Hf) as Hf'. pose proof (tdp_pred _ _ Hg) as Hg'. destruct Hf as [f' [F1 F2]], Hg as [g' [G1 G2]].
  exists (fun r => f' r * g r + f r * g' r). split; [|apply tdp_plus; now apply IH]. intros r Hr. exact (derivable_pt_lim_mult f g r _ _ (F1 r Hr) (G1 r Hr)).
Qed.
Lemma tdp_comp : forall n f g, times_differentiable n f -> times_differentiable_positive n g -> times_differentiable_positive n (fun r => f (g r)).
Proof.
  induction n as [|n IH]; intros f g Hf Hg; [exact I|]. pose proof (tdp_pred _ _ Hg) as Hg'. destruct Hf as [f' [F1 F2]], Hg as [g' [G1 G2]].
  exists (fun r => f' (g r) * g' r). split; [|apply tdp_mult; [now apply IH|exact G2]]. intros r Hr. exact (derivable_pt_lim_comp g f r _ _ (G1 r Hr) (F1 (g r))).
Qed.
Lemma tdp_comp_positive : forall n f g, times_differentiable_positive n f -> times_differentiable_positive n g -> (forall r, 0 < r -> 0 < g r) -> times_differentiable_positive n (fun r => f (g r)).
Proof.
  induction n as [|n IH]; intros f g Hf Hg Hp; [exact I|]. pose proof (tdp_pred _ _ Hg) as Hg'. destruct Hf as [f' [F1 F2]], Hg as [g' [G1 G2]].
  exists (fun r => f' (g r) * g' r). split; [|apply tdp_mult; [now apply IH|exact G2]]. intros r Hr. exact (derivable_pt_lim_comp g f r _ _ (G1 r Hr) (F1 (g r) (Hp r Hr))).
Qed.
Lemma tdp_inv : forall n, times_differentiable_positive n Rinv.
Proof.
  induction n as [|n IH]; [exact I|]. exists (fun r => (-1) * (/ r * / r)). split.
  - intros r Hr. pose proof (derivable_pt_lim_div (fct_cte 1) (fun x => x) r 0 1 (derivable_pt_lim_const 1 r) (derivable_pt_lim_id r) ltac:(lra)) as H.
    replace (-1 * (/ r * / r)) with ((0 * r - 1 * fct_cte 1 r) / Rsqr r) by (unfold fct_cte, Rsqr; field; lra). refine (deriv_ext _ _ _ _ _ H). intros y. unfold div_fct, fct_cte, Rdiv. ring.
  - apply tdp_mult; [apply tdp_of_td, td_const|]. now apply tdp_mult.
Qed.
Lemma tdp_sqrt : forall n, times_differentiable_positive n sqrt.
Proof.
  induction n as [|n IH]; [exact I|]. exists (fun r => / 2 * / sqrt r). split.
  - intros r Hr. replace (/ 2 * / sqrt r) with (/ (2 * sqrt r)) by (field; pose proof (sqrt_lt_R0 r Hr); lra). now apply derivable_pt_lim_sqrt.
  - apply tdp_mult; [apply tdp_of_td, td_const|]. apply tdp_comp_positive; [apply tdp_inv|exact IH|apply sqrt_lt_R0].
Qed.
Lemma tdp_differentiable : forall g, times_differentiable_positive 1 g -> differentiable_positive g.
Proof. intros g [g' [H _]] r Hr. exists (g' r). auto. Qed.
Lemma differentiable_continuous : forall g r, (exists l, derivable_pt_lim g r l) -> continuity_pt g r.
Proof. intros g r [l H]. apply derivable_continuous_pt. exists l. exact H. Qed.
