(** Gradients of cutoffs, switches, windows and radial basis functions are finite and correct (C81). *)
Require Import List Reals Lra Lia ZArith Bool String.
Require Import Verif.Base Verif.Smooth Verif.Radial_Model Verif.Activations_Model Verif.Radial_Spec.
Require Import Verif.Radial_Proofs Verif.Radial_Basis_Proofs Verif.Radial_Props.
Require Import Verif.AutoDiff_Model Verif.AutoDiff_Spec Verif.AutoDiff_Proofs Verif.AutoDiff_Props Verif.AutoDiff_Radial_Proofs.
Import ListNotations.
Open Scope R_scope.

Lemma open_all : open everywhere.
Proof. intros x _. apply open_everywhere. Qed.

(** If the gradient and the derivative agree at the exceptions too, there are none. *)
Lemma differentiates_fill e g domain exceptions :
  differentiates e g domain exceptions ->
  (forall r, domain (r 0%nat) -> exceptions (r 0%nat) ->
     exists d, gradient e r 0 = Some d /\ derivable_pt_lim g (r 0%nat) d) ->
  (forall x, exceptions x \/ ~ exceptions x) ->
  differentiates e g domain nowhere.
Proof.
  intros H F EM r D. destruct (H r D) as (V & d & G & L). split; [exact V|].
  exists d. split; [exact G|]. intros _. destruct (EM (r 0%nat)) as [Q|Q]; [|auto].
  destruct (F r D Q) as (d' & G' & L'). rewrite G in G'. now injection G' as ->.
Qed.

Lemma derivative_of_minimum f x d : derivable_pt_lim f x d ->
  (exists delta, 0 < delta /\ forall t, Rabs (t - x) < delta -> f x <= f t) -> d = 0.
Proof.
  intros D (delta & P & M). destruct (Rtotal_order d 0) as [L|[E|L]]; [|exact E|]; exfalso.
  - destruct (D (- d / 2)) as [del H]; [lra|]. set (h := Rmin (delta / 2) (del / 2)).
    assert (h0 : 0 < h) by (apply Rmin_glb_lt; [lra|pose proof (cond_pos del); lra]).
    assert (h1 : h <= delta / 2) by apply Rmin_l. assert (h2 : h <= del / 2) by apply Rmin_r.
    pose proof (cond_pos del) as DP.
    specialize (H h ltac:(lra) ltac:(rewrite Rabs_right; lra)). apply Rabs_def2 in H.
    specialize (M (x + h) ltac:(replace (x + h - x) with h by ring; rewrite Rabs_right; lra)).
    assert (0 <= (f (x + h) - f x) / h) by (apply Rmult_le_pos; [lra|left; now apply Rinv_0_lt_compat]). lra.
  - destruct (D (d / 2)) as [del H]; [lra|]. set (h := Rmin (delta / 2) (del / 2)).
    assert (h0 : 0 < h) by (apply Rmin_glb_lt; [lra|pose proof (cond_pos del); lra]).
    assert (h1 : h <= delta / 2) by apply Rmin_l. assert (h2 : h <= del / 2) by apply Rmin_r.
    pose proof (cond_pos del) as DP.
    specialize (H (- h) ltac:(lra) ltac:(rewrite Rabs_left; lra)). apply Rabs_def2 in H.
    specialize (M (x + - h) ltac:(replace (x + - h - x) with (- h) by ring; rewrite Rabs_left; lra)).
    assert (0 <= (f (x + - h) - f x) / h) by (apply Rmult_le_pos; [lra|left; now apply Rinv_0_lt_compat]).
    replace ((f (x + - h) - f x) / - h) with (- ((f (x + - h) - f x) / h)) in H by (field; lra). lra.
Qed.

Lemma equal_or_not c : forall x : R, x = c \/ ~ x = c.
Proof. intro x. destruct (Req_dec x c); auto. Qed.

(** ** Cutoffs: no exceptions, the cutoff distance included *)
Theorem C81_cutoffs : forall c, 0 < c ->
  exists f g,
    (forall x, smooth_cutoff x c = Ok (f x)) /\
    differentiates (smooth_cutoff_prog c X) f (fun x => - c < x) nowhere /\
    (forall x, cosine_cutoff x c = Ok (g x)) /\
    differentiates (cosine_cutoff_prog c X) g everywhere nowhere.
Proof.
  intros c C. exists (doc_smooth_cutoff c), (doc_cosine_cutoff c).
  split; [intro; now apply smooth_cutoff_doc|].
  split; [|split; [intro; now apply cosine_cutoff_doc|]].
  - eapply differentiates_fill; [apply block_differentiates; [apply open_above|now apply smooth_cutoff_block]| |apply equal_or_not].
    cbv beta. intros r D Q. exists 0. split.
    + assert (H : exists d, diff (smooth_cutoff_prog c X) r 0 0 d /\ d = 0).
      { destruct (scaled_block c C X r 0%nat (r 0%nat) 1 (diff_var r 0) I) as [[d A] _].
        rewrite Q in A. unfold Rdiv in A. rewrite Rinv_r in A by lra.
        unfold smooth_cutoff_prog. cbv zeta. set (a := scaled_prog c X) in *. clearbody a.
        eexists. split.
        - eapply diff_eq; [tree| |reflexivity]; cases; lra.
        - cases; lra. }
      destruct H as (d & H & ->). exact (diff_gradient _ _ _ _ _ H).
    + destruct (C41_smooth_cutoff c C) as (f & F & _ & P & _ & _ & Z & F' & S & E).
      destruct (S 1%nat) as (G & DF0 & _). pose proof (DF0 c) as DF.
      assert (EQ : forall t, - c < t -> F' t = doc_smooth_cutoff c t).
      { intros t T. rewrite <- E by exact T. specialize (F t). rewrite smooth_cutoff_doc in F by exact C. now injection F. }
      assert (M : G c = 0).
      { apply (derivative_of_minimum F' c); [exact DF|]. exists c. split; [exact C|]. intros t T. apply Rabs_def2 in T.
        rewrite !EQ by lra. unfold doc_smooth_cutoff. destruct (Rlt_dec c c); [lra|].
        destruct (Rlt_dec t c); [left; apply exp_pos|lra]. }
      rewrite M in DF. rewrite Q. apply (local_deriv F' _ c 0 c); [exact C| |exact DF].
      intros t T. apply Rabs_def2 in T. apply EQ. lra.
  - eapply differentiates_fill; [apply block_differentiates; [apply open_all|now apply cosine_cutoff_block]| |apply equal_or_not].
    cbv beta. intros r D Q. exists 0. split.
    + assert (H : exists d, diff (cosine_cutoff_prog c X) r 0 0 d /\ d = 0).
      { destruct (scaled_block c C X r 0%nat (r 0%nat) 1 (diff_var r 0) I) as [[d A] _].
        rewrite Q in A. unfold Rdiv in A. rewrite Rinv_r in A by lra.
        unfold cosine_cutoff_prog. cbv zeta. set (a := scaled_prog c X) in *. clearbody a.
        eexists. split.
        - eapply diff_eq; [tree| |reflexivity]; cases; lra.
        - cases; lra. }
      destruct H as (d & H & ->). exact (diff_gradient _ _ _ _ _ H).
    + pose proof (cosine_cutoff_deriv c (r 0%nat) C) as H. destruct (Rlt_dec (r 0%nat) c); [lra|exact H].
Qed.
Print Assumptions C81_cutoffs.

(** At the cutoff distance itself both gradients are zero. *)
Example C81_at_cutoff : gradient (smooth_cutoff_prog 5 X) (fun _ => 5) 0 = Some 0.
Proof.
  destruct (C81_cutoffs 5 ltac:(lra)) as (f & g & F & D & _).
  destruct (D (fun _ => 5) ltac:(lra)) as (_ & d & G & L). rewrite G. f_equal.
  specialize (L (fun q => q)). apply (derivative_of_minimum f 5 d L). exists 1. split; [lra|]. intros t _.
  assert (K : forall x, f x = doc_smooth_cutoff 5 x).
  { intro x. specialize (F x). rewrite smooth_cutoff_doc in F by lra. now injection F. }
  rewrite !K. unfold doc_smooth_cutoff. destruct (Rlt_dec 5 5); [lra|]. destruct (Rlt_dec t 5); [left; apply exp_pos|lra].
Qed.

(** ** Damping: finite at distance zero, where the damping is zero *)
Theorem C81_damping : forall gamma, 0 < gamma ->
  differentiates (smooth_damping_prog gamma X) (fun x => smooth_damping x gamma) everywhere (fun x => x = 0).
Proof. intros g G. apply block_differentiates; [apply open_all|now apply smooth_damping_block]. Qed.
Print Assumptions C81_damping.

(** ** Mappings: for every kind, at every distance *)
Theorem C81_reciprocal_mapping : forall eps kind, 0 < eps ->
  (kind = "shifted" \/ kind = "damped" \/ kind = "cuspless")%string ->
  exists e f, reciprocal_mapping_prog eps kind X = Ok e /\
    (forall x, reciprocal_mapping eps x kind = Ok (f x)) /\
    differentiates e f (fun x => -1 < x) (fun x => kind = "damped"%string /\ x = eps).
Proof.
  intros eps kind E K. destruct (reciprocal_mapping_block eps kind E K) as (P & f & HP & HF & B).
  exists (P X), f. split; [apply HP|]. split; [exact HF|]. now apply block_differentiates; [apply open_above|].
Qed.
Print Assumptions C81_reciprocal_mapping.

Theorem C81_exponential_mapping : forall gamma cuspless,
  differentiates (exponential_mapping_prog gamma cuspless X) (fun x => exponential_mapping x gamma cuspless)
    everywhere nowhere.
Proof. intros g c. apply block_differentiates; [apply open_all|apply exponential_mapping_block]. Qed.
Print Assumptions C81_exponential_mapping.

(** ** Switches and windows *)
Theorem C81_switch : forall eps x0 x1, 0 < eps < 1 / 2 -> x0 < x1 ->
  exists f, (forall x, smooth_switch eps x x0 x1 = Ok (f x)) /\
    differentiates (smooth_switch_prog eps x0 x1 X) f everywhere
      (fun x => x = x0 + eps * (x1 - x0) \/ x = x1 - eps * (x1 - x0)).
Proof.
  intros eps x0 x1 E L. exists (fun x => switch_val eps ((x - x0) / (x1 - x0))).
  split; [intro; now apply smooth_switch_val|]. apply block_differentiates; [apply open_all|now apply switch_block].
Qed.
Print Assumptions C81_switch.

Lemma nth_error_map_seq (A : Type) (h : nat -> A) n k : (k < n)%nat -> nth_error (map h (seq 0 n)) k = Some (h k).
Proof.
  intro K. rewrite nth_error_map. rewrite (nth_error_nth' (seq 0 n) 0%nat) by now rewrite seq_length.
  rewrite seq_nth by exact K. reflexivity.
Qed.

(** Entry [k] of the array returned for the argument [x] is [f x]. *)
Definition entry (array : R -> list R) (k : nat) (f : R -> R) : Prop := forall x, nth_error (array x) k = Some (f x).

Theorem C81_windows : forall eps num limit k, 0 < eps < 1 / 2 -> (k < num)%nat -> 0 < limit ->
  let center := linspace0 limit num k in
  let width := limit / INR num in
  exists f g h,
    entry (fun x => rectangular_window x num limit) k f /\
    differentiates (rectangular_window_prog num limit k X) f everywhere (fun x => x = center \/ x = center + width) /\
    entry (fun x => triangular_window x num limit) k g /\
    differentiates (triangular_window_prog num limit k X) g everywhere
      (fun x => x = center - width \/ x = center \/ x = center + width) /\
    entry (fun x => smooth_window eps x num limit) k h /\
    differentiates (smooth_window_prog eps num limit k X) h everywhere
      (fun x => x = center - (1 - eps) * width \/ x = center - eps * width
                \/ x = center + eps * width \/ x = center + (1 - eps) * width).
Proof.
  intros eps num limit k E K L center width.
  assert (N : 0 < INR num) by (apply lt_0_INR; lia).
  assert (W : 0 < width) by now apply Rdiv_lt_0_compat.
  eexists _, _, _. split; [|split; [|split; [|split; [|split]]]].
  - intro x. unfold rectangular_window. rewrite nth_error_map_seq by exact K. reflexivity.
  - eapply block_differentiates; [apply open_all|]. eapply block_weaken; [apply rectangular_block| |].
    + intros u _. split; [exact I|reflexivity].
    + intros u _ [Q|Q]; [now left|right]. rewrite Q. unfold center, width, linspace0.
      rewrite plus_INR. cbn [INR]. field. lra.
  - intro x. unfold triangular_window. rewrite nth_error_map_seq by exact K. reflexivity.
  - eapply block_differentiates; [apply open_all|]. eapply block_weaken; [apply (triangular_block num limit k); [lia|exact L]| |].
    + intros u _. split; [exact I|reflexivity].
    + intros u _ Q. exact Q.
  - intro x. unfold smooth_window. rewrite nth_error_map_seq by exact K. reflexivity.
  - eapply block_differentiates; [apply open_all|]. eapply block_weaken; [apply (smooth_window_block eps num limit k E)| |].
    + intros u _. split; [exact I|]. cbv zeta. unfold smooth_switch01.
      rewrite !smooth_switch_val by lra. f_equal; f_equal; field; lra.
    + cbv zeta. fold center. intros u _ Q.
      assert (R : forall t, INR num / limit * (u - center) = t -> u = center + t * width).
      { intros t <-. unfold width. field. lra. }
      destruct Q as [Q|[Q|[Q|Q]]].
      * left. rewrite (R (- (1 - eps)) ltac:(lra)). ring.
      * right. left. rewrite (R (- eps) ltac:(lra)). ring.
      * right. right. left. exact (R _ Q).
      * right. right. right. exact (R _ Q).
Qed.
Print Assumptions C81_windows.

(** ** Radial basis functions *)

(** The arrays of functions/bernstein.py, chebyshev.py, gaussian.py and trigonometric.py, by name. *)
Definition basic_array (eps : R) (f : string) (num : nat) (limit x : R) : result (list R) :=
  if String.eqb f "bernstein" then basic_bernstein eps x (Z.of_nat num) limit
  else if String.eqb f "chebyshev" then basic_chebyshev eps x (Z.of_nat num) limit
  else if String.eqb f "gaussian" then basic_gaussian x (Z.of_nat num) limit
  else if String.eqb f "fourier" then basic_fourier x (Z.of_nat num) limit
  else Err ValueError.
Definition reciprocal_array (eps : R) (f : string) (num : nat) (kind : string) (w : bool) (x : R) : result (list R) :=
  if String.eqb f "bernstein" then reciprocal_bernstein eps x (Z.of_nat num) kind w
  else if String.eqb f "chebyshev" then reciprocal_chebyshev eps x (Z.of_nat num) kind w
  else if String.eqb f "gaussian" then reciprocal_gaussian eps x (Z.of_nat num) kind w
  else if String.eqb f "fourier" then reciprocal_fourier eps x (Z.of_nat num) kind w
  else Err ValueError.
Definition exponential_array (eps : R) (f : string) (num : nat) (gamma : R) (cuspless w : bool) (x : R) : result (list R) :=
  if String.eqb f "bernstein" then exponential_bernstein eps x (Z.of_nat num) gamma cuspless w
  else if String.eqb f "chebyshev" then exponential_chebyshev eps x (Z.of_nat num) gamma cuspless w
  else if String.eqb f "gaussian" then exponential_gaussian x (Z.of_nat num) gamma cuspless w
  else if String.eqb f "fourier" then exponential_fourier x (Z.of_nat num) gamma cuspless w
  else Err ValueError.
Definition known (f : string) : Prop :=
  (f = "bernstein" \/ f = "chebyshev" \/ f = "gaussian" \/ f = "fourier")%string.

(** Entry [k] of the array returned without an error for the argument [x] is [f x]. *)
Definition entry_ok (array : R -> result (list R)) (k : nat) (f : R -> R) : Prop :=
  forall x, exists l, array x = Ok l /\ nth_error l k = Some (f x).

(** Arguments of the underlying functions at which the formula changes: Bernstein polynomials at or
    beyond the thresholds next to zero and one, Chebyshev polynomials at the thresholds next to
    minus one and one. *)
Definition inner_exception (eps : R) (f : string) (mapping : R) : Prop :=
  (f = "bernstein"%string /\ (1 - mapping <= eps \/ 1 - eps <= 1 - mapping)) \/
  (f = "chebyshev"%string /\ Rabs (2 * mapping - 1) = 1 - eps).

Lemma bernstein_array eps num k u : (k < num)%nat ->
  exists l, bernstein eps u (Z.of_nat num) = Ok l /\ nth_error l k = Some (bernstein_fun eps (num - 1) k u).
Proof.
  intro K. unfold bernstein, bernstein_fun. destruct (Z.ltb_spec (Z.of_nat num) 1); [lia|].
  destruct (Z.eqb_spec (Z.of_nat num) 1) as [Q|Q].
  - exists [1]. split; [reflexivity|]. replace num with 1%nat by lia. replace k with 0%nat by lia. reflexivity.
  - eexists. split; [reflexivity|]. replace (Z.to_nat (Z.of_nat num - 1)) with (num - 1)%nat by lia.
    rewrite nth_error_map_seq by lia. destruct (Nat.eqb_spec (num - 1) 0); [lia|reflexivity].
Qed.

Lemma chebyshev_array eps num k u : (k < num)%nat ->
  exists l, chebyshev eps u (Z.of_nat num) = Ok l /\ nth_error l k = Some (chebyshev_fun eps num k u).
Proof.
  intro K. unfold chebyshev, chebyshev_fun. destruct (Z.ltb_spec (Z.of_nat num) 1); [lia|].
  destruct (Z.eqb_spec (Z.of_nat num) 1) as [Q|Q].
  - exists [1]. split; [reflexivity|]. replace num with 1%nat by lia. replace k with 0%nat by lia. reflexivity.
  - eexists. split; [reflexivity|]. rewrite Nat2Z.id.
    rewrite nth_error_map_seq by lia. destruct (Nat.eqb_spec num 1); [lia|reflexivity].
Qed.

Lemma gaussian_array num k u : (k < num)%nat ->
  exists l, gaussian u (Z.of_nat num) = Ok l /\ nth_error l k = Some (gaussian_fun num k u).
Proof.
  intro K. unfold gaussian, gaussian_fun. destruct (Z.ltb_spec (Z.of_nat num) 1); [lia|].
  eexists. split; [reflexivity|]. rewrite Nat2Z.id, nth_error_map_seq by exact K. rewrite <- INR_IZR_INZ.
  destruct (Z.eqb_spec (Z.of_nat num) 1), (Nat.eqb_spec num 1); try lia; reflexivity.
Qed.

Lemma fourier_array num k u : (k < num)%nat ->
  exists l, fourier u (Z.of_nat num) = Ok l /\ nth_error l k = Some (cos (PI * INR k * u)).
Proof.
  intro K. unfold fourier. destruct (Z.ltb_spec (Z.of_nat num) 1); [lia|].
  eexists. split; [reflexivity|]. rewrite Nat2Z.id, nth_error_map_seq by exact K. reflexivity.
Qed.

(** The function of the mapping computed by each family, as a block. *)
Definition inner_array (eps : R) (f : string) (num : nat) (mapping : R) : result (list R) :=
  if String.eqb f "bernstein" then bernstein eps (1 - mapping) (Z.of_nat num)
  else if String.eqb f "chebyshev" then chebyshev eps (2 * mapping - 1) (Z.of_nat num)
  else if String.eqb f "gaussian" then gaussian (1 - mapping) (Z.of_nat num)
  else if String.eqb f "fourier" then fourier (1 - mapping) (Z.of_nat num)
  else Err ValueError.

Lemma inner_block eps f num k : 0 < eps < 1 / 2 -> known f -> (k < num)%nat ->
  exists P g, (forall a, inner_prog eps f num k a = Ok (P a)) /\
    entry_ok (inner_array eps f num) k g /\ block P g everywhere (inner_exception eps f).
Proof.
  intros E [->|[->|[->| ->]]] K.
  - eexists _, _. split; [intro; reflexivity|]. split; [intro; now apply bernstein_array|].
    eapply block_weaken; [exact (block_comp _ _ _ _ _ _ _ _ (bernstein_block eps (num - 1) k E ltac:(lia)) one_minus_block (fun _ _ => I))| |].
    + intros u _. split; [exact I|reflexivity].
    + intros u _ [[]|Q]. left. split; [reflexivity|exact Q].
  - eexists _, _. split; [intro; reflexivity|]. split; [intro; now apply chebyshev_array|].
    eapply block_weaken; [exact (block_comp _ _ _ _ _ _ _ _ (chebyshev_block eps num k E) (affine_block 2 1) (fun _ _ => I))| |].
    + intros u _. split; [exact I|reflexivity].
    + intros u _ [[]|Q]. right. split; [reflexivity|exact Q].
  - eexists _, _. split; [intro; reflexivity|]. split; [intro; now apply gaussian_array|].
    eapply block_weaken; [exact (block_comp _ _ _ _ _ _ _ _ (gaussian_block num k) one_minus_block (fun _ _ => I))| |].
    + intros u _. split; [exact I|reflexivity].
    + intros u _ [[]|[]].
  - eexists _, _. split; [intro; reflexivity|]. split; [intro; now apply fourier_array|].
    eapply block_weaken; [exact (block_comp _ _ _ _ _ _ _ _ (fourier_block k) one_minus_block (fun _ _ => I))| |].
    + intros u _. split; [exact I|reflexivity].
    + intros u _ [[]|[]].
Qed.

(** Functions of a mapping, possibly weighted by it. *)
Lemma mapped_block eps f num k w M m (D EM : R -> Prop) :
  0 < eps < 1 / 2 -> known f -> (k < num)%nat -> block M m D EM ->
  exists P g,
    (forall a, rmap (weighted_prog w (M a)) (inner_prog eps f num k (M a)) = Ok (P a)) /\
    entry_ok (fun x => rmap (weighted w (m x)) (inner_array eps f num (m x))) k g /\
    block P g D (fun x => EM x \/ inner_exception eps f (m x)).
Proof.
  intros E F K B. destruct (inner_block eps f num k E F K) as (P & g & HP & HG & HB).
  pose proof (block_comp _ _ _ _ _ _ _ _ HB B (fun _ _ => I)) as C. destruct w.
  - exists (fun a => P (M a) *! M a), (fun x => g (m x) * m x). split; [|split].
    + intro a. rewrite HP. reflexivity.
    + intro x. destruct (HG (m x)) as (l & L & N). rewrite L. eexists. split; [reflexivity|].
      unfold weighted. rewrite nth_error_map, N. reflexivity.
    + eapply block_weaken; [exact (block_mul _ _ _ _ _ _ _ _ C B)| |].
      * intros u U. split; [split; exact U|reflexivity].
      * intros u _ [Q|Q]; [exact Q|left; exact Q].
  - exists (fun a => P (M a)), (fun x => g (m x)). split; [|split].
    + intro a. rewrite HP. reflexivity.
    + intro x. destruct (HG (m x)) as (l & L & N). rewrite L. eexists. split; [reflexivity|exact N].
    + exact C.
Qed.

Theorem C81_reciprocal_basis : forall eps f num k kind weighting,
  0 < eps < 1 / 2 -> known f -> (k < num)%nat ->
  (kind = "shifted" \/ kind = "damped" \/ kind = "cuspless")%string ->
  exists e g m,
    reciprocal_prog eps f num k kind weighting X = Ok e /\
    entry_ok (reciprocal_array eps f num kind weighting) k g /\
    (forall x, reciprocal_mapping eps x kind = Ok (m x)) /\
    differentiates e g (fun x => -1 < x)
      (fun x => (kind = "damped"%string /\ x = eps) \/ inner_exception eps f (m x)).
Proof.
  intros eps f num k kind w E F K KD. destruct (reciprocal_mapping_block eps kind (proj1 E) KD) as (M & m & HM & Hm & B).
  destruct (mapped_block eps f num k w M m _ _ E F K B) as (P & g & HP & HG & C).
  exists (P X), g, m. split; [|split; [|split; [exact Hm|]]].
  - unfold reciprocal_prog. rewrite HM. cbn [bind]. apply HP.
  - intro x. destruct (HG x) as (l & L & N). exists l. split; [|exact N]. rewrite <- L.
    unfold reciprocal_array, inner_array.
    destruct F as [->|[->|[->| ->]]]; cbn [String.eqb Ascii.eqb Bool.eqb];
      unfold reciprocal_bernstein, reciprocal_chebyshev, reciprocal_gaussian, reciprocal_fourier;
      rewrite Hm; reflexivity.
  - apply block_differentiates; [apply open_above|exact C].
Qed.
Print Assumptions C81_reciprocal_basis.

Theorem C81_exponential_basis : forall eps f num k gamma cuspless weighting,
  0 < eps < 1 / 2 -> known f -> (k < num)%nat ->
  exists e g,
    exponential_prog eps f num k gamma cuspless weighting X = Ok e /\
    entry_ok (exponential_array eps f num gamma cuspless weighting) k g /\
    differentiates e g everywhere (fun x => inner_exception eps f (exponential_mapping x gamma cuspless)).
Proof.
  intros eps f num k gamma cuspless w E F K.
  destruct (mapped_block eps f num k w _ _ _ _ E F K (exponential_mapping_block gamma cuspless)) as (P & g & HP & HG & C).
  exists (P X), g. split; [|split].
  - apply HP.
  - intro x. destruct (HG x) as (l & L & N). exists l. split; [|exact N]. rewrite <- L.
    unfold exponential_array, inner_array.
    destruct F as [->|[->|[->| ->]]]; reflexivity.
  - apply block_differentiates; [apply open_all|]. eapply block_weaken; [exact C| |].
    + intros u _. split; [exact I|reflexivity].
    + intros u _ [[]|Q]; exact Q.
Qed.
Print Assumptions C81_exponential_basis.

(** The functions of the distance itself; beyond the limit Chebyshev polynomials are constant. *)
Theorem C81_basic_basis : forall eps f num k limit,
  0 < eps < 1 / 2 -> known f -> (k < num)%nat -> 0 < limit ->
  exists e g,
    basic_prog eps f num k limit X = Ok e /\
    entry_ok (basic_array eps f num limit) k g /\
    differentiates e g everywhere
      (fun x => (f = "bernstein"%string /\ (x / limit <= eps \/ 1 - eps <= x / limit)) \/
                (f = "chebyshev"%string /\ (Rabs (2 * x / limit - 1) = 1 - eps \/ Rabs (2 * x / limit - 1) = 1))).
Proof.
  intros eps f num k limit E F K L. assert (L0 : limit <> 0) by lra. destruct F as [->|[->|[->| ->]]].
  - eexists _, _. split; [reflexivity|]. split; [intro; now apply bernstein_array|].
    apply (block_differentiates (fun a => bernstein_prog eps (num - 1) k (a /! Const limit))); [apply open_all|].
    eapply block_weaken; [exact (block_comp _ _ _ _ _ _ _ _ (bernstein_block eps (num - 1) k E ltac:(lia)) (div_block limit L0) (fun _ _ => I))| |].
    + intros u _. split; [exact I|reflexivity].
    + intros u _ [[]|Q]. left. split; [reflexivity|exact Q].
  - eexists _, _. split; [reflexivity|]. split; [|apply block_differentiates; [apply open_all|]].
    2: { eapply block_weaken; [exact (basic_chebyshev_block eps num limit k E L)| |].
         - intros u _. split; [exact I|reflexivity].
         - intros u _ Q. right. split; [reflexivity|exact Q]. }
    intro x. cbn [basic_array String.eqb Ascii.eqb Bool.eqb]. unfold basic_array. cbn [String.eqb Ascii.eqb Bool.eqb].
    unfold basic_chebyshev. cbv zeta. destruct (chebyshev_array eps num k (2 * x / limit - 1) K) as (l & -> & N).
    cbn [bind]. eexists. split; [reflexivity|]. destruct (Rleb (Rabs (2 * x / limit - 1)) 1); [exact N|].
    rewrite Nat2Z.id, nth_error_map_seq by exact K. f_equal. f_equal. unfold rsign, jsign, Rltb, Reqb.
    destruct (Rlt_dec (2 * x / limit - 1) 0); [reflexivity|]. destruct (Req_EM_T (2 * x / limit - 1) 0); reflexivity.
  - eexists _, _. split; [reflexivity|]. split; [intro; now apply gaussian_array|].
    apply (block_differentiates (fun a => gaussian_prog num k (a /! Const limit))); [apply open_all|].
    eapply block_weaken; [exact (block_comp _ _ _ _ _ _ _ _ (gaussian_block num k) (div_block limit L0) (fun _ _ => I))| |].
    + intros u _. split; [exact I|reflexivity].
    + intros u _ [[]|[]].
  - eexists _, _. split; [reflexivity|]. split; [intro; now apply fourier_array|].
    apply (block_differentiates (fun a => fourier_prog k (a /! Const limit))); [apply open_all|].
    eapply block_weaken; [exact (block_comp _ _ _ _ _ _ _ _ (fourier_block k) (div_block limit L0) (fun _ _ => I))| |].
    + intros u _. split; [exact I|reflexivity].
    + intros u _ [[]|[]].
Qed.
Print Assumptions C81_basic_basis.

(** [sinc] does have a kink at the limit. *)
Theorem C81_sinc : forall num k limit, (k < num)%nat -> 0 < limit ->
  exists f, entry (fun x => sinc x (Z.of_nat num) limit) k f /\
    differentiates (sinc_prog limit k X) f everywhere (fun x => x = limit).
Proof.
  intros num k limit K L. eexists. split; [|apply block_differentiates; [apply open_all|now apply sinc_block]].
  intro x. unfold sinc. cbv zeta. rewrite Nat2Z.id. rewrite nth_error_map.
  rewrite (nth_error_nth' (seq 1 num) 0%nat) by now rewrite seq_length. rewrite seq_nth by exact K.
  cbn [option_map]. replace (1 + k)%nat with (k + 1)%nat by lia. reflexivity.
Qed.
Print Assumptions C81_sinc.

(** The hypotheses are met, and the exceptions are not the common case: at distance one, with the
    machine epsilon of float32, no family has an exception. *)
Example C81_ordinary : known "bernstein" /\ ~ inner_exception (1 / 8388608) "bernstein" (exponential_mapping 1 1 false)
  /\ ~ inner_exception (1 / 8388608) "chebyshev" (1 / (1 + 1)).
Proof.
  split; [now left|]. split.
  - intros [[_ Q]|[Q _]]; [|discriminate Q]. unfold exponential_mapping in Q.
    replace (Ropp 1 * 1) with (Ropp 1) in Q by ring. rewrite exp_Ropp in Q.
    assert (1 < exp 1) by (pose proof (exp_ineq1 1 ltac:(lra)); lra).
    assert (exp 1 <= 3) by apply exp_le_3.
    assert (0 < / exp 1) by (apply Rinv_0_lt_compat; lra).
    assert (exp 1 * / exp 1 = 1) by (apply Rinv_r; lra).
    assert (2 < exp 1) by (pose proof (exp_ineq1 1 ltac:(lra)); lra).
    set (q := / exp 1) in *. assert (1 <= 3 * q) by nra. assert (2 * q < 1) by nra. lra.
  - intros [[Q _]|[_ Q]]; [discriminate Q|]. replace (2 * (1 / (1 + 1)) - 1) with 0 in Q by field.
    rewrite Rabs_R0 in Q. lra.
Qed.
