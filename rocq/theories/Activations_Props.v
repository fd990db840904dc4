(** Property C50: activations. *)
Require Import List Reals ZArith Bool Lra Lia.
Require Import Verif.Base Verif.RSum Verif.Features_Model Verif.Features_Spec Verif.Features_Proofs Verif.Radial_Model
  Verif.Radial_Proofs Verif.Activations_Model Verif.Activations_Spec Verif.Activations_Proofs.
Import ListNotations.
Open Scope R_scope.

(** Every activation acts on scalar features as its documented function; the five that divide by x
    use a Taylor polynomial for |x| <= eps, with the stated error. *)
Theorem C50_scalar_functions : forall erf eps alpha, 0 < eps ->
  scalar_function relu doc_relu exact
  /\ scalar_function (leaky_relu alpha) (doc_leaky_relu alpha) exact
  /\ scalar_function (elu eps alpha) (doc_elu alpha) (taylor_error eps (Rabs alpha / 24))
  /\ scalar_function (selu eps) doc_selu (taylor_error eps (8 / 100))
  /\ (0 < alpha -> scalar_function (celu eps alpha) (doc_celu alpha) (taylor_error eps (/ (24 * alpha ^ 3))))
  /\ scalar_function silu doc_silu exact
  /\ scalar_function (gelu erf false) (doc_gelu erf) exact
  /\ scalar_function (gelu erf true) doc_gelu_approximate exact
  /\ scalar_function (mish true) doc_mish exact
  /\ scalar_function (mish false) doc_mish exact
  /\ scalar_function (serf erf) (doc_serf erf) exact
  /\ scalar_function (shifted_softplus eps) doc_shifted_softplus (taylor_error eps (1 / 192))
  /\ scalar_function hard_tanh doc_hard_tanh exact
  /\ scalar_function soft_sign doc_soft_sign exact
  /\ scalar_function relu6 doc_relu6 exact
  /\ scalar_function hard_silu doc_hard_silu exact
  /\ scalar_function (bent_identity eps) doc_bent_identity (taylor_error eps (1 / 16)).
Proof.
  intros erf eps alpha He.
  split; [apply scalar_exact, relu_scalar|].
  split; [apply scalar_exact, leaky_relu_scalar|].
  split; [apply scalar_of_gate; intros; now apply elu_scalar|].
  split.
  { intros x. destruct (scalar_of_gate _ _ _ (fun t => elu_scalar eps selu_alpha t He) x)
      as [y [E [HB [HS [HD [HF [Hd H]]]]]]].
    unfold selu, elu. rewrite E. simpl rmap. eexists. split; [reflexivity|].
    do 5 (split; [assumption|]). intros i f. simpl fv. specialize (H i f).
    set (a := fv y i 0%nat 0%nat f) in *. set (t := fv x i 0%nat 0%nat f) in *.
    unfold doc_selu. fold selu_alpha selu_scale.
    replace (selu_scale * a - selu_scale * doc_elu selu_alpha t) with (selu_scale * (a - doc_elu selu_alpha t)) by ring.
    rewrite Rabs_mult. unfold taylor_error in *. rewrite (Rabs_right selu_scale) by (unfold selu_scale; lra).
    rewrite (Rabs_right selu_alpha) in H by (unfold selu_alpha; lra). unfold selu_scale, selu_alpha in *.
    pose proof (pow4_nonneg t). pose proof (Rabs_pos (a - doc_elu 1.6732632423543772848170429916717 t)).
    destruct (Rle_dec (Rabs t) eps); lra. }
  split; [intros Ha; apply scalar_of_gate; intros; now apply celu_scalar|].
  split; [apply scalar_exact, silu_scalar|].
  split; [apply scalar_exact, gelu_scalar|].
  split; [apply scalar_exact, gelu_approx_scalar|].
  split; [apply scalar_exact, mish_scalar|].
  split; [apply scalar_exact, mish_scalar|].
  split; [apply scalar_exact, serf_scalar|].
  split; [apply scalar_of_gate; intros; now apply shifted_softplus_scalar|].
  split; [apply scalar_exact, hard_tanh_scalar|].
  split; [apply scalar_exact, soft_sign_scalar|].
  split; [apply scalar_exact, relu6_scalar|].
  split; [apply scalar_exact, hard_silu_scalar|].
  apply scalar_of_gate; intros; now apply bent_identity_scalar.
Qed.
Print Assumptions C50_scalar_functions.

(** All activations of the module. *)
Definition activations (erf : R -> R) (eps alpha : R) : list (feat -> result feat) :=
  [relu; leaky_relu alpha; elu eps alpha; selu eps; celu eps alpha; silu; gelu erf false; gelu erf true;
   mish true; mish false; serf erf; shifted_softplus eps; hard_tanh; soft_sign; relu6; hard_silu; bent_identity eps].

Lemma activation_gated erf eps alpha act : In act (activations erf eps alpha) ->
  exists g, forall x, exists y, act x = Ok y /\ same_feature (gated g x) y /\ same_feature y (gated g x).
Proof.
  assert (forall g, exists g', forall x, exists y, gated_linear g x = Ok y /\ same_feature (gated g' x) y /\ same_feature y (gated g' x)) as G.
  { intros g. exists g. intros x. exists (gated g x). rewrite gated_ok. split; [reflexivity|]. split; repeat split. }
  intros H. simpl in H.
  repeat (destruct H as [<-|H]; [try apply G|]); [|contradiction].
  exists (fun t => selu_scale * elu_gate eps selu_alpha t). intros x. unfold selu, elu. rewrite gated_ok. simpl.
  eexists. split; [reflexivity|]. split; repeat split; intros; simpl; ring.
Qed.

(** The components of the output are those of the input times a factor that depends only on the
    even scalar component (and so every activation keeps degrees and parities apart). *)
Theorem C50_gated : forall erf eps alpha act, In act (activations erf eps alpha) ->
  exists g, forall x n, valid n x -> (0 < n)%nat -> exists y, act x = Ok y
    /\ fB y = fB x /\ fS y = fS x /\ fD y = fD x /\ fF y = fF x /\ fdt y = fdt x
    /\ forall i p l k f, (p < 2)%nat -> (k < 2 * l + 1)%nat ->
         comp y i p l k f = g (comp x i 0 0 0 f) * comp x i p l k f.
Proof.
  intros erf eps alpha act H. destruct (activation_gated erf eps alpha act H) as [g Hg]. exists g.
  intros x n Hx Hn. destruct (Hg x) as [y [E [Q Q']]]. exists y. split; [exact E|].
  destruct Q' as [HB [HS [HD [HF [Hd _]]]]]. do 5 (split; [assumption|]).
  intros i p l k f Hp Hk. rewrite <- (gated_comp n g x i p l k f Hx Hn). symmetry.
  now apply (same_feature_comp n).
Qed.
Print Assumptions C50_gated.

Lemma same_feature_sym x y : same_feature x y -> same_feature y x.
Proof.
  intros [HB [HS [HD [HF [Hd H]]]]]. unfold same_feature. repeat split; auto.
  intros i s d f Hs Hd'. symmetry. apply H; congruence.
Qed.
Lemma same_feature_trans x y z : same_feature x y -> same_feature y z -> same_feature x z.
Proof.
  intros [HB [HS [HD [HF [Hd H]]]]] [HB' [HS' [HD' [HF' [Hd' H']]]]]. unfold same_feature.
  repeat split; try congruence. intros i s d f Hs Hdd. rewrite H by assumption. apply H'; congruence.
Qed.

(** rotate(act(x)) = act(rotate(x)) for every block-diagonal matrix that leaves scalars alone, and
    reflect(act(x)) = act(reflect(x)). *)
Theorem C50_equivariant : forall erf eps alpha act, In act (activations erf eps alpha) ->
  forall x, well_formed x -> (0 < fD x)%nat ->
  (forall shared D, block_diagonal D -> (forall b, D b 0%nat 0%nat = 1) ->
     exists xr y yr yr', rotate x (wigner_for shared D x) = Ok xr /\ act xr = Ok yr
       /\ act x = Ok y /\ rotate y (wigner_for shared D y) = Ok yr' /\ same_feature yr yr')
  /\ exists xr y yr yr', reflect x = Ok xr /\ act xr = Ok yr
       /\ act x = Ok y /\ reflect y = Ok yr' /\ same_feature yr yr'.
Proof.
  intros erf eps alpha act H x [n Hn] Hd.
  assert (0 < n)%nat as Hn0. { destruct Hn as [_ HD]. rewrite HD in Hd. destruct n; lia. }
  destruct (activation_gated erf eps alpha act H) as [g Hg].
  destruct (Hg x) as [y [E [Q Q']]].
  assert (valid n y) as Vy. { destruct Q' as [_ [HS [HD _]]]. destruct Hn as [A B]. split; [rewrite HS; exact A|rewrite HD; exact B]. }
  split.
  - intros shared D HB H1. destruct (gated_rotate g shared D x n Hn Hn0 HB H1) as [a [b [Ea [Eb Eab]]]].
    destruct (Hg a) as [ya [Eya [_ Qa]]].
    destruct (rotate_comp n y shared D Vy HB) as [yr' [Er [Vr [Br [Sr [Fr [Dr Cr]]]]]]].
    exists a, y, ya, yr'. repeat (split; [assumption|]).
    apply same_feature_trans with (gated g a); [exact Qa|].
    apply same_feature_trans with b; [exact Eab|].
    destruct (rotate_comp n (gated g x) shared D Hn HB) as [b' [Eb' [Vb [Bb [Sb [Fb [Db Cb]]]]]]].
    assert (b' = b) by congruence. subst b'.
    destruct Q as [QB [QS [QD [QF [Qd QV]]]]].
    apply (comp_determines n); try assumption; try congruence.
    intros i p l k f Hp Hl Hk. rewrite Cb, Cr by assumption. apply rsum_ext. intros k' Hk'. f_equal.
    apply (same_feature_comp n); auto. unfold same_feature. auto 10.
  - destruct (gated_reflect g x n Hn Hn0) as [a [b [Ea [Eb Eab]]]].
    destruct (Hg a) as [ya [Eya [_ Qa]]].
    destruct (reflect_comp n y Vy) as [yr' [Er [Vr [Br [Sr [Fr [Dr Cr]]]]]]].
    exists a, y, ya, yr'. repeat (split; [assumption|]).
    apply same_feature_trans with (gated g a); [exact Qa|].
    apply same_feature_trans with b; [exact Eab|].
    destruct (reflect_comp n (gated g x) Hn) as [b' [Eb' [Vb [Bb [Sb [Fb [Db Cb]]]]]]].
    assert (b' = b) by congruence. subst b'.
    destruct Q as [QB [QS [QD [QF [Qd QV]]]]].
    apply (comp_determines n); try assumption; try congruence.
    intros i p l k f Hp Hl Hk. rewrite Cb, Cr by assumption.
    rewrite (same_feature_comp n (gated g x) y Hn) by (unfold same_feature; auto 10). reflexivity.
Qed.
Print Assumptions C50_equivariant.

(** Arrays with fewer than three axes raise ValueError. *)
Theorem C50_ndim : forall shape, (length shape < 3)%nat <-> check_ndim shape = Err ValueError.
Proof.
  intros shape. unfold check_ndim. destruct (Nat.ltb_spec (length shape) 3); split; intros; try lia; try reflexivity. discriminate.
Qed.
Print Assumptions C50_ndim.

Example C50_example :
  let x := mkFeat [] 2 4 1 0 (fun _ s d f => INR (2 + s + d)) in
  exists y, relu6 x = Ok y /\ fv y [] 1%nat 3%nat 0%nat = 6 /\ well_formed x.
Proof.
  cbv zeta. eexists. split; [apply gated_ok|]. split.
  - simpl. unfold relu6_gate, Rltb, jsign, Rltb, Reqb.
    destruct (Rlt_dec 1 (1 + 1)); [|lra]. destruct (Rlt_dec (1 + 1) 0); [lra|]. destruct (Req_EM_T (1 + 1) 0); [lra|].
    rewrite Rmax_left, Rmin_left by lra. lra.
  - exists 2%nat. split; [right; reflexivity|reflexivity].
Qed.

(** A rotation matrix that fixes scalars and mixes the orders of degree one. *)
Example C50_rotation_example : exists D, block_diagonal D /\ (forall b, D b 0%nat 0%nat = 1) /\ D [] 1%nat 2%nat <> 0.
Proof.
  exists (fun _ i j => if (Nat.sqrt i =? Nat.sqrt j)%nat then 1 else 0). split; [|split].
  - intros b l k l' k' Hk Hk' Hne. replace (Nat.sqrt (l * l + k)) with l by (symmetry; apply Nat.sqrt_unique; nia).
    replace (Nat.sqrt (l' * l' + k')) with l' by (symmetry; apply Nat.sqrt_unique; nia).
    destruct (Nat.eqb_spec l l'); [contradiction|reflexivity].
  - intros b. reflexivity.
  - simpl. lra.
Qed.
