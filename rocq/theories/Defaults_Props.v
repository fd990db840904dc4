(** Property C100: what calls that leave out a keyword do after the defaults in [Config] were changed. *)
Require Import String List Reals ZArith Bool Lia Lra.
Require Import Verif.Base Verif.RSum Verif.Common_Model Verif.Common_Spec Verif.Common_Props Verif.LUT_Model Verif.LUT_Spec Verif.LUT_Props Verif.Rotations_Model Verif.Rotations_Spec
  Verif.Poly_Proofs Verif.PolyCalc_Proofs Verif.Symbolic_Proofs Verif.Harmonics_Basis_Proofs
  Verif.Common_Proofs Verif.Irreps_Model Verif.Irreps_Spec Verif.Irreps_Proofs Verif.Irreps_Laws_Proofs Verif.Irreps_Props Verif.Defaults_Model Verif.Defaults_Spec.
Import ListNotations.
Open Scope R_scope.

Lemma after_from st h : fold_left call_setter h st = (run_setters (fst st) h, snd st).
Proof. revert st. induction h as [|s h IH]; intros [c d]; [reflexivity|]. cbn. rewrite IH. reflexivity. Qed.
Lemma after_is h : after h = (run_setters default_config h, define_functions default_config).
Proof. apply after_from. Qed.

(** Whatever setters were called, a call uses the keywords that it gives, and for those it leaves out Cartesian order,
    Racah normalization and [Tensor] instead of [FusedTensor].
    Missing from the documented claim: that the setters change these three values, which is false ([C100_refuted]). *)
Theorem C100_defaults_partial : forall h,
  (forall empty tiny w s o dim r L r_is_normalized order norm,
     call_spherical_harmonics (after h) empty tiny w s o dim r L r_is_normalized order norm =
     spherical_harmonics empty tiny w s o dim r L r_is_normalized
       (match order with Some b => b | None => true end) (match norm with Some n => n | None => "racah"%string end)) /\
  (forall empty tiny w s o dim r L order,
     call_solid_harmonics (after h) empty tiny w s o dim r L order =
     solid_harmonics empty tiny w s o dim r L (match order with Some b => b | None => true end)) /\
  (forall empty w s o dims rot L order,
     call_wigner_d (after h) empty w s o dims rot L order =
     wigner_d empty w s o dims rot L (match order with Some b => b | None => true end)) /\
  (forall order fused,
     make_module (after h) order fused =
     (match order with Some b => b | None => true end, match fused with Some b => b | None => false end)).
Proof. intro h. rewrite after_is. repeat split. Qed.
Print Assumptions C100_defaults_partial.

(** The paths of the caches do follow the setters: every lookup uses the path that was set last. *)
Theorem C100_paths : forall h k, path_used (after h) k = last_value (names_path k) None h.
Proof.
  intros h k. rewrite after_is. pose proof (C11_config_histories default_config h) as (_ & _ & _ & A & B & C & D).
  destruct k; cbn [path_used fst]; [rewrite A|rewrite B|rewrite C|rewrite D]; reflexivity.
Qed.
Print Assumptions C100_paths.

(** Calls that leave out the order agree with each other, even when setters are called in between: rotating vectors
    and rotating their spherical harmonics with [wigner_d] is the same. *)
Theorem C100_consistent : forall h1 h2 h3 tiny rs rs' ms L r_is_normalized norm ys ys' ds a b b' r m j,
  0 < tiny ->
  (exists empty w s o, sh_ready w /\ call_ok s o /\
     snd (call_spherical_harmonics (after h1) empty tiny w s o 3 (map vlist rs) L r_is_normalized None norm) = Ok ys) ->
  (exists empty w s o, sh_ready w /\ call_ok s o /\
     snd (call_spherical_harmonics (after h2) empty tiny w s o 3 (map vlist rs') L r_is_normalized None norm) = Ok ys') ->
  (exists empty w s o, wd_ready w /\ call_ok s o /\
     snd (call_wigner_d (after h3) empty w s o (3, 3)%nat (map mlist ms) L None) = Ok ds) ->
  nth_error rs b = Some r -> nth_error ms a = Some m -> nth_error rs' b' = Some (act r m) -> orthogonal m ->
  (j < degrees L * degrees L)%nat ->
  at2 ys' b' j = rsum (degrees L * degrees L) (fun k => at2 ys b k * at3 0 ds a k j).
Proof.
  intros h1 h2 h3 tiny rs rs' ms L nrm norm ys ys' ds a b b' r m j Ht H H' HD.
  rewrite after_is in H, H', HD. exact (C24_rotate tiny rs rs' ms L nrm true (keyword norm "racah"%string) ys ys' ds a b b' r m j Ht H H' HD).
Qed.
Print Assumptions C100_consistent.

(** docs/source/pitfalls.rst: "mixing operations with different conventions would lead to non-equivariant outputs".  For a quarter turn
    about the z axis, spherical harmonics in Cartesian order are not rotated by the Wigner-D matrix for the other order. *)
Definition quarter_turn : mat := ((0, 1, 0), (-1, 0, 0), (0, 0, 1)).
Lemma quarter_turn_proper : proper_rotation quarter_turn.
Proof. split; [|cbn; ring]. intros [|[|[|i]]] [|[|[|j]]] I J; try lia; cbn; ring. Qed.
Theorem C100_mixing : proper_rotation quarter_turn /\
  forall ys ys' ds, solid_returns [(1, 0, 0)] 1 true ys -> solid_returns [act (1, 0, 0) quarter_turn] 1 true ys' -> wigner_returns [quarter_turn] 1 false ds ->
    exists j, (j < 4)%nat /\ at2 ys' 0 j <> rsum 4 (fun k => at2 ys 0 k * at3 0 ds 0 k j).
Proof.
  split; [exact quarter_turn_proper|].
  intros ys ys' ds H H' HD. exists 2%nat. split; [lia|].
  destruct (solid_exists [(0, 1, 0)] 1 false ltac:(lia)) as [zs Z]. destruct (solid_exists [act (0, 1, 0) quarter_turn] 1 false ltac:(lia)) as [zs' Z'].
  assert (O : orthogonal quarter_turn) by (apply C24_rotations_are_orthogonal; exact quarter_turn_proper).
  pose proof (C24_rotate_solid _ _ _ _ _ _ _ _ 0 0 0 _ _ 2 Z Z' HD eq_refl eq_refl eq_refl O) as E. unfold degrees in E.
  change ((Z.to_nat 1 + 1) * (Z.to_nat 1 + 1))%nat with 4%nat in E. specialize (E ltac:(lia)).
  assert (A : forall k, (k < 4)%nat -> at2 zs 0 k = at2 ys 0 k).
  { destruct (C21_low_degrees _ _ _ 0 _ _ _ _ H eq_refl) as (H0 & H1). destruct (C21_low_degrees _ _ _ 0 _ _ _ _ Z eq_refl) as (Z0 & Z1).
    destruct (H1 ltac:(lia)) as (h1 & h2 & h3). destruct (Z1 ltac:(lia)) as (z1 & z2 & z3).
    intros [|[|[|[|k]]]] K; [rewrite H0, Z0; reflexivity|rewrite h1, z1; reflexivity|rewrite h2, z2; reflexivity|rewrite h3, z3; reflexivity|lia]. }
  rewrite (rsum_ext 4 _ (fun k => at2 ys 0 k * at3 0 ds 0 k 2)) in E by (intros k K; rewrite A by exact K; reflexivity).
  rewrite <- E.
  destruct (C21_low_degrees _ _ _ 0 _ _ _ _ H' eq_refl) as (_ & H1). destruct (C21_low_degrees _ _ _ 0 _ _ _ _ Z' eq_refl) as (_ & Z1).
  destruct (H1 ltac:(lia)) as (_ & h2 & _). destruct (Z1 ltac:(lia)) as (_ & z2 & _). rewrite h2, z2. cbn. lra.
Qed.
Print Assumptions C100_mixing.

(** The example of the documentation: after [set_normalization('orthonormal')], which does not raise, spherical harmonics of degree 0
    are 1 as before, not [1 / sqrt (4 pi)], for every state of the caches, and this is not what the call with the keyword returns. *)
Theorem C100_documented_example_fails : forall empty tiny w s o x y z, sh_ready w -> call_ok s o ->
  snd (run_setter (fst import_package) (SetNormalization "orthonormal")) = Ok tt /\
  normalization (fst (after [SetNormalization "orthonormal"]))  = "orthonormal"%string /\
  exists u v,
    snd (call_spherical_harmonics (after [SetNormalization "orthonormal"]) empty tiny w s o 3 [[x; y; z]] 0 true None None) = Ok [[u]] /\
    snd (call_spherical_harmonics (after [SetNormalization "orthonormal"]) empty tiny w s o 3 [[x; y; z]] 0 true None (Some "orthonormal"%string)) = Ok [[v]] /\
    u = 1 /\ v = sqrt (1 / (4 * PI)) /\ u <> v.
Proof.
  intros empty tiny w s o x y z Hw Hc. split; [reflexivity|]. split; [reflexivity|].
  assert (G : forall norm, known_normalization norm ->
    snd (spherical_harmonics empty tiny w s o 3 [[x; y; z]] 0 true true norm) = Ok [[const_of norm 0]]).
  { intros norm Hn. destruct (spherical_ok empty tiny w s o [(x, y, z)] 0 true true norm Hw Hc ltac:(lia) Hn (or_introl eq_refl)) as (ys & E & F).
    cbn [map vlist] in E. rewrite E. f_equal. inversion F as [|? yr ? ? (Len & Row) F']; subst. inversion F'; subst. f_equal.
    change (Z.to_nat 0) with 0%nat in *. destruct yr as [|q [|]]; try discriminate Len.
    specialize (Row 0%nat 0%nat ltac:(lia) ltac:(lia)). cbn [Nat.mul Nat.add nth pos] in Row. change (pos true 0 0) with 0%nat in Row.
    rewrite (peval_peq _ _ _ Y_00) in Row. unfold pone in Row. rewrite peval_const in Row. rewrite Row. f_equal. ring. }
  assert (V : const_of "orthonormal" 0 = sqrt (1 / (4 * PI))).
  { unfold const_of, normalization_constant. cbn. f_equal. unfold Rdiv. ring. }
  exists (const_of "racah" 0), (const_of "orthonormal" 0). split; [|split; [|split; [|split]]].
  - apply (G "racah"%string). left. reflexivity.
  - apply (G "orthonormal"%string). right. right. cbn. auto.
  - apply const_racah.
  - exact V.
  - rewrite V. replace (const_of "racah" 0) with 1 by (symmetry; apply const_racah). intro Q.
    assert (P : 3 < PI) by (pose proof PI2_3_2; unfold PI2 in *; lra).
    assert (S : 0 <= 1 / (4 * PI)) by (apply Rlt_le; apply Rdiv_lt_0_compat; lra).
    apply (f_equal (fun t => t * t)) in Q. rewrite sqrt_sqrt in Q by exact S.
    assert (M : 1 / (4 * PI) * (4 * PI) = 1) by (field; lra). rewrite <- Q in M. lra.
Qed.
Print Assumptions C100_documented_example_fails.

(** Likewise [set_cartesian_order(False)] leaves the order of the components as it is, and [set_use_fused_tensor(True)] has no effect
    on new modules.  So the documented claim is false of every one of the three defaults. *)
Theorem C100_refuted :
  ~ setters_change_defaults [SetNormalization "orthonormal"] /\
  ~ setters_change_defaults [SetCartesianOrder false] /\
  ~ setters_change_defaults [SetUseFusedTensor true].
Proof.
  split; [|split]; intros [H M]; try discriminate M.
  destruct (C100_documented_example_fails 0 1 empty_world None IoOk 0 0 1 sh_ready_empty call_ok_serial) as (_ & _ & u & v & E & E' & _ & _ & N).
  destruct (H 1 [(0, 0, 1)] 0%Z true [[u]]) as (empty & w & s & o & Hw & Hc & Q).
  - exists 0%nat, empty_world, None, IoOk. split; [exact sh_ready_empty|]. split; [exact call_ok_serial|exact E].
  - destruct (C100_documented_example_fails empty 1 w s o 0 0 1 Hw Hc) as (_ & _ & u2 & v2 & _ & Q' & U & V & N').
    destruct (C100_documented_example_fails 0 1 empty_world None IoOk 0 0 1 sh_ready_empty call_ok_serial) as (_ & _ & u3 & v3 & E3 & _ & U3 & _).
    assert (u = u3) by congruence. change (map vlist [(0, 0, 1)]) with [[0; 0; 1]] in Q.
    assert (Q2 : Ok [[u]] = Ok [[v2]]) by (rewrite <- Q, <- Q'; reflexivity). congruence.
Qed.
Print Assumptions C100_refuted.

Lemma entry_of_call tiny L norm ys : 0 < tiny -> (1 <= L)%Z -> spherical_returns tiny [(1, 0, 0)] L true true norm ys -> at2 ys 0 1 = const_of norm 1.
Proof.
  intros Ht HL H. apply spherical_inv in H as (_ & _ & F); [|exact Ht]. inversion F as [|? yr ? ? (Len & Row) F']; subst.
  specialize (Row 1%nat 0%nat ltac:(lia) ltac:(lia)). unfold at2. cbn [nth]. change (1 * 1 + 0)%nat with 1%nat in Row. rewrite Row. change (pos true 1 0) with (cart_index 1 0).
  rewrite Y1_cart by lia. cbn [coord]. ring.
Qed.

(** The documented claim holds for exactly those histories after which [Config] has the initial values again, or Schmidt
    semi-normalization, which is the same as Racah's. *)
Theorem C100_exactly : forall h, setters_change_defaults h <->
  last_value sel_cartesian true h = true /\ last_value sel_fused false h = false /\
  In (last_value sel_normalization "racah"%string h) ["racah"; "schmidt"]%string.
Proof.
  intro h. unfold setters_change_defaults. rewrite after_is. split.
  - intros [H M]. change ((true, false) = (last_value sel_cartesian true h, last_value sel_fused false h)) in M.
    pose proof (f_equal fst M) as C. pose proof (f_equal snd M) as F. cbn [fst snd] in C, F. rewrite <- C in H.
    split; [auto|]. split; [auto|].
    set (norm := last_value sel_normalization "racah"%string h) in *.
    destruct (spherical_exists 1 [(1, 0, 0)] 1 true true "racah" ltac:(lia) ltac:(lra) ltac:(discriminate) racah_known) as [ys E].
    specialize (H 1 [(1, 0, 0)] 1%Z true ys E).
    pose proof (spherical_inv _ _ _ _ _ _ _ Rlt_0_1 H) as (_ & K & _).
    apply entry_of_call in H; [|lra|lia]. apply entry_of_call in E; [|lra|lia]. rewrite const_racah in E. rewrite E in H.
    destruct K as [K|[K|[K|[K|[]]]]]; rewrite <- K in *; [now left|right; now left|exfalso..].
    + unfold const_of, normalization_constant in H. cbn in H. apply (f_equal (fun t => t * t)) in H. rewrite sqrt_sqrt in H by lra. lra.
    + unfold const_of, normalization_constant in H. cbn in H. assert (P : 3 < PI) by (pose proof PI2_3_2; unfold PI2 in *; lra).
      apply (f_equal (fun t => t * t)) in H. rewrite sqrt_sqrt in H by (apply Rlt_le, Rdiv_lt_0_compat; lra).
      assert (M' : (2 * 1 + 1) / (4 * PI) * (4 * PI) = 2 * 1 + 1) by (field; lra). rewrite <- H in M'. lra.
  - intros (C & F & N). rewrite C, F. split; [|reflexivity]. intros tiny rs L nrm ys H. destruct N as [N|[N|[]]]; rewrite <- N; exact H.
Qed.
Print Assumptions C100_exactly.

(** When no value was changed the documented claim holds, so it is not refuted for trivial reasons. *)
Example C100_case : setters_change_defaults [SetWignerDCache (Some "/tmp/w"%string); SetNormalization "bogus"; SetNormalization "racah"].
Proof. split; [|reflexivity]. intros tiny rs L nrm ys H. exact H. Qed.
