(** Property C69: networks built from the layers commute with rotations and reflections of the structure. *)
Require Import String List Reals ZArith Bool Lia Lra.
Require Import Verif.Base Verif.RSum.
Require Import Verif.Features_Model Verif.Features_Spec Verif.Features_Proofs Verif.Activations_Model Verif.Activations_Props Verif.Modules_Model Verif.Modules_Spec Verif.Modules_Graph_Spec
  Verif.Modules_Proofs Verif.Modules_Tensor_Proofs Verif.Modules_Fused_Proofs Verif.Modules_Equiv_Proofs Verif.Modules_Graph_Proofs Verif.Modules_Attention_Proofs Verif.Modules_Props Verif.Modules_Graph_Props.
Require Import Verif.LUT_Model Verif.LUT_Spec Verif.LUT_Props Verif.Symbolic_Model Verif.Rotations_Model Verif.Rotations_Spec Verif.Irreps_Model Verif.Irreps_Spec Verif.Irreps_Laws_Proofs Verif.Irreps_Props
  Verif.Clebsch_Model Verif.Irreps_Proofs Verif.RealCG_Proofs Verif.CGTable_Proofs Verif.Clebsch_Props Verif.Wrappers_Model Verif.Wrappers_Spec Verif.Wrappers_Props Verif.Equivariance_Spec Verif.Equivariance_Props Verif.Structure_Props Verif.Network_Spec.
Import ListNotations.
Open Scope R_scope.
Open Scope list_scope.
Arguments Nat.mul : simpl never.
Arguments Nat.modulo : simpl never.

Lemma valid_scalars : forall n x, valid n x -> (0 < n)%nat -> has_scalars x.
Proof. intros [|n] x V H; [lia|]. now exists n. Qed.

Lemma dense_scalars : forall F ub P x y, dense F ub P x = Ok y -> has_scalars y.
Proof.
  intros F ub P x y H. destruct (dense_ok_inv F ub P x y H) as [n [V Hn]]. destruct (dense_comp n x F ub P V Hn) as [y0 [E [Vy _]]].
  assert (y0 = y) by congruence. subst. now apply (valid_scalars n).
Qed.

Lemma any_tensor_scalars : forall cgf md incl P x y z, cg_checked cgf -> degree_ok md -> has_scalars x -> has_scalars y ->
  any_tensor cgf md incl P x y = Ok z -> has_scalars z.
Proof.
  intros cgf md incl P x y z Hcg Hmd [n1 V1] [n2 V2] H. destruct P as [k|P]; cbn [any_tensor] in H.
  - destruct (tensor_couplings cgf (S n1) (S n2) x y md incl k z Hcg V1 V2 H) as [n3 [C [B [_ [_ [_ [P3 [_ [_ [_ [_ [Vz _]]]]]]]]]]]]. now apply (valid_scalars n3).
  - destruct (fused_couplings cgf (S n1) (S n2) x y md incl P z Hcg Hmd V1 V2 H) as [n3 [n' [M [C [B0 [_ [_ [_ [_ [_ [EO [_ [_ [Vz _]]]]]]]]]]]]]].
    apply (valid_scalars n3); [exact Vz|]. unfold output_degree in EO. destruct md as [d|]; [specialize (Hmd d eq_refl); lia|lia].
Qed.

Lemma activation_transformed : forall s D erf eps alpha act x x' y, (forall b : list nat, D b 0%nat 0%nat = 1) -> In act (activations erf eps alpha) ->
  has_scalars x -> transformed s D x x' -> act x = Ok y ->
  exists y', act x' = Ok y' /\ transformed s D y y' /\ has_scalars y.
Proof.
  intros s D erf eps alpha act x x' y HD Ha [n V] T H. destruct (C50_gated erf eps alpha act Ha) as [g G].
  destruct (G x (S n) V ltac:(lia)) as [y0 [E [B [S [Dd [F [dt C]]]]]]]. assert (y0 = y) by congruence. subst y0.
  pose proof (transformed_valid _ _ _ _ _ V T) as V'. destruct (G x' (Datatypes.S n) V' ltac:(lia)) as [y' [E' [B' [S' [D' [F' [dt' C']]]]]]].
  exists y'. split; [exact E'|]. destruct T as [TB [TS [TD [TF [Td TC]]]]]. split; [|exists n; destruct V; split; congruence].
  do 5 (split; [congruence|]). intros i p l k f Hp Hk. rewrite C' by assumption. rewrite (TC i p l k f) by assumption.
  rewrite (TC i 0%nat 0%nat 0%nat f) by lia. change (parity_sign s 0) with 1. change (2 * 0 + 1)%nat with 1%nat. cbn [rsum]. change (0 * 0 + 0)%nat with 0%nat. rewrite HD, Rplus_0_l, !Rmult_1_r, Rmult_1_l.
  rewrite <- Rmult_assoc, (Rmult_comm (g _)), Rmult_assoc, <- rsum_scal_l. f_equal. apply rsum_ext. intros k' Hk'. rewrite C by assumption. ring.
Qed.

Lemma change_general : forall s D md incl x x' y, degree_ok md -> has_scalars x -> transformed s D x x' -> change_max_degree_or_type x md incl = Ok y ->
  exists y', change_max_degree_or_type x' md incl = Ok y' /\ transformed s D y y' /\ has_scalars y.
Proof.
  intros s D md incl x x' y Hmd [n V] T H.
  assert (M : exists m, (0 < m)%nat /\ (md = Some (Z.of_nat m - 1)%Z \/ (md = None /\ m = S n))).
  { destruct md as [d|]; [|exists (S n); split; [lia|auto]]. specialize (Hmd d eq_refl). exists (Z.to_nat (d + 1)). split; [lia|]. left. f_equal. lia. }
  destruct M as [m [Hm HM]]. pose proof (transformed_valid _ _ _ _ _ V T) as V'.
  destruct (change_comp (S n) x m md incl V HM (or_introl Hm)) as [y0 [E [Vy [B [S0 [F [d C]]]]]]]. assert (y0 = y) by congruence. subst y0.
  destruct (change_comp (S n) x' m md incl V' HM (or_introl Hm)) as [y' [E' [Vy' [B' [S' [F' [d' C']]]]]]].
  exists y'. split; [exact E'|]. split; [|now apply (valid_scalars m)].
  destruct T as [TB [TS [TD [TF [Td TC]]]]]. assert (ES : fS y' = fS y) by (rewrite S', S0, TS; reflexivity).
  split; [congruence|]. split; [exact ES|]. split; [rewrite (proj2 Vy), (proj2 Vy'); reflexivity|].
  split; [congruence|]. split; [congruence|]. intros i p l k f Hp Hk.
  rewrite C' by assumption. rewrite ES.
  destruct ((l <? m)%nat && ((fS y =? 2)%nat || (p =? l mod 2)%nat))%bool eqn:EE.
  - rewrite TC by assumption. f_equal. apply rsum_ext. intros k' Hk'. rewrite C by assumption. rewrite EE. reflexivity.
  - rewrite rsum_zero; [ring|]. intros k' Hk'. rewrite C by assumption. rewrite EE. ring.
Qed.

Lemma compatible_transformed : forall s D x0 x0' x x', transformed s D x0 x0' -> transformed s D x x' -> compatible x0 x -> compatible x0' x'.
Proof.
  intros s D x0 x0' x x' [B0 [_ [_ [F0 [d0 _]]]]] T [B [F [d [n V]]]]. pose proof (transformed_valid _ _ _ _ _ V T). destruct T as [TB [_ [_ [TF [Td _]]]]].
  repeat split; try congruence. now exists n.
Qed.

Lemma add_general : forall s D xs xs' y, Forall2 (transformed s D) xs xs' -> add xs = Ok y ->
  exists y', add xs' = Ok y' /\ transformed s D y y' /\ has_scalars y.
Proof.
  intros s D [|x0 t] xs' y T H; [discriminate|]. inversion T as [|? x0' ? t' T0 Tt]; subst.
  assert (HC : Forall (compatible x0) (x0 :: t)).
  { destruct (add_ok_inv _ _ H) as [x1 [t1 [E HC]]]. injection E as <- <-. exact HC. }
  assert (HC' : Forall (compatible x0') (x0' :: t')).
  { clear H. revert HC. generalize (x0 :: t) (x0' :: t') T. induction 1 as [|a a' u u' Ta _ IH]; intros HC; [constructor|]. inversion HC; subst. constructor; [|now apply IH].
    now apply (compatible_transformed s D x0 x0' a a'). }
  destruct (add_ok x0 t HC) as [m [y0 [E [V [Hm [B [F [d [S0 [H1 [H2 C]]]]]]]]]]]. assert (y0 = y) by congruence. subst y0.
  destruct (add_ok x0' t' HC') as [m' [y' [E' [V' [Hm' [B' [F' [d' [S' [H1' [H2' C']]]]]]]]]]].
  exists y'. split; [exact E'|]. split; [|now apply (valid_scalars m)].
  assert (LIN : forall x, In x (x0 :: t) -> exists x', In x' (x0' :: t') /\ transformed s D x x').
  { clear -T. generalize dependent T. generalize (x0 :: t) (x0' :: t'). induction 1 as [|a a' u u' Ta _ IH]; intros x Hx; [destruct Hx|].
    destruct Hx as [<-|Hx]; [exists a'; split; [now left|exact Ta]|]. destruct (IH x Hx) as [x' [I J]]. exists x'. split; [now right|exact J]. }
  assert (RIN : forall x', In x' (x0' :: t') -> exists x, In x (x0 :: t) /\ transformed s D x x').
  { clear -T. generalize dependent T. generalize (x0 :: t) (x0' :: t'). induction 1 as [|a a' u u' Ta _ IH]; intros x Hx; [destruct Hx|].
    destruct Hx as [<-|Hx]; [exists a; split; [now left|exact Ta]|]. destruct (IH x Hx) as [x' [I J]]. exists x'. split; [now right|exact J]. }
  rewrite Forall_forall in H1, H1'.
  assert (LE : (m <= m')%nat).
  { destruct H2 as [->|[x [Hx Ex]]]; [lia|]. destruct (LIN x Hx) as [x' [Hx' Tx]]. specialize (H1' x' Hx'). destruct Tx as [_ [_ [TD _]]]. nia. }
  assert (GE : (m' <= m)%nat).
  { destruct H2' as [->|[x [Hx Ex]]]; [lia|]. destruct (RIN x Hx) as [x' [Hx' Tx]]. specialize (H1 x' Hx'). destruct Tx as [_ [_ [TD _]]]. nia. }
  assert (m' = m) by lia. subst m'.
  assert (ES : existsb (fun x => (fS x =? 2)%nat) (x0' :: t') = existsb (fun x => (fS x =? 2)%nat) (x0 :: t)).
  { clear -T. generalize dependent T. generalize (x0 :: t) (x0' :: t'). induction 1 as [|a a' u u' Ta _ IH]; [reflexivity|]. cbn [existsb]. destruct Ta as [_ [-> _]]. now rewrite IH. }
  destruct T0 as [TB [_ [_ [TF [Td _]]]]]. split; [congruence|]. split; [rewrite S', S0, ES; reflexivity|]. split; [rewrite (proj2 V), (proj2 V'); reflexivity|].
  split; [congruence|]. split; [congruence|]. intros i p l k f Hp Hk. rewrite C' by assumption.
  rewrite (rsum_ext _ _ (fun k' => sum_R (map (fun x => comp x i p l k' f) (x0 :: t)) * D i (l * l + k')%nat (l * l + k)%nat)) by (intros k' Hk'; now rewrite C).
  clear -T Hp Hk. generalize dependent T. generalize (x0 :: t) (x0' :: t'). unfold sum_R. induction 1 as [|a a' u u' Ta _ IH]; cbn [map fold_right].
  - rewrite rsum_zero by (intros; ring). ring.
  - rewrite IH. destruct Ta as [_ [_ [_ [_ [_ ->]]]]]; [|exact Hp|exact Hk].
    rewrite <- Rmult_plus_distr_l, <- rsum_plus. f_equal. apply rsum_ext. intros; ring.
Qed.

Lemma indexed_sum_scalars : forall x g y, indexed_sum_feat x g = Ok y -> has_scalars x -> has_scalars y.
Proof. intros x g y H [n [S D]]. destruct (indexed_sum_inv x g y H) as [E1 [E2 _]]. exists n. split; congruence. Qed.

Lemma message_pass_scalars : forall cgf md incl ub P x basis g y, cg_checked cgf -> degree_ok md -> has_scalars x ->
  message_pass cgf md incl ub P x basis None g = Ok y -> has_scalars y.
Proof.
  intros cgf md incl ub P x basis g y Hcg Hmd [n [VS VD]] H. unfold message_pass in H. destruct (gather_src_feat x g) as [z|] eqn:EG; [|discriminate]. cbn [bind] in H.
  destruct (gather_src_inv x g z EG) as [ES [ED _]]. assert (Vz : has_scalars z) by (exists n; split; congruence).
  unfold conv in H. destruct basis as [bs|].
  - destruct (negb _); [discriminate|]. destruct (dense _ _ _ bs) as [fl|] eqn:EF; [|discriminate]. cbn [bind] in H.
    destruct (any_tensor _ _ _ _ _ _) as [u|] eqn:EU; [|discriminate]. cbn [bind] in H. apply (indexed_sum_scalars _ _ _ H).
    apply (any_tensor_scalars _ _ _ _ _ _ _ Hcg Hmd (dense_scalars _ _ _ _ _ EF) Vz EU).
  - cbn [bind] in H. exact (indexed_sum_scalars _ _ _ H Vz).
Qed.

Lemma bind_inv : forall (A B : Type) (r : result A) (f : A -> result B) b, bind r f = Ok b -> exists a, r = Ok a /\ f a = Ok b.
Proof. intros A B [a|] f b H; [|discriminate]. now exists a. Qed.

Lemma attention_scalars : forall cgf lo hi o P xq xkv basis cutoff g y, multi_head_attention cgf lo hi o P xq xkv basis cutoff g = Ok y -> has_scalars y.
Proof.
  intros cgf lo hi o P xq xkv basis cutoff g y H. unfold multi_head_attention in H.
  repeat match type of H with (if ?b then _ else _) = _ => destruct b; try discriminate end. cbv zeta in H.
  repeat match type of H with (if ?b then _ else _) = _ => destruct b; try discriminate end.
  do 12 (apply bind_inv in H as [? [_ H]]; cbv beta zeta in H). exact (dense_scalars _ _ _ _ _ H).
Qed.

Lemma select_transformed : forall s D xs xs' i x, Forall2 (transformed s D) xs xs' -> Forall has_scalars xs -> select xs i = Ok x ->
  exists x', select xs' i = Ok x' /\ transformed s D x x' /\ has_scalars x.
Proof.
  intros s D xs xs' i x T V. revert i. induction T as [|a a' u u' Ta Tu IH]; intros i H; [destruct i; discriminate|].
  inversion V; subst. destruct i as [|i].
  - injection H as <-. exists a'. auto.
  - unfold select in *. cbn [nth_error] in *. apply IH; assumption.
Qed.
Lemma select_all_transformed : forall s D xs xs' is ys, Forall2 (transformed s D) xs xs' -> Forall has_scalars xs -> select_all xs is = Ok ys ->
  exists ys', select_all xs' is = Ok ys' /\ Forall2 (transformed s D) ys ys'.
Proof.
  intros s D xs xs' is ys T V. revert ys. induction is as [|i is IH]; intros ys H; cbn [select_all] in *; [injection H as <-; exists []; auto|].
  apply bind_inv in H as [x [Ex H]]. destruct (select_transformed _ _ _ _ _ _ T V Ex) as [x' [Ex' [Tx _]]]. rewrite Ex'. cbn [bind].
  destruct (select_all xs is) as [zs|] eqn:Ez; [|discriminate]. injection H as <-. destruct (IH _ eq_refl) as [zs' [Ez' Tz]]. rewrite Ez'. exists (x' :: zs'). split; [reflexivity|]. now constructor.
Qed.

(** * C69 *)

Section Network.
Variables (cartesian : bool) (cgf : Z -> Z -> Z -> result (nat -> nat -> nat -> R)) (m : mat) (D : nat -> nat -> R) (s lo hi : R).
Hypothesis package : uses_package cartesian cgf.
Hypothesis proper : proper_rotation m.
Hypothesis matrices : wigner_matrix cartesian m D.
Hypothesis sign : s = 1 \/ s = -1.
Variables (basis basis' : option feat) (cutoff : option (list nat -> R)) (gr : graph).
Hypothesis edges : match basis, basis' with Some bs, Some bs' => transformed s (fun _ => D) bs bs' /\ (0 < fD bs)%nat | None, None => True | _, _ => False end.

Lemma call_transformed : forall xs xs' c y, proper_call c -> Forall has_scalars xs -> Forall2 (transformed s (fun _ => D)) xs xs' ->
  perform cgf lo hi basis cutoff gr xs c = Ok y ->
  exists y', perform cgf lo hi basis' cutoff gr xs' c = Ok y' /\ transformed s (fun _ => D) y y' /\ has_scalars y.
Proof.
  intros xs xs' c y Hc V T H. assert (SS : s * s = 1) by (destruct sign as [-> | ->]; ring).
  pose proof (constant_rotations cartesian m D proper matrices) as RR. destruct (C67_matrices _ _ _ RR) as [K0 [_ KO]].
  assert (HK : forall b : list nat, (fun _ : list nat => D) b 0%nat 0%nat = 1) by exact K0.
  pose proof (C67_checked _ _ package) as Hcg. pose proof (C67_commutes _ _ _ _ package RR) as HC.
  assert (TE : match basis, basis' with Some bs, Some bs' => transformed s (on_edges gr (fun _ => D)) bs bs' | None, None => True | _, _ => False end).
  { unfold on_edges. destruct basis, basis'; try exact edges. destruct edges as [TB _]. now destruct (g_adj gr). }
  destruct c; cbn [perform proper_call] in *.
  - apply bind_inv in H as [x [Ex H]]. destruct (select_transformed _ _ _ _ _ _ T V Ex) as [x' [Ex' [Tx Vx]]]. rewrite Ex'. cbn [bind].
    destruct (C35_dense_equivariant s (fun _ => D) features use_bias P x x' y K0 Tx H) as [y' [E' Ty]]. exists y'. eauto using dense_scalars.
  - apply bind_inv in H as [x [Ex H]]. destruct (select_transformed _ _ _ _ _ _ T V Ex) as [x' [Ex' [Tx Vx]]]. rewrite Ex'. cbn [bind].
    apply bind_inv in H as [x2 [Ex2 H]]. destruct (select_transformed _ _ _ _ _ _ T V Ex2) as [x2' [Ex2' [Tx2 Vx2]]]. rewrite Ex2'. cbn [bind].
    destruct (any_tensor_transformed cgf s (fun _ => D) (fun _ => D) (fun _ => D) max_degree include P x x2 x' x2' y Hcg SS Hc KO HC) as [y' [E' Ty]]; auto using batch_agrees_const.
    exists y'. eauto using any_tensor_scalars.
  - apply bind_inv in H as [x [Ex H]]. destruct (select_transformed _ _ _ _ _ _ T V Ex) as [x' [Ex' [Tx Vx]]]. rewrite Ex'. cbn [bind].
    destruct (C67_tensor_dense cartesian cgf (fun _ => m) (fun _ => D) package RR s features max_degree include use_bias Pd Pt x x' y SS Hc Tx H) as [y' [E' Ty]]. exists y'. split; [exact E'|]. split; [exact Ty|].
    unfold tensor_dense in H. apply bind_inv in H as [u [Eu H]]. destruct (dense_scalars _ _ _ _ _ Eu) as [n [VS VD]].
    apply (any_tensor_scalars _ _ _ _ _ _ _ Hcg Hc) in H; [exact H| |]; exists n; split; assumption.
  - apply bind_inv in H as [x [Ex H]]. destruct (select_transformed _ _ _ _ _ _ T V Ex) as [x' [Ex' [Tx Vx]]]. rewrite Ex'. cbn [bind].
    destruct (C67_message_pass cartesian cgf (fun _ => m) (fun _ => D) package RR s max_degree include use_basis_bias P x x' basis basis' None gr y SS Hc) as [y' [E' Ty]]; auto.
    + destruct Vx as [n Vx]. now exists (S n).
    + discriminate.
    + exists y'. eauto using message_pass_scalars.
  - apply bind_inv in H as [x [Ex H]]. destruct (select_transformed _ _ _ _ _ _ T V Ex) as [x' [Ex' [Tx Vx]]]. rewrite Ex'. cbn [bind].
    apply bind_inv in H as [x2 [Ex2 H]]. destruct (select_transformed _ _ _ _ _ _ T V Ex2) as [x2' [Ex2' [Tx2 Vx2]]]. rewrite Ex2'. cbn [bind].
    destruct (C67_attention cartesian cgf (fun _ => m) (fun _ => D) package RR lo hi s o P x x' x2 x2' basis basis' cutoff gr y SS Hc) as [y' [E' Ty]]; auto.
    + intros bs Eb. rewrite Eb in edges. destruct basis'; [exact (proj2 edges)|contradiction].
    + exists y'. eauto using attention_scalars.
  - apply bind_inv in H as [x [Ex H]]. destruct (select_transformed _ _ _ _ _ _ T V Ex) as [x' [Ex' [Tx Vx]]]. rewrite Ex'. cbn [bind].
    destruct Hc as [erf [eps [alpha Ha]]]. exact (activation_transformed s (fun _ => D) erf eps alpha act x x' y HK Ha Vx Tx H).
  - apply bind_inv in H as [x [Ex H]]. destruct (select_transformed _ _ _ _ _ _ T V Ex) as [x' [Ex' [Tx Vx]]]. rewrite Ex'. cbn [bind].
    exact (change_general s (fun _ => D) max_degree include x x' y Hc Vx Tx H).
  - apply bind_inv in H as [ys [Ey H]]. destruct (select_all_transformed _ _ _ _ _ _ T V Ey) as [ys' [Ey' Ty]]. rewrite Ey'. cbn [bind].
    exact (add_general s (fun _ => D) ys ys' y Ty H).
Qed.

(** If the inputs of a network and the basis functions of the edges are rotated or reflected, all
    arrays that it computes are. *)
Theorem C69_network : forall cs xs xs' ys, Forall proper_call cs -> Forall has_scalars xs -> Forall2 (transformed s (fun _ => D)) xs xs' ->
  run cgf lo hi basis cutoff gr xs cs = Ok ys ->
  exists ys', run cgf lo hi basis' cutoff gr xs' cs = Ok ys' /\ Forall2 (transformed s (fun _ => D)) ys ys'.
Proof.
  induction cs as [|c cs IH]; intros xs xs' ys Hc V T H; cbn [run] in *.
  - injection H as <-. exists xs'. auto.
  - apply bind_inv in H as [y [Ey H]]. inversion Hc; subst. destruct (call_transformed xs xs' c y) as [y' [Ey' [Ty Vy]]]; auto. rewrite Ey'. cbn [bind].
    apply (IH (xs ++ [y])); auto; [apply Forall_app; auto|apply Forall2_app; auto].
Qed.

(** Scalars do not change at all ... *)
Theorem C69_scalars : forall x x' i f, transformed s (fun _ => D) x x' -> comp x' i 0 0 0 f = comp x i 0 0 0 f.
Proof using matrices proper.
  intros x x' i f [_ [_ [_ [_ [_ C]]]]]. rewrite C by lia. destruct (C67_matrices _ _ _ (constant_rotations cartesian m D proper matrices)) as [K0 _].
  change (2 * 0 + 1)%nat with 1%nat. cbn [rsum]. change (0 * 0 + 0)%nat with 0%nat. rewrite (K0 []). unfold parity_sign. cbn. ring.
Qed.

(** ... and, in Cartesian order, the features of degree 1 rotate like vectors: those of odd parity are
    also reflected, those of even parity (pseudovectors) are not. *)
Theorem C69_vectors : cartesian = true -> forall x x' i f, transformed s (fun _ => D) x x' ->
  vector_at x' i 1 f = turned_by s m (vector_at x i 1 f) /\ vector_at x' i 0 f = act (vector_at x i 0 f) m.
Proof using matrices proper.
  intros Hca x x' i f [_ [_ [_ [_ [_ C]]]]].
  destruct (matrices 1%Z ltac:(lia)) as [ms [a [ds [Em [Hd V]]]]]. rewrite Hca in Hd.
  assert (E : forall j k, (j < 3)%nat -> (k < 3)%nat -> D (1 * 1 + j)%nat (1 * 1 + k)%nat = Rotations_Spec.entry m j k).
  { intros j k Hj Hk. rewrite V by (cbn; lia). exact (C25_degree_one _ _ _ a m j k Hd Em (rotation_orthogonal _ proper) ltac:(lia) Hj Hk). }
  assert (W : forall p k, (p < 2)%nat -> (k < 3)%nat -> comp x' i p 1 k f = parity_sign s p * (comp x i p 1 0 f * Rotations_Spec.entry m 0 k + comp x i p 1 1 f * Rotations_Spec.entry m 1 k + comp x i p 1 2 f * Rotations_Spec.entry m 2 k)).
  { intros p k Hp Hk. rewrite C by (exact Hp || (cbn; lia)). change (2 * 1 + 1)%nat with 3%nat. cbn [rsum]. rewrite !E by lia. ring. }
  clear - W. unfold vector_at. rewrite !W by lia. clear W. destruct m as [[[[a1 a2] a3] [[b1 b2] b3]] [[c1 c2] c3]].
  split; cbn; unfold parity_sign; cbn; repeat apply f_equal2; ring.
Qed.
End Network.
Print Assumptions C69_network.
Print Assumptions C69_scalars.
Print Assumptions C69_vectors.

(** The whole way from the positions of the atoms to the results: if a molecule is rotated or reflected
    and shifted, a network whose inputs are scalars gives the same scalars and rotated (and reflected)
    vectors; in general all results are multiplied with the Wigner-D matrices. *)
Theorem C69_molecule : forall cartesian cgf m D s t lo hi tiny positions positions' pairs L num radial_fn cutoff_fn damping_fn return_cutoff return_norm gv cut dmp dtype y y' gr cs xs ys,
  uses_package cartesian cgf -> proper_rotation m -> wigner_matrix cartesian m D -> (s = 1 \/ s = -1) ->
  (forall a, positions' a = plus (turned_by s m (positions a)) t) -> pairs <> [] -> 0 < tiny -> (0 <= L)%Z ->
  radial_values radial_fn num (displacements positions pairs) gv -> factor_values cutoff_fn (displacements positions pairs) cut ->
  factor_values damping_fn (displacements positions pairs) dmp -> (return_cutoff = true -> cutoff_fn <> None) ->
  basis_returns tiny (displacements positions pairs) L num radial_fn cutoff_fn return_cutoff return_norm damping_fn cartesian y ->
  basis_returns tiny (displacements positions' pairs) L num radial_fn cutoff_fn return_cutoff return_norm damping_fn cartesian y' ->
  Forall proper_call cs -> Forall only_scalars xs ->
  run cgf lo hi (Some (edge_features dtype (length pairs) L num y)) (edge_cutoffs y) gr xs cs = Ok ys ->
  exists ys', run cgf lo hi (Some (edge_features dtype (length pairs) L num y')) (edge_cutoffs y') gr xs cs = Ok ys' /\
    Forall2 (fun z z' => transformed s (fun _ => D) z z' /\ forall i f, comp z' i 0 0 0 f = comp z i 0 0 0 f /\
      (cartesian = true -> vector_at z' i 1 f = turned_by s m (vector_at z i 1 f) /\ vector_at z' i 0 f = act (vector_at z i 0 f) m)) ys ys'.
Proof.
  intros ca cgf m D s t lo hi tiny ps ps' pairs L num radial cf df rc rn gv cut dmp dt y y' gr cs xs ys HP Hm HD Hs Hps Hne Ht HL Hg Hc Hd Hrc Hy Hy' Hcs Hxs H.
  assert (ED : displacements ps' pairs = map (turned_by s m) (displacements ps pairs)).
  { unfold displacements. rewrite map_map. apply map_ext. intros [a b]. cbn [fst snd]. rewrite !Hps. unfold turned_by. destruct (ps a) as [[x1 x2] x3], (ps b) as [[y1 y2] y3], t as [[t1 t2] t3].
    destruct m as [[[[a1 a2] a3] [[b1 b2] b3]] [[c1 c2] c3]]. cbn. repeat apply f_equal2; ring. }
  rewrite ED in Hy'. assert (Hne' : displacements ps pairs <> []) by (destruct pairs; [contradiction|discriminate]).
  destruct (C68_basis ca m D s Hm HD Hs tiny (displacements ps pairs) L num radial cf df rc rn gv cut dmp Ht Hne' HL Hg Hc Hd Hrc dt y y' Hy Hy') as [TB [EC _]].
  unfold displacements in TB. rewrite map_length in TB.
  assert (EE : edge_cutoffs y' = edge_cutoffs y) by (unfold edge_cutoffs; now rewrite EC). rewrite EE.
  destruct (C69_network ca cgf m D s lo hi HP Hm HD Hs (Some (edge_features dt (length pairs) L num y)) (Some (edge_features dt (length pairs) L num y')) (edge_cutoffs y) gr) with (cs := cs) (xs := xs) (xs' := xs) (ys := ys)
    as [ys' [E T]].
  - split; [exact TB|]. cbn [fD edge_features]. unfold degrees. nia.
  - exact Hcs.
  - eapply Forall_impl; [|exact Hxs]. intros x [S0 D0]. exists 0%nat. split; [now left|exact D0].
  - clear H. induction Hxs as [|x xs [S0 D0] _ IH]; constructor; [|exact IH]. repeat split. intros i p l k f Hp Hk.
    destruct (C67_matrices _ _ _ (constant_rotations ca m D Hm HD)) as [K0 _].
    unfold comp. rewrite D0, S0. destruct l as [|l].
    + replace k with 0%nat by lia. change (2 * 0 + 1)%nat with 1%nat. cbn [rsum Nat.eqb]. change (0 * 0 + 0)%nat with 0%nat. rewrite (K0 []). change (0 mod 2)%nat with 0%nat. change ((0 + 1) * (0 + 1) <=? 1)%nat with true. cbv iota.
      destruct (Nat.eqb_spec p 0) as [->|]; [change (parity_sign s 0) with 1|]; ring.
    + destruct (Nat.leb_spec ((S l + 1) * (S l + 1)) 1); [nia|]. rewrite rsum_zero by (intros; ring). ring.
  - exact H.
  - exists ys'. split; [exact E|]. clear -T Hm HD. induction T as [|z z' zs zs' Tz _ IH]; constructor; [|exact IH]. split; [exact Tz|]. intros i f. split.
    + exact (C69_scalars ca m D s Hm HD z z' i f Tz).
    + intros Eca. exact (C69_vectors ca m D s Hm HD Eca z z' i f Tz).
Qed.
Print Assumptions C69_molecule.

(** Two atoms that exchange messages; a quarter turn with inversion and a shift. *)
Definition pair_positions (a : nat) : vec := match a with O => (0, 0, 0) | _ => (1, 0, 0) end.
Definition pair_graph : graph := mkGraph None None (Some (2%nat, fun _ => [0%Z; 1%Z])) (Some (2%nat, fun _ => [1%Z; 0%Z])) None.
Definition pair_network : list call :=
  [UseMessagePass 0 (Some 1%Z) false false (mkConv (mkDense (fun _ _ _ _ => 1) (fun _ => 0)) (PTensor (fun _ _ _ _ _ _ _ => 1)));
   UseAdd [0; 1]%nat; UseActivation 2 silu; UseDense 3 2 true (mkDense (fun _ _ _ _ => 2) (fun _ => 1))].

Example C69_case : let cgf := package_cg true in let m := quarter_turn in let D := wigner_entries true quarter_turn in let t := (1, 2, 3) in
  let positions' := fun a => plus (turned_by (-1) m (pair_positions a)) t in let pairs := [(0, 1); (1, 0)]%nat in
  let radial := fun (n : list R) (_ : Z) => Ok (map (fun x => [x]) n) in let x := mkFeat [2%nat] 1 1 1 0 (fun _ _ _ _ => 1) in
  uses_package true cgf /\ proper_rotation m /\ wigner_matrix true m D /\ (exists gv, radial_values radial 1 (displacements pair_positions pairs) gv) /\
  Forall proper_call pair_network /\ only_scalars x /\
  exists y y' ys, basis_returns 1 (displacements pair_positions pairs) 1 1 radial None false false None true y /\
    basis_returns 1 (displacements positions' pairs) 1 1 radial None false false None true y' /\
    run cgf 0 0 (Some (edge_features 0 2 1 1 y)) (edge_cutoffs y) pair_graph [x] pair_network = Ok ys /\
    map fD ys = [1; 4; 4; 4; 4]%nat /\ map fF ys = [1; 1; 1; 1; 2]%nat.
Proof.
  intros cgf m D t positions' pairs radial x.
  split; [apply package_cg_uses|]. split; [exact quarter_turn_rotation|]. split; [apply wigner_entries_matrix|].
  assert (RV : forall rs, radial_values radial 1 rs (map (fun r => [size r]) rs)).
  { intros rs. unfold radial_values, radial. rewrite map_map. split; [reflexivity|]. rewrite map_length. split; [reflexivity|]. apply Forall_map, Forall_forall. reflexivity. }
  split; [eexists; apply RV|]. split.
  { unfold pair_network. repeat constructor; try (intros d E; injection E as <-; lia). exists (fun _ => 0), 1, 1. cbn. tauto. }
  split; [split; reflexivity|].
  assert (B : forall rs, rs <> [] -> exists y, basis_returns 1 rs 1 1 radial None false false None true y).
  { intros rs Hne. destruct (C51_total 1 0 empty_world None IoOk rs 1 1 radial None false false None true _ _ _ ltac:(lra) Hne sh_ready_empty call_ok_serial ltac:(lia) (RV rs) eq_refl eq_refl ltac:(discriminate)) as [y Ey].
    exists y, 0%nat, empty_world, None, IoOk. auto using sh_ready_empty, call_ok_serial. }
  destruct (B (displacements pair_positions pairs) ltac:(discriminate)) as [y Hy]. destruct (B (displacements positions' pairs) ltac:(discriminate)) as [y' Hy'].
  exists y, y'.
  assert (C : exists C, cgf 1%Z 0%Z 1%Z = Ok C).
  { unfold cgf, package_cg. destruct (C59_entries R 0 rzero real_clebsch_gordan 0 empty_world None IoOk 1 0 1 true rzero_test (cg_ready_empty _ _ _ _) call_ok_serial ltac:(lia) ltac:(lia) ltac:(lia)) as [c [E _]].
    rewrite E. eexists. reflexivity. }
  destruct C as [C EC]. clearbody cgf.
  destruct (ok_case _ (perform cgf 0 0 (Some (edge_features 0 2 1 1 y)) (edge_cutoffs y) pair_graph [x] (hd (UseAdd []) pair_network))
    (fun z => fB z = [2%nat] /\ fS z = 1%nat /\ fD z = 4%nat /\ fF z = 1%nat /\ fdt z = 0%nat)) as [z [Ez Sz]].
  { clear -EC. cbn [hd pair_network perform]. unfold select. cbn [nth_error bind]. unfold message_pass.
    vm_compute. rewrite EC. vm_compute. repeat split. }
  destruct z as [zB zS zD zF zd zv]. cbn in Sz. destruct Sz as [-> [-> [-> [-> ->]]]].
  destruct (ok_case _ (run cgf 0 0 (Some (edge_features 0 2 1 1 y)) (edge_cutoffs y) pair_graph [x; mkFeat [2%nat] 1 4 1 0 zv] (tl pair_network))
    (fun ys => map fD ys = [1; 4; 4; 4; 4]%nat /\ map fF ys = [1; 1; 1; 1; 2]%nat)) as [ys [Ey Sy]].
  { clear. vm_compute. repeat split. }
  exists ys. split; [exact Hy|]. split; [exact Hy'|]. split; [|exact Sy].
  unfold pair_network. cbn [run]. cbn [hd pair_network] in Ez. rewrite Ez. cbn [bind app]. exact Ey.
Qed.
