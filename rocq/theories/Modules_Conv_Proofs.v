(** Equivariance of the convolution and of message passing. *)
Require Import List Reals ZArith Bool Lia Lra.
Require Import ZifyNat.
Require Import Verif.Base Verif.RSum Verif.Features_Model Verif.Features_Spec Verif.Features_Proofs
  Verif.Indexed_Model Verif.Modules_Model Verif.Modules_Spec Verif.Modules_Graph_Spec Verif.Modules_Proofs
  Verif.Modules_Tensor_Proofs Verif.Modules_Fused_Proofs Verif.Modules_Equiv_Proofs Verif.Modules_Graph_Proofs.
Import ListNotations.
Open Scope R_scope.
Arguments Nat.modulo : simpl never.
Arguments Nat.mul : simpl never.

Lemma on_edges_kind : forall g D0 i, on_edges g D0 i = edge_matrices (graph_kind g) D0 i.
Proof. intros g D0 i. unfold on_edges, edge_matrices, graph_kind. destruct (g_adj g); reflexivity. Qed.

Lemma transformed_ext : forall s D D' x x', (forall i, D i = D' i) -> transformed s D x x' -> transformed s D' x x'.
Proof.
  intros s D D' x x' H [HB [HS [HD [HF [Hd HC]]]]]. do 5 (split; [assumption|]).
  intros i p l k f Hp Hk. rewrite HC by assumption. rewrite H. reflexivity.
Qed.

Lemma on_edges_keeps : forall g D0, keeps_scalars D0 -> keeps_scalars (on_edges g D0).
Proof. intros g D0 H b. unfold on_edges. destruct (g_adj g); apply H. Qed.
Lemma on_edges_orthogonal : forall g D0, orthogonal_blocks D0 -> orthogonal_blocks (on_edges g D0).
Proof. intros g D0 H b l k k' Hk Hk'. unfold on_edges. destruct (g_adj g); apply H; assumption. Qed.
Lemma on_edges_commutes : forall cgf g D0, cg_commutes cgf D0 -> cg_commutes cgf (on_edges g D0).
Proof. intros cgf g D0 H L1 L2 L3 C b E. unfold on_edges. destruct (g_adj g); eapply H; eassumption. Qed.
Lemma on_nodes_keeps : forall D0, keeps_scalars D0 -> keeps_scalars (on_nodes D0).
Proof. intros D0 H b. apply H. Qed.

Lemma dense_batch : forall F ub P x y, dense F ub P x = Ok y -> fB y = fB x /\ fF y = F /\ fdt y = fdt x /\ fS y = fS x /\ fD y = fD x.
Proof.
  intros F ub P x y H. destruct (dense_ok_inv F ub P x y H) as [n [V Hn]].
  destruct (dense_comp n x F ub P V Hn) as [y0 [E [V0 [B [S [FF [d _]]]]]]].
  assert (y0 = y) by congruence. subst y0. repeat split; auto. rewrite (proj2 V0), (proj2 V). reflexivity.
Qed.

Lemma broadcast_rev_fits : forall w t, (length w <= length t)%nat ->
  (forall j, (j < length w)%nat -> nth j w 0%nat = 1%nat \/ nth j w 0%nat = nth j t 0%nat) -> broadcast_rev t w = Some t.
Proof.
  induction w as [|a w IH]; intros [|b t] Hl H; cbn in Hl; try lia; try reflexivity.
  cbn [broadcast_rev]. rewrite IH by (lia || (intros j Hj; apply (H (S j)); cbn; lia)).
  destruct (Nat.eqb_spec b a) as [E|E]; [reflexivity|].
  destruct (H 0%nat ltac:(cbn; lia)) as [Ha|Ha]; cbn in Ha; [|congruence]. subst a. cbn [Nat.eqb].
  destruct (Nat.eqb_spec b 1) as [E1|E1]; [contradiction|]. reflexivity.
Qed.

Lemma fits_broadcast : forall w t, fits w t -> broadcast_shapes t w = Ok t.
Proof.
  intros w t [Hl H]. unfold broadcast_shapes. rewrite broadcast_rev_fits; [rewrite rev_involutive; reflexivity| |].
  - rewrite !rev_length. assumption.
  - intros j Hj. rewrite rev_length in Hj. apply H. assumption.
Qed.

Lemma multiply_value : forall y w z, fS w = 1%nat -> fD w = 1%nat -> (fF w = 1%nat \/ fF w = fF y) -> fits (fB w) (fB y) ->
  multiply_weights y w = Ok z ->
  Fshape y z /\ forall i p d f, fv z i p d f = fv w (bidx (fB w) (fB y) i) (bix 1 (fS y) p) (bix 1 (fD y) d) (bix (fF w) (fF y) f) * fv y i p d f.
Proof.
  intros y w z HS HD HF HB H. unfold multiply_weights in H. destruct (negb _); [discriminate|].
  rewrite (fits_broadcast _ _ HB) in H. cbn [bind] in H. rewrite HS, HD in H.
  assert (m1 : forall a, (if (a =? 1)%nat then 1%nat else a) = a) by (intros a; destruct (Nat.eqb_spec a 1); auto).
  rewrite !m1 in H.
  assert (mF : (if (fF y =? 1)%nat then fF w else fF y) = fF y).
  { destruct (Nat.eqb_spec (fF y) 1); [|reflexivity]. destruct HF; congruence. }
  rewrite mF in H. injection H as <-. split; [repeat split|]. intros i p d f. cbn [fv].
  unfold bix at 1 2 3. rewrite !Nat.eqb_refl. unfold bidx at 1. rewrite list_nat_eqb_refl. ring.
Qed.

Lemma multiply_ok : forall y y' w z, Fshape y y' -> multiply_weights y w = Ok z -> exists z', multiply_weights y' w = Ok z' /\ Fshape z z'.
Proof.
  intros y y' w z Hs H. unfold multiply_weights in *. rewrite (shape_of_same y y' Hs).
  destruct Hs as [HB [HS [HD [HF Hd]]]]. rewrite HB, HS, HD, HF, Hd.
  destruct (negb _); [discriminate|]. destruct (broadcast_shapes (fB y) (fB w)) as [B|]; [|discriminate].
  cbn [bind] in *. injection H as <-. eexists. split; [reflexivity|]. repeat split.
Qed.

Lemma multiply_transformed : forall s D y y' w z, fS w = 1%nat -> fD w = 1%nat -> (fF w = 1%nat \/ fF w = fF y) -> fits (fB w) (fB y) ->
  well_formed y -> transformed s D y y' -> multiply_weights y w = Ok z ->
  exists z', multiply_weights y' w = Ok z' /\ transformed s D z z'.
Proof.
  intros s D y y' w z HS HD HF HB [n V] T H. pose proof (transformed_shape _ _ _ _ T) as Sy.
  destruct (multiply_ok y y' w z Sy H) as [z' [H' Sz]]. exists z'. split; [exact H'|].
  destruct (multiply_value y w z HS HD HF HB H) as [Syz Hz].
  assert (HF' : fF w = 1%nat \/ fF w = fF y') by (destruct Sy as [_ [_ [_ [-> _]]]]; assumption).
  assert (HB' : fits (fB w) (fB y')) by (destruct Sy as [-> _]; assumption).
  destruct (multiply_value y' w z' HS HD HF' HB' H') as [Syz' Hz'].
  destruct Sy as [SB [SS [SD [SF Sd]]]]. rewrite SB, SS, SD, SF in Hz'.
  (* entries of an array with one parity and one degree do not depend on these indices *)
  destruct T as [_ [_ [_ [_ [_ TC]]]]].
  destruct Sz as [? [? [? [? ?]]]]. do 5 (split; [assumption|]).
  destruct Syz as [_ [YS [YD _]]]. destruct Syz' as [_ [YS' [YD' _]]].
  intros i p l k f Hp Hk.
  assert (Z1 : forall k0, (k0 < 2 * l + 1)%nat -> comp z i p l k0 f = fv w (bidx (fB w) (fB y) i) 0%nat 0%nat (bix (fF w) (fF y) f) * comp y i p l k0 f).
  { intros k0 Hk0. unfold comp. rewrite YS, YD.
    destruct (Nat.leb_spec ((l + 1) * (l + 1)) (fD y)) as [Hl|Hl]; [|ring]. destruct (Nat.eqb_spec (fS y) 2) as [E2|E2].
    - rewrite Hz. f_equal. rewrite E2. f_equal. unfold bix. destruct (Nat.eqb_spec 1 (fD y)); [|reflexivity]. nia.
    - destruct (p =? l mod 2)%nat; [|ring]. rewrite Hz. f_equal. f_equal; unfold bix.
      + destruct (1 =? fS y)%nat; reflexivity.
      + destruct (Nat.eqb_spec 1 (fD y)); [|reflexivity]. nia. }
  assert (Z2 : comp z' i p l k f = fv w (bidx (fB w) (fB y) i) 0%nat 0%nat (bix (fF w) (fF y) f) * comp y' i p l k f).
  { unfold comp. rewrite YS', YD', SS, SD.
    destruct (Nat.leb_spec ((l + 1) * (l + 1)) (fD y)) as [Hl|Hl]; [|ring]. destruct (Nat.eqb_spec (fS y) 2) as [E2|E2].
    - rewrite Hz'. f_equal. rewrite E2. f_equal. unfold bix. destruct (Nat.eqb_spec 1 (fD y)); [|reflexivity]. nia.
    - destruct (p =? l mod 2)%nat; [|ring]. rewrite Hz'. f_equal. f_equal; unfold bix.
      + destruct (1 =? fS y)%nat; reflexivity.
      + destruct (Nat.eqb_spec 1 (fD y)); [|reflexivity]. nia. }
  rewrite Z2, TC by assumption.
  transitivity (parity_sign s p * rsum (2 * l + 1) (fun k' => fv w (bidx (fB w) (fB y) i) 0%nat 0%nat (bix (fF w) (fF y) f) *
     (comp y i p l k' f * D i (l * l + k')%nat (l * l + k)%nat))); [rewrite rsum_scal_l; ring|].
  f_equal. apply rsum_ext. intros k' Hk'. rewrite (Z1 k' Hk'). ring.
Qed.

Section Conv.
Variable cgf : Z -> Z -> Z -> result (nat -> nat -> nat -> R).

Definition transformed_opt (s : R) (D : list nat -> nat -> nat -> R) (x x' : option feat) : Prop :=
  match x, x' with Some x, Some x' => transformed s D x x' | None, None => True | _, _ => False end.

Lemma conv_transformed : forall s D0 md incl ub P x x' basis basis' g y, cg_checked cgf -> s * s = 1 ->
  (forall d, md = Some d -> (0 <= d)%Z) -> keeps_scalars D0 -> orthogonal_blocks D0 -> cg_commutes cgf D0 ->
  transformed s (on_edges g D0) x x' -> transformed_opt s (on_edges g D0) basis basis' ->
  conv cgf md incl ub P x basis g = Ok y ->
  exists y', conv cgf md incl ub P x' basis' g = Ok y' /\ transformed s (on_nodes D0) y y'.
Proof.
  intros s D0 md incl ub P x x' basis basis' g y Hcg Hs Hmd HK HO HC Tx Tb H. unfold conv in *.
  destruct basis as [bs|], basis' as [bs'|]; cbn [transformed_opt] in Tb; try contradiction.
  - pose proof (transformed_shape _ _ _ _ Tx) as [XB [_ [_ [XF _]]]]. pose proof (transformed_shape _ _ _ _ Tb) as [BB _].
    rewrite XB, BB, XF. destruct (list_nat_eqb (fB x) (fB bs)) eqn:EL; [|discriminate]. cbn [negb] in *.
    apply list_nat_eqb_spec in EL.
    destruct (dense (fF x) ub (c_filter P) bs) as [fl|] eqn:ED; [|discriminate]. cbn [bind] in H.
    destruct (dense_transformed s (on_edges g D0) (fF x) ub (c_filter P) bs bs' fl (on_edges_keeps g D0 HK) Tb ED) as [fl' [ED' Tf]].
    rewrite ED'. cbn [bind].
    destruct (any_tensor cgf md incl (c_tensor P) fl x) as [z|] eqn:EZ; [|discriminate]. cbn [bind] in H.
    destruct (dense_batch _ _ _ _ _ ED) as [FB _].
    assert (Hb : batch_agrees (on_edges g D0) (on_edges g D0) (on_edges g D0) (fB fl) (fB x)).
    { rewrite FB, EL. apply batch_agrees_same. }
    destruct (any_tensor_transformed cgf s _ _ (on_edges g D0) md incl (c_tensor P) fl x fl' x' z Hcg Hs Hmd
      (on_edges_orthogonal g D0 HO) (on_edges_commutes cgf g D0 HC) Hb Tf Tx EZ) as [z' [EZ' Tz]].
    rewrite EZ'. cbn [bind].
    apply (indexed_sum_transformed s D0 z z' g y); [|exact H].
    eapply transformed_ext; [|exact Tz]. apply on_edges_kind.
  - cbn [bind] in *. apply (indexed_sum_transformed s D0 x x' g y); [|exact H].
    eapply transformed_ext; [|exact Tx]. apply on_edges_kind.
Qed.

Lemma with_defaults_edges : forall g N K D0 i, on_edges (with_defaults g N K) D0 i = on_edges g D0 i.
Proof. reflexivity. Qed.

Lemma message_pass_transformed : forall s D0 md incl ub P x x' basis basis' w g y, cg_checked cgf -> s * s = 1 ->
  (forall d, md = Some d -> (0 <= d)%Z) -> keeps_scalars D0 -> orthogonal_blocks D0 -> cg_commutes cgf D0 ->
  well_formed x -> (forall w0, w = Some w0 -> scalar_weights g x w0) ->
  transformed s (on_nodes D0) x x' -> transformed_opt s (on_edges g D0) basis basis' ->
  message_pass cgf md incl ub P x basis w g = Ok y ->
  exists y', message_pass cgf md incl ub P x' basis' w g = Ok y' /\ transformed s (on_nodes D0) y y'.
Proof.
  intros s D0 md incl ub P x x' basis basis' w g y Hcg Hs Hmd HK HO HC Vx Hw Tx Tb H. unfold message_pass in *.
  destruct (gather_src_feat x g) as [z|] eqn:EG; [|discriminate]. cbn [bind] in H.
  destruct (gather_src_transformed s D0 x x' g z Tx EG) as [z' [EG' Tz]]. rewrite EG'. cbn [bind].
  assert (Tz0 : transformed s (on_edges g D0) z z') by (eapply transformed_ext; [|exact Tz]; intros i; symmetry; apply on_edges_kind).
  pose proof (transformed_shape _ _ _ _ Tx) as [XB _]. rewrite XB.
  destruct (gather_src_inv x g z EG) as [ES [ED [EF [_ V]]]].
  assert (EB : fB z = removelast (fB x) ++ edge_axes g).
  { unfold edge_axes. destruct V as [[N [M [adj [EA [_ [EB _]]]]]]|[Q [src [EA [EC [EB _]]]]]]; rewrite EB, EA; [reflexivity|]. rewrite EC. reflexivity. }
  assert (Vz : well_formed z) by (destruct Vx as [n [VS VD]]; exists n; split; congruence).
  destruct w as [w|].
  - destruct (Hw w eq_refl) as [WS [WD [WF WB]]].
    destruct (multiply_weights z w) as [u|] eqn:EU; [|discriminate]. cbn [bind] in H.
    destruct (multiply_transformed s (on_edges g D0) z z' w u) as [u' [EU' Tu]]; auto; [rewrite EF; assumption|rewrite EB; assumption|].
    rewrite EU'. cbn [bind].
    apply (conv_transformed s D0 md incl ub P u u' basis basis' (with_defaults g (last1 (fB x)) (last1 (fB x)))); auto.
  - cbn [bind] in *.
    apply (conv_transformed s D0 md incl ub P z z' basis basis' (with_defaults g (last1 (fB x)) (last1 (fB x)))); auto.
Qed.

End Conv.
