(** Consequences of the message formulas: relabelling nodes and edges, dense and sparse lists. *)
Require Import List Reals ZArith Bool Lia Lra FunctionalExtensionality.
Require Import ZifyNat.
Require Import Verif.Base Verif.RSum Verif.Features_Model Verif.Features_Spec Verif.Features_Proofs
  Verif.Indexed_Model Verif.Modules_Model Verif.Modules_Spec Verif.Modules_Graph_Spec Verif.Modules_Proofs
  Verif.Modules_Tensor_Proofs Verif.Modules_Fused_Proofs Verif.Modules_Equiv_Proofs Verif.Modules_Graph_Proofs
  Verif.Modules_Conv_Proofs Verif.Modules_Message_Proofs.
Import ListNotations.
Open Scope R_scope.
Arguments Nat.modulo : simpl never.
Arguments Nat.mul : simpl never.

Lemma rsum_renumber : forall n (r t : nat -> nat) f, renumbering n r t -> rsum n (fun e => f (r e)) = rsum n f.
Proof.
  intros n r t f H.
  transitivity (rsum n (fun e => rsum n (fun e' => (if (r e =? e')%nat then 1 else 0) * f e'))).
  { apply rsum_ext. intros e He. symmetry. apply rsum_delta. apply (H e He). }
  rewrite rsum_swap. apply rsum_ext. intros e' He'.
  transitivity (rsum n (fun e => (if (t e' =? e)%nat then 1 else 0) * f e')).
  - apply rsum_ext. intros e He. f_equal. destruct (H e He) as [_ [H1 _]]. destruct (H e' He') as [_ [_ [_ H2]]].
    destruct (Nat.eqb_spec (r e) e'), (Nat.eqb_spec (t e') e); congruence.
  - rewrite (rsum_delta n (fun _ => f e')); [reflexivity|apply (H e' He')].
Qed.

Lemma at_node_value : forall l e j, at_node l e j = true -> Z.to_nat (nth e l 0%Z) = j.
Proof.
  intros l e j H. unfold at_node in H. destruct (nth_error l e) as [v|] eqn:E; [|discriminate].
  rewrite (nth_error_nth _ _ 0%Z E). apply Z.eqb_eq in H. lia.
Qed.

(** * Shapes *)

Lemma dense_like : forall F ub P x x' y, Fshape x x' -> dense F ub P x = Ok y -> exists y', dense F ub P x' = Ok y' /\ Fshape y y'.
Proof.
  intros F ub P x x' y Hs H. destruct (dense_ok_inv _ _ _ _ _ H) as [n [V Hn]].
  destruct Hs as [HB [HS [HD [HF Hd]]]].
  assert (V' : valid n x') by (destruct V; split; congruence).
  destruct (dense_comp n x F ub P V Hn) as [y0 [E [Vy [B [S [Fy [dy _]]]]]]].
  destruct (dense_comp n x' F ub P V' Hn) as [y' [E' [Vy' [B' [S' [Fy' [dy' _]]]]]]].
  assert (y0 = y) by congruence. subst y0. exists y'. split; [exact E'|].
  split; [congruence|]. split; [congruence|]. split; [rewrite (proj2 Vy), (proj2 Vy'); reflexivity|]. split; congruence.
Qed.

Section Relabel.
Variable cgf : Z -> Z -> Z -> result (nat -> nat -> nat -> R).

Lemma any_tensor_like : forall md incl P x y x' y' z, Fshape x x' -> Fshape y y' ->
  any_tensor cgf md incl P x y = Ok z -> exists z', any_tensor cgf md incl P x' y' = Ok z' /\ Fshape z z'.
Proof. intros md incl [K|K] x y x' y' z; [apply tensor_shapes|apply fused_shapes]. Qed.

Lemma graph_type_like : forall g g' a b, same_lists g g' -> graph_type g' a b = graph_type g a b.
Proof.
  intros g g' a b [HA [HD [HS _]]]. unfold graph_type.
  assert (EA : forall A : Type, forall o o' : option (A), True) by auto. clear EA.
  assert (E1 : option_map (fun a => [fst (fst a); snd (fst a)]) (g_adj g') = option_map (fun a => [fst (fst a); snd (fst a)]) (g_adj g))
    by (destruct (g_adj g), (g_adj g'); cbn in *; congruence).
  assert (E2 : option_map (fun s => [fst s]) (g_dst g') = option_map (fun s => [fst s]) (g_dst g))
    by (destruct (g_dst g), (g_dst g'); cbn in *; congruence).
  assert (E3 : option_map (fun s => [fst s]) (g_src g') = option_map (fun s => [fst s]) (g_src g))
    by (destruct (g_src g), (g_src g'); cbn in *; congruence).
  rewrite E1, E2, E3. reflexivity.
Qed.

Lemma gather_src_like : forall x x' g g' y, Fshape x x' -> same_lists g g' -> gather_src_feat x g = Ok y ->
  exists y', gather_src_feat x' g' = Ok y' /\ Fshape y y'.
Proof.
  intros x x' g g' y [HB [HS [HD [HF Hd]]]] HG H. unfold gather_src_feat in *. rewrite (graph_type_like g g' _ _ HG), HB, HS, HD, HF, Hd.
  destruct HG as [GA [GD [GS _]]].
  destruct (graph_type g false true) as [[|]|]; [| |discriminate].
  - destruct (g_adj g) as [[[N M] adj]|]; [|discriminate]. destruct (g_adj g') as [[[N' M'] adj']|]; [|discriminate].
    cbn in GA. injection GA as -> ->. injection H as <-. eexists. split; [reflexivity|]. repeat split.
  - destruct (g_src g) as [[P src]|]; [|discriminate]. destruct (g_src g') as [[P' src']|]; [|discriminate].
    cbn in GS. injection GS as ->. injection H as <-. eexists. split; [reflexivity|]. repeat split.
Qed.

Lemma indexed_sum_like : forall x x' g g' y, Fshape x x' -> same_lists g g' -> indexed_sum_feat x g = Ok y ->
  exists y', indexed_sum_feat x' g' = Ok y' /\ Fshape y y'.
Proof.
  intros x x' g g' y [HB [HS [HD [HF Hd]]]] HG H. unfold indexed_sum_feat in *. rewrite (graph_type_like g g' _ _ HG), HB, HS, HD, HF, Hd.
  destruct HG as [GA [GD [GS [GN GW]]]].
  destruct (graph_type g true false) as [[|]|]; [| |discriminate].
  - destruct (g_where g) as [w|]; [|discriminate]. destruct (g_where g') as [w'|]; [|destruct GW as [GW _]; specialize (GW eq_refl); discriminate].
    destruct (g_adj g) as [[[N M] adj]|]; [|discriminate]. destruct (g_adj g') as [[[N' M'] adj']|]; [|discriminate].
    cbn in GA. injection GA as -> ->.
    destruct (negb _); [discriminate|]. injection H as <-. eexists. split; [reflexivity|]. repeat split.
  - rewrite GN. destruct (g_segments g); [|discriminate].
    destruct (g_dst g) as [[P src]|]; [|discriminate]. destruct (g_dst g') as [[P' src']|]; [|discriminate].
    cbn in GD. injection GD as ->.
    destruct (negb _); [discriminate|]. injection H as <-. eexists. split; [reflexivity|]. repeat split.
Qed.

Lemma multiply_like : forall y y' w w' z, Fshape y y' -> Fshape w w' -> multiply_weights y w = Ok z ->
  exists z', multiply_weights y' w' = Ok z' /\ Fshape z z'.
Proof.
  intros y y' w w' z Hy Hw H. unfold multiply_weights in *. rewrite (shape_of_same y y' Hy), (shape_of_same w w' Hw).
  destruct Hy as [HB [HS [HD [HF Hd]]]]. destruct Hw as [WB [WS [WD [WF Wd]]]]. rewrite HB, HS, HD, HF, Hd, WB, WS, WD, WF.
  destruct (negb _); [discriminate|]. destruct (broadcast_shapes (fB y) (fB w)) as [B|]; [|discriminate]. cbn [bind] in *.
  injection H as <-. eexists. split; [reflexivity|]. repeat split.
Qed.

Lemma same_lists_defaults : forall g g' N K, same_lists g g' -> same_lists (with_defaults g N K) (with_defaults g' N K).
Proof.
  intros g g' N K [GA [GD [GS [GN GW]]]]. unfold with_defaults, same_lists. cbn.
  do 3 (split; [assumption|]). split; [rewrite GN; reflexivity|].
  destruct (g_where g) as [w|], (g_where g') as [w'|]; try (split; discriminate).
  - destruct GW as [GW _]. specialize (GW eq_refl). discriminate.
  - destruct GW as [_ GW]. specialize (GW eq_refl). discriminate.
  - destruct (g_adj g), (g_adj g'); cbn in GA; try discriminate; split; try discriminate; auto.
Qed.

Lemma pass_like : forall md incl ub P x x' basis basis' w w' g g' y, like x x' -> like_opt basis basis' -> like_opt w w' -> same_lists g g' ->
  message_pass cgf md incl ub P x basis w g = Ok y ->
  exists y', message_pass cgf md incl ub P x' basis' w' g' = Ok y' /\ like y y'.
Proof.
  intros md incl ub P x x' basis basis' w w' g g' y Hx Hb Hw HG H. unfold message_pass in *.
  destruct (gather_src_feat x g) as [z|] eqn:EG; [|discriminate]. cbn [bind] in H.
  destruct (gather_src_like x x' g g' z Hx HG EG) as [z' [EG' Sz]]. rewrite EG'. cbn [bind].
  assert (Hu : exists u u', (match w with None => Ok z | Some w => multiply_weights z w end) = Ok u
     /\ (match w' with None => Ok z' | Some w => multiply_weights z' w end) = Ok u' /\ Fshape u u').
  { destruct w as [w|], w' as [w'|]; cbn [like_opt] in Hw; try contradiction.
    - destruct (multiply_weights z w) as [u|] eqn:EU; [|discriminate]. destruct (multiply_like z z' w w' u Sz Hw EU) as [u' [EU' Su]]. exists u, u'. auto.
    - exists z, z'. auto. }
  destruct Hu as [u [u' [Eu [Eu' Su]]]]. rewrite Eu in H. rewrite Eu'. cbn [bind] in *.
  unfold conv in *. destruct Hx as [XB _]. rewrite XB. pose proof Su as [UB [_ [_ [UF _]]]].
  destruct basis as [bs|], basis' as [bs'|]; cbn [like_opt] in Hb; try contradiction.
  - pose proof Hb as [BB _]. rewrite UB, BB, UF. destruct (negb _); [discriminate|].
    destruct (dense (fF u) ub (c_filter P) bs) as [fl|] eqn:ED; [|discriminate]. cbn [bind] in H.
    destruct (dense_like _ _ _ bs bs' fl Hb ED) as [fl' [ED' Sf]]. rewrite ED'. cbn [bind].
    destruct (any_tensor cgf md incl (c_tensor P) fl u) as [t|] eqn:ET; [|discriminate]. cbn [bind] in H.
    destruct (any_tensor_like md incl (c_tensor P) fl u fl' u' t Sf Su ET) as [t' [ET' St]]. rewrite ET'. cbn [bind].
    apply (indexed_sum_like t t' _ _ y St (same_lists_defaults g g' _ _ HG) H).
  - cbn [bind] in *. apply (indexed_sum_like u u' _ _ y Su (same_lists_defaults g g' _ _ HG) H).
Qed.

(** Shapes of the result do not depend on the graph. *)
Lemma pass_channels : forall md incl ub P x x' basis basis' w w' g g' y y',
  cg_checked cgf -> (forall d, md = Some d -> (0 <= d)%Z) -> well_formed x ->
  (forall w0, w = Some w0 -> scalar_weights g x w0) -> (forall w0, w' = Some w0 -> scalar_weights g' x' w0) ->
  fS x' = fS x -> fD x' = fD x -> fF x' = fF x ->
  match basis, basis' with Some b, Some b' => fS b' = fS b /\ fD b' = fD b /\ fF b' = fF b /\ fdt b' = fdt b | None, None => True | _, _ => False end ->
  fdt x' = fdt x ->
  message_pass cgf md incl ub P x basis w g = Ok y -> message_pass cgf md incl ub P x' basis' w' g' = Ok y' ->
  fS y' = fS y /\ fD y' = fD y /\ fF y' = fF y.
Proof.
  intros md incl ub P x x' basis basis' w w' g g' y y' Hcg Hmd Vx Hw Hw' ES ED EF Hb Edt H H'. unfold message_pass in *.
  assert (G : forall x w g y0, (forall w0, w = Some w0 -> scalar_weights g x w0) -> bind (gather_src_feat x g) (fun y1 =>
     bind (match w with None => Ok y1 | Some w => multiply_weights y1 w end) y0) = Ok y ->
     exists u, y0 u = Ok y /\ fS u = fS x /\ fD u = fD x /\ fF u = fF x /\ fdt u = fdt x).
  { clear. intros x w g y0 Hw H. destruct (gather_src_feat x g) as [z|] eqn:EG; [|discriminate]. cbn [bind] in H.
    destruct (gather_src_inv x g z EG) as [ES [ED [EF [Ed V]]]].
    assert (EB : fB z = removelast (fB x) ++ edge_axes g).
    { unfold edge_axes. destruct V as [[N [M [adj [EA [_ [EB _]]]]]]|[Q [src [EA [EC [EB _]]]]]]; rewrite EB, EA; [reflexivity|]. rewrite EC. reflexivity. }
    destruct w as [w|].
    - destruct (multiply_weights z w) as [u|] eqn:EU; [|discriminate]. cbn [bind] in H. exists u. split; [exact H|].
      destruct (Hw w eq_refl) as [WS [WD [WF WB]]].
      destruct (multiply_value z w u WS WD) as [[B1 [S1 [D1 [F1 d1]]]] Hv]; auto; [rewrite EF; exact WF|rewrite EB; exact WB|].
      split; [congruence|]. split; [congruence|]. split; congruence.
    - cbn [bind] in H. exists z. auto. }
  destruct (G _ _ _ _ Hw H) as [u [Eu [US [UD [UF Ud]]]]]. clear H.
  assert (G' : exists u', conv cgf md incl ub P u' basis' (with_defaults g' (last1 (fB x')) (last1 (fB x'))) = Ok y' /\ fS u' = fS x' /\ fD u' = fD x' /\ fF u' = fF x' /\ fdt u' = fdt x').
  { clear -H' Hw'. destruct (gather_src_feat x' g') as [z|] eqn:EG; [|discriminate]. cbn [bind] in H'.
    destruct (gather_src_inv x' g' z EG) as [ES [ED [EF [Ed V]]]].
    assert (EB : fB z = removelast (fB x') ++ edge_axes g').
    { unfold edge_axes. destruct V as [[N [M [adj [EA [_ [EB _]]]]]]|[Q [src [EA [EC [EB _]]]]]]; rewrite EB, EA; [reflexivity|]. rewrite EC. reflexivity. }
    destruct w' as [w|].
    - destruct (multiply_weights z w) as [u|] eqn:EU; [|discriminate]. cbn [bind] in H'. exists u. split; [exact H'|].
      destruct (Hw' w eq_refl) as [WS [WD [WF WB]]].
      destruct (multiply_value z w u WS WD) as [[B1 [S1 [D1 [F1 d1]]]] Hv]; auto; [rewrite EF; exact WF|rewrite EB; exact WB|].
      split; [congruence|]. split; [congruence|]. split; congruence.
    - cbn [bind] in H'. exists z. auto. }
  destruct G' as [u' [Eu' [US' [UD' [UF' Ud']]]]].
  destruct (conv_parts cgf md incl ub P u basis _ y Eu) as [z [EI HP]].
  destruct (conv_parts cgf md incl ub P u' basis' _ y' Eu') as [z' [EI' HP']].
  destruct (indexed_sum_inv _ _ _ EI) as [S1 [D1 [F1 _]]]. destruct (indexed_sum_inv _ _ _ EI') as [S2 [D2 [F2 _]]].
  destruct (HP [] (item u []) (item_part u [])) as [r [Er [_ [RS [RD [RF _]]]]]].
  destruct (HP' [] (item u' []) (item_part u' [])) as [r' [Er' [_ [RS' [RD' [RF' _]]]]]].
  assert (Sr : Fshape r r').
  { assert (Si : Fshape (item u []) (item u' [])) by (repeat split; cbn; congruence).
    destruct basis as [bs|], basis' as [bs'|]; try contradiction; cbn [option_map edge_message] in *.
    - assert (Sb : Fshape (item bs []) (item bs' [])) by (destruct Hb as [? [? [? ?]]]; repeat split; cbn; congruence).
      destruct (dense (fF (item u [])) ub (c_filter P) (item bs [])) as [fl|] eqn:EDn; [|discriminate]. cbn [bind] in Er.
      destruct (dense_like _ _ _ _ _ fl Sb EDn) as [fl' [EDn' Sf]].
      assert (EFF : fF (item u' []) = fF (item u [])) by (cbn; congruence). rewrite EFF, EDn' in Er'. cbn [bind] in Er'.
      destruct (any_tensor_like md incl (c_tensor P) _ _ _ _ r Sf Si Er) as [r0 [E0 S0]]. congruence.
    - injection Er as <-. injection Er' as <-. exact Si. }
  destruct Sr as [_ [? [? [? _]]]]. split; [congruence|]. split; congruence.
Qed.

(** * Messages with the same inputs *)

Lemma item_same : forall x x' i i', fS x' = fS x -> fD x' = fD x -> fF x' = fF x -> fdt x' = fdt x -> same_entries x i x' i' ->
  item x' i' = item x i.
Proof.
  intros x x' i i' HS HD HF Hd H. unfold item. rewrite HS, HD, HF, Hd. f_equal.
  extensionality j. extensionality p. extensionality d. extensionality f. apply H.
Qed.

Lemma message_same : forall md incl ub P x x' basis basis' w w' g g' i i' j j',
  fS x' = fS x -> fD x' = fD x -> fF x' = fF x -> fdt x' = fdt x -> same_entries x j x' j' ->
  match basis, basis' with Some b, Some b' => fS b' = fS b /\ fD b' = fD b /\ fF b' = fF b /\ fdt b' = fdt b /\ same_entries b i b' i' | None, None => True | _, _ => False end ->
  (forall f, edge_weight w' (removelast (fB x') ++ edge_axes g') (fF x) i' f = edge_weight w (removelast (fB x) ++ edge_axes g) (fF x) i f) ->
  message_at cgf md incl ub P x' basis' w' g' i' j' = message_at cgf md incl ub P x basis w g i j.
Proof.
  intros md incl ub P x x' basis basis' w w' g g' i i' j j' HS HD HF Hd Hj Hb Hw. unfold message_at.
  rewrite (item_same x x' j j') by assumption. rewrite HF.
  replace (edge_weight w' (removelast (fB x') ++ edge_axes g') (fF x) i') with (edge_weight w (removelast (fB x) ++ edge_axes g) (fF x) i)
    by (extensionality f; symmetry; apply Hw).
  destruct basis as [bs|], basis' as [bs'|]; try contradiction; cbn [option_map]; [|reflexivity].
  destruct Hb as [? [? [? [? ?]]]]. rewrite (item_same bs bs' i i') by assumption. reflexivity.
Qed.

Lemma pass_relabel_sparse : forall md incl ub P x x' basis basis' w w' g g' y Q dst Q' src dst' src' b s t r u,
  cg_checked cgf -> (forall d, md = Some d -> (0 <= d)%Z) -> well_formed x ->
  (forall w0, w = Some w0 -> scalar_weights g x w0) ->
  g_dst g = Some (Q, dst) -> g_src g = Some (Q', src) -> g_dst g' = Some (Q, dst') -> g_src g' = Some (Q', src') ->
  same_lists g g' -> like x x' -> like_opt basis basis' -> like_opt w w' ->
  message_pass cgf md incl ub P x basis w g = Ok y -> last1 (fB y) = last1 (fB x) ->
  renumbering (last1 (fB x)) s t -> renumbering Q r u ->
  sparse_sources Q (dst b) (src b) (last1 (fB y)) (last1 (fB x)) ->
  (forall n, (n < last1 (fB x))%nat -> same_entries x (b ++ [n]) x' (b ++ [s n])) ->
  (forall e n, (e < Q)%nat -> (n < last1 (fB x))%nat ->
     at_node (dst' b) (r e) (s n) = at_node (dst b) e n
     /\ (at_node (dst b) e n = true ->
         (forall j, (j < last1 (fB x))%nat -> at_node (src' b) (r e) (s j) = at_node (src b) e j)
         /\ same_entries_opt basis (b ++ [e]) basis' (b ++ [r e])
         /\ forall f, edge_weight w' (removelast (fB x) ++ edge_axes g) (fF x) (b ++ [r e]) f = edge_weight w (removelast (fB x) ++ edge_axes g) (fF x) (b ++ [e]) f)) ->
  exists y', message_pass cgf md incl ub P x' basis' w' g' = Ok y' /\ like y y'
    /\ forall n p d f, (n < last1 (fB x))%nat -> (p < fS y)%nat -> (d < fD y)%nat -> fv y' (b ++ [s n]) p d f = fv y (b ++ [n]) p d f.
Proof.
  intros md incl ub P x x' basis basis' w w' g g' y Q dst Q' src dst' src' b s t r u Hcg Hmd Vx Hw Gd Gs Gd' Gs' HG Lx Lb Lw H HN Hst Hru Hsrc Hx He.
  destruct (pass_like md incl ub P x x' basis basis' w w' g g' y Lx Lb Lw HG H) as [y' [H' Ly]].
  exists y'. split; [exact H'|]. split; [exact Ly|]. intros n p d f Hn Hp Hd.
  pose proof Lx as [XB [XS [XD [XF Xd]]]]. pose proof Ly as [YB [YS [YD [YF Yd]]]].
  assert (GA : g_adj g = None).
  { unfold message_pass in H. destruct (gather_src_feat x g) as [z|] eqn:EG; [|discriminate].
    destruct (gather_src_inv x g z EG) as [_ [_ [_ [_ [[N [M [adj [_ [E _]]]]]|[? [? [E _]]]]]]]]; congruence. }
  assert (GA' : g_adj g' = None) by (destruct HG as [E _]; rewrite GA in E; destruct (g_adj g'); [discriminate|reflexivity]).
  assert (EA : edge_axes g' = edge_axes g) by (unfold edge_axes; rewrite GA, GA', Gs, Gs'; reflexivity).
  assert (Vx' : well_formed x') by (destruct Vx as [k [V1 V2]]; exists k; split; congruence).
  assert (Hw' : forall w0, w' = Some w0 -> scalar_weights g' x' w0).
  { intros w0 E. destruct w as [w|]; [|rewrite E in Lw; contradiction]. rewrite E in Lw. cbn in Lw.
    destruct (Hw w eq_refl) as [W1 [W2 [W3 W4]]]. destruct Lw as [B1 [S1 [D1 [F1 _]]]].
    split; [congruence|]. split; [congruence|]. split; [rewrite F1, XF; exact W3|]. rewrite B1, XB, EA. exact W4. }
  destruct (pass_sparse cgf md incl ub P x basis w g y Q dst Q' src b Hcg Hmd Vx Hw Gd Gs H Hsrc) as [_ S1].
  assert (Hsrc' : sparse_sources Q (dst' b) (src' b) (last1 (fB y')) (last1 (fB x'))).
  { intros e n0 He0 Hn0 Ha. rewrite YB, HN in Hn0. rewrite XB.
    destruct (Hru e He0) as [_ [_ [R3 R4]]]. destruct (Hst n0 Hn0) as [_ [_ [T3 T4]]].
    destruct (He (u e) (t n0) R3 T3) as [E1 E2]. rewrite R4, T4 in E1. rewrite Ha in E1.
    destruct (Hsrc (u e) (t n0) R3 ltac:(rewrite HN; exact T3) (eq_sym E1)) as [j [Hj Hat]].
    exists (s j). split; [apply (Hst j Hj)|]. destruct (E2 (eq_sym E1)) as [E3 _]. specialize (E3 j Hj). rewrite R4 in E3. congruence. }
  destruct (pass_sparse cgf md incl ub P x' basis' w' g' y' Q dst' Q' src' b Hcg Hmd Vx' Hw' Gd' Gs' H' Hsrc') as [_ S2].
  destruct (S1 n ltac:(rewrite HN; exact Hn)) as [_ F1]. rewrite F1 by assumption.
  destruct (S2 (s n) ltac:(rewrite YB, HN; apply (Hst n Hn))) as [_ F2]. rewrite F2 by congruence.
  symmetry. etransitivity; [|apply (rsum_renumber Q r u _ Hru)]. apply rsum_ext. intros e Hq. cbv beta.
  destruct (He e n Hq Hn) as [E1 E3]. rewrite E1. destruct (at_node (dst b) e n) eqn:Ha; [|reflexivity].
  destruct (Hsrc e n Hq ltac:(rewrite HN; exact Hn) Ha) as [j [Hj Hat]].
  destruct (E3 eq_refl) as [E2 [Hb Hew]]. specialize (E2 j Hj). rewrite Hat in E2.
  rewrite (at_node_value _ _ _ Hat), (at_node_value _ _ _ E2). f_equal. symmetry. apply message_same; auto.
  - destruct basis as [bs|], basis' as [bs'|]; cbn in Lb, Hb; try contradiction; auto.
    destruct Lb as [? [? [? [? ?]]]]. auto.
  - intros f0. rewrite XB, EA. apply Hew; assumption.
Qed.

Lemma pass_relabel_dense : forall md incl ub P x x' basis basis' w w' g g' y N M adj adj' b s t r u,
  cg_checked cgf -> (forall d, md = Some d -> (0 <= d)%Z) -> well_formed x ->
  (forall w0, w = Some w0 -> scalar_weights g x w0) ->
  g_adj g = Some (N, M, adj) -> g_adj g' = Some (N, M, adj') ->
  same_lists g g' -> like x x' -> like_opt basis basis' -> like_opt w w' ->
  message_pass cgf md incl ub P x basis w g = Ok y -> N = last1 (fB x) ->
  renumbering N s t -> (forall n, (n < N)%nat -> renumbering M (r n) (u n)) ->
  dense_sources g (adj b) b N M N ->
  (forall n, (n < N)%nat -> same_entries x (b ++ [n]) x' (b ++ [s n])) ->
  (forall n m, (n < N)%nat -> (m < M)%nat -> dense_edge g' N b (s n) (r n m) = dense_edge g N b n m
     /\ (dense_edge g N b n m = true ->
         (forall j, (j < N)%nat -> at_node (nth (s n) (adj' b) []) (r n m) (s j) = at_node (nth n (adj b) []) m j)
         /\ same_entries_opt basis (b ++ [n; m]) basis' (b ++ [s n; r n m])
         /\ forall f, edge_weight w' (removelast (fB x) ++ edge_axes g) (fF x) (b ++ [s n; r n m]) f = edge_weight w (removelast (fB x) ++ edge_axes g) (fF x) (b ++ [n; m]) f)) ->
  exists y', message_pass cgf md incl ub P x' basis' w' g' = Ok y' /\ like y y'
    /\ forall n p d f, (n < N)%nat -> (p < fS y)%nat -> (d < fD y)%nat -> fv y' (b ++ [s n]) p d f = fv y (b ++ [n]) p d f.
Proof.
  intros md incl ub P x x' basis basis' w w' g g' y N M adj adj' b s t r u Hcg Hmd Vx Hw Ga Ga' HG Lx Lb Lw H HN Hst Hru Hsrc Hx He.
  destruct (pass_like md incl ub P x x' basis basis' w w' g g' y Lx Lb Lw HG H) as [y' [H' Ly]].
  exists y'. split; [exact H'|]. split; [exact Ly|]. intros n p d f Hn Hp Hd.
  pose proof Lx as [XB [XS [XD [XF Xd]]]]. pose proof Ly as [YB [YS [YD [YF Yd]]]].
  assert (EA : edge_axes g' = edge_axes g) by (unfold edge_axes; rewrite Ga, Ga'; reflexivity).
  assert (Vx' : well_formed x') by (destruct Vx as [k [V1 V2]]; exists k; split; congruence).
  assert (Hw' : forall w0, w' = Some w0 -> scalar_weights g' x' w0).
  { intros w0 E. destruct w as [w|]; [|rewrite E in Lw; contradiction]. rewrite E in Lw. cbn in Lw.
    destruct (Hw w eq_refl) as [W1 [W2 [W3 W4]]]. destruct Lw as [B1 [S1 [D1 [F1 _]]]].
    split; [congruence|]. split; [congruence|]. split; [rewrite F1, XF; exact W3|]. rewrite B1, XB, EA. exact W4. }
  pose proof Hsrc as Hsrc0. rewrite HN in Hsrc0 at 2.
  destruct (pass_dense cgf md incl ub P x basis w g y N M adj b Hcg Hmd Vx Hw Ga H Hsrc0) as [_ S1].
  assert (Hsrc' : dense_sources g' (adj' b) b N M (last1 (fB x'))).
  { rewrite XB, <- HN. intros n0 m0 Hn0 Hm0 Ha.
    destruct (Hst n0 Hn0) as [_ [_ [T3 T4]]]. destruct (Hru (t n0) T3 m0 Hm0) as [_ [_ [R3 R4]]].
    destruct (He (t n0) (u (t n0) m0) T3 R3) as [E1 E2]. rewrite R4, T4 in E1. rewrite Ha in E1.
    destruct (Hsrc (t n0) (u (t n0) m0) T3 R3 (eq_sym E1)) as [j [Hj Hat]].
    exists (s j). split; [apply (Hst j Hj)|]. destruct (E2 (eq_sym E1)) as [E3 _]. specialize (E3 j Hj). rewrite R4, T4 in E3. congruence. }
  destruct (pass_dense cgf md incl ub P x' basis' w' g' y' N M adj' b Hcg Hmd Vx' Hw' Ga' H' Hsrc') as [_ S2].
  destruct (S1 n Hn) as [_ F1]. rewrite F1 by assumption.
  destruct (S2 (s n) ltac:(apply (Hst n Hn))) as [_ F2]. rewrite F2 by congruence.
  symmetry. etransitivity; [|apply (rsum_renumber M (r n) (u n) _ (Hru n Hn))]. apply rsum_ext. intros m Hm. cbv beta.
  rewrite XB, <- HN. destruct (He n m Hn Hm) as [E1 E2]. rewrite E1. destruct (dense_edge g N b n m) eqn:Ha; [|reflexivity].
  destruct (Hsrc n m Hn Hm Ha) as [j [Hj Hat]]. destruct (E2 eq_refl) as [E3 [Hb Hew]]. specialize (E3 j Hj). rewrite Hat in E3.
  rewrite (at_node_value _ _ _ Hat), (at_node_value _ _ _ E3). f_equal. symmetry. apply message_same; auto.
  - destruct basis as [bs|], basis' as [bs'|]; cbn in Lb, Hb; try contradiction; auto.
    destruct Lb as [? [? [? [? ?]]]]. auto.
  - intros f0. rewrite XB, EA. apply Hew; assumption.
Qed.

(** * Dense and sparse lists of the same edges *)

Definition pair_dec : forall a b : nat * nat, {a = b} + {a <> b}.
Proof. decide equality; apply Nat.eq_dec. Defined.

Definition sum_over {A : Type} (l : list A) (h : A -> R) : R := fold_right (fun a acc => h a + acc) 0 l.

Lemma sum_over_nth : forall (A : Type) (E : list A) (h : nat -> R) (k : A -> R),
  (forall e a, nth_error E e = Some a -> h e = k a) -> rsum (length E) h = sum_over E k.
Proof.
  intros A E. induction E as [|a E IH]; intros h k H; [reflexivity|]. cbn [length sum_over fold_right]. rewrite rsum_S_l.
  rewrite (H 0%nat a eq_refl). f_equal. apply IH. intros e a' E'. apply (H (S e) a' E').
Qed.

Lemma sum_over_row : forall (E : list (nat * nat)) n M (k : nat * nat -> R), NoDup E ->
  (forall m, In (n, m) E -> (m < M)%nat) ->
  sum_over E (fun a => if (fst a =? n)%nat then k a else 0)
  = rsum M (fun m => if in_dec pair_dec (n, m) E then k (n, m) else 0).
Proof.
  intros E n M k. induction E as [|[n0 m0] E IH]; intros ND HM.
  - cbn [sum_over fold_right]. symmetry. apply rsum_zero. intros m _. destruct (in_dec _ _ _) as [i|]; [destruct i|reflexivity].
  - inversion ND as [|? ? Hni ND']; subst. cbn [sum_over fold_right fst]. fold (sum_over E (fun a => if (fst a =? n)%nat then k a else 0)).
    rewrite IH by (auto; intros m Hm; apply HM; right; exact Hm).
    destruct (Nat.eqb_spec n0 n) as [->|Hne].
    + transitivity (rsum M (fun m => (if (m0 =? m)%nat then 1 else 0) * k (n, m)) + rsum M (fun m => if in_dec pair_dec (n, m) E then k (n, m) else 0)).
      * f_equal. symmetry. apply (rsum_delta M (fun m => k (n, m))). apply HM. left. reflexivity.
      * rewrite <- rsum_plus. apply rsum_ext. intros m Hm.
        destruct (Nat.eqb_spec m0 m) as [->|Hm0].
        -- destruct (in_dec _ (n, m) E); [contradiction|]. destruct (in_dec _ (n, m) _) as [|c]; [ring|]. destruct c. left. reflexivity.
        -- destruct (in_dec _ (n, m) E) as [i|i]; destruct (in_dec _ (n, m) _) as [c|c]; try ring.
           ++ destruct c. right. exact i.
           ++ destruct c as [c|c]; [congruence|contradiction].
    + rewrite Rplus_0_l. apply rsum_ext. intros m Hm.
      destruct (in_dec _ (n, m) E) as [i|i]; destruct (in_dec _ (n, m) _) as [c|c]; try reflexivity.
      * destruct c. right. exact i.
      * destruct c as [c|c]; [congruence|contradiction].
Qed.

Lemma pass_dense_sparse : forall md incl ub P x basisd basiss wd ws gd gs yd ys N M adj Q dst Q' src b (E : list (nat * nat)),
  cg_checked cgf -> (forall d, md = Some d -> (0 <= d)%Z) -> well_formed x ->
  (forall w0, wd = Some w0 -> scalar_weights gd x w0) -> (forall w0, ws = Some w0 -> scalar_weights gs x w0) ->
  g_adj gd = Some (N, M, adj) -> g_dst gs = Some (Q, dst) -> g_src gs = Some (Q', src) ->
  message_pass cgf md incl ub P x basisd wd gd = Ok yd -> message_pass cgf md incl ub P x basiss ws gs = Ok ys ->
  last1 (fB ys) = N ->
  dense_sources gd (adj b) b N M (last1 (fB x)) ->
  NoDup E -> (length E <= Q)%nat ->
  (forall n m, In (n, m) E <-> (n < N)%nat /\ (m < M)%nat /\ dense_edge gd (last1 (fB x)) b n m = true) ->
  (forall e n m, nth_error E e = Some (n, m) ->
     nth_error (dst b) e = Some (Z.of_nat n) /\ nth_error (src b) e = nth_error (nth n (adj b) []) m) ->
  (forall e n, (length E <= e)%nat -> (n < N)%nat -> at_node (dst b) e n = false) ->
  match basisd, basiss with
  | Some bd, Some bs => fS bs = fS bd /\ fD bs = fD bd /\ fF bs = fF bd /\ fdt bs = fdt bd
      /\ forall e n m, nth_error E e = Some (n, m) -> same_entries bd (b ++ [n; m]) bs (b ++ [e])
  | None, None => True | _, _ => False end ->
  (forall e n m f, nth_error E e = Some (n, m) ->
     edge_weight ws (removelast (fB x) ++ edge_axes gs) (fF x) (b ++ [e]) f = edge_weight wd (removelast (fB x) ++ edge_axes gd) (fF x) (b ++ [n; m]) f) ->
  fS ys = fS yd /\ fD ys = fD yd /\ fF ys = fF yd /\
  forall n p d f, (n < N)%nat -> (p < fS yd)%nat -> (d < fD yd)%nat -> fv ys (b ++ [n]) p d f = fv yd (b ++ [n]) p d f.
Proof.
  intros md incl ub P x basisd basiss wd ws gd gs yd ys N M adj Q dst Q' src b E Hcg Hmd Vx Hwd Hws Ga Gd Gs Hd Hs HN Hsrc ND HQ HE HI Hpad Hb Hw.
  assert (C : fS ys = fS yd /\ fD ys = fD yd /\ fF ys = fF yd).
  { apply (pass_channels md incl ub P x x basisd basiss wd ws gd gs yd ys); auto.
    destruct basisd, basiss; auto. destruct Hb as [? [? [? [? ?]]]]. auto. }
  destruct C as [CS [CD CF]]. do 3 (split; [assumption|]). intros n p d f Hn Hp Hdd.
  destruct (pass_dense cgf md incl ub P x basisd wd gd yd N M adj b Hcg Hmd Vx Hwd Ga Hd Hsrc) as [_ S1].
  assert (Hsrc' : sparse_sources Q (dst b) (src b) (last1 (fB ys)) (last1 (fB x))).
  { intros e n0 He Hn0 Ha. rewrite HN in Hn0. destruct (Nat.lt_ge_cases e (length E)) as [Hl|Hl].
    - destruct (nth_error E e) as [[n1 m1]|] eqn:EE; [|apply nth_error_None in EE; lia].
      destruct (HI e n1 m1 EE) as [D1 D2]. destruct (proj1 (HE n1 m1) (nth_error_In _ _ EE)) as [G1 [G2 G3]].
      destruct (Hsrc n1 m1 G1 G2 G3) as [j [Hj Hat]]. exists j. split; [exact Hj|]. unfold at_node in *. rewrite D2. exact Hat.
    - rewrite Hpad in Ha by assumption. discriminate. }
  destruct (pass_sparse cgf md incl ub P x basiss ws gs ys Q dst Q' src b Hcg Hmd Vx Hws Gd Gs Hs Hsrc') as [_ S2].
  destruct (S1 n Hn) as [_ F1]. destruct (S2 n ltac:(rewrite HN; exact Hn)) as [_ F2].
  rewrite F1 by assumption. rewrite F2 by congruence.
  replace Q with (length E + (Q - length E))%nat by lia. rewrite rsum_add.
  rewrite (rsum_zero (Q - length E)) by (intros e _; rewrite Hpad by (assumption || lia); reflexivity). rewrite Rplus_0_r.
  set (k := fun a : nat * nat => entry (message_at cgf md incl ub P x basisd wd gd (b ++ [fst a; snd a]) (b ++ [Z.to_nat (nth (snd a) (nth (fst a) (adj b) []) 0%Z)])) p d f).
  transitivity (sum_over E (fun a => if (fst a =? n)%nat then k a else 0)).
  - apply sum_over_nth. intros e [n1 m1] EE. destruct (HI e n1 m1 EE) as [D1 D2]. cbn [fst].
    unfold at_node at 1. rewrite D1. destruct (Nat.eqb_spec n1 n) as [->|Hne].
    + rewrite Z.eqb_refl. unfold k. cbn [fst snd].
      destruct (proj1 (HE n m1) (nth_error_In _ _ EE)) as [G1 [G2 G3]]. destruct (Hsrc n m1 G1 G2 G3) as [j [Hj Hat]].
      assert (Hat2 : at_node (src b) e j = true) by (unfold at_node in *; rewrite D2; exact Hat).
      rewrite (at_node_value _ _ _ Hat), (at_node_value _ _ _ Hat2). f_equal. apply message_same; auto.
      * repeat intro. reflexivity.
      * destruct basisd as [bd|], basiss as [bs|]; auto. destruct Hb as [? [? [? [? Hb]]]]. specialize (Hb e n m1 EE). auto.
    + destruct (Z.eqb_spec (Z.of_nat n1) (Z.of_nat n)); [lia|reflexivity].
  - rewrite (sum_over_row E n M k ND) by (intros m Hm; apply (proj1 (HE n m)); exact Hm).
    apply rsum_ext. intros m Hm. destruct (in_dec _ (n, m) E) as [i|i].
    + destruct (proj1 (HE n m) i) as [_ [_ G3]]. rewrite G3. reflexivity.
    + destruct (dense_edge gd (last1 (fB x)) b n m) eqn:G3; [|reflexivity]. destruct i. apply HE. auto.
Qed.

End Relabel.
