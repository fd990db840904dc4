(** Proofs about attention: dot products are invariant, the output is equivariant. *)
Require Import List Reals ZArith Bool Lia Lra.
Require Import ZifyNat.
Require Import Verif.Base Verif.RSum Verif.Features_Model Verif.Features_Spec Verif.Features_Proofs
  Verif.Indexed_Model Verif.Modules_Model Verif.Modules_Spec Verif.Modules_Graph_Spec Verif.Modules_Proofs
  Verif.Modules_Tensor_Proofs Verif.Modules_Fused_Proofs Verif.Modules_Equiv_Proofs Verif.Modules_Graph_Proofs
  Verif.Modules_Conv_Proofs.
Import ListNotations.
Open Scope R_scope.
Arguments Nat.modulo : simpl never.
Arguments Nat.mul : simpl never.
Notation Fshape := Modules_Equiv_Proofs.same_shape.

(** * change_max_degree_or_type *)

Lemma change_transformed : forall s D n m x x' incl y, valid n x -> (0 < m)%nat ->
  transformed s D x x' -> change_max_degree_or_type x (Some (Z.of_nat m - 1)%Z) (Some incl) = Ok y ->
  valid m y /\ fB y = fB x /\ fS y = (if incl then 2%nat else 1%nat) /\ fF y = fF x /\
  exists y', change_max_degree_or_type x' (Some (Z.of_nat m - 1)%Z) (Some incl) = Ok y' /\ transformed s D y y'.
Proof.
  intros s D n m x x' incl y V Hm T H.
  destruct (change_comp n x m (Some (Z.of_nat m - 1)%Z) (Some incl) V) as [y0 [E [Vy [B [S [F [d C]]]]]]]; auto.
  assert (y0 = y) by congruence. subst y0. cbn [opt_default] in S.
  pose proof (transformed_valid n s D x x' V T) as V'.
  destruct (change_comp n x' m (Some (Z.of_nat m - 1)%Z) (Some incl) V') as [y' [E' [Vy' [B' [S' [F' [d' C']]]]]]]; auto.
  cbn [opt_default] in S'. do 4 (split; [assumption|]).
  exists y'. split; [exact E'|].
  destruct T as [TB [TS [TD [TF [Td TC]]]]].
  split; [congruence|]. split; [congruence|]. split; [rewrite (proj2 Vy), (proj2 Vy'); reflexivity|].
  split; [congruence|]. split; [congruence|]. intros i p l k f Hp Hk.
  rewrite C' by assumption. assert (ES : fS y' = fS y) by congruence. rewrite ES.
  destruct ((l <? m)%nat && ((fS y =? 2)%nat || (p =? l mod 2)%nat))%bool eqn:EE.
  - rewrite TC by assumption. f_equal. apply rsum_ext. intros k' Hk'. rewrite C by assumption. rewrite EE. reflexivity.
  - rewrite rsum_zero; [ring|]. intros k' Hk'. rewrite C by assumption. rewrite EE. ring.
Qed.

Lemma change_empty : forall n x incl y, valid n x -> change_max_degree_or_type x (Some (-1)%Z) (Some incl) = Ok y -> valid 0 y.
Proof.
  intros n x incl y V H. unfold change_max_degree_or_type in H. rewrite (extract_valid x n V) in H. cbn [bind] in H.
  change (Z.to_nat (-1 + 1)) with 0%nat in H. cbn [seq map] in H.
  change (Z.to_nat ((-1 + 1) * (-1 + 1))) with 0%nat in H.
  destruct (negb (fS x =? 1)%nat && negb incl)%bool; [discriminate|].
  destruct (incl && negb (negb (fS x =? 1)%nat))%bool; [discriminate|].
  destruct (Z.ltb_spec (-1) (Z.of_nat n - 1)); [injection H as <-; split; [apply V|reflexivity]|].
  destruct (Z.ltb_spec (Z.of_nat n - 1) (-1)); [lia|]. injection H as <-. replace 0%nat with n by lia. exact V.
Qed.

(** * gather_dst *)

Lemma gather_dst_inv : forall x g y, gather_dst_feat x g = Ok y ->
  fS y = fS x /\ fD y = fD x /\ fF y = fF x /\ fdt y = fdt x
  /\ ((exists N M adj, g_adj g = Some (N, M, adj) /\ g_dst g = None /\ fB y = but_last (fB x) ++ [N; M]
        /\ forall i p d f, fv y i p d f = fv x (but_last i) p d f)
      \/ (exists P dst, g_adj g = None /\ g_dst g = Some (P, dst) /\ fB y = but_last (fB x) ++ [P]
        /\ forall i p d f, fv y i p d f =
           if ((last1 i <? length (dst (but_last i)))%nat && negb (last1 (fB x) =? 0)%nat)%bool
           then fv x (but_last i ++ [jax_index (last1 (fB x)) (nth (last1 i) (dst (but_last i)) 0%Z)]) p d f else 0)).
Proof.
  intros x g y H. unfold gather_dst_feat, graph_type, determine_index_type in H.
  destruct (g_adj g) as [[[N M] adj]|] eqn:EA; destruct (g_dst g) as [[P dst]|] eqn:ES; cbn in H; try discriminate;
    injection H as <-; do 4 (split; [reflexivity|]).
  - left. exists N, M, adj. do 3 (split; [reflexivity|]). reflexivity.
  - right. exists P, dst. do 3 (split; [reflexivity|]). intros i p d f. cbn [fv]. apply gather_sparse_value.
Qed.

Lemma gather_dst_ok : forall x x' g y, Fshape x x' -> gather_dst_feat x g = Ok y ->
  exists y', gather_dst_feat x' g = Ok y' /\ Fshape y y'.
Proof.
  intros x x' g y [HB [HS [HD [HF Hd]]]] H. unfold gather_dst_feat in *. rewrite HB, HS, HD, HF, Hd.
  destruct (graph_type g true false) as [[|]|]; [| |discriminate].
  - destruct (g_adj g) as [[[N M] adj]|]; [|discriminate]. injection H as <-. eexists. split; [reflexivity|]. repeat split.
  - destruct (g_dst g) as [[P src]|]; [|discriminate]. injection H as <-. eexists. split; [reflexivity|]. repeat split.
Qed.

Lemma gather_dst_transformed : forall s D0 x x' g y,
  transformed s (on_nodes D0) x x' -> gather_dst_feat x g = Ok y ->
  exists y', gather_dst_feat x' g = Ok y' /\ transformed s (on_edges g D0) y y'.
Proof.
  intros s D0 x x' g y T H. pose proof (transformed_shape _ _ _ _ T) as Sx.
  destruct (gather_dst_ok x x' g y Sx H) as [y' [H' Sy]]. exists y'. split; [exact H'|].
  destruct (gather_dst_inv x g y H) as [ES [ED [EF [Ed V]]]].
  destruct (gather_dst_inv x' g y' H') as [ES' [ED' [EF' [Ed' V']]]].
  destruct Sx as [XB _]. rewrite XB in V'. unfold on_edges.
  destruct V as [[N [M [adj [EA [EC [EB V]]]]]]|[P [src [EA [EC [EB V]]]]]];
  destruct V' as [[N' [M' [adj' [EA' [EC' [EB' V']]]]]]|[P' [src' [EA' [EC' [EB' V']]]]]]; try congruence; rewrite EA.
  - apply (linear_transformed s (on_nodes D0) _ x x' y y' (fun i => 1%nat) (fun _ _ _ => 1) (fun i _ => but_last i)); auto.
    + intros i p d f. rewrite V. cbn [rsum]. ring.
    + intros i p d f. rewrite V'. cbn [rsum]. ring.
  - assert (src' = src) by congruence. subst src'.
    apply (linear_transformed s (on_nodes D0) _ x x' y y'
      (fun i => if ((last1 i <? length (src (but_last i)))%nat && negb (last1 (fB x) =? 0)%nat)%bool then 1%nat else 0%nat)
      (fun _ _ _ => 1)
      (fun i _ => but_last i ++ [jax_index (last1 (fB x)) (nth (last1 i) (src (but_last i)) 0%Z)])); auto.
    + intros i p d f. rewrite V. destruct (_ && _)%bool; cbn [rsum]; ring.
    + intros i p d f. rewrite V'. destruct (_ && _)%bool; cbn [rsum]; ring.
    + intros i e _. unfold on_nodes. rewrite removelast_last. reflexivity.
Qed.

(** * Dot products *)

Lemma block_dot : forall l (D : list nat -> nat -> nat -> R) i s p (u v u' v' : nat -> R), s * s = 1 -> orthogonal_blocks D ->
  (forall k, (k < 2 * l + 1)%nat -> u' k = parity_sign s p * rsum (2 * l + 1) (fun a => u a * D i (l * l + a)%nat (l * l + k)%nat)) ->
  (forall k, (k < 2 * l + 1)%nat -> v' k = parity_sign s p * rsum (2 * l + 1) (fun a => v a * D i (l * l + a)%nat (l * l + k)%nat)) ->
  rsum (2 * l + 1) (fun k => u' k * v' k) = rsum (2 * l + 1) (fun k => u k * v k).
Proof.
  intros l D i s p u v u' v' Hs HO Hu Hv.
  transitivity (rsum (2 * l + 1) (fun k => rsum (2 * l + 1) (fun a => rsum (2 * l + 1) (fun b =>
     u a * v b * (D i (l * l + a)%nat (l * l + k)%nat * D i (l * l + b)%nat (l * l + k)%nat))))).
  - apply rsum_ext. intros k Hk. rewrite (Hu k Hk), (Hv k Hk).
    assert (Hp : parity_sign s p * parity_sign s p = 1) by (unfold parity_sign; destruct (p =? 1)%nat; lra).
    transitivity ((parity_sign s p * parity_sign s p) * (rsum (2 * l + 1) (fun a => u a * D i (l * l + a)%nat (l * l + k)%nat)
      * rsum (2 * l + 1) (fun a => v a * D i (l * l + a)%nat (l * l + k)%nat))); [ring|]. rewrite Hp, Rmult_1_l.
    rewrite <- rsum_scal_r. apply rsum_ext. intros a _. rewrite <- rsum_scal_l. apply rsum_ext. intros b _. ring.
  - rewrite rsum_swap. apply rsum_ext. intros a Ha. rewrite rsum_swap.
    transitivity (rsum (2 * l + 1) (fun b => (if (a =? b)%nat then 1 else 0) * (u a * v b))).
    + apply rsum_ext. intros b Hb. rewrite rsum_scal_l, (proj1 (HO i l a b Ha Hb)). ring.
    + rewrite rsum_delta by assumption. reflexivity.
Qed.

Lemma dot_invariant : forall s D n q k q' k' heads (rel rel' : option (list nat -> nat -> nat -> nat -> R)) i h,
  s * s = 1 -> orthogonal_blocks D -> valid n q -> valid n k -> fS k = fS q ->
  transformed s D q q' -> transformed s D k k' ->
  (exists r : nat -> nat -> nat -> R, forall p d c, (p < fS q)%nat -> (d < fD q)%nat ->
     match rel with Some r => r i p d c | None => 1 end = r p (Nat.sqrt d) c
     /\ match rel' with Some r => r i p d c | None => 1 end = r p (Nat.sqrt d) c) ->
  attention_dot heads q' k' rel' i h = attention_dot heads q k rel i h.
Proof.
  intros s D n q k q' k' heads rel rel' i h Hs HO Vq Vk ES Tq Tk [r Hr].
  pose proof Tq as [QB [QS [QD [QF [Qd QC]]]]]. pose proof Tk as [KB [KS [KD [KF [Kd KC]]]]].
  pose proof (transformed_valid _ _ _ _ _ Vq Tq) as Vq'. pose proof (transformed_valid _ _ _ _ _ Vk Tk) as Vk'.
  unfold attention_dot. rewrite QS, QD, QF. cbv zeta.
  set (per := (fF q / heads)%nat). set (z := sqrt (INR (fS q * fD q * per))).
  assert (E : forall (u v : feat) (rl : option (list nat -> nat -> nat -> nat -> R)), valid n u -> valid n v -> fS v = fS u ->
    (forall p d c, (p < fS u)%nat -> (d < fD u)%nat -> match rl with Some r => r i p d c | None => 1 end = r p (Nat.sqrt d) c) ->
    rsum (fS u) (fun p => rsum (fD u) (fun d => rsum per (fun f =>
      fv u i p d (f * heads + h)%nat / z * fv v i p d (f * heads + h)%nat * match rl with Some r => r i p d (f * heads + h)%nat | None => 1 end)))
    = rsum per (fun f => rsum 2 (fun p => rsum n (fun l => / z * r (channel (fS u) p) l (f * heads + h)%nat *
        rsum (2 * l + 1) (fun m => comp u i p l m (f * heads + h)%nat * comp v i p l m (f * heads + h)%nat))))).
  { clear Hr ES. intros u v rl Wq Wk ES Hr.
    transitivity (rsum per (fun f => rsum (fS u) (fun p => rsum (fD u) (fun d =>
      fv u i p d (f * heads + h)%nat * (/ z * fv v i p d (f * heads + h)%nat * r p (Nat.sqrt d) (f * heads + h)%nat))))).
    - etransitivity; [apply rsum_ext; intros p _; apply rsum_swap|]. rewrite rsum_swap. apply rsum_ext. intros f _.
      apply rsum_ext. intros p Hp. apply rsum_ext. intros d Hd. rewrite Hr by assumption. unfold Rdiv. ring.
    - apply rsum_ext. intros f _.
      rewrite (array_sum n u i (f * heads + h) (fun p d _ => / z * fv v i p d (f * heads + h)%nat * r p (Nat.sqrt d) (f * heads + h)%nat) Wq).
      apply rsum_ext. intros p Hp. apply rsum_ext. intros l Hl. rewrite <- rsum_scal_l. apply rsum_ext. intros m Hm.
      rewrite sqrt_block by assumption. rewrite !(comp_valid n) by assumption. destruct (Nat.ltb_spec l n); [|lia].
      rewrite ES. unfold channel. destruct (fS u =? 2)%nat; [ring|]. destruct (p =? l mod 2)%nat; ring. }
  pose proof (E q' k' rel' Vq' Vk' ltac:(congruence)) as E1. rewrite QS, QD in E1.
  rewrite E1 by (intros; apply Hr; assumption). clear E1.
  rewrite (E q k rel Vq Vk ES) by (intros; apply Hr; assumption).
  apply rsum_ext. intros f _. apply rsum_ext. intros p Hp. apply rsum_ext. intros l Hl. f_equal.
  apply (block_dot l D i s p (fun m => comp q i p l m (f * heads + h)%nat) (fun m => comp k i p l m (f * heads + h)%nat)
    (fun m => comp q' i p l m (f * heads + h)%nat) (fun m => comp k' i p l m (f * heads + h)%nat)); auto.
Qed.

(** * Attention weights depend on the dot products only *)

Lemma attention_weight_ext : forall lo hi g cutoff dot dot' i, (forall j, dot' j = dot j) ->
  attention_weight lo hi g cutoff dot' i = attention_weight lo hi g cutoff dot i.
Proof.
  intros lo hi g cutoff dot dot' i H. unfold attention_weight.
  assert (E1 : forall N M b, dense_edge_values N M dot' b = dense_edge_values N M dot b).
  { intros. unfold dense_edge_values. apply map_ext. intros n. apply map_ext. intros m. apply H. }
  assert (E2 : forall P b, sparse_edge_values P dot' b = sparse_edge_values P dot b).
  { intros. unfold sparse_edge_values. apply map_ext. intros n. apply H. }
  destruct (graph_type g true false) as [[|]|]; [| |reflexivity].
  - destruct (g_where g); [|reflexivity]. destruct (g_adj g) as [[[N M] adj]|]; [|reflexivity]. rewrite E1. reflexivity.
  - destruct (g_segments g); [|reflexivity]. destruct (g_dst g) as [[P dst]|]; [|reflexivity]. rewrite E2. reflexivity.
Qed.

Lemma rel_invariant : forall s D basis basis' ub K bias L qkv i p d c, keeps_scalars D -> (0 < fD basis)%nat ->
  transformed s D basis basis' ->
  rel_pos_encoding ub K bias basis' L qkv i p d c = rel_pos_encoding ub K bias basis L qkv i p d c.
Proof.
  intros s D basis basis' ub K bias L qkv i p d c HK H0 [TB [TS [TD [TF [Td TC]]]]]. unfold rel_pos_encoding. cbv zeta.
  rewrite TF. f_equal. apply rsum_ext. intros a _. f_equal.
  specialize (TC i 0%nat 0%nat 0%nat a ltac:(lia) ltac:(lia)). unfold comp in TC. rewrite TS, TD in TC.
  change (0 * 0 + 0)%nat with 0%nat in TC. change ((0 + 1) * (0 + 1))%nat with 1%nat in TC.
  destruct (Nat.leb_spec 1 (fD basis)); [|lia].
  change (0 =? 0 mod 2)%nat with true in TC. cbn [rsum] in TC. unfold parity_sign in TC. cbn [Nat.eqb] in TC.
  change (2 * 0 + 1)%nat with 1%nat in TC. cbn [rsum] in TC. change (0 * 0 + 0)%nat with 0%nat in TC. rewrite HK in TC.
  destruct (fS basis =? 2)%nat; lra.
Qed.

(** * The layer *)

Section Attention.
Variable cgf : Z -> Z -> Z -> result (nat -> nat -> nat -> R).
Variables lo hi : R.

Lemma attention_transformed : forall s D0 o P xq xq' xkv xkv' basis basis' cutoff g y, cg_checked cgf -> s * s = 1 ->
  (forall d, o_max_degree o = Some d -> (0 <= d)%Z) -> keeps_scalars D0 -> orthogonal_blocks D0 -> cg_commutes cgf D0 ->
  (forall bs, basis = Some bs -> (0 < fD bs)%nat) ->
  transformed s (on_nodes D0) xq xq' -> transformed s (on_nodes D0) xkv xkv' -> transformed_opt s (on_edges g D0) basis basis' ->
  multi_head_attention cgf lo hi o P xq xkv basis cutoff g = Ok y ->
  exists y', multi_head_attention cgf lo hi o P xq' xkv' basis' cutoff g = Ok y' /\ transformed s (on_nodes D0) y y'.
Proof.
  intros s D0 o P xq xq' xkv xkv' basis basis' cutoff g y Hcg Hs Hmd HK HO HC Hb Tq Tk Tb H.
  unfold multi_head_attention in *.
  pose proof (transformed_shape _ _ _ _ Tq) as Sq. pose proof (transformed_shape _ _ _ _ Tk) as Sk.
  rewrite (shape_of_same xq xq' Sq), (shape_of_same xkv xkv' Sk).
  pose proof Sq as [QB [QS [QD [QF Qd]]]]. pose proof Sk as [KB [KS [KD [KF Kd]]]].
  rewrite QB, QS, QF, KB, KS.
  destruct (negb (list_nat_eqb (but_last (fB xq)) (but_last (fB xkv)))); [discriminate|].
  assert (Hbb : match basis' with None => true | Some _ => false end = match basis with None => true | Some _ => false end)
    by (destruct basis, basis'; cbn in Tb; tauto).
  rewrite Hbb. destruct ((o_rel_qk o || o_rel_v o) && _)%bool; [discriminate|].
  set (qkv := match o_qkv o with None => fF xq | Some n => n end) in *.
  set (out := match o_out o with None => fF xq | Some n => n end) in *.
  destruct (o_heads o =? 0)%nat; [discriminate|]. destruct (negb (qkv mod o_heads o =? 0)%nat); [discriminate|].
  destruct (extract_max_degree_and_check_shape (shape_of xq)) as [Lq|] eqn:ELq; [|discriminate]. cbn [bind] in *.
  destruct (extract_max_degree_and_check_shape (shape_of xkv)) as [Lk|] eqn:ELk; [|discriminate]. cbn [bind] in *.
  destruct (extract_ok xq Lq ELq) as [nq [Vq Elq]]. destruct (extract_ok xkv Lk ELk) as [nk [Vk Elk]].
  set (pseudo := ((fS xq =? 2)%nat && (fS xkv =? 2)%nat)%bool) in *.
  destruct (change_max_degree_or_type xq (Some (Z.min Lq Lk)) (Some pseudo)) as [qi|] eqn:EQ; [|discriminate].
  destruct (change_max_degree_or_type xkv (Some (Z.min Lq Lk)) (Some pseudo)) as [ki|] eqn:EK; [|discriminate]. cbn [bind] in *.
  destruct (dense qkv (o_query_bias o) (a_query P) qi) as [query|] eqn:EDQ; [|discriminate].
  destruct (dense qkv (o_key_bias o) (a_key P) ki) as [key|] eqn:EDK; [|discriminate].
  destruct (dense qkv (o_value_bias o) (a_value P) xkv) as [value|] eqn:EDV; [|discriminate]. cbn [bind] in *.
  set (m := Nat.min nq nk).
  assert (Em : Z.min Lq Lk = (Z.of_nat m - 1)%Z) by (unfold m; lia).
  assert (Hm : (0 < m)%nat).
  { destruct m as [|m0]; [|lia]. exfalso. rewrite Em in EQ. change (Z.of_nat 0 - 1)%Z with (-1)%Z in EQ.
    pose proof (change_empty nq xq pseudo qi Vq EQ) as V0. rewrite (dense_empty qi qkv (o_query_bias o) (a_query P) V0) in EDQ. discriminate. }
  rewrite Em in *.
  destruct (change_transformed s (on_nodes D0) nq m xq xq' pseudo qi Vq Hm Tq EQ) as [Vqi [Bqi [Sqi [Fqi [qi' [EQ' Tqi]]]]]].
  destruct (change_transformed s (on_nodes D0) nk m xkv xkv' pseudo ki Vk Hm Tk EK) as [Vki [Bki [Ski [Fki [ki' [EK' Tki]]]]]].
  rewrite EQ', EK'. cbn [bind].
  destruct (dense_transformed s (on_nodes D0) qkv (o_query_bias o) (a_query P) qi qi' query (on_nodes_keeps D0 HK) Tqi EDQ) as [query' [EDQ' Tquery]].
  destruct (dense_transformed s (on_nodes D0) qkv (o_key_bias o) (a_key P) ki ki' key (on_nodes_keeps D0 HK) Tki EDK) as [key' [EDK' Tkey]].
  destruct (dense_transformed s (on_nodes D0) qkv (o_value_bias o) (a_value P) xkv xkv' value (on_nodes_keeps D0 HK) Tk EDV) as [value' [EDV' Tvalue]].
  rewrite EDQ', EDK', EDV'. cbn [bind].
  destruct (gather_dst_feat query g) as [gq|] eqn:EGQ; [|discriminate].
  destruct (gather_src_feat key g) as [gk|] eqn:EGK; [|discriminate]. cbn [bind] in *.
  destruct (gather_dst_transformed s D0 query query' g gq Tquery EGQ) as [gq' [EGQ' Tgq]].
  destruct (gather_src_transformed s D0 key key' g gk Tkey EGK) as [gk' [EGK' Tgk0]].
  assert (Tgk : transformed s (on_edges g D0) gk gk') by (eapply transformed_ext; [|exact Tgk0]; intros i; symmetry; apply on_edges_kind).
  rewrite EGQ', EGK'. cbn [bind].
  destruct (gather_src_feat value g) as [gv|] eqn:EGV; [|discriminate]. cbn [bind] in *.
  destruct (gather_src_transformed s D0 value value' g gv Tvalue EGV) as [gv' [EGV' Tgv0]].
  assert (Tgv : transformed s (on_edges g D0) gv gv') by (eapply transformed_ext; [|exact Tgv0]; intros i; symmetry; apply on_edges_kind).
  rewrite EGV'. cbn [bind].
  set (rel := match basis with Some bs => if o_rel_qk o then Some (rel_pos_encoding (o_basis_bias o) (a_rel_kernel P) (a_rel_bias P) bs (Z.of_nat m - 1) qkv) else None | None => None end) in *.
  set (rel' := match basis' with Some bs => if o_rel_qk o then Some (rel_pos_encoding (o_basis_bias o) (a_rel_kernel P) (a_rel_bias P) bs (Z.of_nat m - 1) qkv) else None | None => None end) in *.
  destruct (dense_batch _ _ _ _ _ EDQ) as [_ [_ [_ [DSq DDq]]]]. destruct (dense_batch _ _ _ _ _ EDK) as [_ [_ [_ [DSk DDk]]]].
  destruct (gather_dst_inv query g gq EGQ) as [GSq [GDq _]]. destruct (gather_src_inv key g gk EGK) as [GSk [GDk _]].
  assert (Vgq : valid m gq) by (split; [rewrite GSq, DSq, Sqi; destruct pseudo; auto|rewrite GDq, DDq; apply Vqi]).
  assert (Vgk : valid m gk) by (split; [rewrite GSk, DSk, Ski; destruct pseudo; auto|rewrite GDk, DDk; apply Vki]).
  assert (Edot : forall h i, attention_dot (o_heads o) gq' gk' rel' i h = attention_dot (o_heads o) gq gk rel i h).
  { intros h i. apply (dot_invariant s (on_edges g D0) m gq gk gq' gk'); auto.
    - apply on_edges_orthogonal; assumption.
    - rewrite GSk, GSq, DSk, DSq, Ski, Sqi. reflexivity.
    - unfold rel, rel'. destruct basis as [bs|], basis' as [bs'|]; cbn [transformed_opt] in Tb; try contradiction.
      + destruct (o_rel_qk o).
        * exists (fun p l c => rsum (fF bs) (fun a => fv bs i 0%nat 0%nat a * a_rel_kernel P a ((p * Z.to_nat (Z.of_nat m - 1 + 1) + l) * qkv + c)%nat)
             + (if o_basis_bias o then a_rel_bias P ((p * Z.to_nat (Z.of_nat m - 1 + 1) + l) * qkv + c)%nat else 0)).
          intros p d c Hp Hd.
          rewrite (rel_invariant s (on_edges g D0) bs bs') by (auto; try (apply on_edges_keeps; assumption); apply Hb; reflexivity).
          unfold rel_pos_encoding. cbv zeta. rewrite (proj2 Vgq) in Hd. rewrite dup_sqrt by assumption. auto.
        * exists (fun _ _ _ => 1). auto.
      + exists (fun _ _ _ => 1). auto. }
  set (g' := with_defaults g (last1 (fB xq)) (last1 (fB xkv))) in *.
  rewrite (attention_weight_ext lo hi g' cutoff (fun i => attention_dot (o_heads o) gq gk rel i 0)) by (intros; apply Edot).
  destruct (attention_weight lo hi g' cutoff (fun i => attention_dot (o_heads o) gq gk rel i 0) []) as [a0|]; [|discriminate].
  cbn [bind] in *.
  match type of H with bind (conv _ _ _ _ _ ?w _ _) _ = _ => set (wt := w) in * end.
  match goal with |- exists _, bind (conv _ _ _ _ _ ?w _ _) _ = _ /\ _ => set (wt' := w) in * end.
  assert (Twt : transformed s (on_edges g' D0) wt wt').
  { pose proof (transformed_shape _ _ _ _ Tgv) as Sgv.
    apply (linear_transformed s (on_edges g D0) (on_edges g' D0) gv gv' wt wt' (fun _ => 1%nat)
      (fun i _ f => get_ok (attention_weight lo hi g' cutoff (fun j => attention_dot (o_heads o) gq gk rel j (f / (qkv / o_heads o))) i))
      (fun i _ => i)); auto.
    - intros i p d f. cbn [rsum wt fv]. unfold wt. cbn [fv]. ring.
    - intros i p d f. cbn [rsum]. unfold wt'. cbn [fv].
      rewrite (attention_weight_ext lo hi g' cutoff (fun j => attention_dot (o_heads o) gq gk rel j (f / (qkv / o_heads o)))) by (intros; apply Edot). ring. }
  assert (Tbv : transformed_opt s (on_edges g' D0) (if o_rel_v o then basis else None) (if o_rel_v o then basis' else None)).
  { destruct (o_rel_v o); [exact Tb|exact I]. }
  destruct (conv cgf (o_max_degree o) (o_include o) (o_basis_bias o) (a_conv P) wt (if o_rel_v o then basis else None) g') as [att|] eqn:EC; [|discriminate].
  cbn [bind] in H.
  destruct (conv_transformed cgf s D0 (o_max_degree o) (o_include o) (o_basis_bias o) (a_conv P) wt wt' _ _ g' att Hcg Hs Hmd HK HO HC Twt Tbv EC) as [att' [EC' Tatt]].
  rewrite EC'. cbn [bind].
  apply (dense_transformed s (on_nodes D0) out (o_out_bias o) (a_out P) att att' y (on_nodes_keeps D0 HK) Tatt H).
Qed.

End Attention.
