(** Proofs about message passing: every receiver gets the sum of the messages of its edges. *)
Require Import List Reals ZArith Bool Lia Lra.
Require Import ZifyNat.
Require Import Verif.Base Verif.RSum Verif.Features_Model Verif.Features_Spec Verif.Features_Proofs
  Verif.Indexed_Model Verif.Modules_Model Verif.Modules_Spec Verif.Modules_Graph_Spec Verif.Modules_Proofs
  Verif.Modules_Tensor_Proofs Verif.Modules_Fused_Proofs Verif.Modules_Equiv_Proofs Verif.Modules_Graph_Proofs
  Verif.Modules_Conv_Proofs.
Import ListNotations.
Open Scope R_scope.
Arguments Nat.modulo : simpl never.
Arguments Nat.mul : simpl never.
Notation Fshape := Modules_Equiv_Proofs.same_shape.

(** m is the part of y at index i. *)
Definition part (y : feat) (i : list nat) (m : feat) : Prop :=
  fB m = [] /\ fS m = fS y /\ fD m = fD y /\ fF m = fF y /\ fdt m = fdt y
  /\ forall j p d f, fv m j p d f = fv y i p d f.

Lemma item_part : forall x i, part x i (item x i).
Proof. intros. repeat split. Qed.

Lemma extract_item : forall x i m L, part x i m -> extract_max_degree_and_check_shape (shape_of x) = Ok L ->
  extract_max_degree_and_check_shape (shape_of m) = Ok L.
Proof.
  intros x i m L [_ [HS [HD _]]] H. destruct (extract_ok x L H) as [n [V E]].
  assert (Vi : valid n m) by (destruct V; split; congruence).
  rewrite (extract_valid _ n Vi), E. reflexivity.
Qed.

Lemma dense_cat : forall x i m F K b p ls j s d f, part x i m ->
  cat_value (map (fun l => apply_dense F (K l) (b l) (degree_slice m (p l) l)) ls) j s d f
  = cat_value (map (fun l => apply_dense F (K l) (b l) (degree_slice x (p l) l)) ls) i s d f.
Proof.
  intros x i m F K b p ls j s d f H. revert d. pose proof H as [_ [_ [HD [_ [_ HV]]]]].
  induction ls as [|l ls IH]; intros d; [reflexivity|]. cbn [map cat_value].
  unfold apply_dense at 1 3. unfold degree_slice at 1 2 4 5. cbn [fst snd]. rewrite HD. destruct (_ <? _)%nat.
  - f_equal. apply rsum_ext. intros a _. rewrite HV. reflexivity.
  - apply IH.
Qed.

Lemma dense_cat_size : forall x i m F K b p ls, part x i m ->
  cat_size (map (fun l => apply_dense F (K l) (b l) (degree_slice m (p l) l)) ls)
  = cat_size (map (fun l => apply_dense F (K l) (b l) (degree_slice x (p l) l)) ls).
Proof.
  intros x i m F K b p ls H. pose proof H as [_ [_ [HD _]]].
  induction ls as [|l ls IH]; [reflexivity|]. unfold cat_size in *. cbn [map fold_right]. rewrite IH. f_equal.
  unfold apply_dense, degree_slice. cbn [fst]. rewrite HD. reflexivity.
Qed.

Lemma concatenate_map : forall (A : Type) x S (g : A -> piece) l ls, concatenate x S (map g (l :: ls)) =
  Ok (mkFeat (fB x) S (cat_size (map g (l :: ls))) (fF x) (fdt x) (cat_value (map g (l :: ls)))).
Proof. reflexivity. Qed.

Lemma dense_part : forall F ub P x i m y, part x i m -> dense F ub P x = Ok y ->
  exists yi, dense F ub P m = Ok yi /\ part y i yi.
Proof.
  intros F ub P x i m y Hp H. unfold dense in *.
  destruct (extract_max_degree_and_check_shape (shape_of x)) as [L|] eqn:E; [|discriminate].
  rewrite (extract_item x i m L Hp E). cbn [bind] in *. pose proof Hp as [HB [HS [HD [HF [Hd HV]]]]].
  rewrite HS, HF, HB, Hd. destruct (seq 0 (Z.to_nat (L + 1))) as [|l ls].
  { cbn [map concatenate bind] in H. destruct (fS x =? 2)%nat; [discriminate|]. destruct (fS x =? 1)%nat; discriminate. }
  rewrite !concatenate_map in *. cbn [bind fD fv] in *.
  destruct (fS x =? 2)%nat; [|destruct (fS x =? 1)%nat; [|discriminate]].
  - injection H as <-. eexists. split; [reflexivity|]. unfold part. cbn [fB fS fD fF fdt fv].
    do 2 (split; [reflexivity|]). split; [exact (dense_cat_size x i m _ (fun l => dk P l 0%nat) (fun l => dense_for_degree ub l (db P)) (fun _ => 0%nat) (l :: ls) Hp)|].
    do 2 (split; [reflexivity|]). intros j p d f. destruct (p =? 0)%nat.
    + exact (dense_cat x i m _ (fun l => dk P l 0%nat) (fun l => dense_for_degree ub l (db P)) (fun _ => 0%nat) (l :: ls) j 0%nat d f Hp).
    + exact (dense_cat x i m _ (fun l => dk P l 1%nat) (fun l => dense_for_degree false l (db P)) (fun _ => 1%nat) (l :: ls) j 0%nat d f Hp).
  - injection H as <-. eexists. split; [reflexivity|]. unfold part. cbn [fB fS fD fF fdt fv with_features].
    split; [exact HB|]. split; [reflexivity|]. split; [exact (dense_cat_size x i m _ (fun l => dk P l (l mod 2)%nat) (fun l => dense_for_degree ub l (db P)) (fun _ => 0%nat) (l :: ls) Hp)|].
    split; [reflexivity|]. split; [exact Hd|]. intros j p d f.
    exact (dense_cat x i m _ (fun l => dk P l (l mod 2)%nat) (fun l => dense_for_degree ub l (db P)) (fun _ => 0%nat) (l :: ls) j p d f Hp).
Qed.

Lemma bidx_same : forall B i, bidx B B i = i.
Proof. intros. unfold bidx. rewrite list_nat_eqb_refl. reflexivity. Qed.

Section Message.
Variable cgf : Z -> Z -> Z -> result (nat -> nat -> nat -> R).

Lemma tensor_part : forall md incl K x1 x2 z i m1 m2, fB x1 = fB x2 -> part x1 i m1 -> part x2 i m2 ->
  tensor cgf md incl K x1 x2 = Ok z -> exists m, tensor cgf md incl K m1 m2 = Ok m /\ part z i m.
Proof.
  intros md incl K x1 x2 z i m1 m2 HB P1 P2 H. unfold tensor in *.
  destruct (extract_max_degree_and_check_shape (shape_of x1)) as [L1|] eqn:E1; [|discriminate].
  destruct (extract_max_degree_and_check_shape (shape_of x2)) as [L2|] eqn:E2; [|discriminate].
  rewrite (extract_item _ _ _ _ P1 E1), (extract_item _ _ _ _ P2 E2). cbn [bind] in *.
  destruct P1 as [B1 [S1 [D1 [F1 [d1 V1]]]]]. destruct P2 as [B2 [S2 [D2 [F2 [d2 V2]]]]].
  rewrite S1, D1, F1, d1, S2, D2, F2, B1, B2.
  destruct (_ <? _)%Z; [discriminate|]. destruct (negb (fF x1 =? fF x2)%nat); [discriminate|].
  destruct (cgf _ _ _) as [C|]; [|discriminate]. cbn [bind] in *.
  rewrite HB, broadcast_same in H. change (broadcast_shapes [] []) with (@Ok (list nat) []). cbn [bind] in *.
  destruct (negb _).
  - injection H as <-. eexists. split; [reflexivity|]. repeat (split; [reflexivity|]). intros j p d f. cbn [fv].
    rewrite !bidx_same. apply rsum_ext. intros ? _. apply rsum_ext. intros ? _. apply rsum_ext. intros ? _. apply rsum_ext. intros ? _.
    rewrite V1, V2. reflexivity.
  - injection H as <-. eexists. split; [reflexivity|]. repeat (split; [reflexivity|]). intros j p d f. cbn [fv].
    rewrite !bidx_same. destruct (p =? 0)%nat; (f_equal; apply rsum_ext; intros ? _; apply rsum_ext; intros ? _; rewrite V1, V2; reflexivity).
Qed.

Lemma fused_part : forall md incl K x1 x2 z i m1 m2, fB x1 = fB x2 -> part x1 i m1 -> part x2 i m2 ->
  fused_tensor cgf md incl K x1 x2 = Ok z -> exists m, fused_tensor cgf md incl K m1 m2 = Ok m /\ part z i m.
Proof.
  intros md incl K x1 x2 z i m1 m2 HB P1 P2 H. unfold fused_tensor in *.
  destruct (extract_max_degree_and_check_shape (shape_of x1)) as [L1|] eqn:E1; [|discriminate].
  destruct (extract_max_degree_and_check_shape (shape_of x2)) as [L2|] eqn:E2; [|discriminate].
  rewrite (extract_item _ _ _ _ P1 E1), (extract_item _ _ _ _ P2 E2). cbn [bind] in *.
  destruct P1 as [B1 [S1 [D1 [F1 [d1 V1]]]]]. destruct P2 as [B2 [S2 [D2 [F2 [d2 V2]]]]].
  rewrite S1, F1, d1, S2, F2, B1, B2.
  destruct (_ <? _)%Z; [discriminate|]. destruct (negb (fF x1 =? fF x2)%nat); [discriminate|].
  destruct (cgf _ _ _) as [C|]; [|discriminate]. cbn [bind] in *.
  rewrite HB, broadcast_same in H. change (broadcast_shapes [] []) with (@Ok (list nat) []). cbn [bind] in *.
  destruct (output_pseudotensors _ _ _ _ _ _); injection H as <-; (eexists; split; [reflexivity|]); repeat (split; [reflexivity|]); intros j p d f; cbn [fv];
    rewrite !bidx_same.
  - destruct (p =? 0)%nat; (f_equal; apply rsum_ext; intros ? _; apply rsum_ext; intros ? _; f_equal; f_equal; apply rsum_ext; intros ? _;
      f_equal; apply rsum_ext; intros ? _; rewrite ?V1, ?V2; reflexivity).
  - f_equal; (f_equal; f_equal; apply rsum_ext; intros ? _; apply rsum_ext; intros ? _; f_equal; f_equal; apply rsum_ext; intros ? _;
      f_equal; apply rsum_ext; intros ? _; rewrite ?V1, ?V2; reflexivity).
Qed.

Lemma any_tensor_part : forall md incl P x1 x2 z i m1 m2, fB x1 = fB x2 -> part x1 i m1 -> part x2 i m2 ->
  any_tensor cgf md incl P x1 x2 = Ok z -> exists m, any_tensor cgf md incl P m1 m2 = Ok m /\ part z i m.
Proof. intros md incl [K|K] x1 x2 z i m1 m2; [apply tensor_part|apply fused_part]. Qed.

Lemma conv_parts : forall md incl ub P x basis g y, conv cgf md incl ub P x basis g = Ok y ->
  exists z, indexed_sum_feat z g = Ok y /\ (forall i m, part x i m ->
    exists r, edge_message cgf md incl ub P m (option_map (fun bs => item bs i) basis) = Ok r /\ part z i r).
Proof.
  intros md incl ub P x basis g y H. unfold conv in H. destruct basis as [bs|]; cbn [option_map edge_message].
  - destruct (list_nat_eqb (fB x) (fB bs)) eqn:EB; [|discriminate]. apply list_nat_eqb_spec in EB. cbn [negb] in H.
    destruct (dense (fF x) ub (c_filter P) bs) as [fl|] eqn:ED; [|discriminate]. cbn [bind] in H.
    destruct (any_tensor cgf md incl (c_tensor P) fl x) as [z|] eqn:EZ; [|discriminate]. cbn [bind] in H.
    exists z. split; [exact H|]. intros i m Hm. destruct (dense_batch _ _ _ _ _ ED) as [FB _].
    destruct (dense_part _ _ _ _ i (item bs i) _ (item_part bs i) ED) as [fi [EF Pf]].
    pose proof Hm as [_ [_ [_ [HF _]]]]. rewrite HF, EF. cbn [bind].
    apply (any_tensor_part md incl (c_tensor P) fl x z i fi m); auto. congruence.
  - cbn [bind] in H. exists x. split; [exact H|]. intros i m Hm. eauto.
Qed.

(** * Entries outside an array do not matter *)

Lemma same_transformed : forall n x x', valid n x -> same_feature x x' -> transformed 1 identity_matrices x x'.
Proof.
  intros n x x' V [B [S [D [F [d E]]]]]. repeat (split; [congruence|]). intros i p l k f Hp Hk.
  unfold identity_matrices. rewrite (rsum_identity (2 * l + 1) (fun k' => comp x i p l k' f) (l * l) k) by assumption.
  transitivity (comp x i p l k f); [|unfold parity_sign; destruct (p =? 1)%nat; ring].
  unfold comp. rewrite <- S, <- D. destruct (Nat.leb_spec ((l + 1) * (l + 1)) (fD x)); [|reflexivity].
  destruct (Nat.eqb_spec (fS x) 2); [symmetry; apply E; [lia|nia]|]. destruct (p =? l mod 2)%nat; [|reflexivity].
  symmetry. apply E; [destruct V as [[?|?] _]; lia|nia].
Qed.

Lemma transformed_same : forall n x x', valid n x -> transformed 1 identity_matrices x x' -> same_feature x x'.
Proof.
  intros n x x' V T. apply (transformed_unique n 1 identity_matrices x x x' V); [|exact T].
  apply (same_transformed n); [exact V|]. repeat split.
Qed.

Lemma edge_message_same : forall md incl ub P xs xs' bs r, cg_checked cgf -> (forall d, md = Some d -> (0 <= d)%Z) ->
  well_formed xs -> same_feature xs xs' -> edge_message cgf md incl ub P xs bs = Ok r ->
  exists r', edge_message cgf md incl ub P xs' bs = Ok r' /\ same_feature r r'.
Proof.
  intros md incl ub P xs xs' bs r Hcg Hmd [n V] Hs H. unfold edge_message in *. destruct bs as [bs|].
  - pose proof Hs as [B [_ [_ [F _]]]]. rewrite <- F. destruct (dense (fF xs) ub (c_filter P) bs) as [fl|] eqn:ED; [|discriminate].
    cbn [bind] in *.
    assert (exists nf, valid nf fl) as [nf Vf].
    { destruct (dense_ok_inv _ _ _ _ _ ED) as [k [Vk Hk]]. destruct (dense_comp k bs (fF xs) ub (c_filter P) Vk Hk) as [y [Ey [Vy _]]].
      exists k. congruence. }
    destruct (any_tensor_transformed cgf 1 identity_matrices identity_matrices identity_matrices md incl (c_tensor P) fl xs fl xs' r Hcg) as [r' [E' T]]; auto.
    + ring.
    + apply identity_orthogonal.
    + apply identity_cg_commutes.
    + intros Bx EBx i. split; reflexivity.
    + apply (same_transformed nf fl fl Vf). repeat split.
    + apply (same_transformed n xs xs' V Hs).
    + exists r'. split; [exact E'|].
      assert (exists nr, valid nr r) as [nr Vr].
      { destruct (c_tensor P) as [K|K]; cbn [any_tensor] in H.
        - destruct (tensor_couplings cgf nf n fl xs md incl K r Hcg Vf V H) as [n3 [C [B0 [_ [_ [_ [_ [_ [_ [_ [_ [Vz _]]]]]]]]]]]]. eauto.
        - destruct (fused_couplings cgf nf n fl xs md incl K r Hcg Hmd Vf V H) as [n3 [n' [M [C [B0 [_ [_ [_ [_ [_ [_ [_ [_ [Vz _]]]]]]]]]]]]]]. eauto. }
      apply (transformed_same nr); assumption.
  - injection H as <-. eauto.
Qed.

(** * Message passing *)

Lemma jax_index_in : forall n j, (0 <= j < Z.of_nat n)%Z -> jax_index n j = Z.to_nat j.
Proof. intros n j H. unfold jax_index. destruct (Z.ltb_spec j 0); [lia|]. f_equal. lia. Qed.

Lemma pass_parts : forall md incl ub P x basis w g y, cg_checked cgf -> (forall d, md = Some d -> (0 <= d)%Z) ->
  well_formed x -> (forall w0, w = Some w0 -> scalar_weights g x w0) ->
  message_pass cgf md incl ub P x basis w g = Ok y ->
  exists z0 z, gather_src_feat x g = Ok z0 /\ indexed_sum_feat z (with_defaults g (last1 (fB x)) (last1 (fB x))) = Ok y
    /\ forall i j, (forall p d f, fv z0 i p d f = fv x j p d f) ->
       exists r, message_at cgf md incl ub P x basis w g i j = Ok r
         /\ fS r = fS z /\ fD r = fD z /\ fF r = fF z /\ forall p d f, (p < fS z)%nat -> (d < fD z)%nat -> fv r [] p d f = fv z i p d f.
Proof.
  intros md incl ub P x basis w g y Hcg Hmd Vx Hw H. unfold message_pass in H.
  destruct (gather_src_feat x g) as [z0|] eqn:EG; [|discriminate]. cbn [bind] in H. exists z0.
  destruct (gather_src_inv x g z0 EG) as [ES [ED [EF [Ed V]]]].
  assert (EB : fB z0 = removelast (fB x) ++ edge_axes g).
  { unfold edge_axes. destruct V as [[N [M [adj [EA [_ [EB _]]]]]]|[Q [src [EA [EC [EB _]]]]]]; rewrite EB, EA; [reflexivity|]. rewrite EC. reflexivity. }
  clear V. destruct Vx as [n Vx].
  assert (Hu : exists u, (match w with None => Ok z0 | Some w => multiply_weights z0 w end) = Ok u).
  { destruct w; [|eauto]. destruct (multiply_weights z0 f); [eauto|discriminate]. }
  destruct Hu as [u Eu]. rewrite Eu in H. cbn [bind] in H.
  assert (Fu : fS u = fS x /\ fD u = fD x /\ fF u = fF x /\ fdt u = fdt x /\ forall i p d f, (p < fS x)%nat -> (d < fD x)%nat ->
     fv u i p d f = edge_weight w (fB z0) (fF x) i f * fv z0 i p d f).
  { destruct w as [w|].
    - destruct (Hw w eq_refl) as [WS [WD [WF WB]]].
      destruct (multiply_value z0 w u WS WD) as [[B1 [S1 [D1 [F1 d1]]]] Hv]; auto; [rewrite EF; exact WF|rewrite EB; exact WB|].
      do 4 (split; [congruence|]). intros i p d f Hp Hd. rewrite Hv. cbn [edge_weight]. f_equal. rewrite ES, ED, EF.
      f_equal; unfold bix.
      + destruct (Nat.eqb_spec 1 (fS x)); [lia|reflexivity].
      + destruct (Nat.eqb_spec 1 (fD x)); [lia|reflexivity].
    - injection Eu as <-. do 4 (split; [assumption|]). intros. cbn [edge_weight]. ring. }
  destruct Fu as [US [UD [UF [Ud UV]]]].
  destruct (conv_parts md incl ub P u basis _ y H) as [z [EI HP]]. exists z. split; [reflexivity|]. split; [exact EI|].
  intros i j Hij. destruct (HP i (item u i) (item_part u i)) as [r [Er [RB [RS [RD [RF [Rd RV]]]]]]].
  unfold message_at.
  destruct (edge_message_same md incl ub P (item u i)
    (weighted (edge_weight w (removelast (fB x) ++ edge_axes g) (fF x) i) (item x j)) (option_map (fun bs => item bs i) basis) r Hcg Hmd) as [r' [Er' Sr]]; auto.
  - exists n. destruct Vx. split; cbn; congruence.
  - repeat (split; [cbn; congruence|]). intros i0 p d f Hp Hd. cbn in Hp, Hd. cbn [item weighted fv]. rewrite UV by congruence.
    rewrite EB, Hij. reflexivity.
  - exists r'. destruct Sr as [_ [SS [SD [SF [_ SV]]]]]. split; [exact Er'|]. do 3 (split; [congruence|]).
    intros p d f Hp Hd. rewrite <- SV by congruence. apply RV.
Qed.

Lemma pass_sparse : forall md incl ub P x basis w g y Q dst Q' src b, cg_checked cgf -> (forall d, md = Some d -> (0 <= d)%Z) ->
  well_formed x -> (forall w0, w = Some w0 -> scalar_weights g x w0) ->
  g_dst g = Some (Q, dst) -> g_src g = Some (Q', src) ->
  message_pass cgf md incl ub P x basis w g = Ok y ->
  (forall e n, (e < Q)%nat -> (n < last1 (fB y))%nat -> at_node (dst b) e n = true -> exists j, (j < last1 (fB x))%nat /\ at_node (src b) e j = true) ->
  last1 (fB y) = opt_default (g_segments g) (last1 (fB x)) /\
  forall n, (n < last1 (fB y))%nat ->
    (forall e, (e < Q)%nat -> at_node (dst b) e n = true -> exists r,
       message_at cgf md incl ub P x basis w g (b ++ [e]) (b ++ [Z.to_nat (nth e (src b) 0%Z)]) = Ok r /\ fS r = fS y /\ fD r = fD y /\ fF r = fF y)
    /\ forall p d f, (p < fS y)%nat -> (d < fD y)%nat ->
       fv y (b ++ [n]) p d f = rsum Q (fun e => if at_node (dst b) e n
         then entry (message_at cgf md incl ub P x basis w g (b ++ [e]) (b ++ [Z.to_nat (nth e (src b) 0%Z)])) p d f else 0).
Proof.
  intros md incl ub P x basis w g y Q dst Q' src b Hcg Hmd Vx Hw Gd Gs H Hsrc.
  destruct (pass_parts md incl ub P x basis w g y Hcg Hmd Vx Hw H) as [z0 [z [EG [EI HM]]]].
  destruct (gather_src_inv x g z0 EG) as [_ [_ [_ [_ [[N [M [adj [_ [GS _]]]]]|[Q1 [src1 [GA [GS [_ Hg]]]]]]]]]]; [congruence|].
  assert (src1 = src) by congruence. subst src1.
  destruct (indexed_sum_inv z _ y EI) as [ES [ED [EF [_ [[N [M [adj [w1 [GA' _]]]]]|[Q2 [dst2 [n0 [_ [GD [GN [ZB [YB Hv]]]]]]]]]]]]];
    [cbn [with_defaults g_adj] in GA'; congruence|].
  cbn [with_defaults g_dst g_segments] in GD, GN.
  assert (Q2 = Q) by congruence. assert (dst2 = dst) by congruence. subst Q2 dst2.
  assert (Ln : last1 (fB y) = n0) by (rewrite YB; apply last1_snoc).
  split; [rewrite Ln; destruct (g_segments g); cbn in *; congruence|].
  intros n Hn.
  assert (HE : forall e, (e < Q)%nat -> at_node (dst b) e n = true -> exists r,
     message_at cgf md incl ub P x basis w g (b ++ [e]) (b ++ [Z.to_nat (nth e (src b) 0%Z)]) = Ok r
       /\ fS r = fS z /\ fD r = fD z /\ fF r = fF z /\ forall p d f, (p < fS z)%nat -> (d < fD z)%nat -> fv r [] p d f = fv z (b ++ [e]) p d f).
  { intros e He Ha. destruct (Hsrc e n He Hn Ha) as [j [Hj Hat]]. unfold at_node in Hat.
    destruct (nth_error (src b) e) as [v|] eqn:Ev; [|discriminate]. apply Z.eqb_eq in Hat.
    assert (Hlen : (e < length (src b))%nat) by (apply nth_error_Some; congruence).
    rewrite (nth_error_nth _ _ 0%Z Ev). apply HM. intros p d f. rewrite Hg, last1_snoc, but_last_snoc.
    destruct (Nat.ltb_spec e (length (src b))); [|lia]. destruct (Nat.eqb_spec (last1 (fB x)) 0); [lia|]. cbn [andb negb].
    rewrite (nth_error_nth _ _ 0%Z Ev). rewrite jax_index_in by lia. reflexivity. }
  split.
  - intros e He Ha. destruct (HE e He Ha) as [r [R1 [R2 [R3 [R4 _]]]]]. exists r. split; [exact R1|]. split; [congruence|]. split; congruence.
  - intros p d f Hp Hd. rewrite Hv, last1_snoc, but_last_snoc. rewrite Ln in Hn. destruct (Nat.ltb_spec n n0); [|lia].
    apply rsum_ext. intros e He.
    assert (EA : ((e <? length (dst b))%nat && (nth e (dst b) 0 =? Z.of_nat n)%Z)%bool = at_node (dst b) e n).
    { unfold at_node. destruct (nth_error (dst b) e) as [v|] eqn:Ev.
      - rewrite (nth_error_nth _ _ 0%Z Ev). destruct (Nat.ltb_spec e (length (dst b))); [reflexivity|]. apply nth_error_None in H1. congruence.
      - apply nth_error_None in Ev. destruct (Nat.ltb_spec e (length (dst b))); [lia|reflexivity]. }
    rewrite EA. destruct (at_node (dst b) e n) eqn:Ha; [|reflexivity].
    destruct (HE e He Ha) as [r [R1 [R2 [R3 [R4 R5]]]]]. rewrite R1. cbn [entry]. symmetry. apply R5; congruence.
Qed.

(** Which entries of a dense neighbour list are edges. *)
Lemma pass_dense : forall md incl ub P x basis w g y N M adj b, cg_checked cgf -> (forall d, md = Some d -> (0 <= d)%Z) ->
  well_formed x -> (forall w0, w = Some w0 -> scalar_weights g x w0) ->
  g_adj g = Some (N, M, adj) ->
  message_pass cgf md incl ub P x basis w g = Ok y ->
  (forall n m, (n < N)%nat -> (m < M)%nat -> dense_edge g (last1 (fB x)) b n m = true -> exists j, (j < last1 (fB x))%nat /\ at_node (nth n (adj b) []) m j = true) ->
  last1 (fB y) = N /\
  forall n, (n < N)%nat ->
    (forall m, (m < M)%nat -> dense_edge g (last1 (fB x)) b n m = true -> exists r,
       message_at cgf md incl ub P x basis w g (b ++ [n; m]) (b ++ [Z.to_nat (nth m (nth n (adj b) []) 0%Z)]) = Ok r /\ fS r = fS y /\ fD r = fD y /\ fF r = fF y)
    /\ forall p d f, (p < fS y)%nat -> (d < fD y)%nat ->
       fv y (b ++ [n]) p d f = rsum M (fun m => if dense_edge g (last1 (fB x)) b n m
         then entry (message_at cgf md incl ub P x basis w g (b ++ [n; m]) (b ++ [Z.to_nat (nth m (nth n (adj b) []) 0%Z)])) p d f else 0).
Proof.
  intros md incl ub P x basis w g y N M adj b Hcg Hmd Vx Hw Ga H Hsrc.
  destruct (pass_parts md incl ub P x basis w g y Hcg Hmd Vx Hw H) as [z0 [z [EG [EI HM]]]].
  destruct (gather_src_inv x g z0 EG) as [_ [_ [_ [_ [[N1 [M1 [adj1 [GA [GS [_ Hg]]]]]]|[Q1 [src1 [GA _]]]]]]]]; [|congruence].
  assert (adj1 = adj) by congruence. subst adj1.
  destruct (indexed_sum_inv z _ y EI) as [ES [ED [EF [_ [[N2 [M2 [adj2 [w1 [GA' [_ [GW [ZB [YB Hv]]]]]]]]]|[Q2 [dst2 [n0 [GA' _]]]]]]]]];
    cbn [with_defaults g_adj] in GA'; [|congruence].
  assert (N2 = N) by congruence. assert (M2 = M) by congruence. subst N2 M2.
  assert (Ln : last1 (fB y) = N) by (rewrite YB, ZB, but_last_snoc2; apply last1_snoc).
  split; [exact Ln|]. intros n Hn.
  assert (EW : forall m, nth m (nth n (w1 b) []) false = dense_edge g (last1 (fB x)) b n m).
  { intros m. cbn [with_defaults g_where] in GW. unfold dense_edge. rewrite Ga in *. destruct (g_where g) as [wh|]; [injection GW as <-; reflexivity|].
    injection GW as <-. cbn [snd].
    pose proof (map_nth (map (fun j => (j <? Z.of_nat (last1 (fB x)))%Z)) (adj b) [] n) as E. cbn [map] in E. rewrite E. clear E.
    generalize (nth n (adj b) []). intros l. revert m. induction l as [|v l IH]; intros [|m]; cbn; try reflexivity. apply IH. }
  assert (HE : forall m, (m < M)%nat -> dense_edge g (last1 (fB x)) b n m = true -> exists r,
     message_at cgf md incl ub P x basis w g (b ++ [n; m]) (b ++ [Z.to_nat (nth m (nth n (adj b) []) 0%Z)]) = Ok r
       /\ fS r = fS z /\ fD r = fD z /\ fF r = fF z /\ forall p d f, (p < fS z)%nat -> (d < fD z)%nat -> fv r [] p d f = fv z (b ++ [n; m]) p d f).
  { intros m Hm Ha. destruct (Hsrc n m Hn Hm Ha) as [j [Hj Hat]]. unfold at_node in Hat.
    destruct (nth_error (nth n (adj b) []) m) as [v|] eqn:Ev; [|discriminate]. apply Z.eqb_eq in Hat.
    assert (Hlen : (m < length (nth n (adj b) []))%nat) by (apply nth_error_Some; congruence).
    rewrite (nth_error_nth _ _ 0%Z Ev). apply HM. intros p d f. rewrite Hg, last1_snoc2, but_last2_snoc, last2_snoc.
    destruct (Nat.ltb_spec m (length (nth n (adj b) []))); [|lia]. destruct (Nat.eqb_spec (last1 (fB x)) 0); [lia|]. cbn [andb negb].
    rewrite (nth_error_nth _ _ 0%Z Ev). rewrite jax_index_in by lia. reflexivity. }
  split.
  - intros m Hm Ha. destruct (HE m Hm Ha) as [r [R1 [R2 [R3 [R4 _]]]]]. exists r. split; [exact R1|]. split; [congruence|]. split; congruence.
  - intros p d f Hp Hd. rewrite Hv, last1_snoc, but_last_snoc. destruct (Nat.ltb_spec n N); [|lia].
    apply rsum_ext. intros m Hm. rewrite EW. destruct (dense_edge g (last1 (fB x)) b n m) eqn:Ha; [|reflexivity].
    destruct (HE m Hm Ha) as [r [R1 [R2 [R3 [R4 R5]]]]]. rewrite R1. cbn [entry]. symmetry. apply R5; congruence.
Qed.

End Message.
