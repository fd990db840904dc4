(** Whether a network runs does not depend on the numbers of nodes and edges either. *)
Require Import List Reals ZArith Bool Lia Lra.
Require Import ZifyNat.
Require Import Verif.Base Verif.RSum Verif.Features_Model Verif.Features_Spec Verif.Features_Proofs Verif.Activations_Model Verif.Activations_Proofs Verif.Activations_Props
  Verif.Indexed_Model Verif.Modules_Model Verif.Modules_Spec Verif.Modules_Graph_Spec Verif.Modules_Proofs
  Verif.Modules_Tensor_Proofs Verif.Modules_Fused_Proofs Verif.Modules_Equiv_Proofs Verif.Modules_Graph_Proofs
  Verif.Modules_Conv_Proofs Verif.Modules_Attention_Proofs Verif.Modules_Message_Proofs Verif.Modules_Relabel_Proofs Verif.Modules_Softmax_Proofs
  Verif.Network_Spec Verif.Network_Props Verif.Shapes_Proofs Verif.Locality_Spec Verif.Locality_Proofs Verif.Locality_Props.
Import ListNotations.
Open Scope R_scope.

(** Arrays with n and n' entries of the same kind. *)
Definition sized (n n' : nat) (x x' : feat) : Prop := fB x = [n] /\ fB x' = [n'] /\ same_slots x x'.
Definition sized_opt (n n' : nat) (x x' : option feat) : Prop := match x, x' with Some u, Some u' => sized n n' u u' | None, None => True | _, _ => False end.

Lemma sized_valid : forall n n' m x x', sized n n' x x' -> valid m x -> valid m x'.
Proof. intros n n' m x x' [_ [_ [S [D _]]]] [V1 V2]. split; congruence. Qed.

Lemma dense_sized : forall n n' F ub P x x' y, sized n n' x x' -> dense F ub P x = Ok y -> exists y', dense F ub P x' = Ok y' /\ sized n n' y y'.
Proof.
  intros n n' F ub P x x' y L H. destruct (dense_ok_inv _ _ _ _ _ H) as [m [V Hm]]. pose proof (sized_valid _ _ _ _ _ L V) as V'. destruct L as [LB [LB' [LS [LD [LF Ld]]]]].
  destruct (dense_comp m x F ub P V Hm) as [y0 [E [Vy [B [S [Fy [dy _]]]]]]]. assert (y0 = y) by congruence. subst y0.
  destruct (dense_comp m x' F ub P V' Hm) as [y' [E' [Vy' [B' [S' [Fy' [dy' _]]]]]]]. exists y'. split; [exact E'|].
  split; [congruence|]. split; [congruence|]. split; [congruence|]. split; [rewrite (proj2 Vy), (proj2 Vy'); reflexivity|]. split; congruence.
Qed.

Lemma change_sized : forall n n' md incl x x' y, degree_ok md -> has_scalars x -> sized n n' x x' -> change_max_degree_or_type x md incl = Ok y ->
  exists y', change_max_degree_or_type x' md incl = Ok y' /\ sized n n' y y'.
Proof.
  intros k k' md incl x x' y Hmd [n V] L H. pose proof (sized_valid _ _ _ _ _ L V) as V'.
  assert (M : exists m, (0 < m)%nat /\ (md = Some (Z.of_nat m - 1)%Z \/ (md = None /\ m = S n))).
  { destruct md as [d|]; [|exists (S n); split; [lia|auto]]. specialize (Hmd d eq_refl). exists (Z.to_nat (d + 1)). split; [lia|]. left. f_equal. lia. }
  destruct M as [m [Hm HM]].
  destruct (change_comp (S n) x m md incl V HM (or_introl Hm)) as [y0 [E [[Vy1 Vy2] [B [S0 [F [d _]]]]]]]. assert (y0 = y) by congruence. subst y0.
  destruct (change_comp (S n) x' m md incl V' HM (or_introl Hm)) as [y' [E' [[Vy1' Vy2'] [B' [S' [F' [d' _]]]]]]].
  exists y'. split; [exact E'|]. destruct L as [LB [LB' [LS [LD [LF Ld]]]]]. rewrite LS in S'. repeat split; congruence.
Qed.

Lemma activation_sized : forall n n' erf eps alpha act x x' y, In act (activations erf eps alpha) -> sized n n' x x' -> act x = Ok y -> exists y', act x' = Ok y' /\ sized n n' y y'.
Proof.
  intros n n' erf eps alpha act x x' y Ha L H. destruct (activation_gated erf eps alpha act Ha) as [g G].
  destruct (G x) as [y0 [E [_ [QB [QS [QD [QF [Qd _]]]]]]]]. assert (y0 = y) by congruence. subst y0.
  destruct (G x') as [y' [E' [_ [QB' [QS' [QD' [QF' [Qd' _]]]]]]]]. exists y'. split; [exact E'|]. destruct L as [? [? [? [? [? ?]]]]]. cbn in *. repeat split; congruence.
Qed.

Lemma add_sized : forall n n' xs xs' y, Forall2 (sized n n') xs xs' -> add xs = Ok y -> exists y', add xs' = Ok y' /\ sized n n' y y'.
Proof.
  intros n n' xs xs' y L H. destruct (add_ok_inv _ _ H) as [x0 [t [-> HC]]]. inversion L as [|? x0' ? t' L0 Lt]; subst.
  assert (HC' : Forall (compatible x0') (x0' :: t')).
  { clear -HC L L0. revert HC. induction L as [|a a' u u' [AB [AB' [AS [AD [AF Ad]]]]] _ IH]; intros HC; constructor; inversion HC as [|? ? [C1 [C2 [C3 [k [V1 V2]]]]] HC1]; subst.
    - destruct L0 as [? [? [? [? [? ?]]]]]. repeat split; try congruence. exists k. split; congruence.
    - now apply IH. }
  destruct (add_ok x0 t HC) as [m [y0 [E [[_ V] [Hm [B [F [d [S0 [H1 [H2 _]]]]]]]]]]]. assert (y0 = y) by congruence. subst y0.
  destruct (add_ok x0' t' HC') as [m' [y' [E' [[_ V'] [Hm' [B' [F' [d' [S' [H1' [H2' _]]]]]]]]]]].
  exists y'. split; [exact E'|]. destruct L0 as [LB [LB' [_ [_ [LF Ld]]]]].
  assert (ES : existsb (fun x => (fS x =? 2)%nat) (x0' :: t') = existsb (fun x => (fS x =? 2)%nat) (x0 :: t)).
  { clear -L. induction L as [|a a' u u' [_ [_ [AS _]]] _ IH]; [reflexivity|]. cbn. rewrite AS, IH. reflexivity. }
  assert (ED : m' = m).
  { assert (IN : forall x, In x (x0 :: t) -> exists x', In x' (x0' :: t') /\ fD x' = fD x).
    { clear -L. induction L as [|a a' u u' [_ [_ [_ [AD _]]]] _ IH]; intros x Hx; [destruct Hx|]. destruct Hx as [<-|Hx]; [exists a'; split; [now left|exact AD]|]. destruct (IH x Hx) as [x' [? ?]]. exists x'. split; [now right|assumption]. }
    assert (IN' : forall x', In x' (x0' :: t') -> exists x, In x (x0 :: t) /\ fD x' = fD x).
    { clear -L. induction L as [|a a' u u' [_ [_ [_ [AD _]]]] _ IH]; intros x Hx; [destruct Hx|]. destruct Hx as [<-|Hx]; [exists a; split; [now left|exact AD]|]. destruct (IH x Hx) as [x' [? ?]]. exists x'. split; [now right|assumption]. }
    rewrite Forall_forall in H1, H1'. assert (A1 : (m <= m')%nat).
    { destruct H2 as [->|[x [Hx Dx]]]; [lia|]. destruct (IN x Hx) as [x' [Hx' Dx']]. specialize (H1' x' Hx'). nia. }
    assert (A2 : (m' <= m)%nat).
    { destruct H2' as [->|[x' [Hx' Dx']]]; [lia|]. destruct (IN' x' Hx') as [x [Hx Dx]]. specialize (H1 x Hx). nia. }
    lia. }
  subst m'. repeat split; try congruence. rewrite S', S0, ES. reflexivity.
Qed.

Section Sizes.
Variables (cgf : Z -> Z -> Z -> result (nat -> nat -> nat -> R)) (lo hi : R).

Lemma extract_sized : forall n n' x x', sized n n' x x' -> extract_max_degree_and_check_shape (shape_of x') = extract_max_degree_and_check_shape (shape_of x).
Proof.
  intros n n' [B S0 D F d v] [B' S' D' F' d' v'] [E [E' [ES [ED [EF Ed]]]]]. cbn in E, E', ES, ED, EF, Ed. subst. reflexivity.
Qed.

Lemma tensor_sized : forall n n' md incl P x y x' y' z, sized n n' x x' -> sized n n' y y' ->
  any_tensor cgf md incl P x y = Ok z -> exists z', any_tensor cgf md incl P x' y' = Ok z' /\ sized n n' z z'.
Proof.
  intros n n' md incl [K|K] x y x' y' z Hx Hy H; cbn [any_tensor] in *.
  - unfold tensor in *. rewrite (extract_sized _ _ x x' Hx), (extract_sized _ _ y y' Hy).
    destruct Hx as [XB [XB' [XS [XD [XF Xd]]]]]. destruct Hy as [YB [YB' [YS [YD [YF Yd]]]]].
    rewrite XB', XS, XD, XF, Xd, YB', YS, YD, YF. rewrite XB, YB in H.
    destruct (extract_max_degree_and_check_shape (shape_of x)) as [L1|]; [|discriminate].
    destruct (extract_max_degree_and_check_shape (shape_of y)) as [L2|]; [|discriminate]. cbn [bind] in *.
    destruct (_ <? _)%Z; [discriminate|]. destruct (negb (fF x =? fF y)%nat); [discriminate|].
    destruct (cgf L1 L2 _); [|discriminate]. rewrite broadcast_same in *. cbn [bind] in *.
    destruct (negb (_ && _)); injection H as <-; eexists; (split; [reflexivity|]); repeat split; reflexivity.
  - unfold fused_tensor in *. rewrite (extract_sized _ _ x x' Hx), (extract_sized _ _ y y' Hy).
    destruct Hx as [XB [XB' [XS [XD [XF Xd]]]]]. destruct Hy as [YB [YB' [YS [YD [YF Yd]]]]].
    rewrite XB', XS, XF, Xd, YB', YS, YF. rewrite XB, YB in H.
    destruct (extract_max_degree_and_check_shape (shape_of x)) as [L1|]; [|discriminate].
    destruct (extract_max_degree_and_check_shape (shape_of y)) as [L2|]; [|discriminate]. rewrite broadcast_same in *. cbn [bind] in *.
    repeat (match type of H with context [bind ?r _] => destruct r; [|discriminate]; cbn [bind] in * | (if ?c then _ else _) = _ => destruct c; try discriminate end);
    try (injection H as <-; eexists; (split; [reflexivity|]); repeat split; reflexivity).
Qed.

Section Lists.
Variables (dst src dst' src' : list nat) (N N' : nat).
Hypotheses (len : length src = length dst) (len' : length src' = length dst').
Let g := sparse_graph dst src.
Let g' := sparse_graph dst' src'.
Let Q := length dst.
Let Q' := length dst'.

Lemma gather_src_sized : forall x x' y, sized N N' x x' -> gather_src_feat x g = Ok y -> exists y', gather_src_feat x' g' = Ok y' /\ sized Q Q' y y'.
Proof using len len'.
  intros x x' y [B [B' [S0 [D [F d]]]]] H. unfold gather_src_feat in *. cbn in *. injection H as <-. eexists. split; [reflexivity|]. rewrite B, B'. unfold but_last, Q, Q'. cbn. rewrite len, len'. repeat split; assumption.
Qed.
Lemma gather_dst_sized : forall x x' y, sized N N' x x' -> gather_dst_feat x g = Ok y -> exists y', gather_dst_feat x' g' = Ok y' /\ sized Q Q' y y'.
Proof using.
  intros x x' y [B [B' [S0 [D [F d]]]]] H. unfold gather_dst_feat in *. cbn in *. injection H as <-. eexists. split; [reflexivity|]. rewrite B, B'. unfold but_last, Q, Q'. cbn. repeat split; assumption.
Qed.
Lemma sum_sized : forall a b x x' y, sized Q Q' x x' -> indexed_sum_feat x (with_defaults g N a) = Ok y -> exists y', indexed_sum_feat x' (with_defaults g' N' b) = Ok y' /\ sized N N' y y'.
Proof using.
  intros a b x x' y [B [B' [S0 [D [F d]]]]] H. unfold indexed_sum_feat in *. cbn in *. rewrite B in H. rewrite B'. unfold but_last in *. cbn [removelast app] in *.
  unfold Q, Q' in *. rewrite list_nat_eqb_refl in *. cbn [negb] in *. injection H as <-. eexists. split; [reflexivity|]. repeat split; assumption.
Qed.

Lemma conv_sized : forall md incl ub P a b x x' basis basis' y, sized Q Q' x x' ->
  sized_opt Q Q' basis basis' ->
  conv cgf md incl ub P x basis (with_defaults g N a) = Ok y -> exists y', conv cgf md incl ub P x' basis' (with_defaults g' N' b) = Ok y' /\ sized N N' y y'.
Proof using.
  intros md incl ub P a b u u' basis basis' y Su Hb H. unfold conv in *.
  destruct basis as [bs|], basis' as [bs'|]; cbn [sized_opt] in *; try contradiction.
  - pose proof Su as [UB [UB' [_ [_ [UF _]]]]]. pose proof Hb as [BB [BB' _]]. rewrite UB', BB', UF, list_nat_eqb_refl. rewrite UB, BB, list_nat_eqb_refl in H. cbn [negb] in *.
    destruct (dense (fF u) ub (c_filter P) bs) as [fl|] eqn:ED; [|discriminate]. cbn [bind] in H.
    destruct (dense_sized _ _ _ _ _ bs bs' fl Hb ED) as [fl' [ED' Sf]]. rewrite ED'. cbn [bind].
    destruct (any_tensor cgf md incl (c_tensor P) fl u) as [t|] eqn:ET; [|discriminate]. cbn [bind] in H.
    destruct (tensor_sized _ _ md incl (c_tensor P) fl u fl' u' t Sf Su ET) as [t' [ET' St]]. rewrite ET'. cbn [bind].
    exact (sum_sized a b t t' y St H).
  - cbn [bind] in *. exact (sum_sized a b u u' y Su H).
Qed.

Lemma pass_sized : forall md incl ub P x x' basis basis' y, sized N N' x x' ->
  sized_opt Q Q' basis basis' ->
  message_pass cgf md incl ub P x basis None g = Ok y -> exists y', message_pass cgf md incl ub P x' basis' None g' = Ok y' /\ sized N N' y y'.
Proof using len len'.
  intros md incl ub P x x' basis basis' y L Hb H. unfold message_pass in *. apply bind_inv in H as [z [Ez H]]. destruct (gather_src_sized _ _ _ L Ez) as [z' [Ez' Lz]]. rewrite Ez'. cbn [bind] in *.
  pose proof L as [B [B' _]]. rewrite B in H. rewrite B'. exact (conv_sized _ _ _ _ _ _ _ _ _ _ _ Lz Hb H).
Qed.

Lemma attention_sized : forall o P xq xq' xkv xkv' basis basis' c c' y, has_scalars xq -> has_scalars xkv -> sized N N' xq xq' -> sized N N' xkv xkv' ->
  sized_opt Q Q' basis basis' ->
  multi_head_attention cgf lo hi o P xq xkv basis c g = Ok y -> exists y', multi_head_attention cgf lo hi o P xq' xkv' basis' c' g' = Ok y' /\ sized N N' y y'.
Proof using len len'.
  intros o P xq xq' xkv xkv' basis basis' c c' y [nq Vq] [nk Vk] Lq Lk Lb H. unfold multi_head_attention in *.
  pose proof (sized_valid _ _ _ _ _ Lq Vq) as Vq'. pose proof (sized_valid _ _ _ _ _ Lk Vk) as Vk'.
  pose proof Lq as [QB [QB' [QS [QD [QF Qd]]]]]. pose proof Lk as [KB [KB' [KS [KD [KF Kd]]]]]. rewrite QB', KB', QF, QS, KS. rewrite QB, KB in H. unfold but_last in *. cbn [removelast] in *.
  cbn [list_nat_eqb negb] in *.
  assert (EB : match basis' with None => true | Some _ => false end = match basis with None => true | Some _ => false end) by (destruct basis, basis'; cbn [sized_opt] in *; try contradiction; reflexivity).
  rewrite EB. destruct ((o_rel_qk o || o_rel_v o) && _); [discriminate|]. cbv zeta in *. destruct (o_heads o =? 0)%nat; [discriminate|]. destruct (negb (_ mod _ =? 0)%nat); [discriminate|].
  rewrite (extract_valid _ _ Vq), (extract_valid _ _ Vk) in H. rewrite (extract_valid _ _ Vq'), (extract_valid _ _ Vk'). cbn [bind] in *.
  set (Lqk := Z.min (Z.of_nat (S nq) - 1) (Z.of_nat (S nk) - 1)) in *. assert (HL : degree_ok (Some Lqk)) by (intros d E; injection E as <-; unfold Lqk; lia).
  apply bind_inv in H as [qi [Eqi H]]. destruct (change_sized _ _ _ _ _ _ _ HL (ex_intro _ nq Vq) Lq Eqi) as [qi' [Eqi' Lqi]]. rewrite Eqi'. cbn [bind].
  apply bind_inv in H as [ki [Eki H]]. destruct (change_sized _ _ _ _ _ _ _ HL (ex_intro _ nk Vk) Lk Eki) as [ki' [Eki' Lki]]. rewrite Eki'. cbn [bind].
  apply bind_inv in H as [q [Eq H]]. destruct (dense_sized _ _ _ _ _ _ _ _ Lqi Eq) as [q' [Eq' Lq']]. rewrite Eq'. cbn [bind].
  apply bind_inv in H as [k [Ek H]]. destruct (dense_sized _ _ _ _ _ _ _ _ Lki Ek) as [k' [Ek' Lk']]. rewrite Ek'. cbn [bind].
  apply bind_inv in H as [v [Ev H]]. destruct (dense_sized _ _ _ _ _ _ _ _ Lk Ev) as [v' [Ev' Lv']]. rewrite Ev'. cbn [bind].
  apply bind_inv in H as [gq [Egq H]]. destruct (gather_dst_sized _ _ _ Lq' Egq) as [gq' [Egq' Lgq]]. rewrite Egq'. cbn [bind].
  apply bind_inv in H as [gk [Egk H]]. destruct (gather_src_sized _ _ _ Lk' Egk) as [gk' [Egk' Lgk]]. rewrite Egk'. cbn [bind].
  cbv zeta in *. apply bind_inv in H as [gv [Egv H]]. destruct (gather_src_sized _ _ _ Lv' Egv) as [gv' [Egv' Lgv]]. rewrite Egv'. cbn [bind].
  apply bind_inv in H as [a [Ea H]].
  match goal with |- context [attention_weight lo hi ?gg ?cc ?dd []] => assert (Ea' : exists a', attention_weight lo hi gg cc dd [] = Ok a') by (unfold attention_weight; cbn; eauto) end.
  destruct Ea' as [a' Ea']. rewrite Ea'. cbn [bind].
  apply bind_inv in H as [att [Ec H]].
  match type of Ec with conv cgf _ _ _ _ ?u _ _ = _ => match goal with |- context [conv cgf ?a1 ?a2 ?a3 ?a4 ?u' ?b' ?g2] =>
    assert (Lu : sized Q Q' u u') by (destruct Lgv as [? [? [? [? [? ?]]]]]; repeat split; cbn [fB fS fD fF fdt]; assumption);
    destruct (conv_sized _ _ _ _ _ (last1 [N']) u u' (if o_rel_v o then basis else None) b' _ Lu (match o_rel_v o as b return sized_opt Q Q' (if b then basis else None) (if b then basis' else None) with true => Lb | false => I end) Ec) as [att' [Ec' Latt]] end end.
  cbn [last1 last] in *. rewrite Ec'. cbn [bind]. exact (dense_sized _ _ _ _ _ _ _ _ Latt H).
Qed.

Lemma select_sized : forall xs xs' i x, Forall2 (sized N N') xs xs' -> select xs i = Ok x -> exists x', select xs' i = Ok x' /\ sized N N' x x'.
Proof using.
  intros xs xs' i x T. revert i. induction T as [|a a' u u' Ta Tu IH]; intros i H; [destruct i; discriminate|]. destruct i as [|i].
  - injection H as <-. exists a'. auto.
  - unfold select in *. cbn [nth_error] in *. apply IH; assumption.
Qed.
Lemma select_all_sized : forall xs xs' is ys, Forall2 (sized N N') xs xs' -> select_all xs is = Ok ys -> exists ys', select_all xs' is = Ok ys' /\ Forall2 (sized N N') ys ys'.
Proof using.
  intros xs xs' is ys T. revert ys. induction is as [|i is IH]; intros ys H; cbn [select_all] in *; [injection H as <-; exists []; auto|].
  apply bind_inv in H as [x [Ex H]]. destruct (select_sized _ _ _ _ T Ex) as [x' [Ex' Tx]]. rewrite Ex'. cbn [bind].
  destruct (select_all xs is) as [zs|] eqn:Ez; [|discriminate]. injection H as <-. destruct (IH _ eq_refl) as [zs' [Ez' Tz]]. rewrite Ez'. exists (x' :: zs'). split; [reflexivity|]. now constructor.
Qed.

Hypothesis checked : cg_checked cgf.

Lemma perform_sized : forall basis basis' c c' xs xs' cl y, proper_call cl -> Forall has_scalars xs -> Forall2 (sized N N') xs xs' ->
  sized_opt Q Q' basis basis' ->
  perform cgf lo hi basis c g xs cl = Ok y -> exists y', perform cgf lo hi basis' c' g' xs' cl = Ok y' /\ sized N N' y y'.
Proof using len len'.
  intros basis basis' c c' xs xs' cl y Hc V T Lb H.
  destruct cl; cbn [perform proper_call] in *; apply bind_inv in H as [x [Ex H]].
  - destruct (select_sized _ _ _ _ T Ex) as [x' [Ex' Lx]]. rewrite Ex'. cbn [bind]. exact (dense_sized _ _ _ _ _ _ _ _ Lx H).
  - destruct (select_sized _ _ _ _ T Ex) as [x' [Ex' Lx]]. rewrite Ex'. cbn [bind]. apply bind_inv in H as [x2 [Ex2 H]]. destruct (select_sized _ _ _ _ T Ex2) as [x2' [Ex2' Lx2]]. rewrite Ex2'. cbn [bind].
    exact (tensor_sized _ _ _ _ _ _ _ _ _ _ Lx Lx2 H).
  - destruct (select_sized _ _ _ _ T Ex) as [x' [Ex' Lx]]. rewrite Ex'. cbn [bind]. unfold tensor_dense in *. pose proof Lx as [_ [_ [_ [_ [EF _]]]]]. rewrite EF. cbv zeta in *.
    apply bind_inv in H as [u [Eu H]]. destruct (dense_sized _ _ _ _ _ _ _ _ Lx Eu) as [u' [Eu' [L0 [L1 [L2 [L3 [L4 L5]]]]]]]. rewrite Eu'. cbn [bind].
    refine (tensor_sized _ _ _ _ _ _ _ _ _ _ _ _ H); repeat split; cbn; congruence.
  - destruct (select_sized _ _ _ _ T Ex) as [x' [Ex' Lx]]. rewrite Ex'. cbn [bind]. exact (pass_sized _ _ _ _ _ _ _ _ _ Lx Lb H).
  - destruct (select_sized _ _ _ _ T Ex) as [x' [Ex' Lx]]. rewrite Ex'. cbn [bind]. apply bind_inv in H as [x2 [Ex2 H]]. destruct (select_sized _ _ _ _ T Ex2) as [x2' [Ex2' Lx2]]. rewrite Ex2'. cbn [bind].
    exact (attention_sized _ _ _ _ _ _ _ _ _ c' _ (select_scalars _ _ _ V Ex) (select_scalars _ _ _ V Ex2) Lx Lx2 Lb H).
  - destruct (select_sized _ _ _ _ T Ex) as [x' [Ex' Lx]]. rewrite Ex'. cbn [bind]. destruct Hc as [erf [eps [alpha Ha]]]. exact (activation_sized _ _ _ _ _ _ _ _ _ Ha Lx H).
  - destruct (select_sized _ _ _ _ T Ex) as [x' [Ex' Lx]]. rewrite Ex'. cbn [bind]. exact (change_sized _ _ _ _ _ _ _ Hc (select_scalars _ _ _ V Ex) Lx H).
  - destruct (select_all_sized _ _ _ _ T Ex) as [x' [Ex' Lx]]. rewrite Ex'. cbn [bind]. exact (add_sized _ _ _ _ _ Lx H).
Qed.

Lemma run_sized : forall basis basis' c c' cs xs xs' ys, Forall proper_call cs -> Forall has_scalars xs -> Forall2 (sized N N') xs xs' ->
  sized_opt Q Q' basis basis' ->
  Network_Spec.run cgf lo hi basis c g xs cs = Ok ys -> exists ys', Network_Spec.run cgf lo hi basis' c' g' xs' cs = Ok ys' /\ Forall2 (sized N N') ys ys'.
Proof using len len' checked.
  intros basis basis' c c'. induction cs as [|cl cs IH]; intros xs xs' ys Hc V T Lb H; cbn [Network_Spec.run] in *.
  - injection H as <-. exists xs'. auto.
  - apply bind_inv in H as [y [Ey H]]. inversion Hc; subst. destruct (perform_sized _ basis' _ c' _ xs' _ _ H2 V T Lb Ey) as [y' [Ey' Ly]]. rewrite Ey'. cbn [bind].
    apply (IH (xs ++ [y])); auto; [apply Forall_app; split; [exact V|constructor; [exact (perform_scalars _ _ _ checked _ _ _ _ _ _ H2 V Ey)|constructor]]|apply Forall2_app; auto].
Qed.
End Lists.
End Sizes.
