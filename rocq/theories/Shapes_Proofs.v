(** Whether a network runs depends on nothing but the shapes of its inputs. *)
Require Import List Reals ZArith Bool Lia Lra.
Require Import ZifyNat.
Require Import Verif.Base Verif.RSum Verif.Features_Model Verif.Features_Spec Verif.Features_Proofs Verif.Activations_Model Verif.Activations_Proofs Verif.Activations_Props
  Verif.Indexed_Model Verif.Modules_Model Verif.Modules_Spec Verif.Modules_Graph_Spec Verif.Modules_Proofs
  Verif.Modules_Tensor_Proofs Verif.Modules_Fused_Proofs Verif.Modules_Equiv_Proofs Verif.Modules_Graph_Proofs
  Verif.Modules_Conv_Proofs Verif.Modules_Attention_Proofs Verif.Modules_Message_Proofs Verif.Modules_Relabel_Proofs
  Verif.Network_Spec Verif.Network_Props.
Import ListNotations.
Open Scope R_scope.

Lemma like_valid : forall n x x', like x x' -> valid n x -> valid n x'.
Proof. intros n x x' [_ [S [D _]]] [V1 V2]. split; congruence. Qed.

Lemma change_like : forall md incl x x' y, degree_ok md -> has_scalars x -> like x x' -> change_max_degree_or_type x md incl = Ok y ->
  exists y', change_max_degree_or_type x' md incl = Ok y' /\ like y y'.
Proof.
  intros md incl x x' y Hmd [n V] L H. pose proof (like_valid _ _ _ L V) as V'.
  assert (M : exists m, (0 < m)%nat /\ (md = Some (Z.of_nat m - 1)%Z \/ (md = None /\ m = S n))).
  { destruct md as [d|]; [|exists (S n); split; [lia|auto]]. specialize (Hmd d eq_refl). exists (Z.to_nat (d + 1)). split; [lia|]. left. f_equal. lia. }
  destruct M as [m [Hm HM]].
  destruct (change_comp (S n) x m md incl V HM (or_introl Hm)) as [y0 [E [[Vy1 Vy2] [B [S0 [F [d _]]]]]]]. assert (y0 = y) by congruence. subst y0.
  destruct (change_comp (S n) x' m md incl V' HM (or_introl Hm)) as [y' [E' [[Vy1' Vy2'] [B' [S' [F' [d' _]]]]]]].
  exists y'. split; [exact E'|]. destruct L as [LB [LS [LD [LF Ld]]]]. rewrite LS in S'. repeat split; congruence.
Qed.

Lemma activation_like : forall erf eps alpha act x x' y, In act (activations erf eps alpha) -> like x x' -> act x = Ok y -> exists y', act x' = Ok y' /\ like y y'.
Proof.
  intros erf eps alpha act x x' y Ha L H. destruct (activation_gated erf eps alpha act Ha) as [g G].
  destruct (G x) as [y0 [E [_ [QB [QS [QD [QF [Qd _]]]]]]]]. assert (y0 = y) by congruence. subst y0.
  destruct (G x') as [y' [E' [_ [QB' [QS' [QD' [QF' [Qd' _]]]]]]]]. exists y'. split; [exact E'|]. destruct L as [? [? [? [? ?]]]]. cbn in *. repeat split; congruence.
Qed.

Lemma add_like : forall xs xs' y, Forall2 like xs xs' -> add xs = Ok y -> exists y', add xs' = Ok y' /\ like y y'.
Proof.
  intros xs xs' y L H. destruct (add_ok_inv _ _ H) as [x0 [t [-> HC]]]. inversion L as [|? x0' ? t' L0 Lt]; subst.
  assert (HC' : Forall (compatible x0') (x0' :: t')).
  { clear -HC L L0. revert HC. induction L as [|a a' u u' [AB [AS [AD [AF Ad]]]] _ IH]; intros HC; constructor; inversion HC as [|? ? [C1 [C2 [C3 [n [V1 V2]]]]] HC1]; subst.
    - destruct L0 as [? [? [? [? ?]]]]. repeat split; try congruence. exists n. split; congruence.
    - now apply IH. }
  destruct (add_ok x0 t HC) as [m [y0 [E [[_ V] [Hm [B [F [d [S0 [H1 [H2 _]]]]]]]]]]]. assert (y0 = y) by congruence. subst y0.
  destruct (add_ok x0' t' HC') as [m' [y' [E' [[_ V'] [Hm' [B' [F' [d' [S' [H1' [H2' _]]]]]]]]]]].
  exists y'. split; [exact E'|]. destruct L0 as [LB [_ [_ [LF Ld]]]].
  assert (ES : existsb (fun x => (fS x =? 2)%nat) (x0' :: t') = existsb (fun x => (fS x =? 2)%nat) (x0 :: t)).
  { clear -L. induction L as [|a a' u u' [_ [AS _]] _ IH]; [reflexivity|]. cbn. rewrite AS, IH. reflexivity. }
  assert (ED : m' = m).
  { assert (IN : forall x, In x (x0 :: t) -> exists x', In x' (x0' :: t') /\ fD x' = fD x).
    { clear -L. induction L as [|a a' u u' [_ [_ [AD _]]] _ IH]; intros x Hx; [destruct Hx|]. destruct Hx as [<-|Hx]; [exists a'; split; [now left|exact AD]|]. destruct (IH x Hx) as [x' [? ?]]. exists x'. split; [now right|assumption]. }
    assert (IN' : forall x', In x' (x0' :: t') -> exists x, In x (x0 :: t) /\ fD x' = fD x).
    { clear -L. induction L as [|a a' u u' [_ [_ [AD _]]] _ IH]; intros x Hx; [destruct Hx|]. destruct Hx as [<-|Hx]; [exists a; split; [now left|exact AD]|]. destruct (IH x Hx) as [x' [? ?]]. exists x'. split; [now right|assumption]. }
    rewrite Forall_forall in H1, H1'. assert (A1 : (m <= m')%nat).
    { destruct H2 as [->|[x [Hx Dx]]]; [lia|]. destruct (IN x Hx) as [x' [Hx' Dx']]. specialize (H1' x' Hx'). nia. }
    assert (A2 : (m' <= m)%nat).
    { destruct H2' as [->|[x' [Hx' Dx']]]; [lia|]. destruct (IN' x' Hx') as [x [Hx Dx]]. specialize (H1 x Hx). nia. }
    lia. }
  subst m'. repeat split; try congruence. rewrite S', S0, ES. reflexivity.
Qed.

Section Shapes.
Variables (cgf : Z -> Z -> Z -> result (nat -> nat -> nat -> R)) (lo hi : R).

Lemma gather_dst_like : forall x x' g g' y, like x x' -> same_lists g g' -> gather_dst_feat x g = Ok y -> exists y', gather_dst_feat x' g' = Ok y' /\ like y y'.
Proof.
  intros x x' g g' y [HB [HS [HD [HF Hd]]]] HG H. unfold gather_dst_feat in *. rewrite (graph_type_like g g' _ _ HG), HB, HS, HD, HF, Hd.
  destruct HG as [GA [GD [GS _]]].
  destruct (graph_type g true false) as [[|]|]; [| |discriminate].
  - destruct (g_adj g) as [[[N M] adj]|]; [|discriminate]. destruct (g_adj g') as [[[N' M'] adj']|]; [|discriminate]. cbn in GA. injection GA as -> ->. injection H as <-. eexists. split; [reflexivity|]. repeat split.
  - destruct (g_dst g) as [[Q dst]|]; [|discriminate]. destruct (g_dst g') as [[Q' dst']|]; [|discriminate]. cbn in GD. injection GD as ->. injection H as <-. eexists. split; [reflexivity|]. repeat split.
Qed.

Lemma conv_like : forall md incl ub P x x' basis basis' g g' y, like x x' -> like_opt basis basis' -> same_lists g g' ->
  conv cgf md incl ub P x basis g = Ok y -> exists y', conv cgf md incl ub P x' basis' g' = Ok y' /\ like y y'.
Proof.
  intros md incl ub P u u' basis basis' g g' y Su Hb HG H. unfold conv in *. pose proof Su as [UB [_ [_ [UF _]]]].
  destruct basis as [bs|], basis' as [bs'|]; cbn [like_opt] in Hb; try contradiction.
  - pose proof Hb as [BB _]. rewrite UB, BB, UF. destruct (negb _); [discriminate|].
    destruct (dense (fF u) ub (c_filter P) bs) as [fl|] eqn:ED; [|discriminate]. cbn [bind] in H.
    destruct (dense_like _ _ _ bs bs' fl Hb ED) as [fl' [ED' Sf]]. rewrite ED'. cbn [bind].
    destruct (any_tensor cgf md incl (c_tensor P) fl u) as [t|] eqn:ET; [|discriminate]. cbn [bind] in H.
    destruct (any_tensor_like cgf md incl (c_tensor P) fl u fl' u' t Sf Su ET) as [t' [ET' St]]. rewrite ET'. cbn [bind].
    apply (indexed_sum_like t t' _ _ y St HG H).
  - cbn [bind] in *. apply (indexed_sum_like u u' _ _ y Su HG H).
Qed.

Lemma weight_like : forall g g' c c' d d' i j a, same_lists g g' -> attention_weight lo hi g c d i = Ok a -> exists a', attention_weight lo hi g' c' d' j = Ok a'.
Proof.
  intros g g' c c' d d' i j a HG H. unfold attention_weight in *. rewrite (graph_type_like g g' _ _ HG). destruct HG as [GA [GD [GS [GN GW]]]].
  destruct (graph_type g true false) as [[|]|]; [| |discriminate].
  - destruct (g_where g) as [w|]; [|discriminate]. destruct (g_where g') as [w'|]; [|destruct GW as [GW _]; discriminate (GW eq_refl)].
    destruct (g_adj g) as [[[N M] adj]|]; [|discriminate]. destruct (g_adj g') as [[[N' M'] adj']|]; [|discriminate]. eauto.
  - rewrite GN. destruct (g_segments g); [|discriminate]. destruct (g_dst g) as [[Q dst]|]; [|discriminate]. destruct (g_dst g') as [[Q' dst']|]; [|discriminate]. eauto.
Qed.

Lemma attention_like : forall o P xq xq' xkv xkv' basis basis' c c' g g' y, has_scalars xq -> has_scalars xkv -> like xq xq' -> like xkv xkv' -> like_opt basis basis' -> same_lists g g' ->
  multi_head_attention cgf lo hi o P xq xkv basis c g = Ok y -> exists y', multi_head_attention cgf lo hi o P xq' xkv' basis' c' g' = Ok y' /\ like y y'.
Proof.
  intros o P xq xq' xkv xkv' basis basis' c c' g g' y [nq Vq] [nk Vk] Lq Lk Lb HG H. unfold multi_head_attention in *.
  pose proof (like_valid _ _ _ Lq Vq) as Vq'. pose proof (like_valid _ _ _ Lk Vk) as Vk'.
  pose proof Lq as [QB [QS [QD [QF Qd]]]]. pose proof Lk as [KB [KS [KD [KF Kd]]]]. rewrite QB, KB, QF, QS, KS.
  destruct (negb (list_nat_eqb _ _)); [discriminate|].
  assert (EB : match basis' with None => true | Some _ => false end = match basis with None => true | Some _ => false end) by (destruct basis, basis'; cbn in Lb; try contradiction; reflexivity).
  rewrite EB. destruct ((o_rel_qk o || o_rel_v o) && _); [discriminate|]. cbv zeta in *. destruct (o_heads o =? 0)%nat; [discriminate|]. destruct (negb (_ mod _ =? 0)%nat); [discriminate|].
  rewrite (extract_valid _ _ Vq), (extract_valid _ _ Vk) in H. rewrite (extract_valid _ _ Vq'), (extract_valid _ _ Vk'). cbn [bind] in *.
  set (Lqk := Z.min (Z.of_nat (S nq) - 1) (Z.of_nat (S nk) - 1)) in *. assert (HL : degree_ok (Some Lqk)) by (intros d E; injection E as <-; unfold Lqk; lia).
  apply bind_inv in H as [qi [Eqi H]]. destruct (change_like _ _ _ _ _ HL (ex_intro _ nq Vq) Lq Eqi) as [qi' [Eqi' Lqi]]. rewrite Eqi'. cbn [bind].
  apply bind_inv in H as [ki [Eki H]]. destruct (change_like _ _ _ _ _ HL (ex_intro _ nk Vk) Lk Eki) as [ki' [Eki' Lki]]. rewrite Eki'. cbn [bind].
  apply bind_inv in H as [q [Eq H]]. destruct (dense_like _ _ _ _ _ _ Lqi Eq) as [q' [Eq' Lq']]. rewrite Eq'. cbn [bind].
  apply bind_inv in H as [k [Ek H]]. destruct (dense_like _ _ _ _ _ _ Lki Ek) as [k' [Ek' Lk']]. rewrite Ek'. cbn [bind].
  apply bind_inv in H as [v [Ev H]]. destruct (dense_like _ _ _ _ _ _ Lk Ev) as [v' [Ev' Lv']]. rewrite Ev'. cbn [bind].
  apply bind_inv in H as [gq [Egq H]]. destruct (gather_dst_like _ _ _ _ _ Lq' HG Egq) as [gq' [Egq' Lgq]]. rewrite Egq'. cbn [bind].
  apply bind_inv in H as [gk [Egk H]]. destruct (gather_src_like _ _ _ _ _ Lk' HG Egk) as [gk' [Egk' Lgk]]. rewrite Egk'. cbn [bind].
  cbv zeta in *. apply bind_inv in H as [gv [Egv H]]. destruct (gather_src_like _ _ _ _ _ Lv' HG Egv) as [gv' [Egv' Lgv]]. rewrite Egv'. cbn [bind].
  apply bind_inv in H as [a [Ea H]].
  match goal with |- context [attention_weight lo hi ?gg c' ?dd []] => destruct (weight_like _ gg _ c' _ dd _ [] _ (same_lists_defaults g g' _ _ HG) Ea) as [a' Ea'] end. rewrite Ea'. cbn [bind].
  apply bind_inv in H as [att [Ec H]].
  match type of Ec with conv cgf _ _ _ _ ?u _ _ = _ => match goal with |- context [conv cgf ?a1 ?a2 ?a3 ?a4 ?u' ?b' ?g2] =>
    assert (Lu : like u u') by (destruct Lgv as [? [? [? [? ?]]]]; repeat split; cbn [fB fS fD fF fdt]; assumption);
    destruct (conv_like _ _ _ _ _ u' _ b' _ g2 _ Lu (match o_rel_v o as b return like_opt (if b then basis else None) (if b then basis' else None) with true => Lb | false => I end) (same_lists_defaults g g' _ _ HG) Ec) as [att' [Ec' Latt]] end end.
  rewrite Ec'. cbn [bind]. exact (dense_like _ _ _ _ _ _ Latt H).
Qed.

Lemma select_like : forall xs xs' i x, Forall2 like xs xs' -> select xs i = Ok x -> exists x', select xs' i = Ok x' /\ like x x'.
Proof.
  intros xs xs' i x T. revert i. induction T as [|a a' u u' Ta Tu IH]; intros i H; [destruct i; discriminate|]. destruct i as [|i].
  - injection H as <-. exists a'. auto.
  - unfold select in *. cbn [nth_error] in *. apply IH; assumption.
Qed.
Lemma select_all_like : forall xs xs' is ys, Forall2 like xs xs' -> select_all xs is = Ok ys -> exists ys', select_all xs' is = Ok ys' /\ Forall2 like ys ys'.
Proof.
  intros xs xs' is ys T. revert ys. induction is as [|i is IH]; intros ys H; cbn [select_all] in *; [injection H as <-; exists []; auto|].
  apply bind_inv in H as [x [Ex H]]. destruct (select_like _ _ _ _ T Ex) as [x' [Ex' Tx]]. rewrite Ex'. cbn [bind].
  destruct (select_all xs is) as [zs|] eqn:Ez; [|discriminate]. injection H as <-. destruct (IH _ eq_refl) as [zs' [Ez' Tz]]. rewrite Ez'. exists (x' :: zs'). split; [reflexivity|]. now constructor.
Qed.

Lemma select_scalars : forall xs i x, Forall has_scalars xs -> select xs i = Ok x -> has_scalars x.
Proof. intros xs i x H E. unfold select in E. destruct (nth_error xs i) as [y|] eqn:N; [|discriminate]. injection E as <-. rewrite Forall_forall in H. apply H. exact (nth_error_In _ _ N). Qed.

Hypothesis checked : cg_checked cgf.

Lemma perform_scalars : forall basis c g xs cl y, proper_call cl -> Forall has_scalars xs -> perform cgf lo hi basis c g xs cl = Ok y -> has_scalars y.
Proof using checked.
  intros basis c g xs cl y Hc V H. destruct cl; cbn [perform proper_call] in *; apply bind_inv in H as [x [Ex H]].
  - exact (dense_scalars _ _ _ _ _ H).
  - apply bind_inv in H as [x2 [Ex2 H]]. exact (any_tensor_scalars _ _ _ _ _ _ _ checked Hc (select_scalars _ _ _ V Ex) (select_scalars _ _ _ V Ex2) H).
  - unfold tensor_dense in H. apply bind_inv in H as [u [Eu H]]. destruct (dense_scalars _ _ _ _ _ Eu) as [n [VS VD]].
    apply (any_tensor_scalars _ _ _ _ _ _ _ checked Hc) in H; [exact H| |]; exists n; split; assumption.
  - exact (message_pass_scalars _ _ _ _ _ _ _ _ _ checked Hc (select_scalars _ _ _ V Ex) H).
  - apply bind_inv in H as [x2 [Ex2 H]]. exact (attention_scalars _ _ _ _ _ _ _ _ _ _ _ H).
  - destruct Hc as [erf [eps [alpha Ha]]]. destruct (activation_gated erf eps alpha act Ha) as [gt G]. destruct (G x) as [y0 [E [_ [_ [QS [QD _]]]]]]. assert (y0 = y) by congruence. subst y0.
    destruct (select_scalars _ _ _ V Ex) as [n [V1 V2]]. exists n. cbn in *. split; congruence.
  - destruct (select_scalars _ _ _ V Ex) as [n Vn].
    assert (M : exists m, (0 < m)%nat /\ (max_degree = Some (Z.of_nat m - 1)%Z \/ (max_degree = None /\ m = S n))).
    { destruct max_degree as [d|]; [|exists (S n); split; [lia|auto]]. specialize (Hc d eq_refl). exists (Z.to_nat (d + 1)). split; [lia|]. left. f_equal. lia. }
    destruct M as [m [Hm HM]]. destruct (change_comp (S n) x m max_degree include Vn HM (or_introl Hm)) as [y0 [E [Vy _]]]. assert (y0 = y) by congruence. subst y0. exact (valid_scalars m y Vy Hm).
  - destruct (add_ok_inv _ _ H) as [x0 [u [-> HC]]]. destruct (add_ok x0 u HC) as [m [y0 [E [Vy [Hm _]]]]]. assert (y0 = y) by congruence. subst y0. exact (valid_scalars m y Vy Hm).
Qed.

Lemma run_scalars : forall basis c g cs xs ys, Forall proper_call cs -> Forall has_scalars xs -> run cgf lo hi basis c g xs cs = Ok ys -> Forall has_scalars ys.
Proof using checked.
  intros basis c g. induction cs as [|cl cs IH]; intros xs ys Hc V H; cbn [run] in *; [injection H as <-; exact V|].
  apply bind_inv in H as [y [Ey H]]. inversion Hc; subst. apply (IH (xs ++ [y])); auto. apply Forall_app; split; [exact V|constructor; [exact (perform_scalars _ _ _ _ _ _ H2 V Ey)|constructor]].
Qed.

Lemma perform_like : forall basis basis' c c' g g' xs xs' cl y, proper_call cl -> Forall has_scalars xs -> Forall2 like xs xs' -> like_opt basis basis' -> same_lists g g' ->
  perform cgf lo hi basis c g xs cl = Ok y -> exists y', perform cgf lo hi basis' c' g' xs' cl = Ok y' /\ like y y'.
Proof.
  intros basis basis' c c' g g' xs xs' cl y Hc V T Lb HG H.
  destruct cl; cbn [perform proper_call] in *; apply bind_inv in H as [x [Ex H]].
  - destruct (select_like _ _ _ _ T Ex) as [x' [Ex' Lx]]. rewrite Ex'. cbn [bind]. exact (dense_like _ _ _ _ _ _ Lx H).
  - destruct (select_like _ _ _ _ T Ex) as [x' [Ex' Lx]]. rewrite Ex'. cbn [bind]. apply bind_inv in H as [x2 [Ex2 H]]. destruct (select_like _ _ _ _ T Ex2) as [x2' [Ex2' Lx2]]. rewrite Ex2'. cbn [bind].
    exact (any_tensor_like cgf _ _ _ _ _ _ _ _ Lx Lx2 H).
  - destruct (select_like _ _ _ _ T Ex) as [x' [Ex' Lx]]. rewrite Ex'. cbn [bind]. unfold tensor_dense in *. pose proof Lx as [_ [_ [_ [EF _]]]]. rewrite EF. cbv zeta in *.
    apply bind_inv in H as [u [Eu H]]. destruct (dense_like _ _ _ _ _ _ Lx Eu) as [u' [Eu' [L1 [L2 [L3 [L4 L5]]]]]]. rewrite Eu'. cbn [bind].
    refine (any_tensor_like cgf _ _ _ _ _ _ _ _ _ _ H); repeat split; cbn; congruence.
  - destruct (select_like _ _ _ _ T Ex) as [x' [Ex' Lx]]. rewrite Ex'. cbn [bind]. exact (pass_like cgf _ _ _ _ _ _ _ _ None None _ _ _ Lx Lb I HG H).
  - destruct (select_like _ _ _ _ T Ex) as [x' [Ex' Lx]]. rewrite Ex'. cbn [bind]. apply bind_inv in H as [x2 [Ex2 H]]. destruct (select_like _ _ _ _ T Ex2) as [x2' [Ex2' Lx2]]. rewrite Ex2'. cbn [bind].
    exact (attention_like _ _ _ _ _ _ _ _ _ c' _ _ _ (select_scalars _ _ _ V Ex) (select_scalars _ _ _ V Ex2) Lx Lx2 Lb HG H).
  - destruct (select_like _ _ _ _ T Ex) as [x' [Ex' Lx]]. rewrite Ex'. cbn [bind]. destruct Hc as [erf [eps [alpha Ha]]]. exact (activation_like _ _ _ _ _ _ _ Ha Lx H).
  - destruct (select_like _ _ _ _ T Ex) as [x' [Ex' Lx]]. rewrite Ex'. cbn [bind]. exact (change_like _ _ _ _ _ Hc (select_scalars _ _ _ V Ex) Lx H).
  - destruct (select_all_like _ _ _ _ T Ex) as [x' [Ex' Lx]]. rewrite Ex'. cbn [bind]. exact (add_like _ _ _ Lx H).
Qed.

Lemma run_like : forall basis basis' c c' g g' cs xs xs' ys, Forall proper_call cs -> Forall has_scalars xs -> Forall2 like xs xs' -> like_opt basis basis' -> same_lists g g' ->
  run cgf lo hi basis c g xs cs = Ok ys -> exists ys', run cgf lo hi basis' c' g' xs' cs = Ok ys' /\ Forall2 like ys ys'.
Proof using checked.
  intros basis basis' c c' g g'. induction cs as [|cl cs IH]; intros xs xs' ys Hc V T Lb HG H; cbn [run] in *.
  - injection H as <-. exists xs'. auto.
  - apply bind_inv in H as [y [Ey H]]. inversion Hc; subst. destruct (perform_like _ basis' _ c' _ g' _ xs' _ _ H2 V T Lb HG Ey) as [y' [Ey' Ly]]. rewrite Ey'. cbn [bind].
    apply (IH (xs ++ [y])); auto; [apply Forall_app; split; [exact V|constructor; [exact (perform_scalars _ _ _ _ _ _ H2 V Ey)|constructor]]|apply Forall2_app; auto].
Qed.
End Shapes.
