(** Proofs for C74: silent edges contribute nothing. *)
Require Import List Reals ZArith Bool Lia Lra Permutation.
Require Import ZifyNat.
Require Import Verif.Base Verif.RSum Verif.Common_Proofs Verif.Features_Model Verif.Features_Spec Verif.Features_Proofs
  Verif.Indexed_Model Verif.Modules_Model Verif.Modules_Spec Verif.Modules_Graph_Spec Verif.Modules_Proofs
  Verif.Modules_Tensor_Proofs Verif.Modules_Fused_Proofs Verif.Modules_Equiv_Proofs Verif.Modules_Graph_Proofs
  Verif.Modules_Conv_Proofs Verif.Modules_Attention_Proofs Verif.Modules_Message_Proofs Verif.Modules_Relabel_Proofs Verif.Modules_Softmax_Proofs
  Verif.Network_Spec Verif.Network_Props Verif.Equivariance_Spec Verif.Equivariance_Props Verif.Locality_Spec Verif.Locality_Proofs Verif.Locality_Props Verif.Cutoff_Spec.
Import ListNotations.
Open Scope R_scope.
Arguments Nat.modulo : simpl never.
Arguments Nat.mul : simpl never.

(** * Sums without silent edges *)

Lemma sum_over_app : forall (A : Type) (l l' : list A) h, sum_over (l ++ l') h = sum_over l h + sum_over l' h.
Proof. intros A l l' h. unfold sum_over. induction l as [|a l IH]; cbn; [ring|]. rewrite IH. ring. Qed.
Lemma sum_over_zero : forall (A : Type) (l : list A) h, (forall a, In a l -> h a = 0) -> sum_over l h = 0.
Proof. intros A l h H. unfold sum_over in *. induction l as [|a l IH]; cbn; [reflexivity|]. rewrite (H a (or_introl eq_refl)), IH; [ring|]. intros; apply H; now right. Qed.

Lemma active_sum : forall att s s' n n' (R : list nat * nat -> list nat * nat -> Prop) h h', matched_active att s s' n n' R ->
  (forall e e', In e (incoming (s_graph s) (s_nodes s) (s_at s) n) -> In e' (incoming (s_graph s') (s_nodes s') (s_at s') n') -> R e e' -> h e = h' e') ->
  (forall e, In e (incoming (s_graph s) (s_nodes s) (s_at s) n) -> silent att s (fst e) -> h e = 0) ->
  (forall e, In e (incoming (s_graph s') (s_nodes s') (s_at s') n') -> silent att s' (fst e) -> h' e = 0) ->
  sum_over (incoming (s_graph s) (s_nodes s) (s_at s) n) h = sum_over (incoming (s_graph s') (s_nodes s') (s_at s') n') h'.
Proof.
  intros att s s' n n' R h h' [es [zs [es' [zs' [P [P' [F [Z Z']]]]]]]] E S S'.
  rewrite <- (sum_over_perm _ _ _ h P), <- (sum_over_perm _ _ _ h' P'), !sum_over_app. rewrite Forall_forall in Z, Z'.
  assert (I : forall a, In a (es ++ zs) -> In a (incoming (s_graph s) (s_nodes s) (s_at s) n)) by (intros a; apply Permutation_in, P).
  assert (I' : forall a, In a (es' ++ zs') -> In a (incoming (s_graph s') (s_nodes s') (s_at s') n')) by (intros a; apply Permutation_in, P').
  rewrite (sum_over_zero _ zs h), (sum_over_zero _ zs' h'); [f_equal; apply (sum_over_matched _ _ R _ _ _ _ F)| |].
  - intros a b Ha Hb. apply E; [apply I|apply I']; apply in_or_app; now left.
  - intros a Ha. apply S'; [apply I', in_or_app; now right|now apply Z'].
  - intros a Ha. apply S; [apply I, in_or_app; now right|now apply Z].
Qed.

(** * Products with zero *)

Lemma zero_comp : forall x i, zero_at x i -> forall n p l k f, valid n x -> (p < 2)%nat -> (k < 2 * l + 1)%nat -> (f < fF x)%nat -> comp x i p l k f = 0.
Proof.
  intros x i Z n p l k f [VS VD] Hp Hk Hf. unfold comp.
  destruct (Nat.leb_spec ((l + 1) * (l + 1)) (fD x)); [|reflexivity].
  destruct (Nat.eqb_spec (fS x) 2); [apply Z; nia|]. destruct (p =? l mod 2)%nat; [|reflexivity]. apply Z; nia.
Qed.
Lemma comp_zero : forall n x i, valid n x -> (forall p l k f, (p < 2)%nat -> (k < 2 * l + 1)%nat -> has_slot x p l -> comp x i p l k f = 0) ->
  forall p d f, (p < fS x)%nat -> (d < fD x)%nat -> fv x i p d f = 0.
Proof.
  intros n x i V Z p d f Hp Hd. pose proof V as [VS VD]. destruct (block_decomp d) as [l [k [-> [Hk _]]]].
  assert (l < n)%nat by nia. assert (Hl : ((l + 1) * (l + 1) <= fD x)%nat) by nia.
  destruct (Nat.eqb_spec (fS x) 2) as [E|E].
  - specialize (Z p l k f ltac:(lia) Hk). unfold comp in Z. rewrite (proj2 (Nat.leb_le _ _) Hl), E, Nat.eqb_refl in Z. apply Z. split; [lia|left; exact E].
  - assert (E1 : fS x = 1%nat) by (destruct VS; congruence). assert (p = 0%nat) by lia. subst p.
    assert (L2 : (l mod 2 < 2)%nat) by (apply Nat.mod_upper_bound; lia).
    specialize (Z (l mod 2)%nat l k f L2 Hk). unfold comp in Z. rewrite (proj2 (Nat.leb_le _ _) Hl), E1, Nat.eqb_refl in Z. apply Z. split; [lia|right; auto].
Qed.

Lemma coupled_zero : forall C u v l1 l2 l k, (forall k1, (k1 < 2 * l1 + 1)%nat -> u k1 = 0) \/ (forall k2, (k2 < 2 * l2 + 1)%nat -> v k2 = 0) -> coupled C u v l1 l2 l k = 0.
Proof.
  intros C u v l1 l2 l k H. unfold coupled. apply rsum_zero. intros k1 H1. apply rsum_zero. intros k2 H2. destruct H as [H|H]; rewrite H by assumption; ring.
Qed.

Section Layers.
Variable cgf : Z -> Z -> Z -> result (nat -> nat -> nat -> R).
Hypothesis checked : cg_checked cgf.

Lemma any_tensor_zero : forall md incl P x1 x2 z, degree_ok md -> well_formed x1 -> well_formed x2 -> any_tensor cgf md incl P x1 x2 = Ok z ->
  forall f, (forall i p l k, (p < 2)%nat -> (k < 2 * l + 1)%nat -> comp x1 i p l k f = 0) \/ (forall i p l k, (p < 2)%nat -> (k < 2 * l + 1)%nat -> comp x2 i p l k f = 0) ->
  forall i p d, (p < fS z)%nat -> (d < fD z)%nat -> fv z i p d f = 0.
Proof using checked.
  intros md incl P x1 x2 z Hmd [n1 V1] [n2 V2] H f0 HZ i0 p0 d0 Hp0 Hd0.
  assert (W : exists n3 C W a b, valid n3 z /\ weighted_couplings n1 n2 C W a b x1 x2 z).
  { destruct P as [K|K]; cbn [any_tensor] in H.
    - destruct (tensor_couplings cgf n1 n2 x1 x2 md incl K z checked V1 V2 H) as [n3 [C [B0 [_ [_ [_ [_ [_ [_ [_ [_ [Vz [_ [_ [_ [_ W]]]]]]]]]]]]]]]]. eauto 8.
    - destruct (fused_couplings cgf n1 n2 x1 x2 md incl K z checked Hmd V1 V2 H) as [n3 [n' [M [C [B0 [_ [_ [_ [_ [_ [_ [_ [_ [Vz [_ [_ [_ [_ W]]]]]]]]]]]]]]]]]]. eauto 8. }
  destruct W as [n3 [C [W [a [b [Vz HW]]]]]].
  assert (CZ : forall p l k, (p < 2)%nat -> (k < 2 * l + 1)%nat -> has_slot z p l -> comp z i0 p l k f0 = 0).
  { intros p l k Hp Hk Hs. rewrite HW by assumption. apply rsum_zero. intros p1 Hp1. apply rsum_zero. intros l1 Hl1. apply rsum_zero. intros p2 Hp2. apply rsum_zero. intros l2 Hl2.
    destruct (_ =? _)%nat; [|reflexivity]. rewrite coupled_zero; [ring|]. destruct HZ as [HZ|HZ]; [left|right]; intros; now apply HZ. }
  set (zf := mkFeat (fB z) (fS z) (fD z) (fF z) (fdt z) (fun i p d _ => fv z i p d f0)).
  apply (comp_zero n3 zf i0) with (f := 0%nat); [exact Vz| |exact Hp0|exact Hd0].
  intros p l k f Hp Hk Hs. exact (CZ p l k Hp Hk Hs).
Qed.

(** A message along an edge without basis functions, or of features that are zero. *)
Lemma edge_message_zero : forall md incl ub P xs bs r, degree_ok md -> well_formed xs -> edge_message cgf md incl ub P xs bs = Ok r ->
  (exists b0, bs = Some b0 /\ ub = false /\ (forall i, zero_at b0 i)) \/ (forall i p d f, fv xs i p d f = 0) ->
  forall i p d f, (p < fS r)%nat -> (d < fD r)%nat -> fv r i p d f = 0.
Proof using checked.
  intros md incl ub P xs bs r Hmd V H HZ i p d f Hp Hd. unfold edge_message in H. destruct bs as [bs|].
  - apply bind_inv in H as [fl [Ef H]]. pose proof Ef as Ef0. destruct (dense_scalars _ _ _ _ _ Ef) as [k Vf].
    refine (any_tensor_zero md incl (c_tensor P) fl xs r Hmd (ex_intro (fun n => valid n fl) _ Vf) V H f _ i p d Hp Hd).
    destruct HZ as [[b0 [E [-> Z]]]|Z].
    + injection E as <-. left. intros i0 p0 l0 k0 Hp0 Hk0.
      destruct (dense_batch _ _ _ _ _ Ef0) as [_ [_ [_ [DS DD]]]]. assert (Vb : valid (S k) bs) by (destruct Vf; split; congruence).
      destruct (dense_comp (S k) bs (fF xs) false (c_filter P) Vb ltac:(lia)) as [y [E [Vy [_ [_ [_ [_ C]]]]]]]. assert (y = fl) by congruence. subst y.
      unfold comp at 1. destruct (_ <=? _)%nat eqn:EL; [|reflexivity].
      destruct (Nat.eqb_spec (fS fl) 2) as [E2|E2].
      * assert (HS : has_slot fl p0 l0) by (split; [apply Nat.leb_le; exact EL|left; exact E2]).
        specialize (C i0 p0 l0 k0 f Hp0 Hk0 HS). unfold comp at 1 in C. rewrite EL, E2, Nat.eqb_refl in C. rewrite C.
        rewrite rsum_zero; [unfold bias_at; cbn; ring|]. intros a Ha. rewrite (zero_comp bs i0 (Z i0) (S k)); auto; ring.
      * destruct (Nat.eqb_spec p0 (l0 mod 2)) as [E3|]; [|reflexivity].
        assert (E1 : fS fl = 1%nat) by (destruct Vf as [[?|?] _]; congruence).
        assert (HS : has_slot fl p0 l0) by (split; [apply Nat.leb_le; exact EL|right; split; congruence]).
        specialize (C i0 p0 l0 k0 f Hp0 Hk0 HS). unfold comp at 1 in C. rewrite EL, E1 in C. cbn [Nat.eqb] in C. rewrite E3, Nat.eqb_refl in C. rewrite C.
        rewrite rsum_zero; [unfold bias_at; cbn; ring|]. intros a Ha. rewrite <- E3, (zero_comp bs i0 (Z i0) (S k)); auto; ring.
    + right. intros i0 p0 l0 k0 _ _. unfold comp. destruct (_ <=? _)%nat; [|reflexivity]. destruct (_ =? _)%nat; [apply Z|]. destruct (_ =? _)%nat; [apply Z|reflexivity].
  - injection H as <-. destruct HZ as [[b0 [E _]]|Z]; [discriminate|apply Z].
Qed.

Lemma pass_active : forall att s s' md incl P x x' y y' B B' n n', degree_ok md -> same_kind s s' -> (forall bs, s_basis s = Some bs -> has_scalars bs) ->
  has_scalars x -> fB x = B ++ [s_nodes s] -> fB x' = B' ++ [s_nodes s'] ->
  good_graph (s_graph s) (s_nodes s) (s_at s) -> good_graph (s_graph s') (s_nodes s') (s_at s') ->
  message_pass cgf md incl false P x (s_basis s) None (s_graph s) = Ok y -> message_pass cgf md incl false P x' (s_basis s') None (s_graph s') = Ok y' ->
  (n < s_nodes s)%nat -> (n' < s_nodes s')%nat -> same_slots x x' ->
  matched_active att s s' n n' (fun e e' => edge_alike s s' (fst e) (fst e') /\ alike x (s_at s ++ [snd e]) x' (s_at s' ++ [snd e'])) ->
  alike y (s_at s ++ [n]) y' (s_at s' ++ [n']).
Proof using checked.
  intros att s s' md incl P x x' y y' B B' n n' Hmd HK HBS V HB HB' G G' H H' Hn Hn' HX HM.
  assert (V' : has_scalars x') by (destruct V as [k [VS VD]]; destruct HX as [XS [XD _]]; exists k; split; congruence).
  destruct (pass_incoming cgf checked md incl false P x _ _ y _ _ B Hmd V HB G H n Hn) as [F1 F2].
  destruct (pass_incoming cgf checked md incl false P x' _ _ y' _ _ B' Hmd V' HB' G' H' n' Hn') as [F1' F2'].
  assert (SL : same_slots y y').
  { unfold message_pass in H, H'. apply bind_inv in H as [z [Ez H]]. apply bind_inv in H' as [z' [Ez' H']]. cbn [bind] in H, H'.
    refine (conv_slots cgf md incl false P z z' _ _ _ _ y y' _ _ H H').
    - destruct (gather_src_inv _ _ _ Ez) as [? [? [? [? _]]]]. destruct (gather_src_inv _ _ _ Ez') as [? [? [? [? _]]]]. destruct HX as [? [? [? ?]]]. repeat split; congruence.
    - exact HK. }
  destruct SL as [YS [YD [YF Yd]]]. repeat (split; [assumption|]). intros p d f Hp Hd.
  rewrite F2' by congruence. rewrite F2 by assumption. symmetry. apply (active_sum att s s' n n' _ _ _ HM).
  2:{ intros e He [SL _]. destruct (F1 e He) as [r [Er [RS [RD _]]]]. rewrite Er. cbn [entry]. unfold message_at in Er. refine (edge_message_zero md incl false P _ _ r Hmd _ Er _ [] p d f _ _); try congruence.
      - destruct V as [k [VS VD]]. exists (S k). split; assumption.
      - left. destruct (s_basis s) as [bs|]; [|contradiction]. exists (item bs (fst e)). split; [reflexivity|]. split; [reflexivity|]. intros i. exact SL. }
  2:{ intros e He [SL _]. destruct (F1' e He) as [r [Er [RS [RD _]]]]. rewrite Er. cbn [entry]. unfold message_at in Er. refine (edge_message_zero md incl false P _ _ r Hmd _ Er _ [] p d f _ _); try congruence.
      - destruct V' as [k [VS VD]]. exists (S k). split; assumption.
      - left. destruct (s_basis s') as [bs|]; [|contradiction]. exists (item bs (fst e)). split; [reflexivity|]. split; [reflexivity|]. intros i. exact SL. }
  intros e e' He He' [EA XA]. destruct (F1 e He) as [r [Er [RS [RD _]]]]. destruct (F1' e' He') as [r' [Er' _]]. rewrite Er, Er'. cbn [entry].
  unfold message_at in *. destruct V as [k [VS VD]].
  destruct (edge_message_alike cgf checked md incl false P (weighted (edge_weight None (removelast (fB x) ++ edge_axes (s_graph s)) (fF x) (fst e)) (item x (s_at s ++ [snd e])))
     (weighted (edge_weight None (removelast (fB x') ++ edge_axes (s_graph s')) (fF x') (fst e')) (item x' (s_at s' ++ [snd e'])))
     (option_map (fun bs => item bs (fst e)) (s_basis s)) (option_map (fun bs => item bs (fst e')) (s_basis s')) r Hmd) as [r0 [E0 Q]].
  - exists (S k). split; assumption.
  - destruct XA as [XS [XD [XF [Xd XV]]]]. repeat (split; [cbn; congruence|]). intros j p0 d0 f0 Hp0 Hd0. cbn in *. f_equal. symmetry. now apply XV.
  - destruct EA as [EA _]. destruct (s_basis s) as [bs|], (s_basis s') as [bs'|]; cbn [option_map]; try contradiction; [|exact I]. now apply alike_items.
  - exact Er.
  - assert (r0 = r') by congruence. subst r0. destruct Q as [_ [_ [_ [_ [_ QV]]]]]. apply QV; congruence.
Qed.

Variables lo hi : R.

Lemma attention_active : forall (att : Prop) s s' o P xq xq' xkv xkv' y y' B B' n n', att -> degree_ok (o_max_degree o) -> same_kind s s' -> (forall bs, s_basis s = Some bs -> has_scalars bs) ->
  has_scalars xq -> has_scalars xkv -> fB xq = B ++ [s_nodes s] -> fB xkv = B ++ [s_nodes s] -> fB xq' = B' ++ [s_nodes s'] -> fB xkv' = B' ++ [s_nodes s'] ->
  good_graph (s_graph s) (s_nodes s) (s_at s) -> good_graph (s_graph s') (s_nodes s') (s_at s') ->
  good_cutoffs (s_graph s) (s_cutoff s) (s_nodes s) (s_at s) -> good_cutoffs (s_graph s') (s_cutoff s') (s_nodes s') (s_at s') ->
  multi_head_attention cgf lo hi o P xq xkv (s_basis s) (s_cutoff s) (s_graph s) = Ok y -> multi_head_attention cgf lo hi o P xq' xkv' (s_basis s') (s_cutoff s') (s_graph s') = Ok y' ->
  (n < s_nodes s)%nat -> (n' < s_nodes s')%nat -> alike xq (s_at s ++ [n]) xq' (s_at s' ++ [n']) -> same_slots xkv xkv' ->
  matched_active att s s' n n' (fun e e' => edge_alike s s' (fst e) (fst e') /\ alike xkv (s_at s ++ [snd e]) xkv' (s_at s' ++ [snd e'])) ->
  alike y (s_at s ++ [n]) y' (s_at s' ++ [n']).
Proof using checked.
  intros at0 s s' o P xq xq' xkv xkv' y y' B B' n n' HAT Hmd HK HBS [nq Vq] [nk Vk] BQ BK BQ' BK' G G' C C' H H' Hn Hn' AQ SK HM.
  assert (Vq' : valid (S nq) xq') by exact (alike_valid _ _ _ _ _ AQ Vq). assert (Vk' : valid (S nk) xkv') by (destruct Vk, SK as [? [? _]]; split; congruence).
  assert (SQ : same_slots xq xq') by (destruct AQ as [? [? [? [? _]]]]; repeat split; assumption).
  destruct (attention_slots cgf lo hi o P xq xkv xq' xkv' _ _ _ _ _ _ y y' (S nq) (S nk) Vq Vk SQ SK HK H H') as [YS [YD Yd]].
  destruct (attention_incoming cgf lo hi o P xq xkv _ _ _ y (S nq) (S nk) _ _ B Vq Vk BQ BK G C H) as [q [k [v [att [[[qi [Eqi Eq]] [[ki [Eki Ek]] [Ev Ey]]] [AB [AF HE]]]]]]].
  destruct (attention_incoming cgf lo hi o P xq' xkv' _ _ _ y' (S nq) (S nk) _ _ B' Vq' Vk' BQ' BK' G' C' H') as [q' [k' [v' [att' [[[qi' [Eqi' Eq']] [[ki' [Eki' Ek']] [Ev' Ey']]] [AB' [AF' HE']]]]]]].
  cbv zeta in *. pose proof SQ as [QS [QD [QF Qd]]]. pose proof SK as [KS [KD [KF Kd]]]. rewrite QF in *. rewrite QS, KS in Eqi', Eki'.
  set (F := match o_qkv o with None => fF xq | Some F => F end) in *. set (nd := Nat.min (S nq) (S nk)) in *.
  assert (Hnd : (0 < nd)%nat) by (clear; unfold nd; lia).
  assert (Hd : degree_ok (Some (Z.of_nat nd - 1)%Z)). { intros d E. assert (d = (Z.of_nat nd - 1)%Z) by congruence. clear - H0. unfold nd in H0. lia. }
  destruct (dense_batch _ _ _ _ _ Ey) as [_ [_ [ayd [ays ayD]]]]. destruct (dense_batch _ _ _ _ _ Ey') as [_ [_ [ayd' [ays' ayD']]]].
  assert (Aq : alike q (s_at s ++ [n]) q' (s_at s' ++ [n'])).
  { apply (dense_alike _ _ _ _ _ _ _ _ _ Eq Eq'). apply (change_alike _ _ _ _ _ _ _ _ Hd (ex_intro _ nq Vq) Eqi Eqi' AQ). }
  assert (Ak : forall i i', alike xkv i xkv' i' -> alike k i k' i').
  { intros i i' A. apply (dense_alike _ _ _ _ _ _ _ _ _ Ek Ek'). apply (change_alike _ _ _ _ _ _ _ _ Hd (ex_intro _ nk Vk) Eki Eki' A). }
  assert (Av : forall i i', alike xkv i xkv' i' -> alike v i v' i') by (intros i i' A; exact (dense_alike _ _ _ _ _ _ _ _ _ Ev Ev' A)).
  destruct (HE n Hn) as [F1 F2]. destruct (HE' n' Hn') as [F1' F2']. clear HE HE'.
  assert (EFAC : forall c e e', edge_alike s s' (fst e) (fst e') -> alike xkv (s_at s ++ [snd e]) xkv' (s_at s' ++ [snd e']) ->
     edge_factor o P (s_basis s') (s_cutoff s') q' k' nd F (s_at s') n' c e' = edge_factor o P (s_basis s) (s_cutoff s) q k nd F (s_at s) n c e).
  { intros c e e' [EB EC] XA. unfold edge_factor. rewrite EC. f_equal. f_equal. unfold head_score. pose proof Aq as [aS [aD [aF [_ aV]]]]. rewrite aS, aD, aF.
    destruct (Ak _ _ XA) as [kS [kD [kF [_ kV]]]].
    assert (KQ : fS k = fS q /\ fD k = fD q).
    { destruct (dense_batch _ _ _ _ _ Eq) as [_ [_ [_ [e1 e2]]]]. destruct (dense_batch _ _ _ _ _ Ek) as [_ [_ [_ [e3 e4]]]].
      destruct (change_comp (S nq) xq nd _ (Some ((fS xq =? 2)%nat && (fS xkv =? 2)%nat)%bool) Vq (or_introl eq_refl) (or_introl Hnd)) as [u [Eu [Vu [_ [Su _]]]]].
      destruct (change_comp (S nk) xkv nd _ (Some ((fS xq =? 2)%nat && (fS xkv =? 2)%nat)%bool) Vk (or_introl eq_refl) (or_introl Hnd)) as [u' [Eu' [Vu' [_ [Su' _]]]]].
      rewrite Eqi in Eu. injection Eu as <-. rewrite Eki in Eu'. injection Eu' as <-. cbn [opt_default] in Su, Su'. split; [congruence|]. rewrite e2, e4, (proj2 Vu), (proj2 Vu'). reflexivity. }
    destruct KQ as [KQ1 KQ2].
    f_equal. apply rsum_ext. intros p Hp. apply rsum_ext. intros d Hd0. apply rsum_ext. intros a _.
    rewrite aV by assumption. rewrite kV by congruence. f_equal.
    unfold relative_factor. revert EB. destruct (s_basis s) as [bs|] eqn:EBS, (s_basis s') as [bs'|]; intros EB; try contradiction; [|reflexivity]. destruct (o_rel_qk o); [|reflexivity].
    destruct EB as [_ [_ [bF [_ bV]]]]. rewrite bF. f_equal. apply rsum_ext. intros a0 _. f_equal. destruct (HBS bs eq_refl) as [m [mS mD]]. apply bV; [destruct mS; lia|nia]. }
  assert (EZ : forall t b m c e qq kk, silent at0 t (fst e) -> edge_factor o P (s_basis t) (s_cutoff t) qq kk nd F b m c e = 0).
  { intros t b m c e qq kk [_ Z]. unfold edge_factor. rewrite (Z HAT). ring. }
  apply (dense_alike _ _ _ _ _ _ _ _ _ Ey Ey').
  do 4 (split; [congruence|]). intros p d f Hp Hdd. rewrite F2' by congruence. rewrite F2 by assumption. symmetry. apply (active_sum at0 s s' n n' _ _ _ HM).
  2:{ intros e He SN. destruct (F1 e He) as [r [Er [RS [RD _]]]]. rewrite Er. cbn [entry]. unfold attention_message in Er. refine (edge_message_zero _ _ _ _ _ _ r Hmd _ Er _ [] p d f _ _); try congruence.
      - destruct (dense_scalars _ _ _ _ _ Ev) as [m Vm]. exists (Datatypes.S m). destruct Vm. split; assumption.
      - right. intros i p0 d0 f0. cbn. rewrite EZ by exact SN. unfold Rdiv. ring. }
  2:{ intros e He SN. destruct (F1' e He) as [r [Er [RS [RD _]]]]. rewrite Er. cbn [entry]. unfold attention_message in Er. refine (edge_message_zero _ _ _ _ _ _ r Hmd _ Er _ [] p d f _ _); try congruence.
      - destruct (dense_scalars _ _ _ _ _ Ev') as [m Vm]. exists (Datatypes.S m). destruct Vm. split; assumption.
      - right. intros i p0 d0 f0. cbn. rewrite EZ by exact SN. unfold Rdiv. ring. }
  intros e e' He He' [EA XA]. destruct (F1 e He) as [r [Er [RS [RD _]]]]. destruct (F1' e' He') as [r' [Er' _]]. rewrite Er, Er'. cbn [entry].
  unfold attention_message in Er, Er'.
  match type of Er with edge_message _ _ _ _ _ ?xs ?bs = _ => match type of Er' with edge_message _ _ _ _ _ ?xs' ?bs' = _ =>
    destruct (edge_message_alike cgf checked (o_max_degree o) (o_include o) (o_basis_bias o) (a_conv P) xs xs' bs bs' r Hmd) as [r0 [E0 Q]] end end.
  - destruct (dense_scalars _ _ _ _ _ Ev) as [m Vm]. exists (Datatypes.S m). destruct Vm. split; assumption.
  - destruct (Av _ _ XA) as [XS [XD [XF [Xd XV]]]]. repeat (split; [cbn; congruence|]). intros j p0 d0 f0 Hp0 Hd0. cbn in *. rewrite XV by assumption. f_equal.
    rewrite (EFAC f0 e e' EA XA). f_equal. apply (active_sum at0 s s' n n' _ _ _ HM); [|intros; now apply EZ|intros; now apply EZ]. intros e1 e1' _ _ [A1 A2]. symmetry. now apply EFAC.
  - destruct (o_rel_v o); [|exact I]. destruct EA as [EA _]. destruct (s_basis s) as [bs|], (s_basis s') as [bs'|]; cbn [option_map]; try contradiction; [|exact I]. now apply alike_items.
  - exact Er.
  - assert (r0 = r') by congruence. subst r0. destruct Q as [_ [_ [_ [_ [_ QV]]]]]. apply QV; congruence.
Qed.
End Layers.
