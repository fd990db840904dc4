(** Proofs for C70: the layers only depend on what is at a node and at its incoming edges. *)
Require Import List Reals ZArith Bool Lia Lra Permutation.
Require Import ZifyNat.
Require Import Verif.Base Verif.RSum Verif.Features_Model Verif.Features_Spec Verif.Features_Proofs Verif.Activations_Model Verif.Activations_Proofs Verif.Activations_Props
  Verif.Indexed_Model Verif.Modules_Model Verif.Modules_Spec Verif.Modules_Graph_Spec Verif.Modules_Proofs
  Verif.Modules_Tensor_Proofs Verif.Modules_Fused_Proofs Verif.Modules_Equiv_Proofs Verif.Modules_Graph_Proofs
  Verif.Modules_Conv_Proofs Verif.Modules_Attention_Proofs Verif.Modules_Message_Proofs Verif.Modules_Relabel_Proofs Verif.Modules_Softmax_Proofs
  Verif.Network_Spec Verif.Network_Props Verif.Locality_Spec.
Import ListNotations.
Open Scope R_scope.
Arguments Nat.modulo : simpl never.
Arguments Nat.mul : simpl never.

(** * Features at one index *)

Lemma alike_items : forall x i x' i', alike x i x' i' <-> same_feature (item x i) (item x' i').
Proof.
  intros x i x' i'. split.
  - intros [S [D [F [d E]]]]. repeat (split; [cbn; congruence|]). intros j p c f Hp Hc. cbn in *. symmetry. now apply E.
  - intros [_ [S [D [F [d E]]]]]. cbn in *. repeat (split; [congruence|]). intros p c f Hp Hc. symmetry. now apply (E []).
Qed.

Lemma alike_comp : forall x i x' i', alike x i x' i' -> forall n p l k f, valid n x -> (p < 2)%nat -> (k < 2 * l + 1)%nat -> comp x' i' p l k f = comp x i p l k f.
Proof.
  intros x i x' i' [S [D [F [d E]]]] n p l k f V Hp Hk. unfold comp. rewrite S, D.
  destruct (Nat.leb_spec ((l + 1) * (l + 1)) (fD x)); [|reflexivity]. destruct V as [VS VD].
  destruct (Nat.eqb_spec (fS x) 2); [apply E; nia|]. destruct (p =? l mod 2)%nat; [|reflexivity]. apply E; nia.
Qed.

Lemma comp_alike : forall n x i x' i', valid n x -> fS x' = fS x -> fD x' = fD x -> fF x' = fF x -> fdt x' = fdt x ->
  (forall p l k f, (p < 2)%nat -> (l < n)%nat -> (k < 2 * l + 1)%nat -> comp x' i' p l k f = comp x i p l k f) -> alike x i x' i'.
Proof.
  intros n x i x' i' V S D F d E. apply alike_items. apply (comp_determines n); try (cbn; congruence).
  - destruct V. split; assumption.
  - destruct V. split; cbn; congruence.
  - intros j p l k f Hp Hl Hk. symmetry. exact (E p l k f Hp Hl Hk).
Qed.

Lemma alike_valid : forall n x i x' i', alike x i x' i' -> valid n x -> valid n x'.
Proof. intros n x i x' i' [S [D _]] [VS VD]. split; congruence. Qed.

Lemma alike_scalars : forall x i x' i', alike x i x' i' -> has_scalars x -> has_scalars x'.
Proof. intros x i x' i' A [n V]. exists n. exact (alike_valid _ _ _ _ _ A V). Qed.

(** * Layers that treat each node by itself *)

Lemma dense_alike : forall F ub P x x' y y' i i', dense F ub P x = Ok y -> dense F ub P x' = Ok y' -> alike x i x' i' -> alike y i y' i'.
Proof.
  intros F ub P x x' y y' i i' H H' A. destruct (dense_ok_inv _ _ _ _ _ H) as [n [V Hn]].
  pose proof (alike_valid _ _ _ _ _ A V) as V'.
  destruct (dense_comp n x F ub P V Hn) as [y0 [E [Vy [B [S [Fy [dy C]]]]]]]. assert (y0 = y) by congruence. subst y0.
  destruct (dense_comp n x' F ub P V' Hn) as [y0 [E' [Vy' [B' [S' [Fy' [dy' C']]]]]]]. assert (y0 = y') by congruence. subst y0.
  pose proof A as [AS [AD [AF [Ad _]]]].
  apply (comp_alike n); auto; try congruence; [rewrite (proj2 Vy), (proj2 Vy'); reflexivity|].
  intros p l k f Hp Hl Hk. pose proof (proj2 Vy) as DY. pose proof (proj2 Vy') as DY'. assert (SY : fS y' = fS y) by congruence.
  assert (HL : ((l + 1) * (l + 1) <= n * n)%nat) by nia.
  destruct (Nat.eq_dec (fS y) 2) as [E2|E2].
  - assert (HS : has_slot y p l) by (split; [lia|left; congruence]). assert (HS' : has_slot y' p l) by (split; [lia|left; congruence]).
    rewrite C, C' by assumption. f_equal. rewrite AF. apply rsum_ext. intros a _. f_equal. now apply (alike_comp x i x' i' A n).
  - assert (E1 : fS y = 1%nat) by (destruct Vy as [[?|?] _]; congruence). destruct (Nat.eq_dec p (l mod 2)) as [Ep|Ep].
    + assert (HS : has_slot y p l) by (split; [lia|right; split; congruence]). assert (HS' : has_slot y' p l) by (split; [lia|right; split; congruence]).
      rewrite C, C' by assumption. f_equal. rewrite AF. apply rsum_ext. intros a _. f_equal. now apply (alike_comp x i x' i' A n).
    + unfold comp. rewrite SY, DY, DY'.
      destruct (_ <=? _)%nat; [|reflexivity]. destruct (Nat.eqb_spec (fS y) 2); [congruence|]. destruct (Nat.eqb_spec p (l mod 2)); [congruence|reflexivity].
Qed.

Lemma activation_alike : forall erf eps alpha act x x' y y' i i', In act (activations erf eps alpha) -> has_scalars x ->
  act x = Ok y -> act x' = Ok y' -> alike x i x' i' -> alike y i y' i'.
Proof.
  intros erf eps alpha act x x' y y' i i' Ha [n V] H H' A. destruct (activation_gated erf eps alpha act Ha) as [g G].
  destruct (G x) as [y0 [E [_ Q]]]. assert (y0 = y) by congruence. subst y0.
  destruct (G x') as [y0 [E' [_ Q']]]. assert (y0 = y') by congruence. subst y0.
  destruct Q as [_ [QS [QD [QF [Qd QV]]]]]. destruct Q' as [_ [QS' [QD' [QF' [Qd' QV']]]]]. destruct A as [AS [AD [AF [Ad AV]]]]. cbn in *.
  repeat (split; [congruence|]). intros p d f Hp Hd. rewrite QV, QV' by congruence.
  assert (S0 : (0 < fS x)%nat) by (destruct V as [[?|?] _]; lia). assert (D0 : (0 < fD x)%nat) by (destruct V as [_ VD]; nia).
  rewrite !AV by congruence. reflexivity.
Qed.

Lemma change_alike : forall md incl x x' y y' i i', degree_ok md -> has_scalars x ->
  change_max_degree_or_type x md incl = Ok y -> change_max_degree_or_type x' md incl = Ok y' -> alike x i x' i' -> alike y i y' i'.
Proof.
  intros md incl x x' y y' i i' Hmd [n V] H H' A.
  assert (M : exists m, (0 < m)%nat /\ (md = Some (Z.of_nat m - 1)%Z \/ (md = None /\ m = S n))).
  { destruct md as [d|]; [|exists (S n); split; [lia|auto]]. specialize (Hmd d eq_refl). exists (Z.to_nat (d + 1)). split; [lia|]. left. f_equal. lia. }
  destruct M as [m [Hm HM]]. pose proof (alike_valid _ _ _ _ _ A V) as V'.
  destruct (change_comp (S n) x m md incl V HM (or_introl Hm)) as [y0 [E [Vy [B [S0 [F [d C]]]]]]]. assert (y0 = y) by congruence. subst y0.
  destruct (change_comp (S n) x' m md incl V' HM (or_introl Hm)) as [y0 [E' [Vy' [B' [S' [F' [d' C']]]]]]]. assert (y0 = y') by congruence. subst y0.
  pose proof A as [AS [AD [AF [Ad _]]]]. assert (ES : fS y' = fS y) by (rewrite S', S0, AS; reflexivity).
  apply (comp_alike m); auto; try congruence; [rewrite (proj2 Vy), (proj2 Vy'); reflexivity|].
  intros p l k f Hp Hl Hk. rewrite C, C' by assumption. rewrite ES. destruct (_ && _)%bool; [|reflexivity]. now apply (alike_comp x i x' i' A (S n)).
Qed.

Lemma add_alike : forall xs xs' y y' i i', add xs = Ok y -> add xs' = Ok y' -> Forall2 (fun x x' => alike x i x' i') xs xs' -> alike y i y' i'.
Proof.
  intros xs xs' y y' i i' H H' A. destruct (add_ok_inv _ _ H) as [x0 [t [-> HC]]]. destruct (add_ok_inv _ _ H') as [x0' [t' [-> HC']]].
  destruct (add_ok x0 t HC) as [m [y0 [E [V [Hm [B [F [d [S0 [H1 [H2 C]]]]]]]]]]]. assert (y0 = y) by congruence. subst y0.
  destruct (add_ok x0' t' HC') as [m' [y0 [E' [V' [Hm' [B' [F' [d' [S' [H1' [H2' C']]]]]]]]]]]. assert (y0 = y') by congruence. subst y0.
  assert (LIN : forall x, In x (x0 :: t) -> exists x', In x' (x0' :: t') /\ alike x i x' i').
  { clear -A. generalize dependent A. generalize (x0 :: t) (x0' :: t'). induction 1 as [|a a' u u' Ta _ IH]; intros x Hx; [destruct Hx|].
    destruct Hx as [<-|Hx]; [exists a'; split; [now left|exact Ta]|]. destruct (IH x Hx) as [x' [I J]]. exists x'. split; [now right|exact J]. }
  assert (RIN : forall x', In x' (x0' :: t') -> exists x, In x (x0 :: t) /\ alike x i x' i').
  { clear -A. generalize dependent A. generalize (x0 :: t) (x0' :: t'). induction 1 as [|a a' u u' Ta _ IH]; intros x Hx; [destruct Hx|].
    destruct Hx as [<-|Hx]; [exists a; split; [now left|exact Ta]|]. destruct (IH x Hx) as [x' [I J]]. exists x'. split; [now right|exact J]. }
  rewrite Forall_forall in H1, H1'.
  assert (LE : (m <= m')%nat).
  { destruct H2 as [->|[x [Hx Ex]]]; [lia|]. destruct (LIN x Hx) as [x' [Hx' Tx]]. specialize (H1' x' Hx'). destruct Tx as [_ [TD _]]. nia. }
  assert (GE : (m' <= m)%nat).
  { destruct H2' as [->|[x [Hx Ex]]]; [lia|]. destruct (RIN x Hx) as [x' [Hx' Tx]]. specialize (H1 x' Hx'). destruct Tx as [_ [TD _]]. nia. }
  assert (m' = m) by lia. subst m'.
  assert (ES : existsb (fun x => (fS x =? 2)%nat) (x0' :: t') = existsb (fun x => (fS x =? 2)%nat) (x0 :: t)).
  { clear -A. generalize dependent A. generalize (x0 :: t) (x0' :: t'). induction 1 as [|a a' u u' Ta _ IH]; [reflexivity|]. cbn [existsb]. destruct Ta as [-> _]. now rewrite IH. }
  assert (A0 : alike x0 i x0' i') by (inversion A; assumption). destruct A0 as [_ [_ [AF [Ad _]]]].
  apply (comp_alike m); auto; try congruence; [rewrite S', S0, ES; reflexivity|rewrite (proj2 V), (proj2 V'); reflexivity|].
  intros p l k f Hp Hl Hk. rewrite C, C' by assumption.
  assert (VX : Forall well_formed (x0 :: t)) by (eapply Forall_impl; [|exact HC]; intros a [_ [_ [_ W]]]; exact W).
  clear -A Hp Hk VX. revert VX. generalize dependent A. generalize (x0 :: t) (x0' :: t'). unfold sum_R. induction 1 as [|a a' u u' Ta _ IH]; intros VX; cbn [map fold_right]; [reflexivity|].
  inversion VX as [|? ? [n Va] Vu]; subst. rewrite IH by assumption. f_equal. now apply (alike_comp a i a' i' Ta n).
Qed.

Section Layers.
Variable cgf : Z -> Z -> Z -> result (nat -> nat -> nat -> R).
Hypothesis checked : cg_checked cgf.

Lemma any_tensor_same : forall md incl P x1 x2 x1' x2' z, degree_ok md -> well_formed x1 -> well_formed x2 -> same_feature x1 x1' -> same_feature x2 x2' ->
  any_tensor cgf md incl P x1 x2 = Ok z -> exists z', any_tensor cgf md incl P x1' x2' = Ok z' /\ same_feature z z'.
Proof using checked.
  intros md incl P x1 x2 x1' x2' z Hmd [n1 V1] [n2 V2] Q1 Q2 H.
  destruct (any_tensor_transformed cgf 1 identity_matrices identity_matrices identity_matrices md incl P x1 x2 x1' x2' z checked) as [z' [E' T]]; auto.
  - ring.
  - apply identity_orthogonal.
  - apply identity_cg_commutes.
  - intros Bx EBx i. split; reflexivity.
  - apply (same_transformed n1 x1 x1' V1 Q1).
  - apply (same_transformed n2 x2 x2' V2 Q2).
  - exists z'. split; [exact E'|].
    assert (exists nr, valid nr z) as [nr Vr].
    { destruct P as [K|K]; cbn [any_tensor] in H.
      - destruct (tensor_couplings cgf n1 n2 x1 x2 md incl K z checked V1 V2 H) as [n3 [C [B0 [_ [_ [_ [_ [_ [_ [_ [_ [Vz _]]]]]]]]]]]]. eauto.
      - destruct (fused_couplings cgf n1 n2 x1 x2 md incl K z checked Hmd V1 V2 H) as [n3 [n' [M [C [B0 [_ [_ [_ [_ [_ [_ [_ [_ [Vz _]]]]]]]]]]]]]]. eauto. }
    apply (transformed_same nr); assumption.
Qed.

Lemma part_alike : forall x i m x' i' m', part x i m -> part x' i' m' -> same_feature m m' -> alike x i x' i'.
Proof.
  intros x i m x' i' m' [_ [S [D [F [d V]]]]] [_ [S' [D' [F' [d' V']]]]] [_ [QS [QD [QF [Qd QV]]]]].
  repeat (split; [congruence|]). intros p c f Hp Hc. rewrite <- (V [] p c f), <- (V' [] p c f). symmetry. apply QV; congruence.
Qed.

Lemma tensor_alike : forall md incl P x1 x2 x1' x2' z z' i i', degree_ok md -> has_scalars x1 -> has_scalars x2 -> fB x1 = fB x2 -> fB x1' = fB x2' ->
  any_tensor cgf md incl P x1 x2 = Ok z -> any_tensor cgf md incl P x1' x2' = Ok z' -> alike x1 i x1' i' -> alike x2 i x2' i' -> alike z i z' i'.
Proof using checked.
  intros md incl P x1 x2 x1' x2' z z' i i' Hmd [n1 V1] [n2 V2] B B' H H' A1 A2.
  destruct (any_tensor_part cgf md incl P x1 x2 z i _ _ B (item_part x1 i) (item_part x2 i) H) as [m [Em Pm]].
  destruct (any_tensor_part cgf md incl P x1' x2' z' i' _ _ B' (item_part x1' i') (item_part x2' i') H') as [m' [Em' Pm']].
  apply alike_items in A1. apply alike_items in A2.
  destruct (any_tensor_same md incl P (item x1 i) (item x2 i) (item x1' i') (item x2' i') m Hmd) as [m0 [E0 Q]]; auto.
  - exists (S n1). destruct V1. split; assumption.
  - exists (S n2). destruct V2. split; assumption.
  - assert (m0 = m') by congruence. subst m0. exact (part_alike _ _ _ _ _ _ Pm Pm' Q).
Qed.

Lemma tensor_dense_alike : forall features md incl ub Pd Pt x x' z z' i i', degree_ok md -> has_scalars x ->
  tensor_dense cgf features md incl ub Pd Pt x = Ok z -> tensor_dense cgf features md incl ub Pd Pt x' = Ok z' -> alike x i x' i' -> alike z i z' i'.
Proof using checked.
  intros features md incl ub Pd Pt x x' z z' i i' Hmd V H H' A. unfold tensor_dense in *. pose proof A as [_ [_ [AF _]]]. rewrite AF in H'.
  apply bind_inv in H as [y [Ey H]]. apply bind_inv in H' as [y' [Ey' H']].
  pose proof (dense_alike _ _ _ _ _ _ _ _ _ Ey Ey' A) as Ay. destruct (dense_scalars _ _ _ _ _ Ey) as [n [VS VD]].
  refine (tensor_alike md incl Pt _ _ _ _ z z' i i' Hmd _ _ _ _ H H' _ _); try reflexivity.
  - exists n. split; assumption.
  - exists n. split; assumption.
  - destruct Ay as [YS [YD [YF [Yd YV]]]]. repeat (split; [cbn; congruence|]). intros p d f Hp Hd. cbn in *. now apply YV.
  - destruct Ay as [YS [YD [YF [Yd YV]]]]. repeat (split; [cbn; congruence|]). intros p d f Hp Hd. cbn in *. now apply YV.
Qed.
End Layers.

(** * Sums over the incoming edges *)

Lemma rsum_filter : forall Q (c : nat -> bool) (h : nat -> R), rsum Q (fun e => if c e then h e else 0) = sum_over (filter c (seq 0 Q)) h.
Proof.
  intros Q c h. assert (G : forall Q a, rsum Q (fun e => if c (a + e)%nat then h (a + e)%nat else 0) = sum_over (filter c (seq a Q)) h).
  { clear Q. induction Q as [|Q IH]; intros a; [reflexivity|]. rewrite rsum_S_l. cbn [seq filter]. rewrite Nat.add_0_r.
    rewrite (rsum_ext _ _ (fun e => if c (S a + e)%nat then h (S a + e)%nat else 0)) by (intros e _; replace (a + S e)%nat with (S a + e)%nat by lia; reflexivity).
    rewrite IH. destruct (c a); cbn [sum_over fold_right]; [reflexivity|]. unfold sum_over. ring. }
  exact (G Q 0%nat).
Qed.

Lemma sum_over_map : forall (A B : Type) (u : A -> B) l h, sum_over (map u l) h = sum_over l (fun a => h (u a)).
Proof. intros A B u l h. unfold sum_over. induction l as [|a l IH]; [reflexivity|]. cbn [map fold_right]. rewrite IH. reflexivity. Qed.

Lemma sum_over_ext : forall (A : Type) l (h h' : A -> R), (forall a, In a l -> h a = h' a) -> sum_over l h = sum_over l h'.
Proof. intros A l h h' H. unfold sum_over. induction l as [|a l IH]; [reflexivity|]. cbn [fold_right]. rewrite (H a) by now left. f_equal. apply IH. intros; apply H; now right. Qed.

Lemma sum_over_perm : forall (A : Type) l l' (h : A -> R), Permutation l l' -> sum_over l h = sum_over l' h.
Proof. intros A l l' h H. unfold sum_over. induction H; cbn [fold_right] in *; try rewrite IHPermutation; try reflexivity; [ring|congruence]. Qed.

Lemma sum_over_matched : forall (A B : Type) (R : A -> B -> Prop) l l' h h', Forall2 R l l' -> (forall a b, In a l -> In b l' -> R a b -> h a = h' b) -> sum_over l h = sum_over l' h'.
Proof.
  intros A B R l l' h h' H. unfold sum_over. induction H as [|a b l l' Hab _ IH]; intros E; [reflexivity|]. cbn [fold_right]. rewrite (E a b); [|now left|now left|exact Hab]. f_equal.
  apply IH. intros; apply E; auto; now right.
Qed.

Lemma matched_sum : forall s s' n n' (R : list nat * nat -> list nat * nat -> Prop) h h', matched s s' n n' R ->
  (forall e e', In e (incoming (s_graph s) (s_nodes s) (s_at s) n) -> In e' (incoming (s_graph s') (s_nodes s') (s_at s') n') -> R e e' -> h e = h' e') ->
  sum_over (incoming (s_graph s) (s_nodes s) (s_at s) n) h = sum_over (incoming (s_graph s') (s_nodes s') (s_at s') n') h'.
Proof.
  intros s s' n n' R h h' [es' [Hp H]] E. rewrite <- (sum_over_perm _ _ _ h' Hp). apply (sum_over_matched _ _ R _ _ _ _ H).
  intros a b Ha Hb. apply E; [exact Ha|]. eapply Permutation_in; eassumption.
Qed.

(** The two formats in one: c selects the edges of node n among Q candidates. *)
Definition selected (g : graph) (N : nat) (b : list nat) (n : nat) : nat * (nat -> bool) * (nat -> list nat) * (nat -> nat) :=
  match g_adj g with
  | Some (_, M, adj) => (M, dense_edge g N b n, fun m => b ++ [n; m], fun m => Z.to_nat (nth m (nth n (adj b) []) 0%Z))
  | None =>
      match g_dst g, g_src g with
      | Some (Q, dst), Some (_, src) => (Q, fun e => at_node (dst b) e n, fun e => b ++ [e], fun e => Z.to_nat (nth e (src b) 0%Z))
      | _, _ => (0%nat, fun _ => false, fun _ => b, fun _ => 0%nat)
      end
  end.

Lemma incoming_selected : forall g N b n, incoming g N b n = let '(Q, c, i, j) := selected g N b n in map (fun e => (i e, j e)) (filter c (seq 0 Q)).
Proof. intros g N b n. unfold incoming, selected. destruct (g_adj g) as [[[? M] adj]|]; [reflexivity|]. destruct (g_dst g) as [[Q dst]|]; [|reflexivity]. destruct (g_src g) as [[? src]|]; reflexivity. Qed.

Lemma incoming_in : forall g N b n e, In e (incoming g N b n) -> let '(Q, c, i, j) := selected g N b n in exists k, (k < Q)%nat /\ c k = true /\ e = (i k, j k).
Proof.
  intros g N b n e H. rewrite incoming_selected in H. destruct (selected g N b n) as [[[Q c] i] j]. apply in_map_iff in H as [k [<- H]].
  apply filter_In in H as [H1 H2]. apply in_seq in H1. exists k. repeat split; auto; lia.
Qed.

Lemma incoming_nodes : forall g N b n e, good_graph g N b -> (n < N)%nat -> In e (incoming g N b n) -> (snd e < N)%nat.
Proof.
  intros g N b n e G Hn H. apply incoming_in in H. unfold good_graph, selected in *. destruct (g_adj g) as [[[K M] adj]|].
  - destruct H as [m [Hm [Hc ->]]]. cbn. destruct G as [_ G]. destruct (G n m Hn Hm Hc) as [j [Hj Ha]]. rewrite (at_node_value _ _ _ Ha). exact Hj.
  - destruct G as [G _]. destruct (g_dst g) as [[Q dst]|]; [|contradiction]. destruct (g_src g) as [[Q' src]|]; [|contradiction].
    destruct H as [k [Hk [Hc ->]]]. cbn. destruct G as [_ G]. destruct (G k n Hk Hn Hc) as [j [Hj Ha]]. rewrite (at_node_value _ _ _ Ha). exact Hj.
Qed.

Section Graphs.
Variable cgf : Z -> Z -> Z -> result (nat -> nat -> nat -> R).
Hypothesis checked : cg_checked cgf.

(** * Message passing *)

Lemma pass_incoming : forall md incl ub P x basis g y N b B, degree_ok md -> has_scalars x -> fB x = B ++ [N] -> good_graph g N b ->
  message_pass cgf md incl ub P x basis None g = Ok y ->
  forall n, (n < N)%nat ->
    let message := fun e : list nat * nat => message_at cgf md incl ub P x basis None g (fst e) (b ++ [snd e]) in
    (forall e, In e (incoming g N b n) -> exists r, message e = Ok r /\ fS r = fS y /\ fD r = fD y /\ fF r = fF y)
    /\ forall p d f, (p < fS y)%nat -> (d < fD y)%nat -> fv y (b ++ [n]) p d f = sum_over (incoming g N b n) (fun e => entry (message e) p d f).
Proof using checked.
  intros md incl ub P x basis g y N b B Hmd [k V] HB G H n Hn message.
  assert (LX : last1 (fB x) = N) by (rewrite HB; apply last1_snoc).
  assert (Vx : well_formed x) by (now exists (S k)).
  assert (Hw : forall w0 : feat, None = Some w0 -> scalar_weights g x w0) by discriminate.
  rewrite incoming_selected. unfold good_graph in G. unfold selected. destruct (g_adj g) as [[[K M] adj]|] eqn:GA.
  - destruct G as [-> G]. pose proof G as G0. unfold dense_sources in G0.
    destruct (pass_dense cgf md incl ub P x basis None g y N M adj b checked Hmd Vx Hw GA H) as [_ HE]; [rewrite LX; exact G|].
    destruct (HE n Hn) as [H1 H2]. rewrite LX in H1, H2. split.
    + intros e He. apply in_map_iff in He as [m [<- He]]. apply filter_In in He as [A1 A2]. apply in_seq in A1. apply H1; [lia|exact A2].
    + intros p d f Hp Hd. rewrite H2 by assumption. rewrite rsum_filter, sum_over_map. reflexivity.
  - destruct G as [G GS]. destruct (g_dst g) as [[Q dst]|] eqn:GD; [|contradiction]. destruct (g_src g) as [[Q' src]|] eqn:GR; [|contradiction]. destruct G as [HL G].
    assert (LY : last1 (fB y) = N).
    { unfold message_pass in H. apply bind_inv in H as [z [Ez H]]. cbn [bind] in H.
      destruct (conv_parts cgf _ _ _ _ _ _ _ _ H) as [u [EI _]].
      destruct (indexed_sum_inv u _ y EI) as [_ [_ [_ [_ [[? [? [? [? [GA' _]]]]]|[? [? [n0 [_ [_ [GN [_ [YB _]]]]]]]]]]]]]; [cbn in GA'; congruence|].
      rewrite YB, last1_snoc. cbn [with_defaults g_segments] in GN. destruct (g_segments g); cbn in GN; congruence. }
    destruct (pass_sparse cgf md incl ub P x basis None g y Q dst Q' src b checked Hmd Vx Hw GD GR H) as [_ HE].
    { rewrite LX, LY. exact G. }
    rewrite LY in HE. destruct (HE n Hn) as [H1 H2]. split.
    + intros e He. apply in_map_iff in He as [m [<- He]]. apply filter_In in He as [A1 A2]. apply in_seq in A1. apply H1; [lia|exact A2].
    + intros p d f Hp Hd. rewrite H2 by assumption. rewrite rsum_filter, sum_over_map. reflexivity.
Qed.

(** Shapes of the result. *)
Definition same_slots (x x' : feat) : Prop := fS x' = fS x /\ fD x' = fD x /\ fF x' = fF x /\ fdt x' = fdt x.

Lemma conv_slots : forall md incl ub P u u' basis basis' g g' y y', same_slots u u' ->
  match basis, basis' with Some b, Some b' => same_slots b b' | None, None => True | _, _ => False end ->
  conv cgf md incl ub P u basis g = Ok y -> conv cgf md incl ub P u' basis' g' = Ok y' -> same_slots y y'.
Proof.
  intros md incl ub P u u' basis basis' g g' y y' Hu Hb H H'.
  destruct (conv_parts cgf md incl ub P u basis _ y H) as [z [EI HP]].
  destruct (conv_parts cgf md incl ub P u' basis' _ y' H') as [z' [EI' HP']].
  destruct (indexed_sum_inv _ _ _ EI) as [S1 [D1 [F1 [d1 _]]]]. destruct (indexed_sum_inv _ _ _ EI') as [S2 [D2 [F2 [d2 _]]]].
  destruct (HP [] (item u []) (item_part u [])) as [r [Er [_ [RS [RD [RF [Rd _]]]]]]].
  destruct (HP' [] (item u' []) (item_part u' [])) as [r' [Er' [_ [RS' [RD' [RF' [Rd' _]]]]]]].
  destruct Hu as [US [UD [UF Ud]]].
  assert (Sr : Fshape r r').
  { assert (Si : Fshape (item u []) (item u' [])) by (repeat split; cbn; congruence).
    destruct basis as [bs|], basis' as [bs'|]; try contradiction; cbn [option_map edge_message] in *.
    - assert (Sb : Fshape (item bs []) (item bs' [])) by (destruct Hb as [? [? [? ?]]]; repeat split; cbn; congruence).
      destruct (dense (fF (item u [])) ub (c_filter P) (item bs [])) as [fl|] eqn:EDn; [|discriminate]. cbn [bind] in Er.
      destruct (dense_like _ _ _ _ _ fl Sb EDn) as [fl' [EDn' Sf]].
      assert (EFF : fF (item u' []) = fF (item u [])) by (cbn; congruence). rewrite EFF, EDn' in Er'. cbn [bind] in Er'.
      destruct (any_tensor_like cgf md incl (c_tensor P) _ _ _ _ r Sf Si Er) as [r0 [E0 S0]]. congruence.
    - injection Er as <-. injection Er' as <-. exact Si. }
  destruct Sr as [_ [? [? [? ?]]]]. repeat split; congruence.
Qed.

Lemma edge_message_alike : forall md incl ub P xs xs' bs bs' r, degree_ok md -> well_formed xs -> same_feature xs xs' ->
  match bs, bs' with Some x, Some x' => same_feature x x' | None, None => True | _, _ => False end ->
  edge_message cgf md incl ub P xs bs = Ok r -> exists r', edge_message cgf md incl ub P xs' bs' = Ok r' /\ same_feature r r'.
Proof using checked.
  intros md incl ub P xs xs' bs bs' r Hmd V Q Hb H. destruct bs as [bs|], bs' as [bs'|]; try contradiction.
  - unfold edge_message in *. pose proof Q as [_ [_ [_ [F _]]]]. rewrite <- F. apply bind_inv in H as [fl [Ef H]].
    destruct (dense_like (fF xs) ub (c_filter P) bs bs' fl) as [fl' [Ef' Sf]]; [destruct Hb as [? [? [? [? [? _]]]]]; repeat split; congruence|exact Ef|].
    rewrite Ef'. cbn [bind].
    assert (Qf : same_feature fl fl').
    { destruct Sf as [SB [SS [SD [SF Sd]]]]. repeat (split; [congruence|]). intros i p d f Hp Hd.
      assert (A : alike bs i bs' i) by (destruct Hb as [? [? [? [? [? E]]]]]; repeat (split; [congruence|]); intros; symmetry; now apply E).
      destruct (dense_alike _ _ _ _ _ _ _ _ _ Ef Ef' A) as [_ [_ [_ [_ E]]]]. symmetry. now apply E. }
    destruct (dense_scalars _ _ _ _ _ Ef) as [k Vf].
    apply (any_tensor_same cgf checked md incl (c_tensor P) fl xs fl' xs' r Hmd); auto. now exists (S k).
  - injection H as <-. exists xs'. split; [reflexivity|exact Q].
Qed.

Lemma pass_batch : forall md incl ub P x basis g y N b B, fB x = B ++ [N] -> good_graph g N b ->
  message_pass cgf md incl ub P x basis None g = Ok y -> fB y = B ++ [N].
Proof.
  intros md incl ub P x basis g y N b B HB G H. unfold message_pass in H. apply bind_inv in H as [z [Ez H]]. cbn [bind] in H.
  destruct (conv_axes cgf _ _ _ _ _ _ _ _ H) as [u [EI [UB _]]]. unfold good_graph in G.
  destruct (gather_src_inv _ _ _ Ez) as [_ [_ [_ [_ [[N1 [M1 [adj1 [GA [_ [ZB _]]]]]]|[Q1 [src1 [GA [GR [ZB _]]]]]]]]]].
  - destruct (indexed_sum_inv _ _ _ EI) as [_ [_ [_ [_ [[? [? [? [? [GA' [_ [_ [_ [YB _]]]]]]]]]|[? [? [? [GA' _]]]]]]]]]; cbn in GA'; [|congruence].
    rewrite GA in G. rewrite YB, UB, ZB, but_last_snoc2, HB, but_last_snoc. destruct G as [-> _]. reflexivity.
  - destruct (indexed_sum_inv _ _ _ EI) as [_ [_ [_ [_ [[? [? [? [? [GA' _]]]]]|[? [? [n0 [_ [_ [GN [_ [YB _]]]]]]]]]]]]]; [cbn in GA'; congruence|].
    rewrite GA in G. destruct G as [_ G]. rewrite YB, UB, ZB, but_last_snoc, HB, but_last_snoc. cbn [with_defaults g_segments] in GN. rewrite HB, last1_snoc in GN.
    destruct (g_segments g); cbn in GN; congruence.
Qed.

Lemma pass_alike : forall s s' md incl ub P x x' y y' B B' n n', degree_ok md -> same_kind s s' -> (forall bs, s_basis s = Some bs -> has_scalars bs) ->
  has_scalars x -> fB x = B ++ [s_nodes s] -> fB x' = B' ++ [s_nodes s'] ->
  good_graph (s_graph s) (s_nodes s) (s_at s) -> good_graph (s_graph s') (s_nodes s') (s_at s') ->
  message_pass cgf md incl ub P x (s_basis s) None (s_graph s) = Ok y -> message_pass cgf md incl ub P x' (s_basis s') None (s_graph s') = Ok y' ->
  (n < s_nodes s)%nat -> (n' < s_nodes s')%nat -> same_slots x x' ->
  matched s s' n n' (fun e e' => edge_alike s s' (fst e) (fst e') /\ alike x (s_at s ++ [snd e]) x' (s_at s' ++ [snd e'])) ->
  alike y (s_at s ++ [n]) y' (s_at s' ++ [n']).
Proof using checked.
  intros s s' md incl ub P x x' y y' B B' n n' Hmd HK HBS V HB HB' G G' H H' Hn Hn' HX HM.
  assert (V' : has_scalars x') by (destruct V as [k [VS VD]]; destruct HX as [XS [XD _]]; exists k; split; congruence).
  destruct (pass_incoming md incl ub P x _ _ y _ _ B Hmd V HB G H n Hn) as [F1 F2].
  destruct (pass_incoming md incl ub P x' _ _ y' _ _ B' Hmd V' HB' G' H' n' Hn') as [F1' F2'].
  assert (SL : same_slots y y').
  { unfold message_pass in H, H'. apply bind_inv in H as [z [Ez H]]. apply bind_inv in H' as [z' [Ez' H']]. cbn [bind] in H, H'.
    refine (conv_slots md incl ub P z z' _ _ _ _ y y' _ _ H H').
    - destruct (gather_src_inv _ _ _ Ez) as [? [? [? [? _]]]]. destruct (gather_src_inv _ _ _ Ez') as [? [? [? [? _]]]]. destruct HX as [? [? [? ?]]]. repeat split; congruence.
    - exact HK. }
  destruct SL as [YS [YD [YF Yd]]]. repeat (split; [assumption|]). intros p d f Hp Hd.
  rewrite F2' by congruence. rewrite F2 by assumption. symmetry. apply (matched_sum s s' n n' _ _ _ HM).
  intros e e' He He' [EA XA]. destruct (F1 e He) as [r [Er [RS [RD _]]]]. destruct (F1' e' He') as [r' [Er' _]]. rewrite Er, Er'. cbn [entry].
  unfold message_at in *. destruct V as [k [VS VD]].
  destruct (edge_message_alike md incl ub P (weighted (edge_weight None (removelast (fB x) ++ edge_axes (s_graph s)) (fF x) (fst e)) (item x (s_at s ++ [snd e])))
     (weighted (edge_weight None (removelast (fB x') ++ edge_axes (s_graph s')) (fF x') (fst e')) (item x' (s_at s' ++ [snd e'])))
     (option_map (fun bs => item bs (fst e)) (s_basis s)) (option_map (fun bs => item bs (fst e')) (s_basis s')) r Hmd) as [r0 [E0 Q]].
  - exists (S k). split; assumption.
  - destruct XA as [XS [XD [XF [Xd XV]]]]. repeat (split; [cbn; congruence|]). intros j p0 d0 f0 Hp0 Hd0. cbn in *. f_equal. symmetry. now apply XV.
  - destruct EA as [EA _]. destruct (s_basis s) as [bs|], (s_basis s') as [bs'|]; cbn [option_map]; try contradiction; [|exact I]. now apply alike_items.
  - exact Er.
  - assert (r0 = r') by congruence. subst r0. destruct Q as [_ [_ [_ [_ [_ QV]]]]]. apply QV; congruence.
Qed.
End Graphs.

(** * Attention *)

Section Attention.
Variables (cgf : Z -> Z -> Z -> result (nat -> nat -> nat -> R)) (lo hi : R).
Hypothesis checked : cg_checked cgf.

(** Weight of an edge before normalisation. *)
Definition edge_factor (o : attention_options) (P : attention_params) (basis : option feat) (cutoff : option (list nat -> R)) (q k : feat) (nd F : nat) (b : list nat) (n c : nat) (e : list nat * nat) : R :=
  cutoff_at cutoff (fst e) * exp (head_score (o_heads o) q k (relative_factor o P basis nd F (fst e)) (b ++ [n]) (b ++ [snd e]) (c / (F / o_heads o))).

Definition attention_message (o : attention_options) (P : attention_params) (basis : option feat) (cutoff : option (list nat -> R)) (q k v : feat) (nd F : nat) (b : list nat) (n : nat) (es : list (list nat * nat)) (e : list nat * nat) : result feat :=
  edge_message cgf (o_max_degree o) (o_include o) (o_basis_bias o) (a_conv P)
    (weighted (fun c => edge_factor o P basis cutoff q k nd F b n c e / sum_over es (edge_factor o P basis cutoff q k nd F b n c)) (item v (b ++ [snd e])))
    (option_map (fun bs => item bs (fst e)) (if o_rel_v o then basis else None)).

Lemma attention_incoming : forall o P xq xkv basis cutoff g y nq nk N b B, valid nq xq -> valid nk xkv -> fB xq = B ++ [N] -> fB xkv = B ++ [N] ->
  good_graph g N b -> good_cutoffs g cutoff N b ->
  multi_head_attention cgf lo hi o P xq xkv basis cutoff g = Ok y ->
  let F := match o_qkv o with None => fF xq | Some F => F end in
  let nd := Nat.min nq nk in
  exists q k v att, attention_inputs o P xq xkv nd q k v att y /\ fB att = B ++ [N] /\ fF att = F
    /\ forall n, (n < N)%nat ->
       let message := attention_message o P basis cutoff q k v nd F b n (incoming g N b n) in
       (forall e, In e (incoming g N b n) -> exists r, message e = Ok r /\ fS r = fS att /\ fD r = fD att /\ fF r = fF att)
       /\ forall p d f, (p < fS att)%nat -> (d < fD att)%nat -> fv att (b ++ [n]) p d f = sum_over (incoming g N b n) (fun e => entry (message e) p d f).
Proof.
  intros o P xq xkv basis cutoff g y nq nk N b B Vq Vk HBq HBk G [C1 C2] H F nd.
  assert (LQ : last1 (fB xq) = N) by (rewrite HBq; apply last1_snoc). assert (LK : last1 (fB xkv) = N) by (rewrite HBk; apply last1_snoc).
  unfold good_graph in G. destruct (g_adj g) as [[[K M] adj]|] eqn:GA.
  - destruct G as [-> G].
    destruct (attention_dense cgf lo hi o P xq xkv basis cutoff g y nq nk N M adj Vq Vk H GA) as [q [k [v [att [HA [AB [AF HE]]]]]]].
    exists q, k, v, att. split; [exact HA|]. split; [rewrite AB, HBk, but_last_snoc; reflexivity|]. split; [exact AF|]. intros n Hn message.
    fold F nd in HE. specialize (HE b n Hn). rewrite LK in HE. specialize (HE (fun m => G n m Hn)).
    assert (EI : incoming g N b n = map (fun m => (b ++ [n; m], Z.to_nat (nth m (nth n (adj b) []) 0%Z))) (filter (dense_edge g N b n) (seq 0 M))) by (unfold incoming; rewrite GA; reflexivity).
    assert (HX : (exists m, (m < M)%nat /\ dense_edge g N b n m = true) -> exists m, (m < M)%nat /\ dense_edge g N b n m = true /\ 0 < cutoff_at cutoff (b ++ [n; m])).
    { intros [m [Hm He]]. assert (NE : incoming g N b n <> []).
      { rewrite EI. assert (I0 : In m (filter (dense_edge g N b n) (seq 0 M))) by (apply filter_In; split; [apply in_seq; lia|exact He]).
        destruct (filter (dense_edge g N b n) (seq 0 M)); [destruct I0|discriminate]. }
      specialize (C2 n Hn NE). rewrite Exists_exists, EI in C2. destruct C2 as [e [I1 I2]]. apply in_map_iff in I1 as [m1 [<- I1]]. apply filter_In in I1 as [I1 I3]. apply in_seq in I1.
      exists m1. repeat split; auto; lia. }
    specialize (HE (fun m _ => C1 (b ++ [n; m])) HX). cbv zeta in HE. destruct HE as [H1 H2].
    assert (EM : forall m, message (b ++ [n; m], Z.to_nat (nth m (nth n (adj b) []) 0%Z)) = edge_message cgf (o_max_degree o) (o_include o) (o_basis_bias o) (a_conv P)
                (weighted (fun c => share M (fun m' => dense_edge g N b n m') (fun m' => cutoff_at cutoff (b ++ [n; m']))
                     (fun m' => head_score (o_heads o) q k (relative_factor o P basis nd F (b ++ [n; m'])) (b ++ [n]) (b ++ [Z.to_nat (nth m' (nth n (adj b) []) 0%Z)]) (c / (F / o_heads o))) m)
                   (item v (b ++ [Z.to_nat (nth m (nth n (adj b) []) 0%Z)])))
                (option_map (fun bs => item bs (b ++ [n; m])) (if o_rel_v o then basis else None))).
    { intros m. unfold message, attention_message. cbn [fst snd]. f_equal. f_equal. apply FunctionalExtensionality.functional_extensionality. intros c. unfold share.
      rewrite rsum_filter, EI, sum_over_map. reflexivity. }
    split.
    + intros e He. rewrite EI in He. apply in_map_iff in He as [m [<- He]]. apply filter_In in He as [A1 A2]. apply in_seq in A1. rewrite EM. apply H1; [lia|exact A2].
    + intros p d f Hp Hd. rewrite H2 by assumption. rewrite rsum_filter, EI, sum_over_map. apply sum_over_ext. intros m _. rewrite EM. reflexivity.
  - destruct G as [G GS]. destruct (g_dst g) as [[Q dst]|] eqn:GD; [|contradiction]. destruct (g_src g) as [[Q' src]|] eqn:GR; [|contradiction]. destruct G as [HL G].
    destruct (attention_sparse cgf lo hi o P xq xkv basis cutoff g y nq nk Q dst Q' src Vq Vk H GD GR) as [q [k [v [att [HA [AB [AF HE]]]]]]].
    assert (EN : opt_default (g_segments g) (last1 (fB xq)) = N) by (rewrite LQ; destruct (g_segments g); cbn; auto).
    assert (AB' : fB att = B ++ [N]) by (rewrite AB, HBk, but_last_snoc, EN; reflexivity).
    exists q, k, v, att. split; [exact HA|]. split; [exact AB'|]. split; [exact AF|]. intros n Hn message.
    fold F nd in HE. specialize (HE b n). rewrite AB', last1_snoc, LQ, LK in HE. specialize (HE Hn Hn HL (fun e He => G e n He Hn)).
    assert (EI : incoming g N b n = map (fun e => (b ++ [e], Z.to_nat (nth e (src b) 0%Z))) (filter (fun e => at_node (dst b) e n) (seq 0 Q))) by (unfold incoming; rewrite GA, GD, GR; reflexivity).
    assert (HX : (exists e, (e < Q)%nat /\ at_node (dst b) e n = true) -> exists e, (e < Q)%nat /\ at_node (dst b) e n = true /\ 0 < cutoff_at cutoff (b ++ [e])).
    { intros [m [Hm He]]. assert (NE : incoming g N b n <> []).
      { rewrite EI. assert (I0 : In m (filter (fun e => at_node (dst b) e n) (seq 0 Q))) by (apply filter_In; split; [apply in_seq; lia|exact He]).
        destruct (filter (fun e => at_node (dst b) e n) (seq 0 Q)); [destruct I0|discriminate]. }
      specialize (C2 n Hn NE). rewrite Exists_exists, EI in C2. destruct C2 as [e [I1 I2]]. apply in_map_iff in I1 as [m1 [<- I1]]. apply filter_In in I1 as [I1 I3]. apply in_seq in I1.
      exists m1. repeat split; auto; lia. }
    specialize (HE (fun e _ => C1 (b ++ [e])) HX). cbv zeta in HE. destruct HE as [H1 H2].
    assert (EM : forall e, message (b ++ [e], Z.to_nat (nth e (src b) 0%Z)) = edge_message cgf (o_max_degree o) (o_include o) (o_basis_bias o) (a_conv P)
                (weighted (fun c => share Q (fun e' => at_node (dst b) e' n) (fun e' => cutoff_at cutoff (b ++ [e']))
                     (fun e' => head_score (o_heads o) q k (relative_factor o P basis nd F (b ++ [e'])) (b ++ [n]) (b ++ [Z.to_nat (nth e' (src b) 0%Z)]) (c / (F / o_heads o))) e)
                   (item v (b ++ [Z.to_nat (nth e (src b) 0%Z)])))
                (option_map (fun bs => item bs (b ++ [e])) (if o_rel_v o then basis else None))).
    { intros e. unfold message, attention_message. cbn [fst snd]. f_equal. f_equal. apply FunctionalExtensionality.functional_extensionality. intros c. unfold share.
      rewrite rsum_filter, EI, sum_over_map. reflexivity. }
    split.
    + intros e He. rewrite EI in He. apply in_map_iff in He as [m [<- He]]. apply filter_In in He as [A1 A2]. apply in_seq in A1. rewrite EM. apply H1; [lia|exact A2].
    + intros p d f Hp Hd. rewrite H2 by assumption. rewrite rsum_filter, EI, sum_over_map. apply sum_over_ext. intros m _. rewrite EM. reflexivity.
Qed.

Lemma attention_batch : forall o P xq xkv basis cutoff g y nq nk N b B, valid nq xq -> valid nk xkv -> fB xq = B ++ [N] -> fB xkv = B ++ [N] ->
  good_graph g N b -> good_cutoffs g cutoff N b ->
  multi_head_attention cgf lo hi o P xq xkv basis cutoff g = Ok y -> fB y = B ++ [N].
Proof.
  intros o P xq xkv basis cutoff g y nq nk N b B Vq Vk HBq HBk G C H.
  destruct (attention_incoming o P xq xkv basis cutoff g y nq nk N b B Vq Vk HBq HBk G C H) as [q [k [v [att [[_ [_ [_ HA]]] [AB _]]]]]].
  destruct (dense_batch _ _ _ _ _ HA) as [E _]. congruence.
Qed.

(** Shapes of the result of the layer. *)
Lemma attention_slots : forall o P xq xkv xq' xkv' basis basis' cutoff cutoff' g g' y y' nq nk, valid nq xq -> valid nk xkv ->
  same_slots xq xq' -> same_slots xkv xkv' ->
  match basis, basis' with Some b, Some b' => same_slots b b' | None, None => True | _, _ => False end ->
  multi_head_attention cgf lo hi o P xq xkv basis cutoff g = Ok y -> multi_head_attention cgf lo hi o P xq' xkv' basis' cutoff' g' = Ok y' ->
  fS y' = fS y /\ fD y' = fD y /\ fdt y' = fdt y.
Proof.
  intros o P xq xkv xq' xkv' basis basis' cutoff cutoff' g g' y y' nq nk Vq Vk [QS [QD [QF Qd]]] [KS [KD [KF Kd]]] HB H H'.
  assert (Vq' : valid nq xq') by (destruct Vq; split; congruence). assert (Vk' : valid nk xkv') by (destruct Vk; split; congruence).
  destruct (attention_parts cgf lo hi o P xq xkv basis cutoff g y nq nk Vq Vk H) as [q [k [v [att [gq [gk [gv [rel [[_ [_ [HV HY]]] [_ [_ [_ [_ [_ [_ [EV [_ EC]]]]]]]]]]]]]]]]].
  destruct (attention_parts cgf lo hi o P xq' xkv' basis' cutoff' g' y' nq nk Vq' Vk' H') as [q' [k' [v' [att' [gq' [gk' [gv' [rel' [[_ [_ [HV' HY']]] [_ [_ [_ [_ [_ [_ [EV' [_ EC']]]]]]]]]]]]]]]]].
  destruct (dense_batch _ _ _ _ _ HV) as [_ [VF [Vd [VS VD]]]]. destruct (dense_batch _ _ _ _ _ HV') as [_ [VF' [Vd' [VS' VD']]]].
  destruct (dense_batch _ _ _ _ _ HY) as [_ [YF [Yd [YS YD]]]]. destruct (dense_batch _ _ _ _ _ HY') as [_ [YF' [Yd' [YS' YD']]]].
  destruct (gather_src_inv _ _ _ EV) as [GS [GD [GF [Gd _]]]]. destruct (gather_src_inv _ _ _ EV') as [GS' [GD' [GF' [Gd' _]]]].
  assert (SA : same_slots att att').
  { refine (conv_slots cgf _ _ _ _ _ _ _ _ _ _ att att' _ _ EC EC').
    - repeat split; cbn; try congruence. rewrite GF, GF', VF, VF', QF. reflexivity.
    - destruct (o_rel_v o); [exact HB|exact I]. }
  destruct SA as [? [? [? ?]]]. repeat split; congruence.
Qed.

Lemma attention_alike : forall s s' o P xq xq' xkv xkv' y y' B B' n n', degree_ok (o_max_degree o) -> same_kind s s' -> (forall bs, s_basis s = Some bs -> has_scalars bs) ->
  has_scalars xq -> has_scalars xkv -> fB xq = B ++ [s_nodes s] -> fB xkv = B ++ [s_nodes s] -> fB xq' = B' ++ [s_nodes s'] -> fB xkv' = B' ++ [s_nodes s'] ->
  good_graph (s_graph s) (s_nodes s) (s_at s) -> good_graph (s_graph s') (s_nodes s') (s_at s') ->
  good_cutoffs (s_graph s) (s_cutoff s) (s_nodes s) (s_at s) -> good_cutoffs (s_graph s') (s_cutoff s') (s_nodes s') (s_at s') ->
  multi_head_attention cgf lo hi o P xq xkv (s_basis s) (s_cutoff s) (s_graph s) = Ok y -> multi_head_attention cgf lo hi o P xq' xkv' (s_basis s') (s_cutoff s') (s_graph s') = Ok y' ->
  (n < s_nodes s)%nat -> (n' < s_nodes s')%nat -> alike xq (s_at s ++ [n]) xq' (s_at s' ++ [n']) -> same_slots xkv xkv' ->
  matched s s' n n' (fun e e' => edge_alike s s' (fst e) (fst e') /\ alike xkv (s_at s ++ [snd e]) xkv' (s_at s' ++ [snd e'])) ->
  alike y (s_at s ++ [n]) y' (s_at s' ++ [n']).
Proof using checked.
  intros s s' o P xq xq' xkv xkv' y y' B B' n n' Hmd HK HBS [nq Vq] [nk Vk] BQ BK BQ' BK' G G' C C' H H' Hn Hn' AQ SK HM.
  assert (Vq' : valid (S nq) xq') by exact (alike_valid _ _ _ _ _ AQ Vq). assert (Vk' : valid (S nk) xkv') by (destruct Vk, SK as [? [? _]]; split; congruence).
  assert (SQ : same_slots xq xq') by (destruct AQ as [? [? [? [? _]]]]; repeat split; assumption).
  destruct (attention_slots o P xq xkv xq' xkv' _ _ _ _ _ _ y y' (S nq) (S nk) Vq Vk SQ SK HK H H') as [YS [YD Yd]].
  destruct (attention_incoming o P xq xkv _ _ _ y (S nq) (S nk) _ _ B Vq Vk BQ BK G C H) as [q [k [v [att [[[qi [Eqi Eq]] [[ki [Eki Ek]] [Ev Ey]]] [AB [AF HE]]]]]]].
  destruct (attention_incoming o P xq' xkv' _ _ _ y' (S nq) (S nk) _ _ B' Vq' Vk' BQ' BK' G' C' H') as [q' [k' [v' [att' [[[qi' [Eqi' Eq']] [[ki' [Eki' Ek']] [Ev' Ey']]] [AB' [AF' HE']]]]]]].
  cbv zeta in *. pose proof SQ as [QS [QD [QF Qd]]]. pose proof SK as [KS [KD [KF Kd]]]. rewrite QF in *. rewrite QS, KS in Eqi', Eki'.
  set (F := match o_qkv o with None => fF xq | Some F => F end) in *. set (nd := Nat.min (S nq) (S nk)) in *.
  assert (Hnd : (0 < nd)%nat) by (clear; unfold nd; lia).
  assert (Hd : degree_ok (Some (Z.of_nat nd - 1)%Z)). { intros d E. assert (d = (Z.of_nat nd - 1)%Z) by congruence. clear - H0. unfold nd in H0. lia. }
  destruct (dense_batch _ _ _ _ _ Ey) as [_ [_ [ayd [ays ayD]]]]. destruct (dense_batch _ _ _ _ _ Ey') as [_ [_ [ayd' [ays' ayD']]]].
  assert (Aq : alike q (s_at s ++ [n]) q' (s_at s' ++ [n'])).
  { apply (dense_alike _ _ _ _ _ _ _ _ _ Eq Eq'). apply (change_alike _ _ _ _ _ _ _ _ Hd (ex_intro _ nq Vq) Eqi Eqi' AQ). }
  assert (Ak : forall i i', alike xkv i xkv' i' -> alike k i k' i').
  { intros i i' A. apply (dense_alike _ _ _ _ _ _ _ _ _ Ek Ek'). apply (change_alike _ _ _ _ _ _ _ _ Hd (ex_intro _ nk Vk) Eki Eki' A). }
  assert (Av : forall i i', alike xkv i xkv' i' -> alike v i v' i') by (intros i i' A; exact (dense_alike _ _ _ _ _ _ _ _ _ Ev Ev' A)).
  destruct (HE n Hn) as [F1 F2]. destruct (HE' n' Hn') as [F1' F2']. clear HE HE'.
  assert (EFAC : forall c e e', edge_alike s s' (fst e) (fst e') -> alike xkv (s_at s ++ [snd e]) xkv' (s_at s' ++ [snd e']) ->
     edge_factor o P (s_basis s') (s_cutoff s') q' k' nd F (s_at s') n' c e' = edge_factor o P (s_basis s) (s_cutoff s) q k nd F (s_at s) n c e).
  { intros c e e' [EB EC] XA. unfold edge_factor. rewrite EC. f_equal. f_equal. unfold head_score. pose proof Aq as [aS [aD [aF [_ aV]]]]. rewrite aS, aD, aF.
    destruct (Ak _ _ XA) as [kS [kD [kF [_ kV]]]].
    assert (KQ : fS k = fS q /\ fD k = fD q).
    { destruct (dense_batch _ _ _ _ _ Eq) as [_ [_ [_ [e1 e2]]]]. destruct (dense_batch _ _ _ _ _ Ek) as [_ [_ [_ [e3 e4]]]].
      destruct (change_comp (S nq) xq nd _ (Some ((fS xq =? 2)%nat && (fS xkv =? 2)%nat)%bool) Vq (or_introl eq_refl) (or_introl Hnd)) as [u [Eu [Vu [_ [Su _]]]]].
      destruct (change_comp (S nk) xkv nd _ (Some ((fS xq =? 2)%nat && (fS xkv =? 2)%nat)%bool) Vk (or_introl eq_refl) (or_introl Hnd)) as [u' [Eu' [Vu' [_ [Su' _]]]]].
      rewrite Eqi in Eu. injection Eu as <-. rewrite Eki in Eu'. injection Eu' as <-. cbn [opt_default] in Su, Su'. split; [congruence|]. rewrite e2, e4, (proj2 Vu), (proj2 Vu'). reflexivity. }
    destruct KQ as [KQ1 KQ2].
    f_equal. apply rsum_ext. intros p Hp. apply rsum_ext. intros d Hd0. apply rsum_ext. intros a _.
    rewrite aV by assumption. rewrite kV by congruence. f_equal.
    unfold relative_factor. revert EB. destruct (s_basis s) as [bs|] eqn:EBS, (s_basis s') as [bs'|]; intros EB; try contradiction; [|reflexivity]. destruct (o_rel_qk o); [|reflexivity].
    destruct EB as [_ [_ [bF [_ bV]]]]. rewrite bF. f_equal. apply rsum_ext. intros a0 _. f_equal. destruct (HBS bs eq_refl) as [m [mS mD]]. apply bV; [destruct mS; lia|nia]. }
  apply (dense_alike _ _ _ _ _ _ _ _ _ Ey Ey').
  do 4 (split; [congruence|]). intros p d f Hp Hdd. rewrite F2' by congruence. rewrite F2 by assumption. symmetry. apply (matched_sum s s' n n' _ _ _ HM).
  intros e e' He He' [EA XA]. destruct (F1 e He) as [r [Er [RS [RD _]]]]. destruct (F1' e' He') as [r' [Er' _]]. rewrite Er, Er'. cbn [entry].
  unfold attention_message in Er, Er'.
  match type of Er with edge_message _ _ _ _ _ ?xs ?bs = _ => match type of Er' with edge_message _ _ _ _ _ ?xs' ?bs' = _ =>
    destruct (edge_message_alike cgf checked (o_max_degree o) (o_include o) (o_basis_bias o) (a_conv P) xs xs' bs bs' r Hmd) as [r0 [E0 Q]] end end.
  - destruct (dense_scalars _ _ _ _ _ Ev) as [m Vm]. exists (S m). destruct Vm. split; assumption.
  - destruct (Av _ _ XA) as [XS [XD [XF [Xd XV]]]]. repeat (split; [cbn; congruence|]). intros j p0 d0 f0 Hp0 Hd0. cbn in *. rewrite XV by assumption. f_equal.
    rewrite (EFAC f0 e e' EA XA). f_equal. apply (matched_sum s s' n n' _ _ _ HM). intros e1 e1' _ _ [A1 A2]. symmetry. now apply EFAC.
  - destruct (o_rel_v o); [|exact I]. destruct EA as [EA _]. destruct (s_basis s) as [bs|], (s_basis s') as [bs'|]; cbn [option_map]; try contradiction; [|exact I]. now apply alike_items.
  - exact Er.
  - assert (r0 = r') by congruence. subst r0. destruct Q as [_ [_ [_ [_ [_ QV]]]]]. apply QV; congruence.
Qed.
End Attention.
