(** C70: what a network computes for a node depends on nothing but the neighbourhood of the node.
    Renumbering, batching, joining molecules and the format of the lists do not matter. *)
Require Import List Reals ZArith Bool Lia Lra Permutation.
Require Import ZifyNat.
Require Import Verif.Base Verif.RSum Verif.Features_Model Verif.Features_Spec Verif.Features_Proofs Verif.Activations_Model Verif.Activations_Proofs Verif.Activations_Props
  Verif.Indexed_Model Verif.Modules_Model Verif.Modules_Spec Verif.Modules_Graph_Spec Verif.Modules_Proofs
  Verif.Modules_Tensor_Proofs Verif.Modules_Fused_Proofs Verif.Modules_Equiv_Proofs Verif.Modules_Graph_Proofs
  Verif.Modules_Conv_Proofs Verif.Modules_Attention_Proofs Verif.Modules_Message_Proofs Verif.Modules_Relabel_Proofs Verif.Modules_Softmax_Proofs
  Verif.Modules_Graph_Props Verif.Equivariance_Spec Verif.Equivariance_Props
  Verif.Network_Spec Verif.Network_Props Verif.Shapes_Proofs Verif.Locality_Spec Verif.Locality_Proofs.
Import ListNotations.
Open Scope R_scope.

Lemma looks_alike_node : forall s s' k n n', looks_alike s s' k n n' -> node_alike s s' n n'.
Proof. intros s s' [|k] n n' [H _]; exact H. Qed.

Lemma Forall2_weaken : forall (A B : Type) (R R' : A -> B -> Prop) l l', (forall a b, R a b -> R' a b) -> Forall2 R l l' -> Forall2 R' l l'.
Proof. intros A B R R' l l' H. induction 1; constructor; auto. Qed.

Lemma matched_weaken : forall s s' n n' (R R' : list nat * nat -> list nat * nat -> Prop), (forall e e', R e e' -> R' e e') -> matched s s' n n' R -> matched s s' n n' R'.
Proof. intros s s' n n' R R' H [es' [P F]]. exists es'. split; [exact P|]. exact (Forall2_weaken _ _ _ _ _ _ H F). Qed.

Lemma looks_alike_less : forall s s' k n n', looks_alike s s' (S k) n n' -> looks_alike s s' k n n'.
Proof.
  induction k as [|k IH]; intros n n' [H M]; [split; [exact H|exact I]|]. split; [exact H|].
  apply (matched_weaken _ _ _ _ _ _ (fun e e' (X : edge_alike s s' (fst e) (fst e') /\ looks_alike s s' (S k) (snd e) (snd e')) => conj (proj1 X) (IH _ _ (proj2 X))) M).
Qed.

(** Looking less far is weaker. *)
Lemma looks_alike_mono : forall s s' j k n n', (j <= k)%nat -> looks_alike s s' k n n' -> looks_alike s s' j n n'.
Proof. intros s s' j k n n' H. induction H; [auto|]. intros L. apply IHle. now apply looks_alike_less. Qed.

Section Network.
Variables (cartesian : bool) (cgf : Z -> Z -> Z -> result (nat -> nat -> nat -> R)) (lo hi : R).
Hypothesis package : uses_package cartesian cgf.
Variables s s' : scene.
Hypothesis kind : same_kind s s'.
Hypothesis basis_ok : forall bs, s_basis s = Some bs -> has_scalars bs.
Hypothesis graph_ok : good_graph (s_graph s) (s_nodes s) (s_at s).
Hypothesis graph_ok' : good_graph (s_graph s') (s_nodes s') (s_at s').

Definition nodes_of (t : scene) (B : list nat) (x : feat) : Prop := has_scalars x /\ fB x = B ++ [s_nodes t].

Lemma select_in : forall (P : feat -> Prop) xs i x, Forall P xs -> select xs i = Ok x -> P x.
Proof. intros P xs i x H E. unfold select in E. destruct (nth_error xs i) as [y|] eqn:N; [|discriminate]. injection E as <-. rewrite Forall_forall in H. apply H. exact (nth_error_In _ _ N). Qed.
Lemma select_all_in : forall (P : feat -> Prop) xs is ys, Forall P xs -> select_all xs is = Ok ys -> Forall P ys.
Proof.
  intros P xs is. induction is as [|i is IH]; intros ys H E; cbn [select_all] in E; [injection E as <-; constructor|].
  apply bind_inv in E as [x [Ex E]]. destruct (select_all xs is) as [zs|]; [|discriminate]. injection E as <-. constructor; [exact (select_in _ _ _ _ H Ex)|now apply IH].
Qed.
Lemma select_related : forall (R : feat -> feat -> Prop) xs xs' i x x', Forall2 R xs xs' -> select xs i = Ok x -> select xs' i = Ok x' -> R x x'.
Proof.
  intros R xs xs' i x x' H. revert i. induction H as [|a a' u u' Ha Hu IH]; intros i E E'; [destruct i; discriminate|].
  destruct i as [|i]; [unfold select in *; cbn in *; congruence|]. exact (IH i E E').
Qed.
Lemma select_all_related : forall (R : feat -> feat -> Prop) xs xs' is ys ys', Forall2 R xs xs' -> select_all xs is = Ok ys -> select_all xs' is = Ok ys' -> Forall2 R ys ys'.
Proof.
  intros R xs xs' is. induction is as [|i is IH]; intros ys ys' H E E'; cbn [select_all] in *; [injection E as <-; injection E' as <-; constructor|].
  apply bind_inv in E as [x [Ex E]]. apply bind_inv in E' as [x' [Ex' E']]. destruct (select_all xs is) as [zs|]; [|discriminate]. destruct (select_all xs' is) as [zs'|]; [|discriminate].
  injection E as <-. injection E' as <-. constructor; [exact (select_related _ _ _ _ _ _ H Ex Ex')|now apply IH].
Qed.

(** Every result is an array with one entry for each node. *)
Lemma call_nodes : forall t B xs c y, good_graph (s_graph t) (s_nodes t) (s_at t) ->
  ((exists i j o P, c = UseAttention i j o P) -> good_cutoffs (s_graph t) (s_cutoff t) (s_nodes t) (s_at t)) ->
  proper_call c -> Forall (nodes_of t B) xs -> perform cgf lo hi (s_basis t) (s_cutoff t) (s_graph t) xs c = Ok y -> nodes_of t B y.
Proof using package.
  clear kind basis_ok graph_ok graph_ok' s s'. intros t B xs c y G C Hc V H. pose proof (C67_checked _ _ package) as Hcg.
  destruct c; cbn [perform proper_call] in *; apply bind_inv in H as [x [Ex H]].
  - pose proof (select_in _ _ _ _ V Ex) as [Vx Bx]. split; [exact (dense_scalars _ _ _ _ _ H)|]. destruct (dense_batch _ _ _ _ _ H) as [E _]. congruence.
  - pose proof (select_in _ _ _ _ V Ex) as [Vx Bx]. apply bind_inv in H as [x2 [Ex2 H]]. pose proof (select_in _ _ _ _ V Ex2) as [Vx2 Bx2].
    split; [exact (any_tensor_scalars _ _ _ _ _ _ _ Hcg Hc Vx Vx2 H)|]. destruct (any_tensor_axes cgf _ _ _ _ _ _ (eq_trans Bx (eq_sym Bx2)) H) as [E _]. congruence.
  - pose proof (select_in _ _ _ _ V Ex) as [Vx Bx]. unfold tensor_dense in H. apply bind_inv in H as [u [Eu H]]. destruct (dense_scalars _ _ _ _ _ Eu) as [n [VS VD]]. destruct (dense_batch _ _ _ _ _ Eu) as [EB _].
    split.
    + apply (any_tensor_scalars _ _ _ _ _ _ _ Hcg Hc) in H; [exact H| |]; exists n; split; assumption.
    + match type of H with any_tensor _ _ _ _ ?a ?b = _ => assert (EE : fB a = fB b) by reflexivity; destruct (any_tensor_axes cgf _ _ _ a b y EE H) as [E _] end. cbn in E. congruence.
  - pose proof (select_in _ _ _ _ V Ex) as [Vx Bx]. split; [exact (message_pass_scalars _ _ _ _ _ _ _ _ _ Hcg Hc Vx H)|]. exact (pass_batch cgf _ _ _ _ _ _ _ _ _ _ _ Bx G H).
  - pose proof (select_in _ _ _ _ V Ex) as [[n Vx] Bx]. apply bind_inv in H as [x2 [Ex2 H]]. pose proof (select_in _ _ _ _ V Ex2) as [[n2 Vx2] Bx2].
    split; [exact (attention_scalars _ _ _ _ _ _ _ _ _ _ _ H)|].
    refine (attention_batch cgf lo hi _ _ _ _ _ _ _ _ _ _ _ _ _ Vx Vx2 Bx Bx2 G _ H). apply C. eauto.
  - pose proof (select_in _ _ _ _ V Ex) as [[n Vx] Bx]. destruct Hc as [erf [eps [alpha Ha]]]. destruct (activation_gated erf eps alpha act Ha) as [g Hg].
    destruct (Hg x) as [y0 [E [_ [QB [QS [QD _]]]]]]. assert (y0 = y) by congruence. subst y0. cbn in *. split; [exists n; destruct Vx; split; congruence|congruence].
  - pose proof (select_in _ _ _ _ V Ex) as [[n Vx] Bx].
    assert (M : exists m, (0 < m)%nat /\ (max_degree = Some (Z.of_nat m - 1)%Z \/ (max_degree = None /\ m = S n))).
    { destruct max_degree as [d|]; [|exists (S n); split; [lia|auto]]. specialize (Hc d eq_refl). exists (Z.to_nat (d + 1)). split; [lia|]. left. f_equal. lia. }
    destruct M as [m [Hm HM]]. destruct (change_comp (S n) x m max_degree include Vx HM (or_introl Hm)) as [y0 [E [Vy [By _]]]]. assert (y0 = y) by congruence. subst y0.
    split; [exact (valid_scalars m y Vy Hm)|congruence].
  - pose proof (select_all_in _ _ _ _ V Ex) as Vx. destruct (add_ok_inv _ _ H) as [x0 [u [-> HC]]]. inversion Vx as [|? ? [_ B0] _]; subst.
    destruct (add_ok x0 u HC) as [m [y0 [E [Vy [Hm [By _]]]]]]. assert (y0 = y) by congruence. subst y0. split; [exact (valid_scalars m y Vy Hm)|congruence].
Qed.

Definition call_depth (c : call) : nat := match c with UseMessagePass _ _ _ _ _ | UseAttention _ _ _ _ => 1 | _ => 0 end.
Lemma depth_cons : forall c cs, depth (c :: cs) = (call_depth c + depth cs)%nat.
Proof. intros c cs. unfold depth. destruct c; reflexivity. Qed.

(** After calls of depth j, nodes that look alike up to distance j have the same features. *)
Lemma call_alike : forall B B' j xs xs' c y y', proper_call c ->
  ((exists i j o P, c = UseAttention i j o P) -> good_cutoffs (s_graph s) (s_cutoff s) (s_nodes s) (s_at s) /\ good_cutoffs (s_graph s') (s_cutoff s') (s_nodes s') (s_at s')) ->
  Forall (nodes_of s B) xs -> Forall (nodes_of s' B') xs' ->
  (forall n n', looks_alike s s' j n n' -> Forall2 (fun x x' => alike x (s_at s ++ [n]) x' (s_at s' ++ [n'])) xs xs') ->
  perform cgf lo hi (s_basis s) (s_cutoff s) (s_graph s) xs c = Ok y -> perform cgf lo hi (s_basis s') (s_cutoff s') (s_graph s') xs' c = Ok y' ->
  forall n n', looks_alike s s' (call_depth c + j) n n' -> alike y (s_at s ++ [n]) y' (s_at s' ++ [n']).
Proof using package kind basis_ok graph_ok graph_ok'.
  intros B B' j xs xs' c y y' Hc C V V' HI H H' n n' L. pose proof (C67_checked _ _ package) as Hcg.
  assert (A : Forall2 (fun x x' => alike x (s_at s ++ [n]) x' (s_at s' ++ [n'])) xs xs').
  { apply HI. apply (looks_alike_mono _ _ j (call_depth c + j)); [lia|exact L]. }
  pose proof (looks_alike_node _ _ _ _ _ L) as [Hn [Hn' _]].
  assert (SEL : forall i x x', select xs i = Ok x -> select xs' i = Ok x' -> forall m m', looks_alike s s' j m m' -> alike x (s_at s ++ [m]) x' (s_at s' ++ [m'])).
  { intros i x x' E E' m m' Lm. exact (select_related _ _ _ _ _ _ (HI m m' Lm) E E'). }
  destruct c; cbn [perform proper_call call_depth Nat.add] in *; apply bind_inv in H as [x [Ex H]]; apply bind_inv in H' as [x' [Ex' H']].
  - exact (dense_alike _ _ _ _ _ _ _ _ _ H H' (SEL _ _ _ Ex Ex' _ _ L)).
  - apply bind_inv in H as [x2 [Ex2 H]]. apply bind_inv in H' as [x2' [Ex2' H']].
    pose proof (select_in _ _ _ _ V Ex) as [Vx Bx]. pose proof (select_in _ _ _ _ V Ex2) as [Vx2 Bx2]. pose proof (select_in _ _ _ _ V' Ex') as [Vx' Bx']. pose proof (select_in _ _ _ _ V' Ex2') as [Vx2' Bx2'].
    refine (tensor_alike cgf Hcg _ _ _ _ _ _ _ _ _ _ _ Hc Vx Vx2 _ _ H H' (SEL _ _ _ Ex Ex' _ _ L) (SEL _ _ _ Ex2 Ex2' _ _ L)); congruence.
  - pose proof (select_in _ _ _ _ V Ex) as [Vx Bx]. exact (tensor_dense_alike cgf Hcg _ _ _ _ _ _ _ _ _ _ _ _ Hc Vx H H' (SEL _ _ _ Ex Ex' _ _ L)).
  - pose proof (select_in _ _ _ _ V Ex) as [Vx Bx]. pose proof (select_in _ _ _ _ V' Ex') as [Vx' Bx'].
    refine (pass_alike cgf Hcg s s' _ _ _ _ _ _ _ _ B B' n n' Hc kind basis_ok Vx Bx Bx' graph_ok graph_ok' H H' Hn Hn' _ _).
    + destruct (SEL _ _ _ Ex Ex' n n' (looks_alike_less _ _ _ _ _ L)) as [? [? [? [? _]]]]. repeat split; assumption.
    + destruct L as [_ M]. refine (matched_weaken _ _ _ _ _ _ _ M). intros e e' [X1 X2]. split; [exact X1|]. exact (SEL _ _ _ Ex Ex' _ _ X2).
  - apply bind_inv in H as [x2 [Ex2 H]]. apply bind_inv in H' as [x2' [Ex2' H']]. destruct C as [C1 C2]; [eauto|].
    pose proof (select_in _ _ _ _ V Ex) as [Vx Bx]. pose proof (select_in _ _ _ _ V Ex2) as [Vx2 Bx2]. pose proof (select_in _ _ _ _ V' Ex') as [Vx' Bx']. pose proof (select_in _ _ _ _ V' Ex2') as [Vx2' Bx2'].
    refine (attention_alike cgf lo hi Hcg s s' _ _ _ _ _ _ _ _ B B' n n' Hc kind basis_ok Vx Vx2 Bx Bx2 Bx' Bx2' graph_ok graph_ok' C1 C2 H H' Hn Hn' _ _ _).
    + exact (SEL _ _ _ Ex Ex' n n' (looks_alike_less _ _ _ _ _ L)).
    + destruct (SEL _ _ _ Ex2 Ex2' n n' (looks_alike_less _ _ _ _ _ L)) as [? [? [? [? _]]]]. repeat split; assumption.
    + destruct L as [_ M]. refine (matched_weaken _ _ _ _ _ _ _ M). intros e e' [X1 X2]. split; [exact X1|]. exact (SEL _ _ _ Ex2 Ex2' _ _ X2).
  - pose proof (select_in _ _ _ _ V Ex) as [Vx Bx]. destruct Hc as [erf [eps [alpha Ha]]]. exact (activation_alike _ _ _ _ _ _ _ _ _ _ Ha Vx H H' (SEL _ _ _ Ex Ex' _ _ L)).
  - pose proof (select_in _ _ _ _ V Ex) as [Vx Bx]. exact (change_alike _ _ _ _ _ _ _ _ Hc Vx H H' (SEL _ _ _ Ex Ex' _ _ L)).
  - exact (add_alike _ _ _ _ _ _ H H' (select_all_related _ _ _ _ _ _ A Ex Ex')).
Qed.

Lemma run_alike : forall B B' cs j xs xs' ys ys', Forall proper_call cs ->
  (has_attention cs -> good_cutoffs (s_graph s) (s_cutoff s) (s_nodes s) (s_at s) /\ good_cutoffs (s_graph s') (s_cutoff s') (s_nodes s') (s_at s')) ->
  Forall (nodes_of s B) xs -> Forall (nodes_of s' B') xs' ->
  (forall n n', looks_alike s s' j n n' -> Forall2 (fun x x' => alike x (s_at s ++ [n]) x' (s_at s' ++ [n'])) xs xs') ->
  run cgf lo hi (s_basis s) (s_cutoff s) (s_graph s) xs cs = Ok ys -> run cgf lo hi (s_basis s') (s_cutoff s') (s_graph s') xs' cs = Ok ys' ->
  forall n n', looks_alike s s' (depth cs + j) n n' -> Forall2 (fun y y' => alike y (s_at s ++ [n]) y' (s_at s' ++ [n'])) ys ys'.
Proof using package kind basis_ok graph_ok graph_ok'.
  intros B B'. induction cs as [|c cs IH]; intros j xs xs' ys ys' Hc C V V' HI H H' n n' L; cbn [run] in *.
  - injection H as <-. injection H' as <-. apply HI. exact L.
  - apply bind_inv in H as [y [Ey H]]. apply bind_inv in H' as [y' [Ey' H']]. inversion Hc as [|? ? Hc0 Hc1]; subst.
    assert (C0 : (exists i j o P, c = UseAttention i j o P) -> good_cutoffs (s_graph s) (s_cutoff s) (s_nodes s) (s_at s) /\ good_cutoffs (s_graph s') (s_cutoff s') (s_nodes s') (s_at s')).
    { intros [i [i2 [o [P E]]]]. apply C. exists i, i2, o, P. left. exact E. }
    apply (IH (call_depth c + j)%nat (xs ++ [y]) (xs' ++ [y'])); auto.
    + intros [i [i2 [o [P E]]]]. apply C. exists i, i2, o, P. now right.
    + apply Forall_app. split; [exact V|]. constructor; [|constructor]. refine (call_nodes s B xs c y graph_ok _ Hc0 V Ey). intros X. exact (proj1 (C0 X)).
    + apply Forall_app. split; [exact V'|]. constructor; [|constructor]. refine (call_nodes s' B' xs' c y' graph_ok' _ Hc0 V' Ey'). intros X. exact (proj2 (C0 X)).
    + intros m m' Lm. apply Forall2_app.
      * apply HI. apply (looks_alike_mono _ _ j (call_depth c + j)); [lia|exact Lm].
      * constructor; [|constructor]. exact (call_alike B B' j xs xs' c y y' Hc0 C0 V V' HI Ey Ey' m m' Lm).
    + replace (depth cs + (call_depth c + j))%nat with (depth (c :: cs) + j)%nat; [exact L|]. rewrite depth_cons. lia.
Qed.
End Network.

(** * C70 *)

(** A network whose calls go k times along edges gives nodes the same features if everything up to k
    edges away looks the same; nothing else about the graphs matters. *)
Theorem C70_network : forall cartesian cgf lo hi s s' cs ys ys' k n n', uses_package cartesian cgf ->
  Forall proper_call cs -> node_arrays s -> node_arrays s' -> same_kind s s' ->
  good_graph (s_graph s) (s_nodes s) (s_at s) -> good_graph (s_graph s') (s_nodes s') (s_at s') ->
  (has_attention cs -> good_cutoffs (s_graph s) (s_cutoff s) (s_nodes s) (s_at s) /\ good_cutoffs (s_graph s') (s_cutoff s') (s_nodes s') (s_at s')) ->
  run cgf lo hi (s_basis s) (s_cutoff s) (s_graph s) (s_inputs s) cs = Ok ys ->
  run cgf lo hi (s_basis s') (s_cutoff s') (s_graph s') (s_inputs s') cs = Ok ys' ->
  (depth cs <= k)%nat -> looks_alike s s' k n n' ->
  Forall2 (fun y y' => alike y (s_at s ++ [n]) y' (s_at s' ++ [n'])) ys ys'.
Proof.
  intros ca cgf lo hi s s' cs ys ys' k n n' HP Hc [[B V] VB] [[B' V'] _] HK G G' C H H' Hk L.
  apply (run_alike ca cgf lo hi HP s s' HK VB G G' B B' cs 0 (s_inputs s) (s_inputs s')); auto.
  - intros m m' [[_ [_ F]] _]. exact F.
  - rewrite Nat.add_0_r. exact (looks_alike_mono _ _ _ _ _ _ Hk L).
Qed.
Print Assumptions C70_network.

(** ** Maps between graphs *)

Lemma carries_looks_alike : forall s s' h, carries s s' h -> good_graph (s_graph s) (s_nodes s) (s_at s) -> forall k n, (n < s_nodes s)%nat -> looks_alike s s' k n (h n).
Proof.
  intros s s' h H G. induction k as [|k IH]; intros n Hn; destruct (H n Hn) as [N [es' [P F]]]; (split; [exact N|]); [exact I|].
  exists es'. split; [exact P|]. assert (X : Forall (fun e => (snd e < s_nodes s)%nat) (incoming (s_graph s) (s_nodes s) (s_at s) n)).
  { apply Forall_forall. intros e He. exact (incoming_nodes _ _ _ _ _ G Hn He). }
  clear P. revert X F. generalize (incoming (s_graph s) (s_nodes s) (s_at s) n). intros l X F. induction F as [|e e' l l' [A B] _ IHF]; constructor.
  - split; [exact A|]. rewrite B. apply IH. now inversion X.
  - apply IHF. now inversion X.
Qed.

(** If h maps a graph to another one, with the same features at the nodes and matching incoming edges,
    the network computes the same features at n and at h n, whatever its depth. *)
Theorem C70_carries : forall cartesian cgf lo hi s s' h cs ys ys', uses_package cartesian cgf ->
  Forall proper_call cs -> node_arrays s -> node_arrays s' -> same_kind s s' ->
  good_graph (s_graph s) (s_nodes s) (s_at s) -> good_graph (s_graph s') (s_nodes s') (s_at s') ->
  (has_attention cs -> good_cutoffs (s_graph s) (s_cutoff s) (s_nodes s) (s_at s) /\ good_cutoffs (s_graph s') (s_cutoff s') (s_nodes s') (s_at s')) ->
  run cgf lo hi (s_basis s) (s_cutoff s) (s_graph s) (s_inputs s) cs = Ok ys ->
  run cgf lo hi (s_basis s') (s_cutoff s') (s_graph s') (s_inputs s') cs = Ok ys' ->
  carries s s' h -> forall n, (n < s_nodes s)%nat -> Forall2 (fun y y' => alike y (s_at s ++ [n]) y' (s_at s' ++ [h n])) ys ys'.
Proof.
  intros ca cgf lo hi s s' h cs ys ys' HP Hc V V' HK G G' C H H' HH n Hn.
  exact (C70_network ca cgf lo hi s s' cs ys ys' (depth cs) n (h n) HP Hc V V' HK G G' C H H' (le_n _) (carries_looks_alike s s' h HH G _ n Hn)).
Qed.
Print Assumptions C70_carries.

Lemma NoDup_map_in : forall (A B : Type) (f : A -> B) l, NoDup l -> (forall a a', In a l -> In a' l -> f a = f a' -> a = a') -> NoDup (map f l).
Proof.
  intros A B f l H. induction H as [|a l Ha H IH]; intros I; cbn; constructor.
  - intros X. apply in_map_iff in X as [a' [E Ia]]. apply Ha. rewrite (I a a'); cbn; auto.
  - apply IH. intros; apply I; cbn; auto.
Qed.

Lemma incoming_NoDup : forall g N b n, NoDup (incoming g N b n).
Proof.
  intros g N b n. unfold incoming. destruct (g_adj g) as [[[K M] adj]|].
  - apply NoDup_map_in; [apply NoDup_filter, seq_NoDup|]. intros a a' _ _ E. injection E as E _. apply app_inv_head in E. congruence.
  - destruct (g_dst g) as [[Q dst]|]; [|constructor]. destruct (g_src g) as [[Q' src]|]; [|constructor].
    apply NoDup_map_in; [apply NoDup_filter, seq_NoDup|]. intros a a' _ _ E. injection E as E _. apply app_inv_head in E. congruence.
Qed.

(** A one-to-one map between the incoming edges matches them. *)
Lemma matched_by : forall s s' n n' (R : list nat * nat -> list nat * nat -> Prop) f,
  let es := incoming (s_graph s) (s_nodes s) (s_at s) n in let es' := incoming (s_graph s') (s_nodes s') (s_at s') n' in
  (forall e, In e es -> In (f e) es' /\ R e (f e)) -> (forall e1 e2, In e1 es -> In e2 es -> f e1 = f e2 -> e1 = e2) -> (forall e', In e' es' -> exists e, In e es /\ f e = e') ->
  matched s s' n n' R.
Proof.
  intros s s' n n' R f es es' H1 H2 H3. exists (map f es). split.
  - apply NoDup_Permutation; [apply NoDup_map_in; [apply incoming_NoDup|exact H2]|apply incoming_NoDup|]. intros e'. split.
    + intros X. apply in_map_iff in X as [e [<- Ie]]. now apply H1.
    + intros X. apply in_map_iff. destruct (H3 e' X) as [e [I1 I2]]. exists e. auto.
  - fold es. assert (X : forall e, In e es -> R e (f e)) by (intros e Ie; exact (proj2 (H1 e Ie))). clear - X. induction es; cbn; constructor; [apply X; now left|]. apply IHes. intros; apply X; now right.
Qed.

(** A positive cutoff among the incoming edges is found on the other side as well. *)
Lemma matched_cutoffs : forall s s' n n' (R : list nat * nat -> list nat * nat -> Prop), (forall e e', R e e' -> edge_alike s s' (fst e) (fst e')) -> matched s s' n n' R ->
  incoming (s_graph s') (s_nodes s') (s_at s') n' <> [] ->
  (incoming (s_graph s) (s_nodes s) (s_at s) n <> [] -> Exists (fun e => 0 < cutoff_at (s_cutoff s) (fst e)) (incoming (s_graph s) (s_nodes s) (s_at s) n)) ->
  Exists (fun e => 0 < cutoff_at (s_cutoff s') (fst e)) (incoming (s_graph s') (s_nodes s') (s_at s') n').
Proof.
  intros s s' n n' R HR [es' [P F]] NE E.
  assert (NE' : incoming (s_graph s) (s_nodes s) (s_at s) n <> []). { intros Z0. rewrite Z0 in F. inversion F; subst. apply NE. apply Permutation_nil. exact P. }
  apply E in NE'. rewrite Exists_exists in *. destruct NE' as [e [I1 I2]].
  assert (X : exists e', In e' es' /\ edge_alike s s' (fst e) (fst e')).
  { clear P E NE. revert I1. induction F as [|a a' l l' X _ IH]; intros I1; [destruct I1|]. destruct I1 as [->|I1]; [exists a'; split; [now left|now apply HR]|]. destruct (IH I1) as [e' [? ?]]; exists e'; split; [now right|assumption]. }
  destruct X as [e' [J1 [_ J2]]]. exists e'. split; [exact (Permutation_in _ P J1)|]. rewrite J2. exact I2.
Qed.

Lemma at_node_nat : forall l e n, at_node (map Z.of_nat l) e n = ((e <? length l)%nat && (nth e l 0%nat =? n)%nat)%bool.
Proof.
  intros l e n. unfold at_node. rewrite nth_error_map. destruct (Nat.ltb_spec e (length l)) as [L|L].
  - rewrite (nth_error_nth' l 0%nat L). cbn. destruct (Nat.eqb_spec (nth e l 0%nat) n) as [->|NE]; [apply Z.eqb_refl|]. apply Z.eqb_neq. lia.
  - apply nth_error_None in L. rewrite L. reflexivity.
Qed.

Lemma sparse_in : forall dst src N b n e, In e (incoming (sparse_graph dst src) N b n) <-> exists k, (k < length dst)%nat /\ nth k dst 0%nat = n /\ e = (b ++ [k], nth k src 0%nat).
Proof.
  intros dst src N b n e. unfold incoming, sparse_graph. cbn [g_adj g_dst g_src]. rewrite in_map_iff.
  assert (E : forall k, Z.to_nat (nth k (map Z.of_nat src) 0%Z) = nth k src 0%nat) by (intros k; change 0%Z with (Z.of_nat 0); rewrite map_nth; lia).
  split.
  - intros [k [<- H]]. apply filter_In in H as [H1 H2]. apply in_seq in H1. rewrite at_node_nat in H2. apply andb_prop in H2 as [_ H2]. apply Nat.eqb_eq in H2. exists k. rewrite E. repeat split; auto; lia.
  - intros [k [H1 [H2 ->]]]. exists k. rewrite E. split; [reflexivity|]. apply filter_In. split; [apply in_seq; lia|]. rewrite at_node_nat, H2, Nat.eqb_refl. destruct (Nat.ltb_spec k (length dst)); [reflexivity|lia].
Qed.

Lemma sparse_good : forall dst src N b, length src = length dst -> Forall (fun n => (n < N)%nat) src -> good_graph (sparse_graph dst src) N b.
Proof.
  intros dst src N b L F. unfold good_graph, sparse_graph. cbn. rewrite map_length. split; [|exact I]. split; [reflexivity|]. intros e n He Hn _. exists (nth e src 0%nat). rewrite Forall_forall in F. split.
  - apply F, nth_In. lia.
  - rewrite at_node_nat, Nat.eqb_refl. destruct (Nat.ltb_spec e (length src)); [reflexivity|lia].
Qed.

Lemma run_length : forall cgf lo hi basis cutoff g cs xs ys, run cgf lo hi basis cutoff g xs cs = Ok ys -> length ys = (length xs + length cs)%nat.
Proof.
  intros cgf lo hi basis cutoff g. induction cs as [|c cs IH]; intros xs ys H; cbn [run] in H; [injection H as <-; cbn; lia|].
  apply bind_inv in H as [y [_ H]]. rewrite (IH _ _ H), app_length. cbn. lia.
Qed.

Lemma Forall2_all : forall N (R : nat -> feat -> feat -> Prop) l l', (forall n, (n < N)%nat -> Forall2 (R n) l l') -> length l = length l' ->
  Forall2 (fun a b => forall n, (n < N)%nat -> R n a b) l l'.
Proof.
  intros N R l. induction l as [|a l IH]; intros [|b l'] H L; try discriminate; constructor.
  - intros n Hn. specialize (H n Hn). now inversion H.
  - apply IH; [|now injection L]. intros n Hn. specialize (H n Hn). now inversion H.
Qed.

(** ** Renumbering *)

(** Renumbering the atoms (n becomes h n) and the edges (e becomes r e) only renumbers the results;
    what is summed over all atoms, like an energy, does not change. *)
Theorem C70_renumber : forall cartesian cgf lo hi s s' dst src dst' src' h h' r r' cs ys, uses_package cartesian cgf ->
  Forall proper_call cs -> node_arrays s -> Forall2 like (s_inputs s) (s_inputs s') -> like_opt (s_basis s) (s_basis s') -> s_at s = [] -> s_at s' = [] ->
  s_graph s = sparse_graph dst src -> s_graph s' = sparse_graph dst' src' -> length src = length dst -> length dst' = length dst -> length src' = length dst ->
  Forall (fun n => (n < s_nodes s)%nat) dst -> Forall (fun n => (n < s_nodes s)%nat) src -> s_nodes s' = s_nodes s ->
  renumbering (s_nodes s) h h' -> renumbering (length dst) r r' ->
  (forall n, (n < s_nodes s)%nat -> node_alike s s' n (h n)) ->
  (forall e, (e < length dst)%nat -> nth (r e) dst' 0%nat = h (nth e dst 0%nat) /\ nth (r e) src' 0%nat = h (nth e src 0%nat) /\ edge_alike s s' [e] [r e]) ->
  (has_attention cs -> good_cutoffs (s_graph s) (s_cutoff s) (s_nodes s) [] /\ forall i, 0 <= cutoff_at (s_cutoff s') i) ->
  run cgf lo hi (s_basis s) (s_cutoff s) (s_graph s) (s_inputs s) cs = Ok ys ->
  exists ys', run cgf lo hi (s_basis s') (s_cutoff s') (s_graph s') (s_inputs s') cs = Ok ys' /\
  Forall2 (fun y y' => (forall n, (n < s_nodes s)%nat -> alike y [n] y' [h n])
    /\ forall p d f, (p < fS y)%nat -> (d < fD y)%nat -> rsum (s_nodes s) (fun n => fv y' [n] p d f) = rsum (s_nodes s) (fun n => fv y [n] p d f)) ys ys'.
Proof.
  intros ca cgf lo hi s s' dst src dst' src' h h' r r' cs ys HP Hc V LI LB A A' G G' L1 L2 L3 FD FS EN Hh Hr HN HE C H.
  assert (VI : Forall has_scalars (s_inputs s)) by (destruct V as [[B V] _]; eapply Forall_impl; [|exact V]; intros x [X _]; exact X).
  assert (SL : same_lists (s_graph s) (s_graph s')) by (rewrite G, G'; unfold same_lists, sparse_graph; cbn; repeat split; congruence).
  destruct (run_like cgf lo hi (C67_checked _ _ HP) _ (s_basis s') _ (s_cutoff s') _ (s_graph s') cs _ (s_inputs s') _ Hc VI LI LB SL H) as [ys' [H' _]]. exists ys'. split; [exact H'|].
  assert (EL : length (s_inputs s') = length (s_inputs s)) by (clear -LI; induction LI; cbn; congruence).
  assert (HK : same_kind s s') by (clear -LB; unfold same_kind; destruct (s_basis s), (s_basis s'); cbn in LB; try exact LB; destruct LB as [_ X]; exact X).
  assert (V' : node_arrays s').
  { destruct V as [[B V] W]. split.
    - exists B. clear -V LI EN. induction LI as [|x x' l l' L _ IH]; constructor; inversion V as [|? ? [[k Vk] E] V1]; subst; [|now apply IH]. split; [exists k; exact (like_valid _ _ _ L Vk)|]. rewrite (proj1 L), E, EN. reflexivity.
    - intros bs E. rewrite E in LB. destruct (s_basis s) as [x|]; [|contradiction]. destruct (W x eq_refl) as [k Vk]. exists k. exact (like_valid _ _ _ LB Vk). }
  rewrite Forall_forall in FD, FS.
  assert (RD : forall e, (e < length dst)%nat -> (nth e dst 0 < s_nodes s)%nat /\ (nth e src 0 < s_nodes s)%nat) by (intros e He; split; [apply FD|apply FS]; apply nth_In; lia).
  assert (GG : good_graph (s_graph s) (s_nodes s) (s_at s)) by (rewrite G; apply sparse_good; [exact L1|now apply Forall_forall]).
  assert (GG' : good_graph (s_graph s') (s_nodes s') (s_at s')).
  { rewrite G'. apply sparse_good; [congruence|]. apply Forall_forall. intros m Hm. destruct (In_nth _ _ 0%nat Hm) as [e [He <-]].
    destruct (Hr e ltac:(lia)) as [_ [_ [R1 R2]]]. destruct (HE (r' e) R1) as [_ [E _]]. rewrite R2 in E. rewrite E, EN. apply Hh. now apply RD. }
  assert (CA : carries s s' h).
  { intros n Hn. split; [now apply HN|].
    apply (matched_by _ _ _ _ _ (fun e => ([r (nth 0 (fst e) 0%nat)], h (snd e)))); rewrite ?G, ?G', ?A, ?A'.
    - intros e He. apply sparse_in in He as [k [Hk [Ek ->]]]. cbn [fst snd app nth]. destruct (HE k Hk) as [E1 [E2 E3]]. split; [|split; [exact E3|reflexivity]].
      apply sparse_in. exists (r k). rewrite L2. split; [now apply Hr|]. rewrite E1, Ek, E2. auto.
    - intros e1 e2 H1 H2. apply sparse_in in H1 as [k1 [Hk1 [Ek1 ->]]]. apply sparse_in in H2 as [k2 [Hk2 [Ek2 ->]]]. cbn [fst snd app nth]. intros E. injection E as E _.
      assert (k1 = k2) by (rewrite <- (proj1 (proj2 (Hr k1 Hk1))), <- (proj1 (proj2 (Hr k2 Hk2))), E; reflexivity). subst. reflexivity.
    - intros e' He'. apply sparse_in in He' as [k [Hk [Ek ->]]]. rewrite L2 in Hk. destruct (Hr k Hk) as [_ [_ [R1 R2]]]. destruct (HE (r' k) R1) as [E1 [E2 _]]. rewrite R2 in E1, E2.
      exists ([r' k], nth (r' k) src 0%nat). split.
      + apply sparse_in. exists (r' k). split; [exact R1|]. split; [|reflexivity]. destruct (RD (r' k) R1) as [D1 _].
        rewrite <- (proj1 (proj2 (Hh _ D1))), <- E1, Ek. now apply Hh.
      + cbn [fst snd app nth]. rewrite R2, E2. reflexivity. }
  assert (CC : has_attention cs -> good_cutoffs (s_graph s) (s_cutoff s) (s_nodes s) (s_at s) /\ good_cutoffs (s_graph s') (s_cutoff s') (s_nodes s') (s_at s')).
  { intros X. destruct (C X) as [C1 C2]. rewrite A. split; [exact C1|]. split; [exact C2|]. intros n' Hn' NE. rewrite EN in Hn'. destruct (Hh n' Hn') as [_ [_ [I1 I2]]].
    destruct (CA _ I1) as [_ M]. rewrite I2 in M. refine (matched_cutoffs _ _ _ _ _ (fun e e' X => proj1 X) M NE _). rewrite A. exact (proj2 C1 (h' n') I1). }
  assert (ALL : forall n, (n < s_nodes s)%nat -> Forall2 (fun y y' => alike y [n] y' [h n]) ys ys').
  { intros n Hn. pose proof (C70_carries ca cgf lo hi s s' h cs ys ys' HP Hc V V' HK GG GG' CC H H' CA n Hn) as X. rewrite A, A' in X. exact X. }
  assert (LEN : length ys = length ys') by (rewrite (run_length _ _ _ _ _ _ _ _ _ H), (run_length _ _ _ _ _ _ _ _ _ H'); congruence).
  refine (Forall2_weaken _ _ _ _ _ _ _ (Forall2_all _ _ _ _ ALL LEN)). intros y y' X. split; [exact X|].
  intros p d f Hp Hd. rewrite <- (rsum_renumber _ h h' (fun n => fv y' [n] p d f) Hh). apply rsum_ext. intros n Hn. destruct (X n Hn) as [_ [_ [_ [_ E]]]]. now apply E.
Qed.
Print Assumptions C70_renumber.

(** ** Two molecules in one *)

Lemma join_left : forall N N' x x' n, (n < N)%nat -> alike x [n] (join N N' x x') [n].
Proof. intros N N' x x' n H. repeat (split; [reflexivity|]). intros p d f _ _. unfold join. cbn [fv]. destruct (Nat.ltb_spec n N); [reflexivity|lia]. Qed.
Lemma join_right : forall N N' x x' n, same_slots x x' -> alike x' [n] (join N N' x x') [(N + n)%nat].
Proof.
  intros N N' x x' n [S [D [F d]]]. repeat (split; [cbn; congruence|]). intros p c f _ _. unfold join. cbn [fv]. destruct (Nat.ltb_spec (N + n) N); [lia|]. now replace (N + n - N)%nat with n by lia.
Qed.

(** A network applied to two molecules at once, with the atoms and edges of the second one after those
    of the first one, computes what it computes for each of them alone. *)
Theorem C70_join : forall cartesian cgf lo hi s s' dst src dst' src' cs ys ys' zs, uses_package cartesian cgf ->
  Forall proper_call cs -> node_arrays s -> node_arrays s' -> same_kind s s' -> s_at s = [] -> s_at s' = [] ->
  s_graph s = sparse_graph dst src -> s_graph s' = sparse_graph dst' src' -> length src = length dst -> length src' = length dst' ->
  Forall (fun n => (n < s_nodes s)%nat) dst -> Forall (fun n => (n < s_nodes s)%nat) src -> Forall (fun n => (n < s_nodes s')%nat) src' ->
  Forall2 (fun x x' => fS x' = fS x /\ fD x' = fD x /\ fF x' = fF x /\ fdt x' = fdt x) (s_inputs s) (s_inputs s') -> (s_cutoff s = None <-> s_cutoff s' = None) ->
  (has_attention cs -> good_cutoffs (s_graph s) (s_cutoff s) (s_nodes s) [] /\ good_cutoffs (s_graph s') (s_cutoff s') (s_nodes s') []) ->
  run cgf lo hi (s_basis s) (s_cutoff s) (s_graph s) (s_inputs s) cs = Ok ys ->
  run cgf lo hi (s_basis s') (s_cutoff s') (s_graph s') (s_inputs s') cs = Ok ys' ->
  let j := join_scenes dst src dst' src' s s' in
  run cgf lo hi (s_basis j) (s_cutoff j) (s_graph j) (s_inputs j) cs = Ok zs ->
  (forall n, (n < s_nodes s)%nat -> Forall2 (fun y z => alike y [n] z [n]) ys zs)
  /\ forall n, (n < s_nodes s')%nat -> Forall2 (fun y' z => alike y' [n] z [(s_nodes s + n)%nat]) ys' zs.
Proof.
  intros ca cgf lo hi s s' dst src dst' src' cs ys ys' zs HP Hc V V' HK A A' G G' L L' FD FS FS' HI HC C H H' j HJ.
  rewrite Forall_forall in FD, FS, FS'. set (N := s_nodes s) in *.
  assert (EG : s_graph j = sparse_graph (dst ++ map (Nat.add N) dst') (src ++ map (Nat.add N) src')) by reflexivity.
  assert (ND : forall e, (e < length dst)%nat -> nth e (dst ++ map (Nat.add N) dst') 0%nat = nth e dst 0%nat) by (intros e He; now apply app_nth1).
  assert (NS : forall e, (e < length dst)%nat -> nth e (src ++ map (Nat.add N) src') 0%nat = nth e src 0%nat) by (intros e He; apply app_nth1; lia).
  assert (ND' : forall e, (e < length dst')%nat -> nth (length dst + e) (dst ++ map (Nat.add N) dst') 0%nat = (N + nth e dst' 0)%nat).
  { intros e He. rewrite app_nth2 by lia. replace (length dst + e - length dst)%nat with e by lia. rewrite (nth_indep _ 0%nat (N + 0)%nat) by (rewrite map_length; lia). apply map_nth. }
  assert (NS' : forall e, (e < length dst')%nat -> nth (length dst + e) (src ++ map (Nat.add N) src') 0%nat = (N + nth e src' 0)%nat).
  { intros e He. rewrite app_nth2 by lia. replace (length dst + e - length src)%nat with e by lia. rewrite (nth_indep _ 0%nat (N + 0)%nat) by (rewrite map_length; lia). apply map_nth. }
  assert (LD : length (dst ++ map (Nat.add N) dst') = (length dst + length dst')%nat) by (rewrite app_length, map_length; reflexivity).
  assert (GG : good_graph (s_graph s) (s_nodes s) (s_at s)) by (rewrite G; apply sparse_good; [exact L|now apply Forall_forall]).
  assert (GG' : good_graph (s_graph s') (s_nodes s') (s_at s')) by (rewrite G'; apply sparse_good; [exact L'|now apply Forall_forall]).
  assert (GJ : good_graph (s_graph j) (s_nodes j) (s_at j)).
  { rewrite EG. apply sparse_good; [rewrite !app_length, !map_length; lia|]. apply Forall_app. split; apply Forall_forall.
    - intros n Hn. change (s_nodes j) with (N + s_nodes s')%nat. specialize (FS n Hn). lia.
    - intros n Hn. apply in_map_iff in Hn as [m [<- Hm]]. change (s_nodes j) with (N + s_nodes s')%nat. specialize (FS' m Hm). lia. }
  assert (EL : forall e, (e < length dst)%nat -> edge_alike s j [e] [e]).
  { intros e He. split.
    - unfold j, join_scenes. cbn [s_basis]. unfold same_kind in HK. destruct (s_basis s) as [x|], (s_basis s') as [x'|]; try contradiction; [|exact I]. now apply join_left.
    - unfold j, join_scenes. cbn [s_cutoff]. destruct (s_cutoff s) as [c|], (s_cutoff s') as [c'|]; cbn [cutoff_at]; try reflexivity; try (destruct HC as [HC1 HC2]; (discriminate (HC1 eq_refl) || discriminate (HC2 eq_refl))).
      unfold join_cutoffs. destruct (Nat.ltb_spec e (length dst)); [reflexivity|lia]. }
  assert (ER : forall e, edge_alike s' j [e] [(length dst + e)%nat]).
  { intros e. split.
    - unfold j, join_scenes. cbn [s_basis]. unfold same_kind in HK. destruct (s_basis s) as [x|], (s_basis s') as [x'|]; try contradiction; [|exact I]. now apply join_right.
    - unfold j, join_scenes. cbn [s_cutoff]. destruct (s_cutoff s) as [c|], (s_cutoff s') as [c'|]; cbn [cutoff_at]; try reflexivity; try (destruct HC as [HC1 HC2]; (discriminate (HC1 eq_refl) || discriminate (HC2 eq_refl))).
      unfold join_cutoffs. destruct (Nat.ltb_spec (length dst + e) (length dst)); [lia|]. now replace (length dst + e - length dst)%nat with e by lia. }
  assert (CL : carries s j (fun n => n)).
  { intros n Hn. fold N in Hn. split.
    - split; [exact Hn|]. split; [change (s_nodes j) with (N + s_nodes s')%nat; lia|]. unfold j, join_scenes. cbn [s_inputs s_at]. rewrite A. fold N. clear -HI Hn.
      induction HI as [|x x' l l' _ _ IH]; cbn; constructor; [now apply join_left|exact IH].
    - apply (matched_by _ _ _ _ _ (fun e => e)); rewrite ?G, ?EG, ?A; change (s_at j) with (@nil nat).
      + intros e He. apply sparse_in in He as [k [Hk [Ek ->]]]. cbn [fst snd app]. split; [|split; [now apply EL|reflexivity]]. apply sparse_in. exists k. rewrite LD, ND, NS by exact Hk. repeat split; auto; lia.
      + auto.
      + intros e He. exists e. split; [|reflexivity]. apply sparse_in in He as [k [Hk [Ek ->]]]. rewrite LD in Hk. destruct (Nat.lt_ge_cases k (length dst)) as [K|K].
        * rewrite ND in Ek by exact K. rewrite NS by exact K. apply sparse_in. exists k. auto.
        * replace k with (length dst + (k - length dst))%nat in Ek by lia. rewrite ND' in Ek by lia. lia. }
  assert (CR : carries s' j (fun n => (N + n)%nat)).
  { intros n Hn. split.
    - split; [exact Hn|]. split; [change (s_nodes j) with (N + s_nodes s')%nat; lia|]. unfold j, join_scenes. cbn [s_inputs s_at]. rewrite A'. fold N. clear -HI.
      induction HI as [|x x' l l' X _ IH]; cbn; constructor; [now apply join_right|exact IH].
    - apply (matched_by _ _ _ _ _ (fun e => ([(length dst + nth 0 (fst e) 0)%nat], (N + snd e)%nat))); rewrite ?G', ?EG, ?A'; change (s_at j) with (@nil nat).
      + intros e He. apply sparse_in in He as [k [Hk [Ek ->]]]. cbn [fst snd app nth]. split; [|split; [apply ER|reflexivity]]. apply sparse_in. exists (length dst + k)%nat. rewrite LD, ND', NS' by exact Hk. rewrite Ek. repeat split; auto; lia.
      + intros e1 e2 H1 H2. apply sparse_in in H1 as [k1 [_ [_ ->]]]. apply sparse_in in H2 as [k2 [_ [_ ->]]]. cbn [fst snd app nth]. intros E. injection E as E _. assert (k1 = k2) by lia. subst. reflexivity.
      + intros e He. apply sparse_in in He as [k [Hk [Ek ->]]]. rewrite LD in Hk. destruct (Nat.lt_ge_cases k (length dst)) as [K|K].
        * exfalso. rewrite ND in Ek by exact K. specialize (FD (nth k dst 0%nat) (nth_In _ _ K)). lia.
        * exists ([(k - length dst)%nat], nth (k - length dst) src' 0%nat). assert (K' : (k - length dst < length dst')%nat) by lia. split.
          -- apply sparse_in. exists (k - length dst)%nat. split; [exact K'|]. split; [|reflexivity]. replace k with (length dst + (k - length dst))%nat in Ek by lia. rewrite ND' in Ek by exact K'. lia.
          -- cbn [fst snd app nth]. rewrite <- NS' by exact K'. now replace (length dst + (k - length dst))%nat with k by lia. }
  assert (KL : same_kind s j).
  { unfold same_kind, j, join_scenes in *. cbn [s_basis]. destruct (s_basis s), (s_basis s'); try contradiction; cbn; auto. }
  assert (KR : same_kind s' j).
  { unfold same_kind, j, join_scenes in *. cbn [s_basis]. destruct (s_basis s), (s_basis s'); try contradiction; cbn; auto. destruct HK as [? [? [? ?]]]. repeat split; congruence. }
  assert (VJ : node_arrays j).
  { split.
    - exists []. unfold j, join_scenes. cbn [s_inputs s_nodes app]. destruct V as [[B V] _]. clear -HI V. induction HI as [|x x' l l' X _ IH]; cbn; constructor.
      + split; [|reflexivity]. inversion V as [|? ? [[n [V1 V2]] _] _]; subst. exists n. split; assumption.
      + apply IH. now inversion V.
    - unfold j, join_scenes. cbn [s_basis]. intros bs E. destruct V as [_ V]. unfold same_kind in HK. destruct (s_basis s) as [x|], (s_basis s') as [x'|]; try discriminate. injection E as <-.
      destruct (V x eq_refl) as [n [V1 V2]]. exists n. split; assumption. }
  assert (CJ : has_attention cs -> good_cutoffs (s_graph j) (s_cutoff j) (s_nodes j) (s_at j)).
  { intros X. destruct (C X) as [[C1 C2] [C1' C2']]. split.
    - intros i. unfold j, join_scenes. cbn [s_cutoff]. destruct (s_cutoff s) as [c|], (s_cutoff s') as [c'|]; cbn [cutoff_at]; try lra. unfold join_cutoffs. cbn [cutoff_at] in *. destruct i as [|e [|? ?]]; try lra. destruct (e <? length dst)%nat; auto.
    - intros n Hn NE. change (s_nodes j) with (N + s_nodes s')%nat in Hn. destruct (Nat.lt_ge_cases n N) as [K|K].
      + destruct (CL n K) as [_ M]. refine (matched_cutoffs _ _ _ _ _ (fun e e' X => proj1 X) M NE _). rewrite A. exact (C2 n K).
      + assert (K' : (n - N < s_nodes s')%nat) by lia. destruct (CR _ K') as [_ M]. replace (N + (n - N))%nat with n in M by lia.
        refine (matched_cutoffs _ _ _ _ _ (fun e e' X => proj1 X) M NE _). rewrite A'. exact (C2' _ K'). }
  assert (CS : has_attention cs -> good_cutoffs (s_graph s) (s_cutoff s) (s_nodes s) (s_at s)) by (intros X; rewrite A; exact (proj1 (C X))).
  assert (CS' : has_attention cs -> good_cutoffs (s_graph s') (s_cutoff s') (s_nodes s') (s_at s')) by (intros X; rewrite A'; exact (proj2 (C X))).
  split.
  - intros n Hn. pose proof (C70_carries ca cgf lo hi s j _ cs ys zs HP Hc V VJ KL GG GJ (fun X => conj (CS X) (CJ X)) H HJ CL n Hn) as Z0. rewrite A in Z0. exact Z0.
  - intros n Hn. pose proof (C70_carries ca cgf lo hi s' j _ cs ys' zs HP Hc V' VJ KR GG' GJ (fun X => conj (CS' X) (CJ X)) H' HJ CR n Hn) as Z0. rewrite A' in Z0. exact Z0.
Qed.
Print Assumptions C70_join.

(** ** Batches *)

Lemma incoming_at : forall g N b n, incoming g N b n = map (fun e => (b ++ fst e, snd e)) (incoming (graph_at b g) N [] n).
Proof.
  intros [adj w dst src sg] N b n. unfold incoming, graph_at. cbn [g_adj g_dst g_src]. destruct adj as [[[K M] adj]|].
  - rewrite map_map. cbn [fst snd app]. f_equal. apply filter_ext. intros m. unfold dense_edge. cbn [g_where g_adj]. destruct w; reflexivity.
  - destruct dst as [[Q dst]|]; [|reflexivity]. destruct src as [[Q' src]|]; [|reflexivity]. rewrite map_map. reflexivity.
Qed.

Lemma good_at : forall g N b, good_graph g N b -> good_graph (graph_at b g) N [].
Proof.
  intros [adj w dst src sg] N b H. unfold good_graph, graph_at in *. cbn [g_adj g_dst g_src g_segments] in *. destruct adj as [[[K M] adj]|].
  - destruct H as [E H]. split; [exact E|]. intros n m Hn Hm He. apply (H n m Hn Hm). unfold dense_edge in *. cbn [g_where g_adj] in *. destruct w; exact He.
  - destruct dst as [[Q dst]|], src as [[Q' src]|]; exact H.
Qed.

(** In a batch, every structure gets the features that the network computes for it alone. *)
Theorem C70_batch : forall cartesian cgf lo hi s cs ys ys', uses_package cartesian cgf ->
  Forall proper_call cs -> (exists B, length B = length (s_at s) /\ Forall (fun x => has_scalars x /\ fB x = B ++ [s_nodes s]) (s_inputs s)) -> (forall bs, s_basis s = Some bs -> has_scalars bs) ->
  good_graph (s_graph s) (s_nodes s) (s_at s) -> (has_attention cs -> good_cutoffs (s_graph s) (s_cutoff s) (s_nodes s) (s_at s)) ->
  run cgf lo hi (s_basis s) (s_cutoff s) (s_graph s) (s_inputs s) cs = Ok ys ->
  let t := structure_at s in
  run cgf lo hi (s_basis t) (s_cutoff t) (s_graph t) (s_inputs t) cs = Ok ys' ->
  forall n, (n < s_nodes s)%nat -> Forall2 (fun y y' => alike y (s_at s ++ [n]) y' [n]) ys ys'.
Proof.
  intros ca cgf lo hi s cs ys ys' HP Hc [B [LB V]] VB G C H t HT n Hn.
  assert (AT : forall x i, alike x (s_at s ++ i) (feat_at (s_at s) x) i) by (intros x i; repeat split).
  assert (EA : forall i, edge_alike s t (s_at s ++ i) i).
  { intros i. unfold t, structure_at, edge_alike. cbn [s_basis s_cutoff]. split; [destruct (s_basis s); [apply AT|exact I]|destruct (s_cutoff s); reflexivity]. }
  assert (CA : carries s t (fun n => n)).
  { intros m Hm. split.
    - split; [exact Hm|]. split; [exact Hm|]. unfold t, structure_at. cbn [s_inputs s_at]. clear -AT. induction (s_inputs s); cbn; constructor; [apply (AT a [m])|assumption].
    - exists (incoming (s_graph t) (s_nodes t) (s_at t) m). split; [apply Permutation_refl|]. rewrite incoming_at. change (incoming (graph_at (s_at s) (s_graph s)) (s_nodes s) [] m) with (incoming (s_graph t) (s_nodes t) (s_at t) m).
      clear -EA. induction (incoming (s_graph t) (s_nodes t) (s_at t) m) as [|e l IH]; cbn; constructor; [|exact IH]. cbn [fst snd]. split; [apply EA|reflexivity]. }
  assert (VT : node_arrays t).
  { split.
    - exists []. unfold t, structure_at. cbn [s_inputs s_nodes app]. rewrite Forall_map. eapply Forall_impl; [|exact V]. intros x [[m [V1 V2]] E]. split; [exists m; split; assumption|].
      cbn [fB feat_at]. rewrite E, <- LB. rewrite skipn_app, skipn_all, Nat.sub_diag. reflexivity.
    - unfold t, structure_at. cbn [s_basis]. intros bs E. destruct (s_basis s) as [x|]; [|discriminate]. injection E as <-. destruct (VB x eq_refl) as [m [V1 V2]]. exists m. split; assumption. }
  refine (C70_carries ca cgf lo hi s t (fun n => n) cs ys ys' HP Hc (conj (ex_intro _ B V) VB) VT _ G (good_at _ _ _ G) _ H HT CA n Hn).
  - unfold same_kind, t, structure_at. cbn [s_basis]. destruct (s_basis s); cbn; auto.
  - intros X. specialize (C X). split; [exact C|]. split.
    + intros i. specialize (proj1 C (s_at s ++ i)). unfold t, structure_at. cbn [s_cutoff]. destruct (s_cutoff s); cbn; auto.
    + intros m Hm NE. destruct (CA m Hm) as [_ M]. exact (matched_cutoffs _ _ _ _ _ (fun e e' X => proj1 X) M NE (proj2 C m Hm)).
Qed.
Print Assumptions C70_batch.

(** ** Formats of the lists *)

(** A dense list and a sparse list of the same edges (E enumerates the entries of the dense list that are edges) give the same features. *)
Theorem C70_formats : forall cartesian cgf lo hi s s' N M adj w E cs ys ys', uses_package cartesian cgf ->
  Forall proper_call cs -> node_arrays s -> node_arrays s' -> same_kind s s' -> s_at s = [] -> s_at s' = [] -> s_nodes s = N -> s_nodes s' = N ->
  s_graph s = mkGraph (Some (N, M, adj)) w None None None -> dense_sources (s_graph s) (adj []) [] N M N ->
  NoDup E -> (forall n m, In (n, m) E <-> (n < N)%nat /\ (m < M)%nat /\ dense_edge (s_graph s) N [] n m = true) ->
  s_graph s' = sparse_graph (map fst E) (map (fun e => Z.to_nat (nth (snd e) (nth (fst e) (adj []) []) 0%Z)) E) ->
  (forall e n m, nth_error E e = Some (n, m) -> edge_alike s s' [n; m] [e]) ->
  (forall n, (n < N)%nat -> node_alike s s' n n) ->
  (has_attention cs -> good_cutoffs (s_graph s) (s_cutoff s) N [] /\ forall i, 0 <= cutoff_at (s_cutoff s') i) ->
  run cgf lo hi (s_basis s) (s_cutoff s) (s_graph s) (s_inputs s) cs = Ok ys ->
  run cgf lo hi (s_basis s') (s_cutoff s') (s_graph s') (s_inputs s') cs = Ok ys' ->
  forall n, (n < N)%nat -> Forall2 (fun y y' => alike y [n] y' [n]) ys ys'.
Proof.
  intros ca cgf lo hi s s' N M adj w E cs ys ys' HP Hc V V' HK A A' EN EN' G DS ND HE G' HB HN C H H' n Hn.
  assert (GG : good_graph (s_graph s) (s_nodes s) (s_at s)) by (rewrite G at 1; rewrite A, EN; unfold good_graph; cbn [g_adj]; rewrite <- G; split; [reflexivity|exact DS]).
  set (send := fun e => Z.to_nat (nth (snd e) (nth (fst e) (adj []) []) 0%Z)) in *.
  assert (NE : forall e n m, nth_error E e = Some (n, m) -> (e < length E)%nat /\ nth e (map fst E) 0%nat = n /\ nth e (map send E) 0%nat = send (n, m)).
  { intros e p q X. split; [apply nth_error_Some; congruence|]. split; apply nth_error_nth; rewrite nth_error_map, X; reflexivity. }
  assert (GG' : good_graph (s_graph s') (s_nodes s') (s_at s')).
  { rewrite G', EN', A'. apply sparse_good; [rewrite !map_length; reflexivity|]. apply Forall_map, Forall_forall. intros [p q] Ie. apply HE in Ie as [Hp [Hq He]].
    destruct (DS p q Hp Hq He) as [j [Hj Ha]]. unfold send. cbn [fst snd]. rewrite (at_node_value _ _ _ Ha). exact Hj. }
  assert (DI : forall m e, In e (incoming (s_graph s) N [] m) <-> exists q, In q (filter (dense_edge (s_graph s) N [] m) (seq 0 M)) /\ e = ([m; q], send (m, q))).
  { intros m e. rewrite G. unfold incoming. cbn [g_adj]. rewrite <- G. rewrite in_map_iff. cbn [app]. split; intros [q [X1 X2]]; exists q; [split; [exact X2|symmetry; exact X1]|split; [symmetry; exact X2|exact X1]]. }
  assert (CA : carries s s' (fun n => n)).
  { intros m Hm. rewrite EN in Hm. split; [now apply HN|].
    assert (POS : forall q, In q (filter (dense_edge (s_graph s) N [] m) (seq 0 M)) -> exists e, nth_error E e = Some (m, q)).
    { intros q X. apply filter_In in X as [X1 X2]. apply in_seq in X1. apply In_nth_error. apply HE. repeat split; auto; lia. }
    (* the edges of the sparse list, listed in the order of the dense one *)
    assert (LIST : forall l, incl l (filter (dense_edge (s_graph s) N [] m) (seq 0 M)) -> NoDup l -> exists es', Forall2 (fun q e' => exists e, nth_error E e = Some (m, q) /\ e' = ([e], send (m, q))) l es' /\ NoDup es').
    { induction l as [|q l IH]; intros HI HD; [exists []; split; constructor|]. destruct IH as [es' [F Dp]]; [intros z Hz; apply HI; now right|now inversion HD|].
      destruct (POS q (HI q (or_introl eq_refl))) as [e He]. exists (([e], send (m, q)) :: es'). split; [constructor; [eauto|exact F]|]. constructor; [|exact Dp].
      intros X. assert (Y : exists q', In q' l /\ nth_error E e = Some (m, q')).
      { clear -F X. induction F as [|q0 e0 l l' [e1 [Z1 Z2]] _ IHF]; [destruct X|]. destruct X as [X|X]; [subst e0; injection X as -> _; exists q0; split; [now left|exact Z1]|]. destruct (IHF X) as [q' [? ?]]; exists q'; split; [now right|assumption]. }
      destruct Y as [q' [Y1 Y2]]. assert (q' = q) by congruence. subst. inversion HD; contradiction. }
    destruct (LIST _ (incl_refl _) (NoDup_filter _ (seq_NoDup M 0))) as [es' [F Dp]]. exists es'. split.
    - apply NoDup_Permutation; [exact Dp|apply incoming_NoDup|]. intros e'. rewrite G', A', EN'. rewrite sparse_in, map_length. split.
      + intros X. assert (Y : exists e q, nth_error E e = Some (m, q) /\ e' = ([e], send (m, q))).
        { clear -F X. induction F as [|q0 e0 l l' [e1 Z1] _ IHF]; [destruct X|]. destruct X as [<-|X]; eauto. }
        destruct Y as [e [q [Y1 ->]]]. destruct (NE e m q Y1) as [Z1 [Z2 Z3]]. exists e. rewrite Z3. auto.
      + intros [k [Hk [Ek ->]]]. destruct (nth_error E k) as [[p q]|] eqn:EK; [|apply nth_error_None in EK; lia]. destruct (NE k p q EK) as [_ [Z2 Z3]]. rewrite Z2 in Ek. subst p. rewrite Z3. cbn [app].
        assert (Iq : In q (filter (dense_edge (s_graph s) N [] m) (seq 0 M))).
        { apply nth_error_In in EK. apply HE in EK as [_ [X1 X2]]. apply filter_In. split; [apply in_seq; lia|exact X2]. }
        clear -F Iq EK ND. induction F as [|q0 e0 l l' [e1 [Z1 Z2]] _ IHF]; [destruct Iq|]. destruct Iq as [->|Iq]; [left|right; now apply IHF].
        subst e0. assert (e1 = k). { apply (proj1 (NoDup_nth_error E) ND); [apply nth_error_Some; congruence|congruence]. } subst. reflexivity.
    - rewrite A, EN. rewrite G. unfold incoming. cbn [g_adj app]. rewrite <- G.
      clear -F HB. induction F as [|q e' l l' [e [Z1 ->]] _ IHF]; cbn [map]; constructor; [|exact IHF]. cbn [fst snd]. split; [now apply HB|reflexivity]. }
  assert (CC : has_attention cs -> good_cutoffs (s_graph s) (s_cutoff s) (s_nodes s) (s_at s) /\ good_cutoffs (s_graph s') (s_cutoff s') (s_nodes s') (s_at s')).
  { intros X. destruct (C X) as [C1 C2]. rewrite A, EN. split; [exact C1|]. split; [exact C2|]. intros m Hm NEm. rewrite EN' in Hm.
    destruct (CA m ltac:(lia)) as [_ X0]. refine (matched_cutoffs _ _ _ _ _ (fun e e' X => proj1 X) X0 NEm _). rewrite A, EN. exact (proj2 C1 m Hm). }
  pose proof (C70_carries ca cgf lo hi s s' _ cs ys ys' HP Hc V V' HK GG GG' CC H H' CA n ltac:(lia)) as Z0. rewrite A, A' in Z0. exact Z0.
Qed.
Print Assumptions C70_formats.

(** ** Receptive field *)

(** Atoms and edges that cannot be reached from n within k steps may be added, removed or changed. *)
Theorem C70_receptive_field : forall cartesian cgf lo hi s s' cs ys ys' n, uses_package cartesian cgf ->
  Forall proper_call cs -> node_arrays s -> node_arrays s' -> same_kind s s' -> s_at s' = s_at s ->
  good_graph (s_graph s) (s_nodes s) (s_at s) -> good_graph (s_graph s') (s_nodes s') (s_at s') ->
  (has_attention cs -> good_cutoffs (s_graph s) (s_cutoff s) (s_nodes s) (s_at s) /\ good_cutoffs (s_graph s') (s_cutoff s') (s_nodes s') (s_at s')) ->
  run cgf lo hi (s_basis s) (s_cutoff s) (s_graph s) (s_inputs s) cs = Ok ys ->
  run cgf lo hi (s_basis s') (s_cutoff s') (s_graph s') (s_inputs s') cs = Ok ys' ->
  (forall m, reaches s n (depth cs) m -> node_alike s s' m m) ->
  (forall k m, (k < depth cs)%nat -> reaches s n k m ->
     incoming (s_graph s') (s_nodes s') (s_at s) m = incoming (s_graph s) (s_nodes s) (s_at s) m
     /\ forall e, In e (incoming (s_graph s) (s_nodes s) (s_at s) m) -> edge_alike s s' (fst e) (fst e)) ->
  Forall2 (fun y y' => alike y (s_at s ++ [n]) y' (s_at s ++ [n])) ys ys'.
Proof.
  intros ca cgf lo hi s s' cs ys ys' n HP Hc V V' HK A G G' C H H' HN HE.
  assert (UP : forall k k' m, (k <= k')%nat -> reaches s n k m -> reaches s n k' m).
  { clear. intros k k' m L R. revert k' L. induction R as [k|k m e R IH I]; intros k' L; [constructor|]. destruct k' as [|k']; [lia|]. apply (reaches_step s n k' m e); [apply IH; lia|exact I]. }
  assert (X : forall j k m, (j + k <= depth cs)%nat -> reaches s n k m -> looks_alike s s' j m m).
  { induction j as [|j IH]; intros k m L R; (split; [apply HN; apply (UP k); [lia|exact R]|]); [exact I|].
    destruct (HE k m ltac:(lia) R) as [E1 E2]. exists (incoming (s_graph s) (s_nodes s) (s_at s) m). split; [rewrite A, E1; apply Permutation_refl|].
    assert (Y : forall e, In e (incoming (s_graph s) (s_nodes s) (s_at s) m) -> edge_alike s s' (fst e) (fst e) /\ looks_alike s s' j (snd e) (snd e)).
    { intros e Ie. split; [now apply E2|]. apply (IH (S k)); [lia|]. exact (reaches_step s n k m e R Ie). }
    revert Y. generalize (incoming (s_graph s) (s_nodes s) (s_at s) m). intros l Y. induction l; constructor; [apply Y; now left|]. apply IHl. intros e Ie. apply Y. now right. }
  assert (L : looks_alike s s' (depth cs) n n) by (apply (X (depth cs) 0%nat n); [lia|constructor]).
  pose proof (C70_network ca cgf lo hi s s' cs ys ys' (depth cs) n n HP Hc V V' HK G G' C H H' (le_n _) L) as Z0. rewrite A in Z0. exact Z0.
Qed.
Print Assumptions C70_receptive_field.

(** ** A case: a pair and a chain of three atoms *)
Require Import Verif.LUT_Model Verif.LUT_Spec Verif.LUT_Props Verif.Symbolic_Model Verif.Irreps_Model Verif.Irreps_Spec Verif.Irreps_Props Verif.Clebsch_Model Verif.Irreps_Proofs Verif.RealCG_Proofs Verif.CGTable_Proofs Verif.Clebsch_Props.

Definition case_features (N : nat) : feat := mkFeat [N] 1 1 2 0 (fun i _ _ f => INR (nth 0 i 0 + f)%nat).
Definition case_edges (Q : nat) : feat := mkFeat [Q] 1 4 1 0 (fun i _ d _ => INR (nth 0 i 0 + d)%nat).
Definition case_scene (N : nat) (dst src : list nat) : scene :=
  mkScene [case_features N] (Some (case_edges (length dst))) (Some (fun _ => 1)) (sparse_graph dst src) N [].
Definition locality_network : list call :=
  [UseMessagePass 0 (Some 1%Z) false false (mkConv (mkDense (fun _ _ _ _ => 1) (fun _ => 0)) (PTensor (fun _ _ _ _ _ _ _ => 1)));
   UseAdd [0; 1]%nat; UseActivation 2 silu;
   UseAttention 3 3 (mkOptions 2 None None false false false false false true false None false) case_attention].

Example C70_case : let cgf := package_cg true in
  let dst := [0; 1]%nat in let src := [1; 0]%nat in let dst' := [0; 1; 1; 2]%nat in let src' := [1; 0; 2; 1]%nat in
  let s := case_scene 2 dst src in let s' := case_scene 3 dst' src' in let j := join_scenes dst src dst' src' s s' in
  uses_package true cgf /\ Forall proper_call locality_network /\ depth locality_network = 2%nat /\ has_attention locality_network /\
  node_arrays s /\ node_arrays s' /\ same_kind s s' /\ good_cutoffs (s_graph s) (s_cutoff s) (s_nodes s) [] /\ good_cutoffs (s_graph s') (s_cutoff s') (s_nodes s') [] /\
  forall t, In t [s; s'; j] -> exists ys, Network_Spec.run cgf 0 0 (s_basis t) (s_cutoff t) (s_graph t) (s_inputs t) locality_network = Ok ys /\ map fD ys = [1; 4; 4; 4; 4]%nat.
Proof.
  intros cgf dst src dst' src' s s' j. split; [apply package_cg_uses|]. split.
  { unfold locality_network. repeat constructor; try (intros d E; injection E as <-; lia); try (intros d E; discriminate E). exists (fun _ => 0), 1, 1. cbn. tauto. }
  split; [reflexivity|]. split; [do 4 eexists; do 3 right; left; reflexivity|].
  assert (NA : forall N d0 s0, node_arrays (case_scene N d0 s0)).
  { intros N d0 s0. split; [exists []; constructor; [|constructor]; split; [exists 0%nat; split; [now left|reflexivity]|reflexivity]|].
    intros bs E. injection E as <-. exists 1%nat. split; [now left|reflexivity]. }
  assert (GC : forall N d0 s0, good_cutoffs (s_graph (case_scene N d0 s0)) (s_cutoff (case_scene N d0 s0)) N []).
  { intros N d0 s0. split; [intros i; cbn; lra|]. intros n _ NE. destruct (incoming _ _ _ _) as [|e l]; [contradiction|]. left. cbn. lra. }
  split; [apply NA|]. split; [apply NA|]. split; [repeat split|]. split; [apply GC|]. split; [apply GC|].
  assert (C : exists C, cgf 1%Z 0%Z 1%Z = Ok C).
  { unfold cgf, package_cg. destruct (C59_entries R 0 rzero real_clebsch_gordan 0 empty_world None IoOk 1 0 1 true rzero_test (cg_ready_empty _ _ _ _) call_ok_serial ltac:(lia) ltac:(lia) ltac:(lia)) as [c [E _]].
    rewrite E. eexists. reflexivity. }
  destruct C as [C EC]. clearbody cgf.
  intros t Ht.
  assert (R1 : exists z, perform cgf 0 0 (s_basis t) (s_cutoff t) (s_graph t) (s_inputs t) (hd (UseAdd []) locality_network) = Ok z /\ fB z = [s_nodes t] /\ fS z = 1%nat /\ fD z = 4%nat /\ fF z = 2%nat /\ fdt z = 0%nat).
  { cbn [In] in Ht. destruct Ht as [<-|[<-|[<-|[]]]]; apply ok_case; clear -EC; cbn [hd locality_network perform]; vm_compute; rewrite EC; vm_compute; repeat split. }
  destruct R1 as [z [Ez Sz]]. destruct z as [zB zS zD zF zd zv]. cbn in Sz. destruct Sz as [-> [-> [-> [-> ->]]]].
  assert (R2 : exists ys, Network_Spec.run cgf 0 0 (s_basis t) (s_cutoff t) (s_graph t) (s_inputs t ++ [mkFeat [s_nodes t] 1 4 2 0 zv]) (tl locality_network) = Ok ys /\ map fD ys = [1; 4; 4; 4; 4]%nat).
  { clear -Ht. cbn [In] in Ht. destruct Ht as [<-|[<-|[<-|[]]]]; apply ok_case; vm_compute; reflexivity. }
  destruct R2 as [ys [Ey Sy]]. exists ys. split; [|exact Sy]. unfold locality_network. cbn [Network_Spec.run]. cbn [hd locality_network] in Ez. rewrite Ez. cbn [bind]. exact Ey.
Qed.
