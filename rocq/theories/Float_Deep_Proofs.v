(** Proofs that the layers of a network preserve convergence. *)
Require Import List Reals ZArith Bool Lra Lia.
Require Import Verif.Base Verif.RSum Verif.Radial_Model Verif.Indexed_Model Verif.Features_Model Verif.Features_Spec Verif.Features_Proofs Verif.Activations_Model Verif.Activations_Props Verif.Modules_Model Verif.Modules_Spec Verif.Modules_Proofs Verif.Modules_Conv_Proofs Verif.Modules_Graph_Spec Verif.Modules_Graph_Proofs Verif.Modules_Attention_Proofs Verif.Modules_Softmax_Proofs Verif.Irreps_Spec Verif.Equivariance_Spec Verif.Equivariance_Props Verif.AutoDiff_Model Verif.AutoDiff_Props Verif.Network_Spec Verif.Network_Props
  Verif.Float_Model Verif.Float_Einsum_Model Verif.Float_Einsum_Spec Verif.Float_Einsum_Proofs Verif.Float_Einsum_Props Verif.Float_Network_Model Verif.Float_Network_Spec Verif.Float_Network_Proofs Verif.Float_Program_Model Verif.Float_Program_Spec Verif.Float_Program_Proofs Verif.Float_Program_Props Verif.Float_Deep_Model Verif.Float_Deep_Spec.
Import ListNotations.
Open Scope R_scope.

Notation value := Float_Network_Model.value.

Lemma converges_nothing : converges Nothing.
Proof. apply approaches_constant. Qed.
Lemma converges_stored r : converges (Operand (stored r)).
Proof. exact (C94_nonvacuous_input r). Qed.
Lemma converges_sum a b : converges a -> converges b -> converges (Sum a b).
Proof.
  intros A B. pose proof (proj1 program_approaches (Bin Add (Var 0) (Var 1)) (fun k => if (k =? 0)%nat then exact a else exact b) (fun m k => if (k =? 0)%nat then on m a else on m b) (exact a + exact b)) as H. apply H; [cbn; auto| |reflexivity]. intro k. destruct (k =? 0)%nat; assumption.
Qed.
Lemma converges_product a b : converges a -> converges b -> converges (Product a b).
Proof.
  intros A B. pose proof (proj1 program_approaches (Bin Mul (Var 0) (Var 1)) (fun k => if (k =? 0)%nat then exact a else exact b) (fun m k => if (k =? 0)%nat then on m a else on m b) (exact a * exact b)) as H. apply H; [cbn; auto| |reflexivity]. intro k. destruct (k =? 0)%nat; assumption.
Qed.
Lemma converges_apply e args v : (forall k, converges (args k)) -> stable e (fun k => exact (args k)) -> AutoDiff_Model.value e (fun k => exact (args k)) = Some v -> converges (apply e args) /\ exact (apply e args) = v.
Proof.
  intros C S V. pose proof (proj1 program_approaches e (fun k => exact (args k)) (fun m k => on m (args k)) v S C V) as A.
  unfold converges, apply. cbn [exact ideal number_leaves without_rounding on on_machine]. rewrite V. now split.
Qed.
Lemma converges_subst W (g : W -> tree number) e : (forall v, converges (g v)) -> converges (subst g e).
Proof. intro H. induction e as [|v|a IHa b IHb|a IHa b IHb]; cbn [subst]; [apply converges_nothing|apply H|now apply converges_sum|now apply converges_product]. Qed.
Lemma converges_nth l k : Forall converges l -> converges (nth k l Nothing).
Proof. intro C. destruct (nth_in_or_default k l Nothing) as [I|E]; [rewrite Forall_forall in C; now apply C|rewrite E; apply converges_nothing]. Qed.

Ltac results := match goal with H : Ok _ = Ok _ |- _ => injection H as <- end.
Ltac steps := repeat match goal with
  | H : Err _ = Ok _ |- _ => discriminate H
  | H : Ok _ = Ok _ |- _ => injection H as <-
  | H : bind ?r _ = Ok _ |- _ => destruct r eqn:?; cbn [bind] in H
  | H : rmap _ ?r = Ok _ |- _ => destruct r eqn:?; cbn [rmap] in H
  | H : (if ?b then _ else _) = Ok _ |- _ => destruct b eqn:?
  | H : match ?o with None => _ | Some _ => _ end = Ok _ |- _ => destruct o eqn:?
  | H : match ?o with Ok _ => _ | Err _ => _ end = Ok _ |- _ => destruct o eqn:?
  end.

Lemma dense_converging E features b P x y : converging x -> tree_dense E features b P x = Ok y -> converging y.
Proof. intros C H. unfold tree_dense in H. steps. intros i s d f. apply converges_subst. intros [z|z|]; [apply C|apply converges_stored..]. Qed.
Lemma tensor_converging cgf E md incl K x1 x2 y : converging x1 -> converging x2 -> tree_tensor cgf E md incl K x1 x2 = Ok y -> converging y.
Proof. intros C1 C2 H. unfold tree_tensor in H. steps. intros i r n f. apply converges_subst. intros []; [apply C1|apply C2|apply converges_stored..]. Qed.
Lemma fused_converging cgf E md incl P x1 x2 y : converging x1 -> converging x2 -> tree_fused cgf E md incl P x1 x2 = Ok y -> converging y.
Proof.
  intros C1 C2 H. unfold tree_fused in H. cbv zeta in H.
  assert (PART : forall j mask x i n f, converging x -> converges (tree_part j mask x i n f)) by (intros j mask x i n f C; unfold tree_part; destruct (tfS x =? 2)%nat; [apply C|apply converges_product; [apply C|apply converges_stored]]).
  assert (MAT : forall cg q x k ls i l m f, (forall i n f, converges (x i n f)) -> converges (tree_matrix E cg q x k ls i l m f)) by (intros; apply converges_subst; intros [n|n|n]; [auto|apply converges_stored..]).
  assert (CPL : forall a b w q y1 y2 i l n f, (forall i l m f, converges (y1 i l m f)) -> (forall i l m f, converges (y2 i l m f)) -> converges (tree_couple E a b w q y1 y2 i l n f)) by (intros; apply converges_subst; intros [m|m]; auto).
  assert (VEC : forall cg w q y k i n f, (forall i l m f, converges (y i l m f)) -> converges (tree_vector E cg w q y k i n f)) by (intros; apply converges_subst; intros [l m| |l m]; [auto|apply converges_stored..]).
  steps; intros i r n f; cbn [tfv]; [destruct (r =? 0)%nat|]; repeat first [apply converges_sum|apply converges_product|apply converges_stored]; auto 10.
Qed.
Lemma any_tensor_converging cgf E md incl P x1 x2 y : converging x1 -> converging x2 -> tree_any_tensor cgf E md incl P x1 x2 = Ok y -> converging y.
Proof. destruct P; [apply tensor_converging|apply fused_converging]. Qed.
Lemma tensor_dense_converging cgf E features md incl b Pd Pt x y : converging x -> tree_tensor_dense cgf E features md incl b Pd Pt x = Ok y -> converging y.
Proof. intros C H. unfold tree_tensor_dense in H. steps. apply dense_converging in Heqr; [|exact C]. apply any_tensor_converging in H; [exact H|intros i s d f; apply Heqr..]. Qed.

Lemma take_converges l j : Forall converges l -> converges (take Nothing l j).
Proof. intro C. unfold take. repeat match goal with |- context [if ?b then _ else _] => destruct b end; try apply converges_nothing; now apply converges_nth. Qed.
Lemma gather_sparse_converges l idx : Forall converges l -> Forall converges (gather_sparse Nothing l idx).
Proof. intro C. unfold gather_sparse. apply Forall_forall. intros t I. apply in_map_iff in I. destruct I as (j & <- & _). now apply take_converges. Qed.
Lemma node_trees_converge x b s d f : converging x -> Forall converges (node_trees x b s d f).
Proof. intro C. apply Forall_forall. intros t I. apply in_map_iff in I. destruct I as (j & <- & _). apply C. Qed.
Lemma gather_converging x g y : converging x -> tree_gather x g = Ok y -> converging y.
Proof.
  intros C H. unfold tree_gather in H. destruct (graph_type g false true) as [[|]|]; [| |discriminate].
  - destruct (g_adj g) as [[[N M] adj]|]; [|discriminate]. injection H as <-. intros i s d f. cbn [tfv]. match goal with |- converges (nth _ (nth ?a ?l ?e) _) => destruct (nth_in_or_default a l e) as [I|E]; [set (row := nth a l e) in *; clearbody row|rewrite E; destruct (last1 i); apply converges_nothing] end.
    apply converges_nth. unfold gather_dense in I. apply in_map_iff in I. destruct I as (r & <- & _). apply (gather_sparse_converges _ r). now apply node_trees_converge.
  - destruct (g_src g) as [[P src]|]; [|discriminate]. injection H as <-. intros i s d f. cbn [tfv]. apply converges_nth, gather_sparse_converges. now apply node_trees_converge.
Qed.

Lemma chosen_converge l flags : Forall converges l -> Forall converges (chosen l flags).
Proof. intro C. revert flags. induction C as [|t l T C IH]; intros [|b flags]; try constructor. cbn. destruct b; [constructor; auto|auto]. Qed.
Lemma summed_converges e l : Forall converges l -> converges (summed e l).
Proof. intro C. unfold summed. apply converges_subst. intro k. now apply converges_nth. Qed.
Lemma map_converge {A : Type} (h : A -> tree number) l : (forall a, In a l -> converges (h a)) -> Forall converges (map h l).
Proof. intro H. apply Forall_forall. intros t I. apply in_map_iff in I. destruct I as (a & <- & I). auto. Qed.
Lemma indexed_sum_converging E x g y : converging x -> tree_indexed_sum E x g = Ok y -> converging y.
Proof.
  intros C H. unfold tree_indexed_sum in H. destruct (graph_type g true false) as [[|]|]; [| |discriminate].
  - destruct (g_where g) as [w|]; [|discriminate]. destruct (g_adj g) as [[[N M] adj]|]; [|discriminate]. steps. intros i s d f. cbn [tfv]. apply converges_nth, map_converge. intros [r fl] I. apply summed_converges, chosen_converge. cbn [fst]. apply in_combine_l, in_map_iff in I. destruct I as (n & <- & _). apply map_converge. intros; apply C.
  - destruct (g_segments g) as [n|]; [|discriminate]. destruct (g_dst g) as [[P dst]|]; [|discriminate]. steps. intros i s d f. cbn [tfv]. apply converges_nth, map_converge. intros q _. apply summed_converges, chosen_converge, map_converge. intros; apply C.
Qed.
Lemma conv_converging cgf E md incl ub P x basis g y : converging x -> (forall bs, basis = Some bs -> converging bs) -> tree_conv cgf E md incl ub P x basis g = Ok y -> converging y.
Proof.
  intros C CB H. unfold tree_conv in H. destruct basis as [bs|].
  - destruct (negb (list_nat_eqb (tfB x) (tfB bs))); [discriminate|]. destruct (tree_dense E (tfF x) ub (c_filter P) bs) as [z|] eqn:EF; [|discriminate]. cbn [bind] in H. destruct (tree_any_tensor cgf E md incl (c_tensor P) z x) as [w|] eqn:ET; [|discriminate]. cbn [bind] in H.
    apply indexed_sum_converging in H; [exact H|]. apply any_tensor_converging in ET; [exact ET| |exact C]. apply dense_converging in EF; [exact EF|]. now apply CB.
  - cbn [bind] in H. now apply indexed_sum_converging in H.
Qed.
Lemma comp_converges x i p l k f : converging x -> converges (tree_comp x i p l k f).
Proof. intro C. unfold tree_comp. repeat match goal with |- context [if ?b then _ else _] => destruct b end; apply C || apply converges_nothing. Qed.
Lemma select_converging xs i y : Forall converging xs -> tree_select xs i = Ok y -> converging y.
Proof. intros C H. unfold tree_select in H. destruct (nth_error xs i) as [x|] eqn:E; [|discriminate]. injection H as <-. rewrite Forall_forall in C. apply C. now apply nth_error_In with i. Qed.
Lemma select_all_converging xs is ys : Forall converging xs -> tree_select_all xs is = Ok ys -> Forall converging ys.
Proof.
  intros C. revert ys. induction is as [|i is IH]; intros ys H; cbn [tree_select_all] in H; [injection H as <-; constructor|]. destruct (tree_select xs i) as [x|] eqn:E; [|discriminate]. cbn [bind] in H. destruct (tree_select_all xs is) as [zs|]; [|discriminate]. injection H as <-.
  constructor; [now apply select_converging in E|now apply IH].
Qed.
Lemma perform_converging cgf basis g E xs c y : Forall converging xs -> (forall bs, basis = Some bs -> converging bs) -> tree_perform cgf basis g E xs c = Ok y -> converging y.
Proof.
  intros C CB H. destruct c; cbn [tree_perform] in H; try discriminate H.
  all: match type of H with bind ?r _ = _ => destruct r as [x|] eqn:EX; [cbn [bind] in H|discriminate H] end.
  all: try (apply select_converging in EX; [|exact C]).
  - now apply dense_converging in H.
  - destruct (tree_select xs j) as [x2|] eqn:EX2; [|discriminate H]. apply select_converging in EX2; [|exact C]. now apply any_tensor_converging in H.
  - now apply tensor_dense_converging in H.
  - unfold tree_message_pass in H. destruct (tree_gather x g) as [z|] eqn:EG; [|discriminate H]. cbn [bind] in H. apply gather_converging in EG; [|exact EX]. now apply conv_converging in H.
  - unfold tree_change in H. destruct (change_max_degree_or_type _ _ _) as [z|]; [|discriminate H]. injection H as <-. intros a s d f. now apply comp_converges.
  - apply select_all_converging in EX; [|exact C]. unfold tree_add in H. destruct (add _) as [z|]; [|discriminate H]. injection H as <-. intros a s d f. cbn [tfv shaped].
    assert (G : forall t, converges t -> converges (fold_left (fun t x => Sum t (tree_comp x a (if (fS z =? 2)%nat then s else (Nat.sqrt d mod 2)%nat) (Nat.sqrt d) (d - Nat.sqrt d * Nat.sqrt d) f)) x t)); [|apply G, converges_nothing].
    clear -EX. induction EX as [|u l U EX IH]; intros t T; [exact T|]. apply IH. apply converges_sum; [exact T|now apply comp_converges].
Qed.

(** * Activations *)
Section Deep.
Variables (erf derf : R -> R) (eps : R).
Hypotheses (rule : erf_rule erf derf) (positive : 0 < eps).

Definition the_gate (a : activation) : R -> R :=
  match a with
  | Relu => relu_gate | LeakyRelu s => leaky_relu_gate s | Elu alpha => elu_gate eps alpha | Selu => elu_gate eps selu_alpha | Celu alpha => celu_gate eps alpha | Silu => expit
  | Gelu b => gelu_gate erf b | Mish b => mish_gate b | Serf => serf_gate erf | ShiftedSoftplus => shifted_softplus_gate eps | HardTanh => hard_tanh_gate | SoftSign => soft_sign_gate
  | Relu6 => relu6_gate | HardSilu => hard_sigmoid | BentIdentity => bent_identity_gate eps
  end.
Lemma gate_value a r : proper_step (Activate 0 a) -> AutoDiff_Model.value (gate_program erf derf eps a) r = Some (the_gate a (r 0%nat)).
Proof using rule positive.
  intro P. assert (E : 0 <= eps) by lra. destruct a; cbn [gate_program the_gate].
  - apply (relu_diff r I).
  - apply (leaky_relu_diff _ r I).
  - apply (elu_diff eps alpha ltac:(lra) r I).
  - apply (elu_diff eps selu_alpha ltac:(lra) r I).
  - apply (celu_diff eps alpha ltac:(lra) P r I).
  - apply (silu_diff r I).
  - apply (gelu_diff erf derf _ rule r I).
  - apply (mish_diff _ r I).
  - apply (serf_diff erf derf rule r I).
  - apply (shifted_softplus_diff eps ltac:(lra) r I).
  - apply (hard_tanh_diff r I).
  - apply (soft_sign_diff r I).
  - apply (relu6_diff r I).
  - apply (hard_silu_diff r I).
  - apply (bent_identity_diff eps ltac:(lra) r I).
Qed.
Lemma gate_computes a : proper_step (Activate 0 a) -> computes (gate_program erf derf eps a) (the_gate a) everywhere (gate_exception eps a).
Proof using rule positive.
  intro P. destruct a; cbn [gate_program the_gate gate_exception].
  - apply relu_computes.
  - apply leaky_relu_computes.
  - now apply elu_computes.
  - now apply elu_computes.
  - now apply celu_computes.
  - apply silu_computes.
  - now apply gelu_computes.
  - apply mish_computes.
  - now apply serf_computes.
  - now apply shifted_softplus_computes.
  - apply hard_tanh_computes.
  - apply soft_sign_computes.
  - apply relu6_computes.
  - apply hard_silu_computes.
  - now apply bent_identity_computes.
Qed.

Lemma activation_alike a x : proper_step (Activate 0 a) -> alike (deep_activation erf derf eps a x) (exact_activation erf eps a (value x)).
Proof using rule positive.
  intro P. assert (G : forall i f, exact (apply (gate_program erf derf eps a) (fun _ => tfv x i 0%nat 0%nat f)) = the_gate a (exact (tfv x i 0%nat 0%nat f))).
  { intros i f. unfold apply. cbn [exact ideal number_leaves without_rounding]. now rewrite (gate_value a _ P). }
  unfold deep_activation. destruct a; cbn [exact_activation]; unfold relu, leaky_relu, elu, selu, celu, silu, gelu, mish, serf, shifted_softplus, hard_tanh, soft_sign, relu6, hard_silu, bent_identity, elu, gated_linear;
  (destruct (check_ndim (shape_of (value x))); [cbn [bind rmap alike]|exact I]; repeat (split; [reflexivity|]); intros i s d f _ _; cbn [value fv tfv];
   match goal with |- context [if ?b then _ else _] => destruct b end; rewrite ?exact_stored; cbn [exact]; rewrite ?ideal_stored; cbn [exact]; rewrite ?ideal_stored, G; reflexivity).
Qed.
Lemma activation_converging a x y : proper_step (Activate 0 a) -> converging x -> (forall b f, in_batch (tfB x) b = true -> (f < tfF x)%nat -> ~ gate_exception eps a (exact (tfv x b 0%nat 0%nat f))) ->
  deep_activation erf derf eps a x = Ok y -> converging y.
Proof using rule positive.
  intros P C N H. unfold deep_activation in H. destruct (check_ndim (shape_of (value x))); [|discriminate]. cbn [bind] in H. injection H as <-. intros i s d f. cbn [tfv].
  destruct (in_batch (tfB x) i) eqn:IB; cbn [andb]; [|apply converges_stored]. destruct (Nat.ltb_spec f (tfF x)) as [LF|]; [|apply converges_stored].
  assert (G : converges (Product (apply (gate_program erf derf eps a) (fun _ => tfv x i 0%nat 0%nat f)) (tfv x i s d f))).
  { apply converges_product; [|apply C]. unfold converges, apply. cbn [exact ideal number_leaves without_rounding on on_machine]. rewrite (gate_value a _ P). apply (gate_computes a P); [exact I|now apply N|apply C]. }
  destruct a; try exact G. apply converges_product; [apply converges_stored|exact G].
Qed.
End Deep.

(** * Attention *)
Lemma gather_dst_converging x g y : converging x -> tree_gather_dst x g = Ok y -> converging y.
Proof.
  intros C H. unfold tree_gather_dst in H. destruct (graph_type g true false) as [[|]|]; [| |discriminate].
  - destruct (g_adj g) as [[[N M] adj]|]; [|discriminate]. injection H as <-. intros i s d f. apply C.
  - destruct (g_dst g) as [[P dst]|]; [|discriminate]. injection H as <-. intros i s d f. cbn [tfv]. apply converges_nth, gather_sparse_converges. now apply node_trees_converge.
Qed.
Lemma position_converges E ub K bias bs L qkv i p d c : converging bs -> converges (tree_position E ub K bias bs L qkv i p d c).
Proof.
  intro C. unfold tree_position. cbv zeta. assert (Y : converges (subst (fun v => match v with Input a => tfv bs i 0%nat 0%nat a | Weight a => Operand (stored (K a ((p * Z.to_nat (L + 1) + dup L d) * qkv + c)%nat)) | Bias => Nothing end) (p_dense E (tfF bs) i p (dup L d) c))).
  { apply converges_subst. intros [a|a|]; [apply C|apply converges_stored|apply converges_nothing]. }
  destruct ub; [apply converges_sum; [exact Y|apply converges_stored]|exact Y].
Qed.
Lemma apply_both e a b v : converges a -> converges b -> stable e (fun k => exact (both a b k)) -> AutoDiff_Model.value e (fun k => exact (both a b k)) = Some v -> converges (apply e (both a b)) /\ exact (apply e (both a b)) = v.
Proof. intros A B S V. apply converges_apply; [|exact S|exact V]. intros [|k]; assumption. Qed.
Lemma maximum_converges a b : converges a -> converges b -> converges (apply maximum_of (both a b)).
Proof. intros A B. refine (proj1 (apply_both maximum_of a b _ A B _ eq_refl)). cbn. auto. Qed.
Lemma difference_converges a b : converges a -> converges b -> converges (apply exp_of_difference (both a b)) /\ exact (apply exp_of_difference (both a b)) = exp (exact a - exact b).
Proof. intros A B. apply apply_both; [exact A|exact B| |reflexivity]. cbn. split; [auto|]. eexists. split; [reflexivity|exact I]. Qed.
Lemma quotient_converges a b : converges a -> converges b -> exact b <> 0 -> converges (apply divided_by (both a b)) /\ exact (apply divided_by (both a b)) = exact a / exact b.
Proof.
  intros A B N. apply apply_both; [exact A|exact B| |].
  - cbn. split; [exact I|]. split; [exact I|]. intro Q. injection Q as Q. contradiction.
  - cbn. unfold Reqb. destruct (Req_EM_T (exact b) 0); [contradiction|reflexivity].
Qed.
Lemma root_converges depth a : depth <> 0%nat -> converges a -> converges (apply (divided_by_root depth) (fun _ => a)) /\ exact (apply (divided_by_root depth) (fun _ => a)) = exact a / sqrt (INR depth).
Proof.
  intros N A. assert (P : 0 < INR depth) by (apply lt_0_INR; lia). pose proof (sqrt_lt_R0 _ P) as Q. apply converges_apply; [auto| |].
  - cbn. split; [exact I|]. split; [split; [exact I|exists (INR depth); split; [reflexivity|exact P]]|]. unfold Rltb, Rleb. repeat match goal with |- context [if ?b then _ else _] => destruct b end; cbn; try discriminate; intro Z; injection Z as Z; lra.
  - cbn. unfold Rleb. destruct (Rle_dec 0 (INR depth)) as [|Q']; [|exfalso; apply Q'; lra]. cbn. unfold Reqb. destruct (Req_EM_T (sqrt (INR depth)) 0) as [Q'|]; [exfalso; lra|reflexivity].
Qed.
Lemma dot_converges dots heads query key rel i h : converging query -> converging key -> (forall r, rel = Some r -> forall i p d c, converges (r i p d c)) -> converges (tree_dot dots heads query key rel i h).
Proof.
  intros Q K RL. unfold tree_dot. apply converges_subst. intros [p d f|p d f|p d f].
  - destruct (Nat.eqb_spec (tfS query * tfD query * (tfF query / heads)) 0) as [Z|N]; [apply converges_nothing|]. apply root_converges; [exact N|apply Q].
  - apply K.
  - destruct rel as [r|]; [now apply RL|apply converges_nothing].
Qed.
Lemma dot_exact dots heads query key gq gk rel rel' i h : sound_dots dots -> converging query -> same_feature (value query) gq -> same_feature (value key) gk -> fS gk = fS gq -> fD gk = fD gq ->
  match rel, rel' with Some r, Some r' => forall p d c, exact (r i p d c) = r' i p d c | None, None => True | _, _ => False end ->
  exact (tree_dot dots heads query key rel i h) = attention_dot heads gq gk rel' i h.
Proof.
  intros SD CQ (QB & QS & QD & QF & _ & QV) (KB & KS & KD & KF & _ & KV) SS DD RR. cbn [value fB fS fD fF fv] in *. unfold tree_dot, attention_dot. cbv zeta. rewrite (subst_sum _ _ _ _ (SD _ _ _ _ i h)). rewrite <- QS, <- QD, <- QF.
  unfold dot_terms. rewrite sop_flat_map. apply rsum_ext. intros p HP. rewrite sop_flat_map. apply rsum_ext. intros d HD. rewrite sop_map. apply rsum_ext. intros f HF.
  assert (N : (tfS query * tfD query * (tfF query / heads) <> 0)%nat) by (intro Z; apply Nat.eq_mul_0 in Z; destruct Z as [Z|Z]; [apply Nat.eq_mul_0 in Z|]; lia).
  destruct rel as [r|], rel' as [r'|]; try contradiction; cbn [app map fold_right]; destruct (Nat.eqb_spec (tfS query * tfD query * (tfF query / heads)) 0); try contradiction;
    rewrite (proj2 (root_converges _ _ N (CQ i p d (f * heads + h)%nat))), QV, KV by lia; [rewrite RR|]; ring.
Qed.
Lemma position_exact E ub K bias bs L qkv i p d c : sound_plan E -> exact (tree_position E ub K bias bs L qkv i p d c) = rel_pos_encoding ub K bias (value bs) L qkv i p d c.
Proof.
  intros (PD & _). unfold tree_position, rel_pos_encoding. cbv zeta. assert (Q : forall g, exact (subst g (p_dense E (tfF bs) i p (dup L d) c)) = rsum (tfF bs) (fun a => exact (g (Input a)) * exact (g (Weight a)))).
  { intro g0. rewrite (subst_sum _ _ _ _ (PD _ _ _ _ _)). unfold dense_terms. rewrite sop_map. apply rsum_ext. intros a _. cbn. ring. }
  destruct ub; cbn [exact]; rewrite Q; rewrite ?ideal_stored; cbn [value fF fv]; [apply f_equal2; [|reflexivity]|rewrite Rplus_0_r]; apply rsum_ext; intros a _; cbn [exact]; now rewrite ideal_stored.
Qed.

Lemma filter_sum (sel : nat -> bool) (h : nat -> R) n : fold_right Rplus 0 (map h (filter sel (seq 0 n))) = rsum n (fun e => if sel e then h e else 0).
Proof.
  induction n as [|n IH]; [reflexivity|]. rewrite seq_S, filter_app, map_app, fold_right_app. cbn [rsum Nat.add filter].
  assert (G : forall l x, fold_right Rplus x l = fold_right Rplus 0 l + x) by (induction l as [|a l IHl]; intro x; cbn; [ring|rewrite IHl; ring]). rewrite G, IH. destruct (sel n); cbn; ring.
Qed.

(** The weight at an edge of a row with a positive cutoff. *)
Section Weight.
Variables (E : plan) (cutoff : option (list nat -> tree number)) (dot : list nat -> tree number) (i : list nat) (h : nat) (r : row).
Hypotheses (sound : sound_plan E) (dots : forall j, converges (dot j)) (cutoffs : forall c, cutoff = Some c -> forall j, converges (c j)).
Let cut := cutoff_at (option_map (fun c i => exact (c i)) cutoff).
Hypotheses (not_negative : forall k, (k < r_size r)%nat -> 0 <= cut (r_edge r k)) (one_positive : exists k, (k < r_size r)%nat /\ r_selected r k = true /\ 0 < cut (r_edge r k)).

Lemma weight_converges : converges (tree_weight E cutoff dot i h r) /\
  exact (tree_weight E cutoff dot i h r) = share (r_size r) (r_selected r) (fun e => cut (r_edge r e)) (fun e => exact (dot (r_edge r e))) (r_here r).
Proof using sound dots cutoffs not_negative one_positive.
  unfold tree_weight. cbv zeta. set (es := filter (r_selected r) (seq 0 (r_size r))). set (top := fold_left _ es _).
  assert (TC : converges top). { unfold top. generalize (dots (r_edge r (r_here r))). generalize (dot (r_edge r (r_here r))). induction es as [|e es' IH]; intros t T; [exact T|]. cbn [fold_left]. apply IH. apply maximum_converges; [exact T|apply dots]. }
  set (num := fun e => match cutoff with Some c => Product (apply exp_of_difference (both (dot (r_edge r e)) top)) (c (r_edge r e)) | None => apply exp_of_difference (both (dot (r_edge r e)) top) end).
  change (converges (apply divided_by (both (num (r_here r)) (summed (fun n => p_sum E n i 0%nat 0%nat h) (map num es)))) /\ exact (apply divided_by (both (num (r_here r)) (summed (fun n => p_sum E n i 0%nat 0%nat h) (map num es)))) = share (r_size r) (r_selected r) (fun e => cut (r_edge r e)) (fun e => exact (dot (r_edge r e))) (r_here r)).
  clearbody top.
  assert (NC : forall e, converges (num e) /\ exact (num e) = cut (r_edge r e) * exp (exact (dot (r_edge r e))) * exp (- exact top)).
  { intro e. destruct (difference_converges (dot (r_edge r e)) top (dots _) TC) as [DC DE]. unfold num, cut. destruct cutoff as [c|]; cbn [option_map cutoff_at].
    - split; [apply converges_product; [exact DC|now apply cutoffs]|]. cbn [exact]. rewrite DE. unfold Rminus. rewrite exp_plus. ring.
    - split; [exact DC|]. rewrite DE. unfold Rminus. rewrite exp_plus. ring. }
  clearbody num. set (den := summed _ (map num es)).
  assert (DC : converges den) by (apply summed_converges, map_converge; intros; apply NC).
  assert (DE : exact den = rsum (r_size r) (fun e => if r_selected r e then cut (r_edge r e) * exp (exact (dot (r_edge r e))) else 0) * exp (- exact top)).
  { unfold den. rewrite summed_exact by apply sound. rewrite map_map. unfold es. rewrite (filter_sum (r_selected r) (fun e => exact (num e))). rewrite <- rsum_scal_r. apply rsum_ext. intros e _. destruct (r_selected r e); [apply NC|ring]. }
  pose proof (exp_pos (- exact top)) as EP.
  assert (P : 0 < rsum (r_size r) (fun e => if r_selected r e then cut (r_edge r e) * exp (exact (dot (r_edge r e))) else 0)).
  { destruct one_positive as (k & K & SK & PK). apply rsum_pos_at with (e := k); [|exact K|].
    - intros e LE. destruct (r_selected r e); [|lra]. apply Rmult_le_pos; [now apply not_negative|left; apply exp_pos].
    - rewrite SK. apply Rmult_lt_0_compat; [exact PK|apply exp_pos]. }
  assert (DN : exact den <> 0) by (rewrite DE; pose proof (Rmult_lt_0_compat _ _ P EP); lra).
  destruct (quotient_converges _ _ (proj1 (NC (r_here r))) DC DN) as [QC QE]. split; [exact QC|]. rewrite QE, DE, (proj2 (NC (r_here r))). unfold share. field. split; lra.
Qed.
End Weight.

Lemma row_weight lo hi B g cutoff dot i r : row_of B g i = Some r -> (forall k, (k < r_size r)%nat -> 0 <= cutoff_at cutoff (r_edge r k)) -> (exists k, (k < r_size r)%nat /\ r_selected r k = true /\ 0 < cutoff_at cutoff (r_edge r k)) ->
  attention_weight lo hi g cutoff dot i = Ok (share (r_size r) (r_selected r) (fun e => cutoff_at cutoff (r_edge r e)) (fun e => dot (r_edge r e)) (r_here r)).
Proof.
  intros H NN OP. unfold row_of in H. destruct (graph_type g true false) as [[|]|] eqn:GT; [| |discriminate].
  - destruct (g_where g) as [w|] eqn:GW; [|discriminate]. destruct (g_adj g) as [[[N M] adj]|] eqn:GA; [|discriminate]. cbv zeta in H.
    match type of H with (if ?b then _ else _) = _ => destruct b eqn:EB; [|discriminate] end. injection H as <-. cbn [r_size r_edge r_selected r_here] in *.
    apply andb_true_iff in EB. destruct EB as [EB SEL]. apply andb_true_iff in EB. destruct EB as [EB LM]. apply andb_true_iff in EB. destruct EB as [EB LN]. apply andb_true_iff in EB. destruct EB as [EI _]. apply list_nat_eqb_spec in EI. apply Nat.ltb_lt in LM, LN.
    assert (GD : g_dst g = None). { unfold graph_type, determine_index_type in GT. rewrite GA in GT. destruct (g_dst g) as [[Q dst]|]; [|reflexivity]. cbn in GT. repeat match type of GT with (if ?b then _ else _) = _ => destruct b end; discriminate. }
    pose proof (weight_dense lo hi g N M adj w cutoff dot (but_last2 i) (last2 i) (last1 i) GA GD GW NN LN LM OP) as R. rewrite <- EI in R. exact R.
  - destruct (g_segments g) as [n|] eqn:GN; [|discriminate]. destruct (g_dst g) as [[P dst]|] eqn:GD; [|discriminate]. cbv zeta in H.
    match type of H with (if ?b then _ else _) = _ => destruct b eqn:EB; [|discriminate] end. injection H as <-. cbn [r_size r_edge r_selected r_here] in *.
    apply andb_true_iff in EB. destruct EB as [EB LB]. apply andb_true_iff in EB. destruct EB as [EB L0]. apply andb_true_iff in EB. destruct EB as [EB LL]. apply andb_true_iff in EB. destruct EB as [EB LE]. apply andb_true_iff in EB. destruct EB as [EI _]. apply list_nat_eqb_spec in EI. apply Nat.ltb_lt in LE. apply Nat.eqb_eq in LL. apply Z.leb_le in L0. apply Z.ltb_lt in LB.
    assert (GA : g_adj g = None). { unfold graph_type, determine_index_type in GT. rewrite GD in GT. destruct (g_adj g) as [[[N M] adj]|]; [|reflexivity]. cbn in GT. repeat match type of GT with (if ?b then _ else _) = _ => destruct b end; discriminate. }
    set (node := nth (last1 i) (dst (but_last i)) (-1)%Z) in *.
    assert (AT : forall e, (e < P)%nat -> at_node (dst (but_last i)) e (Z.to_nat node) = (nth e (dst (but_last i)) (-1) =? node)%Z).
    { intros e L. unfold at_node. destruct (nth_error (dst (but_last i)) e) as [v|] eqn:EV; [|apply nth_error_None in EV; lia]. rewrite (nth_error_nth _ _ (-1)%Z EV). rewrite Z2Nat.id by exact L0. reflexivity. }
    pose proof (weight_sparse lo hi g P dst n cutoff dot (but_last i) (Z.to_nat node) (last1 i) GA GD GN LL NN ltac:(lia) LE) as R. rewrite <- EI in R. rewrite R.
    + f_equal. unfold share. apply (f_equal (fun z => _ / z)). apply rsum_ext. intros e L. now rewrite AT by exact L.
    + rewrite AT by exact LE. apply Z.eqb_refl.
    + destruct OP as (k & K & SK & PK). exists k. split; [exact K|]. split; [now rewrite AT|exact PK].
Qed.

Lemma same_limits t y : converging t -> same_feature (value t) y -> approaches_array t y.
Proof.
  intros C (B & S & D & F & T & V). cbn [value fB fS fD fF fdt fv] in *. repeat (split; [assumption|]). intros i s d f Hs Hd. rewrite <- (V i s d f) by congruence. apply C.
Qed.

(** * Attention, continued *)
Section Agree.
Variables (cartesian : bool) (cgf : Z -> Z -> Z -> result (nat -> nat -> nat -> R)).
Hypothesis package : uses_package cartesian cgf.

Definition good (t : tree_feat number) (y : feat) : Prop := same_feature (value t) y /\ converging t /\ has_scalars y.
Definition agrees (r : result (tree_feat number)) (r' : result feat) : Prop := match r, r' with Ok t, Ok y => good t y | Err _, Err _ => True | _, _ => False end.

Lemma bind_agrees r r' k k' : agrees r r' -> (forall t y, r = Ok t -> r' = Ok y -> good t y -> agrees (k t) (k' y)) -> agrees (bind r k) (bind r' k').
Proof. intros A H. destruct r, r'; cbn [bind agrees] in *; try contradiction; [|exact I]. now apply H. Qed.
Lemma bind_agrees_same {A} (r : result A) k k' : (forall a, r = Ok a -> agrees (k a) (k' a)) -> agrees (bind r k) (bind r k').
Proof. intro H. destruct r; cbn; [now apply H|exact I]. Qed.

Lemma perform_agrees E c t y : sound_plan E -> proper_call c -> polynomial c -> good t y -> agrees (tree_perform cgf None (mkGraph None None None None None) E [t] c) (perform cgf 0 0 None None (mkGraph None None None None None) [y] c).
Proof using package.
  intros PL PC PO (S & C & V). assert (V' : has_scalars (value t)) by exact (scalars_same _ _ V (same_sym _ _ S)).
  pose proof (tree_perform_alike cartesian cgf package 0 0 None E None (mkGraph None None None None None) [t] c PL PC PO ltac:(constructor; [exact V'|constructor])) as A.
  destruct (perform_same cartesian cgf package 0 0 None None (mkGraph None None None None None) [y] [value t] c PC ltac:(discriminate) ltac:(constructor; [exact V|constructor]) ltac:(constructor; [now apply same_sym|constructor])) as [SM SC].
  pose proof (perform_converging cgf None (mkGraph None None None None None) E [t] c) as CV. cbn [map option_map] in A.
  destruct (tree_perform cgf None _ E [t] c) as [u|], (perform cgf 0 0 None None _ [value t] c) as [z|], (perform cgf 0 0 None None _ [y] c) as [w|]; cbn [alike similar agrees] in *; try contradiction; [|exact I].
  split; [exact (same_trans _ _ _ A (same_sym _ _ SM))|]. split; [|now apply SC]. apply (CV u); [|discriminate|reflexivity]. constructor; [exact C|constructor].
Qed.
Lemma dense_agrees E F ub P t y : sound_plan E -> good t y -> agrees (tree_dense E F ub P t) (dense F ub P y).
Proof using package. intros PL G. exact (perform_agrees E (UseDense 0 F ub P) t y PL I I G). Qed.
Lemma change_agrees E md incl t y : sound_plan E -> degree_ok md -> good t y -> agrees (tree_change t md incl) (change_max_degree_or_type y md incl).
Proof using package. intros PL DO G. exact (perform_agrees E (UseChange 0 md incl) t y PL DO I G). Qed.

Lemma gather_src_same x y g : same_feature x y -> similar (gather_src_feat x g) (gather_src_feat y g).
Proof.
  intros (B & S & D & F & T & V). unfold gather_src_feat. destruct (graph_type g false true) as [[|]|]; [| |exact I].
  - destruct (g_adj g) as [[[N M] adj]|]; [|exact I]. cbn [similar]. unfold same_feature. cbn [fB fS fD fF fdt fv]. rewrite B. repeat (split; [assumption || reflexivity|]). intros i s d f Hs Hd. assert (NV : forall b, node_values x b s d f = node_values y b s d f) by (intro b; unfold node_values; rewrite B; apply map_ext; intro n; now apply V). now rewrite NV.
  - destruct (g_src g) as [[P src]|]; [|exact I]. cbn [similar]. unfold same_feature. cbn [fB fS fD fF fdt fv]. rewrite B. repeat (split; [assumption || reflexivity|]). intros i s d f Hs Hd. assert (NV : forall b, node_values x b s d f = node_values y b s d f) by (intro b; unfold node_values; rewrite B; apply map_ext; intro n; now apply V). now rewrite NV.
Qed.
Lemma gather_agrees t y g : good t y -> agrees (tree_gather t g) (gather_src_feat y g).
Proof.
  intros (S & C & V). pose proof (tree_gather_alike t g) as A. pose proof (gather_src_same _ _ g S) as SM. pose proof (gather_converging t g) as CV. pose proof (gather_src_inv y g) as IV.
  destruct (tree_gather t g) as [u|], (gather_src_feat (value t) g) as [z|], (gather_src_feat y g) as [w|]; cbn [similar agrees] in *; try contradiction; [|exact I].
  split; [exact (same_trans _ _ _ A SM)|]. split; [now apply CV|]. destruct (IV w eq_refl) as (ES & ED & _). destruct V as [n [S0 D0]]. exists n. split; congruence.
Qed.
Lemma gather_dst_agrees t y g : good t y -> agrees (tree_gather_dst t g) (gather_dst_feat y g).
Proof.
  intros (SF & C & V). pose proof (gather_dst_converging t g) as CV. destruct SF as (B & S & D & F & T & VV). cbn [value fB fS fD fF fdt fv] in *. destruct V as [n [S0 D0]]. unfold tree_gather_dst, gather_dst_feat in *. destruct (graph_type g true false) as [[|]|]; [| |exact I].
  - destruct (g_adj g) as [[[N M] adj]|]; [|exact I]. cbn [agrees]. split; [|split; [now apply CV|now exists n]]. unfold same_feature. cbn [value tfB tfS tfD tfF tfdt tfv fB fS fD fF fdt fv]. rewrite B. repeat (split; [assumption || reflexivity|]). intros i s d f Hs Hd. now apply VV.
  - destruct (g_dst g) as [[P dst]|]; [|exact I]. cbn [agrees]. split; [|split; [now apply CV|now exists n]]. unfold same_feature. cbn [value tfB tfS tfD tfF tfdt tfv fB fS fD fF fdt fv]. rewrite B. repeat (split; [assumption || reflexivity|]). intros i s d f Hs Hd.
    assert (NV : forall b, map exact (node_trees t b s d f) = node_values y b s d f) by (intro b; unfold node_trees, node_values; rewrite map_map, B; apply map_ext; intro j; now apply VV). rewrite <- NV, gather_sparse_exact. symmetry. apply (map_nth exact _ Nothing).
Qed.
Lemma conv_agrees E md incl ub P t y basis g : sound_plan E -> degree_ok md -> (forall bs, basis = Some bs -> converging bs) -> good t y -> agrees (tree_conv cgf E md incl ub P t basis g) (conv cgf md incl ub P y (option_map value basis) g).
Proof using package.
  intros PL DO CB (S & C & V). assert (V' : has_scalars (value t)) by exact (scalars_same _ _ V (same_sym _ _ S)).
  pose proof (tree_conv_alike cartesian cgf package E md incl ub P t y basis g PL DO V' S) as A. pose proof (conv_converging cgf E md incl ub P t basis g) as CV.
  assert (SC : forall z, conv cgf md incl ub P y (option_map value basis) g = Ok z -> has_scalars z).
  { intros z H. unfold conv in H. destruct basis as [bs|]; cbn [option_map bind] in H; [|exact (indexed_sum_scalars _ _ _ H V)]. destruct (negb _); [discriminate|]. apply bind_inv in H as [w [EW H]]. apply bind_inv in EW as [fl [EF EW]]. 
    apply (indexed_sum_scalars _ _ _ H). apply (any_tensor_scalars _ _ _ _ _ _ _ (C67_checked _ _ package) DO (dense_scalars _ _ _ _ _ EF) V EW). }
  destruct (tree_conv cgf E md incl ub P t basis g) as [u|], (conv cgf md incl ub P y (option_map value basis) g) as [z|]; cbn [alike agrees] in *; try contradiction; [|exact I].
  split; [exact A|]. split; [now apply CV|now apply SC].
Qed.

Lemma attention_agrees lo hi E dots o P tq yq tk yk basis cutoff g : let cut := option_map (fun c i => exact (c i)) cutoff in
  sound_plan E -> sound_dots dots -> degree_ok (o_max_degree o) -> good tq yq -> good tk yk -> (forall bs, basis = Some bs -> converging bs) -> (forall c, cutoff = Some c -> forall i, converges (c i)) ->
  (forall e r, row_of (but_last (fB yk)) (with_defaults g (last1 (fB yq)) (last1 (fB yk))) e = Some r ->
    (forall k, (k < r_size r)%nat -> 0 <= cutoff_at cut (r_edge r k)) /\ exists k, (k < r_size r)%nat /\ r_selected r k = true /\ 0 < cutoff_at cut (r_edge r k)) ->
  agrees (deep_attention cgf lo hi E dots o P tq tk basis cutoff g) (multi_head_attention cgf lo hi o P yq yk (option_map value basis) cut g).
Proof using package.
  intros cut PL SD DO GQ GK CB CC RG. unfold deep_attention, multi_head_attention.
  pose proof GQ as ((BQ & SQ & DQ & FQ & TQ & _) & _ & (nq & VQ)). pose proof GK as ((BK & SK & DK & FK & TK & _) & _ & (nk & VK)). cbn [value fB fS fD fF fdt] in *.
  assert (EQ : shape_of (value tq) = shape_of yq) by (unfold shape_of; cbn [value fB fS fD fF]; congruence). assert (EK : shape_of (value tk) = shape_of yk) by (unfold shape_of; cbn [value fB fS fD fF]; congruence).
  rewrite EQ, EK, BQ, BK, SQ, SK, FQ. destruct (negb (list_nat_eqb _ _)); [exact I|].
  replace (match option_map value basis with None => true | Some _ => false end) with (match basis with None => true | Some _ => false end) by (destruct basis; reflexivity). destruct ((o_rel_qk o || o_rel_v o) && _)%bool; [exact I|].
  cbv zeta. set (out := match o_out o with None => fF yq | Some n => n end). set (qkv := match o_qkv o with None => fF yq | Some n => n end).
  destruct (o_heads o =? 0)%nat; [exact I|]. destruct (negb (qkv mod o_heads o =? 0)%nat); [exact I|].
  apply bind_agrees_same. intros Lq ELq. apply bind_agrees_same. intros Lk ELk.
  destruct (extract_ok yq Lq ELq) as [nq' [Vq Elq]]. destruct (extract_ok yk Lk ELk) as [nk' [Vk Elk]].
  assert (NQ : (0 < nq')%nat). { destruct Vq as [_ Vq], VQ as [_ VQ]. destruct nq'; [cbn in Vq; rewrite VQ in Vq; cbn in Vq; lia|lia]. }
  assert (NK : (0 < nk')%nat). { destruct Vk as [_ Vk], VK as [_ VK]. destruct nk'; [cbn in Vk; rewrite VK in Vk; cbn in Vk; lia|lia]. }
  set (pseudo := ((fS yq =? 2)%nat && (fS yk =? 2)%nat)%bool). set (L := Z.min Lq Lk). assert (DL : degree_ok (Some L)) by (intros d Q; injection Q as <-; unfold L; lia).
  apply bind_agrees; [now apply (change_agrees E)|]. intros tqi yqi _ EQI GQI. apply bind_agrees; [now apply (change_agrees E)|]. intros tki yki _ EKI GKI.
  apply bind_agrees; [now apply dense_agrees|]. intros tqu yqu _ EQU GQU. apply bind_agrees; [now apply dense_agrees|]. intros tky yky _ EKY GKY. apply bind_agrees; [now apply dense_agrees|]. intros tva yva _ EVA GVA.
  apply bind_agrees; [now apply gather_dst_agrees|]. intros tgq ygq _ EGQ GGQ. apply bind_agrees; [now apply gather_agrees|]. intros tgk ygk _ EGK GGK.
  set (trel := match basis with Some bs => if o_rel_qk o then _ else None | None => None end). set (yrel := match option_map value basis with Some bs => if o_rel_qk o then _ else None | None => None end).
  set (g' := with_defaults g (last1 (fB yq)) (last1 (fB yk))) in *.
  apply bind_agrees; [now apply gather_agrees|]. intros tgv ygv _ EGV GGV.
  assert (SS : fS ygk = fS ygq /\ fD ygk = fD ygq).
  { destruct (dense_batch _ _ _ _ _ EQU) as [_ [_ [_ [DSq DDq]]]]. destruct (dense_batch _ _ _ _ _ EKY) as [_ [_ [_ [DSk DDk]]]]. destruct (gather_dst_inv _ _ _ EGQ) as [GSq [GDq _]]. destruct (gather_src_inv _ _ _ EGK) as [GSk [GDk _]].
    set (m := Nat.min nq' nk'). assert (Em : L = (Z.of_nat m - 1)%Z) by (unfold m, L; lia). rewrite Em in EQI, EKI.
    destruct (change_transformed 1 (fun _ => wigner_entries cartesian unit_matrix) nq' m yq yq pseudo yqi Vq ltac:(unfold m; lia) (same_transformed cartesian _ _ (ex_intro _ nq VQ) (same_refl _)) EQI) as [[_ V1] [_ [S1 _]]].
    destruct (change_transformed 1 (fun _ => wigner_entries cartesian unit_matrix) nk' m yk yk pseudo yki Vk ltac:(unfold m; lia) (same_transformed cartesian _ _ (ex_intro _ nk VK) (same_refl _)) EKI) as [[_ V2] [_ [S2 _]]].
    split; congruence. }
  destruct SS as [SS1 SS2].
  assert (RC : forall r, trel = Some r -> forall i p d c, converges (r i p d c)). { unfold trel. destruct basis as [bs|]; [|discriminate]. destruct (o_rel_qk o); [|discriminate]. intros r Q. injection Q as <-. intros i p d c. apply position_converges. now apply CB. }
  assert (DC : forall h i, converges (tree_dot dots (o_heads o) tgq tgk trel i h)) by (intros h i; apply dot_converges; [apply GGQ|apply GGK|exact RC]).
  assert (DE : forall h i, exact (tree_dot dots (o_heads o) tgq tgk trel i h) = attention_dot (o_heads o) ygq ygk yrel i h).
  { intros h i. apply dot_exact; [exact SD|apply GGQ|apply GGQ|apply GGK|exact SS1|exact SS2|]. unfold trel, yrel. destruct basis as [bs|]; cbn [option_map]; [|exact I]. destruct (o_rel_qk o); [|exact I]. intros p d c. now apply position_exact. }
  clearbody trel yrel.
  assert (WL : forall d d' i a, attention_weight lo hi g' cut d i = Ok a -> exists a', attention_weight lo hi g' cut d' i = Ok a').
  { intros d d' i a H. unfold attention_weight in *. destruct (graph_type g' true false) as [[|]|]; [| |discriminate]; [destruct (g_where g'); [|discriminate]; destruct (g_adj g') as [[[? ?] ?]|]; [|discriminate]; eexists; reflexivity|destruct (g_segments g'); [|discriminate]; destruct (g_dst g') as [[? ?]|]; [|discriminate]; eexists; reflexivity]. }
  fold cut.
  destruct (attention_weight lo hi g' cut (fun _ => 0) []) as [a0|] eqn:EA; [destruct (WL _ (fun i => attention_dot (o_heads o) ygq ygk yrel i 0) _ _ EA) as [a1 ->]|destruct (attention_weight lo hi g' cut (fun i => attention_dot (o_heads o) ygq ygk yrel i 0) []) as [a1|] eqn:EB; [destruct (WL _ (fun _ => 0) _ _ EB) as [a2 Q]; rewrite Q in EA; discriminate|exact I]].
  cbn [bind].
  assert (WG : good (mkTree (tfB tgv) (tfS tgv) (tfD tgv) (tfF tgv) (tfdt tgv) (fun i s d f =>
      match row_of (but_last (fB yk)) g' i with
      | Some r => Product (tree_weight E cutoff (fun i0 => tree_dot dots (o_heads o) tgq tgk trel i0 (f / (qkv / o_heads o))) i (f / (qkv / o_heads o)) r) (tfv tgv i s d f)
      | None => Operand (stored (get_ok (attention_weight lo hi g' cut (fun j => exact (tree_dot dots (o_heads o) tgq tgk trel j (f / (qkv / o_heads o)))) i) * exact (tfv tgv i s d f)))
      end)) (mkFeat (fB ygv) (fS ygv) (fD ygv) (fF ygv) (fdt ygv) (fun i s d f => get_ok (attention_weight lo hi g' cut (fun i0 => attention_dot (o_heads o) ygq ygk yrel i0 (f / (qkv / o_heads o))) i) * fv ygv i s d f))).
  { destruct GGV as ((B & S & D & F & T & V) & C & (n & SC)). cbn [value fB fS fD fF fdt fv] in *. split; [|split; [|now exists n]].
    - unfold same_feature. cbn [value tfB tfS tfD tfF tfdt tfv fB fS fD fF fdt fv]. repeat (split; [assumption|]). intros i s d f Hs Hd. destruct (row_of (but_last (fB yk)) g' i) as [r|] eqn:ER.
      + cbn [exact]. rewrite V by assumption. apply f_equal2; [|reflexivity]. destruct (RG _ _ ER) as [NN OP].
        destruct (weight_converges E cutoff (fun i0 => tree_dot dots (o_heads o) tgq tgk trel i0 (f / (qkv / o_heads o))) i (f / (qkv / o_heads o)) r PL (DC _) CC NN OP) as [_ ->].
        rewrite (row_weight lo hi _ g' cut _ i r ER NN OP). cbn [get_ok]. unfold share. rewrite DE. apply (f_equal (fun z => _ / z)). apply rsum_ext. intros e _. now rewrite DE.
      + cbn [exact]. rewrite ideal_stored, V by assumption. now rewrite (attention_weight_ext lo hi g' cut (fun j => attention_dot (o_heads o) ygq ygk yrel j (f / (qkv / o_heads o)))) by (intro; apply DE).
    - intros i s d f. cbn [tfv]. destruct (row_of (but_last (fB yk)) g' i) as [r|] eqn:ER; [|apply converges_stored]. apply converges_product; [|apply C]. destruct (RG _ _ ER) as [NN OP].
      exact (proj1 (weight_converges E cutoff (fun i0 => tree_dot dots (o_heads o) tgq tgk trel i0 (f / (qkv / o_heads o))) i (f / (qkv / o_heads o)) r PL (DC _) CC NN OP)). }
  replace (if o_rel_v o then option_map value basis else None) with (option_map value (if o_rel_v o then basis else None)) by (destruct (o_rel_v o); reflexivity).
  apply bind_agrees; [apply conv_agrees; [exact PL|exact DO| |exact WG]|intros; now apply dense_agrees]. destruct (o_rel_v o); [exact CB|discriminate].
Qed.
End Agree.

Section Run.
Variables (cartesian : bool) (cgf : Z -> Z -> Z -> result (nat -> nat -> nat -> R)) (erf derf : R -> R) (eps : R).
Hypotheses (package : uses_package cartesian cgf) (rule : erf_rule erf derf) (positive : 0 < eps).

Lemma call_of_proper st : proper_step st -> proper_call (call_of erf eps st).
Proof.
  destruct st as [E c|i a|E dots i j o P']; intro P; [exact (proj1 (proj2 P))| |exact (proj2 (proj2 P))]. cbn [call_of proper_call]. set (alpha := match a with LeakyRelu s => s | Elu z => z | Celu z => z | _ => 0 end). exists erf, eps, alpha. unfold alpha, activations.
  destruct a as [| | | | | |[]|[]| | | | | | |]; cbn; tauto.
Qed.

Lemma nth_same ts xs i x : Forall2 same_feature (map value ts) xs -> nth_error ts i = Some x -> exists z, nth_error xs i = Some z /\ same_feature (value x) z.
Proof.
  intros S EN. assert (EM : nth_error (map value ts) i = Some (value x)) by now apply map_nth_error. clear EN. revert i EM. induction S as [|u z l xs SU S IH]; intros i EM; [now destruct i|]. destruct i; cbn in *; [injection EM as ->; now exists z|now apply IH].
Qed.
Lemma select_good ts xs i : Forall has_scalars xs -> Forall2 same_feature (map value ts) xs -> Forall converging ts -> match tree_select ts i, select xs i with Ok t, Ok y => nth_error ts i = Some t /\ nth_error xs i = Some y /\ good t y | Err _, Err _ => True | _, _ => False end.
Proof.
  intros V S C. unfold tree_select, select. destruct (nth_error ts i) as [t|] eqn:ET.
  - destruct (nth_same ts xs i t S ET) as (z & EZ & SZ). rewrite EZ. split; [reflexivity|]. split; [reflexivity|]. rewrite Forall_forall in C, V. split; [exact SZ|]. split; [apply C; now apply nth_error_In with i|apply V; now apply nth_error_In with i].
  - assert (nth_error xs i = None) as ->; [|exact I]. apply nth_error_None. assert (Q : length ts = length xs) by (rewrite <- (map_length value ts); clear - S; induction S; cbn; congruence). rewrite <- Q. now apply nth_error_None.
Qed.

Lemma deep_perform_agrees lo hi cutoff basis g ts xs st : proper_step st -> Forall has_scalars xs -> Forall2 same_feature (map value ts) xs -> Forall converging ts -> edge_basis basis -> (forall bs, basis = Some bs -> converging bs) ->
  (forall c, cutoff = Some c -> forall i, converges (c i)) -> let cut := option_map (fun c i => exact (c i)) cutoff in regular_step eps cut g xs st ->
  agrees (deep_perform erf derf eps cgf lo hi basis cutoff g ts st) (perform cgf lo hi (option_map value basis) cut g xs (call_of erf eps st)).
Proof using package rule positive.
  intros P V S C HB CB CC cut RG.
  destruct st as [E c|i a|E dots i j o PA]; cbn [deep_perform call_of].
  - assert (HB' : forall bs, option_map value basis = Some bs -> (0 < fD bs)%nat /\ well_formed bs). { intros bs Eb. destruct basis as [b|]; [|discriminate]. injection Eb as <-. exact (HB b eq_refl). }
    assert (V' : Forall (fun t => has_scalars (value t)) ts). { clear - S V. remember (map value ts) as l eqn:El. revert ts El. induction S as [|x x' l xs SX S IH]; intros [|t ts] El; try discriminate; constructor; inversion V; subst; injection El as -> ->; [exact (scalars_same _ _ H1 (same_sym _ _ SX))|now apply IH]. }
    assert (S' : Forall2 same_feature xs (map value ts)). { clear - S. induction S; constructor; [now apply same_sym|assumption]. }
    destruct P as (PL & PP & PO). pose proof (tree_perform_alike cartesian cgf package lo hi cut E basis g ts c PL PP PO V') as A. destruct (perform_same cartesian cgf package lo hi (option_map value basis) cut g xs (map value ts) c PP HB' V S') as [SM SC].
    pose proof (perform_converging cgf basis g E ts c) as CV. destruct (tree_perform cgf basis g E ts c) as [t|], (perform cgf lo hi (option_map value basis) cut g (map value ts) c) as [y|], (perform cgf lo hi (option_map value basis) cut g xs c) as [y'|]; cbn [alike similar agrees] in *; try contradiction; [|exact I].
    split; [exact (same_trans _ _ _ A (same_sym _ _ SM))|]. split; [now apply CV|now apply SC].
  - cbn [perform]. pose proof (select_good ts xs i V S C) as Q. destruct (tree_select ts i) as [t|], (select xs i) as [y|]; try contradiction; [|exact I]. cbn [bind]. destruct Q as (ET & EY & SF & CT & HS).
    assert (PC : proper_call (UseActivation 0 (exact_activation erf eps a))) by exact (call_of_proper (Activate 0 a) P).
    destruct (perform_same cartesian cgf package lo hi None cut g [y] [value t] _ PC ltac:(discriminate) ltac:(constructor; [exact HS|constructor]) ltac:(constructor; [now apply same_sym|constructor])) as [SM SC]. cbn [perform select nth_error bind] in SM, SC.
    pose proof (activation_alike erf derf eps rule positive a t P) as A. pose proof (activation_converging erf derf eps rule positive a t) as CV.
    assert (N : forall b f, in_batch (tfB t) b = true -> (f < tfF t)%nat -> ~ gate_exception eps a (exact (tfv t b 0%nat 0%nat f))).
    { intros b f IB LF. specialize (RG y EY b f). destruct SF as (B & S2 & D & F & _ & VV). cbn [value fB fS fD fF fv] in *. rewrite <- B, <- F in RG. specialize (RG IB LF). destruct HS as [n [HS HD]]. rewrite <- VV in RG; [exact RG|rewrite S2; destruct HS; lia|rewrite D, HD; lia]. }
    destruct (deep_activation erf derf eps a t) as [u|], (exact_activation erf eps a (value t)) as [z|], (exact_activation erf eps a y) as [w|]; cbn [alike similar agrees] in *; try contradiction; [|exact I].
    split; [exact (same_trans _ _ _ A (same_sym _ _ SM))|]. split; [now apply CV|now apply SC].
  - cbn [perform]. pose proof (select_good ts xs i V S C) as Q. destruct (tree_select ts i) as [t|], (select xs i) as [y|]; try contradiction; [|exact I]. cbn [bind]. destruct Q as (_ & EY & GT).
    pose proof (select_good ts xs j V S C) as Q. destruct (tree_select ts j) as [t2|], (select xs j) as [y2|]; try contradiction; [|exact I]. cbn [bind]. destruct Q as (_ & EY2 & GT2).
    destruct P as (PL & PD & PO). apply (attention_agrees cartesian); try assumption. exact (RG y y2 EY EY2).
Qed.

Lemma deep_run_limits lo hi cutoff basis g ss : edge_basis basis -> (forall bs, basis = Some bs -> converging bs) -> (forall c, cutoff = Some c -> forall i, converges (c i)) -> Forall proper_step ss -> let cut := option_map (fun c i => exact (c i)) cutoff in
  forall ts xs, Forall has_scalars xs -> Forall2 same_feature (map value ts) xs -> Forall converging ts -> regular erf eps cgf lo hi (option_map value basis) cut g xs ss ->
  match deep_run erf derf eps cgf lo hi basis cutoff g ts ss, run cgf lo hi (option_map value basis) cut g xs (map (call_of erf eps) ss) with
  | Ok us, Ok ys => Forall2 same_feature (map value us) ys /\ Forall converging us
  | Err _, Err _ => True
  | _, _ => False
  end.
Proof using package rule positive.
  intros HB CB CC PC cut. induction ss as [|st ss IH]; intros ts xs V S C RG; [now split|]. inversion PC as [|? ? P PC']; subst. cbn [deep_run run map]. destruct RG as [RS RG].
  pose proof (deep_perform_agrees lo hi cutoff basis g ts xs st P V S C HB CB CC RS) as A. fold cut in A.
  destruct (deep_perform erf derf eps cgf lo hi basis cutoff g ts st) as [t|], (perform cgf lo hi (option_map value basis) cut g xs (call_of erf eps st)) as [y|]; cbn [agrees bind] in *; try contradiction; [|exact I]. destruct A as (SF & CT & HS).
  apply IH; [exact PC'| | | |now apply RG].
  - apply Forall_app. split; [exact V|]. constructor; [exact HS|constructor].
  - rewrite map_app. apply Forall2_app; [exact S|]. constructor; [exact SF|constructor].
  - apply Forall_app. split; [exact C|]. constructor; [exact CT|constructor].
Qed.
End Run.
