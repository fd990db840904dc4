(** Proofs about the trees of a network: without rounding they have the values of the layers. *)
Require Import List Reals ZArith Bool Lra Lia FunctionalExtensionality.
Require Import Verif.Base Verif.RSum Verif.Indexed_Model Verif.Features_Model Verif.Features_Spec Verif.Features_Proofs Verif.Modules_Model Verif.Modules_Spec Verif.Modules_Proofs Verif.Modules_Equiv_Proofs Verif.Modules_Graph_Spec Verif.Modules_Graph_Proofs
  Verif.Modules_Props Verif.Rotations_Model Verif.Rotations_Spec Verif.Irreps_Spec Verif.Irreps_Props Verif.Equivariance_Spec Verif.Equivariance_Props Verif.Structure_Props Verif.Network_Spec Verif.Network_Props
  Verif.Float_Einsum_Model Verif.Float_Einsum_Spec Verif.Float_Einsum_Proofs Verif.Float_Einsum_Props Verif.Float_Network_Model Verif.Float_Network_Spec.
Import ListNotations.
Open Scope R_scope.
Arguments Nat.mul : simpl never.
Arguments Nat.modulo : simpl never.

Lemma exact_eval (t : tree R) : exact t = eval (fun r => r) t.
Proof. induction t as [|r|a IHa b IHb|a IHa b IHb]; cbn; congruence. Qed.

Section Generic.
Context {Leaf : Type} {LL : leaves Leaf}.
Lemma exact_subst V (g : V -> tree Leaf) e : exact (subst g e) = eval (fun v => exact (g v)) e.
Proof. induction e as [|r|a IHa b IHb|a IHa b IHb]; cbn; congruence. Qed.
Lemma subst_sum V (g : V -> tree Leaf) e ts : evaluates e ts -> exact (subst g e) = sum_of_products (fun v => exact (g v)) ts.
Proof. intro H. rewrite exact_subst. now apply evaluates_value. Qed.
Lemma value_given x : value (given x) = x.
Proof. destruct x as [b s d f t v]. unfold value, given. cbn. apply f_equal. apply functional_extensionality; intro i. apply functional_extensionality; intro p. apply functional_extensionality; intro k. apply functional_extensionality; intro c. apply ideal_stored. Qed.

(** Results of a layer with and without rounding: both exist, with the same exact value, or both are exceptions. *)
Definition alike (r : result (tree_feat Leaf)) (r' : result feat) : Prop :=
  match r, r' with Ok t, Ok y => same_feature (value t) y | Err _, Err _ => True | _, _ => False end.

Lemma same_refl x : same_feature x x.
Proof. repeat split. Qed.
Lemma same_sym x y : same_feature x y -> same_feature y x.
Proof. intros (B & S & D & F & T & V). repeat split; try congruence. intros i s d f Hs Hd. symmetry. apply V; congruence. Qed.
Lemma same_trans x y z : same_feature x y -> same_feature y z -> same_feature x z.
Proof. intros (B & S & D & F & T & V) (B' & S' & D' & F' & T' & V'). repeat split; try congruence. intros i s d f Hs Hd. rewrite V by assumption. apply V'; congruence. Qed.

(** An entry is the component of its slot. *)
Lemma entry_comp n y i s d f : valid n y -> (s < fS y)%nat -> (d < fD y)%nat -> let l := Nat.sqrt d in let p := if (fS y =? 2)%nat then s else (l mod 2)%nat in
  fv y i s d f = comp y i p l (d - l * l) f /\ (p < 2)%nat /\ (d - l * l < 2 * l + 1)%nat /\ (l < n)%nat.
Proof.
  intros [VS VD] HS HD l p. pose proof (Nat.sqrt_spec d ltac:(lia)) as [Q1 Q2]. fold l in Q1, Q2. cbn in Q2.
  assert (LN : (l < n)%nat). { rewrite VD in HD. destruct (Nat.lt_ge_cases l n) as [|G]; [assumption|]. pose proof (Nat.mul_le_mono n l n l G G). lia. }
  split; [|split; [|split; [lia|exact LN]]].
  - unfold comp. assert (LE : ((l + 1) * (l + 1) <= fD y)%nat) by (rewrite VD; apply Nat.mul_le_mono; lia). apply Nat.leb_le in LE. rewrite LE. replace (l * l + (d - l * l))%nat with d by lia.
    unfold p. destruct (Nat.eqb_spec (fS y) 2) as [E|E]; [reflexivity|]. rewrite Nat.eqb_refl. assert (s = 0)%nat by (destruct VS as [V1|V1]; [lia|contradiction]). now subst s.
  - unfold p. destruct (Nat.eqb_spec (fS y) 2) as [E|E]; [lia|]. apply Nat.mod_upper_bound. lia.
Qed.

(** * Dense *)
Lemma dense_value features use_bias P x y e i s d f : dense features use_bias P x = Ok y -> (s < fS y)%nat -> (d < fD y)%nat -> evaluates e (dense_terms (fF x)) ->
  eval (dense_operands P x i s d f) (dense_expr use_bias s d e) = fv y i s d f.
Proof.
  intros ED HS HD PL. destruct (dense_ok_inv features use_bias P x y ED) as (n & V & NP). destruct (dense_comp n x features use_bias P V NP) as (y' & E' & VY & B & S & F & T & C). rewrite ED in E'. injection E' as <-.
  set (env := dense_operands P x i s d f). set (l := Nat.sqrt d) in *. set (k := (d - l * l)%nat). pose proof (Nat.sqrt_spec d ltac:(lia)) as [Q1 Q2]. fold l in Q1, Q2. cbn in Q2. assert (DD : d = (l * l + k)%nat) by (unfold k; lia). assert (K : (k < 2 * l + 1)%nat) by (unfold k; lia).
  destruct VY as [VS VD]. assert (LN : ((l + 1) * (l + 1) <= fD y)%nat).
  { rewrite VD in HD |- *. assert (l < n)%nat. { destruct (Nat.lt_ge_cases l n) as [|G]; [assumption|]. pose proof (Nat.mul_le_mono n l n l G G). lia. } apply Nat.mul_le_mono; lia. }
  set (p := if (fS x =? 2)%nat then s else (l mod 2)%nat). assert (P2 : (p < 2)%nat). { unfold p. destruct (Nat.eqb_spec (fS x) 2) as [X2|X2]; [rewrite S, X2 in HS; exact HS|apply Nat.mod_upper_bound; lia]. }
  assert (HSL : has_slot y p l). { split; [exact LN|]. destruct V as [[X1|X2] _]; [right|left; congruence]. split; [congruence|]. unfold p. now rewrite X1. }
  specialize (C i p l k f P2 K HSL). unfold comp in C. rewrite S in C. assert (DX : fD x = fD y) by (destruct V as [_ ->]; now rewrite VD). rewrite DX in C. destruct (Nat.leb_spec ((l + 1) * (l + 1)) (fD y)); [|lia]. rewrite <- DD in C.
  assert (BASE : eval env e = rsum (fF x) (fun a => fv x i s d a * dk P l p a f)).
  { rewrite (evaluates_value _ env _ _ PL). unfold dense_terms. rewrite sop_map. apply rsum_ext. intros a _. cbn. unfold env, dense_operands. cbn. fold l p. ring. }
  assert (BIAS : eval env (dense_expr use_bias s d e) = rsum (fF x) (fun a => fv x i s d a * dk P l p a f) + bias_at use_bias (db P) p l f).
  { unfold dense_expr, bias_at. fold l. destruct use_bias; cbn [andb]; [|rewrite BASE; lra]. destruct (Nat.eqb_spec l 0) as [L0|L0]; cbn [andb]; [|rewrite BASE; lra].
    assert (PS : p = s). { unfold p. destruct (Nat.eqb_spec (fS x) 2) as [X2|X2]; [reflexivity|]. destruct V as [[X1|X1] _]; [|contradiction]. rewrite S, X1 in HS. rewrite L0. cbn. lia. }
    rewrite PS in *. destruct (Nat.eqb_spec s 0); [|rewrite BASE; lra]. cbn [eval]. rewrite BASE. unfold env, dense_operands. cbn. reflexivity. }
  rewrite BIAS. unfold p in C |- *. destruct (Nat.eqb_spec (fS x) 2) as [X2|X2].
  - symmetry. exact C.
  - rewrite Nat.eqb_refl in C. assert (S0 : s = 0%nat). { destruct V as [[X1|X1] _]; [|contradiction]. rewrite S, X1 in HS. lia. } rewrite S0 in *. symmetry. exact C.
Qed.

Lemma eval_ext V (env env' : V -> R) e : (forall v, env v = env' v) -> eval env e = eval env' e.
Proof. intro H. induction e as [|v|a IHa b IHb|a IHa b IHb]; cbn; [reflexivity|apply H|congruence|congruence]. Qed.

Lemma tree_dense_alike E features use_bias P x : sound_plan E -> alike (tree_dense E features use_bias P x) (dense features use_bias P (value x)).
Proof.
  intros (PD & _). unfold tree_dense. destruct (dense features use_bias P (value x)) as [y|er] eqn:ED; cbn [rmap bind alike]; [|exact I].
  split; [reflexivity|]. split; [reflexivity|]. split; [reflexivity|]. split; [reflexivity|]. split; [reflexivity|]. intros i s d f HS HD. cbn in HS, HD. cbn [value shaped tfv fv]. rewrite exact_subst.
  rewrite <- (dense_value features use_bias P (value x) y (p_dense E (tfF x) i s d f) i s d f ED HS HD (PD (tfF x) i s d f)). apply eval_ext. intros [a|a|]; cbn; now rewrite ?ideal_stored.
Qed.

(** * Tensor and FusedTensor *)
Lemma tree_tensor_alike cgf E md incl K x1 x2 : sound_plan E -> alike (tree_tensor cgf E md incl K x1 x2) (tensor cgf md incl K (value x1) (value x2)).
Proof.
  intros (_ & P1 & P2 & _). unfold tree_tensor, tensor, prepare_tensor.
  destruct (extract_max_degree_and_check_shape (shape_of (value x1))) as [L1|]; [|exact I]. cbn [bind]. destruct (extract_max_degree_and_check_shape (shape_of (value x2))) as [L2|]; [|exact I]. cbn [bind].
  destruct (L1 + L2 <? output_degree md L1 L2)%Z; [exact I|]. destruct (negb (fF (value x1) =? fF (value x2))%nat); [exact I|]. destruct (cgf L1 L2 (output_degree md L1 L2)) as [cg|]; [|exact I]. cbn [bind].
  destruct (broadcast_shapes (fB (value x1)) (fB (value x2))) as [B|]; [|exact I]. cbn [bind].
  set (S3 := if output_pseudotensors incl (fS (value x1)) (fS (value x2)) L1 L2 (output_degree md L1 L2) then 2%nat else 1%nat).
  destruct (negb ((fS (value x1) =? 2)%nat && (fS (value x2) =? 2)%nat && (S3 =? 2)%nat)) eqn:MX; cbn [alike tmixed].
  - repeat (split; [reflexivity|]). intros i r n f _ _. cbn [value fv tfv tensor_expr]. rewrite (subst_sum _ _ _ _ (P1 true _ _ _ _ i r n f)). cbn [first_terms]. unfold tensor_terms. rewrite sop_flat_map. apply rsum_ext. intros p _. rewrite sop_flat_map. apply rsum_ext. intros l _. rewrite sop_flat_map. apply rsum_ext. intros q _. rewrite sop_map. apply rsum_ext. intros m _. cbn. rewrite ?ideal_stored. ring.
  - apply negb_false_iff, andb_true_iff in MX. destruct MX as [_ MX]. apply Nat.eqb_eq in MX. repeat (split; [assumption || reflexivity|]). intros i r n f HR _. cbn [value fS tfS tS] in HR. cbn [value fv tfv tensor_expr subst exact].
    rewrite (subst_sum _ _ _ _ (P1 false _ _ _ _ i r n f)), (subst_sum _ _ _ _ (P2 _ _ i r n f)). cbn [first_terms]. unfold second_terms.
    destruct (Nat.eqb_spec r 0) as [R0|R0]; [subst r|replace r with 1%nat by lia]; (f_equal; unfold coupling_terms; rewrite sop_flat_map; apply rsum_ext; intros l _; rewrite sop_map; apply rsum_ext; intros m _; cbn; rewrite ?ideal_stored; ring).
Qed.

Lemma tree_fused_alike cgf E md incl P x1 x2 : sound_plan E -> alike (tree_fused cgf E md incl P x1 x2) (fused_tensor cgf md incl P (value x1) (value x2)).
Proof.
  intros (_ & _ & _ & PM & PC & PV & _). unfold tree_fused, fused_tensor.
  destruct (extract_max_degree_and_check_shape (shape_of (value x1))) as [L1|]; [|exact I]. cbn [bind]. destruct (extract_max_degree_and_check_shape (shape_of (value x2))) as [L2|]; [|exact I]. cbn [bind].
  destruct (L1 + L2 <? output_degree md L1 L2)%Z; [exact I|]. change (fF (value x1)) with (tfF x1). change (fF (value x2)) with (tfF x2). destruct (negb (tfF x1 =? tfF x2)%nat); [exact I|].
  set (M := ((Z.max L1 (Z.max L2 (output_degree md L1 L2)) + 1) / 2)%Z). set (L := Z.max L1 _). destruct (cgf M M L) as [cg0|]; [|exact I]. cbn [bind]. change (fB (value x1)) with (tfB x1). change (fB (value x2)) with (tfB x2).
  destruct (broadcast_shapes (tfB x1) (tfB x2)) as [B|]; [|exact I]. cbn [bind]. change (fS (value x1)) with (tfS x1). change (fS (value x2)) with (tfS x2). cbv zeta.
  assert (PART : forall j mask x i n f, exact (tree_part j mask x i n f) = if (tfS x =? 2)%nat then exact (tfv x i j n f) else exact (tfv x i 0%nat n f) * mask n) by (intros; unfold tree_part; destruct (tfS x =? 2)%nat; cbn [exact]; now rewrite ?ideal_stored).
  assert (MAT : forall cg q x k ls i l m f, exact (tree_matrix E cg q x k ls i l m f) = rsum ls (fun n => exact (x i n f) * k n f * cg l m n)).
  { intros. unfold tree_matrix. rewrite (subst_sum _ _ _ _ (PM q ls i l m f)). unfold matrix_terms. rewrite sop_map. apply rsum_ext. intros n _. cbn. rewrite ?ideal_stored. ring. }
  assert (CPL : forall a b w q y1 y2 i l n f, exact (tree_couple E a b w q y1 y2 i l n f) = rsum w (fun m => exact (y1 (a i) l m f) * exact (y2 (b i) m n f))).
  { intros. unfold tree_couple. rewrite (subst_sum _ _ _ _ (PC q w i l n f)). unfold couple_terms. rewrite sop_map. apply rsum_ext. intros m _. cbn. rewrite ?ideal_stored. ring. }
  assert (VEC : forall cg w q y k i n f, exact (tree_vector E cg w q y k i n f) = rsum w (fun l => rsum w (fun m => exact (y i l m f) * k n f * cg l m n))).
  { intros. unfold tree_vector. rewrite (subst_sum _ _ _ _ (PV q w i n f)). unfold vector_terms. rewrite sop_flat_map. apply rsum_ext. intros l _. rewrite sop_map. apply rsum_ext. intros m _. cbn. rewrite ?ideal_stored. ring. }
  match goal with |- alike (if _ then Ok ?t else Ok ?t') (if _ then Ok ?y else Ok ?y') => assert (G : same_feature (value t) y /\ same_feature (value t') y') end;
    [|destruct (output_pseudotensors _ _ _ _ _ _); cbn [alike]; [exact (proj1 G)|exact (proj2 G)]].
  split; (repeat (split; [reflexivity|])); intros i r n f _ _; cbn [value fv tfv]; [destruct (r =? 0)%nat|]; cbn [exact]; rewrite ?ideal_stored;
    try (apply f_equal2; apply f_equal2; [|reflexivity| |reflexivity]); apply f_equal2;
    (rewrite VEC; apply rsum_ext; intros l _; apply rsum_ext; intros m _; apply f_equal2; [|reflexivity]; apply f_equal2; [|reflexivity];
     rewrite CPL; apply rsum_ext; intros m' _; apply f_equal2; (rewrite MAT; apply rsum_ext; intros n' _; rewrite PART; reflexivity)).
Qed.

Lemma tree_any_tensor_alike cgf E md incl P x1 x2 : sound_plan E -> alike (tree_any_tensor cgf E md incl P x1 x2) (any_tensor cgf md incl P (value x1) (value x2)).
Proof. intro H. destruct P as [K|P]; cbn [tree_any_tensor any_tensor]; [now apply tree_tensor_alike|now apply tree_fused_alike]. Qed.

(** * Indexed operations *)
Lemma take_exact l j : take 0 (map exact l) j = exact (take Nothing l j).
Proof. unfold take. rewrite map_length. apply (map_nth exact l Nothing). Qed.
Lemma gather_sparse_exact l idx : gather_sparse 0 (map exact l) idx = map exact (gather_sparse Nothing l idx).
Proof. unfold gather_sparse. rewrite map_map. apply map_ext. intro j. apply take_exact. Qed.
Lemma gather_dense_exact l idx : gather_dense 0 (map exact l) idx = map (map exact) (gather_dense Nothing l idx).
Proof. unfold gather_dense. rewrite map_map. apply map_ext. intro r. exact (gather_sparse_exact l r). Qed.

Lemma tree_gather_alike x g : match tree_gather x g, gather_src_feat (value x) g with Ok t, Ok y => same_feature (value t) y | Err _, Err _ => True | _, _ => False end.
Proof.
  unfold tree_gather, gather_src_feat. assert (NV : forall b s d f, node_values (value x) b s d f = map exact (node_trees x b s d f)) by (intros; unfold node_values, node_trees; rewrite map_map; reflexivity).
  destruct (graph_type g false true) as [[|]|]; [| |exact I].
  - destruct (g_adj g) as [[[N M] adj]|]; [|exact I]. repeat (split; [reflexivity|]). intros i s d f _ _. cbn [value fv tfv]. rewrite NV, gather_dense_exact.
    change (@nil R) with (map exact []). rewrite map_nth. symmetry. apply (map_nth exact _ Nothing).
  - destruct (g_src g) as [[P src]|]; [|exact I]. repeat (split; [reflexivity|]). intros i s d f _ _. cbn [value fv tfv]. rewrite NV, gather_sparse_exact. symmetry. apply (map_nth exact _ Nothing).
Qed.

Lemma summed_exact e ts : evaluates (e (length ts)) (plain_terms (length ts)) -> exact (summed e ts) = fold_right Rplus 0 (map exact ts).
Proof.
  intro H. unfold summed. rewrite (subst_sum _ _ _ _ H). clear H e. unfold plain_terms, sum_of_products. rewrite map_map. f_equal.
  rewrite (map_ext _ (fun k => nth k (map exact ts) 0)).
  - replace (length ts) with (length (map exact ts)) by apply map_length. generalize (map exact ts). clear ts. intro l. induction l as [|a l IH]; [reflexivity|]. cbn [length seq map nth]. f_equal. rewrite <- seq_shift, map_map. exact IH.
  - intro k. cbn. rewrite Rmult_1_r. symmetry. apply (map_nth exact ts Nothing).
Qed.
Lemma reduce_row_chosen vals flags : reduce_row 0 0 RSum (map exact vals) flags = fold_right Rplus 0 (map exact (chosen vals flags)).
Proof. revert flags. induction vals as [|v vals IH]; intros [|b flags]; cbn; try reflexivity. destruct b; cbn; now rewrite IH. Qed.
Lemma reduce_segment_chosen q dst vals : reduce_segment 0 0 RSum q dst (map exact vals) = fold_right Rplus 0 (map exact (chosen vals (map (fun z => (z =? q)%Z) dst))).
Proof. revert vals. induction dst as [|z dst IH]; intros [|v vals]; cbn; try reflexivity. destruct (z =? q)%Z; cbn; now rewrite IH. Qed.

Lemma tree_indexed_sum_alike E x y g : sound_plan E -> same_feature (value x) y -> alike (tree_indexed_sum E x g) (indexed_sum_feat y g).
Proof.
  intros (_ & _ & _ & _ & _ & _ & PS) (SB & SS & SD & SF & ST & SV). cbn [value fB fS fD fF fdt fv] in *. unfold tree_indexed_sum, indexed_sum_feat. rewrite <- SB.
  destruct (graph_type g true false) as [[|]|]; [| |exact I].
  - destruct (g_where g) as [w|]; [|exact I]. destruct (g_adj g) as [[[N M] adj]|]; [|exact I]. destruct (negb _); [exact I|].
    repeat (split; [first [reflexivity|assumption]|]). intros i s d f Hs Hd. cbn [value tfS tfD fS fD] in Hs, Hd. cbn [value tfv fv].
    rewrite <- (map_nth exact _ Nothing). change (exact Nothing) with 0. f_equal. rewrite map_map. unfold reduce_dense, dense_edge_values.
    assert (EV : map (fun n => map (fun m => fv y (but_last i ++ [n; m]) s d f) (seq 0 M)) (seq 0 N) = map (map exact) (map (fun n => map (fun m => tfv x (but_last i ++ [n; m]) s d f) (seq 0 M)) (seq 0 N))).
    { rewrite map_map. apply map_ext. intro n. rewrite map_map. apply map_ext. intro m. symmetry. now apply SV. }
    rewrite EV. clear EV. generalize (map (fun n => map (fun m => tfv x (but_last i ++ [n; m]) s d f) (seq 0 M)) (seq 0 N)) (w (but_last i)). induction l as [|r l IH]; intros [|b bs]; try reflexivity. cbn [map combine fst snd]. rewrite IH. f_equal. rewrite summed_exact by apply PS. symmetry. apply reduce_row_chosen.
  - destruct (g_segments g) as [n|]; [|exact I]. destruct (g_dst g) as [[P dst]|]; [|exact I]. destruct (negb _); [exact I|].
    repeat (split; [first [reflexivity|assumption]|]). intros i s d f Hs Hd. cbn [value tfS tfD fS fD] in Hs, Hd. cbn [value tfv fv].
    rewrite <- (map_nth exact _ Nothing). change (exact Nothing) with 0. f_equal. rewrite map_map. unfold reduce_sparse, sparse_edge_values. apply map_ext. intro q. rewrite summed_exact by apply PS.
    rewrite <- reduce_segment_chosen, map_map. f_equal. apply map_ext. intro e. now apply SV.
Qed.

(** * Changing the shape and adding *)
Lemma tree_comp_exact x i p l k f : exact (tree_comp x i p l k f) = comp (value x) i p l k f.
Proof. unfold tree_comp, comp. cbn [value fD fS fv]. repeat match goal with |- context [if ?b then _ else _] => destruct b end; reflexivity. Qed.

Lemma tree_change_alike x md incl : degree_ok md -> has_scalars (value x) -> alike (tree_change x md incl) (change_max_degree_or_type (value x) md incl).
Proof.
  intros Hmd [n V]. unfold tree_change. destruct (change_max_degree_or_type (value x) md incl) as [y|] eqn:EY; cbn [rmap alike]; [|exact I].
  assert (M : exists m, (0 < m)%nat /\ (md = Some (Z.of_nat m - 1)%Z \/ (md = None /\ m = S n))).
  { destruct md as [d|]; [|exists (S n); split; [lia|auto]]. specialize (Hmd d eq_refl). exists (Z.to_nat (d + 1)). split; [lia|]. left. f_equal. lia. }
  destruct M as [m [Hm HM]]. destruct (change_comp (S n) (value x) m md incl V HM ltac:(now left)) as (y' & E & VY & B & SS & F & T & C). rewrite EY in E. injection E as <-.
  repeat (split; [reflexivity|]). intros i s d f Hs Hd. cbn [value shaped tfS tfD fS fD] in Hs, Hd. cbn [value shaped tfv fv]. rewrite tree_comp_exact.
  destruct (entry_comp m y i s d f VY Hs Hd) as (EC & P2 & K & LN). cbv zeta in *. rewrite EC, C by assumption. apply Nat.ltb_lt in LN. rewrite LN. cbn [andb].
  destruct (fS y =? 2)%nat; [reflexivity|]. rewrite Nat.eqb_refl. reflexivity.
Qed.

Lemma fold_sum_exact (g : tree_feat Leaf -> tree Leaf) xs t : exact (fold_left (fun t x => Sum t (g x)) xs t) = exact t + sum_R (map (fun x => exact (g x)) xs).
Proof. revert t. induction xs as [|x xs IH]; intro t; cbn; [lra|]. rewrite IH. cbn [exact]. unfold sum_R. lra. Qed.

Lemma tree_add_alike xs : alike (tree_add xs) (add (map value xs)).
Proof.
  unfold tree_add. destruct (add (map value xs)) as [y|] eqn:EY; cbn [rmap alike]; [|exact I]. destruct (add_ok_inv _ _ EY) as (x0 & t & EX & CP). rewrite EX in CP, EY.
  destruct (add_ok x0 t CP) as (m & y' & E & VY & MP & B & F & T & SS & _ & _ & C). rewrite EY in E. injection E as <-.
  repeat (split; [reflexivity|]). intros i s d f Hs Hd. cbn [value shaped tfS tfD fS fD] in Hs, Hd. cbn [value shaped tfv fv]. rewrite fold_sum_exact. cbn [exact]. rewrite Rplus_0_l.
  destruct (entry_comp m y i s d f VY Hs Hd) as (EC & P2 & K & LN). cbv zeta in *. rewrite EC, C by assumption. rewrite <- EX, map_map. f_equal. apply map_ext. intro x. apply tree_comp_exact.
Qed.

(** * Arrays with the same entries give results with the same entries *)
Definition similar (r r' : result feat) : Prop := match r, r' with Ok y, Ok y' => same_feature y y' | Err _, Err _ => True | _, _ => False end.

Lemma unit_rotation : proper_rotation unit_matrix.
Proof. split; [|cbn; ring]. intros i j Hi Hj. do 3 (destruct i as [|i]; [do 3 (destruct j as [|j]; [cbn; ring|]); lia|]). lia. Qed.

Lemma unit_entries ca i j : wigner_entries ca unit_matrix i j = if (i =? j)%nat then 1 else 0.
Proof.
  destruct (wigner_entries_matrix ca unit_matrix (Z.of_nat (i + j)) ltac:(lia)) as (ms & a & ds & Em & Hd & V). unfold degrees in V. assert (Q : (i + j + 1 <= (i + j + 1) * (i + j + 1))%nat) by nia.
  rewrite V by nia. apply (C25_identity ms (Z.of_nat (i + j)) ca ds a i j Hd Em); unfold degrees; nia.
Qed.

Section Same.
Variables (ca : bool) (cgf : Z -> Z -> Z -> result (nat -> nat -> nat -> R)).
Hypothesis package : uses_package ca cgf.
Let D := wigner_entries ca unit_matrix.

Lemma same_transformed x y : has_scalars x -> same_feature x y -> transformed 1 (fun _ => D) x y.
Proof.
  intros [n V] H. pose proof H as (B & S & Dd & F & T & _). repeat (split; [congruence|]). intros i p l k f P K. rewrite (rsum_single _ _ k K).
  - unfold D. rewrite unit_entries, Nat.eqb_refl, <- (same_feature_comp _ _ _ V H i p l k f P K). unfold parity_sign. destruct (p =? 1)%nat; ring.
  - intros j J N. unfold D. rewrite unit_entries. destruct (Nat.eqb_spec (l * l + j) (l * l + k)); [lia|]. ring.
Qed.
Lemma transformed_same x y : has_scalars x -> transformed 1 (fun _ => D) x y -> same_feature x y.
Proof.
  intros [n V] H. pose proof (transformed_valid _ _ _ _ _ V H) as V'. destruct H as (B & S & Dd & F & T & C). apply (comp_determines (Datatypes.S n)); try assumption; try congruence.
  intros i p l k f P _ K. rewrite (C i p l k f P K), (rsum_single _ _ k K).
  - unfold D. rewrite unit_entries, Nat.eqb_refl. unfold parity_sign. destruct (p =? 1)%nat; ring.
  - intros j J N. unfold D. rewrite unit_entries. destruct (Nat.eqb_spec (l * l + j) (l * l + k)); [lia|]. ring.
Qed.
Lemma scalars_same x y : has_scalars x -> same_feature x y -> has_scalars y.
Proof. intros [n [S0 D0]] (_ & S & Dd & _). exists n. split; [destruct S0; [left|right]; congruence|congruence]. Qed.

Lemma any_tensor_same md incl P x1 x2 y1 y2 : degree_ok md -> has_scalars x1 -> has_scalars x2 -> same_feature x1 y1 -> same_feature x2 y2 ->
  similar (any_tensor cgf md incl P x1 x2) (any_tensor cgf md incl P y1 y2).
Proof.
  assert (G : forall x1 x2 y1 y2 z, degree_ok md -> has_scalars x1 -> has_scalars x2 -> same_feature x1 y1 -> same_feature x2 y2 -> any_tensor cgf md incl P x1 x2 = Ok z -> exists z', any_tensor cgf md incl P y1 y2 = Ok z' /\ same_feature z z').
  { clear x1 x2 y1 y2. intros x1 x2 y1 y2 z Hmd V1 V2 S1 S2 H. pose proof (C67_checked _ _ package) as Hcg. pose proof (constant_rotations ca unit_matrix D unit_rotation (wigner_entries_matrix ca unit_matrix)) as RR. destruct (C67_matrices _ _ _ RR) as [_ [_ KO]]. pose proof (C67_commutes _ _ _ _ package RR) as HC.
    destruct (any_tensor_transformed cgf 1 (fun _ => D) (fun _ => D) (fun _ => D) md incl P x1 x2 y1 y2 z Hcg ltac:(lra) Hmd KO HC (batch_agrees_const _ _ _) (same_transformed _ _ V1 S1) (same_transformed _ _ V2 S2) H) as (z' & E & T).
    exists z'. split; [exact E|]. apply transformed_same; [|exact T]. exact (any_tensor_scalars _ _ _ _ _ _ _ Hcg Hmd V1 V2 H). }
  intros Hmd V1 V2 S1 S2. destruct (any_tensor cgf md incl P x1 x2) as [z|e] eqn:E1.
  - destruct (G _ _ _ _ _ Hmd V1 V2 S1 S2 E1) as (z' & -> & S). exact S.
  - destruct (any_tensor cgf md incl P y1 y2) as [z|e'] eqn:E2; [|exact I]. destruct (G _ _ _ _ _ Hmd (scalars_same _ _ V1 S1) (scalars_same _ _ V2 S2) (same_sym _ _ S1) (same_sym _ _ S2) E2) as (z' & E & _). congruence.
Qed.

Lemma alike_similar r a b : alike r a -> similar a b -> alike r b.
Proof. destruct r, a, b; cbn; try tauto. apply same_trans. Qed.

Lemma tree_tensor_dense_alike E features md incl ub Pd Pt x : sound_plan E -> degree_ok md ->
  alike (tree_tensor_dense cgf E features md incl ub Pd Pt x) (tensor_dense cgf features md incl ub Pd Pt (value x)).
Proof.
  intros PL Hmd. unfold tree_tensor_dense, tensor_dense. change (fF (value x)) with (tfF x). set (F := match features with None => tfF x | Some n => n end).
  pose proof (tree_dense_alike E (2 * F) ub Pd x PL) as A. destruct (dense (2 * F) ub Pd (value x)) as [y|] eqn:EY; destruct (tree_dense E (2 * F) ub Pd x) as [t|] eqn:ET; cbn [alike bind] in *; try contradiction; [|exact I].
  apply alike_similar with (any_tensor cgf md incl Pt (value (tree_half t F 0)) (value (tree_half t F F))); [now apply tree_any_tensor_alike|].
  assert (HF : forall off, same_feature (value (tree_half t F off)) (split_half y F off)). { intro off. destruct A as (B & S & Dd & _ & T & V). cbn in B, S, Dd, T. split; [exact B|]. split; [exact S|]. split; [exact Dd|]. split; [reflexivity|]. split; [exact T|]. intros i s d f Hs Hd. cbn. exact (V i s d _ Hs Hd). }
  assert (SC : has_scalars (value t)). { apply (scalars_same y); [|now apply same_sym]. exact (dense_scalars _ _ _ _ _ EY). }
  apply any_tensor_same; auto; destruct SC as [n [S0 D0]]; exists n; split; assumption.
Qed.

Lemma tree_conv_alike E md incl ub P x y basis g : sound_plan E -> degree_ok md -> has_scalars (value x) -> same_feature (value x) y ->
  alike (tree_conv cgf E md incl ub P x basis g) (conv cgf md incl ub P y (option_map value basis) g).
Proof.
  intros PL Hmd V S. unfold tree_conv, conv. destruct basis as [bs|]; cbn [option_map bind]; [|now apply tree_indexed_sum_alike].
  pose proof S as (B & _ & _ & F & _). cbn in B, F. rewrite <- B, <- F. change (fB (value bs)) with (tfB bs). destruct (negb _); [exact I|].
  pose proof (tree_dense_alike E (tfF x) ub (c_filter P) bs PL) as A. destruct (dense (tfF x) ub (c_filter P) (value bs)) as [fy|] eqn:EF; destruct (tree_dense E (tfF x) ub (c_filter P) bs) as [ft|] eqn:ET; cbn [alike bind] in *; try contradiction; [|exact I].
  assert (SC : has_scalars (value ft)). { apply (scalars_same fy); [|now apply same_sym]. exact (dense_scalars _ _ _ _ _ EF). }
  pose proof (alike_similar _ _ _ (tree_any_tensor_alike cgf E md incl (c_tensor P) ft x PL) (any_tensor_same md incl (c_tensor P) _ _ _ _ Hmd SC V A S)) as AT.
  destruct (tree_any_tensor cgf E md incl (c_tensor P) ft x) as [pt|], (any_tensor cgf md incl (c_tensor P) fy y) as [p|]; cbn [alike bind] in *; try contradiction; [|exact I]. now apply tree_indexed_sum_alike.
Qed.

Lemma tree_message_pass_alike E md incl ub P x basis g : sound_plan E -> degree_ok md -> has_scalars (value x) ->
  alike (tree_message_pass cgf E md incl ub P x basis g) (message_pass cgf md incl ub P (value x) (option_map value basis) None g).
Proof.
  intros PL Hmd V. unfold tree_message_pass, message_pass. pose proof (tree_gather_alike x g) as A. destruct (gather_src_feat (value x) g) as [y|] eqn:EY; destruct (tree_gather x g) as [t|]; cbn [bind] in *; try contradiction; [|exact I].
  apply tree_conv_alike; auto. apply (scalars_same y); [|now apply same_sym]. destruct (gather_src_inv _ _ _ EY) as (ES & ED & _). destruct V as [n [S0 D0]]. exists n. split; congruence.
Qed.

Lemma select_value ts i : match tree_select ts i, select (map value ts) i with Ok t, Ok y => y = value t /\ In t ts | Err _, Err _ => True | _, _ => False end.
Proof.
  unfold tree_select, select. rewrite nth_error_map. destruct (nth_error ts i) as [t|] eqn:E; cbn; [|exact I]. split; [reflexivity|]. now apply nth_error_In in E.
Qed.
Lemma select_all_value ts is : match tree_select_all ts is, select_all (map value ts) is with Ok us, Ok ys => ys = map value us | Err _, Err _ => True | _, _ => False end.
Proof.
  induction is as [|i is IH]; cbn [tree_select_all select_all]; [reflexivity|]. pose proof (select_value ts i) as A. destruct (tree_select ts i) as [t|], (select (map value ts) i) as [y|]; cbn [bind] in *; try contradiction; [|exact I].
  destruct (tree_select_all ts is) as [us|], (select_all (map value ts) is) as [ys|]; cbn [rmap] in *; try contradiction; [|exact I]. destruct A as [-> _]. now rewrite IH.
Qed.

Lemma tree_perform_alike lo hi cutoff E basis g ts c : sound_plan E -> proper_call c -> polynomial c -> Forall (fun t => has_scalars (value t)) ts ->
  alike (tree_perform cgf basis g E ts c) (perform cgf lo hi (option_map value basis) cutoff g (map value ts) c).
Proof.
  intros PL PC PO V. rewrite Forall_forall in V. destruct c; cbn [tree_perform perform proper_call polynomial] in *; try contradiction;
    try (pose proof (select_value ts i) as A; destruct (tree_select ts i) as [t|], (select (map value ts) i) as [y|]; cbn [bind] in *; try contradiction; [|exact I]; destruct A as [-> IN]; specialize (V t IN) as VT).
  - now apply tree_dense_alike.
  - pose proof (select_value ts j) as A. destruct (tree_select ts j) as [t2|], (select (map value ts) j) as [y2|]; cbn [bind] in *; try contradiction; [|exact I]. destruct A as [-> IN2]. now apply tree_any_tensor_alike.
  - now apply tree_tensor_dense_alike.
  - now apply tree_message_pass_alike.
  - now apply tree_change_alike.
  - pose proof (select_all_value ts is) as A. destruct (tree_select_all ts is) as [us|], (select_all (map value ts) is) as [ys|]; cbn [bind] in *; try contradiction; [|exact I]. subst ys. apply tree_add_alike.
Qed.

(** The exact layers respect equality of entries. *)
Lemma perform_same lo hi basis cutoff g xs ys c : proper_call c -> (forall bs, basis = Some bs -> (0 < fD bs)%nat /\ well_formed bs) -> Forall has_scalars xs -> Forall2 same_feature xs ys ->
  similar (perform cgf lo hi basis cutoff g xs c) (perform cgf lo hi basis cutoff g ys c) /\ forall y, perform cgf lo hi basis cutoff g xs c = Ok y -> has_scalars y.
Proof.
  intros PC HB V S.
  assert (ED : match basis, basis with Some bs, Some bs' => transformed 1 (fun _ => D) bs bs' /\ (0 < fD bs)%nat | None, None => True | _, _ => False end).
  { destruct basis as [bs|]; [|exact I]. destruct (HB bs eq_refl) as [P [n W]]. split; [|exact P]. apply same_transformed; [|apply same_refl]. apply (valid_scalars n); [exact W|]. destruct W as [_ W]. rewrite W in P. destruct n; [cbn in P; lia|lia]. }
  assert (G : forall xs ys y, Forall has_scalars xs -> Forall2 same_feature xs ys -> perform cgf lo hi basis cutoff g xs c = Ok y -> (exists y', perform cgf lo hi basis cutoff g ys c = Ok y' /\ same_feature y y') /\ has_scalars y).
  { clear xs ys V S. intros xs ys y V S H. assert (T : Forall2 (transformed 1 (fun _ => D)) xs ys). { clear H. induction S as [|x x' xs ys SX S IH]; constructor; inversion V; subst; [now apply same_transformed|now apply IH]. }
    destruct (call_transformed ca cgf unit_matrix D 1 lo hi package unit_rotation (wigner_entries_matrix ca unit_matrix) ltac:(now left) basis basis cutoff g ED xs ys c y PC V T H) as (y' & E & TY & SY).
    split; [|exact SY]. exists y'. split; [exact E|]. now apply transformed_same. }
  split; [|intros y H; exact (proj2 (G _ _ _ V S H))].
  destruct (perform cgf lo hi basis cutoff g xs c) as [y|] eqn:EX.
  - destruct (G _ _ _ V S EX) as ((y' & -> & Q) & _). exact Q.
  - destruct (perform cgf lo hi basis cutoff g ys c) as [y|] eqn:EY; [|exact I].
    assert (V' : Forall has_scalars ys). { clear EX EY. induction S as [|x x' xs ys SX S IH]; constructor; inversion V; subst; [exact (scalars_same _ _ H1 SX)|now apply IH]. }
    assert (S' : Forall2 same_feature ys xs). { clear - S. induction S; constructor; [now apply same_sym|assumption]. }
    destruct (G _ _ _ V' S' EY) as ((y' & E & _) & _). congruence.
Qed.

Lemma tree_run_alike lo hi cutoff basis g cs : edge_basis basis -> Forall planned cs ->
  forall ts xs, Forall has_scalars xs -> Forall2 same_feature (map value ts) xs ->
  match tree_run cgf basis g ts cs, run cgf lo hi (option_map value basis) cutoff g xs (map snd cs) with
  | Ok us, Ok ys => Forall2 same_feature (map value us) ys
  | Err _, Err _ => True
  | _, _ => False
  end.
Proof.
  intros HB. induction cs as [|[E c] cs IH]; intros PC ts xs V S; [exact S|]. inversion PC as [|? ? (PL & PP & PO) PC']; subst. cbn [fst snd] in *. cbn [tree_run run map snd].
  assert (HB' : forall bs, option_map value basis = Some bs -> (0 < fD bs)%nat /\ well_formed bs). { intros bs Eb. destruct basis as [b|]; [|discriminate]. injection Eb as <-. exact (HB b eq_refl). }
  assert (V' : Forall (fun t => has_scalars (value t)) ts). { clear - S V. remember (map value ts) as l eqn:El. revert ts El. induction S as [|x x' l xs SX S IH]; intros [|t ts] El; try discriminate; constructor; inversion V; subst; injection El as -> ->; [exact (scalars_same _ _ H1 (same_sym _ _ SX))|now apply IH]. }
  assert (S' : Forall2 same_feature xs (map value ts)). { clear - S. induction S; constructor; [now apply same_sym|assumption]. }
  pose proof (tree_perform_alike lo hi cutoff E basis g ts c PL PP PO V') as A. destruct (perform_same lo hi (option_map value basis) cutoff g xs (map value ts) c PP HB' V S') as [SM SC].
  destruct (tree_perform cgf basis g E ts c) as [t|], (perform cgf lo hi (option_map value basis) cutoff g (map value ts) c) as [y|], (perform cgf lo hi (option_map value basis) cutoff g xs c) as [y'|]; cbn [alike similar bind] in *; try contradiction; [|exact I].
  apply IH; [exact PC'| |].
  - apply Forall_app. split; [exact V|]. constructor; [now apply SC|constructor].
  - rewrite map_app. apply Forall2_app; [exact S|]. constructor; [|constructor]. cbn. exact (same_trans _ _ _ A (same_sym _ _ SM)).
Qed.
End Same.
End Generic.
