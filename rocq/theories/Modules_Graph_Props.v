(** Theorems about message passing (C38) and attention (C39). *)
Require Import List Reals ZArith Bool Lia Lra.
Require Import Verif.Base Verif.RSum Verif.Features_Model Verif.Features_Spec Verif.Features_Proofs
  Verif.Common_Model Verif.Indexed_Model Verif.Modules_Model Verif.Modules_Spec Verif.Modules_Graph_Spec Verif.Modules_Proofs
  Verif.Modules_Equiv_Proofs Verif.Modules_Conv_Proofs Verif.Modules_Attention_Proofs Verif.Modules_Message_Proofs
  Verif.Modules_Relabel_Proofs Verif.Modules_Softmax_Proofs Verif.Modules_Props.
Import ListNotations.
Open Scope R_scope.
Arguments Nat.modulo : simpl never.
Arguments Nat.mul : simpl never.

Lemma ok_case : forall (A : Type) (r : result A) (Q : A -> Prop),
  match r with Ok y => Q y | Err _ => False end -> exists y, r = Ok y /\ Q y.
Proof. intros A [y|e] Q H; [exists y; auto|contradiction]. Qed.

(** * C38: TensorDense and message passing *)

Section Messages.
Variable cgf : Z -> Z -> Z -> result (nat -> nat -> nat -> R).

Theorem C38_tensor_dense_equivariant : forall s D features max_degree include use_bias Pd Pt x x' z, cg_checked cgf -> s * s = 1 ->
  (forall d, max_degree = Some d -> (0 <= d)%Z) -> keeps_scalars D -> orthogonal_blocks D -> cg_commutes cgf D ->
  transformed s D x x' -> tensor_dense cgf features max_degree include use_bias Pd Pt x = Ok z ->
  exists z', tensor_dense cgf features max_degree include use_bias Pd Pt x' = Ok z' /\ transformed s D z z'.
Proof. exact (tensor_dense_transformed cgf). Qed.

(** TensorDense multiplies two independent linear maps of its input: those with the first and with the
    second half of the columns of the weights. *)
Theorem C38_tensor_dense_product : forall F max_degree include use_bias Pd Pt x z,
  tensor_dense cgf (Some F) max_degree include use_bias Pd Pt x = Ok z ->
  exists y a b, dense (2 * F) use_bias Pd x = Ok y
    /\ fB a = fB y /\ fS a = fS y /\ fD a = fD y /\ fF a = F /\ fB b = fB y /\ fS b = fS y /\ fD b = fD y /\ fF b = F
    /\ (forall i p d f, (f < F)%nat -> fv a i p d f = fv y i p d f /\ fv b i p d f = fv y i p d (F + f)%nat)
    /\ any_tensor cgf max_degree include Pt a b = Ok z.
Proof.
  intros F md incl ub Pd Pt x z H. unfold tensor_dense in H. destruct (dense (2 * F) ub Pd x) as [y|]; [|discriminate]. cbn [bind] in H.
  exists y, (split_half y F 0), (split_half y F F). do 9 (split; [reflexivity|]). split; [|exact H].
  intros i p d f _. split; reflexivity.
Qed.

(** MessagePass commutes with a common transformation of node and edge features.  D0 gives the matrices
    for each structure of the batch; weights, if given, are scalars. *)
Theorem C38_message_pass_equivariant : forall s D0 max_degree include use_basis_bias P x x' basis basis' w g y, cg_checked cgf -> s * s = 1 ->
  (forall d, max_degree = Some d -> (0 <= d)%Z) -> keeps_scalars D0 -> orthogonal_blocks D0 -> cg_commutes cgf D0 ->
  well_formed x -> (forall w0, w = Some w0 -> scalar_weights g x w0) ->
  transformed s (on_nodes D0) x x' ->
  match basis, basis' with Some bs, Some bs' => transformed s (on_edges g D0) bs bs' | None, None => True | _, _ => False end ->
  message_pass cgf max_degree include use_basis_bias P x basis w g = Ok y ->
  exists y', message_pass cgf max_degree include use_basis_bias P x' basis' w g = Ok y' /\ transformed s (on_nodes D0) y y'.
Proof.
  intros s D0 md incl ub P x x' basis basis' w g y Hcg Hs Hmd HK HO HC Vx Hw Tx Tb.
  apply (message_pass_transformed cgf); auto.
Qed.

(** What a node receives: the sum of the messages along the edges that end in it. *)
Theorem C38_message_pass_sparse : forall max_degree include use_basis_bias P x basis w g y Q dst Q' src b, cg_checked cgf ->
  (forall d, max_degree = Some d -> (0 <= d)%Z) -> well_formed x -> (forall w0, w = Some w0 -> scalar_weights g x w0) ->
  g_dst g = Some (Q, dst) -> g_src g = Some (Q', src) ->
  message_pass cgf max_degree include use_basis_bias P x basis w g = Ok y ->
  sparse_sources Q (dst b) (src b) (last1 (fB y)) (last1 (fB x)) ->
  last1 (fB y) = match g_segments g with Some n => n | None => last1 (fB x) end /\
  forall n, (n < last1 (fB y))%nat ->
    (forall e, (e < Q)%nat -> at_node (dst b) e n = true -> exists r,
       message_at cgf max_degree include use_basis_bias P x basis w g (b ++ [e]) (b ++ [Z.to_nat (nth e (src b) 0%Z)]) = Ok r
       /\ fS r = fS y /\ fD r = fD y /\ fF r = fF y)
    /\ forall p d f, (p < fS y)%nat -> (d < fD y)%nat ->
       fv y (b ++ [n]) p d f = rsum Q (fun e => if at_node (dst b) e n
         then entry (message_at cgf max_degree include use_basis_bias P x basis w g (b ++ [e]) (b ++ [Z.to_nat (nth e (src b) 0%Z)])) p d f else 0).
Proof. exact (pass_sparse cgf). Qed.

Theorem C38_message_pass_dense : forall max_degree include use_basis_bias P x basis w g y N M adj b, cg_checked cgf ->
  (forall d, max_degree = Some d -> (0 <= d)%Z) -> well_formed x -> (forall w0, w = Some w0 -> scalar_weights g x w0) ->
  g_adj g = Some (N, M, adj) ->
  message_pass cgf max_degree include use_basis_bias P x basis w g = Ok y ->
  dense_sources g (adj b) b N M (last1 (fB x)) ->
  last1 (fB y) = N /\
  forall n, (n < N)%nat ->
    (forall m, (m < M)%nat -> dense_edge g (last1 (fB x)) b n m = true -> exists r,
       message_at cgf max_degree include use_basis_bias P x basis w g (b ++ [n; m]) (b ++ [Z.to_nat (nth m (nth n (adj b) []) 0%Z)]) = Ok r
       /\ fS r = fS y /\ fD r = fD y /\ fF r = fF y)
    /\ forall p d f, (p < fS y)%nat -> (d < fD y)%nat ->
       fv y (b ++ [n]) p d f = rsum M (fun m => if dense_edge g (last1 (fB x)) b n m
         then entry (message_at cgf max_degree include use_basis_bias P x basis w g (b ++ [n; m]) (b ++ [Z.to_nat (nth m (nth n (adj b) []) 0%Z)])) p d f else 0).
Proof. exact (pass_dense cgf). Qed.

(** Renumbering nodes (n becomes s n) and edges (e becomes r e) renumbers the result.  Nothing is
    assumed about edges that end in no node: what is stored for padding does not matter. *)
Theorem C38_renumber_sparse : forall max_degree include use_basis_bias P x x' basis basis' w w' g g' y Q dst Q' src dst' src' b s t r u,
  cg_checked cgf -> (forall d, max_degree = Some d -> (0 <= d)%Z) -> well_formed x ->
  (forall w0, w = Some w0 -> scalar_weights g x w0) ->
  g_dst g = Some (Q, dst) -> g_src g = Some (Q', src) -> g_dst g' = Some (Q, dst') -> g_src g' = Some (Q', src') ->
  same_lists g g' -> like x x' -> like_opt basis basis' -> like_opt w w' ->
  message_pass cgf max_degree include use_basis_bias P x basis w g = Ok y -> last1 (fB y) = last1 (fB x) ->
  renumbering (last1 (fB x)) s t -> renumbering Q r u ->
  sparse_sources Q (dst b) (src b) (last1 (fB y)) (last1 (fB x)) ->
  (forall n, (n < last1 (fB x))%nat -> same_entries x (b ++ [n]) x' (b ++ [s n])) ->
  (forall e n, (e < Q)%nat -> (n < last1 (fB x))%nat ->
     at_node (dst' b) (r e) (s n) = at_node (dst b) e n
     /\ (at_node (dst b) e n = true ->
         (forall j, (j < last1 (fB x))%nat -> at_node (src' b) (r e) (s j) = at_node (src b) e j)
         /\ same_entries_opt basis (b ++ [e]) basis' (b ++ [r e])
         /\ forall f, edge_weight w' (removelast (fB x) ++ edge_axes g) (fF x) (b ++ [r e]) f = edge_weight w (removelast (fB x) ++ edge_axes g) (fF x) (b ++ [e]) f)) ->
  exists y', message_pass cgf max_degree include use_basis_bias P x' basis' w' g' = Ok y' /\ like y y'
    /\ forall n p d f, (n < last1 (fB x))%nat -> (p < fS y)%nat -> (d < fD y)%nat -> fv y' (b ++ [s n]) p d f = fv y (b ++ [n]) p d f.
Proof. exact (pass_relabel_sparse cgf). Qed.

Theorem C38_renumber_dense : forall max_degree include use_basis_bias P x x' basis basis' w w' g g' y N M adj adj' b s t r u,
  cg_checked cgf -> (forall d, max_degree = Some d -> (0 <= d)%Z) -> well_formed x ->
  (forall w0, w = Some w0 -> scalar_weights g x w0) ->
  g_adj g = Some (N, M, adj) -> g_adj g' = Some (N, M, adj') ->
  same_lists g g' -> like x x' -> like_opt basis basis' -> like_opt w w' ->
  message_pass cgf max_degree include use_basis_bias P x basis w g = Ok y -> N = last1 (fB x) ->
  renumbering N s t -> (forall n, (n < N)%nat -> renumbering M (r n) (u n)) ->
  dense_sources g (adj b) b N M N ->
  (forall n, (n < N)%nat -> same_entries x (b ++ [n]) x' (b ++ [s n])) ->
  (forall n m, (n < N)%nat -> (m < M)%nat -> dense_edge g' N b (s n) (r n m) = dense_edge g N b n m
     /\ (dense_edge g N b n m = true ->
         (forall j, (j < N)%nat -> at_node (nth (s n) (adj' b) []) (r n m) (s j) = at_node (nth n (adj b) []) m j)
         /\ same_entries_opt basis (b ++ [n; m]) basis' (b ++ [s n; r n m])
         /\ forall f, edge_weight w' (removelast (fB x) ++ edge_axes g) (fF x) (b ++ [s n; r n m]) f = edge_weight w (removelast (fB x) ++ edge_axes g) (fF x) (b ++ [n; m]) f)) ->
  exists y', message_pass cgf max_degree include use_basis_bias P x' basis' w' g' = Ok y' /\ like y y'
    /\ forall n p d f, (n < N)%nat -> (p < fS y)%nat -> (d < fD y)%nat -> fv y' (b ++ [s n]) p d f = fv y (b ++ [n]) p d f.
Proof. exact (pass_relabel_dense cgf). Qed.

(** The same edges in a dense and in a sparse list give the same result.  E lists the positions of the
    edges in the dense list; edge e of the sparse list is E[e], what follows is padding. *)
Theorem C38_dense_sparse_agree : forall max_degree include use_basis_bias P x basisd basiss wd ws gd gs yd ys N M adj Q dst Q' src b (E : list (nat * nat)),
  cg_checked cgf -> (forall d, max_degree = Some d -> (0 <= d)%Z) -> well_formed x ->
  (forall w0, wd = Some w0 -> scalar_weights gd x w0) -> (forall w0, ws = Some w0 -> scalar_weights gs x w0) ->
  g_adj gd = Some (N, M, adj) -> g_dst gs = Some (Q, dst) -> g_src gs = Some (Q', src) ->
  message_pass cgf max_degree include use_basis_bias P x basisd wd gd = Ok yd ->
  message_pass cgf max_degree include use_basis_bias P x basiss ws gs = Ok ys ->
  last1 (fB ys) = N ->
  dense_sources gd (adj b) b N M (last1 (fB x)) ->
  NoDup E -> (length E <= Q)%nat ->
  (forall n m, In (n, m) E <-> (n < N)%nat /\ (m < M)%nat /\ dense_edge gd (last1 (fB x)) b n m = true) ->
  (forall e n m, nth_error E e = Some (n, m) ->
     nth_error (dst b) e = Some (Z.of_nat n) /\ nth_error (src b) e = nth_error (nth n (adj b) []) m) ->
  (forall e n, (length E <= e)%nat -> (n < N)%nat -> at_node (dst b) e n = false) ->
  match basisd, basiss with
  | Some bd, Some bs => fS bs = fS bd /\ fD bs = fD bd /\ fF bs = fF bd /\ fdt bs = fdt bd
      /\ forall e n m, nth_error E e = Some (n, m) -> same_entries bd (b ++ [n; m]) bs (b ++ [e])
  | None, None => True | _, _ => False end ->
  (forall e n m f, nth_error E e = Some (n, m) ->
     edge_weight ws (removelast (fB x) ++ edge_axes gs) (fF x) (b ++ [e]) f = edge_weight wd (removelast (fB x) ++ edge_axes gd) (fF x) (b ++ [n; m]) f) ->
  fS ys = fS yd /\ fD ys = fD yd /\ fF ys = fF yd /\
  forall n p d f, (n < N)%nat -> (p < fS yd)%nat -> (d < fD yd)%nat -> fv ys (b ++ [n]) p d f = fv yd (b ++ [n]) p d f.
Proof. exact (pass_dense_sparse cgf). Qed.

(** Rejected arguments. *)
Theorem C38_message_pass_errors : forall max_degree include use_basis_bias P x basis w g,
  (g_adj g = None -> g_src g = None -> message_pass cgf max_degree include use_basis_bias P x basis w g = Err RuntimeError)
  /\ (g_adj g <> None -> g_src g <> None -> message_pass cgf max_degree include use_basis_bias P x basis w g = Err RuntimeError)
  /\ forall y, gather_src_feat x g = Ok y ->
     (forall w0, w = Some w0 -> is_broadcastable (map Z.of_nat (shape_of y)) (map Z.of_nat (shape_of w0)) = false ->
        message_pass cgf max_degree include use_basis_bias P x basis w g = Err ValueError)
     /\ (forall bs, w = None -> basis = Some bs -> fB bs <> fB y -> message_pass cgf max_degree include use_basis_bias P x basis w g = Err ValueError).
Proof.
  intros md incl ub P x basis w g. unfold message_pass. split; [|split].
  - intros H1 H2. unfold gather_src_feat, graph_type. rewrite H1, H2. reflexivity.
  - intros H1 H2. unfold gather_src_feat, graph_type. destruct (g_adj g), (g_src g); try contradiction. reflexivity.
  - intros y H. rewrite H. cbn [bind]. split.
    + intros w0 -> H0. unfold multiply_weights. rewrite H0. reflexivity.
    + intros bs -> -> H0. cbn [bind]. unfold conv.
      destruct (list_nat_eqb (fB y) (fB bs)) eqn:E; [|reflexivity]. apply list_nat_eqb_spec in E. congruence.
Qed.

End Messages.
Print Assumptions C38_tensor_dense_equivariant.
Print Assumptions C38_tensor_dense_product.
Print Assumptions C38_message_pass_equivariant.
Print Assumptions C38_message_pass_sparse.
Print Assumptions C38_message_pass_dense.
Print Assumptions C38_renumber_sparse.
Print Assumptions C38_renumber_dense.
Print Assumptions C38_dense_sparse_agree.
Print Assumptions C38_message_pass_errors.

(** A graph with two nodes that send to each other, in a sparse list with one padding edge (2, 2), and
    in a dense list with one padding entry in each row. *)
Definition case_sparse : graph := mkGraph None None (Some (3%nat, fun _ => [1%Z; 0%Z; 2%Z])) (Some (3%nat, fun _ => [0%Z; 1%Z; 2%Z])) None.
Definition case_dense : graph := mkGraph (Some (2%nat, 2%nat, fun _ => [[1%Z; 2%Z]; [0%Z; 2%Z]])) None None None None.

(** Basis functions of the edges: degrees 0 and 1; edge e of the sparse list gets the value of [v] at its ends. *)
Definition case_sparse_basis : feat := mkFeat [3%nat] 1 4 1 0 (fun i p d f => if (nth 0 i 0 =? 2)%nat then 7 else INR (d + 2 * (1 - nth 0 i 0))%nat).
Definition case_dense_basis : feat := mkFeat [2%nat; 2%nat] 1 4 1 0 (fun i p d f => if (nth 1 i 0 =? 1)%nat then 9 else INR (d + 2 * nth 0 i 0)%nat).
Definition case_conv : conv_params := mkConv (mkDense (fun _ _ _ _ => 1) (fun _ => 1)) (PTensor (fun _ _ _ _ _ _ _ => 1)).

Example C38_message_pass_case :
  well_formed case_nodes
  /\ (exists y, message_pass case_cg None true true case_conv case_nodes (Some case_sparse_basis) None case_sparse = Ok y /\ fB y = [2%nat] /\ fD y = 4%nat)
  /\ (exists y, message_pass case_cg None true true case_conv case_nodes (Some case_dense_basis) None case_dense = Ok y /\ fB y = [2%nat] /\ fD y = 4%nat)
  /\ sparse_sources 3 [1%Z; 0%Z; 2%Z] [0%Z; 1%Z; 2%Z] 2 2
  /\ dense_sources case_dense [[1%Z; 2%Z]; [0%Z; 2%Z]] [] 2 2 2
  /\ renumbering 2 (fun n => 1 - n)%nat (fun n => 1 - n)%nat
  /\ (forall n m, In (n, m) [(1, 0); (0, 0)]%nat <-> (n < 2)%nat /\ (m < 2)%nat /\ dense_edge case_dense 2 [] n m = true)
  /\ (forall e n m, nth_error [(1, 0); (0, 0)]%nat e = Some (n, m) -> same_entries case_dense_basis [n; m] case_sparse_basis [e]).
Proof.
  split; [exists 2%nat; split; [left|]; reflexivity|].
  split; [apply ok_case; vm_compute; split; reflexivity|].
  split; [apply ok_case; vm_compute; split; reflexivity|].
  split.
  { intros [|[|[|e]]] [|[|n]] He Hn Ha; try lia; try discriminate Ha; [exists 0%nat|exists 1%nat]; split; auto; lia. }
  split.
  { intros [|[|n]] [|[|m]] Hn Hm Ha; try lia; try discriminate Ha; [exists 1%nat|exists 0%nat]; split; auto; lia. }
  split; [intros n Hn; lia|].
  split.
  { intros n m. split.
    - intros [H|[H|[]]]; injection H as <- <-; repeat split; try lia.
    - intros [Hn [Hm H]]. destruct n as [|[|n]], m as [|[|m]]; try lia; try discriminate H; cbn; auto. }
  intros e n m H. destruct e as [|[|[|e]]]; try discriminate H; injection H as <- <-; intros p d f; cbn; f_equal; lia.
Qed.

(** Finding: the check of the weights' shape is symmetric, so weights with two parity channels (or more
    degrees) are accepted for inputs with one; the result then has a different number of channels. *)
Theorem C38_weights_can_enlarge : exists x w y,
  message_pass case_cg None true true case_conv x None (Some w) case_sparse = Ok y
  /\ fS x = 1%nat /\ fS w = 2%nat /\ fS y = 2%nat /\ well_formed x.
Proof.
  exists case_nodes, (mkFeat [1%nat] 2 1 1 0 (fun _ _ _ _ => 1)).
  destruct (ok_case _ (message_pass case_cg None true true case_conv case_nodes None (Some (mkFeat [1%nat] 2 1 1 0 (fun _ _ _ _ => 1))) case_sparse) (fun y => fS y = 2%nat)) as [y [E ES]];
    [vm_compute; reflexivity|].
  exists y. split; [exact E|]. do 2 (split; [reflexivity|]). split; [exact ES|]. exists 2%nat; split; [left|]; reflexivity.
Qed.
Print Assumptions C38_weights_can_enlarge.

(** * C39: attention *)

Section Attention.
Variable cgf : Z -> Z -> Z -> result (nat -> nat -> nat -> R).
Variables lo hi : R.

Theorem C39_scores_invariant : forall s D n q k q' k' heads (rel rel' : option (list nat -> nat -> nat -> nat -> R)) i h,
  s * s = 1 -> orthogonal_blocks D -> valid n q -> valid n k -> fS k = fS q ->
  transformed s D q q' -> transformed s D k k' ->
  (exists r : nat -> nat -> nat -> R, forall p d c, (p < fS q)%nat -> (d < fD q)%nat ->
     match rel with Some r => r i p d c | None => 1 end = r p (Nat.sqrt d) c
     /\ match rel' with Some r => r i p d c | None => 1 end = r p (Nat.sqrt d) c) ->
  attention_dot heads q' k' rel' i h = attention_dot heads q k rel i h.
Proof. exact dot_invariant. Qed.

Theorem C39_attention_equivariant : forall s D0 o P xq xq' xkv xkv' basis basis' cutoff g y, cg_checked cgf -> s * s = 1 ->
  (forall d, o_max_degree o = Some d -> (0 <= d)%Z) -> keeps_scalars D0 -> orthogonal_blocks D0 -> cg_commutes cgf D0 ->
  (forall bs, basis = Some bs -> (0 < fD bs)%nat) ->
  transformed s (on_nodes D0) xq xq' -> transformed s (on_nodes D0) xkv xkv' ->
  match basis, basis' with Some bs, Some bs' => transformed s (on_edges g D0) bs bs' | None, None => True | _, _ => False end ->
  multi_head_attention cgf lo hi o P xq xkv basis cutoff g = Ok y ->
  exists y', multi_head_attention cgf lo hi o P xq' xkv' basis' cutoff g = Ok y' /\ transformed s (on_nodes D0) y y'.
Proof. exact (attention_transformed cgf lo hi). Qed.

Theorem C39_self_attention_equivariant : forall s D0 o P x x' basis basis' cutoff g y, cg_checked cgf -> s * s = 1 ->
  (forall d, o_max_degree o = Some d -> (0 <= d)%Z) -> keeps_scalars D0 -> orthogonal_blocks D0 -> cg_commutes cgf D0 ->
  (forall bs, basis = Some bs -> (0 < fD bs)%nat) ->
  transformed s (on_nodes D0) x x' ->
  match basis, basis' with Some bs, Some bs' => transformed s (on_edges g D0) bs bs' | None, None => True | _, _ => False end ->
  self_attention cgf lo hi o P x basis cutoff g = Ok y ->
  exists y', self_attention cgf lo hi o P x' basis' cutoff g = Ok y' /\ transformed s (on_nodes D0) y y'.
Proof. intros. unfold self_attention in *. eapply (attention_transformed cgf lo hi); eauto. Qed.

(** What is computed with a sparse list: at node i the messages of its edges are added; the value of the
    sender is multiplied by the share of the edge among all edges that end in i. *)
Theorem C39_attention_sparse : forall o P xq xkv basis cutoff g y nq nk Q dst Q' src, valid nq xq -> valid nk xkv ->
  multi_head_attention cgf lo hi o P xq xkv basis cutoff g = Ok y -> g_dst g = Some (Q, dst) -> g_src g = Some (Q', src) ->
  let F := match o_qkv o with None => fF xq | Some F => F end in
  let n := Nat.min nq nk in
  exists q k v att, attention_inputs o P xq xkv n q k v att y
    /\ fB att = but_last (fB xkv) ++ [match g_segments g with Some N => N | None => last1 (fB xq) end] /\ fF att = F
    /\ forall b i, (i < last1 (fB att))%nat -> (i < last1 (fB xq))%nat -> length (dst b) = Q ->
       (forall e, (e < Q)%nat -> at_node (dst b) e i = true -> exists j, (j < last1 (fB xkv))%nat /\ at_node (src b) e j = true) ->
       (forall e, (e < Q)%nat -> 0 <= cutoff_at cutoff (b ++ [e])) ->
       ((exists e, (e < Q)%nat /\ at_node (dst b) e i = true) -> exists e, (e < Q)%nat /\ at_node (dst b) e i = true /\ 0 < cutoff_at cutoff (b ++ [e])) ->
       let message := fun e => edge_message cgf (o_max_degree o) (o_include o) (o_basis_bias o) (a_conv P)
                (weighted (fun c => share Q (fun e' => at_node (dst b) e' i) (fun e' => cutoff_at cutoff (b ++ [e']))
                     (fun e' => head_score (o_heads o) q k (relative_factor o P basis n F (b ++ [e'])) (b ++ [i]) (b ++ [Z.to_nat (nth e' (src b) 0%Z)]) (c / (F / o_heads o))) e)
                   (item v (b ++ [Z.to_nat (nth e (src b) 0%Z)])))
                (option_map (fun bs => item bs (b ++ [e])) (if o_rel_v o then basis else None)) in
       (forall e, (e < Q)%nat -> at_node (dst b) e i = true -> exists r, message e = Ok r /\ fS r = fS att /\ fD r = fD att /\ fF r = fF att)
       /\ forall p d f, (p < fS att)%nat -> (d < fD att)%nat ->
          fv att (b ++ [i]) p d f = rsum Q (fun e => if at_node (dst b) e i then entry (message e) p d f else 0).
Proof. exact (attention_sparse cgf lo hi). Qed.

Theorem C39_attention_dense : forall o P xq xkv basis cutoff g y nq nk N M adj, valid nq xq -> valid nk xkv ->
  multi_head_attention cgf lo hi o P xq xkv basis cutoff g = Ok y -> g_adj g = Some (N, M, adj) ->
  let F := match o_qkv o with None => fF xq | Some F => F end in
  let n := Nat.min nq nk in
  exists q k v att, attention_inputs o P xq xkv n q k v att y
    /\ fB att = but_last (fB xkv) ++ [N] /\ fF att = F
    /\ forall b i, (i < N)%nat ->
       (forall m, (m < M)%nat -> dense_edge g (last1 (fB xkv)) b i m = true -> exists j, (j < last1 (fB xkv))%nat /\ at_node (nth i (adj b) []) m j = true) ->
       (forall m, (m < M)%nat -> 0 <= cutoff_at cutoff (b ++ [i; m])) ->
       ((exists m, (m < M)%nat /\ dense_edge g (last1 (fB xkv)) b i m = true) -> exists m, (m < M)%nat /\ dense_edge g (last1 (fB xkv)) b i m = true /\ 0 < cutoff_at cutoff (b ++ [i; m])) ->
       let message := fun m => edge_message cgf (o_max_degree o) (o_include o) (o_basis_bias o) (a_conv P)
                (weighted (fun c => share M (fun m' => dense_edge g (last1 (fB xkv)) b i m') (fun m' => cutoff_at cutoff (b ++ [i; m']))
                     (fun m' => head_score (o_heads o) q k (relative_factor o P basis n F (b ++ [i; m'])) (b ++ [i]) (b ++ [Z.to_nat (nth m' (nth i (adj b) []) 0%Z)]) (c / (F / o_heads o))) m)
                   (item v (b ++ [Z.to_nat (nth m (nth i (adj b) []) 0%Z)])))
                (option_map (fun bs => item bs (b ++ [i; m])) (if o_rel_v o then basis else None)) in
       (forall m, (m < M)%nat -> dense_edge g (last1 (fB xkv)) b i m = true -> exists r, message m = Ok r /\ fS r = fS att /\ fD r = fD att /\ fF r = fF att)
       /\ forall p d f, (p < fS att)%nat -> (d < fD att)%nat ->
          fv att (b ++ [i]) p d f = rsum M (fun m => if dense_edge g (last1 (fB xkv)) b i m then entry (message m) p d f else 0).
Proof. exact (attention_dense cgf lo hi). Qed.

(** The shares of the edges that end in a node add up to one. *)
Theorem C39_shares_sum_to_one : forall Q selected c s, (forall e, (e < Q)%nat -> 0 <= c e) ->
  (exists e, (e < Q)%nat /\ selected e = true /\ 0 < c e) ->
  rsum Q (fun e => if selected e then share Q selected c s e else 0) = 1
  /\ forall e, (e < Q)%nat -> 0 <= share Q selected c s e.
Proof.
  intros Q sel c s Hc [e0 [He0 [Hs0 Hp]]]. unfold share.
  assert (HP : 0 < rsum Q (fun e' => if sel e' then c e' * exp (s e') else 0)).
  { apply rsum_pos_at with (e := e0); [|assumption|].
    - intros i Hi. destruct (sel i); [|lra]. apply Rmult_le_pos; [apply Hc; assumption|left; apply exp_pos].
    - rewrite Hs0. apply Rmult_lt_0_compat; [assumption|apply exp_pos]. }
  split.
  - transitivity (rsum Q (fun e => / rsum Q (fun e' => if sel e' then c e' * exp (s e') else 0) * (if sel e then c e * exp (s e) else 0))).
    + apply rsum_ext. intros e _. destruct (sel e); unfold Rdiv; ring.
    + rewrite rsum_scal_l. apply Rinv_l. lra.
  - intros e He. apply Rmult_le_pos; [apply Rmult_le_pos; [apply Hc; assumption|left; apply exp_pos]|left; apply Rinv_0_lt_compat; exact HP].
Qed.

(** Rejected configurations. *)
Theorem C39_attention_errors : forall o P xq xkv basis cutoff g,
  (removelast (fB xq) <> removelast (fB xkv) -> multi_head_attention cgf lo hi o P xq xkv basis cutoff g = Err ValueError)
  /\ (removelast (fB xq) = removelast (fB xkv) ->
      (o_rel_qk o = true \/ o_rel_v o = true -> basis = None -> multi_head_attention cgf lo hi o P xq xkv basis cutoff g = Err TypeError)
      /\ ((o_rel_qk o = false /\ o_rel_v o = false) \/ basis <> None ->
          let F := match o_qkv o with None => fF xq | Some F => F end in
          (o_heads o = 0%nat -> multi_head_attention cgf lo hi o P xq xkv basis cutoff g = Err ZeroDivisionError)
          /\ (o_heads o <> 0%nat -> (F mod o_heads o <> 0)%nat -> multi_head_attention cgf lo hi o P xq xkv basis cutoff g = Err ValueError))).
Proof.
  intros o P xq xkv basis cutoff g. unfold multi_head_attention, but_last.
  destruct (list_nat_eqb (removelast (fB xq)) (removelast (fB xkv))) eqn:EL.
  - apply list_nat_eqb_spec in EL. split; [congruence|]. intros _. cbn [negb]. split.
    + intros H ->. destruct H as [-> | ->]; [|rewrite orb_true_r]; reflexivity.
    + intros H. assert (E0 : ((o_rel_qk o || o_rel_v o) && match basis with None => true | Some _ => false end)%bool = false).
      { destruct H as [[-> ->]|H]; [reflexivity|]. destruct basis; [apply andb_false_r|contradiction]. }
      rewrite E0. cbv zeta. split.
      * intros ->. reflexivity.
      * intros H0 H1. destruct (Nat.eqb_spec (o_heads o) 0); [contradiction|]. destruct (Nat.eqb_spec (match o_qkv o with None => fF xq | Some F => F end mod o_heads o) 0); [contradiction|reflexivity].
  - split; [reflexivity|]. intros H. apply list_nat_eqb_spec in H. congruence.
Qed.

End Attention.
Print Assumptions C39_scores_invariant.
Print Assumptions C39_attention_equivariant.
Print Assumptions C39_self_attention_equivariant.
Print Assumptions C39_attention_sparse.
Print Assumptions C39_attention_dense.
Print Assumptions C39_shares_sum_to_one.
Print Assumptions C39_attention_errors.

Definition case_options : attention_options := mkOptions 2 None None false true true true true true true None true.
Definition case_attention : attention_params :=
  let d := mkDense (fun _ _ _ _ => 1) (fun _ => 1) in mkAttention d d d d (fun _ _ => 1) (fun _ => 1) case_conv.

Example C39_attention_case : forall lo hi,
  (exists y, self_attention case_cg lo hi case_options case_attention case_nodes (Some case_sparse_basis) None case_sparse = Ok y /\ fB y = [2%nat])
  /\ (exists y, self_attention case_cg lo hi case_options case_attention case_nodes (Some case_dense_basis) (Some (fun _ => 1)) case_dense = Ok y /\ fB y = [2%nat])
  /\ valid 2 case_nodes /\ (forall t, keeps_scalars (case_wigner t) /\ orthogonal_blocks (case_wigner t) /\ cg_commutes case_cg (case_wigner t)).
Proof.
  intros lo hi.
  split; [apply ok_case; vm_compute; reflexivity|].
  split; [apply ok_case; vm_compute; reflexivity|].
  split; [split; [left|]; reflexivity|].
  intros t. split; [apply case_keeps|]. split; [apply case_orthogonal|apply case_commutes].
Qed.
