(** Model of e3x/nn/modules.py: Dense, Tensor, FusedTensor, TensorDense, the convolution,
    MessagePass and (multi-head) attention.

    Learned parameters are arguments.  Numbers are reals; dtypes are passed through from the
    first input (promotion is not modelled).  [so3.clebsch_gordan] (already applied to the
    module's cartesian_order) is the argument [clebsch_gordan].  Names of parameters, the
    parameter initialisation and [precision] do not matter here. *)
Require Import List Reals ZArith Bool.
Require Import Verif.Base Verif.RSum Verif.Features_Model Verif.Common_Model Verif.Indexed_Model.
Import ListNotations.
Open Scope R_scope.

(** * Broadcasting of the leading axes ('...' in einsum, and elementwise products) *)

Fixpoint broadcast_rev (a b : list nat) : option (list nat) :=
  match a, b with
  | [], _ => Some b
  | _, [] => Some a
  | x :: a', y :: b' =>
      if (x =? y)%nat then option_map (cons x) (broadcast_rev a' b')
      else if (x =? 1)%nat then option_map (cons y) (broadcast_rev a' b')
      else if (y =? 1)%nat then option_map (cons x) (broadcast_rev a' b')
      else None
  end.

(** Shape of the result; incompatible shapes raise. *)
Definition broadcast_shapes (a b : list nat) : result (list nat) :=
  match broadcast_rev (rev a) (rev b) with Some c => Ok (rev c) | None => Err ValueError end.

(** Index along an axis of size n that was broadcast to size n'. *)
Definition bix (n n' i : nat) : nat := if (n =? n')%nat then i else 0%nat.

(** Index into an array of shape B of element i of the result of shape B'. *)
Definition bidx (B B' i : list nat) : list nat :=
  if list_nat_eqb B B' then i
  else map (fun t => bix (fst (fst t)) (snd (fst t)) (snd t))
         (combine (combine B (skipn (length B' - length B) B')) (skipn (length i - length B) i)).

(** * Dense (115-240) *)

(** Weight matrices by degree and parity ('0+', '1-', ...), and the single bias vector. *)
Record dense_params : Type := mkDense { dk : nat -> nat -> nat -> nat -> R; db : nat -> R }.

(** [nn.Dense] applied to an array whose last axis has size F. *)
Definition apply_dense (F : nat) (kernel : nat -> nat -> R) (bias : option (nat -> R)) (p : piece) : piece :=
  (fst p, fun i s d f => rsum F (fun a => snd p i s d a * kernel a f) + match bias with Some b => b f | None => 0 end).

(** [_make_dense_for_each_degree] (158-183): bias only for degree 0, and only if requested. *)
Definition dense_for_degree (use_bias : bool) (l : nat) (bias : nat -> R) : option (nat -> R) :=
  if use_bias && (l =? 0)%nat then Some bias else None.

Definition with_features (x : feat) (F : nat) : feat := mkFeat (fB x) (fS x) (fD x) F (fdt x) (fv x).

(** [Dense.__call__] (185-240). *)
Definition dense (features : nat) (use_bias : bool) (P : dense_params) (x : feat) : result feat :=
  bind (extract_max_degree_and_check_shape (shape_of x)) (fun L =>
    let degrees := seq 0 (Z.to_nat (L + 1)) in
    if (fS x =? 2)%nat
    then
      bind (concatenate (with_features x features) 1 (map (fun l =>
              apply_dense (fF x) (dk P l 0%nat) (dense_for_degree use_bias l (db P)) (degree_slice x 0 l)) degrees)) (fun e =>
      bind (concatenate (with_features x features) 1 (map (fun l =>
              apply_dense (fF x) (dk P l 1%nat) (dense_for_degree false l (db P)) (degree_slice x 1 l)) degrees)) (fun o =>
      Ok (mkFeat (fB x) 2 (fD e) features (fdt x)
            (fun i s d f => if (s =? 0)%nat then fv e i 0%nat d f else fv o i 0%nat d f))))
    else if (fS x =? 1)%nat
    then
      concatenate (with_features x features) 1 (map (fun l =>
        apply_dense (fF x) (dk P l (l mod 2)%nat) (dense_for_degree use_bias l (db P)) (degree_slice x 0 l)) degrees)
    else Err AssertionError).

(** * Tensor (332-574) *)

(** [_make_index_combinations] (285-309): parity index, degree, parity.  Called with the size of
    the degree axis, so that the last degree is one too large. *)
Definition make_index_combinations (parity max_degree : nat) : list (nat * nat * nat) :=
  if (parity =? 2)%nat
  then map (fun l => (0, l, 0)%nat) (seq 0 (max_degree + 1)) ++ map (fun l => (1, l, 1)%nat) (seq 0 (max_degree + 1))
  else map (fun l => (0, l, l mod 2)%nat) (seq 0 (max_degree + 1)).

Definition mask_array : Type := nat -> nat -> nat -> nat -> nat -> nat -> R.

(** [mask.at[p1, l1, p2, l2, p3, l3, :].set(0)]: JAX drops updates that are out of bounds. *)
Definition set_zero (S1 n1 S2 n2 S3 n3 : nat) (t : (nat * nat * nat) * ((nat * nat * nat) * (nat * nat * nat)))
    (mask : mask_array) : mask_array :=
  let '((p1, l1, _), ((p2, l2, _), (p3, l3, _))) := t in
  if (p1 <? S1)%nat && (l1 <? n1)%nat && (p2 <? S2)%nat && (l2 <? n2)%nat && (p3 <? S3)%nat && (l3 <? n3)%nat
  then fun a b c d e f =>
         if (a =? p1)%nat && (b =? l1)%nat && (c =? p2)%nat && (d =? l2)%nat && (e =? p3)%nat && (f =? l3)%nat
         then 0 else mask a b c d e f
  else mask.

(** [_make_tensor_product_mask] (263-326). *)
Definition make_tensor_product_mask (S1 n1 S2 n2 S3 n3 : nat) : mask_array :=
  fold_left (fun mask t =>
      let '((_, _, d1), ((_, _, d2), (_, _, d3))) := t in
      if negb ((d1 + d2) mod 2 =? d3)%nat then set_zero S1 n1 S2 n2 S3 n3 t mask else mask)
    (list_prod (make_index_combinations S1 n1)
               (list_prod (make_index_combinations S2 n2) (make_index_combinations S3 n3)))
    (fun _ _ _ _ _ _ => 1).

(** Weights by parity and degree of the factors and the product, and feature. *)
Definition tensor_kernel : Type := nat -> nat -> nat -> nat -> nat -> nat -> nat -> R.

Section WithClebschGordan.
Variable clebsch_gordan : Z -> Z -> Z -> result (nat -> nat -> nat -> R).

(** Default of [max_degree] (448-452, 771-775). *)
Definition output_degree (max_degree : option Z) (L1 L2 : Z) : Z :=
  match max_degree with None => Z.max L1 L2 | Some d => d end.

(** [include_pseudotensors] is overruled if there cannot be any (480-485, 800-805). *)
Definition output_pseudotensors (include : bool) (S1 S2 : nat) (L1 L2 L3 : Z) : bool :=
  if (S1 =? 1)%nat && (S2 =? 1)%nat && ((L1 =? 0)%Z || (L2 =? 0)%Z || (L3 =? 0)%Z) then false else include.

(** Expansion of an axis indexed by degree with [jnp.take]. *)
Definition dup (L : Z) (d : nat) : nat := nth d (duplication_indices (Z.to_nat L)) 0%nat.

(** [Tensor.__call__] (418-574).  A negative degree makes [clebsch_gordan] raise; the creation of
    the kernel, which would come first, is not modelled. *)
Definition tensor (max_degree : option Z) (include_pseudotensors : bool) (kernel : tensor_kernel)
    (x1 x2 : feat) : result feat :=
  bind (extract_max_degree_and_check_shape (shape_of x1)) (fun L1 =>
  bind (extract_max_degree_and_check_shape (shape_of x2)) (fun L2 =>
  let L3 := output_degree max_degree L1 L2 in
  if (L1 + L2 <? L3)%Z then Err ValueError                                  (* 455-460 *)
  else if negb (fF x1 =? fF x2)%nat then Err ValueError                     (* 463-467 *)
  else
    let include := output_pseudotensors include_pseudotensors (fS x1) (fS x2) L1 L2 L3 in
    let S3 := if include then 2%nat else 1%nat in
    let n1 := Z.to_nat (L1 + 1) in let n2 := Z.to_nat (L2 + 1) in let n3 := Z.to_nat (L3 + 1) in
    let mixed := negb ((fS x1 =? 2)%nat && (fS x2 =? 2)%nat && (S3 =? 2)%nat) in   (* 515 *)
    bind (clebsch_gordan L1 L2 L3) (fun cg =>
    bind (broadcast_shapes (fB x1) (fB x2)) (fun B =>
    let masked := if mixed
      then fun p l q m r n f => kernel p l q m r n f * make_tensor_product_mask (fS x1) n1 (fS x2) n2 S3 n3 p l q m r n
      else kernel in                                                        (* 540-541 *)
    let expanded := fun p l q m r n f => masked p (dup L1 l) q (dup L2 m) r (dup L3 n) f in  (* 544-546 *)
    let a i := bidx (fB x1) B i in
    let b i := bidx (fB x2) B i in
    if mixed
    then Ok (mkFeat B S3 (n3 * n3) (fF x1) (fdt x1) (fun i r n f =>
           rsum (fS x1) (fun p => rsum (fD x1) (fun l => rsum (fS x2) (fun q => rsum (fD x2) (fun m =>
             fv x1 (a i) p l f * fv x2 (b i) q m f * expanded p l q m r n f * cg l m n))))))  (* 549 *)
    else
      let couple i j k t n f :=
        rsum (fD x1) (fun l => rsum (fD x2) (fun m =>
          fv x1 (a t) i l f * fv x2 (b t) j m f * expanded i l j m k n f * cg l m n)) in      (* 557-568 *)
      Ok (mkFeat B 2 (n3 * n3) (fF x1) (fdt x1) (fun t r n f =>
           if (r =? 0)%nat then couple 0%nat 0%nat 0%nat t n f + couple 1%nat 1%nat 0%nat t n f
           else couple 0%nat 1%nat 1%nat t n f + couple 1%nat 0%nat 1%nat t n f)))))).        (* 570-577 *)

(** * FusedTensor (580-1062) *)

(** Weights by degree and feature. *)
Record fused_params : Type := mkFused {
  k_e1 : nat -> nat -> R; k_o1 : nat -> nat -> R; k_e2 : nat -> nat -> R; k_o2 : nat -> nat -> R;
  k_eee : nat -> nat -> R; k_ooe : nat -> nat -> R; k_eoo : nat -> nat -> R; k_oeo : nat -> nat -> R }.

(** Masks for even and odd degrees (822-830), as numbers; axis -1 of size 1 dropped. *)
Definition fused_even_mask (L : nat) (d : nat) : R :=
  nth d (flat_map (fun l => repeat (INR ((l + 1) mod 2)) (2 * l + 1)) (seq 0 (L + 1))) 0.
Definition fused_odd_mask (L : nat) (d : nat) : R :=
  nth d (flat_map (fun l => repeat (INR (l mod 2)) (2 * l + 1)) (seq 0 (L + 1))) 0.

(** [FusedTensor.__call__] (741-1062). *)
Definition fused_tensor (max_degree : option Z) (include_pseudotensors : bool) (P : fused_params)
    (x1 x2 : feat) : result feat :=
  bind (extract_max_degree_and_check_shape (shape_of x1)) (fun L1 =>
  bind (extract_max_degree_and_check_shape (shape_of x2)) (fun L2 =>
  let L3 := output_degree max_degree L1 L2 in
  if (L1 + L2 <? L3)%Z then Err ValueError
  else if negb (fF x1 =? fF x2)%nat then Err ValueError
  else
    let include := output_pseudotensors include_pseudotensors (fS x1) (fS x2) L1 L2 L3 in
    let L := Z.max L1 (Z.max L2 L3) in                                      (* 809 *)
    let M := ((L + 1) / 2)%Z in                                             (* 812: ceil (L / 2) *)
    bind (clebsch_gordan M M L) (fun cg0 =>
    bind (broadcast_shapes (fB x1) (fB x2)) (fun B =>
    let i0 := Z.to_nat (M * M) in
    let w := Z.to_nat ((M + 1) * (M + 1) - M * M) in                        (* size of the slice *)
    let cg l m n := cg0 (i0 + l)%nat (i0 + m)%nat n in                      (* 819-821 *)
    let even := fused_even_mask (Z.to_nat L) in
    let odd := fused_odd_mask (Z.to_nat L) in
    let l1 := Z.to_nat ((L1 + 1) * (L1 + 1)) in
    let l2 := Z.to_nat ((L2 + 1) * (L2 + 1)) in
    let l3 := Z.to_nat ((L3 + 1) * (L3 + 1)) in
    let expand (Lx : Z) (k : nat -> nat -> R) := fun n f => k (dup Lx n) f in  (* 931-950 *)
    let split_even (x : feat) := fun i n f =>
      if (fS x =? 2)%nat then fv x i 0%nat n f else fv x i 0%nat n f * even n in  (* 952-968 *)
    let split_odd (x : feat) := fun i n f =>
      if (fS x =? 2)%nat then fv x i 1%nat n f else fv x i 0%nat n f * odd n in
    let to_matrix (x : list nat -> nat -> nat -> R) (k : nat -> nat -> R) (ls : nat) := fun i l m f =>
      rsum ls (fun n => x i n f * k n f * cg l m n) in                      (* 975-990 *)
    let a i := bidx (fB x1) B i in
    let b i := bidx (fB x2) B i in
    let e1 := to_matrix (split_even x1) (expand L1 (k_e1 P)) l1 in
    let o1 := to_matrix (split_odd x1) (expand L1 (k_o1 P)) l1 in
    let e2 := to_matrix (split_even x2) (expand L2 (k_e2 P)) l2 in
    let o2 := to_matrix (split_odd x2) (expand L2 (k_o2 P)) l2 in
    let couple (y1 y2 : list nat -> nat -> nat -> nat -> R) := fun i l n f =>
      rsum w (fun m => y1 (a i) l m f * y2 (b i) m n f) in                  (* 998-1015 *)
    let to_vector (y : list nat -> nat -> nat -> nat -> R) (k : nat -> nat -> R) := fun i n f =>
      rsum w (fun l => rsum w (fun m => y i l m f * k n f * cg l m n)) in   (* 1023-1037 *)
    let eee := to_vector (couple e1 e2) (expand L3 (k_eee P)) in
    let ooe := to_vector (couple o1 o2) (expand L3 (k_ooe P)) in
    let eoo := to_vector (couple e1 o2) (expand L3 (k_eoo P)) in
    let oeo := to_vector (couple o1 e2) (expand L3 (k_oeo P)) in
    let e3 := fun i n f => eee i n f + ooe i n f in
    let o3 := fun i n f => eoo i n f + oeo i n f in
    if include
    then Ok (mkFeat B 2 l3 (fF x1) (fdt x1) (fun i r n f => if (r =? 0)%nat then e3 i n f else o3 i n f))
    else Ok (mkFeat B 1 l3 (fF x1) (fdt x1) (fun i _ n f => e3 i n f * even n + o3 i n f * odd n))
    )))).

(** [_create_tensor] (1065-1091). *)
Inductive tensor_params : Type := PTensor (k : tensor_kernel) | PFused (P : fused_params).

Definition any_tensor (max_degree : option Z) (include : bool) (P : tensor_params) (x1 x2 : feat) : result feat :=
  match P with
  | PTensor k => tensor max_degree include k x1 x2
  | PFused P => fused_tensor max_degree include P x1 x2
  end.

(** * TensorDense (1094-1209) *)

(** [jnp.split(y, 2, axis=-1)], each half with F features. *)
Definition split_half (y : feat) (F off : nat) : feat :=
  mkFeat (fB y) (fS y) (fD y) F (fdt y) (fun i s d f => fv y i s d (off + f)%nat).

Definition tensor_dense (features : option nat) (max_degree : option Z) (include use_bias : bool)
    (Pd : dense_params) (Pt : tensor_params) (x : feat) : result feat :=
  let F := match features with None => fF x | Some n => n end in
  bind (dense (2 * F) use_bias Pd x) (fun y =>
    any_tensor max_degree include Pt (split_half y F 0) (split_half y F F)).

(** * Convolution and message passing (1212-1489) *)

(** Neighbour lists: for every batch element the dense list (N rows of M entries with a mask)
    or the sparse lists (destinations and sources of P edges).  The arguments adj_idx, dst_idx,
    src_idx are given as options, as in the code. *)
Record graph : Type := mkGraph {
  g_adj : option (nat * nat * (list nat -> adjacency));      (* rows, columns, entries *)
  g_where : option (list nat -> list (list bool));
  g_dst : option (nat * (list nat -> list Z));
  g_src : option (nat * (list nat -> list Z));
  g_segments : option nat }.

Definition graph_type (g : graph) (dst src : bool) : result index_type :=
  determine_index_type (option_map (fun a => [fst (fst a); snd (fst a)]) (g_adj g))
    (if dst then option_map (fun s => [fst s]) (g_dst g) else None)
    (if src then option_map (fun s => [fst s]) (g_src g) else None).

(** Batch part of the index of a node, of a dense edge (i, j) or of a sparse edge. *)
Definition but_last (i : list nat) : list nat := removelast i.
Definition but_last2 (i : list nat) : list nat := removelast (removelast i).
Definition last1 (i : list nat) : nat := last i 0%nat.
Definition last2 (i : list nat) : nat := last (removelast i) 0%nat.

(** One entry of all nodes of a batch element. *)
Definition node_values (x : feat) (b : list nat) (s d f : nat) : list R :=
  map (fun n => fv x (b ++ [n]) s d f) (seq 0 (last1 (fB x))).

(** [ops.gather_src] (indexed.py:357-388) on features: see Indexed_Model. *)
Definition gather_src_feat (x : feat) (g : graph) : result feat :=
  match graph_type g false true with
  | Err e => Err e
  | Ok Dense =>
      match g_adj g with
      | Some (N, M, adj) =>
          Ok (mkFeat (but_last (fB x) ++ [N; M]) (fS x) (fD x) (fF x) (fdt x) (fun i s d f =>
            nth (last1 i) (nth (last2 i) (gather_dense 0 (node_values x (but_last2 i) s d f) (adj (but_last2 i))) []) 0))
      | None => Err AssertionError
      end
  | Ok Sparse =>
      match g_src g with
      | Some (P, src) =>
          Ok (mkFeat (but_last (fB x) ++ [P]) (fS x) (fD x) (fF x) (fdt x) (fun i s d f =>
            nth (last1 i) (gather_sparse 0 (node_values x (but_last i) s d f) (src (but_last i))) 0))
      | None => Err AssertionError
      end
  end.

(** [ops.gather_dst] (indexed.py:391-422); the dense case, which adds an axis of size one to be
    broadcast, is given its broadcast shape. *)
Definition gather_dst_feat (x : feat) (g : graph) : result feat :=
  match graph_type g true false with
  | Err e => Err e
  | Ok Dense =>
      match g_adj g with
      | Some (N, M, adj) =>
          Ok (mkFeat (but_last (fB x) ++ [N; M]) (fS x) (fD x) (fF x) (fdt x) (fun i s d f =>
            fv x (but_last i) s d f))
      | None => Err AssertionError
      end
  | Ok Sparse =>
      match g_dst g with
      | Some (P, dst) =>
          Ok (mkFeat (but_last (fB x) ++ [P]) (fS x) (fD x) (fF x) (fdt x) (fun i s d f =>
            nth (last1 i) (gather_sparse 0 (node_values x (but_last i) s d f) (dst (but_last i))) 0))
      | None => Err AssertionError
      end
  end.

(** One entry of all edges of a batch element. *)
Definition dense_edge_values (N M : nat) (v : list nat -> R) (b : list nat) : list (list R) :=
  map (fun n => map (fun m => v (b ++ [n; m])) (seq 0 M)) (seq 0 N).
Definition sparse_edge_values (P : nat) (v : list nat -> R) (b : list nat) : list R :=
  map (fun e => v (b ++ [e])) (seq 0 P).

(** [ops.indexed_sum] (indexed.py:429-594, reduction RSum in Indexed_Model) on features. *)
Definition indexed_sum_feat (x : feat) (g : graph) : result feat :=
  match graph_type g true false with
  | Err e => Err e
  | Ok Dense =>
      match g_where g, g_adj g with
      | None, _ => Err TypeError
      | Some w, Some (N, M, adj) =>
          if negb (list_nat_eqb (fB x) (but_last2 (fB x) ++ [N; M])) then Err ValueError
          else Ok (mkFeat (but_last (fB x)) (fS x) (fD x) (fF x) (fdt x) (fun i s d f =>
                 nth (last1 i) (reduce_dense 0 0 RSum
                    (dense_edge_values N M (fun e => fv x e s d f) (but_last i)) (w (but_last i))) 0))
      | Some _, None => Err AssertionError
      end
  | Ok Sparse =>
      match g_segments g, g_dst g with
      | None, _ => Err TypeError
      | Some n, Some (P, dst) =>
          if negb (list_nat_eqb (fB x) (but_last (fB x) ++ [P])) then Err ValueError
          else Ok (mkFeat (but_last (fB x) ++ [n]) (fS x) (fD x) (fF x) (fdt x) (fun i s d f =>
                 nth (last1 i) (reduce_sparse 0 0 RSum n (dst (but_last i))
                    (sparse_edge_values P (fun e => fv x e s d f) (but_last i))) 0))
      | Some _, None => Err AssertionError
      end
  end.

Record conv_params : Type := mkConv { c_filter : dense_params; c_tensor : tensor_params }.

(** [_Conv.__call__] (1249-1351). *)
Definition conv (max_degree : option Z) (include use_basis_bias : bool) (P : conv_params)
    (x : feat) (basis : option feat) (g : graph) : result feat :=
  bind (match basis with
        | Some bs =>
            if negb (list_nat_eqb (fB x) (fB bs)) then Err ValueError              (* 1313-1314 *)
            else bind (dense (fF x) use_basis_bias (c_filter P) bs) (fun filters =>
                 any_tensor max_degree include (c_tensor P) filters x)            (* 1317-1340 *)
        | None => Ok x
        end) (fun products => indexed_sum_feat products g).

(** [gathered_inputs *= weights] (1464-1471); the weights are an array with at least three axes. *)
Definition multiply_weights (x : feat) (w : feat) : result feat :=
  if negb (is_broadcastable (map Z.of_nat (shape_of x)) (map Z.of_nat (shape_of w))) then Err ValueError
  else bind (broadcast_shapes (fB x) (fB w)) (fun B =>
    let m a b := if (a =? 1)%nat then b else a in
    let S := m (fS x) (fS w) in let D := m (fD x) (fD w) in let F := m (fF x) (fF w) in
    Ok (mkFeat B S D F (fdt x) (fun i s d f =>
          fv x (bidx (fB x) B i) (bix (fS x) S s) (bix (fD x) D d) (bix (fF x) F f)
          * fv w (bidx (fB w) B i) (bix (fS w) S s) (bix (fD w) D d) (bix (fF w) F f)))).

(** Defaults of num_segments and where (1474-1477, 1783-1786): N nodes receive, K nodes send. *)
Definition with_defaults (g : graph) (N K : nat) : graph :=
  mkGraph (g_adj g)
    (match g_where g, g_adj g with
     | None, Some a => Some (fun b => map (map (fun j => j <? Z.of_nat K)%Z) (snd a b))
     | w, _ => w
     end)
    (g_dst g) (g_src g)
    (match g_segments g with None => Some N | s => s end).

(** [MessagePass.__call__] (1357-1489). *)
Definition message_pass (max_degree : option Z) (include use_basis_bias : bool) (P : conv_params)
    (x : feat) (basis : option feat) (w : option feat) (g : graph) : result feat :=
  bind (gather_src_feat x g) (fun y =>
  bind (match w with None => Ok y | Some w => multiply_weights y w end) (fun y =>
    conv max_degree include use_basis_bias P y basis (with_defaults g (last1 (fB x)) (last1 (fB x))))).

(** * Attention (1492-1968) *)

Record attention_params : Type := mkAttention {
  a_query : dense_params; a_key : dense_params; a_value : dense_params; a_out : dense_params;
  a_rel_kernel : nat -> nat -> R; a_rel_bias : nat -> R;
  a_conv : conv_params }.

Record attention_options : Type := mkOptions {
  o_heads : nat; o_qkv : option nat; o_out : option nat;
  o_query_bias : bool; o_key_bias : bool; o_value_bias : bool; o_out_bias : bool; o_basis_bias : bool;
  o_rel_qk : bool; o_rel_v : bool; o_max_degree : option Z; o_include : bool }.

(** Relative positional encoding (1716-1756): entry of parity channel p, position d, feature c. *)
Definition rel_pos_encoding (use_bias : bool) (K : nat -> nat -> R) (bias : nat -> R) (basis : feat)
    (L : Z) (qkv : nat) (i : list nat) (p d c : nat) : R :=
  let j := ((p * Z.to_nat (L + 1) + dup L d) * qkv + c)%nat in
  rsum (fF basis) (fun a => fv basis i 0%nat 0%nat a * K a j) + (if use_bias then bias j else 0).

(** Dot products per edge and head (1683-1780).  Splitting heads: feature index f * heads + h. *)
Definition attention_dot (heads : nat) (query key : feat) (rel : option (list nat -> nat -> nat -> nat -> R))
    (i : list nat) (h : nat) : R :=
  let per := (fF query / heads)%nat in
  let depth := (fS query * fD query * per)%nat in
  rsum (fS query) (fun p => rsum (fD query) (fun d => rsum per (fun f =>
    let c := (f * heads + h)%nat in
    fv query i p d c / sqrt (INR depth) * fv key i p d c * match rel with Some r => r i p d c | None => 1 end))).

(** Attention weights of one head (1789-1802). *)
Definition attention_weight (lo hi : R) (g : graph) (cutoff : option (list nat -> R))
    (dot : list nat -> R) (i : list nat) : result R :=
  match graph_type g true false with
  | Err e => Err e
  | Ok Dense =>
      match g_where g, g_adj g with
      | None, _ => Err TypeError
      | Some w, Some (N, M, adj) =>
          let b := but_last2 i in let n := last2 i in
          Ok (nth (last1 i) (softmax_row lo hi (nth n (w b) [])
                (nth n (dense_edge_values N M dot b) [])
                (option_map (fun c => nth n (dense_edge_values N M c b) []) cutoff)) 0)
      | Some _, None => Err AssertionError
      end
  | Ok Sparse =>
      match g_segments g, g_dst g with
      | None, _ => Err TypeError
      | Some n, Some (P, dst) =>
          let b := but_last i in
          Ok (nth (last1 i) (softmax_sparse lo hi n (dst b) (sparse_edge_values P dot b)
                (option_map (fun c => sparse_edge_values P c b) cutoff)) 0)
      | Some _, None => Err AssertionError
      end
  end.

Definition get_ok (r : result R) : R := match r with Ok v => v | Err _ => 0 end.

(** [MultiHeadAttention.__call__] (1567-1836). *)
Definition multi_head_attention (lo hi : R) (o : attention_options) (P : attention_params)
    (xq xkv : feat) (basis : option feat) (cutoff : option (list nat -> R)) (g : graph) : result feat :=
  if negb (list_nat_eqb (but_last (fB xq)) (but_last (fB xkv))) then Err ValueError       (* 1634-1635 *)
  else if (o_rel_qk o || o_rel_v o) && match basis with None => true | Some _ => false end
  then Err TypeError                                                                     (* 1638-1645 *)
  else
    let out := match o_out o with None => fF xq | Some n => n end in
    let qkv := match o_qkv o with None => fF xq | Some n => n end in
    if (o_heads o =? 0)%nat then Err ZeroDivisionError                                     (* 1655 *)
    else if negb (qkv mod o_heads o =? 0)%nat then Err ValueError                        (* 1655-1659 *)
    else
    bind (extract_max_degree_and_check_shape (shape_of xq)) (fun Lq =>
    bind (extract_max_degree_and_check_shape (shape_of xkv)) (fun Lk =>
    let Lqk := Z.min Lq Lk in
    let pseudo := (fS xq =? 2)%nat && (fS xkv =? 2)%nat in
    bind (change_max_degree_or_type xq (Some Lqk) (Some pseudo)) (fun qi =>
    bind (change_max_degree_or_type xkv (Some Lqk) (Some pseudo)) (fun ki =>
    bind (dense qkv (o_query_bias o) (a_query P) qi) (fun query =>
    bind (dense qkv (o_key_bias o) (a_key P) ki) (fun key =>
    bind (dense qkv (o_value_bias o) (a_value P) xkv) (fun value =>
    bind (gather_dst_feat query g) (fun gq =>
    bind (gather_src_feat key g) (fun gk =>
    let rel := match basis with
               | Some bs => if o_rel_qk o
                   then Some (rel_pos_encoding (o_basis_bias o) (a_rel_kernel P) (a_rel_bias P) bs Lqk qkv)
                   else None
               | None => None end in
    let dot := fun h i => attention_dot (o_heads o) gq gk rel i h in
    let g' := with_defaults g (last1 (fB xq)) (last1 (fB xkv)) in
    bind (gather_src_feat value g) (fun gv =>
    (* errors of indexed_softmax do not depend on the entry *)
    bind (attention_weight lo hi g' cutoff (dot 0%nat) []) (fun _ =>
    let weighted := mkFeat (fB gv) (fS gv) (fD gv) (fF gv) (fdt gv) (fun i s d f =>
          get_ok (attention_weight lo hi g' cutoff (dot (f / (qkv / o_heads o))%nat) i) * fv gv i s d f) in  (* 1805-1815 *)
    bind (conv (o_max_degree o) (o_include o) (o_basis_bias o) (a_conv P) weighted
            (if o_rel_v o then basis else None) g') (fun att =>
    dense out (o_out_bias o) (a_out P) att)))))))))))).

(** [SelfAttention.__call__] (1839-1968). *)
Definition self_attention (lo hi : R) (o : attention_options) (P : attention_params)
    (x : feat) (basis : option feat) (cutoff : option (list nat -> R)) (g : graph) : result feat :=
  multi_head_attention lo hi o P x x basis cutoff g.

End WithClebschGordan.
