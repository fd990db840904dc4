(** Specification vocabulary for layers that act on graphs (C38, C39). *)
Require Import List Reals ZArith Bool.
Require Import Verif.Base Verif.RSum Verif.Features_Model Verif.Features_Spec Verif.Indexed_Model Verif.Modules_Model.
Import ListNotations.
Open Scope R_scope.

(** Matrices D0 for every structure of the batch, at the index of a node (batch ++ [n]), and at
    the index of an edge: batch ++ [n; m] in a dense list, batch ++ [e] in a sparse list. *)
Definition on_nodes (D0 : list nat -> nat -> nat -> R) : list nat -> nat -> nat -> R :=
  fun i => D0 (removelast i).
Definition on_edges (g : graph) (D0 : list nat -> nat -> nat -> R) : list nat -> nat -> nat -> R :=
  fun i => match g_adj g with Some _ => D0 (removelast (removelast i)) | None => D0 (removelast i) end.

(** Axes of an array with one entry for every edge. *)
Definition edge_axes (g : graph) : list nat :=
  match g_adj g with
  | Some a => [fst (fst a); snd (fst a)]
  | None => match g_src g with Some s => [fst s] | None => [] end
  end.

(** Shape w can be broadcast to shape t without changing t. *)
Definition fits (w t : list nat) : Prop :=
  (length w <= length t)%nat /\
  forall j, (j < length w)%nat -> nth j (rev w) 0%nat = 1%nat \/ nth j (rev w) 0%nat = nth j (rev t) 0%nat.

(** Weights for the edges of a graph that are scalars: the same factor for all components. *)
Definition scalar_weights (g : graph) (x w : feat) : Prop :=
  fS w = 1%nat /\ fD w = 1%nat /\ (fF w = 1%nat \/ fF w = fF x)
  /\ fits (fB w) (removelast (fB x) ++ edge_axes g).

(** The features of one node or one edge, without batch axes. *)
Definition item (x : feat) (i : list nat) : feat :=
  mkFeat [] (fS x) (fD x) (fF x) (fdt x) (fun _ => fv x i).

(** The message that a sender with features xs sends along an edge with basis features bs: the
    tensor product of the (linearly transformed) basis features with those of the sender. *)
Definition edge_message (clebsch_gordan : Z -> Z -> Z -> result (nat -> nat -> nat -> R)) (max_degree : option Z)
    (include use_basis_bias : bool) (P : conv_params) (xs : feat) (bs : option feat) : result feat :=
  match bs with
  | Some bs => bind (dense (fF xs) use_basis_bias (c_filter P) bs) (fun filters =>
                 any_tensor clebsch_gordan max_degree include (c_tensor P) filters xs)
  | None => Ok xs
  end.

(** Features multiplied by a factor for every feature channel. *)
Definition weighted (c : nat -> R) (x : feat) : feat :=
  mkFeat (fB x) (fS x) (fD x) (fF x) (fdt x) (fun i p d f => c f * fv x i p d f).

(** The factor of edge i for feature f: weights of shape (..., 1, 1, 1 or F) broadcast to the edges. *)
Definition edge_weight (w : option feat) (B : list nat) (F : nat) (i : list nat) (f : nat) : R :=
  match w with None => 1 | Some w => fv w (bidx (fB w) B i) 0%nat 0%nat (bix (fF w) F f) end.

(** The message along edge i (index of an edge) from the node with index j. *)
Definition message_at (clebsch_gordan : Z -> Z -> Z -> result (nat -> nat -> nat -> R)) (max_degree : option Z)
    (include use_basis_bias : bool) (P : conv_params) (x : feat) (basis w : option feat) (g : graph)
    (i j : list nat) : result feat :=
  edge_message clebsch_gordan max_degree include use_basis_bias P
    (weighted (edge_weight w (removelast (fB x) ++ edge_axes g) (fF x) i) (item x j))
    (option_map (fun bs => item bs i) basis).

(** An entry of a message. *)
Definition entry (r : result feat) (p d f : nat) : R :=
  match r with Ok m => fv m [] p d f | Err _ => 0 end.

(** Edge e of a sparse list ends in (or starts from) node n. *)
Definition at_node (idx : list Z) (e n : nat) : bool :=
  match nth_error idx e with Some v => (v =? Z.of_nat n)%Z | None => false end.

(** Entry (n, m) of a dense list is an edge: as given by [where], else if it is a node index (K nodes). *)
Definition dense_edge (g : graph) (K : nat) (b : list nat) (n m : nat) : bool :=
  match g_where g, g_adj g with
  | Some w, _ => nth m (nth n (w b) []) false
  | None, Some a => match nth_error (nth n (snd a b) []) m with Some v => (v <? Z.of_nat K)%Z | None => false end
  | None, None => false
  end.

(** Arrays of the same shape and dtype, neighbour lists of the same shapes. *)
Definition like (x x' : feat) : Prop :=
  fB x' = fB x /\ fS x' = fS x /\ fD x' = fD x /\ fF x' = fF x /\ fdt x' = fdt x.
Definition like_opt (x x' : option feat) : Prop :=
  match x, x' with Some x, Some x' => like x x' | None, None => True | _, _ => False end.
Definition same_lists (g g' : graph) : Prop :=
  option_map fst (g_adj g') = option_map fst (g_adj g) /\ option_map fst (g_dst g') = option_map fst (g_dst g)
  /\ option_map fst (g_src g') = option_map fst (g_src g) /\ g_segments g' = g_segments g
  /\ (g_where g' = None <-> g_where g = None).

(** The entries at one index. *)
Definition same_entries (x : feat) (i : list nat) (x' : feat) (i' : list nat) : Prop :=
  forall p d f, fv x' i' p d f = fv x i p d f.
Definition same_entries_opt (x : option feat) (i : list nat) (x' : option feat) (i' : list nat) : Prop :=
  match x, x' with Some x, Some x' => same_entries x i x' i' | _, _ => True end.

(** Two maps that are inverse to each other on 0..N-1. *)
Definition renumbering (N : nat) (f g : nat -> nat) : Prop :=
  forall n, (n < N)%nat -> (f n < N)%nat /\ g (f n) = n /\ (g n < N)%nat /\ f (g n) = n.

(** Edges of the structure b between existing nodes start and end in existing nodes (K nodes). *)
Definition sparse_sources (Q : nat) (dst src : list Z) (N K : nat) : Prop :=
  forall e n, (e < Q)%nat -> (n < N)%nat -> at_node dst e n = true -> exists j, (j < K)%nat /\ at_node src e j = true.
Definition dense_sources (g : graph) (adj : list (list Z)) (b : list nat) (N M K : nat) : Prop :=
  forall n m, (n < N)%nat -> (m < M)%nat -> dense_edge g K b n m = true -> exists j, (j < K)%nat /\ at_node (nth n adj []) m j = true.

(** * Attention *)

(** Score of head h for a query at index jq and a key at index jk: dot product over the features
    c = h, h + H, h + 2H, ... of the head, with a factor for each entry, scaled by the square root
    of the number of entries. *)
Definition head_score (H : nat) (q k : feat) (rel : nat -> nat -> nat -> R) (jq jk : list nat) (h : nat) : R :=
  rsum (fS q) (fun p => rsum (fD q) (fun d => rsum (fF q / H) (fun a =>
    fv q jq p d (a * H + h)%nat * fv k jk p d (a * H + h)%nat * rel p d (a * H + h)%nat)))
  / sqrt (INR (fS q * fD q * (fF q / H))).

(** The factor of the entry at parity channel p, component d, feature c: one, or an affine function of
    the scalar basis features at edge i that depends on p, the degree of d and c (n degrees, F features). *)
Definition relative_factor (o : attention_options) (P : attention_params) (basis : option feat) (n F : nat) (i : list nat) (p d c : nat) : R :=
  match basis with
  | Some bs =>
      if o_rel_qk o then
        let j := ((p * n + Nat.sqrt d) * F + c)%nat in
        rsum (fF bs) (fun a => fv bs i 0%nat 0%nat a * a_rel_kernel P a j) + (if o_basis_bias o then a_rel_bias P j else 0)
      else 1
  | None => 1
  end.

Definition cutoff_at (cutoff : option (list nat -> R)) (i : list nat) : R :=
  match cutoff with Some c => c i | None => 1 end.

(** Share of item e among the items e' < Q that are selected, with weights c and scores s. *)
Definition share (Q : nat) (selected : nat -> bool) (c s : nat -> R) (e : nat) : R :=
  c e * exp (s e) / rsum Q (fun e' => if selected e' then c e' * exp (s e') else 0).

(** Queries and keys are linear maps of the inputs, restricted to the degrees (below n) and parities that
    both inputs have; values are linear maps of the inputs; the output y is a linear map of [att]. *)
Definition attention_inputs (o : attention_options) (P : attention_params) (xq xkv : feat) (n : nat) (q k v att y : feat) : Prop :=
  let F := match o_qkv o with None => fF xq | Some F => F end in
  let both := ((fS xq =? 2)%nat && (fS xkv =? 2)%nat)%bool in
  (exists qi, change_max_degree_or_type xq (Some (Z.of_nat n - 1)%Z) (Some both) = Ok qi /\ dense F (o_query_bias o) (a_query P) qi = Ok q)
  /\ (exists ki, change_max_degree_or_type xkv (Some (Z.of_nat n - 1)%Z) (Some both) = Ok ki /\ dense F (o_key_bias o) (a_key P) ki = Ok k)
  /\ dense F (o_value_bias o) (a_value P) xkv = Ok v
  /\ dense (match o_out o with None => fF xq | Some F' => F' end) (o_out_bias o) (a_out P) att = Ok y.
