(** Vocabulary for C70: what the neighbourhood of a node looks like to a network. *)
Require Import List Reals ZArith Bool Permutation.
Require Import Verif.Base Verif.Features_Model Verif.Modules_Model Verif.Modules_Graph_Spec Verif.Network_Spec.
Import ListNotations.
Open Scope R_scope.

(** The edges that end in node n of structure b, in a list of either format: for each edge its index in
    arrays with one entry for every edge, and the node where it starts.  N is the number of nodes. *)
Definition incoming (g : graph) (N : nat) (b : list nat) (n : nat) : list (list nat * nat) :=
  match g_adj g with
  | Some (_, M, adj) => map (fun m => (b ++ [n; m], Z.to_nat (nth m (nth n (adj b) []) 0%Z))) (filter (dense_edge g N b n) (seq 0 M))
  | None =>
      match g_dst g, g_src g with
      | Some (Q, dst), Some (_, src) => map (fun e => (b ++ [e], Z.to_nat (nth e (src b) 0%Z))) (filter (fun e => at_node (dst b) e n) (seq 0 Q))
      | _, _ => []
      end
  end.

(** Edges that end in a node start from a node, for a graph with N nodes. *)
Definition good_graph (g : graph) (N : nat) (b : list nat) : Prop :=
  match g_adj g with
  | Some (K, M, adj) => K = N /\ dense_sources g (adj b) b N M N
  | None =>
      match g_dst g, g_src g with
      | Some (Q, dst), Some (_, src) => length (dst b) = Q /\ sparse_sources Q (dst b) (src b) N N
      | _, _ => False
      end /\ match g_segments g with Some K => K = N | None => True end
  end.

(** Cutoffs are not negative, and a node with edges has one with a positive cutoff. *)
Definition good_cutoffs (g : graph) (cutoff : option (list nat -> R)) (N : nat) (b : list nat) : Prop :=
  (forall i, 0 <= cutoff_at cutoff i)
  /\ forall n, (n < N)%nat -> incoming g N b n <> [] -> Exists (fun e => 0 < cutoff_at cutoff (fst e)) (incoming g N b n).

(** Entry i of x and entry i' of x' are features of the same kind with the same values. *)
Definition alike (x : feat) (i : list nat) (x' : feat) (i' : list nat) : Prop :=
  fS x' = fS x /\ fD x' = fD x /\ fF x' = fF x /\ fdt x' = fdt x
  /\ forall p d f, (p < fS x)%nat -> (d < fD x)%nat -> fv x' i' p d f = fv x i p d f.

(** Node features, basis functions and cutoffs of the edges, and a graph with N nodes. *)
Record scene : Type := mkScene { s_inputs : list feat; s_basis : option feat; s_cutoff : option (list nat -> R); s_graph : graph; s_nodes : nat; s_at : list nat }.

Definition node_alike (s s' : scene) (n n' : nat) : Prop :=
  (n < s_nodes s)%nat /\ (n' < s_nodes s')%nat
  /\ Forall2 (fun x x' => alike x (s_at s ++ [n]) x' (s_at s' ++ [n'])) (s_inputs s) (s_inputs s').

Definition edge_alike (s s' : scene) (i i' : list nat) : Prop :=
  match s_basis s, s_basis s' with Some x, Some x' => alike x i x' i' | None, None => True | _, _ => False end
  /\ cutoff_at (s_cutoff s') i' = cutoff_at (s_cutoff s) i.

(** The incoming edges of n and n' can be matched such that R relates the matched edges. *)
Definition matched (s s' : scene) (n n' : nat) (R : list nat * nat -> list nat * nat -> Prop) : Prop :=
  exists es', Permutation es' (incoming (s_graph s') (s_nodes s') (s_at s') n')
    /\ Forall2 R (incoming (s_graph s) (s_nodes s) (s_at s) n) es'.

(** Seen from n and from n', everything up to k edges away looks the same: the features of the node,
    and along matched incoming edges the edges and what their start looks like up to k - 1 edges away. *)
Fixpoint looks_alike (s s' : scene) (k : nat) (n n' : nat) : Prop :=
  node_alike s s' n n' /\
  match k with
  | O => True
  | S k => matched s s' n n' (fun e e' => edge_alike s s' (fst e) (fst e') /\ looks_alike s s' k (snd e) (snd e'))
  end.

(** The number of calls that move information along edges. *)
Definition depth (cs : list call) : nat :=
  length (filter (fun c => match c with UseMessagePass _ _ _ _ _ | UseAttention _ _ _ _ => true | _ => false end) cs).
Definition has_attention (cs : list call) : Prop := exists i j o P, In (UseAttention i j o P) cs.

(** All inputs are node features, with one entry for each of the nodes; the basis functions have scalars. *)
Definition node_arrays (s : scene) : Prop :=
  (exists B, Forall (fun x => has_scalars x /\ fB x = B ++ [s_nodes s]) (s_inputs s))
  /\ forall bs, s_basis s = Some bs -> has_scalars bs.

(** The basis functions of both scenes have the same degrees, parities, number and type. *)
Definition same_kind (s s' : scene) : Prop :=
  match s_basis s, s_basis s' with
  | Some x, Some x' => fS x' = fS x /\ fD x' = fD x /\ fF x' = fF x /\ fdt x' = fdt x
  | None, None => True
  | _, _ => False
  end.

(** h takes every node of s to a node of s' with the same features and matching incoming edges. *)
Definition carries (s s' : scene) (h : nat -> nat) : Prop :=
  forall n, (n < s_nodes s)%nat ->
    node_alike s s' n (h n) /\ matched s s' n (h n) (fun e e' => edge_alike s s' (fst e) (fst e') /\ snd e' = h (snd e)).

(** m can be reached from n by going against at most k edges. *)
Inductive reaches (s : scene) (n : nat) : nat -> nat -> Prop :=
| reaches_self : forall k, reaches s n k n
| reaches_step : forall k m e, reaches s n k m -> In e (incoming (s_graph s) (s_nodes s) (s_at s) m) -> reaches s n (S k) (snd e).

(** Sparse neighbour lists without batch axes: edge e goes from [nth e src] to [nth e dst]. *)
Definition sparse_graph (dst src : list nat) : graph :=
  mkGraph None None (Some (length dst, fun _ => map Z.of_nat dst)) (Some (length src, fun _ => map Z.of_nat src)) None.

(** Two arrays one after the other along the last of the batch axes, with N and N' entries. *)
Definition join (N N' : nat) (x x' : feat) : feat :=
  mkFeat [(N + N')%nat] (fS x) (fD x) (fF x) (fdt x)
    (fun i p d f => match i with [n] => if (n <? N)%nat then fv x [n] p d f else fv x' [(n - N)%nat] p d f | _ => 0 end).
Definition join_cutoffs (Q : nat) (c c' : list nat -> R) : list nat -> R :=
  fun i => match i with [e] => if (e <? Q)%nat then c [e] else c' [(e - Q)%nat] | _ => 0 end.

(** Two molecules as one: the nodes and edges of the second one come after those of the first. *)
Definition join_scenes (dst src dst' src' : list nat) (s s' : scene) : scene :=
  let N := s_nodes s in
  mkScene (map (fun p => join N (s_nodes s') (fst p) (snd p)) (combine (s_inputs s) (s_inputs s')))
    (match s_basis s, s_basis s' with Some x, Some x' => Some (join (length dst) (length dst') x x') | _, _ => None end)
    (match s_cutoff s, s_cutoff s' with Some c, Some c' => Some (join_cutoffs (length dst) c c') | _, _ => None end)
    (sparse_graph (dst ++ map (Nat.add N) dst') (src ++ map (Nat.add N) src')) (N + s_nodes s') [].

(** Structure b of a batch, with all arrays and lists that belong to it. *)
Definition graph_at (b : list nat) (g : graph) : graph :=
  mkGraph (match g_adj g with Some (K, M, adj) => Some (K, M, fun _ => adj b) | None => None end)
    (match g_where g with Some w => Some (fun _ => w b) | None => None end)
    (match g_dst g with Some (Q, dst) => Some (Q, fun _ => dst b) | None => None end)
    (match g_src g with Some (Q, src) => Some (Q, fun _ => src b) | None => None end)
    (g_segments g).
Definition feat_at (b : list nat) (x : feat) : feat :=
  mkFeat (skipn (length b) (fB x)) (fS x) (fD x) (fF x) (fdt x) (fun i => fv x (b ++ i)).
Definition structure_at (s : scene) : scene :=
  let b := s_at s in
  mkScene (map (feat_at b) (s_inputs s)) (option_map (feat_at b) (s_basis s)) (option_map (fun c i => c (b ++ i)) (s_cutoff s))
    (graph_at b (s_graph s)) (s_nodes s) [].
