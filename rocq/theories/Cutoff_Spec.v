(** Vocabulary for C74: edges that carry nothing, e.g. because the distance of two atoms exceeds the cutoff. *)
Require Import List Reals ZArith Bool Permutation.
Require Import Verif.Base Verif.Features_Model Verif.Modules_Model Verif.Modules_Graph_Spec Verif.Network_Spec Verif.Locality_Spec Verif.Rotations_Model Verif.Rotations_Spec Verif.Molecule_Spec.
Import ListNotations.
Open Scope R_scope.

(** The features at index i are zero. *)
Definition zero_at (x : feat) (i : list nat) : Prop :=
  forall p d f, (p < fS x)%nat -> (d < fD x)%nat -> (f < fF x)%nat -> fv x i p d f = 0.

(** All basis functions of edge i are zero; the cutoff is zero as well, if it is used. *)
Definition silent (attention : Prop) (s : scene) (i : list nat) : Prop :=
  match s_basis s with Some bs => zero_at bs i | None => False end /\ (attention -> cutoff_at (s_cutoff s) i = 0).

(** The incoming edges of n and n' can be matched such that R relates the matched edges, and only silent edges are left over. *)
Definition matched_active (attention : Prop) (s s' : scene) (n n' : nat) (R : list nat * nat -> list nat * nat -> Prop) : Prop :=
  exists es zs es' zs', Permutation (es ++ zs) (incoming (s_graph s) (s_nodes s) (s_at s) n) /\ Permutation (es' ++ zs') (incoming (s_graph s') (s_nodes s') (s_at s') n')
    /\ Forall2 R es es' /\ Forall (fun e => silent attention s (fst e)) zs /\ Forall (fun e => silent attention s' (fst e)) zs'.

(** Up to silent edges, everything up to k edges away looks the same. *)
Fixpoint sounds_alike (attention : Prop) (s s' : scene) (k : nat) (n n' : nat) : Prop :=
  node_alike s s' n n' /\
  match k with
  | O => True
  | S k => matched_active attention s s' n n' (fun e e' => edge_alike s s' (fst e) (fst e') /\ sounds_alike attention s s' k (snd e) (snd e'))
  end.

(** Message passing does not add a bias to the filters. *)
Definition no_basis_bias (c : call) : Prop := match c with UseMessagePass _ _ _ use_basis_bias _ => use_basis_bias = false | _ => True end.

(** The pairs of a molecule for which a cutoff function is not zero. *)
Definition within (c : R -> R) (A : molecule) : list (nat * nat) :=
  filter (fun e => if Req_EM_T (c (distance A e)) 0 then false else true) (pairs A).

(** The atoms that interact with atom n and are within the cutoff, and the vectors that point to them. *)
Definition partners (c : R -> R) (A : molecule) (n : nat) : list nat := map snd (filter (fun e => (fst e =? n)%nat) (within c A)).
Definition vector_to (A : molecule) (n m : nat) : vec := plus (position A m) (times (-1) (position A n)).

(** Seen from n and from n', the atoms within the cutoff, and those within the cutoff of these atoms, and so on for k
    steps, are of the same kind and at the same relative positions. *)
Fixpoint same_surroundings (c : R -> R) (A A' : molecule) (k n n' : nat) : Prop :=
  ((n < atoms A)%nat /\ (n' < atoms A')%nat /\ number A' n' = number A n) /\
  match k with
  | O => True
  | S k => exists ms', Permutation ms' (partners c A' n')
      /\ Forall2 (fun m m' => vector_to A' n' m' = vector_to A n m /\ same_surroundings c A A' k m m') (partners c A n) ms'
  end.

(** The pairs of a molecule that are closer than r. *)
Definition closer (r : R) (A : molecule) : list (nat * nat) := filter (fun e => if Rlt_dec (distance A e) r then true else false) (pairs A).
