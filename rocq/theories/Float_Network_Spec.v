(** Vocabulary for C92: allowed plans, and networks of layers that only add and multiply. *)
Require Import List Reals ZArith.
Require Import Verif.Features_Model Verif.RSum Verif.Features_Spec Verif.Modules_Model Verif.Modules_Spec Verif.Network_Spec Verif.Float_Einsum_Model Verif.Float_Einsum_Spec Verif.Float_Network_Model.
Import ListNotations.
Open Scope R_scope.

(** The sums of products that the einsums of FusedTensor stand for, and a plain sum. *)
Definition matrix_terms (n : nat) : list (list matrix_operand) := map (fun k => [MInput k; MWeight k; MCoefficient k]) (seq 0 n).
Definition couple_terms (w : nat) : list (list couple_operand) := map (fun m => [CLeft m; CRight m]) (seq 0 w).
Definition vector_terms (w : nat) : list (list vector_operand) := flat_map (fun l => map (fun m => [VCell l m; VWeight; VCoefficient l m]) (seq 0 w)) (seq 0 w).
Definition plain_terms (n : nat) : list (list nat) := map (fun k => [k]) (seq 0 n).

(** Every entry is evaluated in some order of the contractions, products and additions. *)
Definition sound_plan (E : plan) : Prop :=
  (forall F i s d f, evaluates (p_dense E F i s d f) (dense_terms F)) /\
  (forall mixed S1 D1 S2 D2 i r n f, evaluates (p_first E mixed S1 D1 S2 D2 i r n f) (first_terms mixed S1 D1 S2 D2 r)) /\
  (forall D1 D2 i r n f, evaluates (p_second E D1 D2 i r n f) (second_terms D1 D2 r)) /\
  (forall q n i l m f, evaluates (p_matrix E q n i l m f) (matrix_terms n)) /\
  (forall q w i l n f, evaluates (p_couple E q w i l n f) (couple_terms w)) /\
  (forall q w i n f, evaluates (p_vector E q w i n f) (vector_terms w)) /\
  (forall n i s d f, evaluates (p_sum E n i s d f) (plain_terms n)).

(** Layers that only add and multiply. *)
Definition polynomial (c : call) : Prop := match c with UseAttention _ _ _ _ | UseActivation _ _ => False | _ => True end.

(** The numbers [t] computed for the array [y]: same shape, and every entry whose computation is in range is finite and has the
    error of its evaluation. *)
Definition close_array (u tiny huge : R) (rnd : R -> R) (t : tree_feat R) (y : feat) : Prop :=
  tfB t = fB y /\ tfS t = fS y /\ tfD t = fD y /\ tfF t = fF y /\ tfdt t = fdt y /\
  forall i s d f, (s < fS y)%nat -> (d < fD y)%nat -> in_range u tiny huge (fun r => r) (tfv t i s d f) ->
    exists v, computed rnd huge (tfv t i s d f) = Some v /\ Rabs (v - fv y i s d f) <= evaluation_error u tiny (fun r => r) (tfv t i s d f).

(** The numbers [t] and [t'] computed for two arrays that are rotated (and reflected) copies: components whose computations are in
    range are rotated copies up to the errors of their evaluations. *)
Definition rotated_numbers (u tiny huge : R) (rnd : R -> R) (s : R) (D : nat -> nat -> R) (t t' : tree_feat R) : Prop :=
  tfB t' = tfB t /\ tfS t' = tfS t /\ tfD t' = tfD t /\ tfF t' = tfF t /\ tfdt t' = tfdt t /\
  forall i p l k f, (p < 2)%nat -> (k < 2 * l + 1)%nat -> has_slot (value t) p l -> let c := if (tfS t =? 2)%nat then p else 0%nat in
    let e k := tfv t i c (l * l + k)%nat f in let e' := tfv t' i c (l * l + k)%nat f in
    (forall k', (k' < 2 * l + 1)%nat -> in_range u tiny huge (fun r => r) (e k')) -> in_range u tiny huge (fun r => r) e' ->
    exists v v', (forall k', (k' < 2 * l + 1)%nat -> computed rnd huge (e k') = Some (v k')) /\ computed rnd huge e' = Some v' /\
      Rabs (v' - parity_sign s p * rsum (2 * l + 1) (fun k' => v k' * D (l * l + k')%nat (l * l + k)%nat))
      <= evaluation_error u tiny (fun r => r) e' + rsum (2 * l + 1) (fun k' => Rabs (D (l * l + k')%nat (l * l + k)%nat) * evaluation_error u tiny (fun r => r) (e k')).

(** Basis functions of the edges are features. *)
Definition edge_basis {V : Type} {LV : leaves V} (basis : option (tree_feat V)) : Prop := forall bs, basis = Some bs -> (0 < tfD bs)%nat /\ well_formed (value bs).
(** Calls with allowed plans. *)
Definition planned (c : plan * call) : Prop := sound_plan (fst c) /\ proper_call (snd c) /\ polynomial (snd c).
