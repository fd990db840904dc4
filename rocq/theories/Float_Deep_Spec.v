(** Vocabulary for C95: where the gates of activations jump or change their formula, networks that avoid these points, and
    arrays that approach an array when the precision grows. *)
Require Import List Reals ZArith.
Require Import Verif.Base Verif.Features_Model Verif.RSum Verif.Features_Spec Verif.Modules_Model Verif.Modules_Spec Verif.Modules_Graph_Spec Verif.Network_Spec Verif.Float_Einsum_Spec Verif.Float_Network_Model Verif.Float_Network_Spec Verif.Float_Program_Model Verif.Float_Program_Spec Verif.Float_Deep_Model.
Import ListNotations.
Local Open Scope R_scope.

(** Numbers and arrays of numbers that are finite and accurate on precise machines. *)
Definition converges (t : tree number) : Prop := approaches (fun m => on m t) (exact t).
Definition converging (x : tree_feat number) : Prop := forall i s d f, converges (tfv x i s d f).

(** The exceptions of C94. *)
Definition gate_exception (eps : R) (a : activation) (u : R) : Prop :=
  match a with
  | Relu | LeakyRelu _ | Relu6 => u = 0
  | Elu _ | Selu => u = 0 \/ u = - eps
  | Celu _ => u = - eps
  | ShiftedSoftplus | BentIdentity => Rabs u = eps
  | _ => False
  end.

(** The sum of products that a dot product stands for, with or without relative positional encodings, and its orders of evaluation. *)
Definition dot_terms (position : bool) (S D per : nat) : list (list dot_operand) :=
  flat_map (fun p => flat_map (fun d => map (fun f => [QueryAt p d f; KeyAt p d f] ++ if position then [PositionAt p d f] else []) (seq 0 per)) (seq 0 D)) (seq 0 S).
Definition sound_dots (dots : dot_plan) : Prop := forall position S D per i h, evaluates (dots position S D per i h) (dot_terms position S D per).

(** Steps with allowed orders of evaluation and parameters. *)
Definition proper_step (s : step) : Prop :=
  match s with
  | Layer E c => planned (E, c)
  | Activate _ (Celu alpha) => alpha <> 0
  | Activate _ _ => True
  | Attend E dots _ _ o _ => sound_plan E /\ sound_dots dots /\ degree_ok (o_max_degree o)
  end.

Section Regular.
Variables (erf : R -> R) (eps : R) (cgf : Z -> Z -> Z -> result (nat -> nat -> nat -> R)) (lo hi : R) (basis : option feat) (cutoff : option (list nat -> R)) (g : graph).

(** The scalars of the inputs of activations, which are the arguments of the gates, avoid the exceptions.  Cutoffs in attention are not
    negative, and one of the edges with the same destination has a positive cutoff. *)
Definition regular_step (xs : list feat) (s : step) : Prop :=
  match s with
  | Layer _ _ => True
  | Activate i a => forall x, nth_error xs i = Some x -> forall b f, in_batch (fB x) b = true -> (f < fF x)%nat -> ~ gate_exception eps a (fv x b 0%nat 0%nat f)
  | Attend _ _ i j _ _ => forall x y, nth_error xs i = Some x -> nth_error xs j = Some y ->
      forall e r, row_of (but_last (fB y)) (with_defaults g (last1 (fB x)) (last1 (fB y))) e = Some r ->
      (forall k, (k < r_size r)%nat -> 0 <= cutoff_at cutoff (r_edge r k)) /\ exists k, (k < r_size r)%nat /\ r_selected r k = true /\ 0 < cutoff_at cutoff (r_edge r k)
  end.
Fixpoint regular (xs : list feat) (ss : list step) : Prop :=
  match ss with
  | [] => True
  | s :: ss => regular_step xs s /\ forall y, perform cgf lo hi basis cutoff g xs (call_of erf eps s) = Ok y -> regular (xs ++ [y]) ss
  end.
End Regular.

(** The array [t] has the shape of [y], and on precise machines its entries are finite and close to those of [y]. *)
Definition approaches_array (t : tree_feat number) (y : feat) : Prop :=
  tfB t = fB y /\ tfS t = fS y /\ tfD t = fD y /\ tfF t = fF y /\ tfdt t = fdt y /\
  forall i s d f, (s < fS y)%nat -> (d < fD y)%nat -> approaches (fun m => on m (tfv t i s d f)) (fv y i s d f).

(** On precise machines the components of [t'] are finite and close to the rotated (and reflected) components of [t]. *)
Definition rotated_on_machines (s : R) (D : nat -> nat -> R) (t t' : tree_feat number) : Prop :=
  tfB t' = tfB t /\ tfS t' = tfS t /\ tfD t' = tfD t /\ tfF t' = tfF t /\ tfdt t' = tfdt t /\
  forall i p l k f, (p < 2)%nat -> (k < 2 * l + 1)%nat -> has_slot (value t) p l -> let c := if (tfS t =? 2)%nat then p else 0%nat in
    forall error, 0 < error -> eventually (fun m => exists v v',
      (forall k', (k' < 2 * l + 1)%nat -> on m (tfv t i c (l * l + k')%nat f) = Some (v k')) /\ on m (tfv t' i c (l * l + k)%nat f) = Some v' /\
      Rabs (v' - parity_sign s p * rsum (2 * l + 1) (fun k' => v k' * D (l * l + k')%nat (l * l + k)%nat)) < error).
