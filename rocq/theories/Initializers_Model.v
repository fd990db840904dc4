(** Model of e3x/nn/initializers.py and of the masks and variances that FusedTensor passes to its
    initializers (nn/modules.py 845-915).  Random numbers of the standard distributions are
    arguments; numbers are real (complex dtypes are not modelled). *)
Require Import List Reals ZArith Bool.
Require Import Verif.Base.
Import ListNotations.
Open Scope R_scope.

(** [_parity_degree_index_parity_list] (42-69): tuples (parity index, degree, parity). *)
Definition parity_degree_index_parity_list (num_parity num_degree : nat) : result (list (nat * nat * nat)) :=
  if (num_parity =? 2)%nat
  then Ok (map (fun l => (0, l, 0)%nat) (seq 0 num_degree) ++ map (fun l => (1, l, 1)%nat) (seq 0 num_degree))
  else if (num_parity =? 1)%nat then Ok (map (fun l => (0, l, l mod 2)%nat) (seq 0 num_degree))
  else Err ValueError.

(** Arrays fan_in (indexed p3, l3), fan_out (p1, l1, p2, l2) and mask; axes of size 1 and the
    feature axis, along which everything is constant, are left out. *)
Record fans : Type := mkFans {
  fan_in : nat -> nat -> nat;
  fan_out : nat -> nat -> nat -> nat -> nat;
  path_mask : nat -> nat -> nat -> nat -> nat -> nat -> bool }.

(** Body of the loop (124-134). *)
Definition fans_step (s : fans) (t : (nat * nat * nat) * ((nat * nat * nat) * (nat * nat * nat))) : fans :=
  let '((p1, l1, d1), ((p2, l2, d2), (p3, l3, d3))) := t in
  if negb ((d1 + d2) mod 2 =? d3)%nat
     || negb ((Z.abs (Z.of_nat l1 - Z.of_nat l2) <=? Z.of_nat l3) && (Z.of_nat l3 <=? Z.of_nat l1 + Z.of_nat l2))%Z
  then mkFans (fan_in s) (fan_out s) (fun a b c d e f =>
         if (a =? p1)%nat && (b =? l1)%nat && (c =? p2)%nat && (d =? l2)%nat && (e =? p3)%nat && (f =? l3)%nat
         then false else path_mask s a b c d e f)
  else mkFans (fun e f => if (e =? p3)%nat && (f =? l3)%nat then S (fan_in s e f) else fan_in s e f)
         (fun a b c d => if (a =? p1)%nat && (b =? l1)%nat && (c =? p2)%nat && (d =? l2)%nat
                         then S (fan_out s a b c d) else fan_out s a b c d)
         (path_mask s).

(** [_compute_tensor_fans_and_mask] (72-136). *)
Definition compute_tensor_fans_and_mask (shape : list nat) : result fans :=
  match shape with
  | [S1; n1; S2; n2; S3; n3; _] =>
      bind (parity_degree_index_parity_list S1 n1) (fun c1 =>
      bind (parity_degree_index_parity_list S2 n2) (fun c2 =>
      bind (parity_degree_index_parity_list S3 n3) (fun c3 =>
      Ok (fold_left fans_step (list_prod c1 (list_prod c2 c3))
            (mkFans (fun _ _ => 0%nat) (fun _ _ _ _ => 0%nat) (fun _ _ _ _ _ _ => true))))))
  | _ => Err ValueError
  end.

(** Strings; [Other] is any invalid one. *)
Inductive distribution : Type := TruncatedNormal | Normal | Uniform | OtherDistribution.
Inductive mode : Type := FanIn | FanOut | FanAvg | OtherMode.

(** [_random_array] (144-205), one entry with given variance; [draw] is the entry of the array
    of standard random numbers: normal truncated to (-2, 2), normal, or uniform on [-1, 1). *)
Definition random_array (dist : distribution) (variance draw : R) : result R :=
  match dist with
  | TruncatedNormal => Ok (sqrt variance / 0.87962566103423978 * draw)
  | Normal => Ok (sqrt variance * draw)
  | Uniform => Ok (sqrt (3 * variance) * draw)
  | OtherDistribution => Err ValueError
  end.

(** [tensor_variance_scaling] (223-285): entry (p1, l1, p2, l2, p3, l3, f) of the new kernel. *)
Definition tensor_variance_scaling (scale : R) (m : mode) (dist : distribution)
    (shape : list nat) (draw : nat -> nat -> nat -> nat -> nat -> nat -> nat -> R)
    (p1 l1 p2 l2 p3 l3 f : nat) : result R :=
  bind (compute_tensor_fans_and_mask shape) (fun s =>
  bind (match m with
        | FanIn => Ok (INR (fan_in s p3 l3))
        | FanOut => Ok (INR (fan_out s p1 l1 p2 l2))
        | FanAvg => Ok ((INR (fan_in s p3 l3) + INR (fan_out s p1 l1 p2 l2)) / 2)
        | OtherMode => Err ValueError
        end) (fun denominator =>
  let denominator := if Rlt_dec 0 denominator then denominator else 1 in
  bind (random_array dist (scale / denominator) (draw p1 l1 p2 l2 p3 l3 f)) (fun v =>
  Ok (if path_mask s p1 l1 p2 l2 p3 l3 then v else 0)))).

(** The named initializers (288-397). *)
Definition tensor_glorot_uniform := tensor_variance_scaling 1 FanAvg Uniform.
Definition tensor_glorot_normal := tensor_variance_scaling 1 FanAvg TruncatedNormal.
Definition tensor_lecun_uniform := tensor_variance_scaling 1 FanIn Uniform.
Definition tensor_lecun_normal := tensor_variance_scaling 1 FanIn TruncatedNormal.
Definition tensor_he_uniform := tensor_variance_scaling 2 FanIn Uniform.
Definition tensor_he_normal := tensor_variance_scaling 2 FanIn TruncatedNormal.

(** [_fused_tensor_init] (400-423), entry (l, f); the mask and the scale do not depend on f. *)
Definition fused_tensor_init (dist : distribution) (scale : nat -> R) (mask : nat -> bool)
    (draw : nat -> nat -> R) (l f : nat) : result R :=
  bind (random_array dist (scale l) (draw l f)) (fun v => Ok (if mask l then v else 0)).

(** [fused_tensor_normal], [fused_tensor_uniform] (439-478). *)
Definition fused_tensor_normal := fused_tensor_init TruncatedNormal.
Definition fused_tensor_uniform := fused_tensor_init Uniform.

(** Masks of the parameters of FusedTensor (modules.py 845-853): factors of even and odd parity... *)
Definition fused_mask_even (num_parity l : nat) : bool :=
  if (num_parity =? 2)%nat then true else ((l + 1) mod 2 =? 1)%nat.
Definition fused_mask_odd (num_parity l : nat) : bool :=
  if (num_parity =? 2)%nat then true else (l mod 2 =? 1)%nat.
(** ... and results of odd parity. *)
Definition fused_mask_result (num_parity1 num_parity2 l : nat) : bool :=
  if (num_parity1 =? 1)%nat && (num_parity2 =? 1)%nat then negb (l =? 0)%nat else true.
