(** Model of the contractions of the layers [Dense] and [Tensor] (e3x/nn/modules.py) in floating point arithmetic; see
    Float_Model for the arithmetic.

    [jnp.einsum(..., optimize='optimal')] chooses the order of contractions, and XLA the order of additions; products may be
    formed before or after sums over an index.  An evaluation of an entry of the result is an expression over the entries of
    the operands; any expression that expands to the sum of products that the einsum stands for is allowed (Float_Einsum_Spec). *)
Require Import List Reals ZArith Bool.
Require Import Verif.Base Verif.RSum Verif.Features_Model Verif.Modules_Model Verif.Float_Model.
Import ListNotations.
Open Scope R_scope.

(** [Nothing] is the zero from which a sum may start. *)
Inductive expr (V : Type) : Type := Nothing | Operand (v : V) | Sum (a b : expr V) | Product (a b : expr V).
Arguments Nothing {V}. Arguments Operand {V}. Arguments Sum {V}. Arguments Product {V}.

(** Array of floating point numbers, with the shape of a [feat]. *)
Record float_feat : Type := mkFloat { flB : list nat; flS : nat; flD : nat; flF : nat; flv : list nat -> nat -> nat -> nat -> option R }.

Section Arithmetic.
Variables (rnd : R -> R) (huge : R).

(** Operands are numbers of the format: coefficients, weights and inputs are rounded when they are stored. *)
Fixpoint float_eval {V : Type} (env : V -> R) (e : expr V) : option R :=
  match e with
  | Nothing => Some 0
  | Operand v => fl rnd huge (env v)
  | Sum a b => fbind (float_eval env a) (fun x => fbind (float_eval env b) (fun y => fadd rnd huge x y))
  | Product a b => fbind (float_eval env a) (fun x => fbind (float_eval env b) (fun y => fmul rnd huge x y))
  end.

(** * Dense (115-240): the operands of an entry of [nn.Dense] are inputs and weights by input feature, and the bias. *)
Inductive dense_operand : Type := Input (a : nat) | Weight (a : nat) | Bias.
Definition dense_env (x w : nat -> R) (b : R) (v : dense_operand) : R := match v with Input a => x a | Weight a => w a | Bias => b end.

(** Operands for entry [i, s, d, f] of the result; degree [l] has the orders [l * l] to [l * l + 2 * l]. *)
Definition dense_operands (P : dense_params) (x : feat) (i : list nat) (s d f : nat) : dense_operand -> R :=
  let l := Nat.sqrt d in
  let parity := if (fS x =? 2)%nat then s else (l mod 2)%nat in
  dense_env (fun a => fv x i s d a) (fun a => dk P l parity a f) (db P f).

(** The contraction is evaluated by [e]; the bias is added for degree 0 (and even parity) only (158-183). *)
Definition dense_expr (use_bias : bool) (s d : nat) (e : expr dense_operand) : expr dense_operand :=
  if use_bias && (Nat.sqrt d =? 0)%nat && (s =? 0)%nat then Sum e (Operand Bias) else e.

(** [Dense.__call__] (185-240): [E i s d f] evaluates the contraction of an entry. *)
Definition float_dense (features : nat) (use_bias : bool) (P : dense_params) (E : list nat -> nat -> nat -> nat -> expr dense_operand) (x : feat) : result float_feat :=
  bind (extract_max_degree_and_check_shape (shape_of x)) (fun L =>
    if (L <? 0)%Z then Err ValueError                                         (* jnp.concatenate of nothing *)
    else if ((fS x =? 2) || (fS x =? 1))%nat then
      Ok (mkFloat (fB x) (fS x) (fD x) features (fun i s d f => float_eval (dense_operands P x i s d f) (dense_expr use_bias s d (E i s d f))))
    else Err AssertionError).

(** * Tensor (332-574) *)
Inductive tensor_operand : Type := First (p l : nat) | Second (q m : nat) | Kernel (p l q m : nat) | Coefficient (l m : nat).
Definition tensor_env (x1 x2 : nat -> nat -> R) (kernel : nat -> nat -> nat -> nat -> R) (cg : nat -> nat -> R) (v : tensor_operand) : R :=
  match v with First p l => x1 p l | Second q m => x2 q m | Kernel p l q m => kernel p l q m | Coefficient l m => cg l m end.

(** Shape of the result, whether parities are mixed in one einsum, and the operands for every entry of the result. *)
Record tensor_setup : Type := mkSetup { tB : list nat; tS : nat; tD : nat; tmixed : bool; toperands : list nat -> nat -> nat -> nat -> tensor_operand -> R }.

(** [Tensor.__call__] up to the einsum (418-546).  The multiplication of the kernel by the mask of zeros and ones (541) is
    exact.  Structure as in Modules_Model. *)
Definition prepare_tensor (clebsch_gordan : Z -> Z -> Z -> result (nat -> nat -> nat -> R)) (max_degree : option Z) (include_pseudotensors : bool)
    (kernel : tensor_kernel) (x1 x2 : feat) : result tensor_setup :=
  bind (extract_max_degree_and_check_shape (shape_of x1)) (fun L1 =>
  bind (extract_max_degree_and_check_shape (shape_of x2)) (fun L2 =>
  let L3 := output_degree max_degree L1 L2 in
  if (L1 + L2 <? L3)%Z then Err ValueError
  else if negb (fF x1 =? fF x2)%nat then Err ValueError
  else
    let include := output_pseudotensors include_pseudotensors (fS x1) (fS x2) L1 L2 L3 in
    let S3 := if include then 2%nat else 1%nat in
    let n1 := Z.to_nat (L1 + 1) in let n2 := Z.to_nat (L2 + 1) in let n3 := Z.to_nat (L3 + 1) in
    let mixed := negb ((fS x1 =? 2)%nat && (fS x2 =? 2)%nat && (S3 =? 2)%nat) in
    bind (clebsch_gordan L1 L2 L3) (fun cg =>
    bind (broadcast_shapes (fB x1) (fB x2)) (fun B =>
    let masked := if mixed
      then fun p l q m r n f => kernel p l q m r n f * make_tensor_product_mask (fS x1) n1 (fS x2) n2 S3 n3 p l q m r n
      else kernel in
    let expanded := fun p l q m r n f => masked p (dup L1 l) q (dup L2 m) r (dup L3 n) f in
    Ok (mkSetup B S3 (n3 * n3) mixed (fun i r n f =>
      tensor_env (fun p l => fv x1 (bidx (fB x1) B i) p l f) (fun q m => fv x2 (bidx (fB x2) B i) q m f)
        (fun p l q m => expanded p l q m r n f) (fun l m => cg l m n))))))).

(** [E] evaluates the einsum for every entry of the result (549); if all parities are separated, there are two einsums for
    each entry, evaluated by [E] and [E'], and their results are added (557-577). *)
Definition tensor_expr (mixed : bool) (E E' : list nat -> nat -> nat -> nat -> expr tensor_operand) (i : list nat) (r n f : nat) : expr tensor_operand :=
  if mixed then E i r n f else Sum (E i r n f) (E' i r n f).

(** [Tensor.__call__] (418-577). *)
Definition float_tensor (clebsch_gordan : Z -> Z -> Z -> result (nat -> nat -> nat -> R)) (max_degree : option Z) (include_pseudotensors : bool)
    (kernel : tensor_kernel) (E E' : list nat -> nat -> nat -> nat -> expr tensor_operand) (x1 x2 : feat) : result float_feat :=
  bind (prepare_tensor clebsch_gordan max_degree include_pseudotensors kernel x1 x2) (fun t =>
  Ok (mkFloat (tB t) (tS t) (tD t) (fF x1) (fun i r n f => float_eval (toperands t i r n f) (tensor_expr (tmixed t) E E' i r n f)))).
End Arithmetic.
