(** Model of the dtypes of the arrays that the layers of e3x/nn/modules.py (and [add] and [change_max_degree_or_type] of
    e3x/nn/features.py) return.  Values and shapes are not modelled here (see Modules_Model and Network_Spec); the parts of
    the shapes on which the code that is executed depends are arguments.  No proofs here.

    The type promotion of jax (jax.numpy.promote_types), restricted to the real floating point dtypes, and that of flax
    ([flax.linen.dtypes.promote_dtype], [flax.linen.Dense]) are modelled from their documentation.  Arrays of integers and
    booleans (indices, the masks of FusedTensor) and Python scalars do not change the dtype of a floating point array. *)
Require Import List Bool Arith.
Require Import Verif.Base.
Import ListNotations.

Inductive dtype : Type := bfloat16 | float16 | float32 | float64.

Definition dtype_eqb (a b : dtype) : bool :=
  match a, b with
  | bfloat16, bfloat16 | float16, float16 | float32, float32 | float64, float64 => true
  | _, _ => false
  end.

(** jax: without jax_enable_x64, float64 is replaced by float32 in every array that is created. *)
Definition canonical (x64 : bool) (d : dtype) : dtype :=
  match d with float64 => if x64 then float64 else float32 | _ => d end.

(** jax.numpy.promote_types. *)
Definition promote (a b : dtype) : dtype :=
  match a, b with
  | bfloat16, bfloat16 => bfloat16
  | float16, float16 => float16
  | float64, _ | _, float64 => float64
  | _, _ => float32
  end.

(** jax.numpy.result_type of one or more arrays: of operands of an operation, of arrays that are stacked. *)
Definition result_type (a : dtype) (l : list dtype) : dtype := fold_left promote l a.

(** flax.linen.dtypes.promote_dtype: the dtype to which all given arrays are converted, [dtype] if it is given. *)
Definition promote_dtype (x64 : bool) (dtype : option dtype) (a : Dtype_Model.dtype) (l : list Dtype_Model.dtype) : Dtype_Model.dtype :=
  match dtype with Some d => canonical x64 d | None => result_type a l end.

(** The attributes [dtype] (default None) and [param_dtype] (default float32) of a layer, and its parameters
    ([self.param(..., self.param_dtype)]). *)
Record settings : Type := mkSettings { s_dtype : option dtype; s_param_dtype : dtype }.
Definition parameter (x64 : bool) (s : settings) : dtype := canonical x64 (s_param_dtype s).

(** [so3.clebsch_gordan] (e3x/so3/irreps.py:256 and 308): jnp.asarray of an array of float64 from the tables. *)
Definition coefficients (x64 : bool) : dtype := canonical x64 float64.

(** Embed (modules.py:82-109). *)
Definition embed_dtype (x64 : bool) (s : settings) : dtype := promote_dtype x64 (s_dtype s) (parameter x64 s) [].

(** flax.linen.Dense: inputs, kernel and bias (if any) are promoted, the product of inputs and kernel is computed and the
    bias is added. *)
Definition flax_dense_dtype (x64 : bool) (s : settings) (use_bias : bool) (x : dtype) : dtype :=
  let p := promote_dtype x64 (s_dtype s) x (parameter x64 s :: if use_bias then [parameter x64 s] else []) in
  if use_bias then promote (promote p p) p else promote p p.

(** Dense (modules.py:160-229): one flax layer for every degree, a bias only for degree 0 and even parity; the results are
    concatenated, and stacked if there are pseudotensors. *)
Definition dense_dtype (x64 : bool) (s : settings) (use_bias pseudotensors : bool) (max_degree : nat) (x : dtype) : dtype :=
  let degrees bias := result_type (flax_dense_dtype x64 s bias x) (map (fun l => flax_dense_dtype x64 s (bias && (l =? 0)%nat) x) (seq 1 max_degree)) in
  if pseudotensors then result_type (degrees use_bias) [degrees false] else degrees use_bias.

(** _make_tensor_product_mask (modules.py:263-314): its argument dtype is jnp.float32 by default, and it is not given. *)
Definition mask_dtype (x64 : bool) : dtype := canonical x64 float32.

(** Tensor (modules.py:498-577): the kernel is promoted to [dtype], the inputs are not. *)
Definition tensor_dtype (x64 : bool) (s : settings) (pseudotensors1 pseudotensors2 pseudotensors3 : bool) (x1 x2 : dtype) : dtype :=
  let kernel := promote_dtype x64 (s_dtype s) (parameter x64 s) [] in
  let cg := coefficients x64 in
  let mixed := negb (pseudotensors1 && pseudotensors2 && pseudotensors3) in
  let kernel := if mixed then promote kernel (mask_dtype x64) else kernel in
  if mixed then result_type x1 [x2; kernel; cg]
  else
    let slice := result_type x1 [x2; kernel; cg] in
    let even := promote slice slice in
    let odd := promote slice slice in
    result_type even [odd].

(** FusedTensor (modules.py:835-1062): the kernels are promoted together, the inputs are not; the masks are integers. *)
Definition fused_dtype (x64 : bool) (s : settings) (pseudotensors3 : bool) (x1 x2 : dtype) : dtype :=
  let p := parameter x64 s in
  let kernel := promote_dtype x64 (s_dtype s) p [p; p; p; p; p; p; p] in
  let cg := coefficients x64 in
  let to_matrix x := result_type x [kernel; cg] in
  let couple a b := promote a b in
  let to_vector x := result_type x [kernel; cg] in
  let e1 := to_matrix x1 in let o1 := to_matrix x1 in
  let e2 := to_matrix x2 in let o2 := to_matrix x2 in
  let eee := to_vector (couple e1 e2) in let ooe := to_vector (couple o1 o2) in
  let eoo := to_vector (couple e1 o2) in let oeo := to_vector (couple o1 e2) in
  let e3 := promote eee ooe in
  let o3 := promote eoo oeo in
  if pseudotensors3 then result_type e3 [o3] else promote e3 o3.

(** What is executed depends on whether inputs and outputs have pseudotensors, and on max_degree of the input of Dense. *)
Record layout : Type := mkLayout { g_degree : nat; g_pseudo1 : bool; g_pseudo2 : bool; g_pseudo3 : bool }.

(** _create_tensor (modules.py:1065-1091). *)
Definition any_tensor_dtype (x64 : bool) (s : settings) (fused : bool) (g : layout) (x1 x2 : dtype) : dtype :=
  if fused then fused_dtype x64 s (g_pseudo3 g) x1 x2
  else tensor_dtype x64 s (g_pseudo1 g) (g_pseudo2 g) (g_pseudo3 g) x1 x2.

(** TensorDense (modules.py:1178-1209). *)
Definition tensor_dense_dtype (x64 : bool) (s : settings) (use_bias fused : bool) (g : layout) (x : dtype) : dtype :=
  let y := dense_dtype x64 s use_bias (g_pseudo1 g) (g_degree g) x in
  any_tensor_dtype x64 s fused (mkLayout (g_degree g) (g_pseudo1 g) (g_pseudo1 g) (g_pseudo3 g)) y y.

(** _Conv (modules.py:1310-1351); indexed_sum keeps the dtype.  The degree of the layout is that of the basis. *)
Definition conv_dtype (x64 : bool) (s : settings) (use_basis_bias fused : bool) (g : layout) (x : dtype) (basis : option dtype) : dtype :=
  match basis with
  | Some b => any_tensor_dtype x64 s fused g (dense_dtype x64 s use_basis_bias (g_pseudo1 g) (g_degree g) b) x
  | None => x
  end.

(** MessagePass (modules.py:1461-1489). *)
Definition message_pass_dtype (x64 : bool) (s : settings) (use_basis_bias fused : bool) (g : layout) (x basis : dtype) (weights : option dtype) : dtype :=
  let gathered := match weights with Some w => promote x w | None => x end in
  conv_dtype x64 s use_basis_bias fused g gathered (Some basis).

(** indexed_softmax (e3x/ops/indexed.py:794-815): exp(inputs - maximum), times the mask if there is one, over its sum. *)
Definition softmax_dtype (x : dtype) (mask : option dtype) : dtype :=
  let numerator := match mask with Some m => promote (promote x x) m | None => promote x x end in
  promote numerator numerator.

(** MultiHeadAttention (modules.py:1632-1836).  TypeError without a basis if one is needed; [query /= ...astype(query.dtype)]
    keeps the dtype; the degrees and pseudotensors of the five applications of Dense are those of [g] (the result does not
    depend on them, see Dtype_Props). *)
Definition attention_dtype (x64 : bool) (s : settings) (query_bias key_bias value_bias basis_bias output_bias encode_qk encode_v fused : bool)
    (g : layout) (q kv : dtype) (basis cutoff : option dtype) : result dtype :=
  if (encode_qk || encode_v) && match basis with None => true | _ => false end then Err TypeError
  else
    let dense bias x := dense_dtype x64 s bias (g_pseudo1 g) (g_degree g) x in
    let query := dense query_bias q in
    let key := dense key_bias kv in
    let value := dense value_bias kv in
    let query := promote query query in
    let dot :=
      match encode_qk, basis with
      | true, Some b => result_type query [key; flax_dense_dtype x64 s basis_bias b]
      | _, _ => promote query key
      end in
    let weight := softmax_dtype dot cutoff in
    let attention := conv_dtype x64 s basis_bias fused g (promote weight value) (if encode_v then basis else None) in
    Ok (dense output_bias attention).

(** change_max_degree_or_type (features.py:164-254): slices, zeros_like and pads keep the dtype. *)
Definition change_dtype (x : dtype) : dtype := x.

(** add (features.py:291-338): IndexError without inputs, ValueError if the dtypes differ. *)
Definition add_dtype (l : list dtype) : result dtype :=
  match l with
  | [] => Err IndexError
  | d :: _ => if forallb (fun x => dtype_eqb x d) l then Ok (fold_left (fun y x => promote y (change_dtype x)) l d) else Err ValueError
  end.

(** A program of calls; every call reads arrays by their position in the list of arrays so far and appends its result. *)
Inductive call : Type :=
| CEmbed (s : settings)
| CDense (s : settings) (use_bias : bool) (g : layout) (i : nat)
| CTensor (s : settings) (fused : bool) (g : layout) (i j : nat)
| CTensorDense (s : settings) (use_bias fused : bool) (g : layout) (i : nat)
| CMessagePass (s : settings) (basis_bias fused : bool) (g : layout) (i basis : nat) (weights : option nat)
| CAttention (s : settings) (query_bias key_bias value_bias basis_bias output_bias encode_qk encode_v fused : bool) (g : layout) (q kv : nat) (basis cutoff : option nat)
| CChange (i : nat)
| CAdd (l : list nat).

(** A name that is not defined (NameError) is not distinguished from an index that is out of range. *)
Definition look (env : list dtype) (i : nat) : result dtype :=
  match nth_error env i with Some d => Ok d | None => Err IndexError end.
Definition look_opt (env : list dtype) (i : option nat) : result (option dtype) :=
  match i with Some i => rmap Some (look env i) | None => Ok None end.
Fixpoint look_all (env : list dtype) (l : list nat) : result (list dtype) :=
  match l with [] => Ok [] | i :: t => bind (look env i) (fun d => rmap (cons d) (look_all env t)) end.

Definition perform (x64 : bool) (env : list dtype) (c : call) : result dtype :=
  match c with
  | CEmbed s => Ok (embed_dtype x64 s)
  | CDense s b g i => rmap (dense_dtype x64 s b (g_pseudo1 g) (g_degree g)) (look env i)
  | CTensor s f g i j => bind (look env i) (fun x => rmap (any_tensor_dtype x64 s f g x) (look env j))
  | CTensorDense s b f g i => rmap (tensor_dense_dtype x64 s b f g) (look env i)
  | CMessagePass s b f g i j w =>
      bind (look env i) (fun x => bind (look env j) (fun y => rmap (message_pass_dtype x64 s b f g x y) (look_opt env w)))
  | CAttention s b1 b2 b3 b4 b5 e1 e2 f g q k b c =>
      bind (look env q) (fun q => bind (look env k) (fun k => bind (look_opt env b) (fun b => bind (look_opt env c) (fun c =>
        attention_dtype x64 s b1 b2 b3 b4 b5 e1 e2 f g q k b c))))
  | CChange i => rmap change_dtype (look env i)
  | CAdd l => bind (look_all env l) add_dtype
  end.

Fixpoint run (x64 : bool) (env : list dtype) (program : list call) : result (list dtype) :=
  match program with
  | [] => Ok env
  | c :: t => bind (perform x64 env c) (fun d => run x64 (env ++ [d]) t)
  end.
