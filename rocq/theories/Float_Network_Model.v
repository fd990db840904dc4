(** Model of networks (programs of layer calls, see Network_Spec) in floating point arithmetic: every entry of every array is
    the result of a tree of additions and multiplications that starts from the inputs, weights and coefficients.  See
    Float_Einsum_Model for the trees of a single layer; here the results of a layer are operands of the next one.

    Modelled: [Dense], [Tensor], [FusedTensor], [TensorDense], [MessagePass] (e3x/nn/modules.py), [change_max_degree_or_type]
    and [add] (e3x/nn/features.py).  Not modelled: activations and attention, which use division and exp.  Shapes, dtypes and
    exceptions do not depend on the numbers: they are those of the models without rounding. *)
Require Import List Reals ZArith Bool.
Require Import Verif.Base Verif.RSum Verif.Features_Model Verif.Indexed_Model Verif.Modules_Model Verif.Float_Model Verif.Float_Einsum_Model Verif.Network_Spec.
Import ListNotations.
Open Scope R_scope.

(** What computations start from.  In this file and in C92 these are real numbers; in C95 they may also be results of other
    computations (Float_Deep_Model).  [stored] is a number that is known before the network runs, [ideal] the value without
    rounding. *)
Class leaves (V : Type) : Type := Leaves { stored : R -> V; ideal : V -> R; ideal_stored : forall r, ideal (stored r) = r }.
#[global] Instance real_leaves : leaves R := Leaves R (fun r => r) (fun r => r) (fun r => eq_refl).

(** A computation, and an array of them with the shape of a [feat]. *)
Definition tree (V : Type) : Type := expr V.
Record tree_feat (V : Type) : Type := mkTree { tfB : list nat; tfS : nat; tfD : nat; tfF : nat; tfdt : nat; tfv : list nat -> nat -> nat -> nat -> tree V }.
Arguments mkTree {V}. Arguments tfB {V}. Arguments tfS {V}. Arguments tfD {V}. Arguments tfF {V}. Arguments tfdt {V}. Arguments tfv {V}.

(** With rounding every number that is stored and every operation is rounded; [None] if one of them overflows. *)
Definition computed (rnd : R -> R) (huge : R) (t : tree R) : option R := float_eval rnd huge (fun r => r) t.

Section Trees.
Context {V : Type} {LV : leaves V}.

(** The result without rounding. *)
Fixpoint exact (t : tree V) : R :=
  match t with Nothing => 0 | Operand v => ideal v | Sum a b => exact a + exact b | Product a b => exact a * exact b end.
Definition value (x : tree_feat V) : feat := mkFeat (tfB x) (tfS x) (tfD x) (tfF x) (tfdt x) (fun i s d f => exact (tfv x i s d f)).

(** An array of given numbers, and a tree for every entry of an array with the shape of [y]. *)
Definition given (x : feat) : tree_feat V := mkTree (fB x) (fS x) (fD x) (fF x) (fdt x) (fun i s d f => Operand (stored (fv x i s d f))).
Definition shaped (y : feat) (v : list nat -> nat -> nat -> nat -> tree V) : tree_feat V := mkTree (fB y) (fS y) (fD y) (fF y) (fdt y) v.

(** The operands of a computation are themselves computed. *)
Fixpoint subst {W : Type} (g : W -> tree V) (e : expr W) : tree V :=
  match e with Nothing => Nothing | Operand v => g v | Sum a b => Sum (subst g a) (subst g b) | Product a b => Product (subst g a) (subst g b) end.
End Trees.

(** * How the einsums and sums are evaluated
    Operands of the three einsums of [FusedTensor] (975-1037). *)
Inductive matrix_operand : Type := MInput (n : nat) | MWeight (n : nat) | MCoefficient (n : nat).
Inductive couple_operand : Type := CLeft (m : nat) | CRight (m : nat).
Inductive vector_operand : Type := VCell (l m : nat) | VWeight | VCoefficient (l m : nat).

(** An evaluation for every entry of the result, depending on the sizes of the contracted axes.  Which of the four matrices,
    products and vectors of [FusedTensor] is computed is counted by the first argument. *)
Record plan : Type := mkPlan {
  p_dense : nat -> list nat -> nat -> nat -> nat -> expr dense_operand;
  p_first : bool -> nat -> nat -> nat -> nat -> list nat -> nat -> nat -> nat -> expr tensor_operand;
  p_second : nat -> nat -> list nat -> nat -> nat -> nat -> expr tensor_operand;
  p_matrix : nat -> nat -> list nat -> nat -> nat -> nat -> expr matrix_operand;
  p_couple : nat -> nat -> list nat -> nat -> nat -> nat -> expr couple_operand;
  p_vector : nat -> nat -> list nat -> nat -> nat -> expr vector_operand;
  p_sum : nat -> list nat -> nat -> nat -> nat -> expr nat }.

Section Layers.
Context {V : Type} {LV : leaves V}.
Variables (clebsch_gordan : Z -> Z -> Z -> result (nat -> nat -> nat -> R)) (E : plan).

(** [Dense.__call__] (185-240); see Float_Einsum_Model. *)
Definition dense_leaf (P : dense_params) (x : tree_feat V) (i : list nat) (s d f : nat) (v : dense_operand) : tree V :=
  let l := Nat.sqrt d in
  let parity := if (tfS x =? 2)%nat then s else (l mod 2)%nat in
  match v with Input a => tfv x i s d a | Weight a => Operand (stored (dk P l parity a f)) | Bias => Operand (stored (db P f)) end.
Definition tree_dense (features : nat) (use_bias : bool) (P : dense_params) (x : tree_feat V) : result (tree_feat V) :=
  rmap (fun y => shaped y (fun i s d f => subst (dense_leaf P x i s d f) (dense_expr use_bias s d (p_dense E (tfF x) i s d f))))
    (dense features use_bias P (value x)).

(** [Tensor.__call__] (418-577); see Float_Einsum_Model. *)
Definition tensor_leaf (t : tensor_setup) (x1 x2 : tree_feat V) (i : list nat) (r n f : nat) (v : tensor_operand) : tree V :=
  match v with
  | First p l => tfv x1 (bidx (tfB x1) (tB t) i) p l f
  | Second q m => tfv x2 (bidx (tfB x2) (tB t) i) q m f
  | _ => Operand (stored (toperands t i r n f v))
  end.
Definition tree_tensor (max_degree : option Z) (include_pseudotensors : bool) (K : tensor_kernel) (x1 x2 : tree_feat V) : result (tree_feat V) :=
  bind (prepare_tensor clebsch_gordan max_degree include_pseudotensors K (value x1) (value x2)) (fun t =>
  Ok (mkTree (tB t) (tS t) (tD t) (tfF x1) (tfdt x1) (fun i r n f => subst (tensor_leaf t x1 x2 i r n f)
    (tensor_expr (tmixed t) (p_first E (tmixed t) (tfS x1) (tfD x1) (tfS x2) (tfD x2)) (p_second E (tfD x1) (tfD x2)) i r n f)))).

(** [FusedTensor]: the part of one parity of an input (952-968), and the einsums to matrices (975-990), of the matrices of both
    inputs (998-1015) and back to vectors (1023-1037).  The multiplications by masks of zeros and ones are counted as operations. *)
Definition tree_part (s : nat) (mask : nat -> R) (x : tree_feat V) (i : list nat) (n f : nat) : tree V :=
  if (tfS x =? 2)%nat then tfv x i s n f else Product (tfv x i 0%nat n f) (Operand (stored (mask n))).
Definition tree_matrix (cg : nat -> nat -> nat -> R) (q : nat) (x : list nat -> nat -> nat -> tree V) (k : nat -> nat -> R) (ls : nat) (i : list nat) (l m f : nat) : tree V :=
  subst (fun v => match v with MInput n => x i n f | MWeight n => Operand (stored (k n f)) | MCoefficient n => Operand (stored (cg l m n)) end) (p_matrix E q ls i l m f).
Definition tree_couple (a b : list nat -> list nat) (w q : nat) (y1 y2 : list nat -> nat -> nat -> nat -> tree V) (i : list nat) (l n f : nat) : tree V :=
  subst (fun v => match v with CLeft m => y1 (a i) l m f | CRight m => y2 (b i) m n f end) (p_couple E q w i l n f).
Definition tree_vector (cg : nat -> nat -> nat -> R) (w q : nat) (y : list nat -> nat -> nat -> nat -> tree V) (k : nat -> nat -> R) (i : list nat) (n f : nat) : tree V :=
  subst (fun v => match v with VCell l m => y i l m f | VWeight => Operand (stored (k n f)) | VCoefficient l m => Operand (stored (cg l m n)) end) (p_vector E q w i n f).

(** [FusedTensor.__call__] (741-1062); structure as in Modules_Model. *)
Definition tree_fused (max_degree : option Z) (include_pseudotensors : bool) (P : fused_params) (x1 x2 : tree_feat V) : result (tree_feat V) :=
  bind (extract_max_degree_and_check_shape (shape_of (value x1))) (fun L1 =>
  bind (extract_max_degree_and_check_shape (shape_of (value x2))) (fun L2 =>
  let L3 := output_degree max_degree L1 L2 in
  if (L1 + L2 <? L3)%Z then Err ValueError
  else if negb (tfF x1 =? tfF x2)%nat then Err ValueError
  else
    let include := output_pseudotensors include_pseudotensors (tfS x1) (tfS x2) L1 L2 L3 in
    let L := Z.max L1 (Z.max L2 L3) in
    let M := ((L + 1) / 2)%Z in
    bind (clebsch_gordan M M L) (fun cg0 =>
    bind (broadcast_shapes (tfB x1) (tfB x2)) (fun B =>
    let i0 := Z.to_nat (M * M) in
    let w := Z.to_nat ((M + 1) * (M + 1) - M * M) in
    let cg l m n := cg0 (i0 + l)%nat (i0 + m)%nat n in
    let even := fused_even_mask (Z.to_nat L) in
    let odd := fused_odd_mask (Z.to_nat L) in
    let l1 := Z.to_nat ((L1 + 1) * (L1 + 1)) in
    let l2 := Z.to_nat ((L2 + 1) * (L2 + 1)) in
    let l3 := Z.to_nat ((L3 + 1) * (L3 + 1)) in
    let expand (Lx : Z) (k : nat -> nat -> R) := fun n f => k (dup Lx n) f in
    let a i := bidx (tfB x1) B i in
    let b i := bidx (tfB x2) B i in
    let e1 := tree_matrix cg 0 (tree_part 0 even x1) (expand L1 (k_e1 P)) l1 in
    let o1 := tree_matrix cg 1 (tree_part 1 odd x1) (expand L1 (k_o1 P)) l1 in
    let e2 := tree_matrix cg 2 (tree_part 0 even x2) (expand L2 (k_e2 P)) l2 in
    let o2 := tree_matrix cg 3 (tree_part 1 odd x2) (expand L2 (k_o2 P)) l2 in
    let eee := tree_vector cg w 0 (tree_couple a b w 0 e1 e2) (expand L3 (k_eee P)) in
    let ooe := tree_vector cg w 1 (tree_couple a b w 1 o1 o2) (expand L3 (k_ooe P)) in
    let eoo := tree_vector cg w 2 (tree_couple a b w 2 e1 o2) (expand L3 (k_eoo P)) in
    let oeo := tree_vector cg w 3 (tree_couple a b w 3 o1 e2) (expand L3 (k_oeo P)) in
    let e3 := fun i n f => Sum (eee i n f) (ooe i n f) in
    let o3 := fun i n f => Sum (eoo i n f) (oeo i n f) in
    if include
    then Ok (mkTree B 2 l3 (tfF x1) (tfdt x1) (fun i r n f => if (r =? 0)%nat then e3 i n f else o3 i n f))
    else Ok (mkTree B 1 l3 (tfF x1) (tfdt x1) (fun i _ n f =>
      Sum (Product (e3 i n f) (Operand (stored (even n)))) (Product (o3 i n f) (Operand (stored (odd n))))))
    )))).

(** [_create_tensor] (1065-1091). *)
Definition tree_any_tensor (max_degree : option Z) (include : bool) (P : tensor_params) (x1 x2 : tree_feat V) : result (tree_feat V) :=
  match P with
  | PTensor k => tree_tensor max_degree include k x1 x2
  | PFused P => tree_fused max_degree include P x1 x2
  end.

(** [TensorDense.__call__] (1175-1209). *)
Definition tree_half (y : tree_feat V) (F off : nat) : tree_feat V :=
  mkTree (tfB y) (tfS y) (tfD y) F (tfdt y) (fun i s d f => tfv y i s d (off + f)%nat).
Definition tree_tensor_dense (features : option nat) (max_degree : option Z) (include use_bias : bool)
    (Pd : dense_params) (Pt : tensor_params) (x : tree_feat V) : result (tree_feat V) :=
  let F := match features with None => tfF x | Some n => n end in
  bind (tree_dense (2 * F) use_bias Pd x) (fun y => tree_any_tensor max_degree include Pt (tree_half y F 0) (tree_half y F F)).

(** [ops.gather_src] (indexed.py:357-388): entries are only moved. *)
Definition node_trees (x : tree_feat V) (b : list nat) (s d f : nat) : list (tree V) :=
  map (fun n => tfv x (b ++ [n]) s d f) (seq 0 (last1 (tfB x))).
Definition tree_gather (x : tree_feat V) (g : graph) : result (tree_feat V) :=
  match graph_type g false true with
  | Err e => Err e
  | Ok Dense =>
      match g_adj g with
      | Some (N, M, adj) =>
          Ok (mkTree (but_last (tfB x) ++ [N; M]) (tfS x) (tfD x) (tfF x) (tfdt x) (fun i s d f =>
            nth (last1 i) (nth (last2 i) (gather_dense Nothing (node_trees x (but_last2 i) s d f) (adj (but_last2 i))) []) Nothing))
      | None => Err AssertionError
      end
  | Ok Sparse =>
      match g_src g with
      | Some (P, src) =>
          Ok (mkTree (but_last (tfB x) ++ [P]) (tfS x) (tfD x) (tfF x) (tfdt x) (fun i s d f =>
            nth (last1 i) (gather_sparse Nothing (node_trees x (but_last i) s d f) (src (but_last i))) Nothing))
      | None => Err AssertionError
      end
  end.

(** [ops.indexed_sum] (indexed.py:429-594).  The edges of a node are added in the order that the plan says; the others are
    left out, i.e. masked zeros are not added, which does not change a sum. *)
Fixpoint chosen {A : Type} (vals : list A) (flags : list bool) : list A :=
  match vals, flags with
  | v :: vt, b :: bt => if b then v :: chosen vt bt else chosen vt bt
  | _, _ => []
  end.
Definition summed (e : nat -> expr nat) (ts : list (tree V)) : tree V := subst (fun k => nth k ts Nothing) (e (length ts)).
Definition tree_indexed_sum (x : tree_feat V) (g : graph) : result (tree_feat V) :=
  match graph_type g true false with
  | Err e => Err e
  | Ok Dense =>
      match g_where g, g_adj g with
      | None, _ => Err TypeError
      | Some w, Some (N, M, adj) =>
          if negb (list_nat_eqb (tfB x) (but_last2 (tfB x) ++ [N; M])) then Err ValueError
          else Ok (mkTree (but_last (tfB x)) (tfS x) (tfD x) (tfF x) (tfdt x) (fun i s d f =>
                 nth (last1 i) (map (fun row => summed (fun n => p_sum E n i s d f) (chosen (fst row) (snd row)))
                   (combine (map (fun n => map (fun m => tfv x (but_last i ++ [n; m]) s d f) (seq 0 M)) (seq 0 N)) (w (but_last i)))) Nothing))
      | Some _, None => Err AssertionError
      end
  | Ok Sparse =>
      match g_segments g, g_dst g with
      | None, _ => Err TypeError
      | Some n, Some (P, dst) =>
          if negb (list_nat_eqb (tfB x) (but_last (tfB x) ++ [P])) then Err ValueError
          else Ok (mkTree (but_last (tfB x) ++ [n]) (tfS x) (tfD x) (tfF x) (tfdt x) (fun i s d f =>
                 nth (last1 i) (map (fun q => summed (fun k => p_sum E k i s d f)
                   (chosen (map (fun e => tfv x (but_last i ++ [e]) s d f) (seq 0 P)) (map (fun z => (z =? Z.of_nat q)%Z) (dst (but_last i)))))
                   (seq 0 n)) Nothing))
      | Some _, None => Err AssertionError
      end
  end.

(** [_Conv.__call__] (1249-1351) and [MessagePass.__call__] (1357-1489) without weights. *)
Definition tree_conv (max_degree : option Z) (include use_basis_bias : bool) (P : conv_params) (x : tree_feat V) (basis : option (tree_feat V)) (g : graph) : result (tree_feat V) :=
  bind (match basis with
        | Some bs =>
            if negb (list_nat_eqb (tfB x) (tfB bs)) then Err ValueError
            else bind (tree_dense (tfF x) use_basis_bias (c_filter P) bs) (fun filters => tree_any_tensor max_degree include (c_tensor P) filters x)
        | None => Ok x
        end) (fun products => tree_indexed_sum products g).
Definition tree_message_pass (max_degree : option Z) (include use_basis_bias : bool) (P : conv_params) (x : tree_feat V) (basis : option (tree_feat V)) (g : graph) : result (tree_feat V) :=
  bind (tree_gather x g) (fun y => tree_conv max_degree include use_basis_bias P y basis (with_defaults g (last1 (tfB x)) (last1 (tfB x)))).

(** The component of parity [p], degree [l] and order [k - l]; zero if the array has no slot for it. *)
Definition tree_comp (x : tree_feat V) (i : list nat) (p l k f : nat) : tree V :=
  if ((l + 1) * (l + 1) <=? tfD x)%nat then
    if (tfS x =? 2)%nat then tfv x i p (l * l + k)%nat f
    else if (p =? l mod 2)%nat then tfv x i 0%nat (l * l + k)%nat f else Nothing
  else Nothing.
(** [change_max_degree_or_type] (features.py:172-254) moves every component to its slot in the result. *)
Definition tree_change (x : tree_feat V) (max_degree : option Z) (include : option bool) : result (tree_feat V) :=
  rmap (fun y => shaped y (fun i s d f => let l := Nat.sqrt d in tree_comp x i (if (fS y =? 2)%nat then s else (l mod 2)%nat) l (d - l * l) f))
    (change_max_degree_or_type (value x) max_degree include).
(** [add] (features.py:257-338) adds the inputs, in their order, to an array of zeros. *)
Definition tree_add (xs : list (tree_feat V)) : result (tree_feat V) :=
  rmap (fun y => shaped y (fun i s d f => let l := Nat.sqrt d in
    fold_left (fun t x => Sum t (tree_comp x i (if (fS y =? 2)%nat then s else (l mod 2)%nat) l (d - l * l) f)) xs Nothing))
    (add (map value xs)).
End Layers.

Section Run.
Context {V : Type} {LV : leaves V}.
Variables (cgf : Z -> Z -> Z -> result (nat -> nat -> nat -> R)) (basis : option (tree_feat V)) (g : graph).

Definition tree_select (xs : list (tree_feat V)) (i : nat) : result (tree_feat V) := match nth_error xs i with Some x => Ok x | None => Err IndexError end.
Fixpoint tree_select_all (xs : list (tree_feat V)) (is : list nat) : result (list (tree_feat V)) :=
  match is with [] => Ok [] | i :: is => bind (tree_select xs i) (fun x => rmap (cons x) (tree_select_all xs is)) end.

(** One call (Network_Spec); calls that are not modelled are excluded in the theorems. *)
Definition tree_perform (E : plan) (xs : list (tree_feat V)) (c : call) : result (tree_feat V) :=
  match c with
  | UseDense i features use_bias P => bind (tree_select xs i) (tree_dense E features use_bias P)
  | UseTensor i j d include P => bind (tree_select xs i) (fun x => bind (tree_select xs j) (tree_any_tensor cgf E d include P x))
  | UseTensorDense i features d include use_bias Pd Pt => bind (tree_select xs i) (tree_tensor_dense cgf E features d include use_bias Pd Pt)
  | UseMessagePass i d include use_bias P => bind (tree_select xs i) (fun x => tree_message_pass cgf E d include use_bias P x basis g)
  | UseChange i d include => bind (tree_select xs i) (fun x => tree_change x d include)
  | UseAdd is => bind (tree_select_all xs is) tree_add
  | UseAttention _ _ _ _ | UseActivation _ _ => Err AssertionError
  end.

(** All arrays after the calls [cs], each with its plan. *)
Fixpoint tree_run (xs : list (tree_feat V)) (cs : list (plan * call)) : result (list (tree_feat V)) :=
  match cs with
  | [] => Ok xs
  | (E, c) :: cs => bind (tree_perform E xs c) (fun y => tree_run (xs ++ [y]) cs)
  end.
End Run.
