(** Model of networks with activations on machines with rounding (Float_Program_Model): every number in the network is known
    without rounding and on every machine.  The layers that add and multiply are those of Float_Network_Model, in any order of
    evaluation; the gates of activations (e3x/nn/activations.py) are run as programs (AutoDiff_Model). *)
Require Import List Reals ZArith Bool.
Require Import Verif.Base Verif.Indexed_Model Verif.Features_Model Verif.Activations_Model Verif.Modules_Model Verif.AutoDiff_Model Verif.Network_Spec Verif.Float_Model Verif.Float_Einsum_Model Verif.Float_Network_Model Verif.Float_Program_Model.
Import ListNotations.
Open Scope R_scope.

(** A number, without rounding and on every machine; [None] if it overflows or is not a number. *)
Record number : Type := mkNumber { without_rounding : R; on_machine : machine -> option R }.
#[global] Instance number_leaves : leaves number := Leaves number (fun r => mkNumber r (fun m => fl (m_round m) (m_huge m) r)) without_rounding (fun _ => eq_refl).

(** Running a computation on machine [m]. *)
Fixpoint on (m : machine) (t : tree number) : option R :=
  match t with
  | Nothing => Some 0
  | Operand v => on_machine v m
  | Sum a b => fbind (on m a) (fun x => fbind (on m b) (fun y => fadd (m_round m) (m_huge m) x y))
  | Product a b => fbind (on m a) (fun x => fbind (on m b) (fun y => fmul (m_round m) (m_huge m) x y))
  end.

(** The program [e] applied to computed numbers. *)
Definition apply (e : program) (args : nat -> tree number) : tree number :=
  Operand (mkNumber (match AutoDiff_Model.value e (fun k => exact (args k)) with Some v => v | None => 0 end)
                    (fun m => float_value m e (fun k => on m (args k)))).

(** * Activations *)
Inductive activation : Type :=
| Relu | LeakyRelu (negative_slope : R) | Elu (alpha : R) | Selu | Celu (alpha : R) | Silu | Gelu (approximate : bool) | Mish (fast : bool)
| Serf | ShiftedSoftplus | HardTanh | SoftSign | Relu6 | HardSilu | BentIdentity.

Section Activations.
(** The error function with its derivative, and the threshold between formulas and their series (activations.py:228, ...). *)
Variables (erf derf : R -> R) (eps : R).

(** The functions of activations.py without rounding (Activations_Model), and the programs of their gates. *)
Definition exact_activation (a : activation) : feat -> result feat :=
  match a with
  | Relu => relu | LeakyRelu s => leaky_relu s | Elu alpha => elu eps alpha | Selu => selu eps | Celu alpha => celu eps alpha | Silu => silu
  | Gelu b => gelu erf b | Mish b => mish b | Serf => serf erf | ShiftedSoftplus => shifted_softplus eps | HardTanh => hard_tanh | SoftSign => soft_sign
  | Relu6 => relu6 | HardSilu => hard_silu | BentIdentity => bent_identity eps
  end.
Definition gate_program (a : activation) : program :=
  match a with
  | Relu => relu_prog | LeakyRelu s => leaky_relu_prog s | Elu alpha => elu_prog eps alpha | Selu => elu_prog eps selu_alpha | Celu alpha => celu_prog eps alpha | Silu => silu_prog
  | Gelu b => gelu_prog erf derf b | Mish b => mish_prog b | Serf => serf_prog erf derf | ShiftedSoftplus => shifted_softplus_prog eps | HardTanh => hard_tanh_prog | SoftSign => soft_sign_prog
  | Relu6 => relu6_prog | HardSilu => hard_silu_prog | BentIdentity => bent_identity_prog eps
  end.

(** Indices of a batch, and of the entries of an array that exist. *)
Fixpoint in_batch (B i : list nat) : bool :=
  match B, i with [], [] => true | n :: B, k :: i => (k <? n)%nat && in_batch B i | _, _ => false end.
(** [_gated_linear] (activations.py:49-68) and [selu] (297-300): the gate of the even scalars times the features.  Entries outside
    of the array do not exist; the model has numbers for them, which are those without rounding and which no result depends on. *)
Definition deep_activation (a : activation) (x : tree_feat number) : result (tree_feat number) :=
  bind (check_ndim (shape_of (value x))) (fun _ =>
    Ok (mkTree (tfB x) (tfS x) (tfD x) (tfF x) (tfdt x) (fun i s d f =>
      let y := Product (apply (gate_program a) (fun _ => tfv x i 0%nat 0%nat f)) (tfv x i s d f) in
      let y := match a with Selu => Product (Operand (stored selu_scale)) y | _ => y end in
      if in_batch (tfB x) i && (f <? tfF x)%nat then y else Operand (stored (exact y))))).
End Activations.

(** * Attention (e3x/nn/modules.py:1492-1836, e3x/ops/indexed.py:741-815) *)
Definition both (a b : tree number) : nat -> tree number := fun k => match k with O => a | _ => b end.
Definition divided_by : program := Bin Div (Var 0) (Var 1).
Definition maximum_of : program := Bin Max (Var 0) (Var 1).
Definition exp_of_difference : program := Un Exp (Bin Sub (Var 0) (Var 1)).
Definition divided_by_root (depth : nat) : program := Bin Div (Var 0) (Un Sqrt (Const (INR depth))).

(** Operands of the einsums of dot products (1762-1780), and the orders of their evaluation. *)
Inductive dot_operand : Type := QueryAt (p d f : nat) | KeyAt (p d f : nat) | PositionAt (p d f : nat).
Definition dot_plan : Type := bool -> nat -> nat -> nat -> list nat -> nat -> expr dot_operand.

(** The edges with the same destination as edge [i]: their number, their indices and which of them exist; [None] if edge [i] does not
    exist, i.e. if it is masked or has no destination (indexed.py:498-519, 547-552). *)
Record row : Type := mkRow { r_size : nat; r_edge : nat -> list nat; r_selected : nat -> bool; r_here : nat }.
Definition row_of (B : list nat) (g : graph) (i : list nat) : option row :=
  match graph_type g true false with
  | Ok Dense =>
      match g_where g, g_adj g with
      | Some w, Some (N, M, adj) =>
          let b := but_last2 i in let n := last2 i in let m := last1 i in let flags := nth n (w b) [] in
          if list_nat_eqb i (b ++ [n; m]) && in_batch B b && (n <? N)%nat && (m <? M)%nat && nth m flags false
          then Some (mkRow M (fun m' => b ++ [n; m']) (fun m' => nth m' flags false) m) else None
      | _, _ => None
      end
  | Ok Sparse =>
      match g_segments g, g_dst g with
      | Some n, Some (P, dst) =>
          let b := but_last i in let e := last1 i in let node := nth e (dst b) (-1)%Z in
          if list_nat_eqb i (b ++ [e]) && in_batch B b && (e <? P)%nat && (length (dst b) =? P)%nat && (0 <=? node)%Z && (node <? Z.of_nat n)%Z
          then Some (mkRow P (fun e' => b ++ [e']) (fun e' => (nth e' (dst b) (-1) =? node)%Z) e) else None
      | _, _ => None
      end
  | Err _ => None
  end.

Section Attention.
Variables (cgf : Z -> Z -> Z -> result (nat -> nat -> nat -> R)) (lo hi : R) (E : plan) (dots : dot_plan).

(** [ops.gather_dst] (indexed.py:391-422). *)
Definition tree_gather_dst (x : tree_feat number) (g : graph) : result (tree_feat number) :=
  match graph_type g true false with
  | Err e => Err e
  | Ok Dense =>
      match g_adj g with
      | Some (N, M, adj) => Ok (mkTree (but_last (tfB x) ++ [N; M]) (tfS x) (tfD x) (tfF x) (tfdt x) (fun i s d f => tfv x (but_last i) s d f))
      | None => Err AssertionError
      end
  | Ok Sparse =>
      match g_dst g with
      | Some (P, dst) =>
          Ok (mkTree (but_last (tfB x) ++ [P]) (tfS x) (tfD x) (tfF x) (tfdt x) (fun i s d f =>
            nth (last1 i) (gather_sparse Nothing (node_trees x (but_last i) s d f) (dst (but_last i))) Nothing))
      | None => Err AssertionError
      end
  end.

(** Relative positional encodings (1716-1756): a Dense layer of flax; the order of evaluation is that of a Dense layer. *)
Definition tree_position (use_bias : bool) (K : nat -> nat -> R) (bias : nat -> R) (bs : tree_feat number) (L : Z) (qkv : nat) (i : list nat) (p d c : nat) : tree number :=
  let j := ((p * Z.to_nat (L + 1) + dup L d) * qkv + c)%nat in
  let y := subst (fun v => match v with Input a => tfv bs i 0%nat 0%nat a | Weight a => Operand (stored (K a j)) | Bias => Nothing end) (p_dense E (tfF bs) i p (dup L d) c) in
  if use_bias then Sum y (Operand (stored (bias j))) else y.

(** Dot products (1706-1780): queries are divided by the square root of the depth (1707-1708); if the depth is zero there are no queries. *)
Definition tree_dot (heads : nat) (query key : tree_feat number) (rel : option (list nat -> nat -> nat -> nat -> tree number)) (i : list nat) (h : nat) : tree number :=
  let per := (tfF query / heads)%nat in
  let depth := (tfS query * tfD query * per)%nat in
  subst (fun v => match v with
                  | QueryAt p d f => if (depth =? 0)%nat then Nothing else apply (divided_by_root depth) (fun _ => tfv query i p d (f * heads + h)%nat)
                  | KeyAt p d f => tfv key i p d (f * heads + h)%nat
                  | PositionAt p d f => match rel with Some r => r i p d (f * heads + h)%nat | None => Nothing end
                  end) (dots (match rel with Some _ => true | None => false end) (tfS query) (tfD query) per i h).

(** [ops.indexed_softmax] (indexed.py:794-815) at one edge: the maximum over the edges with the same destination, exponentials of the
    differences, cutoffs, their sum (in any order) and the division.  Maxima do not round, so their order does not matter; the
    initial value (the lowest number) is not larger than any number. *)
Definition tree_weight (cutoff : option (list nat -> tree number)) (dot : list nat -> tree number) (i : list nat) (h : nat) (r : row) : tree number :=
  let es := filter (r_selected r) (seq 0 (r_size r)) in
  let top := fold_left (fun t e => apply maximum_of (both t (dot (r_edge r e)))) es (dot (r_edge r (r_here r))) in
  let numerator e := let x := apply exp_of_difference (both (dot (r_edge r e)) top) in match cutoff with Some c => Product x (c (r_edge r e)) | None => x end in
  apply divided_by (both (numerator (r_here r)) (summed (fun n => p_sum E n i 0%nat 0%nat h) (map numerator es))).

(** [MultiHeadAttention.__call__] (1567-1836); structure as in Modules_Model.  No result depends on the weights of edges that do not
    exist; the model has the numbers without rounding for them. *)
Definition deep_attention (o : attention_options) (P : attention_params) (xq xkv : tree_feat number) (basis : option (tree_feat number)) (cutoff : option (list nat -> tree number)) (g : graph) : result (tree_feat number) :=
  if negb (list_nat_eqb (but_last (tfB xq)) (but_last (tfB xkv))) then Err ValueError
  else if (o_rel_qk o || o_rel_v o) && match basis with None => true | Some _ => false end then Err TypeError
  else
    let out := match o_out o with None => tfF xq | Some n => n end in
    let qkv := match o_qkv o with None => tfF xq | Some n => n end in
    if (o_heads o =? 0)%nat then Err ZeroDivisionError
    else if negb (qkv mod o_heads o =? 0)%nat then Err ValueError
    else
    bind (extract_max_degree_and_check_shape (shape_of (value xq))) (fun Lq =>
    bind (extract_max_degree_and_check_shape (shape_of (value xkv))) (fun Lk =>
    let Lqk := Z.min Lq Lk in
    let pseudo := (tfS xq =? 2)%nat && (tfS xkv =? 2)%nat in
    bind (tree_change xq (Some Lqk) (Some pseudo)) (fun qi =>
    bind (tree_change xkv (Some Lqk) (Some pseudo)) (fun ki =>
    bind (tree_dense E qkv (o_query_bias o) (a_query P) qi) (fun query =>
    bind (tree_dense E qkv (o_key_bias o) (a_key P) ki) (fun key =>
    bind (tree_dense E qkv (o_value_bias o) (a_value P) xkv) (fun val =>
    bind (tree_gather_dst query g) (fun gq =>
    bind (tree_gather key g) (fun gk =>
    let rel := match basis with
               | Some bs => if o_rel_qk o then Some (tree_position (o_basis_bias o) (a_rel_kernel P) (a_rel_bias P) bs Lqk qkv) else None
               | None => None end in
    let dot := fun h i => tree_dot (o_heads o) gq gk rel i h in
    let g' := with_defaults g (last1 (tfB xq)) (last1 (tfB xkv)) in
    let cut := option_map (fun c i => exact (c i)) cutoff in
    bind (tree_gather val g) (fun gv =>
    bind (attention_weight lo hi g' cut (fun _ => 0) []) (fun _ =>
    let weighted := mkTree (tfB gv) (tfS gv) (tfD gv) (tfF gv) (tfdt gv) (fun i s d f =>
          let h := (f / (qkv / o_heads o))%nat in
          match row_of (but_last (tfB xkv)) g' i with
          | Some r => Product (tree_weight cutoff (dot h) i h r) (tfv gv i s d f)
          | None => Operand (stored (get_ok (attention_weight lo hi g' cut (fun j => exact (dot h j)) i) * exact (tfv gv i s d f)))
          end) in
    bind (tree_conv cgf E (o_max_degree o) (o_include o) (o_basis_bias o) (a_conv P) weighted (if o_rel_v o then basis else None) g') (fun att =>
    tree_dense E out (o_out_bias o) (a_out P) att)))))))))))).
End Attention.

(** * Networks *)
Section Networks.
Variables (erf derf : R -> R) (eps : R).
Inductive step : Type := Layer (E : plan) (c : call) | Activate (i : nat) (a : activation) | Attend (E : plan) (dots : dot_plan) (i j : nat) (o : attention_options) (P : attention_params).
(** The same step without rounding. *)
Definition call_of (s : step) : call := match s with Layer _ c => c | Activate i a => UseActivation i (exact_activation erf eps a) | Attend _ _ i j o P => UseAttention i j o P end.

Variables (cgf : Z -> Z -> Z -> result (nat -> nat -> nat -> R)) (lo hi : R) (basis : option (tree_feat number)) (cutoff : option (list nat -> tree number)) (g : graph).

Definition deep_perform (xs : list (tree_feat number)) (s : step) : result (tree_feat number) :=
  match s with
  | Layer E c => tree_perform cgf basis g E xs c
  | Activate i a => bind (tree_select xs i) (deep_activation erf derf eps a)
  | Attend E dots i j o P => bind (tree_select xs i) (fun x => bind (tree_select xs j) (fun y => deep_attention cgf lo hi E dots o P x y basis cutoff g))
  end.
Fixpoint deep_run (xs : list (tree_feat number)) (ss : list step) : result (list (tree_feat number)) :=
  match ss with
  | [] => Ok xs
  | s :: ss => bind (deep_perform xs s) (fun y => deep_run (xs ++ [y]) ss)
  end.
End Networks.
