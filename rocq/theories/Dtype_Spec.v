(** What a dtype is: the set of its finite numbers.  A dtype holds another one if all its numbers are among its own. *)
Require Import List ZArith Reals.
Require Import Verif.Base Verif.Dtype_Model.
Import ListNotations.
Local Open Scope R_scope.

(** IEEE 754 binary16, binary32 and binary64, and bfloat16: digits of the significand, smallest exponent, and the exponent
    at which numbers overflow. *)
Definition digits (d : dtype) : Z := match d with bfloat16 => 8 | float16 => 11 | float32 => 24 | float64 => 53 end.
Definition lowest (d : dtype) : Z := match d with bfloat16 => -133 | float16 => -24 | float32 => -149 | float64 => -1074 end.
Definition highest (d : dtype) : Z := match d with bfloat16 => 128 | float16 => 16 | float32 => 128 | float64 => 1024 end.

(** The finite numbers m 2^e of a dtype. *)
Definition number (d : dtype) (x : R) : Prop :=
  exists m e : Z, x = IZR m * powerRZ 2 e /\ (Z.abs m < 2 ^ digits d)%Z /\ (lowest d <= e <= highest d - digits d)%Z.

Definition holds (d a : dtype) : Prop := forall x, number a x -> number d x.

(** [d] is the smallest dtype that holds all of [l]. *)
Definition smallest (d : dtype) (l : list dtype) : Prop :=
  (forall a, In a l -> holds d a) /\ (forall b, (forall a, In a l -> holds b a) -> holds b d).

(** The dtypes that exist: float64 only with jax_enable_x64. *)
Definition exists_in (x64 : bool) (d : dtype) : Prop := d = float64 -> x64 = true.

(** The dtype of [jnp.zeros(())] or [jnp.asarray] of a Python float. *)
Definition default_dtype (x64 : bool) : dtype := if x64 then float64 else float32.

(** All settings of a program have this property. *)
Definition settings_of (c : call) : list settings :=
  match c with
  | CEmbed s | CDense s _ _ _ | CTensor s _ _ _ _ | CTensorDense s _ _ _ _ | CMessagePass s _ _ _ _ _ _
  | CAttention s _ _ _ _ _ _ _ _ _ _ _ _ _ => [s]
  | CChange _ | CAdd _ => []
  end.

(** A layer computes with [d]: [dtype=d] was asked for, or nothing and the parameters are stored as [d]. *)
Definition asks_for (x64 : bool) (d : dtype) (s : settings) : Prop :=
  match s_dtype s with Some e => canonical x64 e = d | None => canonical x64 (s_param_dtype s) = d end.

(** Calls without a tensor product at the end: their dtype attribute decides. *)
Definition without_products (c : call) : Prop :=
  match c with
  | CEmbed _ | CDense _ _ _ _ | CChange _ | CAdd _ => True
  | CAttention s _ _ _ _ _ _ _ _ _ _ _ _ _ => s_dtype s <> None
  | CTensor _ _ _ _ _ | CTensorDense _ _ _ _ _ | CMessagePass _ _ _ _ _ _ _ => False
  end.

(** The arrays whose numbers a call uses. *)
Definition opt_list {A : Type} (o : option A) : list A := match o with Some a => [a] | None => [] end.
Definition uses (c : call) : list nat :=
  match c with
  | CEmbed _ => []
  | CDense _ _ _ i | CTensorDense _ _ _ _ i | CChange i => [i]
  | CTensor _ _ _ i j => [i; j]
  | CMessagePass _ _ _ _ i b w => i :: b :: opt_list w
  | CAttention _ _ _ _ _ _ qk v _ _ q kv b c => q :: kv :: opt_list c ++ (if qk then opt_list b else if v then opt_list b else [])
  | CAdd l => l
  end.
