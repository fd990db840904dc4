(** Model of e3x/nn/features.py.

    A feature array of shape (..., S, D, F) is a record of its sizes and a function giving
    its entries; the leading (batch) axes are indexed by a list.  Numbers are reals: rounding
    is not modelled.  A dtype is a tag. *)
Require Import List Reals ZArith Bool.
Require Import Verif.Base Verif.RSum.
Import ListNotations.
Open Scope R_scope.

Record feat : Type := mkFeat {
  fB : list nat;      (* batch shape *)
  fS : nat;           (* axis -3: parity *)
  fD : nat;           (* axis -2: degrees and orders *)
  fF : nat;           (* axis -1: features *)
  fdt : nat;          (* dtype *)
  fv : list nat -> nat -> nat -> nat -> R }.

Definition shape_of (x : feat) : list nat := fB x ++ [fS x; fD x; fF x].

(** [round(math.sqrt(n) - 1)] (features.py:61), with an exact square root: sqrt n is never half
    way between two integers, so rounding gives the nearest integer. *)
Definition round_sqrt (n : nat) : nat := let s := Nat.sqrt n in if (n <=? s * s + s)%nat then s else S s.
Definition round_sqrt_minus_1 (n : nat) : Z := (Z.of_nat (round_sqrt n) - 1)%Z.

(** [_extract_max_degree_and_check_shape] (28-69). *)
Definition extract_max_degree_and_check_shape (shape : list nat) : result Z :=
  let n := length shape in
  if (n <? 3)%nat then Err ValueError
  else
    let s := nth (n - 3) shape 0%nat in
    if negb ((s =? 1)%nat || (s =? 2)%nat) then Err ValueError
    else
      let d := nth (n - 2) shape 0%nat in
      let max_degree := round_sqrt_minus_1 d in
      if negb (Z.of_nat d =? (max_degree + 1) * (max_degree + 1))%Z then Err ValueError
      else Ok max_degree.

(** [even_degree_mask] (72-82): [jnp.repeat(degrees % 2 == 0, 2 * degrees + 1)], axis -1 of size 1 dropped. *)
Definition even_degree_mask (L : nat) : list bool :=
  flat_map (fun l => repeat (Nat.even l) (2 * l + 1)) (seq 0 (L + 1)).

(** [odd_degree_mask] (85-87). *)
Definition odd_degree_mask (L : nat) : list bool := map negb (even_degree_mask L).

(** [_duplication_indices_for_max_degree] (modules.py:243-260). *)
Definition duplication_indices (L : nat) : list nat :=
  flat_map (fun l => repeat l (2 * l + 1)) (seq 0 (L + 1)).

(** A Wigner-D matrix, possibly batched: shape (..., n, m). *)
Record wig : Type := mkWig { wB : option (list nat); wn : nat; wm : nat; wv : list nat -> nat -> nat -> R }.

Fixpoint list_nat_eqb (a b : list nat) : bool :=
  match a, b with
  | [], [] => true
  | x :: a', y :: b' => (x =? y)%nat && list_nat_eqb a' b'
  | _, _ => false
  end.

(** [rotate] (90-134): einsum '...slf,lm->...smf'.  [wB = None] is the case ndim == 2; its
    values do not depend on the batch index. *)
Definition rotate (x : feat) (w : wig) : result feat :=
  bind (extract_max_degree_and_check_shape (shape_of x)) (fun L =>
    let dim := ((L + 1) * (L + 1))%Z in
    if negb ((Z.of_nat (wn w) =? dim)%Z && (Z.of_nat (wm w) =? dim)%Z) then Err ValueError
    else
      let value batch := mkFeat (fB x) (fS x) (wm w) (fF x) (fdt x)
        (fun b s m f => rsum (fD x) (fun l => fv x b s l f * wv w (batch b) l m)) in
      match wB w with
      | None => Ok (value (fun _ => []))
      | Some B => if negb (list_nat_eqb (fB x) B) then Err ValueError else Ok (value (fun b => b))
      end).

(** One update [x.at[..., a:b, :].multiply(-1)]. *)
Definition negate_range (x : feat) (a b : nat) : feat :=
  mkFeat (fB x) (fS x) (fD x) (fF x) (fdt x)
    (fun i s d f => if (a <=? d)%nat && (d <? b)%nat then fv x i s d f * (-1) else fv x i s d f).

(** [range(1, n, 2)]. *)
Definition odd_range (n : nat) : list nat := filter Nat.odd (seq 1 (n - 1)).

(** [reflect] (137-161). *)
Definition reflect (x : feat) : result feat :=
  bind (extract_max_degree_and_check_shape (shape_of x)) (fun L =>
    if (fS x =? 2)%nat
    then Ok (mkFeat (fB x) (fS x) (fD x) (fF x) (fdt x)
           (fun i s d f => if (s =? 1)%nat then fv x i s d f * (-1) else fv x i s d f))
    else Ok (fold_left (fun y l => negate_range y (l * l) ((l + 1) * (l + 1)))
               (odd_range (Z.to_nat (L + 1))) x)).

(** Pieces of an array along axis -2: size and entries (parity index, position, feature). *)
Definition piece : Type := (nat * (list nat -> nat -> nat -> nat -> R))%type.

(** [jnp.concatenate(pieces, axis=-2)]. *)
Fixpoint cat_value (ps : list piece) (i : list nat) (s d f : nat) : R :=
  match ps with
  | [] => 0
  | (n, v) :: t => if (d <? n)%nat then v i s d f else cat_value t i s (d - n)%nat f
  end.
Definition cat_size (ps : list piece) : nat := fold_right (fun p a => (fst p + a)%nat) 0%nat ps.

(** [x[..., p:p+1, l**2:(l+1)**2, :]]; [fD] bounds the slice as in numpy. *)
Definition degree_slice (x : feat) (p l : nat) : piece :=
  let a := Nat.min (l * l) (fD x) in
  let b := Nat.min ((l + 1) * (l + 1)) (fD x) in
  ((b - a)%nat, fun i s d f => fv x i (p + s)%nat (a + d)%nat f).

Definition zero_piece (p : piece) : piece := (fst p, fun _ _ _ _ => 0).

(** [jnp.concatenate] of an empty list raises. *)
Definition concatenate (x : feat) (S : nat) (ps : list piece) : result feat :=
  match ps with
  | [] => Err ValueError
  | _ => Ok (mkFeat (fB x) S (cat_size ps) (fF x) (fdt x) (cat_value ps))
  end.

(** [change_max_degree_or_type] (164-254). *)
Definition change_max_degree_or_type (x : feat) (max_degree : option Z) (include_pseudotensors : option bool)
    : result feat :=
  bind (extract_max_degree_and_check_shape (shape_of x)) (fun in_max_degree =>
    let input_has_pseudotensors := negb (fS x =? 1)%nat in
    let L := match max_degree with Some d => d | None => in_max_degree end in
    let incl := match include_pseudotensors with Some b => b | None => input_has_pseudotensors end in
    let n := Z.to_nat ((L + 1) * (L + 1)) in
    let x1 :=
      if (L <? in_max_degree)%Z
      then mkFeat (fB x) (fS x) (Nat.min n (fD x)) (fF x) (fdt x) (fv x)          (* 215-216: slice *)
      else if (in_max_degree <? L)%Z
      then mkFeat (fB x) (fS x) (fD x + (n - Z.to_nat ((in_max_degree + 1) * (in_max_degree + 1))))%nat
             (fF x) (fdt x) (fun i s d f => if (d <? fD x)%nat then fv x i s d f else 0)   (* 219-222: pad *)
      else x in
    let degrees := seq 0 (Z.to_nat (L + 1)) in
    if input_has_pseudotensors && negb incl
    then concatenate x1 1 (map (fun l => degree_slice x1 (l mod 2) l) degrees)
    else if incl && negb input_has_pseudotensors
    then
      bind (concatenate x1 1 (map (fun l => if Nat.even l then degree_slice x1 0 l
                                           else zero_piece (degree_slice x1 0 l)) degrees)) (fun e =>
      bind (concatenate x1 1 (map (fun l => if negb (Nat.even l) then degree_slice x1 0 l
                                           else zero_piece (degree_slice x1 0 l)) degrees)) (fun o =>
      Ok (mkFeat (fB x1) 2 (fD e) (fF x1) (fdt x1)
            (fun i s d f => if (s =? 0)%nat then fv e i 0 d f else fv o i 0 d f))))
    else Ok x1).

(** The loop of [add] that determines the output shape (285-322); state: max_degree, has_pseudotensors. *)
Fixpoint add_scan (B : list nat) (F dt : nat) (xs : list feat) (L : Z) (pseudo : bool) : result (Z * bool) :=
  match xs with
  | [] => Ok (L, pseudo)
  | x :: t =>
      if negb (list_nat_eqb (fB x) B) then Err ValueError
      else if negb (fF x =? F)%nat then Err ValueError
      else if negb (fdt x =? dt)%nat then Err ValueError
      else bind (extract_max_degree_and_check_shape (shape_of x)) (fun Lx =>
             add_scan B F dt t (Z.max L Lx) (pseudo || (fS x =? 2)%nat))
  end.

(** Accumulation (324-338): [y += change_max_degree_or_type(x, ...)]; shapes agree, so [+=] does
    not broadcast. *)
Fixpoint add_acc (L : Z) (pseudo : bool) (y : feat) (xs : list feat) : result feat :=
  match xs with
  | [] => Ok y
  | x :: t =>
      bind (change_max_degree_or_type x (Some L) (Some pseudo)) (fun z =>
        add_acc L pseudo (mkFeat (fB y) (fS y) (fD y) (fF y) (fdt y)
                            (fun i s d f => fv y i s d f + fv z i s d f)) t)
  end.

(** [add] (257-338).  Inputs with fewer than three axes are not features and are left out
    (the code rejects them with ValueError); no inputs at all raise IndexError. *)
Definition add (xs : list feat) : result feat :=
  match xs with
  | [] => Err IndexError
  | x0 :: _ =>
      bind (add_scan (fB x0) (fF x0) (fdt x0) xs 0 false) (fun Lp =>
        let '(L, pseudo) := Lp in
        add_acc L pseudo (mkFeat (fB x0) (if pseudo then 2 else 1) (Z.to_nat ((L + 1) * (L + 1))) (fF x0) (fdt x0)
                            (fun _ _ _ _ => 0)) xs)
  end.
