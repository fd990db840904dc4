(** Model of e3x/ops/safe.py and of the 3x3 part of e3x/so3/rotations.py (real arithmetic).

    [tiny] and [epsneg] stand for the [jnp.finfo(dtype)] constants. *)
Require Import List Reals ZArith Bool.
Require Import Verif.Base Verif.Radial_Model.
Import ListNotations.
Open Scope R_scope.

(** * ops/safe.py

    An array is given as the list of groups of entries that are reduced together: [axis=None] is one
    group with all the entries, [axis=-1] of a [... x 3] array is one group of three entries for each
    batch index.  [keepdims] only changes the shape. *)
Definition sum_list (l : list R) : R := fold_right Rplus 0 l.
Definition sum_squares (l : list R) : R := sum_list (map (fun v => v * v) l).
Definition max_abs (l : list R) : R := fold_right (fun v m => Rmax (Rabs v) m) 0 l.

(** [norm] (ops/safe.py:32-62).  The scale [a] is taken over the whole array; [jnp.max] of an array
    without entries raises. *)
Definition norm (tiny : R) (x : list (list R)) : result (list R) :=
  match concat x with
  | [] => Err ValueError
  | _ =>
      let a := Rmax (max_abs (concat x)) tiny in
      Ok (map (fun g => a * sqrt (sum_squares (map (fun v => v / a) g))) x)
  end.

(** [_norm_jvp_impl] (65-84). *)
Definition norm_jvp (tiny : R) (x x_dot : list (list R)) : result (list R * list R) :=
  bind (norm tiny x) (fun primal_out =>
    let masked_primal_out := map (fun n => if Rltb 0 n then n else 1) primal_out in
    let tangent_out :=
      map (fun gn => let '(g, g_dot, n) := gn in
                     sum_list (map (fun p => fst p * snd p / n) (combine g_dot g)))
          (combine (combine x x_dot) masked_primal_out) in
    Ok (primal_out, tangent_out)).

(** [normalize_and_return_norm] (87-114) and [normalize] (117-137). *)
Definition normalize_and_return_norm (tiny : R) (x : list (list R)) : result (list (list R) * list R) :=
  bind (norm tiny x) (fun n =>
    Ok (map (fun gn => map (fun v => v / (if Rltb tiny (snd gn * snd gn) then snd gn else 1)) (fst gn))
            (combine x n), n)).
Definition normalize (tiny : R) (x : list (list R)) : result (list (list R)) :=
  rmap fst (normalize_and_return_norm tiny x).

(** * Vectors and matrices *)
Definition vec : Type := R * R * R.
(** Row i of a 3x3 array [m] is the i-th component of the triple. *)
Definition mat : Type := vec * vec * vec.

Definition vlist (v : vec) : list R := let '(x, y, z) := v in [x; y; z].
Definition vof (l : list R) : vec := (nth 0 l 0, nth 1 l 0, nth 2 l 0).

(** [jnp.stack((row1, row2, row3), axis=-1)]: entry (i,j) is entry i of [row_j]. *)
Definition stack_last (row1 row2 row3 : vec) : mat :=
  let '(a1, a2, a3) := row1 in let '(b1, b2, b3) := row2 in let '(c1, c2, c3) := row3 in
  ((a1, b1, c1), (a2, b2, c2), (a3, b3, c3)).

(** [ops.normalize(v, axis=-1)] for a batch of vectors. *)
Definition normalize_rows (tiny : R) (vs : list vec) : result (list vec) :=
  rmap (map vof) (normalize tiny (map vlist vs)).

(** [ops.normalize(v)] (axis=None) for a batch of vectors: one norm for the whole array. *)
Definition normalize_all (tiny : R) (vs : list vec) : result (list vec) :=
  rmap (fun y => map vof (chunks (length vs) 3 (concat y))) (normalize tiny [concat (map vlist vs)]).

Definition cross (u v : vec) : vec :=
  let '(u1, u2, u3) := u in let '(v1, v2, v3) := v in
  (u2 * v3 - u3 * v2, u3 * v1 - u1 * v3, u1 * v2 - u2 * v1).

(** [rotation] for one batch entry after normalising the axis (rotations.py:80-91). *)
Definition rotation_of_normalized (axis : vec) (angle : R) : mat :=
  let '(k1, k2, k3) := axis in
  let a := cos (0.5 * angle) in
  let s := sin (0.5 * angle) in
  let b := - k1 * s in
  let c := - k2 * s in
  let d := - k3 * s in
  let a2 := a * a in let b2 := b * b in let c2 := c * c in let d2 := d * d in
  let ab := a * b in let ac := a * c in let ad := a * d in
  let bc := b * c in let bd := b * d in let cd := c * d in
  let row1 := (a2 + b2 - c2 - d2, 2 * (bc + ad), 2 * (bd - ac)) in
  let row2 := (2 * (bc - ad), a2 + c2 - b2 - d2, 2 * (cd + ab)) in
  let row3 := (2 * (bd + ac), 2 * (cd - ab), a2 + d2 - b2 - c2) in
  stack_last row1 row2 row3.

(** [rotation] (55-91) for a batch of axes and as many angles. *)
Definition rotation (tiny : R) (axis : list vec) (angle : list R) : result (list mat) :=
  bind (normalize_rows tiny axis) (fun axis =>
    Ok (map (fun p => rotation_of_normalized (fst p) (snd p)) (combine axis angle))).

Definition vadd (u v : vec) : vec :=
  let '(u1, u2, u3) := u in let '(v1, v2, v3) := v in (u1 + v1, u2 + v2, u3 + v3).
(** [jnp.roll(u, shift=1, axis=-1)]. *)
Definition roll1 (u : vec) : vec := let '(u1, u2, u3) := u in (u3, u1, u2).

Definition mmul (a b : mat) : mat :=
  let '((a11, a12, a13), (a21, a22, a23), (a31, a32, a33)) := a in
  let '((b11, b12, b13), (b21, b22, b23), (b31, b32, b33)) := b in
  ((a11 * b11 + a12 * b21 + a13 * b31, a11 * b12 + a12 * b22 + a13 * b32, a11 * b13 + a12 * b23 + a13 * b33),
   (a21 * b11 + a22 * b21 + a23 * b31, a21 * b12 + a22 * b22 + a23 * b32, a21 * b13 + a22 * b23 + a23 * b33),
   (a31 * b11 + a32 * b21 + a33 * b31, a31 * b12 + a32 * b22 + a33 * b32, a31 * b13 + a32 * b23 + a33 * b33)).
Definition vmap2 (f : R -> R -> R) (u v : vec) : vec :=
  let '(u1, u2, u3) := u in let '(v1, v2, v3) := v in (f u1 v1, f u2 v2, f u3 v3).
Definition madd (a b : mat) : mat :=
  let '(a1, a2, a3) := a in let '(b1, b2, b3) := b in
  (vmap2 Rplus a1 b1, vmap2 Rplus a2 b2, vmap2 Rplus a3 b3).
Definition vscale (s : R) (u : vec) : vec := let '(u1, u2, u3) := u in (u1 * s, u2 * s, u3 * s).
Definition mscale (a : mat) (s : R) : mat :=
  let '(a1, a2, a3) := a in (vscale s a1, vscale s a2, vscale s a3).
Definition eye3 : mat := ((1, 0, 0), (0, 1, 0), (0, 0, 1)).

(** The skew-symmetric matrix (126-131). *)
Definition skew (u v : vec) : mat :=
  let '(x1, x2, x3) := cross u v in
  let col1 := (0, - x3, x2) in
  let col2 := (x3, 0, - x1) in
  let col3 := (- x2, x1, 0) in
  stack_last col1 col2 col3.

Definition sum_prod (u v : vec) : R := sum_list (vlist (vmap2 Rmult u v)).

(** The general case (133-137) for normalised [u], [v]. *)
Definition align_div (u v : vec) : R := 1 + sum_prod u v.
Definition align_general (u v : vec) : mat :=
  let div := align_div u v in
  let safe_div := if Rltb 0 div then div else 1 in
  madd (madd (skew u v) (mscale (mmul (skew u v) (skew u v)) (1 / safe_div))) eye3.

(** [alignment_rotation] (94-143) for batches of equal length.  Note that line 140 normalises [w] with
    [axis=None], i.e. by the norm of the whole batch. *)
Definition alignment_rotation (tiny : R) (u v : list vec) : result (list mat) :=
  bind (normalize_rows tiny u) (fun u =>
  bind (normalize_rows tiny v) (fun v =>
  bind (normalize_all tiny (map (fun a => vadd a (roll1 a)) u)) (fun w =>
  bind (rotation tiny (map (fun p => cross (fst p) (snd p)) (combine u w)) (repeat PI (length u))) (fun anti =>
    Ok (map (fun p => let '(a, b, r) := p in
                      if Rltb 0 (align_div a b) then align_general a b else r)
            (combine (combine u v) anti)))))).

(** [rotation_euler] (146-201), one batch entry. *)
Definition rotation_euler (a b c : R) : mat :=
  let sin_a := sin a in let cos_a := cos a in
  let sin_b := sin b in let cos_b := cos b in
  let sin_c := sin c in let cos_c := cos c in
  let row1 := (cos_b * cos_c,
               sin_a * sin_b * cos_c - cos_a * sin_c,
               cos_a * sin_b * cos_c + sin_a * sin_c) in
  let row2 := (cos_b * sin_c,
               sin_a * sin_b * sin_c + cos_a * cos_c,
               cos_a * sin_b * sin_c - sin_a * cos_c) in
  let row3 := (- sin_b, sin_a * cos_b, cos_a * cos_b) in
  stack_last row1 row2 row3.

(** [jnp.arctan2]. *)
Definition atan2 (y x : R) : R :=
  if Rltb 0 x then atan (y / x)
  else if Rltb x 0 then (if Rltb y 0 then atan (y / x) - PI else atan (y / x) + PI)
  else if Rltb 0 y then PI / 2 else if Rltb y 0 then - PI / 2 else 0.

(** [_check_rotation_matrix_shape] (38-52): the last two axes have sizes three. *)
Definition check_rotation_matrix_shape (shape : list nat) : result unit :=
  if andb (2 <=? length shape)%nat
          (if list_eq_dec Nat.eq_dec (skipn (length shape - 2) shape) [3%nat; 3%nat] then true else false)
  then Ok tt else Err ValueError.

(** [euler_angles_from_rotation] (204-248), one batch entry. *)
Definition euler_angles_of (epsneg : R) (rot : mat) : R * R * R :=
  let '((r00, r01, r02), (r10, r11, r12), (r20, r21, r22)) := rot in
  let b := - asin r02 in
  let cos_b := cos b in
  let safe_cos_b := if Reqb cos_b 0 then 1 else cos_b in
  let a := atan2 (r12 / safe_cos_b) (r22 / safe_cos_b) in
  let c := atan2 (r01 / safe_cos_b) (r00 / safe_cos_b) in
  let almost1 := 1 - epsneg in
  let mask_pos := Rltb almost1 r02 in
  let mask_neg := Rltb r02 (- almost1) in
  let c := if mask_pos || mask_neg then 0 else c in
  let a := if mask_pos then atan2 (- r10) (- r20) else a in
  let b := if mask_pos then - PI / 2 else b in
  let a := if mask_neg then atan2 r10 r20 else a in
  let b := if mask_neg then PI / 2 else b in
  (a, b, c).

Definition euler_angles_from_rotation (epsneg : R) (shape : list nat) (rot : list mat)
    : result (list (R * R * R)) :=
  bind (check_rotation_matrix_shape shape) (fun _ => Ok (map (euler_angles_of epsneg) rot)).

(** [jax.lax.clamp(lo, x, hi)]. *)
Definition clamp (lo x hi : R) : R := Rmin (Rmax x lo) hi.

(** [random_rotation] (251-325) for one row [u] of the uniform draws. *)
Definition random_quaternion (u : vec) : R * R * R * R :=
  let '(u0, u1, u2) := u in
  let twopi := 2 * PI in
  let sqrt1 := sqrt (1 - u0) in
  let sqrt2 := sqrt u0 in
  let angl1 := twopi * u1 in
  let angl2 := twopi * u2 in
  (sqrt1 * sin angl1, sqrt1 * cos angl1, sqrt2 * sin angl2, sqrt2 * cos angl2).

Definition slerp (p : R) (q : R * R * R * R) : R * R * R * R :=
  let '(r, i, j, k) := q in
  let flip := Rltb r 0 in
  let i := if flip then - i else i in
  let j := if flip then - j else j in
  let k := if flip then - k else k in
  let r := if flip then - r else r in
  let phi := acos r in
  let sinphi := sin phi in
  let zeromask := Rltb (Rabs sinphi) (/ 10 ^ 9) in
  let f1 := if zeromask then 1 - p else sin ((1 - p) * phi) / sinphi in
  let f2 := if zeromask then p else sin (p * phi) / sinphi in
  (f1 + f2 * r, f2 * i, f2 * j, f2 * k).

Definition quaternion_matrix (q : R * R * R * R) : mat :=
  let '(r, i, j, k) := q in
  let i2 := i * i in let j2 := j * j in let k2 := k * k in
  let ij := i * j in let ik := i * k in let jk := j * k in
  let ir := i * r in let jr := j * r in let kr := k * r in
  let row1 := (1 - 2 * (j2 + k2), 2 * (ij - kr), 2 * (ik + jr)) in
  let row2 := (2 * (ij + kr), 1 - 2 * (i2 + k2), 2 * (jk - ir)) in
  let row3 := (2 * (ik - jr), 2 * (jk + ir), 1 - 2 * (i2 + j2)) in
  stack_last row1 row2 row3.

Definition random_rotation_row (perturbation : R) (u : vec) : mat :=
  quaternion_matrix (slerp (clamp 0 perturbation 1) (random_quaternion u)).

(** The result for draws [u] of shape (num, 3): the shape after [jnp.squeeze] and the matrices. *)
Definition random_rotation (perturbation : R) (u : list vec) : list nat * list mat :=
  (if (length u =? 1)%nat then [3; 3]%nat else [length u; 3; 3]%nat,
   map (random_rotation_row perturbation) u).
