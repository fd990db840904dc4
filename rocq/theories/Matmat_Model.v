(** Model of e3x/matrix/matmat.py.  Numbers are real; batch dimensions are not modelled; random
    numbers are arguments.  Degrees and multiplicities are natural numbers. *)
Require Import List Reals ZArith Bool.
Require Import Verif.Base Verif.RSum.
Import ListNotations.
Open Scope R_scope.

(** A two-dimensional array. *)
Record mat : Type := mkMat { rows : nat; cols : nat; val : nat -> nat -> R }.

(** [compute_side_lengths] (57-66). *)
Definition compute_side_lengths (degrees : list nat) : list nat := map (fun l => 2 * l + 1)%nat degrees.

(** Python [defaultdict(int)] with [d[l] += 1]. *)
Fixpoint increment (d : list (nat * nat)) (l : nat) : list (nat * nat) :=
  match d with
  | [] => [(l, 1%nat)]
  | (k, n) :: t => if (k =? l)%nat then (k, S n) :: t else (k, n) :: increment t l
  end.

Fixpoint lookup (d : list (nat * nat)) (l : nat) : nat :=
  match d with [] => 0%nat | (k, n) :: t => if (k =? l)%nat then n else lookup t l end.

(** Python [range(a, b)] for natural numbers. *)
Definition nrange (a b : nat) : list nat := seq a (b - a).

Definition absdiff (a b : nat) : nat := ((a - b) + (b - a))%nat.

(** [make_dict_irreps_mult] (69-95). *)
Definition make_dict_irreps_mult (degrees : list nat) (max_degree : option nat) : list (nat * nat) :=
  fold_left (fun d p =>
      let '(la, lb) := p in
      let max_l := match max_degree with None => (la + lb)%nat | Some m => Nat.min (la + lb) m end in
      fold_left increment (nrange (absdiff la lb) (max_l + 1)) d)
    (list_prod degrees degrees) [].

(** [max] of a list; raises if it is empty. *)
Definition list_max1 (l : list nat) : result nat :=
  match l with [] => Err ValueError | a :: t => Ok (fold_left Nat.max t a) end.

(** [init_matrix_irreps_weights] (98-121): weights of each degree from standard normal numbers. *)
Definition init_matrix_irreps_weights (normal : nat -> nat -> nat -> R) (n_shells : nat) (dict_irreps : list (nat * nat))
    (mult : nat) (stddev : R) : result (list mat) :=
  bind (list_max1 (map fst dict_irreps)) (fun max_l =>
  Ok (map (fun l => mkMat n_shells (lookup dict_irreps l * mult * mult)
              (fun i j => normal l i j * stddev / sqrt (INR (2 * l + 1)))) (nrange 0 (max_l + 1)))).

(** [inputs[..., start:stop, :]]: slices are cut off at the end of the array. *)
Definition slice_rows (x : mat) (start stop : nat) : mat :=
  mkMat (Nat.min stop (rows x) - start) (cols x) (fun i j => val x (start + i)%nat j).
Definition slice_cols (x : mat) (start stop : nat) : mat :=
  mkMat (rows x) (Nat.min stop (cols x) - start) (fun i j => val x i (start + j)%nat).

(** [combine_irreps] (124-149). *)
Definition combine_irreps (inputs : mat) (weights : list mat) : result (list mat) :=
  if forallb (fun w => (rows w =? cols inputs)%nat) weights
  then Ok (map (fun p => let '(l, w) := p in
         let x := slice_rows inputs (l * l) ((l + 1) * (l + 1)) in
         mkMat (rows x) (cols w) (fun v o => rsum (cols inputs) (fun i => val w i o * val x v i)))
       (combine (seq 0 (length weights)) weights))
  else Err AssertionError.

(** [jnp.concatenate(concat, axis=0)]: number of columns must agree. *)
Fixpoint stack_value (l : list mat) (i j : nat) : R :=
  match l with
  | [] => 0
  | x :: t => if (i <? rows x)%nat then val x i j else stack_value t (i - rows x) j
  end.

Definition concat_rows (l : list mat) : result mat :=
  match l with
  | [] => Err ValueError
  | x :: t => if forallb (fun y => (cols y =? cols x)%nat) t
              then Ok (mkMat (fold_left Nat.add (map rows l) 0%nat) (cols x) (stack_value l)) else Err TypeError
  end.

(** Clebsch-Gordan coefficients with their shape. *)
Record tensor3 : Type := mkT3 { t1 : nat; t2 : nat; t3 : nat; tval : nat -> nat -> nat -> R }.

Fixpoint update_at (l : list nat) (i x : nat) : list nat :=
  match l, i with
  | [], _ => []
  | _ :: t, O => x :: t
  | y :: t, S k => y :: update_at t k x
  end.

(** The loop over degrees that advances [idx] (212-217). *)
Fixpoint advance (irreps : list mat) (idx : list nat) (m2 : nat) (ls : list nat) : result (list nat) :=
  match ls with
  | [] => Ok idx
  | l :: t =>
      match nth_error idx l, nth_error irreps l with
      | Some k, Some x => if (cols x <? k + m2)%nat then Err ValueError else advance irreps (update_at idx l (k + m2)) m2 t
      | _, _ => Err IndexError
      end
  end.

(** [irreps[l][:, idx[l] : idx[l] + m2]] (209) for all degrees in a list. *)
Fixpoint take_irreps (irreps : list mat) (idx : list nat) (m2 : nat) (ls : list nat) : result (list mat) :=
  match ls with
  | [] => Ok []
  | l :: t =>
      match nth_error irreps l, nth_error idx l with
      | Some x, Some k => rmap (cons (slice_cols x k (k + m2))) (take_irreps irreps idx m2 t)
      | _, _ => Err IndexError
      end
  end.

(** [make_rectangular_matrix] (152-230); also returns the new value of [idx], which the code
    updates in place.  The arrays in [irreps] are two-dimensional by construction. *)
Definition make_rectangular_matrix (irreps : list mat) (idx : list nat) (a b : nat) (cg : tensor3) (mult : nat)
  : result (mat * list nat) :=
  match irreps with
  | [] => if (a mod 2 =? 0)%nat || (b mod 2 =? 0)%nat then Err ValueError else Err IndexError
  | x0 :: _ =>
    if (rows x0 mod 2 =? 0)%nat then Err ValueError
    else if (a mod 2 =? 0)%nat then Err ValueError
    else if (b mod 2 =? 0)%nat then Err ValueError
    else
      let l_min := (rows x0 / 2)%nat in
      let l_max := (rows (last irreps x0) / 2)%nat in
      let la := (a / 2)%nat in
      let lb := (b / 2)%nat in
      let lower := Nat.max (absdiff la lb) l_min in
      let upper := (Nat.min (la + lb) l_max + 1)%nat in
      if (upper <=? lower)%nat then Ok (mkMat (a * mult) (b * mult) (fun _ _ => 0), idx)
      else if (t1 cg <? (la + 1) * (la + 1))%nat then Err ValueError
      else if (t2 cg <? (lb + 1) * (lb + 1))%nat then Err ValueError
      else if (t3 cg <? upper * upper)%nat then Err ValueError
      else
        let m2 := (mult * mult)%nat in
        let ls := nrange lower upper in
        bind (take_irreps irreps idx m2 ls) (fun pieces =>
        bind (concat_rows pieces) (fun v =>
        bind (advance irreps idx m2 ls) (fun idx' =>
        if negb (rows v =? upper * upper - lower * lower)%nat then Err ValueError   (* einsum *)
        else
          let entry i j f := rsum (rows v) (fun m => val v m f * tval cg (la * la + i)%nat (lb * lb + j)%nat (lower * lower + m)%nat) in
          (* reshape to (a, b, mult, mult), transpose (2, 0, 3, 1), reshape *)
          Ok (mkMat (a * mult) (b * mult) (fun r c => entry (r mod a) (c mod b) (r / a * mult + c / b))%nat, idx'))))
  end.

(** [jnp.eye] *)
Definition eye (i j : nat) : R := if (i =? j)%nat then 1 else 0.

(** [result.at[start_a:end_a, start_b:end_b].set(new_rect)] *)
Definition set_block (m : nat -> nat -> R) (sa ea sb eb : nat) (x : mat) : nat -> nat -> R := fun r c =>
  if (sa <=? r)%nat && (r <? ea)%nat && (sb <=? c)%nat && (c <? eb)%nat then val x (r - sa)%nat (c - sb)%nat else m r c.

(** State of the loops (273-286): the matrix, [idx], and [start_b] or [start_a]. *)
Definition inner_step (irreps : list mat) (cg : tensor3) (mult : nat) (shift : bool) (start_a a : nat)
    (s : result ((nat -> nat -> R) * list nat * nat)) (b : nat) : result ((nat -> nat -> R) * list nat * nat) :=
  bind s (fun s => let '(m, idx, start_b) := s in
  bind (make_rectangular_matrix irreps idx a b cg mult) (fun p => let '(rect, idx') := p in
  let rect := if shift && (start_a =? start_b)%nat
              then mkMat (rows rect) (cols rect) (fun i j => val rect i j + eye i j) else rect in
  Ok (set_block m start_a (start_a + a * mult) start_b (start_b + b * mult) rect, idx', start_b + b * mult)%nat)).

Definition outer_step (irreps : list mat) (cg : tensor3) (mult : nat) (shift : bool) (ns : list nat)
    (s : result ((nat -> nat -> R) * list nat * nat)) (a : nat) : result ((nat -> nat -> R) * list nat * nat) :=
  bind s (fun s => let '(m, idx, start_a) := s in
  bind (fold_left (inner_step irreps cg mult shift start_a a) ns (Ok (m, idx, 0%nat))) (fun s' =>
  let '(m', idx', _) := s' in Ok (m', idx', start_a + a * mult)%nat)).

(** [make_square_matrix] (233-287).  [clebsch_gordan] is [so3.clebsch_gordan] in Cartesian order. *)
Definition make_square_matrix (clebsch_gordan : Z -> Z -> Z -> result (nat -> nat -> nat -> R))
    (irreps : list mat) (degrees : list nat) (mult max_degree : nat) (shift : bool) : result mat :=
  bind (list_max1 degrees) (fun L =>
  if (max_degree <? L)%nat then Err ValueError
  else if existsb (fun x => (rows x mod 2 =? 0)%nat) irreps then Err ValueError
  else
    bind (clebsch_gordan (Z.of_nat L) (Z.of_nat L) (Z.of_nat max_degree)) (fun C =>
    let cg := mkT3 ((L + 1) * (L + 1)) ((L + 1) * (L + 1)) ((max_degree + 1) * (max_degree + 1)) C in
    let ns := compute_side_lengths degrees in
    let side := (fold_left Nat.add ns 0 * mult)%nat in
    bind (fold_left (outer_step irreps cg mult shift ns) ns (Ok (fun _ _ => 0, repeat 0%nat (length irreps), 0%nat))) (fun s =>
    let '(m, _, _) := s in Ok (mkMat side side m)))).

(** [mat[r0:r1, c0:c1].trace()] of a square block. *)
Definition block_trace (m : nat -> nat -> R) (r0 c0 a : nat) : R := rsum a (fun k => m (r0 + k)%nat (c0 + k)%nat).

(** [get_traces] (290-309). *)
Definition get_traces (x : mat) (ls : list nat) (mult : nat) (shift : bool) : list R :=
  fst (fold_left (fun s l => let '(out, start) := s in
         let a := (2 * l + 1)%nat in
         (out ++ map (fun p => let '(i, j) := p in
                        block_trace (val x) (start + i * a) (start + j * a) a - (if shift && (i =? j)%nat then INR a else 0))
                   (list_prod (seq 0 mult) (seq 0 mult)),
          (start + a * mult)%nat)) ls ([], 0%nat)).
