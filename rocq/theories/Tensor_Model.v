(** Model of the conversion between traceless symmetric tensors and irreps: e3x/so3/irreps.py:325-554
    and e3x/so3/_tensor_conversion_lut.py:48-200.

    Simplifications.  Numbers are real.  An array is its shape and the map from a multi-index to the
    entry.  Symbolic expressions are polynomials (Symbolic_Model).  sympy's [LUsolve] and the inverse of
    a matrix are arguments.  [empty] is the unspecified content of [jnp.empty]. *)
Require Import String List Reals ZArith Bool Arith.
Require Import Verif.Base Verif.RSum Verif.Common_Model Verif.LUT_Model Verif.Symbolic_Model.
Import ListNotations.
Open Scope R_scope.

(** * Iteration (Python's itertools) *)

(** [itertools.product(vals, repeat=r)] *)
Fixpoint product (vals : list nat) (r : nat) : list (list nat) :=
  match r with
  | O => [[]]
  | S r => flat_map (fun a => map (cons a) (product vals r)) vals
  end.

(** [itertools.combinations_with_replacement(vals, r)] *)
Fixpoint combinations_with_replacement (r : nat) : list nat -> list (list nat) :=
  match r with
  | O => fun _ => [[]]
  | S r' => fix go (vals : list nat) : list (list nat) :=
      match vals with
      | [] => []
      | a :: t => map (cons a) (combinations_with_replacement r' (a :: t)) ++ go t
      end
  end.

(** [itertools.combinations(vals, k)] *)
Fixpoint combinations (vals : list nat) (k : nat) : list (list nat) :=
  match k, vals with
  | O, _ => [[]]
  | S _, [] => []
  | S k', a :: t => map (cons a) (combinations t k') ++ combinations t k
  end.

Definition axes : list nat := [0; 1; 2]%nat.

(** A dictionary from index tuples to their position in an enumeration; [None]: KeyError. *)
Fixpoint position (key : list nat) (keys : list (list nat)) : option nat :=
  match keys with
  | [] => None
  | k :: t => if list_eq_dec Nat.eq_dec k key then Some 0%nat else option_map S (position key t)
  end.

(** [indices.at[i].set(x)] *)
Fixpoint set_entry (i x : nat) (l : list nat) : list nat :=
  match l, i with
  | [], _ => []
  | _ :: t, O => x :: t
  | y :: t, S i => y :: set_entry i x t
  end.

(** * Compression and expansion of symmetric tensors *)

(** [_tensor_compression_indices] (383-420): one array of indices for every dimension. *)
Definition tensor_compression_indices (degree : Z) : result (list (list nat)) :=
  bind (check_degree degree) (fun l =>
  Ok (if (l =? 0)%nat then []
      else map (fun d => map (fun c => nth d c 0%nat) (combinations_with_replacement l axes)) (seq 0 l))).

(** [_tensor_expansion_indices] (469-506) *)
Definition tensor_expansion_indices (empty : nat -> nat) (degree : Z) : result (list nat) :=
  bind (check_degree degree) (fun l =>
  let keys := product axes l in                                                    (* 491-495 *)
  let combos := combinations_with_replacement l axes in
  rfold (fun indices ic =>
      rfold (fun indices permutation =>
          match position permutation keys with
          | Some p => Ok (set_entry p (fst ic) indices)                            (* 505 *)
          | None => Err KeyError
          end) (distinct_permutations (snd ic)) indices)
    (combine (seq 0 (length combos)) combos) (map empty (seq 0 (length keys)))).

(** * The traceless tensor (_tensor_conversion_lut.py:48-143) *)

(** [r = [x, y, z]] (76) *)
Definition symbol (i : nat) : poly3 := match i with O => p3_x | S O => p3_y | _ => p3_z end.

(** Repeated outer products (81-84): entry (i1, ..., in), n >= 1. *)
Definition outer_powers (index : list nat) : poly3 :=
  match index with
  | [] => p3_const 1
  | i :: t => fold_left (fun p j => p3_mul p (symbol j)) t (symbol i)
  end.

(** [sp.factorial2] of a natural number *)
Fixpoint factorial2 (n : nat) : nat :=
  match n with O => 1 | S O => 1 | S (S k as k1) => S k1 * factorial2 k end%nat.

(** [multi_dirac_delta] (86-109), for a non-empty list; [np.unique] sorts the values, which does not
    matter for the product. *)
Definition multi_dirac_delta (alphas : list nat) : nat :=
  let counts := map (count_occ Nat.eq_dec alphas) (nodup Nat.eq_dec alphas) in
  if existsb (fun c => c mod 2 =? 1)%nat counts then 0%nat
  else fold_left Nat.mul (map (fun c => factorial2 (c - 1)) counts) 1%nat.

(** [alphas[index_combination]] and [np.delete(alphas, index_combination)] (134-135) *)
Definition chosen (alphas positions : list nat) : list nat := map (fun i => nth i alphas 0%nat) positions.
Definition leftover (alphas positions : list nat) : list nat :=
  map (fun i => nth i alphas 0%nat) (filter (fun i => negb (existsb (Nat.eqb i) positions)) (seq 0 (length alphas))).

Definition tensor_of_poly : Type := list nat -> poly3.

(** [b[alphas] += p] *)
Definition add_entry (alphas : list nat) (p : poly3) (b : tensor_of_poly) : tensor_of_poly :=
  fun i => if list_eq_dec Nat.eq_dec i alphas then p3_add (b i) p else b i.

(** [np.trace(trace, axis1=-2, axis2=-1)] (117) *)
Definition trace_last (t : tensor_of_poly) : tensor_of_poly := fun i => p3_sum 3 (fun k => t (i ++ [k; k])).

(** The fixed part of the prefactor (123-125) *)
Definition normalization_ratio (n m : nat) : R :=
  (-1) ^ m * (INR (factorial2 (2 * n - 1 - 2 * m)) / INR (factorial2 (2 * n - 1))).

(** Body of the loop over m (114-137); the state is ([b], [trace]). *)
Definition detrace_step (n : nat) (s : tensor_of_poly * tensor_of_poly) (m : nat) : tensor_of_poly * tensor_of_poly :=
  let '(b, trace) := s in
  let trace := trace_last trace in
  (fold_left (fun b alphas =>
       fold_left (fun b index_combination =>
           let prefactor := INR (multi_dirac_delta (chosen alphas index_combination)) * normalization_ratio n m in
           add_entry alphas (p3_scal prefactor (trace (leftover alphas index_combination))) b)
         (combinations (seq 0 n) (2 * m)) b)
     (combinations_with_replacement n axes) b, trace).

(** [_traceless_tensor] (48-143), in compressed format *)
Definition traceless_tensor (n : nat) : list poly3 :=
  match n with
  | O => [p3_const 1]                                                              (* 71-72 *)
  | S O => [p3_x; p3_y; p3_z]                                                      (* 75-78 *)
  | _ => map (fst (fold_left (detrace_step n) (seq 1 (n / 2)) (outer_powers, outer_powers)))
           (combinations_with_replacement n axes)                                  (* 81-143 *)
  end.

(** * Conversion matrices (_tensor_conversion_lut.py:146-200) *)

Definition matrix : Type := nat -> nat -> R.
Definition zeros : matrix := fun _ _ => 0.
Definition set_matrix (i j : nat) (c : R) (m : matrix) : matrix :=
  fun p q => if (p =? i)%nat && (q =? j)%nat then c else m p q.

(** The inner loops that fill column [col] (178-180, 186-188); [monomial_map] is the position in
    [_monomial_powers_of_degree(l)] (168-172). *)
Definition fill_column (l col : nat) (terms : list (list nat * R)) (m : matrix) : result matrix :=
  rfold (fun m t => match position (fst t) (monomial_powers_of_degree l) with
                    | Some i => Ok (set_matrix i col (snd t) m)
                    | None => Err KeyError
                    end) terms m.

(** (176-180) *)
Definition monomials_to_spherical (l : nat) : result matrix :=
  rfold (fun m isph => fill_column l isph (poly3_terms (spherical_harmonics_poly l (Z.of_nat isph - Z.of_nat l))) m)
    (seq 0 (2 * l + 1)) zeros.

(** (183-188) *)
Definition monomials_to_tensor (l : nat) : result matrix :=
  let components := traceless_tensor l in
  rfold (fun m ic => fill_column l (fst ic) (poly3_terms (snd ic)) m)
    (combine (seq 0 (length components)) components) zeros.

Definition multiply (n : nat) (a b : matrix) : matrix := fun i j => rsum n (fun k => a i k * b k j).
Definition transpose (a : matrix) : matrix := fun i j => a j i.

Section Conversion.
(** [A.LUsolve(b)] for a matrix with m rows and n columns *)
Variable lu_solve : nat -> nat -> matrix -> (nat -> R) -> result (nat -> R).
(** [A ** (-1)] for a square matrix *)
Variable inverse : nat -> matrix -> result matrix.

(** [_tensor_conversion_matrices] (146-200) *)
Definition tensor_conversion_matrices (l : nat) : result (matrix * matrix) :=
  let num_car := number_of_cartesian_monomials_of_degree l in
  let num_sph := (2 * l + 1)%nat in
  bind (monomials_to_spherical l) (fun m2s =>
  bind (monomials_to_tensor l) (fun m2t =>
  bind (rfold (fun s2t i =>
          bind (lu_solve num_car num_sph m2s (fun r => m2t r i)) (fun x =>
          Ok (fun p q => if (q =? i)%nat then x p else s2t p q : R)))              (* 192-193 *)
        (seq 0 num_car) zeros) (fun s2t =>
  bind (inverse num_sph (multiply num_car s2t (transpose s2t))) (fun g =>
  Ok (s2t, multiply num_sph (transpose s2t) g))))).                                (* 196 *)

(** The matrices as the lookup table sees them; it is proved that the computation never fails. *)
Definition conversion (l : nat) : matrix * matrix :=
  match tensor_conversion_matrices l with Ok m => m | Err _ => (zeros, zeros) end.

(** [_generate_tensor_conversion_lookup_table] *)
Definition tensor_conversion_table := tc_generate matrix conversion.

(** * Arrays *)
Record array : Type := mkArray { shape : list nat; get : list nat -> R }.

(** [_check_tensor_shape] (325-341) *)
Definition check_tensor_shape (x : array) (degree : Z) : result unit :=
  bind (check_degree degree) (fun l =>
  let s := shape x in
  if (length s =? 0)%nat then Err ValueError
  else if (l =? 0)%nat
  then if negb (last s 0 =? 1)%nat then Err ValueError else Ok tt
  else if list_eq_dec Nat.eq_dec (skipn (length s - l) s) (repeat 3%nat l) then Ok tt else Err ValueError).

(** [tensor_to_irreps] (423-466).  [x[(..., *indices)]] has one last dimension in place of the tensor
    dimensions; for degree 0 it is [x]. *)
Definition tensor_to_irreps (empty : nat) (w : world (tc_file matrix)) (s : schedule) (o : io)
    (x : array) (degree : Z) (cartesian_order : bool) (normalization : string) : world (tc_file matrix) * result array :=
  match bind (check_degree degree) (fun l => bind (check_tensor_shape x degree) (fun _ => Ok l)) with
  | Err e => (w, Err e)
  | Ok l =>
      let '(w, table) := tensor_conversion_table w degree s o in
      (w, bind table (fun t =>
          match nth_error (tc_t2s matrix t) l with
          | None => Err IndexError
          | Some t2s =>
              bind (normalization_constant normalization l) (fun c =>
              bind (tensor_compression_indices degree) (fun indices =>
              let t2s := fun i j => t2s i j * c in
              let columns := if cartesian_order then cartesian_permutation_for_degree empty l else seq 0 (2 * l + 1) in
              let batch := (length (shape x) - (if (l =? 0)%nat then 1 else l))%nat in
              let compressed b i := get x (b ++ (if (l =? 0)%nat then [i] else map (fun a => nth i a 0%nat) indices)) in
              Ok (mkArray (firstn batch (shape x) ++ [length columns])
                    (fun q => rsum (number_of_cartesian_monomials_of_degree l) (fun i =>
                       compressed (firstn batch q) i * t2s i (nth (nth batch q 0%nat) columns 0%nat))))))
          end))
  end.

(** Position of an index tuple of a (3, ..., 3) array in row-major order. *)
Definition ravel (index : list nat) : nat := fold_left (fun a i => 3 * a + i)%nat index 0%nat.

(** [irreps_to_tensor] (509-554) *)
Definition irreps_to_tensor (empty : nat) (empty_indices : nat -> nat) (w : world (tc_file matrix)) (s : schedule) (o : io)
    (x : array) (degree : Z) (cartesian_order : bool) (normalization : string) : world (tc_file matrix) * result array :=
  match bind (check_degree degree) (fun l =>
        match rev (shape x) with
        | [] => Err IndexError
        | d :: _ => if negb (d =? 2 * l + 1)%nat then Err ValueError else Ok l
        end) with
  | Err e => (w, Err e)
  | Ok l =>
      let '(w, table) := tensor_conversion_table w degree s o in
      (w, bind table (fun t =>
          match nth_error (tc_s2t matrix t) l with
          | None => Err IndexError
          | Some s2t =>
              bind (normalization_constant normalization l) (fun c =>
              bind (tensor_expansion_indices empty_indices degree) (fun expansion =>
              let s2t := fun i j => s2t i j / c in
              let rows := if cartesian_order then cartesian_permutation_for_degree empty l else seq 0 (2 * l + 1) in
              let batch := (length (shape x) - 1)%nat in
              let y b i := rsum (2 * l + 1) (fun k => get x (b ++ [k]) * s2t (nth k rows 0%nat) i) in
              let tail := if (l =? 0)%nat then [1%nat] else repeat 3%nat l in
              Ok (mkArray (firstn batch (shape x) ++ tail)
                    (fun q => y (firstn batch q)
                                (nth (if (l =? 0)%nat then nth batch q 0%nat else ravel (skipn batch q)) expansion 0%nat)))))
          end))
  end.
End Conversion.

(** * [is_traceless_symmetric] (344-380) *)

(** [itertools.permutations] *)
Fixpoint select {A : Type} (l : list A) : list (A * list A) :=
  match l with [] => [] | x :: l => (x, l) :: map (fun yr => (fst yr, x :: snd yr)) (select l) end.
Fixpoint permutations_of_length {A : Type} (n : nat) (l : list A) : list (list A) :=
  match n with
  | O => [[]]
  | S n => flat_map (fun xr => map (cons (fst xr)) (permutations_of_length n (snd xr))) (select l)
  end.
Definition permutations {A : Type} (l : list A) : list (list A) := permutations_of_length (length l) l.

Fixpoint index_of (j : nat) (l : list nat) : nat :=
  match l with [] => 0 | i :: l => if (i =? j)%nat then 0 else S (index_of j l) end%nat.

(** [jnp.transpose(x, axes)]: axis i of the result is axis axes[i] of x. *)
Definition transpose_array (x : array) (axes : list nat) : array :=
  mkArray (map (fun a => nth a (shape x) 0%nat) axes)
    (fun q => get x (map (fun j => nth (index_of j axes) q 0%nat) (seq 0 (length (shape x))))).

(** All indices of an array of the given shape. *)
Fixpoint all_indices (shape : list nat) : list (list nat) :=
  match shape with [] => [[]] | d :: s => flat_map (fun i => map (cons i) (all_indices s)) (seq 0 d) end.

(** [jnp.allclose(x, y)] for arrays of the same shape, with exact real numbers *)
Definition allclose (rtol atol : R) (x y : array) : bool :=
  forallb (fun q => if Rle_dec (Rabs (get x q - get y q)) (atol + rtol * Rabs (get y q)) then true else false) (all_indices (shape x)).

(** [jnp.trace(x, axis1=-2, axis2=-1)] for an array whose last two dimensions are n *)
Definition trace_array (x : array) : array :=
  let n := last (shape x) 0%nat in
  mkArray (firstn (length (shape x) - 2) (shape x)) (fun q => rsum n (fun i => get x (q ++ [i; i]))).

Definition is_traceless_symmetric (x : array) (degree : Z) (rtol atol : R) : result bool :=
  bind (check_degree degree) (fun l =>
  bind (check_tensor_shape x degree) (fun _ =>
  if (degree <? 2)%Z then Ok true
  else
    let batch := (length (shape x) - l)%nat in
    if forallb (fun permutation => allclose rtol atol x (transpose_array x (seq 0 batch ++ permutation)))
         (permutations (seq batch (length (shape x) - batch)))
    then let t := trace_array x in Ok (allclose rtol atol t (mkArray (shape t) (fun _ => 0)))
    else Ok false)).
