(** Model of e3x/util.py, e3x/config.py, e3x/so3/_normalization.py and
    e3x/so3/_common.py. *)
Require Import String List ZArith Bool Reals.
Require Import Verif.Base.
Import ListNotations.

(** * util.py *)

(** [is_broadcastable] (util.py:22-35): the loop over [zip(shape1[::-1], shape2[::-1])]. *)
Fixpoint broadcast_loop (a b : list Z) : bool :=
  match a, b with
  | x :: a', y :: b' =>
      if negb ((x =? y)%Z || (x =? 1)%Z || (y =? 1)%Z) then false else broadcast_loop a' b'
  | _, _ => true
  end.

Definition is_broadcastable (shape1 shape2 : list Z) : bool :=
  broadcast_loop (rev shape1) (rev shape2).

(** * so3/_normalization.py *)

(** [valid_normalizations] (_normalization.py:21). *)
Definition valid_normalizations : list string :=
  ["4pi"; "orthonormal"; "racah"; "schmidt"]%string.

(** [check_normalization_is_valid] (26-32). *)
Definition check_normalization_is_valid (n : string) : result unit :=
  if existsb (String.eqb n) valid_normalizations then Ok tt else Err ValueError.

(** [normalization_constant] (35-45). *)
Definition normalization_constant (n : string) (degree : nat) : result R :=
  bind (check_normalization_is_valid n) (fun _ =>
    if String.eqb n "4pi" then Ok (sqrt (2 * INR degree + 1))
    else if String.eqb n "orthonormal" then Ok (sqrt ((2 * INR degree + 1) / (4 * PI)))
    else Ok 1%R).

(** * config.py *)

(** The class attributes of [Config] (config.py:43-49).  Paths are modelled by strings. *)
Record config := mkConfig {
  cartesian_order : bool;
  use_fused_tensor : bool;
  normalization : string;
  spherical_harmonics_cache : option string;
  clebsch_gordan_cache : option string;
  wigner_d_cache : option string;
  tensor_conversion_cache : option string }.

Definition default_config : config := mkConfig true false "racah" None None None None.

(** One call of a setter (51-127); the argument is what the user passes. *)
Inductive setter_call : Type :=
| SetCartesianOrder (b : bool)
| SetUseFusedTensor (b : bool)
| SetNormalization (n : string)
| SetSphericalHarmonicsCache (p : option string)
| SetClebschGordanCache (p : option string)
| SetWignerDCache (p : option string)
| SetTensorConversionCache (p : option string).

(** Effect of one call: new configuration and whether it raised (51-127). *)
Definition run_setter (c : config) (s : setter_call) : config * result unit :=
  match s with
  | SetCartesianOrder b =>
      (mkConfig b (use_fused_tensor c) (normalization c) (spherical_harmonics_cache c)
         (clebsch_gordan_cache c) (wigner_d_cache c) (tensor_conversion_cache c), Ok tt)
  | SetUseFusedTensor b =>
      (mkConfig (cartesian_order c) b (normalization c) (spherical_harmonics_cache c)
         (clebsch_gordan_cache c) (wigner_d_cache c) (tensor_conversion_cache c), Ok tt)
  | SetNormalization n =>
      match check_normalization_is_valid n with                         (* 79 *)
      | Ok _ =>
        (mkConfig (cartesian_order c) (use_fused_tensor c) n (spherical_harmonics_cache c)
           (clebsch_gordan_cache c) (wigner_d_cache c) (tensor_conversion_cache c), Ok tt)
      | Err e => (c, Err e)
      end
  | SetSphericalHarmonicsCache p =>
      (mkConfig (cartesian_order c) (use_fused_tensor c) (normalization c) p
         (clebsch_gordan_cache c) (wigner_d_cache c) (tensor_conversion_cache c), Ok tt)
  | SetClebschGordanCache p =>
      (mkConfig (cartesian_order c) (use_fused_tensor c) (normalization c)
         (spherical_harmonics_cache c) p (wigner_d_cache c) (tensor_conversion_cache c), Ok tt)
  | SetWignerDCache p =>
      (mkConfig (cartesian_order c) (use_fused_tensor c) (normalization c)
         (spherical_harmonics_cache c) (clebsch_gordan_cache c) p (tensor_conversion_cache c), Ok tt)
  | SetTensorConversionCache p =>
      (mkConfig (cartesian_order c) (use_fused_tensor c) (normalization c)
         (spherical_harmonics_cache c) (clebsch_gordan_cache c) (wigner_d_cache c) p, Ok tt)
  end.

(** A program is a list of setter calls; exceptions are caught by the caller. *)
Fixpoint run_setters (c : config) (h : list setter_call) : config :=
  match h with [] => c | s :: t => run_setters (fst (run_setter c s)) t end.

(** * so3/_common.py *)

(** [_check_degree_is_positive_or_zero] (28-31). *)
Definition check_degree (degree : Z) : result nat :=
  if (degree <? 0)%Z then Err ValueError else Ok (Z.to_nat degree).

(** [p.at[i].set(v)] on a 1-d array: out of bounds updates are dropped. *)
Fixpoint set_nth {A : Type} (i : nat) (v : A) (p : list A) : list A :=
  match p, i with
  | [], _ => []
  | _ :: t, O => v :: t
  | a :: t, S k => a :: set_nth k v t
  end.

(** [p.at[start : start + len(vals)].set(vals)]. *)
Definition set_slice {A : Type} (start : nat) (vals p : list A) : list A :=
  firstn start p ++ vals ++ skipn (start + length vals) p.

(** The loop of [_cartesian_permutation_for_degree] (38-43): state is (p, i). *)
Fixpoint cart_perm_loop (l : nat) (ms : list nat) (st : list nat * nat) : list nat * nat :=
  match ms with
  | [] => st
  | m :: t =>
      let '(p, i) := st in
      let p := set_nth i (2 * l + 1 - (m + 1)) p in
      let i := i + 1 in
      let p := set_nth i m p in
      let i := i + 1 in
      cart_perm_loop l t (p, i)
  end.

(** [_cartesian_permutation_for_degree(l)] (34-45).  [empty] is the unspecified content
    of [jnp.empty]. *)
Definition cartesian_permutation_for_degree (empty : nat) (l : nat) : list nat :=
  let p := repeat empty (2 * l + 1) in
  let '(p, i) := cart_perm_loop l (seq 0 l) (p, 0) in
  set_nth i ((2 * l + 1) / 2) p.

(** [_cartesian_permutation(max_degree)] (48-58). *)
Definition cartesian_permutation (empty : nat) (max_degree : nat) : list nat :=
  fold_left
    (fun p l => set_slice (l ^ 2) (map (fun x => x + l ^ 2) (cartesian_permutation_for_degree empty l)) p)
    (seq 0 (max_degree + 1))
    (repeat empty ((max_degree + 1) ^ 2)).

(** [pmat[pvec, :][:, pvec]] for [pmat = arange(num * num).reshape(num, num)], flattened
    (71-72). *)
Definition permuted_entries (num : nat) (pvec : list nat) : list nat :=
  flat_map (fun r => map (fun c => r * num + c) pvec) pvec.

(** The loop of [_cartesian_permutation_wigner_d_entries] (66-75): accumulated list and offset. *)
Fixpoint wigner_perm_loop (empty : nat) (ls : list nat) (acc : list nat) (offset : nat) : list nat :=
  match ls with
  | [] => acc
  | l :: t =>
      let pvec := cartesian_permutation_for_degree empty l in
      let num := length pvec in
      let pmat := permuted_entries num pvec in
      wigner_perm_loop empty t (acc ++ map (fun x => x + offset) pmat) (offset + length pmat)
  end.

Definition cartesian_permutation_wigner_d_entries (empty : nat) (max_degree : nat) : list nat :=
  wigner_perm_loop empty (seq 0 (max_degree + 1)) [] 0.

(** [math.comb(n, k)] by Pascal's rule. *)
Fixpoint comb (n k : nat) : nat :=
  match k, n with
  | O, _ => 1
  | S _, O => 0
  | S k', S n' => comb n' k' + comb n' k
  end.

(** Counts (78-117). *)
Definition number_of_cartesian_monomials_of_degree (d : nat) : nat := ((d + 1) * (d + 2)) / 2.
Definition number_of_spherical_harmonics_of_degree (d : nat) : nat := 2 * d + 1.
Definition number_of_rotation_matrix_monomials_of_degree (d : nat) : nat := comb (d + 8) d.
Definition number_of_wigner_d_entries_of_degree (d : nat) : nat :=
  let num := 2 * d + 1 in num * num.
Definition total_number_of_cartesian_monomials (L : nat) : nat := ((L + 1) * (L + 2) * (L + 3)) / 6.
Definition total_number_of_spherical_harmonics (L : nat) : nat := (L + 1) * (L + 1).
Definition total_number_of_rotation_matrix_monomials (L : nat) : nat :=
  ((L + 1) * comb (L + 9) (L + 1)) / 9.
Definition total_number_of_wigner_d_entries (L : nat) : nat :=
  ((L + 1) * (2 * L + 1) * (2 * L + 3)) / 3.

(** [_partitions(n, k, l)] (120-130). *)
Fixpoint partitions (k : nat) (n l : nat) : list (list nat) :=
  match k with
  | O => []                                                             (* 122-123 *)
  | S k' =>
      match k' with
      | O => if l <=? n then [[n]] else []                              (* 124-127 *)
      | S _ => flat_map (fun i => map (cons i) (partitions k' (n - i) i))
                        (seq l (n + 1 - l))                             (* 128-130 *)
      end
  end.

(** [more_itertools.distinct_permutations(p)]: all distinct rearrangements, in
    lexicographic order for a sorted argument (library function, re-implemented). *)
Fixpoint remove_one (x : nat) (l : list nat) : list nat :=
  match l with
  | [] => []
  | y :: t => if x =? y then t else y :: remove_one x t
  end.

Fixpoint distinct_permutations_fuel (n : nat) (l : list nat) : list (list nat) :=
  match n with
  | O => [[]]
  | S n' => flat_map (fun x => map (cons x) (distinct_permutations_fuel n' (remove_one x l)))
                     (nodup Nat.eq_dec l)
  end.

Definition distinct_permutations (l : list nat) : list (list nat) :=
  distinct_permutations_fuel (length l) l.

(** [_multicombinations(n, k)] (133-137). *)
Definition multicombinations (n k : nat) : list (list nat) :=
  flat_map distinct_permutations (partitions k n 0).

(** [_monomial_powers_of_degree] (140-143) and [_rotation_matrix_powers_of_degree] (146-151). *)
Definition monomial_powers_of_degree (d : nat) : list (list nat) := multicombinations d 3.
Definition rotation_matrix_powers_of_degree (d : nat) : list (list nat) := multicombinations d 9.

(** [_integer_powers(x, max_degree)] (154-164) for one entry: cumulative product of
    [1, x, x, ...]. *)
Fixpoint cumprod (acc : R) (l : list R) : list R :=
  match l with [] => [] | a :: t => (acc * a)%R :: cumprod (acc * a)%R t end.

Definition integer_powers (x : R) (max_degree : nat) : list R :=
  cumprod 1%R (1%R :: repeat x max_degree).
