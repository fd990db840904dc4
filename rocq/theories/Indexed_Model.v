(** Model of e3x/ops/indexed.py (index lists, gathers, reductions).

    Batch dimensions are flattened into one list (the code itself reshapes them to a
    single batch axis, lines 173-176, 237-240, 290-293, 559-565).  Index values are
    arbitrary integers [Z].  Feature axes behind the indexed axis are treated
    elementwise, so one entry of such an array is modelled by an element of [A] (or a
    real number for the reductions). *)
Require Import List ZArith Bool Reals.
Require Import Verif.Base.
Import ListNotations.

(** * Index type — indexed.py:39-97 *)

Inductive index_type : Type := Dense | Sparse.

(** [_determine_index_type] (39-97).  Only presence and shape of the three arguments
    matter, so each argument is modelled by [option shape]. *)
Definition determine_index_type (adj dst src : option (list nat)) : result index_type :=
  let dense := match adj with Some _ => true | None => false end in
  let sparse := match src, dst with None, None => false | _, _ => true end in
  if negb (dense || sparse) then Err RuntimeError                      (* 70-74 *)
  else if dense && sparse then Err RuntimeError                        (* 77-81 *)
  else match sparse, dst, src with
       | true, Some d, Some s =>
           if list_eq_dec Nat.eq_dec d s
           then Ok (if dense then Dense else Sparse)
           else Err ValueError                                         (* 84-89 *)
       | _, _, _ => Ok (if dense then Dense else Sparse)               (* 92-95 *)
       end.

(** * Pairwise index lists — indexed.py:100-143 *)

(** [dense_pairwise_indices(num, mask_self)] (100-118). *)
Definition dense_pairwise_indices (num : Z) (mask_self : bool) : result (list (list nat)) :=
  if (num <? 1)%Z then Err ValueError                                  (* 112-113 *)
  else
    let n := Z.to_nat num in
    let adj := tile (seq 0 n) n in                                     (* 115 *)
    let adj := if mask_self then delete_slice adj 0 (n * n) (n + 1) else adj in (* 116-117 *)
    reshape_rows n adj.                                                (* 118 *)

(** [sparse_pairwise_indices(num, mask_self)] (121-143). *)
Definition sparse_pairwise_indices (num : Z) (mask_self : bool)
  : result (list nat * list nat) :=
  if (num <? 1)%Z then Err ValueError                                  (* 135-136 *)
  else
    let n := Z.to_nat num in
    let dst := repeat_each (seq 0 n) n in                              (* 138 *)
    let src := tile (seq 0 n) n in                                     (* 139 *)
    if mask_self
    then Ok (delete_slice dst 0 (n * n) (n + 1),
             delete_slice src 0 (n * n) (n + 1))                       (* 140-142 *)
    else Ok (dst, src).                                                (* 143 *)

(** * dense_to_sparse_indices — indexed.py:146-203 *)

(** One adjacency list: [N] rows of [M] entries. *)
Notation adjacency := (list (list Z)).

(** [jnp.max] over a list of integers (the caller guarantees it is non-empty). *)
Definition zmax_list (l : list Z) : Z :=
  match l with [] => 0%Z | a :: t => fold_left Z.max t a end.

(** The loop body for one batch element (181-191): for each row [i] the unpadded
    entries, and as many copies of [i]; concatenated over the rows. *)
Fixpoint d2s_rows (pad : Z) (i : nat) (rows : adjacency) : list Z * list Z :=
  match rows with
  | [] => ([], [])
  | r :: t =>
      let s := filter (fun j => j <? pad)%Z r in                       (* 185-186 *)
      let d := repeat (Z.of_nat i) (length s) in                       (* 187-189 *)
      let '(dt, st) := d2s_rows pad (S i) t in
      (d ++ dt, s ++ st)                                               (* 190-191 *)
  end.

(** [jnp.pad(l, (0, width), constant_values=pad)]. *)
Definition pad_to (pad : Z) (size : nat) (l : list Z) : list Z :=
  l ++ repeat pad (size - length l).

(** [dense_to_sparse_indices(adj_idx, pad_idx)] (146-203) on a flattened batch; the
    [ndim < 2] check (164-165) is a typing matter here.  [rows*cols = 0] is the
    [size == 0] branch (167-170). *)
Definition dense_to_sparse_indices (adj : list adjacency) (pad_idx : option Z)
  : list (list Z) * list (list Z) :=
  match concat (concat adj) with
  | [] => (map (fun _ => []) adj, map (fun _ => []) adj)               (* 167-170 *)
  | _ =>
      let pad := match pad_idx with
                 | None => (zmax_list (concat (concat adj)) + 1)%Z
                 | Some p => p end in                                  (* 172 *)
      let ds := map (d2s_rows pad 0) adj in                            (* 181-191 *)
      let max_size := list_max (map (fun p => length (fst p)) ds) in   (* 180,192 *)
      (map (fun p => pad_to pad max_size (fst p)) ds,
       map (fun p => pad_to pad max_size (snd p)) ds)                  (* 194-199 *)
  end.

(** * sparse_to_dense_indices — indexed.py:206-259 *)

(** [src_idx[b, dst_idx[b] == i]] (253): sources of the edges ending in [i]. *)
Fixpoint select_src (i : Z) (dst src : list Z) : list Z :=
  match dst, src with
  | d :: dt, s :: st => if (d =? i)%Z then s :: select_src i dt st else select_src i dt st
  | _, _ => []
  end.

(** [jnp.count_nonzero(dst_idx == i)] (243). *)
Definition count_dst (i : Z) (dst : list Z) : nat :=
  length (filter (fun d => d =? i)%Z dst).

(** [row.at[:c].set(vals)] (252-254); shapes agree because [c = length vals]. *)
Definition set_prefix (c : nat) (vals row : list Z) : list Z :=
  firstn c vals ++ skipn c row.

Definition same_shape (a b : list (list Z)) : bool :=
  if list_eq_dec Nat.eq_dec (map (@length Z) a) (map (@length Z) b) then true else false.

(** [sparse_to_dense_indices(dst_idx, src_idx, pad_idx)] (206-259) on a flattened
    batch.  [range(pad_idx)] empty makes [jnp.max(counts)] (245) raise. *)
Definition sparse_to_dense_indices (dst src : list (list Z)) (pad_idx : option Z)
  : result (list adjacency) :=
  if negb (same_shape dst src) then Err ValueError                     (* 226-230 *)
  else match concat dst with
  | [] => Ok (map (fun _ => []) dst)                                   (* 232-233 *)
  | _ =>
      let pad := match pad_idx with
                 | None => (zmax_list (concat dst) + 1)%Z
                 | Some p => p end in                                  (* 235 *)
      let n := Z.to_nat pad in
      if (n =? 0)%nat then Err ValueError                              (* 245 *)
      else
        let counts := map (fun d => map (fun i => count_dst (Z.of_nat i) d) (seq 0 n)) dst in (* 242-244 *)
        let max_count := list_max (concat counts) in                   (* 245 *)
        Ok (map (fun ds : list Z * list Z =>
              map (fun i => set_prefix (count_dst (Z.of_nat i) (fst ds))
                                       (select_src (Z.of_nat i) (fst ds) (snd ds))
                                       (repeat pad max_count))
                  (seq 0 n))
              (combine dst src))                                       (* 247-254 *)
  end.

(** * Gathers — indexed.py:262-422 *)

(** [x[i]] for an out-of-range or negative integer: JAX wraps negative indices once
    and clamps the result into the valid range. *)
Definition jax_index (n : nat) (i : Z) : nat :=
  let i := if (i <? 0)%Z then (i + Z.of_nat n)%Z else i in
  Z.to_nat (Z.max 0 (Z.min i (Z.of_nat n - 1))).

Definition take {A : Type} (d : A) (x : list A) (i : Z) : A :=
  nth (jax_index (length x) i) x d.

(** [_gather_dense] for one batch element (304-305 / 295-297). *)
Definition gather_dense {A : Type} (d : A) (x : list A) (idx : adjacency) : list (list A) :=
  map (map (take d x)) idx.

(** [_gather_sparse] for one batch element (352-353 / 344-346). *)
Definition gather_sparse {A : Type} (d : A) (x : list A) (idx : list Z) : list A :=
  map (take d x) idx.

(** The vmapped versions (290-297, 339-346) with the batch-size check (283-287, 332-336). *)
Definition gather_dense_batched {A : Type} (d : A) (x : list (list A)) (idx : list adjacency)
  : result (list (list (list A))) :=
  if (length x =? length idx)%nat
  then Ok (map (fun p => gather_dense d (fst p) (snd p)) (combine x idx))
  else Err ValueError.

Definition gather_sparse_batched {A : Type} (d : A) (x : list (list A)) (idx : list (list Z))
  : result (list (list A)) :=
  if (length x =? length idx)%nat
  then Ok (map (fun p => gather_sparse d (fst p) (snd p)) (combine x idx))
  else Err ValueError.

(** What a gather returns for one batch element: dense results keep the [N, M] layout. *)
Inductive gathered (A : Type) : Type :=
| GDense (rows : list (list A))
| GSparse (vals : list A).
Arguments GDense {A} rows.
Arguments GSparse {A} vals.

(** [gather_src] (357-388) for one batch element. *)
Definition gather_src {A : Type} (d : A) (x : list A)
  (adj : option adjacency) (src : option (list Z)) : result (gathered A) :=
  match determine_index_type (option_map (fun a => [length a]) adj) None
                             (option_map (fun s => [length s]) src) with
  | Err e => Err e
  | Ok Dense => match adj with Some a => Ok (GDense (gather_dense d x a)) | None => Err AssertionError end
  | Ok Sparse => match src with Some s => Ok (GSparse (gather_sparse d x s)) | None => Err AssertionError end
  end.

(** [gather_dst] (391-422) for one batch element: [expand_dims] broadcasts the input of
    node [i] along row [i], modelled as the broadcast row of width [M]. *)
Definition gather_dst {A : Type} (d : A) (x : list A)
  (adj : option adjacency) (dst : option (list Z)) : result (gathered A) :=
  match determine_index_type (option_map (fun a => [length a]) adj)
                             (option_map (fun s => [length s]) dst) None with
  | Err e => Err e
  | Ok Dense => match adj with
                | Some a => Ok (GDense (map (fun p => map (fun _ => fst p) (snd p)) (combine x a)))
                | None => Err AssertionError end
  | Ok Sparse => match dst with Some s => Ok (GSparse (gather_sparse d x s)) | None => Err AssertionError end
  end.

(** * Reductions — indexed.py:429-738 *)

Inductive reduction := RSum | RMin | RMax.

(** The value a reduction starts from: 0 for sums, [finfo.max]/[finfo.min] for
    min/max (510, 518; jax.ops.segment_min/max use the same identities).  The two
    extreme values are parameters [lo], [hi]. *)
Definition init_of (lo hi : R) (m : reduction) : R :=
  match m with RSum => 0%R | RMin => hi | RMax => lo end.

Definition op_of (m : reduction) : R -> R -> R :=
  match m with RSum => Rplus | RMin => Rmin | RMax => Rmax end.

(** Dense reduction of one row with its [where] mask (498-519). *)
Fixpoint reduce_row (lo hi : R) (m : reduction) (vals : list R) (where_ : list bool) : R :=
  match vals, where_ with
  | v :: vt, w :: wt =>
      if w then op_of m v (reduce_row lo hi m vt wt) else reduce_row lo hi m vt wt
  | _, _ => init_of lo hi m
  end.

Definition reduce_dense (lo hi : R) (m : reduction)
  (inputs : list (list R)) (where_ : list (list bool)) : list R :=
  map (fun p => reduce_row lo hi m (fst p) (snd p)) (combine inputs where_).

(** [jax.ops.segment_*] for one segment: the entries whose index equals [s]
    (547-552, 580-585).  Negative or too large indices hit no segment. *)
Fixpoint reduce_segment (lo hi : R) (m : reduction) (s : Z) (dst : list Z) (vals : list R) : R :=
  match dst, vals with
  | d :: dt, v :: vt =>
      if (d =? s)%Z then op_of m v (reduce_segment lo hi m s dt vt)
      else reduce_segment lo hi m s dt vt
  | _, _ => init_of lo hi m
  end.

Definition reduce_sparse (lo hi : R) (m : reduction) (num_segments : nat)
  (dst : list Z) (vals : list R) : list R :=
  map (fun s => reduce_segment lo hi m (Z.of_nat s) dst vals) (seq 0 num_segments).

(** Arguments of [_indexed_reduce] for one batch element. *)
Record reduce_args := mkReduceArgs {
  ra_adj : option adjacency;
  ra_where : option (list (list bool));
  ra_dst : option (list Z);
  ra_num_segments : option nat }.

(** Inputs indexed by the dense or sparse list. *)
Inductive edge_values : Type :=
| EDense (rows : list (list R))
| ESparse (vals : list R).

(** [_indexed_reduce] (429-594) for one batch element.  With [keepdims] the dense
    result keeps a size-1 axis and the sparse result is gathered back (586-587).
    Result: [GDense rows] for a keepdims dense reduction, [GSparse vals] otherwise. *)
Definition indexed_reduce (lo hi : R) (m : reduction) (inputs : edge_values)
  (keepdims : bool) (a : reduce_args) : result (gathered R) :=
  match determine_index_type (option_map (fun x => [length x]) (ra_adj a))
                             (option_map (fun x => [length x]) (ra_dst a)) None with
  | Err e => Err e
  | Ok Dense =>
      match ra_where a with
      | None => Err TypeError                                          (* 484-487 *)
      | Some w =>
        match inputs, ra_adj a with
        | EDense rows, Some adj =>
            if list_eq_dec Nat.eq_dec (map (@length Z) adj) (map (@length R) rows)
            then let out := reduce_dense lo hi m rows w in
                 Ok (if keepdims then GDense (map (fun x => [x]) out) else GSparse out)
            else Err ValueError                                        (* 494-495 *)
        | _, _ => Err ValueError                                       (* 489-493 *)
        end
      end
  | Ok Sparse =>
      match ra_num_segments a with
      | None => Err TypeError                                          (* 529-533 *)
      | Some n =>
        match inputs, ra_dst a with
        | ESparse vals, Some dst =>
            if (length dst =? length vals)%nat
            then let out := reduce_sparse lo hi m n dst vals in
                 Ok (GSparse (if keepdims then gather_sparse 0%R out dst else out)) (* 586-587 *)
            else Err ValueError                                        (* 540-544 *)
        | _, _ => Err ValueError                                       (* 535-539 *)
        end
      end
  end.

(** * indexed_softmax — indexed.py:741-815 *)

(** Sparse case, one batch element: maximum, exponentials, mask, sum, division
    (794-815).  [mult = None] is the call without [multiplicative_mask]. *)
Definition softmax_sparse (lo hi : R) (num_segments : nat) (dst : list Z)
  (vals : list R) (mult : option (list R)) : list R :=
  let maximum := gather_sparse 0%R (reduce_sparse lo hi RMax num_segments dst vals) dst in
  let numerator := map (fun p => exp (fst p - snd p)) (combine vals maximum) in
  let numerator := match mult with
                   | None => numerator
                   | Some mk => map (fun p => (fst p * snd p)%R) (combine numerator mk) end in
  let denominator := gather_sparse 0%R (reduce_sparse lo hi RSum num_segments dst numerator) dst in
  map (fun p => (fst p / snd p)%R) (combine numerator denominator).

(** Dense case, one row. *)
Definition softmax_row (lo hi : R) (where_ : list bool)
  (vals : list R) (mult : option (list R)) : list R :=
  let maximum := reduce_row lo hi RMax vals where_ in
  let numerator := map (fun v => exp (v - maximum)) vals in
  let numerator := match mult with
                   | None => numerator
                   | Some mk => map (fun p => (fst p * snd p)%R) (combine numerator mk) end in
  let denominator := reduce_row lo hi RSum numerator where_ in
  map (fun v => (v / denominator)%R) numerator.
