(** Model of the lookup-table caches: e3x/so3/_lookup_table_generation_utility.py,
    _clebsch_gordan_lut.py, _spherical_harmonics_lut.py, _wigner_d_lut.py and the
    caching part of _tensor_conversion_lut.py.

    Simplifications.  Array entries are of an arbitrary type [A] with a zero test.
    The symbolic computations (sympy) are arbitrary functions.  Arrays are total
    functions on indices; reads outside the array never happen and writes outside
    it raise IndexError.  Logging is left out. *)
Require Import String List ZArith Bool.
Require Import Verif.Base Verif.Common_Model.
Import ListNotations.

(** * The disk *)

(** Content of a cache file.  [Torn k] is what is left when writing stopped after [k] bytes:
    a proper prefix of an .npz archive (the zip directory is written last). *)
Inductive file (C : Type) : Type := Saved (c : C) | Torn (k : nat).
Arguments Saved {C} c.
Arguments Torn {C} k.

(** [np.load] of a file: an empty file raises EOFError, a truncated archive BadZipFile. *)
Definition np_load {C : Type} (f : file C) : result C :=
  match f with
  | Saved c => Ok c
  | Torn O => Err EOFError
  | Torn (S _) => Err BadZipFile
  end.

(** What the operating system does with one save: it works; opening fails; writing fails
    after [k] bytes (e.g. disk full); the process is killed after [k] bytes. *)
Inductive io : Type := IoOk | IoOpenFails | IoWriteFails (k : nat) | IoKilled (k : nat).

(** Disk and configuration: the configured cache path, the files, and the data shipped with
    the package (an error if it is absent or damaged). *)
Record world (C : Type) : Type := mkWorld {
  config_path : option string;
  files : string -> option (file C);
  package_data : result C }.
Arguments mkWorld {C}.
Arguments config_path {C}.
Arguments files {C}.
Arguments package_data {C}.

Definition write_file {C : Type} (w : world C) (p : string) (f : file C) : world C :=
  mkWorld (config_path w) (fun q => if String.eqb q p then Some f else files w q) (package_data w).

(** Exceptions caught at _lookup_table_generation_utility.py:63. *)
Definition caught (e : err) : bool :=
  match e with BadZipFile | OSError | KeyError | ValueError => true | _ => false end.

Section Generic.
Variables C T : Type.
Variable load_from_cache : nat -> C -> result (Z * T).
Variable init_empty : nat -> T.

(** [_load_lookup_table_from_disk] (utility 26-75). *)
Definition load_lookup_table_from_disk (w : world C) (max_degree : nat) : result (Z * T) :=
  let from_package :=
    match bind (package_data w) (load_from_cache max_degree) with
    | Ok r => Ok r
    | Err e => if caught e then Ok ((-1)%Z, init_empty max_degree) else Err e
    end in
  match config_path w with
  | Some p =>
      match files w p with
      | Some f => bind (np_load f) (load_from_cache max_degree)
      | None => from_package
      end
  | None => from_package
  end.

(** [_save_lookup_table_to_disk] (139-163).  Returns the new world and whether the process
    survived.  [open('wb')] truncates the file at once. *)
Definition save_lookup_table_to_disk (w : world C) (c : C) (o : io) : world C * bool :=
  match config_path w with
  | None => (w, true)
  | Some p =>
      match o with
      | IoOk => (write_file w p (Saved c), true)
      | IoOpenFails => (w, true)                        (* OSError, swallowed *)
      | IoWriteFails k => (write_file w p (Torn k), true)   (* OSError, swallowed *)
      | IoKilled k => (write_file w p (Torn k), false)
      end
  end.

Variable schedule : Type.
Variable extend : schedule -> nat -> nat -> T -> result T.
Variable compress : T -> C.

(** The common shape of the four [_generate_..._lookup_table] functions
    (_clebsch_gordan_lut.py:75-190, _spherical_harmonics_lut.py:85-209,
    _wigner_d_lut.py:66-216, _tensor_conversion_lut.py:235-317). *)
Definition generate (w : world C) (max_degree : Z) (s : schedule) (o : io) : world C * result T :=
  match check_degree max_degree with
  | Err e => (w, Err e)
  | Ok L =>
      match load_lookup_table_from_disk w L with
      | Err e => (w, Err e)
      | Ok (cached, t) =>
          if (Z.of_nat L <=? cached)%Z then (w, Ok t)
          else
            match extend s L (Z.to_nat (cached + 1)) t with
            | Err e => (w, Err e)
            | Ok t' =>
                let '(w', alive) := save_lookup_table_to_disk w (compress t') o in
                (w', if alive then Ok t' else Err Killed)
            end
      end
  end.

(** Histories: table requests and changes of the configured path (config.py:83-127). *)
Inductive event : Type :=
| Request (max_degree : Z) (s : schedule) (o : io)
| SetPath (p : option string).

Definition step (w : world C) (e : event) : world C * option (result T) :=
  match e with
  | Request L s o => let '(w', r) := generate w L s o in (w', Some r)
  | SetPath p => (mkWorld p (files w) (package_data w), None)
  end.

Fixpoint run (w : world C) (h : list event) : world C * list (option (result T)) :=
  match h with
  | [] => (w, [])
  | e :: t => let '(w1, r) := step w e in let '(w2, rs) := run w1 t in (w2, r :: rs)
  end.
End Generic.

Arguments Request {schedule} max_degree s o.
Arguments SetPath {schedule} p.

(** * Process pools *)

(** [multiprocessing.Pool.starmap]: the tasks finish in some order [order], each result goes
    to the slot of its task.  [None] stands for the sequential branch. *)
Definition schedule := option (nat -> list nat).

Definition starmap {X Y : Type} (s : schedule) (f : X -> Y) (args : list X) : list (option Y) :=
  match s with
  | None => map (fun x => Some (f x)) args
  | Some order =>
      fold_left (fun slots i => match nth_error args i with
                                | Some x => set_nth i (Some (f x)) slots
                                | None => slots end)
                (order (length args)) (repeat None (length args))
  end.

(** The list of results; a missing one would block the caller forever. *)
Fixpoint all_some {Y : Type} (l : list (option Y)) : option (list Y) :=
  match l with
  | [] => Some []
  | Some y :: t => match all_some t with Some r => Some (y :: r) | None => None end
  | None :: _ => None
  end.

Definition pool_map {X Y : Type} (s : schedule) (f : X -> Y) (args : list X) : result (list Y) :=
  match all_some (starmap s f args) with Some r => Ok r | None => Err RuntimeError end.

(** * Arrays as functions *)

Section Tables.
Variable A : Type.
Variable zero : A.
Variable is_zero : A -> bool.

Section Array.
Variable K : Type.
Variable keq : K -> K -> bool.

(** [a[k] = v]. *)
Definition put (a : K -> A) (k : K) (v : A) : K -> A := fun q => if keq k q then v else a q.

(** [a[ks] = vs] element by element with a bounds check. *)
Fixpoint scatter (inb : K -> bool) (entries : list (K * A)) (a : K -> A) : result (K -> A) :=
  match entries with
  | [] => Ok a
  | (k, v) :: t => if inb k then scatter inb t (put a k v) else Err IndexError
  end.

(** [np.nonzero] together with the values found, for the index list [ks] of the array. *)
Definition nonzeros (ks : list K) (a : K -> A) : list (K * A) :=
  map (fun k => (k, a k)) (filter (fun k => negb (is_zero (a k))) ks).
End Array.

Definition zeros {K : Type} : K -> A := fun _ => zero.

Definition key2 : Type := (nat * nat)%type.
Definition key3 : Type := (nat * nat * nat)%type.
Definition eq2 (p q : key2) : bool := (fst p =? fst q) && (snd p =? snd q).
Definition eq3 (p q : key3) : bool := eq2 (fst p) (fst q) && (snd p =? snd q).
Definition in2 (n m : nat) (p : key2) : bool := (fst p <? n) && (snd p <? m).
Definition in3 (n : nat) (p : key3) : bool := in2 n n (fst p) && (snd p <? n).

(** All indices of an array in row-major order. *)
Definition keys2 (n m : nat) : list key2 := list_prod (seq 0 n) (seq 0 m).
Definition keys3 (n : nat) : list key3 := list_prod (keys2 n n) (seq 0 n).

(** * Clebsch-Gordan table (_clebsch_gordan_lut.py) *)

Record cg_table : Type := mkCG { cg_max : nat; cg_at : key3 -> A }.
Record cg_file : Type := mkCGFile { cgf_max : Z; cgf_entries : list (key3 * A) }.

Definition num_sph (L : nat) : nat := total_number_of_spherical_harmonics L.

(** [_init_empty_lookup_table] (82-88). *)
Definition cg_init_empty (L : nat) : cg_table := mkCG L zeros.

(** [_load_from_cache] (90-115). *)
Definition cg_load (L : nat) (c : cg_file) : result (Z * cg_table) :=
  if (cgf_max c <? 0)%Z then Ok ((-1)%Z, cg_init_empty L)
  else
    let n := num_sph (Z.to_nat (cgf_max c)) in
    bind (scatter key3 eq3 (in3 n) (cgf_entries c) zeros) (fun cg =>
      if (Z.of_nat L <=? cgf_max c)%Z
      then Ok (cgf_max c, mkCG L cg)                                    (* 103-107: slice *)
      else Ok (cgf_max c, mkCG L (fun q => if in3 n q then cg q else zeros q))).  (* 108-115 *)

(** [_compress] (117-128). *)
Definition cg_compress (t : cg_table) : cg_file :=
  mkCGFile (Z.of_nat (cg_max t)) (nonzeros key3 (keys3 (num_sph (cg_max t))) (cg_at t)).

Definition cg_key : Type := (nat * Z * nat * Z * nat * Z)%type.

(** The nested loops (157-172). *)
Definition cg_degrees_and_orders (L lstart : nat) : list cg_key :=
  flat_map (fun l1 => flat_map (fun l2 => flat_map (fun l3 =>
    if (l1 <? lstart) && (l2 <? lstart) && (l3 <? lstart) then []
    else flat_map (fun m1 => flat_map (fun m2 => flat_map (fun m3 =>
           if (Z.of_nat l3 <? Z.abs m3)%Z then [] else [(l1, m1, l2, m2, l3, m3)])
           [m1 + m2; m1 - m2; m2 - m1; - m1 - m2]%Z)
         (zrange (- Z.of_nat l2) (Z.of_nat l2 + 1)))
       (zrange (- Z.of_nat l1) (Z.of_nat l1 + 1)))
    (seq (Nat.max (l1 - l2) (l2 - l1))
         (Nat.min (l1 + l2) L + 1 - Nat.max (l1 - l2) (l2 - l1))))
    (seq 0 (L + 1))) (seq 0 (L + 1)).

(** [l * l + l + m]. *)
Definition lm_index (l : nat) (m : Z) : nat := Z.to_nat (Z.of_nat (l * l + l) + m).

Definition cg_index (k : cg_key) : key3 :=
  let '(l1, m1, l2, m2, l3, m3) := k in (lm_index l1 m1, lm_index l2 m2, lm_index l3 m3).

(** [_clebsch_gordan] (so3/_symbolic.py:80-129), converted to floating point. *)
Variable clebsch_gordan_value : cg_key -> A.

(** Computation and storage (174-185). *)
Definition cg_extend (s : schedule) (L lstart : nat) (t : cg_table) : result cg_table :=
  let keys := cg_degrees_and_orders L lstart in
  bind (pool_map s clebsch_gordan_value keys) (fun vals =>
    rmap (mkCG L) (scatter key3 eq3 (in3 (num_sph L)) (combine (map cg_index keys) vals) (cg_at t))).

Definition cg_generate := generate cg_file cg_table cg_load cg_init_empty schedule cg_extend cg_compress.
Definition cg_run := run cg_file cg_table cg_load cg_init_empty schedule cg_extend cg_compress.

(** * Monomial maps *)

(** Dictionary lookup, newest binding first. *)
Fixpoint dict_get (d : list (list nat * nat)) (p : list nat) : result nat :=
  match d with
  | [] => Err KeyError
  | (q, i) :: t => if list_eq_dec Nat.eq_dec q p then Ok i else dict_get t p
  end.

(** The loop that numbers monomials and stores their powers
    (_spherical_harmonics_lut.py:168-174 and _wigner_d_lut.py:188-197). *)
Definition mono_state : Type := (nat * list (list nat * nat) * (nat -> list nat))%type.

Definition mono_step (st : mono_state) (p : list nat) : mono_state :=
  let '(idx, d, ls) := st in
  (idx + 1, (p, idx) :: d, fun i => if i =? idx then p else ls i).

Definition number_monomials (powers : nat -> list (list nat)) (lstart L : nat) (idx : nat)
    (ls : nat -> list nat) : mono_state :=
  fold_left mono_step (flat_map powers (seq lstart (L + 1 - lstart))) (idx, [], ls).

(** Entries written for one column: [for monomial, coefficient in polynomial.terms()]. *)
Fixpoint column_entries (d : list (list nat * nat)) (col : nat) (terms : list (list nat * A))
    : result (list (key2 * A)) :=
  match terms with
  | [] => Ok []
  | (p, v) :: t =>
      bind (dict_get d p) (fun row => bind (column_entries d col t) (fun r => Ok (((row, col), v) :: r)))
  end.

Fixpoint all_entries (d : list (list nat * nat)) (cols : list (nat * list (list nat * A)))
    : result (list (key2 * A)) :=
  match cols with
  | [] => Ok []
  | (c, terms) :: t =>
      bind (column_entries d c terms) (fun e => bind (all_entries d t) (fun r => Ok (e ++ r)))
  end.

(** * Spherical harmonics table (_spherical_harmonics_lut.py) *)

Record sh_table : Type := mkSH { sh_max : nat; sh_cm : key2 -> A; sh_ls : nat -> list nat }.
Record sh_file : Type := mkSHFile {
  shf_max : Z; shf_ls : list (list nat); shf_entries : list (key2 * A) }.

Definition num_car (L : nat) : nat := total_number_of_cartesian_monomials L.

(** [_init_empty_lookup_table] (92-102). *)
Definition sh_init_empty (L : nat) : sh_table := mkSH L zeros (fun _ => [0; 0; 0]).

(** [_load_from_cache] (104-131). *)
Definition sh_load (L : nat) (c : sh_file) : result (Z * sh_table) :=
  if (shf_max c <? 0)%Z then Ok ((-1)%Z, sh_init_empty L)
  else
    let Lc := Z.to_nat (shf_max c) in
    bind (scatter key2 eq2 (in2 (num_car Lc) (num_sph Lc)) (shf_entries c) zeros) (fun cm =>
      if (Z.of_nat L <=? shf_max c)%Z
      then Ok (shf_max c, mkSH L cm (fun i => nth i (shf_ls c) []))
      else Ok (shf_max c, mkSH L
             (fun q => if in2 (num_car Lc) (num_sph Lc) q then cm q else zeros q)
             (fun i => if i <? num_car Lc then nth i (shf_ls c) [] else [0; 0; 0]))).

(** [_compress] (133-145). *)
Definition sh_compress (t : sh_table) : sh_file :=
  mkSHFile (Z.of_nat (sh_max t)) (map (sh_ls t) (seq 0 (num_car (sh_max t))))
    (nonzeros key2 (keys2 (num_car (sh_max t)) (num_sph (sh_max t))) (sh_cm t)).

Definition degrees_and_orders (lstart L : nat) : list (nat * Z) :=
  flat_map (fun l => map (fun m => (l, m)) (zrange (- Z.of_nat l) (Z.of_nat l + 1)))
           (seq lstart (L + 1 - lstart)).

(** [_spherical_harmonics(l, m).terms()] (so3/_symbolic.py:23-77). *)
Variable sph_terms : nat -> Z -> list (list nat * A).

(** [idx] at the start of the numbering (167). *)
Definition start_row (total : nat -> nat) (lstart : nat) : nat :=
  match lstart with O => 0 | S k => total k end.

(** Generation (166-198). *)
Definition sh_extend (s : schedule) (L lstart : nat) (t : sh_table) : result sh_table :=
  let '(_, d, ls) := number_monomials monomial_powers_of_degree lstart L (start_row num_car lstart) (sh_ls t) in
  let dos := degrees_and_orders lstart L in
  bind (pool_map s (fun lm => sph_terms (fst lm) (snd lm)) dos) (fun polys =>
  bind (all_entries d (combine (map (fun lm => lm_index (fst lm) (snd lm)) dos) polys)) (fun entries =>
  bind (scatter key2 eq2 (in2 (num_car L) (num_sph L)) entries (sh_cm t)) (fun cm =>
    Ok (mkSH L cm ls)))).

Definition sh_generate := generate sh_file sh_table sh_load sh_init_empty schedule sh_extend sh_compress.
Definition sh_run := run sh_file sh_table sh_load sh_init_empty schedule sh_extend sh_compress.

(** * Wigner-D table (_wigner_d_lut.py) *)

Record wd_table : Type := mkWD { wd_max : nat; wd_cm : key2 -> A; wd_ls : nat -> list nat }.

(** The entries cm{l}, i0{l}, i1{l} and ls{l} for l = 0, 1, ... *)
Record wd_block : Type := mkWDBlock { wdb_entries : list (key2 * A); wdb_ls : list (list nat) }.
Record wd_file : Type := mkWDFile { wdf_max : Z; wdf_blocks : list wd_block }.

Definition num_rot (L : nat) : nat := total_number_of_rotation_matrix_monomials L.
Definition num_wig (L : nat) : nat := total_number_of_wigner_d_entries L.
Definition nrot (l : nat) : nat := number_of_rotation_matrix_monomials_of_degree l.
Definition nwig (l : nat) : nat := number_of_wigner_d_entries_of_degree l.

(** [_init_empty_lookup_table] (73-83). *)
Definition wd_init_empty (L : nat) : wd_table := mkWD L zeros (fun _ => repeat 0 9).

(** One pass of the loop of [_load_from_cache] (96-105); state: irot, iwig, cm, ls. *)
Definition wd_state : Type := (nat * nat * (key2 -> A) * (nat -> list nat))%type.

Definition wd_load_block (c : wd_file) (st : wd_state) (l : nat) : result wd_state :=
  let '(irot, iwig, cm, ls) := st in
  match nth_error (wdf_blocks c) l with
  | None => Err KeyError
  | Some b =>
      bind (scatter key2 eq2 (in2 (nrot l) (nwig l)) (wdb_entries b) zeros) (fun cml =>
        Ok (irot + nrot l, iwig + nwig l,
            (fun q => if (irot <=? fst q) && (fst q <? irot + nrot l)
                         && (iwig <=? snd q) && (snd q <? iwig + nwig l)
                      then cml (fst q - irot, snd q - iwig) else cm q),
            (fun i => if (irot <=? i) && (i <? irot + nrot l)
                      then nth (i - irot) (wdb_ls b) [] else ls i)))
  end.

Fixpoint rfold {S X : Type} (f : S -> X -> result S) (xs : list X) (s : S) : result S :=
  match xs with [] => Ok s | x :: t => bind (f s x) (rfold f t) end.

(** [_load_from_cache] (85-106). *)
Definition wd_load (L : nat) (c : wd_file) : result (Z * wd_table) :=
  let empty := wd_init_empty L in
  if (wdf_max c <? 0)%Z then Ok ((-1)%Z, empty)
  else
    bind (rfold (wd_load_block c) (seq 0 (Nat.min (Z.to_nat (wdf_max c)) L + 1))
                (0, 0, wd_cm empty, wd_ls empty)) (fun st =>
      let '(_, _, cm, ls) := st in Ok (wdf_max c, mkWD L cm ls)).

(** [_compress] (108-125): state is irot, iwig and the blocks so far. *)
Definition wd_compress_block (t : wd_table) (st : nat * nat * list wd_block) (l : nat) :=
  let '(irot, iwig, bs) := st in
  let cm := fun q : key2 => wd_cm t (irot + fst q, iwig + snd q) in
  (irot + nrot l, iwig + nwig l,
   bs ++ [mkWDBlock (nonzeros key2 (keys2 (nrot l) (nwig l)) cm)
                    (map (fun i => wd_ls t (irot + i)) (seq 0 (nrot l)))]).

Definition wd_compress (t : wd_table) : wd_file :=
  mkWDFile (Z.of_nat (wd_max t))
    (snd (fold_left (wd_compress_block t) (seq 0 (wd_max t + 1)) (0, 0, []))).

(** Polynomials in x, y, z; [_spherical_harmonics], [_rotate_xyz_polynomial] and
    [_polynomial_dot_product(...).terms()] (so3/_symbolic.py). *)
Variable poly : Type.
Variable sph_poly : nat * Z -> poly.
Variable rotate_poly : poly -> poly.
Variable dot_terms : poly * poly -> list (list nat * A).

(** List indexing that raises. *)
Definition get {X : Type} (l : list X) (i : nat) : result X :=
  match nth_error l i with Some x => Ok x | None => Err IndexError end.

Fixpoint rmapM {X Y : Type} (f : X -> result Y) (l : list X) : result (list Y) :=
  match l with [] => Ok [] | x :: t => bind (f x) (fun y => bind (rmapM f t) (fun r => Ok (y :: r))) end.

(** [_construct_polynomial_pairs] (157-167). *)
Definition construct_polynomial_pairs (lstart L : nat) (sph rot : list poly) : result (list (poly * poly)) :=
  rmapM (fun k : nat * Z * Z =>
           let '(l, mrot, msph) := k in
           let offset := Z.of_nat (l * l + l - lstart * lstart) in
           bind (get sph (Z.to_nat (offset + msph))) (fun a =>
           bind (get rot (Z.to_nat (offset + mrot))) (fun b => Ok (a, b))))
    (flat_map (fun l => flat_map (fun mrot => map (fun msph => (l, mrot, msph))
                (zrange (- Z.of_nat l) (Z.of_nat l + 1)))
              (zrange (- Z.of_nat l) (Z.of_nat l + 1)))
            (seq lstart (L + 1 - lstart))).

(** Generation (151-209). *)
Definition wd_extend (s : schedule) (L lstart : nat) (t : wd_table) : result wd_table :=
  bind (pool_map s sph_poly (degrees_and_orders lstart L)) (fun sph =>
  bind (pool_map s rotate_poly sph) (fun rot =>
  bind (construct_polynomial_pairs lstart L sph rot) (fun pairs =>
  bind (pool_map s dot_terms pairs) (fun wigner_d_entries =>
  let '(_, d, ls) := number_monomials rotation_matrix_powers_of_degree lstart L
                       (start_row num_rot lstart) (wd_ls t) in
  let offset := start_row num_wig lstart in
  bind (all_entries d (combine (map (fun i => i + offset) (seq 0 (length wigner_d_entries))) wigner_d_entries))
    (fun entries =>
  bind (scatter key2 eq2 (in2 (num_rot L) (num_wig L)) entries (wd_cm t)) (fun cm =>
    Ok (mkWD L cm ls))))))).

Definition wd_generate := generate wd_file wd_table wd_load wd_init_empty schedule wd_extend wd_compress.
Definition wd_run := run wd_file wd_table wd_load wd_init_empty schedule wd_extend wd_compress.
End Tables.

(** * Tensor conversion table (_tensor_conversion_lut.py) *)

Section TensorConversion.
(** A conversion matrix; [_tensor_conversion_matrices(l)] (146-200) gives the pair s2t, t2s. *)
Variable M : Type.
Variable conversion_matrices : nat -> M * M.

Record tc_table : Type := mkTC { tc_max : nat; tc_s2t : list M; tc_t2s : list M }.
Record tc_file : Type := mkTCFile { tcf_max : Z; tcf_s2t : list M; tcf_t2s : list M }.

(** [_init_empty_lookup_table] (242-244). *)
Definition tc_init_empty (L : nat) : tc_table := mkTC L [] [].

Definition get_key {X : Type} (l : list X) (i : nat) : result X :=
  match nth_error l i with Some x => Ok x | None => Err KeyError end.

(** [_load_from_cache] (246-258). *)
Definition tc_load (L : nat) (c : tc_file) : result (Z * tc_table) :=
  if (tcf_max c <? 0)%Z then Ok ((-1)%Z, tc_init_empty L)
  else
    bind (rmapM (fun l => bind (get_key (tcf_s2t c) l) (fun a => bind (get_key (tcf_t2s c) l) (fun b => Ok (a, b))))
                (seq 0 (Nat.min L (Z.to_nat (tcf_max c)) + 1))) (fun r =>
      Ok (tcf_max c, mkTC L (map fst r) (map snd r))).

(** [_unpack_lists] (260-268); the lists have max_degree+1 entries. *)
Definition tc_unpack (t : tc_table) : tc_file :=
  mkTCFile (Z.of_nat (tc_max t)) (firstn (tc_max t + 1) (tc_s2t t)) (firstn (tc_max t + 1) (tc_t2s t)).

(** Generation (297-309). *)
Definition tc_extend (s : schedule) (L lstart : nat) (t : tc_table) : result tc_table :=
  bind (pool_map s conversion_matrices (seq lstart (L + 1 - lstart))) (fun r =>
    Ok (mkTC (tc_max t) (tc_s2t t ++ map fst r) (tc_t2s t ++ map snd r))).

Definition tc_generate := generate tc_file tc_table tc_load tc_init_empty schedule tc_extend tc_unpack.
Definition tc_run := run tc_file tc_table tc_load tc_init_empty schedule tc_extend tc_unpack.
End TensorConversion.
