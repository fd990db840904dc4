(** Model of e3x/so3/irreps.py (spherical and solid harmonics, Clebsch-Gordan coefficients) and of
    [wigner_d] in e3x/so3/rotations.py.

    Simplifications.  Numbers are real; conversions between floating point types are the identity.
    Leading batch dimensions are flattened to one: an array of shape (..., n) is a list of rows of
    length n.  Every function takes the state of the disk cache and returns the new one.  [empty] is
    the unspecified content of [jnp.empty], [tiny] is [jnp.finfo(dtype).tiny]. *)
Require Import String List Reals ZArith Bool.
Require Import Verif.Base Verif.RSum Verif.Common_Model Verif.LUT_Model Verif.Symbolic_Model Verif.Rotations_Model.
Import ListNotations.
Open Scope R_scope.

(** * Lookup tables with real entries *)

(** [_spherical_harmonics(l, m).terms()] *)
Definition sph_terms (l : nat) (m : Z) : list (list nat * R) := poly3_terms (spherical_harmonics_poly l m).

(** [_generate_spherical_harmonics_lookup_table] (_spherical_harmonics_lut.py:85-209) *)
Definition spherical_harmonics_table := sh_generate R 0 rzero sph_terms.

(** [_spherical_harmonics(l, m)] as input of [_rotate_xyz_polynomial] *)
Definition sph_poly (lm : nat * Z) : poly39 := p39_of (spherical_harmonics_poly (fst lm) (snd lm)).

(** [_polynomial_dot_product(p1, p2).terms()]; the number [sp.S(0)] has no terms (the call would
    raise AttributeError). *)
Definition dot_terms (pp : poly39 * poly39) : list (list nat * R) :=
  match polynomial_dot_product (fst pp) (snd pp) with Some d => poly9_terms d | None => [] end.

(** [_generate_wigner_d_lookup_table] (_wigner_d_lut.py:66-216) *)
Definition wigner_d_table := wd_generate R 0 rzero poly39 sph_poly rotate_xyz_polynomial dot_terms.

(** * [spherical_harmonics] (irreps.py:41-170) *)

(** [cm.at[:, a:b].multiply(c)] *)
Definition multiply_columns (a b : nat) (c : R) (cm : key2 -> R) : key2 -> R :=
  fun q => if (a <=? snd q)%nat && (snd q <? b)%nat then cm q * c else cm q.

(** The loop over the degrees (146-149). *)
Definition normalize_columns (norm : string) (L : nat) (cm : key2 -> R) : result (key2 -> R) :=
  rfold (fun cm l => bind (normalization_constant norm l) (fun c =>
           Ok (multiply_columns (l ^ 2) ((l + 1) ^ 2) c cm)))
        (seq 0 (L + 1)) cm.

(** Product of the powers of the entries of [x] given by [p] (162-167 and rotations.py:427-438). *)
Definition monomial (L : nat) (x : list R) (p : list nat) : R :=
  fold_right Rmult 1 (map (fun xp => nth (snd xp) (integer_powers (fst xp) L) 0) (combine x p)).

(** [jnp.matmul(monomials, cm)] for one row; [cols] are the columns of [cm] that are kept. *)
Definition combine_monomials (L n : nat) (ls : nat -> list nat) (cm : key2 -> R) (cols : list nat) (x : list R) : list R :=
  map (fun j => rsum n (fun i => monomial L x (ls i) * cm (i, j))) cols.

(** [dim] is [r.shape[-1]]. *)
Definition spherical_harmonics (empty : nat) (tiny : R) (w : world (sh_file R)) (s : schedule) (o : io)
    (dim : nat) (r : list (list R)) (max_degree : Z) (r_is_normalized cartesian_order : bool) (normalization : string)
    : world (sh_file R) * result (list (list R)) :=
  if negb (dim =? 3)%nat then (w, Err ValueError)                                     (* 136-137 *)
  else match check_degree max_degree with                                             (* 138 *)
  | Err e => (w, Err e)
  | Ok L =>
      let '(w, table) := spherical_harmonics_table w max_degree s o in                (* 142-144 *)
      (w, bind table (fun t =>
          bind (normalize_columns normalization L (sh_cm R t)) (fun cm =>             (* 146-149 *)
          let cols := if cartesian_order then cartesian_permutation empty L           (* 151-152 *)
                      else seq 0 ((L + 1) ^ 2) in
          bind (if r_is_normalized then Ok r else normalize tiny r) (fun r =>         (* 155-156 *)
          Ok (map (combine_monomials L (num_car L) (sh_ls R t) cm cols) r)))))        (* 162-170 *)
  end.

(** [solid_harmonics] (173-217) *)
Definition solid_harmonics (empty : nat) (tiny : R) (w : world (sh_file R)) (s : schedule) (o : io)
    (dim : nat) (r : list (list R)) (max_degree : Z) (cartesian_order : bool) : world (sh_file R) * result (list (list R)) :=
  spherical_harmonics empty tiny w s o dim r max_degree true cartesian_order "racah".

(** * [wigner_d] (rotations.py:373-456) *)

(** [dmat.at[..., i:j, i:j].set(entries[a:b].reshape(num, num))] *)
Definition set_block (i j a num : nat) (entries : list R) (dmat : nat -> nat -> R) : nat -> nat -> R :=
  fun p q => if (i <=? p)%nat && (p <? j)%nat && (i <=? q)%nat && (q <? j)%nat
             then nth (a + ((p - i) * num + (q - i))) entries 0 else dmat p q.

(** (rotations.py:443-456) *)
Definition assemble (L : nat) (entries : list R) : nat -> nat -> R :=
  fold_left (fun dmat l =>
      let i := (l ^ 2)%nat in
      let j := ((l + 1) ^ 2)%nat in
      let b := ((l + 1) * (2 * l + 1) * (2 * l + 3) / 3)%nat in
      let a := (b - (2 * l + 1) ^ 2)%nat in
      let num := (2 * l + 1)%nat in
      set_block i j a num entries dmat)
    (seq 0 (L + 1)) (fun _ _ => 0).

(** An array as a list of rows. *)
Definition rows (n m : nat) (f : nat -> nat -> R) : list (list R) :=
  map (fun p => map (fun q => f p q) (seq 0 m)) (seq 0 n).

(** [dims] is [rot.shape[-2:]]; every matrix is a list of rows. *)
Definition wigner_d (empty : nat) (w : world (wd_file R)) (s : schedule) (o : io)
    (dims : nat * nat) (rot : list (list (list R))) (max_degree : Z) (cartesian_order : bool)
    : world (wd_file R) * result (list (list (list R))) :=
  if negb ((fst dims =? 3)%nat && (snd dims =? 3)%nat) then (w, Err ValueError)        (* 412 *)
  else
    let '(w, table) := wigner_d_table w max_degree s o in                              (* 416; checks the degree *)
    (w, bind table (fun t =>
        let L := Z.to_nat max_degree in
        let cols := if cartesian_order then cartesian_permutation_wigner_d_entries empty L   (* 420-421 *)
                    else seq 0 (num_wig L) in
        Ok (map (fun m => let entries := combine_monomials L (num_rot L) (wd_ls R t) (wd_cm R t) cols (concat m) in   (* 427-442 *)
                          rows ((L + 1) ^ 2) ((L + 1) ^ 2) (assemble L entries)) rot))).

(** * Clebsch-Gordan coefficients (irreps.py:220-322) *)

Section ClebschGordan.
Variable A : Type.
Variable zero : A.
Variable is_zero : A -> bool.
Variable clebsch_gordan_value : cg_key -> A.

(** [_generate_clebsch_gordan_lookup_table] (_clebsch_gordan_lut.py:75-190) *)
Definition clebsch_gordan_table := cg_generate A zero is_zero clebsch_gordan_value.

(** [a[i0:i1, j0:j1, k0:k1]] *)
Definition slice3 (i0 i1 j0 j1 k0 k1 : nat) (a : LUT_Model.key3 -> A) : list (list (list A)) :=
  map (fun i => map (fun j => map (fun k => a (i, j, k)) (seq k0 (k1 - k0))) (seq j0 (j1 - j0))) (seq i0 (i1 - i0)).

(** [a[p]] *)
Definition take {X : Type} (d : X) (p : list nat) (a : list X) : list X := map (fun i => nth i a d) p.

(** [cg[p1, :, :][:, p2, :][:, :, p3]] *)
Definition permute3 (p1 p2 p3 : list nat) (a : list (list (list A))) : list (list (list A)) :=
  map (map (take zero p3)) (map (take [] p2) (take [] p1 a)).

(** [clebsch_gordan] (220-270) *)
Definition clebsch_gordan (empty : nat) (w : world (cg_file A)) (s : schedule) (o : io)
    (max_degree1 max_degree2 max_degree3 : Z) (cartesian_order : bool) : world (cg_file A) * result (list (list (list A))) :=
  match bind (check_degree max_degree1) (fun L1 => bind (check_degree max_degree2) (fun L2 =>
        bind (check_degree max_degree3) (fun L3 => Ok (L1, L2, L3)))) with              (* 246-248 *)
  | Err e => (w, Err e)
  | Ok (L1, L2, L3) =>
      let max_degree := Z.max (Z.max max_degree1 max_degree2) max_degree3 in
      let '(w, table) := clebsch_gordan_table w max_degree s o in
      (w, bind table (fun t =>
          let cg := slice3 0 ((L1 + 1) ^ 2) 0 ((L2 + 1) ^ 2) 0 ((L3 + 1) ^ 2) (cg_at A t) in
          Ok (if cartesian_order
              then permute3 (cartesian_permutation empty L1) (cartesian_permutation empty L2) (cartesian_permutation empty L3) cg
              else cg)))
  end.

(** [clebsch_gordan_for_degrees] (273-322) *)
Definition clebsch_gordan_for_degrees (empty : nat) (w : world (cg_file A)) (s : schedule) (o : io)
    (degree1 degree2 degree3 : Z) (cartesian_order : bool) : world (cg_file A) * result (list (list (list A))) :=
  match bind (check_degree degree1) (fun l1 => bind (check_degree degree2) (fun l2 =>
        bind (check_degree degree3) (fun l3 => Ok (l1, l2, l3)))) with
  | Err e => (w, Err e)
  | Ok (l1, l2, l3) =>
      let max_degree := Z.max (Z.max degree1 degree2) degree3 in
      let '(w, table) := clebsch_gordan_table w max_degree s o in
      (w, bind table (fun t =>
          let cg := slice3 (l1 ^ 2) ((l1 + 1) ^ 2) (l2 ^ 2) ((l2 + 1) ^ 2) (l3 ^ 2) ((l3 + 1) ^ 2) (cg_at A t) in
          Ok (if cartesian_order
              then permute3 (cartesian_permutation_for_degree empty l1) (cartesian_permutation_for_degree empty l2)
                            (cartesian_permutation_for_degree empty l3) cg
              else cg)))
  end.
End ClebschGordan.
