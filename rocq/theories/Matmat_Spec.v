(** Specification vocabulary for matrices of matrices (C53, C54, C63).  Does not mention the
    functions of the model. *)
Require Import List Reals ZArith Bool.
Require Import Verif.Base Verif.RSum Verif.Matmat_Model.
Import ListNotations.
Open Scope R_scope.

(** Degree l occurs in the decomposition of a (2 la + 1) x (2 lb + 1) matrix. *)
Definition triangle (la lb l : nat) : bool := ((la <=? lb + l) && (lb <=? la + l) && (l <=? la + lb))%nat.

(** Number of blocks in a list (given by their degrees) that contain degree l. *)
Definition blocks_with (l : nat) (pairs : list (nat * nat)) : nat :=
  length (filter (fun p => triangle (fst p) (snd p) l) pairs).

Definition degree_at (degrees : list nat) (A : nat) : nat := nth A degrees 0%nat.

(** First row (column) of the A-th group of blocks: each degree occurs mult times. *)
Definition offset (degrees : list nat) (mult A : nat) : nat :=
  (mult * list_sum (map (fun l => 2 * l + 1) (firstn A degrees)))%nat.

(** Row (column) of component u of copy i of the A-th degree. *)
Definition position (degrees : list nat) (mult A i u : nat) : nat :=
  (offset degrees mult A + i * (2 * degree_at degrees A + 1) + u)%nat.

Definition in_group (degrees : list nat) (mult A i u : nat) : Prop :=
  (A < length degrees /\ i < mult /\ u < 2 * degree_at degrees A + 1)%nat.

(** Which column of the irreps of degree l becomes part of the block (copy i of degree A, copy j
    of degree B): blocks are filled in row-major order. *)
Definition column (degrees : list nat) (mult l A B i j : nat) : nat :=
  (blocks_with l (firstn (A * length degrees + B) (list_prod degrees degrees)) * (mult * mult) + (i * mult + j))%nat.

(** N arrays, the l-th with the 2 l + 1 components of a number of irreps of degree l. *)
Definition irreps_shape (N : nat) (number : nat -> nat) (irreps : list mat) : Prop :=
  length irreps = N /\ forall l x, nth_error irreps l = Some x -> rows x = (2 * l + 1)%nat /\ cols x = number l.

Definition irrep (irreps : list mat) (l k c : nat) : R :=
  match nth_error irreps l with Some x => val x k c | None => 0 end.

(** Entry of the assembled matrix without the identity. *)
Definition assembled (C : nat -> nat -> nat -> R) (N : nat) (degrees : list nat) (mult : nat) (irreps : list mat)
    (A i u B j v : nat) : R :=
  let la := degree_at degrees A in let lb := degree_at degrees B in
  rsum N (fun l => if triangle la lb l
    then rsum (2 * l + 1) (fun k => irrep irreps l k (column degrees mult l A B i j)
                                    * C (la * la + u)%nat (lb * lb + v)%nat (l * l + k)%nat)
    else 0).

(** Number of irreps of degree l in all blocks. *)
Definition total_with (degrees : list nat) (l : nat) : nat := blocks_with l (list_prod degrees degrees).

(** The same number, by the definition of the multiplicity of degree l in the tensor square of
    the sum of the given degrees, up to degree md. *)
Definition multiplicity (degrees : list nat) (md : option nat) (l : nat) : nat :=
  match md with Some m => if (l <=? m)%nat then total_with degrees l else 0%nat | None => total_with degrees l end.

(** Coupling coefficients (of degrees below n1, n1, n3) are orthonormal, and degree 0 is the
    normalised trace. *)
Definition cg_orthonormal (n1 n3 : nat) (C : nat -> nat -> nat -> R) : Prop :=
  forall la l l' k k', (la < n1)%nat -> (l < n3)%nat -> (l' < n3)%nat -> (k < 2 * l + 1)%nat -> (k' < 2 * l' + 1)%nat ->
    (l <= la + la)%nat -> (l' <= la + la)%nat ->
    rsum (2 * la + 1) (fun u => rsum (2 * la + 1) (fun v =>
      C (la * la + u)%nat (la * la + v)%nat (l * l + k)%nat * C (la * la + u)%nat (la * la + v)%nat (l' * l' + k')%nat))
    = if (l * l + k =? l' * l' + k')%nat then 1 else 0.

Definition cg_scalar (n1 : nat) (C : nat -> nat -> nat -> R) : Prop :=
  forall la u v, (la < n1)%nat -> (u < 2 * la + 1)%nat -> (v < 2 * la + 1)%nat ->
    C (la * la + u)%nat (la * la + v)%nat 0%nat = (if (u =? v)%nat then 1 else 0) / sqrt (INR (2 * la + 1)).

(** Every irrep of degree l is multiplied (from the left, as features are) by the block of D for
    degree l. *)
Definition irreps_transformed (D : nat -> nat -> R) (irreps irreps' : list mat) : Prop :=
  length irreps' = length irreps
  /\ forall l x, nth_error irreps l = Some x -> exists x', nth_error irreps' l = Some x' /\ rows x' = rows x /\ cols x' = cols x
     /\ forall k c, (k < 2 * l + 1)%nat -> val x' k c = rsum (2 * l + 1) (fun k' => val x k' c * D (l * l + k')%nat (l * l + k)%nat).

(** The blocks of D are orthogonal matrices. *)
Definition blocks_orthogonal (n : nat) (D : nat -> nat -> R) : Prop :=
  forall l a b, (l < n)%nat -> (a < 2 * l + 1)%nat -> (b < 2 * l + 1)%nat ->
    rsum (2 * l + 1) (fun k => D (l * l + a)%nat (l * l + k)%nat * D (l * l + b)%nat (l * l + k)%nat) = (if (a =? b)%nat then 1 else 0)
    /\ rsum (2 * l + 1) (fun k => D (l * l + k)%nat (l * l + a)%nat * D (l * l + k)%nat (l * l + b)%nat) = (if (a =? b)%nat then 1 else 0).

Definition max_of (l : list nat) (m : nat) : Prop := In m l /\ forall x, In x l -> (x <= m)%nat.
