(** Vocabulary for the statements about norms and 3x3 rotation matrices. *)
Require Import List Reals.
Require Import Verif.Rotations_Model.
Import ListNotations.
Open Scope R_scope.

(** Euclidean length of a list of numbers. *)
Fixpoint sum_of (l : list R) : R := match l with [] => 0 | x :: t => x + sum_of t end.
Definition length_of (l : list R) : R := sqrt (sum_of (map (fun x => x ^ 2) l)).

Definition dot (u v : vec) : R :=
  let '(a, b, c) := u in let '(x, y, z) := v in a * x + b * y + c * z.
Definition size (v : vec) : R := sqrt (dot v v).
Definition times (s : R) (v : vec) : vec := let '(x, y, z) := v in (s * x, s * y, s * z).
Definition plus (u v : vec) : vec :=
  let '(a, b, c) := u in let '(x, y, z) := v in (a + x, b + y, c + z).
Definition unit_of (v : vec) : vec := times (/ size v) v.
Definition e1 : vec := (1, 0, 0).
Definition e2 : vec := (0, 1, 0).
Definition e3 : vec := (0, 0, 1).
(** The vector product. *)
Definition outer (u v : vec) : vec :=
  let '(a, b, c) := u in let '(x, y, z) := v in (b * z - c * y, c * x - a * z, a * y - b * x).

(** Matrices act on row vectors from the right: [v @ m]. *)
Definition act (v : vec) (m : mat) : vec :=
  let '(x, y, z) := v in let '(r1, r2, r3) := m in plus (plus (times x r1) (times y r2)) (times z r3).
Definition row (m : mat) (i : nat) : vec :=
  let '(r1, r2, r3) := m in match i with O => r1 | 1%nat => r2 | _ => r3 end.
Definition coord (v : vec) (j : nat) : R :=
  let '(x, y, z) := v in match j with O => x | 1%nat => y | _ => z end.
Definition entry (m : mat) (i j : nat) : R := coord (row m i) j.

(** A proper rotation: the rows are orthonormal and right-handed. *)
Definition proper_rotation (m : mat) : Prop :=
  (forall i j, (i < 3)%nat -> (j < 3)%nat -> dot (row m i) (row m j) = if Nat.eqb i j then 1 else 0) /\
  dot (outer (row m 0) (row m 1)) (row m 2) = 1.

Definition trace3 (m : mat) : R := entry m 0 0 + entry m 1 1 + entry m 2 2.

(** Counterclockwise rotation of [v] about the unit vector [k] (Rodrigues' formula). *)
Definition turned (k : vec) (angle : R) (v : vec) : vec :=
  plus (plus (times (cos angle) v) (times (sin angle) (outer k v))) (times ((1 - cos angle) * dot k v) k).

(** [m1] undoes [m2]. *)
Definition inverse_matrices (m1 m2 : mat) : Prop :=
  forall v, act (act v m1) m2 = v /\ act (act v m2) m1 = v.
