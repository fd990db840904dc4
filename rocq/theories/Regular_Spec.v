(** Vocabulary for C76-C79: how predictions depend on the positions of the atoms. *)
Require Import List Reals ZArith Bool.
Require Import Verif.Base Verif.RSum Verif.Features_Model Verif.Features_Spec Verif.Modules_Model Verif.Rotations_Model Verif.Rotations_Spec Verif.Network_Spec Verif.Locality_Spec Verif.Molecule_Spec.
Import ListNotations.
Open Scope R_scope.

(** An activation multiplies the features with a function of the scalars of even parity. *)
Definition gate_of (act : feat -> result feat) (g : R -> R) : Prop :=
  forall x y, act x = Ok y -> fB y = fB x /\ fS y = fS x /\ fD y = fD x /\ fF y = fF x /\ fdt y = fdt x
    /\ forall i s d f, fv y i s d f = g (fv x i 0%nat 0%nat f) * fv x i s d f.

(** What the user chooses: the radial functions, the cutoff and the damping are functions of the distances in one class,
    the gates of the activations are functions in another class. *)
Definition built_from (distances gates : (R -> R) -> Prop) (M : model) : Prop :=
  (forall f, distances (fun r => nth f (m_radial M r) 0))
  /\ (forall c, m_cutoff M = Some c -> distances c) /\ (forall c, m_damping M = Some c -> distances c)
  /\ forall i act, In (UseActivation i act) (m_calls M) -> exists g, gate_of act g /\ gates g.

(** The value of one feature of the prediction: array k, atom n, parity s, component d, feature f. *)
Definition predicted (M : model) (A : molecule) (k n s d f : nat) (v : R) : Prop :=
  exists ys y, predicts M A ys /\ nth_error ys k = Some y /\ (n < atoms A)%nat /\ (s < fS y)%nat /\ (d < fD y)%nat /\ (f < fF y)%nat /\ v = fv y [n] s d f.

(** Sets of positions of N atoms that contain all positions close to any of their elements. *)
Definition open_set (N : nat) (U : (nat -> vec) -> Prop) : Prop :=
  forall p, U p -> exists delta, 0 < delta /\ forall d, extent N d < delta -> U (displaced p d).
(** Sets of positions in which interacting atoms do not coincide, and in which attention is defined. *)
Definition allowed (M : model) (A : molecule) (U : (nat -> vec) -> Prop) : Prop :=
  open_set (atoms A) U /\ forall p, U p -> (forall e, In e (pairs A) -> distance (with_positions A p) e <> 0) /\ close_enough M (with_positions A p).

(** Functions of the positions: continuous at p; continuously many times differentiable on U. *)
Definition continuous_at (N : nat) (E : (nat -> vec) -> R) (p : nat -> vec) : Prop :=
  forall eps, 0 < eps -> exists delta, 0 < delta /\ forall d, extent N d < delta -> Rabs (E (displaced p d) - E p) < eps.
Fixpoint differentiable_on (N : nat) (U : (nat -> vec) -> Prop) (n : nat) (E : (nat -> vec) -> R) : Prop :=
  match n with
  | O => True
  | S n => exists F : (nat -> vec) -> nat -> vec, (forall p, U p -> forces N E p (F p)) /\ forall i j, (i < N)%nat -> (j < 3)%nat -> differentiable_on N U n (fun p => coord (F p i) j)
  end.
Definition smooth_on (N : nat) (U : (nat -> vec) -> Prop) (E : (nat -> vec) -> R) : Prop := forall n, differentiable_on N U n E.

(** Functions of one variable, everywhere or on the positive half line. *)
Definition differentiable (g : R -> R) : Prop := forall x, exists l, derivable_pt_lim g x l.
Definition continuous_positive (g : R -> R) : Prop := forall r, 0 < r -> continuity_pt g r.
Definition differentiable_positive (g : R -> R) : Prop := forall r, 0 < r -> exists l, derivable_pt_lim g r l.
Fixpoint times_differentiable_positive (n : nat) (g : R -> R) : Prop :=
  match n with
  | O => True
  | S n => exists g', (forall r, 0 < r -> derivable_pt_lim g r (g' r)) /\ times_differentiable_positive n g'
  end.
Definition smooth_positive (g : R -> R) : Prop := forall n, times_differentiable_positive n g.
