(** Specification vocabulary for quadrature grids (C52). *)
Require Import List ZArith Bool Lia.
Require Import Verif.Base Verif.Quadrature_Model.
Import ListNotations.
Open Scope Z_scope.

(** A usable grid file: at least one grid, the i-th grid of precision p_i >= 0 with n_i >= 0 points
    exists, and more precise grids are larger. *)
Definition usable {G : Type} (q : archive G) : Prop :=
  a_precision q <> [] /\ length (a_num q) = length (a_precision q)
  /\ (forall i, (i < length (a_precision q))%nat -> 0 <= nth i (a_precision q) 0 /\ 0 <= nth i (a_num q) 0 /\ exists g, a_grid q i = Some g)
  /\ forall i j, (i < j < length (a_precision q))%nat ->
       nth i (a_precision q) 0 < nth j (a_precision q) 0 /\ nth i (a_num q) 0 < nth j (a_num q) 0.

(** Grid number i of a file, with its precision and number of points. *)
Definition has_grid {G : Type} (q : archive G) (p n : Z) (g : G) : Prop :=
  exists i, (i < length (a_precision q))%nat /\ a_grid q i = Some g /\ nth i (a_precision q) 0 = p /\ nth i (a_num q) 0 = n.

Definition has_size {G : Type} (q : archive G) (p n : Z) : Prop :=
  exists i, (i < length (a_precision q))%nat /\ nth i (a_precision q) 0 = p /\ nth i (a_num q) 0 = n.
