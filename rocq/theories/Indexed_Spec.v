(** Independent vocabulary for the properties of index lists.  A sparse index list is
    read as a list of edges (destination, source). *)
Require Import List ZArith Reals.
Import ListNotations.

(** Sources of all edges that end in node [i], in the order in which they are listed. *)
Definition sources_of (i : Z) (edges : list (Z * Z)) : list Z :=
  map snd (filter (fun e => (fst e =? i)%Z) edges).

(** The edges described by an adjacency list whose entries [>= pad] are padding:
    row by row, left to right. *)
Definition edges_of_adjacency (pad : Z) (rows : list (list Z)) : list (Z * Z) :=
  flat_map (fun i => map (fun j => (Z.of_nat i, j)) (filter (fun j => (j <? pad)%Z) (nth i rows [])))
           (seq 0 (length rows)).

(** Values of all edges that end in node [i]. *)
Definition values_at (i : Z) (edges : list (Z * R)) : list R :=
  map snd (filter (fun e => (fst e =? i)%Z) edges).

(** Sum, maximum and minimum of a finite list of reals, with a start value. *)
Fixpoint list_sum (l : list R) : R :=
  match l with [] => 0%R | a :: t => (a + list_sum t)%R end.

Fixpoint list_extreme (f : R -> R -> R) (start : R) (l : list R) : R :=
  match l with [] => start | a :: t => f a (list_extreme f start t) end.
