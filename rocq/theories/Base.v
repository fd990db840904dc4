(** Shared vocabulary of the model: Python exceptions as values, plus a few
    list operations that stand for numpy/jax primitives.  No proofs here. *)
Require Import List ZArith Bool.
Import ListNotations.

(** Kinds of Python exceptions raised by the modelled code. *)
Inductive err : Type :=
  ValueError | RuntimeError | TypeError | IndexError | AssertionError | KeyError
| BadZipFile | EOFError | OSError | ZeroDivisionError
| Killed (** not an exception: the process was killed *).

(** A Python computation either returns a value or raises. *)
Inductive result (A : Type) : Type :=
| Ok (a : A)
| Err (e : err).
Arguments Ok {A} a.
Arguments Err {A} e.

Definition bind {A B : Type} (x : result A) (f : A -> result B) : result B :=
  match x with Ok a => f a | Err e => Err e end.

Definition rmap {A B : Type} (f : A -> B) (x : result A) : result B :=
  match x with Ok a => Ok (f a) | Err e => Err e end.

(** Python [range(a, b)] on integers (empty when [b <= a]). *)
Definition zrange (a b : Z) : list Z :=
  map (fun k => (a + Z.of_nat k)%Z) (seq 0 (Z.to_nat (b - a))).

(** [jnp.tile(l, n)]: [n] copies of [l] one after the other. *)
Fixpoint tile {A : Type} (l : list A) (n : nat) : list A :=
  match n with O => [] | S k => l ++ tile l k end.

(** [jnp.repeat(l, n)]: every element repeated [n] times in place. *)
Definition repeat_each {A : Type} (l : list A) (n : nat) : list A :=
  flat_map (fun a => repeat a n) l.

(** Elements of [l] whose position (counted from [i]) satisfies [keep]. *)
Fixpoint filteri_from {A : Type} (keep : nat -> bool) (i : nat) (l : list A) : list A :=
  match l with
  | [] => []
  | a :: t => if keep i then a :: filteri_from keep (S i) t
              else filteri_from keep (S i) t
  end.

(** [jnp.delete(l, slice(start, stop, step))] for a positive step. *)
Definition delete_slice {A : Type} (l : list A) (start stop step : nat) : list A :=
  filteri_from
    (fun i => negb ((start <=? i) && (i <? stop) && ((i - start) mod step =? 0)))%nat 0 l.

(** Split [l] into [n] consecutive chunks of size [m]. *)
Fixpoint chunks {A : Type} (n m : nat) (l : list A) : list (list A) :=
  match n with
  | O => []
  | S k => firstn m l :: chunks k m (skipn m l)
  end.

(** [jnp.reshape(l, (n, -1))]: raises when the size is not divisible by [n]. *)
Definition reshape_rows {A : Type} (n : nat) (l : list A) : result (list (list A)) :=
  if (length l mod n =? 0)%nat then Ok (chunks n (length l / n) l) else Err TypeError.
