(** Vocabulary for the statements about embeddings. *)
Require Import List Reals ZArith.
Require Import Verif.Base Verif.Features_Model Verif.Embed_Model.
Import ListNotations.

(** i is the index of an entry of an array with the given shape. *)
Fixpoint inside (shape i : list nat) : Prop :=
  match shape, i with
  | [], [] => True
  | n :: shape, k :: i => (k < n)%nat /\ inside shape i
  | _, _ => False
  end.

(** The result of an embedding as a feature array: scalars only, and no entry is NaN. *)
Definition as_features (e : embedded) (x : feat) : Prop :=
  fB x = e_batch e /\ fS x = 1%nat /\ fD x = 1%nat /\ fF x = e_features e /\ fdt x = e_dtype e /\
  forall i f, inside (e_batch e) i -> e_value e i f = Some (fv x i 0%nat 0%nat f).
