(** Property C71: embeddings. *)
Require Import List Reals ZArith Bool Lia Lra.
Require Import Verif.Base Verif.Features_Model Verif.Initializers_Model Verif.Embed_Model Verif.Embed_Spec Verif.Network_Spec.
Import ListNotations.
Open Scope R_scope.

Lemma take_row_spec : forall n z k, take_row n z = Some k <-> (k < n)%nat /\ (z = Z.of_nat k \/ z = Z.of_nat k - Z.of_nat n)%Z.
Proof.
  intros n z k. unfold take_row. destruct (Z.ltb_spec z 0) as [H|H].
  - destruct (Z.leb_spec 0 (z + Z.of_nat n)); destruct (Z.ltb_spec (z + Z.of_nat n) (Z.of_nat n)); cbn [andb]; split; try discriminate; try (intros [? [?|?]]; lia).
    + intros E. injection E as <-. split; [lia|right; lia].
    + intros [? [?|?]]; [lia|]. f_equal. lia.
  - destruct (Z.leb_spec 0 z); [|lia]. destruct (Z.ltb_spec z (Z.of_nat n)); cbn [andb]; split; try discriminate; try (intros [? [?|?]]; lia).
    + intros E. injection E as <-. split; [lia|left; lia].
    + intros [? [?|?]]; [f_equal; lia|lia].
Qed.
Lemma take_row_none : forall n z, take_row n z = None <-> (z < - Z.of_nat n \/ Z.of_nat n <= z)%Z.
Proof.
  intros n z. unfold take_row. destruct (Z.ltb_spec z 0) as [H|H].
  - destruct (Z.leb_spec 0 (z + Z.of_nat n)); destruct (Z.ltb_spec (z + Z.of_nat n) (Z.of_nat n)); cbn [andb]; split; try discriminate; try reflexivity; lia.
  - destruct (Z.leb_spec 0 z); [|lia]. destruct (Z.ltb_spec z (Z.of_nat n)); cbn [andb]; split; try discriminate; try reflexivity; lia.
Qed.

(** Number z, between 0 and n - 1, becomes row z of the parameters, for every shape of the input; the
    output has the shape of the input followed by (1, 1, features). *)
Theorem C71_rows : forall n features dtype param_dtype embedding batch inputs, exists e,
  embed n features dtype param_dtype embedding true batch inputs = Ok e
  /\ embedded_shape e = batch ++ [1; 1; features]%nat
  /\ e_dtype e = match dtype with Some d => d | None => param_dtype end
  /\ forall i f k, (k < n)%nat -> inputs i = Z.of_nat k -> e_value e i f = Some (embedding k f).
Proof.
  intros n F dt pd E B inp. eexists. split; [reflexivity|]. split; [reflexivity|]. split; [reflexivity|]. intros i f k Hk Ei. cbn [e_value].
  rewrite (proj2 (take_row_spec n (inp i) k)); [reflexivity|auto].
Qed.
Print Assumptions C71_rows.

(** The documentation restricts numbers to [0, n); what happens to others: numbers from -n to -1 count
    from the end, for all other numbers, and only for them, the features are NaN. *)
Theorem C71_other_numbers : forall n features dtype param_dtype embedding batch inputs e i f,
  embed n features dtype param_dtype embedding true batch inputs = Ok e ->
  (forall k, (k < n)%nat -> (inputs i = Z.of_nat k - Z.of_nat n)%Z -> e_value e i f = Some (embedding k f))
  /\ (e_value e i f = None <-> (inputs i < - Z.of_nat n \/ Z.of_nat n <= inputs i)%Z).
Proof.
  intros n F dt pd E B inp e i f H. injection H as <-. cbn [e_value]. split.
  - intros k Hk Ei. rewrite (proj2 (take_row_spec n (inp i) k)); [reflexivity|auto].
  - rewrite <- take_row_none. destruct (take_row n (inp i)); split; congruence.
Qed.
Print Assumptions C71_other_numbers.

(** Inputs that are not integers are rejected. *)
Theorem C71_not_integer : forall n features dtype param_dtype embedding batch inputs,
  embed n features dtype param_dtype embedding false batch inputs = Err ValueError.
Proof. reflexivity. Qed.
Print Assumptions C71_not_integer.

(** Entries are embedded one by one: the features of an entry depend on its number only, and
    parameters of numbers that do not occur do not matter. *)
Theorem C71_independent : forall n features dtype param_dtype embedding embedding' batch batch' inputs inputs' e e' i i',
  embed n features dtype param_dtype embedding true batch inputs = Ok e ->
  embed n features dtype param_dtype embedding' true batch' inputs' = Ok e' ->
  inputs' i' = inputs i -> (0 <= inputs i < Z.of_nat n)%Z -> (forall f, embedding' (Z.to_nat (inputs i)) f = embedding (Z.to_nat (inputs i)) f) ->
  forall f, e_value e' i' f = e_value e i f.
Proof.
  intros n F dt pd E E' B B' inp inp' e e' i i' H H' Ei R Em f. injection H as <-. injection H' as <-. cbn [e_value]. rewrite Ei.
  rewrite (proj2 (take_row_spec n (inp i) (Z.to_nat (inp i)))); [now rewrite Em|]. split; [lia|left; lia].
Qed.
Print Assumptions C71_independent.

(** Embedded numbers are features that contain scalars only, as the networks of C69 need them. *)
Theorem C71_scalars : forall n features dtype param_dtype embedding batch inputs,
  (forall i, inside batch i -> (0 <= inputs i < Z.of_nat n)%Z) ->
  exists e x, embed n features dtype param_dtype embedding true batch inputs = Ok e /\ as_features e x /\ only_scalars x /\
    forall i f, inside batch i -> fv x i 0%nat 0%nat f = embedding (Z.to_nat (inputs i)) f.
Proof.
  intros n F dt pd E B inp H. eexists. exists (mkFeat B 1 1 F (match dt with Some d => d | None => pd end) (fun i _ _ f => E (Z.to_nat (inp i)) f)).
  split; [reflexivity|]. split; [|split; [split; reflexivity|reflexivity]]. repeat split. intros i f Hi. cbn [e_value fv e_batch] in *. specialize (H i Hi).
  rewrite (proj2 (take_row_spec n (inp i) (Z.to_nat (inp i)))); [reflexivity|]. split; [lia|left; lia].
Qed.
Print Assumptions C71_scalars.

(** Initially the features of a number are independent draws with variance 1 / features, so that a feature
    vector has expected squared length 1, whatever the number of embeddings is. *)
Theorem C71_initial : forall n features draw, (0 < n)%nat -> (0 < features)%nat ->
  embed_init n features draw = Ok (sqrt (/ INR features) * draw).
Proof.
  intros n F draw Hn HF. unfold embed_init, random_array. do 2 f_equal. f_equal. unfold jax_fan_in. cbn [nth fold_right]. rewrite Nat.mul_1_r, !Nat.mul_1_l, mult_INR.
  assert (0 < INR n) by (now apply lt_0_INR). assert (0 < INR F) by (now apply lt_0_INR). change (INR 1) with 1. field. split; lra.
Qed.
Print Assumptions C71_initial.

(** Water: oxygen, hydrogen, hydrogen. *)
Example C71_case : let inputs := fun i => nth (nth 0 i 0%nat) [8%Z; 1%Z; 1%Z] 0%Z in let E := fun k f => INR (10 * k + f)%nat in
  (forall i, inside [3%nat] i -> (0 <= inputs i < Z.of_nat 10)%Z) /\
  exists e, embed 10 2 None 0 E true [3%nat] inputs = Ok e /\ e_value e [0%nat] 1%nat = Some 81 /\ e_value e [1%nat] 1%nat = Some 11 /\ e_value e [2%nat] 0%nat = Some 10
  /\ embedded_shape e = [3; 1; 1; 2]%nat.
Proof.
  intros inputs E. split.
  - intros [|k [|? ?]]; cbn [inside]; try tauto. intros [H _]. do 3 (destruct k as [|k]; [cbn; lia|]). lia.
  - eexists. split; [reflexivity|]. unfold embedded_shape. cbn [e_value e_batch e_features].
    change (take_row 10 (inputs [0%nat])) with (Some 8%nat). change (take_row 10 (inputs [1%nat])) with (Some 1%nat). change (take_row 10 (inputs [2%nat])) with (Some 1%nat).
    unfold E. rewrite !INR_IZR_INZ. repeat split.
Qed.

(** Finding: the number -1 is accepted and gets the features of n - 1; n itself gives NaN. *)
Example C71_findings : forall F E, exists e, embed 10 F None 0 E true [2%nat] (fun i => nth (nth 0 i 0%nat) [(-1)%Z; 10%Z] 0%Z) = Ok e /\
  (forall f, e_value e [0%nat] f = Some (E 9%nat f)) /\ forall f, e_value e [1%nat] f = None.
Proof. intros F E. eexists. split; [reflexivity|]. split; intros f; reflexivity. Qed.
