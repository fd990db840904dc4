(** Property theorems C31-C34 and C61: feature arrays. *)
Require Import List Reals ZArith Bool Lia Lra Permutation.
Require Import Verif.Base Verif.RSum Verif.Features_Model Verif.Features_Spec Verif.Features_Proofs Verif.Features_Laws_Proofs.
Import ListNotations.
Open Scope R_scope.

(** * C31: shape validation *)

(** Accepted exactly if the last three sizes are 1 or 2, a square and anything. *)
Theorem C31_shape_accepted_iff : forall shape L,
  extract_max_degree_and_check_shape shape = Ok L <->
  exists B s n f, shape = B ++ [s; (n * n)%nat; f] /\ (s = 1 \/ s = 2)%nat /\ L = (Z.of_nat n - 1)%Z.
Proof.
  intros shape L. split.
  - intros H. destruct (Nat.ltb_spec (length shape) 3) as [Hlt|Hge].
    { unfold extract_max_degree_and_check_shape in H. apply Nat.ltb_lt in Hlt. rewrite Hlt in H. discriminate. }
    assert (Hs : exists B s d f, shape = B ++ [s; d; f]).
    { destruct (exists_last (l := shape)) as [s1 [f E1]]; [intros ->; simpl in Hge; lia|]. subst shape.
      rewrite app_length in Hge. simpl in Hge.
      destruct (exists_last (l := s1)) as [s2 [d E2]]; [intros ->; simpl in Hge; lia|]. subst s1.
      rewrite app_length in Hge. simpl in Hge.
      destruct (exists_last (l := s2)) as [s3 [s E3]]; [intros ->; simpl in Hge; lia|]. subst s2.
      exists s3, s, d, f. rewrite <- !app_assoc. reflexivity. }
    destruct Hs as [B [s [d [f ->]]]].
    destruct (extract_ok (mkFeat B s d f 0 (fun _ _ _ _ => 0)) L H) as [n [[HS HD] HL]].
    simpl in HS, HD. exists B, s, n, f. subst d. auto.
  - intros [B [s [n [f [-> [Hs ->]]]]]].
    apply (extract_valid (mkFeat B s (n * n) f 0 (fun _ _ _ _ => 0)) n). split; [exact Hs|reflexivity].
Qed.
Print Assumptions C31_shape_accepted_iff.

(** Everything else raises ValueError. *)
Theorem C31_shape_rejected : forall shape,
  (exists L, extract_max_degree_and_check_shape shape = Ok L)
  \/ extract_max_degree_and_check_shape shape = Err ValueError.
Proof.
  intros shape. unfold extract_max_degree_and_check_shape.
  destruct (_ <? 3)%nat; [now right|]. destruct (negb _); [now right|]. destruct (negb _); [now right|]. left. eauto.
Qed.
Print Assumptions C31_shape_rejected.

(** The integer computation used in the model is the rounding in the code:
    [round(math.sqrt(n) - 1)] is the integer closest to sqrt n - 1, and there is never a tie. *)
Theorem C31_rounding : forall n,
  Rabs ((sqrt (INR n) - 1) - IZR (round_sqrt_minus_1 n)) < / 2.
Proof.
  intros n. unfold round_sqrt_minus_1. rewrite minus_IZR, <- INR_IZR_INZ.
  replace (sqrt (INR n) - 1 - (INR (round_sqrt n) - 1)) with (sqrt (INR n) - INR (round_sqrt n)) by ring.
  apply round_sqrt_nearest.
Qed.
Print Assumptions C31_rounding.

Example C31_example :
  extract_max_degree_and_check_shape [7; 5; 2; 9; 4]%nat = Ok 2%Z
  /\ extract_max_degree_and_check_shape [1; 8; 4]%nat = Err ValueError
  /\ extract_max_degree_and_check_shape [3; 9; 4]%nat = Err ValueError
  /\ extract_max_degree_and_check_shape [9; 4]%nat = Err ValueError
  /\ extract_max_degree_and_check_shape [1; 0; 4]%nat = Ok (-1)%Z.   (* accepted: zero is a square *)
Proof. repeat split. Qed.

(** * C61: degree masks and duplication indices *)

(** Entry (l, m) of the mask tells whether degree l is even (odd). *)
Theorem C61_degree_masks : forall L l k, (l <= L)%nat -> (k < 2 * l + 1)%nat ->
  nth (l * l + k) (even_degree_mask L) false = Nat.even l
  /\ nth (l * l + k) (odd_degree_mask L) false = Nat.odd l
  /\ length (even_degree_mask L) = ((L + 1) * (L + 1))%nat
  /\ length (odd_degree_mask L) = ((L + 1) * (L + 1))%nat.
Proof.
  intros L l k Hl Hk.
  destruct (flat_map_degrees bool Nat.even true (L + 1) l k ltac:(lia) Hk) as [H1 H2].
  destruct (flat_map_degrees bool Nat.even false (L + 1) l k ltac:(lia) Hk) as [H1' _].
  unfold odd_degree_mask. split; [exact H1'|]. split.
  - change false with (negb true). rewrite map_nth. unfold even_degree_mask. rewrite H1. apply Nat.negb_even.
  - rewrite map_length. split; exact H2.
Qed.
Print Assumptions C61_degree_masks.

(** Duplicating per-degree values with these indices gives every order the value of its degree. *)
Theorem C61_duplication_indices : forall L l k, (l <= L)%nat -> (k < 2 * l + 1)%nat ->
  nth (l * l + k) (duplication_indices L) 0%nat = l
  /\ length (duplication_indices L) = ((L + 1) * (L + 1))%nat.
Proof. intros L l k Hl Hk. apply (flat_map_degrees nat (fun l => l)); [lia|exact Hk]. Qed.
Print Assumptions C61_duplication_indices.

Example C61_example : even_degree_mask 2 = [true; false; false; false; true; true; true; true; true]
  /\ duplication_indices 2 = [0; 1; 1; 1; 2; 2; 2; 2; 2]%nat.
Proof. split; reflexivity. Qed.

(** * C32: change_max_degree_or_type *)

(** For any accepted input and any target: the result has the requested degrees and type, every
    component for which the result has a slot is that of the input (zero where the input had
    none), and there are no others. *)
Theorem C32_change_components : forall x n max_degree L include,
  valid n x ->
  (max_degree = Some (Z.of_nat L) \/ (max_degree = None /\ n = (L + 1)%nat)) ->
  exists y, change_max_degree_or_type x max_degree include = Ok y
    /\ valid (L + 1) y
    /\ fS y = match include with Some true => 2 | Some false => 1 | None => fS x end%nat
    /\ fB y = fB x /\ fF y = fF x /\ fdt y = fdt x
    /\ forall i p l k f, (p < 2)%nat -> (k < 2 * l + 1)%nat ->
         (has_slot y p l -> comp y i p l k f = comp x i p l k f)
         /\ (~ has_slot x p l -> comp y i p l k f = 0).
Proof.
  intros x n max_degree L include Hx Hmd.
  destruct (change_comp n x (L + 1) max_degree include Hx) as [y [Ey [Vy [B [S [F [D C]]]]]]].
  { destruct Hmd as [-> | [-> ->]]; [left; f_equal; lia|right; auto]. }
  { left. lia. }
  exists y. split; [exact Ey|]. split; [exact Vy|].
  split.
  { rewrite S. destruct include as [[|]|]; simpl; try reflexivity. destruct (proj1 Hx) as [-> | ->]; reflexivity. }
  do 3 (split; [assumption|]).
  intros i p l k f Hp Hk. rewrite C by assumption. split.
  - intros [H1 H2]. destruct Vy as [_ HV]. rewrite HV in H1. apply (proj1 (sq_le _ _)) in H1.
    destruct (Nat.ltb_spec l (L + 1)); [|lia]. simpl.
    destruct H2 as [-> | [_ ->]]; [reflexivity|]. rewrite Nat.eqb_refl, orb_true_r. reflexivity.
  - intros H. destruct (_ && _)%bool; [|reflexivity]. apply (comp_slotless n); try assumption.
    apply not_true_is_false. intros Hc. apply H. apply andb_true_iff in Hc. destruct Hc as [Hc1 Hc2].
    apply Nat.ltb_lt in Hc1. destruct Hx as [HxS HxD]. split; [rewrite HxD; apply sq_le; lia|].
    apply orb_true_iff in Hc2. rewrite !Nat.eqb_eq in Hc2.
    destruct HxS as [E|E]; [|now left]. right. split; [exact E|]. destruct Hc2 as [Hc2|Hc2]; [congruence|exact Hc2].
Qed.
Print Assumptions C32_change_components.

(** Enlarging and going back returns the original array. *)
Theorem C32_round_trip : forall x L L' include,
  valid (L + 1) x -> (L <= L')%nat -> (fS x = 2%nat -> include = true) ->
  exists y z, change_max_degree_or_type x (Some (Z.of_nat L')) (Some include) = Ok y
    /\ change_max_degree_or_type y (Some (Z.of_nat L)) (Some (fS x =? 2)%nat) = Ok z
    /\ same_feature z x.
Proof.
  intros x L L' include Hx HL Hi.
  destruct (change_round_trip (L + 1) x (L' + 1) include Hx ltac:(lia) ltac:(lia) Hi) as [y [z [E1 [E2 E3]]]].
  replace (Z.of_nat (L' + 1) - 1)%Z with (Z.of_nat L') in E1 by lia.
  replace (Z.of_nat (L + 1) - 1)%Z with (Z.of_nat L) in E2 by lia. eauto.
Qed.
Print Assumptions C32_round_trip.

(** With both arguments left out nothing changes. *)
Theorem C32_no_arguments : forall x, well_formed x ->
  exists y, change_max_degree_or_type x None None = Ok y /\ same_feature y x.
Proof.
  intros x [n Hn]. destruct (change_comp n x n None None Hn) as [y [E [V [B [S [F [D C]]]]]]]; [right; auto|auto|].
  exists y. split; [exact E|].
  assert (ES : fS y = fS x) by (rewrite S; simpl; destruct (proj1 Hn) as [-> | ->]; reflexivity).
  apply (comp_determines n); try assumption. intros i p l k f Hp Hl Hk. rewrite C by assumption.
  destruct (_ && _)%bool eqn:EC; [reflexivity|]. symmetry. rewrite ES in EC. now apply (comp_slotless n).
Qed.
Print Assumptions C32_no_arguments.

(** Invalid inputs raise. *)
Theorem C32_invalid_shape : forall x max_degree include, ~ well_formed x ->
  change_max_degree_or_type x max_degree include = Err ValueError.
Proof. intros x md incl H. unfold change_max_degree_or_type. rewrite (extract_err x H). reflexivity. Qed.
Print Assumptions C32_invalid_shape.

(** Finding: a negative max_degree is not rejected; the sizes of the result are those of
    (max_degree + 1) squared. *)
Theorem C32_negative_degree_accepted : forall x n q, valid n x -> (q < n)%nat ->
  exists y, change_max_degree_or_type x (Some (-1 - Z.of_nat q)%Z) None = Ok y /\ fD y = (q * q)%nat.
Proof.
  intros x n q Hx Hq. remember (-1 - Z.of_nat q)%Z as d eqn:Ed.
  unfold change_max_degree_or_type. rewrite (extract_valid x n Hx). cbn [bind]. cbv zeta.
  replace (d <? Z.of_nat n - 1)%Z with true by (symmetry; apply Z.ltb_lt; lia).
  replace (Z.to_nat ((d + 1) * (d + 1))) with (q * q)%nat by (subst d; lia).
  destruct Hx as [_ HD]. rewrite HD, (Nat.min_l (q * q) (n * n)) by (apply (proj2 (sq_le _ _)); lia).
  destruct (negb (fS x =? 1)%nat); simpl; eexists; split; reflexivity.
Qed.
Print Assumptions C32_negative_degree_accepted.

(** A feature array with degrees 0..1 and both parities, whose entries are all different. *)
Definition sample : feat := mkFeat [2%nat] 2 4 3 0 (fun i s d f => IZR (Z.of_nat (nth 0 i 0%nat + 2 * s + 4 * d + 16 * f))).

Example C32_example : valid (1 + 1) sample
  /\ has_slot sample 1 0 /\ comp sample [1%nat] 1 1 2 2 = 47
  /\ exists y, change_max_degree_or_type sample (Some 2%Z) (Some false) = Ok y /\ fD y = 9%nat
     /\ comp y [1%nat] 1 1 2 2 = 47 /\ comp y [1%nat] 0 1 2 2 = 0.
Proof.
  split; [split; [now right|reflexivity]|]. split; [split; [simpl; lia|now left]|].
  split; [reflexivity|].
  eexists. split; [reflexivity|]. split; [reflexivity|]. split; reflexivity.
Qed.

(** * C33: add *)

(** The sum has every component of every input: the components are added, absent ones count as
    zero.  Degrees: the largest of the inputs (at least 0); two parity channels iff some input
    has two. *)
Theorem C33_add_components : forall x0 xs,
  Forall (compatible x0) (x0 :: xs) ->
  exists L y, add (x0 :: xs) = Ok y /\ valid (L + 1) y
    /\ fB y = fB x0 /\ fF y = fF x0 /\ fdt y = fdt x0
    /\ (fS y = 2%nat <-> exists x, In x (x0 :: xs) /\ fS x = 2%nat)
    /\ Forall (fun x => (fD x <= fD y)%nat) (x0 :: xs)
    /\ (L = 0%nat \/ exists x, In x (x0 :: xs) /\ fD x = fD y)
    /\ forall i p l k f, (p < 2)%nat -> (k < 2 * l + 1)%nat ->
         comp y i p l k f = sum_R (map (fun x => comp x i p l k f) (x0 :: xs)).
Proof.
  intros x0 xs H. destruct (add_ok x0 xs H) as [m [y [E [V [Hm [B [F [D [S [HD [HM C]]]]]]]]]]].
  exists (m - 1)%nat, y. replace (m - 1 + 1)%nat with m by lia.
  split; [exact E|]. split; [exact V|]. do 3 (split; [assumption|]). split.
  { rewrite S. destruct (existsb _ _) eqn:EE.
    - apply existsb_exists in EE. destruct EE as [x [Hx Ex]]. apply Nat.eqb_eq in Ex. split; [eauto|reflexivity].
    - split; [discriminate|]. intros [x [Hx Ex]]. exfalso.
      assert (existsb (fun x => (fS x =? 2)%nat) (x0 :: xs) = true); [|congruence].
      apply existsb_exists. exists x. split; [exact Hx|]. now rewrite Ex. }
  rewrite (proj2 V). split; [exact HD|]. split; [|exact C].
  destruct HM as [->|HM]; [now left|now right].
Qed.
Print Assumptions C33_add_components.

(** Otherwise it raises: ValueError for incompatible or malformed inputs, IndexError without inputs. *)
Theorem C33_add_errors :
  (forall x0 xs, ~ Forall (compatible x0) (x0 :: xs) -> add (x0 :: xs) = Err ValueError)
  /\ add [] = Err IndexError.
Proof. split; [exact add_err|reflexivity]. Qed.
Print Assumptions C33_add_errors.

Theorem C33_add_commutative : forall xs xs' y, Permutation xs xs' -> add xs = Ok y ->
  exists y', add xs' = Ok y' /\ same_feature y y'.
Proof. exact add_permutation. Qed.
Print Assumptions C33_add_commutative.

(** Grouping does not matter: add(add(xs...), ys...) is add(xs..., ys...). *)
Theorem C33_add_associative : forall xs ys w, xs <> [] -> add (xs ++ ys) = Ok w ->
  exists y z, add xs = Ok y /\ add (y :: ys) = Ok z /\ same_feature z w.
Proof. exact add_staged. Qed.
Print Assumptions C33_add_associative.

Theorem C33_add_reflect : forall xs xs' y,
  Forall2 (fun x x' => reflect x = Ok x') xs xs' -> add xs = Ok y ->
  exists y' z, add xs' = Ok y' /\ reflect y = Ok z /\ same_feature y' z.
Proof. exact add_reflect. Qed.
Print Assumptions C33_add_reflect.

Theorem C33_add_rotate : forall shared D xs xs' y, block_diagonal D ->
  Forall2 (fun x x' => rotate x (wigner_for shared D x) = Ok x') xs xs' -> add xs = Ok y ->
  exists y' z, add xs' = Ok y' /\ rotate y (wigner_for shared D y) = Ok z /\ same_feature y' z.
Proof. exact add_rotate. Qed.
Print Assumptions C33_add_rotate.

(** A block-diagonal matrix that mixes the orders within each degree. *)
Definition mixing : list nat -> nat -> nat -> R :=
  fun _ i j => if (Nat.sqrt i =? Nat.sqrt j)%nat then INR (1 + i + 2 * j) else 0.

Lemma mixing_block_diagonal : block_diagonal mixing.
Proof.
  intros b l k l' k' Hk Hk' Hne. unfold mixing.
  assert (Hs : forall a c, (c < 2 * a + 1)%nat -> Nat.sqrt (a * a + c) = a).
  { intros a c Hc. apply Nat.sqrt_unique. lia. }
  rewrite !Hs by assumption. destruct (Nat.eqb_spec l l'); [contradiction|reflexivity].
Qed.

(** Proper vectors only, degrees 0..2; compatible with [sample]. *)
Definition sample1 : feat := mkFeat [2%nat] 1 9 3 0 (fun i s d f => IZR (Z.of_nat (1 + d + f))).

Example C33_example :
  Forall (compatible sample) [sample; sample1]
  /\ (exists y, add [sample; sample1] = Ok y /\ fD y = 9%nat /\ fS y = 2%nat
        /\ comp y [1%nat] 1 1 2 2 = 47 + 6 /\ comp y [1%nat] 0 1 2 2 = 45 /\ comp y [0%nat] 0 2 0 0 = 5)
  /\ (exists a b, reflect sample = Ok a /\ reflect sample1 = Ok b)
  /\ block_diagonal mixing
  /\ (exists a b, rotate sample (wigner_for true mixing sample) = Ok a /\ rotate sample1 (wigner_for false mixing sample1) = Ok b).
Proof.
  assert (V1 : valid 2 sample) by (split; [now right|reflexivity]).
  assert (V2 : valid 3 sample1) by (split; [now left|reflexivity]).
  assert (HF : Forall (compatible sample) [sample; sample1]).
  { repeat constructor; [now exists 2%nat|now exists 3%nat]. }
  split; [exact HF|]. split.
  - destruct (C33_add_components sample [sample1] HF) as [L [y [E [V [_ [_ [_ [HS [HD [HM HC]]]]]]]]]].
    exists y. split; [exact E|].
    assert (E9 : fD y = 9%nat).
    { destruct V as [_ HV]. inversion HD as [|? ? H1 HD']. inversion HD' as [|? ? H2 _]. simpl in H1, H2.
      destruct HM as [->|[w0 [[<-|[<-|[]]] Hx]]]; simpl in *; nia. }
    split; [exact E9|]. split; [apply HS; exists sample; split; [now left|reflexivity]|].
    rewrite !HC by lia. split; [|split].
    + change (47 + (6 + 0) = 47 + 6). lra.
    + change (45 + (0 + 0) = 45). lra.
    + change (0 + (5 + 0) = 5). lra.
  - split; [do 2 eexists; split; reflexivity|]. split; [exact mixing_block_diagonal|].
    do 2 eexists. split; reflexivity.
Qed.

(** * C34: reflect *)

(** Negates the odd-parity components and leaves the others alone. *)
Theorem C34_reflect_components : forall x, well_formed x ->
  exists y, reflect x = Ok y
    /\ fB y = fB x /\ fS y = fS x /\ fD y = fD x /\ fF y = fF x /\ fdt y = fdt x
    /\ forall i l k f, (k < 2 * l + 1)%nat ->
         comp y i 0 l k f = comp x i 0 l k f /\ comp y i 1 l k f = - comp x i 1 l k f.
Proof.
  intros x [n Hn]. destruct (reflect_comp n x Hn) as [y [E [V [B [S [F [D C]]]]]]].
  exists y. repeat split; try assumption.
  - destruct V as [_ ->], Hn as [_ ->]. reflexivity.
  - rewrite C by (assumption || lia). reflexivity.
  - rewrite C by (assumption || lia). reflexivity.
Qed.
Print Assumptions C34_reflect_components.

Theorem C34_reflect_involution : forall x, well_formed x ->
  exists y z, reflect x = Ok y /\ reflect y = Ok z /\ same_feature z x.
Proof. exact reflect_involutive. Qed.
Print Assumptions C34_reflect_involution.

Theorem C34_reflect_rotate_commute : forall shared D x, block_diagonal D -> well_formed x ->
  exists a ab b ba, reflect x = Ok a /\ rotate a (wigner_for shared D a) = Ok ab
    /\ rotate x (wigner_for shared D x) = Ok b /\ reflect b = Ok ba /\ same_feature ab ba.
Proof. exact reflect_rotate. Qed.
Print Assumptions C34_reflect_rotate_commute.

Theorem C34_reflect_change_commute : forall x L include, well_formed x ->
  exists a ab b ba, reflect x = Ok a /\ change_max_degree_or_type a (Some (Z.of_nat L)) include = Ok ab
    /\ change_max_degree_or_type x (Some (Z.of_nat L)) include = Ok b /\ reflect b = Ok ba /\ same_feature ab ba.
Proof. exact reflect_change. Qed.
Print Assumptions C34_reflect_change_commute.

(** Rotations act within each degree and parity, and so commute with changes of representation. *)
Theorem C34_rotate_components : forall shared D x, block_diagonal D -> well_formed x ->
  exists y, rotate x (wigner_for shared D x) = Ok y
    /\ fB y = fB x /\ fS y = fS x /\ fD y = fD x /\ fF y = fF x /\ fdt y = fdt x
    /\ forall i p l k f, (p < 2)%nat -> (k < 2 * l + 1)%nat ->
         comp y i p l k f = rsum (2 * l + 1) (fun k' =>
           comp x i p l k' f * D (wigner_batch shared i) (l * l + k')%nat (l * l + k)%nat).
Proof.
  intros shared D x HD [n Hn]. destruct (rotate_comp n x shared D Hn HD) as [y [E [V [B [S [F [Dt C]]]]]]].
  exists y. repeat split; try assumption. destruct V as [_ ->], Hn as [_ ->]. reflexivity.
Qed.
Print Assumptions C34_rotate_components.

Theorem C34_rotate_change_commute : forall shared D x L include, block_diagonal D -> well_formed x ->
  exists a ab b ba, rotate x (wigner_for shared D x) = Ok a
    /\ change_max_degree_or_type a (Some (Z.of_nat L)) include = Ok ab
    /\ change_max_degree_or_type x (Some (Z.of_nat L)) include = Ok b
    /\ rotate b (wigner_for shared D b) = Ok ba /\ same_feature ab ba.
Proof. exact rotate_change. Qed.
Print Assumptions C34_rotate_change_commute.

(** Malformed features or matrices of the wrong size or batch shape raise ValueError. *)
Theorem C34_rotate_errors : forall x w,
  (rotate x w = Err ValueError <->
   ~ (well_formed x /\ wn w = fD x /\ wm w = fD x /\ (wB w = None \/ wB w = Some (fB x))))
  /\ (~ well_formed x -> reflect x = Err ValueError).
Proof.
  intros x w. split.
  - destruct (extract_max_degree_and_check_shape (shape_of x)) as [L|e] eqn:E.
    + destruct (extract_ok _ _ E) as [n [Hn ->]]. pose proof Hn as [_ HD].
      unfold rotate. rewrite E. simpl bind. cbv zeta.
      replace ((Z.of_nat n - 1 + 1) * (Z.of_nat n - 1 + 1))%Z with (Z.of_nat (fD x)) by lia.
      destruct (Z.eqb_spec (Z.of_nat (wn w)) (Z.of_nat (fD x))) as [E1|E1]; simpl.
      2:{ split; [intros _ [_ [H _]]; lia|reflexivity]. }
      destruct (Z.eqb_spec (Z.of_nat (wm w)) (Z.of_nat (fD x))) as [E2|E2]; simpl.
      2:{ split; [intros _ [_ [_ [H _]]]; lia|reflexivity]. }
      destruct (wB w) as [B|]; simpl.
      * destruct (list_nat_eqb (fB x) B) eqn:E3; simpl.
        { apply list_nat_eqb_spec in E3. subst B. split; [discriminate|]. intros H. exfalso. apply H.
          split; [now exists n|]. repeat split; try lia. now right. }
        split; [|reflexivity]. intros _ [_ [_ [_ [H|H]]]]; [discriminate|]. injection H as ->.
        assert (list_nat_eqb (fB x) (fB x) = true) by now apply list_nat_eqb_spec. congruence.
      * split; [discriminate|]. intros H. exfalso. apply H. split; [now exists n|]. repeat split; try lia. now left.
    + assert (Hn : ~ well_formed x). { intros [n Hn]. rewrite (extract_valid x n Hn) in E. discriminate. }
      unfold rotate. rewrite (extract_err x Hn). simpl. tauto.
  - intros H. unfold reflect. rewrite (extract_err x H). reflexivity.
Qed.
Print Assumptions C34_rotate_errors.

Example C34_example : well_formed sample /\ well_formed sample1
  /\ (exists y, reflect sample1 = Ok y /\ comp y [0%nat] 1 1 2 2 = -6 /\ comp y [0%nat] 0 2 1 1 = 7).
Proof.
  split; [exists 2%nat; split; [now right|reflexivity]|]. split; [exists 3%nat; split; [now left|reflexivity]|].
  eexists. split; [reflexivity|]. split; [change (6 * -1 = -6); lra|reflexivity].
Qed.
