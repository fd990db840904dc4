(** C98: the networks in the examples of the documentation: predicted matrices turn with the points, and classifications of shapes do not
    depend on how a shape is placed. *)
Require Import String List Reals ZArith Bool Lia Lra Permutation.
Require Import Verif.Base Verif.RSum Verif.Features_Model Verif.Features_Spec Verif.Activations_Model Verif.Activations_Props Verif.Modules_Model Verif.Modules_Spec Verif.Modules_Graph_Spec Verif.Modules_Props Verif.LUT_Model Verif.LUT_Spec Verif.LUT_Props Verif.Symbolic_Model
  Verif.Rotations_Model Verif.Rotations_Spec Verif.Rotations_Proofs Verif.Irreps_Model Verif.Irreps_Spec Verif.Irreps_Laws_Proofs Verif.Irreps_Proofs Verif.Irreps_Props Verif.Clebsch_Model Verif.RealCG_Proofs Verif.CGTable_Proofs Verif.Clebsch_Props
  Verif.Wrappers_Model Verif.Wrappers_Spec Verif.Wrappers_Proofs Verif.Wrappers_Props Verif.Equivariance_Spec Verif.Equivariance_Props Verif.Structure_Props Verif.Network_Spec Verif.Network_Props Verif.Shapes_Proofs Verif.Locality_Spec Verif.Locality_Proofs Verif.Locality_Props
  Verif.Modules_Graph_Props Verif.Accept_Proofs Verif.Examples_Model Verif.Examples_Spec.
Import ListNotations.
Open Scope R_scope.
Arguments Nat.mul : simpl never.
Arguments Nat.modulo : simpl never.

(** * Matrices from irreps *)
Lemma rsum_nine : forall F, rsum 9 F = rsum 3 (fun l => rsum (2 * l + 1) (fun k => F (l * l + k)%nat)).
Proof. intros F. change (2 * 0 + 1)%nat with 1%nat. cbn [rsum]. change (2 * 0 + 1)%nat with 1%nat. change (2 * 1 + 1)%nat with 3%nat. change (2 * 2 + 1)%nat with 5%nat. cbn [rsum]. repeat match goal with |- context [F ?n] => progress (let v := eval compute in n in change n with v) end. ring. Qed.

Lemma sandwich : forall (E f : nat -> nat -> R) i j, (i < 3)%nat -> (j < 3)%nat ->
  (forall a b, (a < 3)%nat -> (b < 3)%nat -> rsum 3 (fun p => E p a * E p b) = if (a =? b)%nat then 1 else 0) ->
  rsum 3 (fun a => rsum 3 (fun b => E a i * E b j * rsum 3 (fun i' => rsum 3 (fun j' => E a i' * E b j' * f i' j')))) = f i j.
Proof.
  intros E f i j Hi Hj O. transitivity (rsum 3 (fun i' => rsum 3 (fun j' => rsum 3 (fun p => E p i * E p i') * rsum 3 (fun p => E p j * E p j') * f i' j'))); [cbn [rsum]; ring|].
  rewrite (rsum_single 3 _ i Hi).
  - rewrite (rsum_single 3 _ j Hj).
    + rewrite !O, !Nat.eqb_refl by assumption. ring.
    + intros j' Hj' N. rewrite (O j j') by assumption. destruct (Nat.eqb_spec j j'); [congruence|ring].
  - intros i' Hi' N. apply rsum_zero. intros j' Hj'. rewrite (O i i') by assumption. destruct (Nat.eqb_spec i i'); [congruence|ring].
Qed.

Section Turned.
Variables (cgf : Z -> Z -> Z -> result (nat -> nat -> nat -> R)) (m : mat) (D : nat -> nat -> R) (c : nat -> nat -> nat -> R).
Hypothesis package : uses_package true cgf.
Hypothesis proper : proper_rotation m.
Hypothesis matrices : wigner_matrix true m D.
Hypothesis coefficients : cgf 1%Z 1%Z 2%Z = Ok c.

Lemma degree_one : forall j k, (j < 3)%nat -> (k < 3)%nat -> D (1 + j)%nat (1 + k)%nat = entry m j k.
Proof using matrices proper.
  intros j k Hj Hk. destruct (matrices 1%Z ltac:(lia)) as [ms [a [ds [Em [Hd V]]]]]. rewrite V by (cbn; lia). exact (C25_degree_one _ _ _ a m j k Hd Em (rotation_orthogonal _ proper) ltac:(lia) Hj Hk).
Qed.
Lemma backwards : forall l q i j, (l < 3)%nat -> (q < 2 * l + 1)%nat -> (i < 3)%nat -> (j < 3)%nat ->
  rsum (2 * l + 1) (fun k => D (l * l + q)%nat (l * l + k)%nat * c (1 + i)%nat (1 + j)%nat (l * l + k)%nat)
  = rsum 3 (fun a => rsum 3 (fun b => entry m a i * entry m b j * c (1 + a)%nat (1 + b)%nat (l * l + q)%nat)).
Proof using package proper matrices coefficients.
  intros l q i j Hl Hq Hi Hj. pose proof (constant_rotations true m D proper matrices) as RR. destruct (C67_matrices _ _ _ RR) as [_ [_ KO]]. pose proof (C67_commutes _ _ _ _ package RR _ _ _ _ [] coefficients) as HC.
  assert (O : forall a b, (a < 3)%nat -> (b < 3)%nat -> rsum 3 (fun p => D (1 + p)%nat (1 + a)%nat * D (1 + p)%nat (1 + b)%nat) = if (a =? b)%nat then 1 else 0) by (intros a b Ha Hb; exact (proj2 (KO [] 1%nat a b Ha Hb))).
  assert (S1 : forall a b, (a < 3)%nat -> (b < 3)%nat -> c (1 + a)%nat (1 + b)%nat (l * l + q)%nat
    = rsum (2 * l + 1) (fun k => D (l * l + q)%nat (l * l + k)%nat * rsum 3 (fun i' => rsum 3 (fun j' => D (1 + a)%nat (1 + i')%nat * D (1 + b)%nat (1 + j')%nat * c (1 + i')%nat (1 + j')%nat (l * l + k)%nat)))).
  { intros a b Ha Hb. transitivity (rsum (2 * l + 1) (fun k => D (l * l + q)%nat (l * l + k)%nat * rsum (2 * l + 1) (fun k' => c (1 + a)%nat (1 + b)%nat (l * l + k')%nat * D (l * l + k')%nat (l * l + k)%nat))).
    - rewrite (rsum_ext _ _ (fun k => rsum (2 * l + 1) (fun k' => c (1 + a)%nat (1 + b)%nat (l * l + k')%nat * (D (l * l + q)%nat (l * l + k)%nat * D (l * l + k')%nat (l * l + k)%nat)))) by (intros k Hk; rewrite <- rsum_scal_l; apply rsum_ext; intros; ring).
      rewrite rsum_swap. rewrite (rsum_single _ _ q Hq).
      + rewrite rsum_scal_l. destruct (KO [] l q q Hq Hq) as [-> _]. rewrite Nat.eqb_refl. ring.
      + intros k' Hk' N. rewrite rsum_scal_l. destruct (KO [] l q k' Hq Hk') as [-> _]. destruct (Nat.eqb_spec q k'); [congruence|ring].
    - apply rsum_ext. intros k Hk. f_equal. symmetry. exact (HC 1%nat 1%nat l a b k ltac:(cbn; lia) ltac:(cbn; lia) ltac:(cbn; lia) Ha Hb Hk). }
  rewrite (rsum_ext 3 (fun a => rsum 3 (fun b => entry m a i * entry m b j * c (1 + a)%nat (1 + b)%nat (l * l + q)%nat))
    (fun a => rsum 3 (fun b => rsum (2 * l + 1) (fun k => D (l * l + q)%nat (l * l + k)%nat * (D (1 + a)%nat (1 + i)%nat * D (1 + b)%nat (1 + j)%nat * rsum 3 (fun i' => rsum 3 (fun j' => D (1 + a)%nat (1 + i')%nat * D (1 + b)%nat (1 + j')%nat * c (1 + i')%nat (1 + j')%nat (l * l + k)%nat))))))).
  2:{ intros a Ha. apply rsum_ext. intros b Hb. rewrite (S1 a b Ha Hb), <- !degree_one, <- rsum_scal_l by assumption. apply rsum_ext. intros; ring. }
  rewrite (rsum_ext 3 _ (fun a => rsum (2 * l + 1) (fun k => rsum 3 (fun b => D (l * l + q)%nat (l * l + k)%nat * (D (1 + a)%nat (1 + i)%nat * D (1 + b)%nat (1 + j)%nat * rsum 3 (fun i' => rsum 3 (fun j' => D (1 + a)%nat (1 + i')%nat * D (1 + b)%nat (1 + j')%nat * c (1 + i')%nat (1 + j')%nat (l * l + k)%nat))))))) by (intros; apply rsum_swap).
  rewrite rsum_swap. apply rsum_ext. intros k Hk.
  rewrite (rsum_ext 3 _ (fun a => D (l * l + q)%nat (l * l + k)%nat * rsum 3 (fun b => D (1 + a)%nat (1 + i)%nat * D (1 + b)%nat (1 + j)%nat * rsum 3 (fun i' => rsum 3 (fun j' => D (1 + a)%nat (1 + i')%nat * D (1 + b)%nat (1 + j')%nat * c (1 + i')%nat (1 + j')%nat (l * l + k)%nat))))) by (intros; apply rsum_scal_l).
  rewrite rsum_scal_l. f_equal. symmetry. exact (sandwich (fun a b => D (1 + a)%nat (1 + b)%nat) (fun i' j' => c (1 + i')%nat (1 + j')%nat (l * l + k)%nat) i j Hi Hj O).
Qed.

Lemma matrix_turned : forall X X' i j, (forall l k, (l < 3)%nat -> (k < 2 * l + 1)%nat -> X' (l * l + k)%nat = rsum (2 * l + 1) (fun q => X (l * l + q)%nat * D (l * l + q)%nat (l * l + k)%nat)) ->
  (i < 3)%nat -> (j < 3)%nat -> matrix_of c X' i j = turned_matrix m (matrix_of c X) i j.
Proof using package proper matrices coefficients.
  intros X X' i j H Hi Hj. unfold matrix_of, turned_matrix. rewrite rsum_nine.
  transitivity (rsum 3 (fun l => rsum (2 * l + 1) (fun q => X (l * l + q)%nat * rsum 3 (fun a => rsum 3 (fun b => entry m a i * entry m b j * c (1 + a)%nat (1 + b)%nat (l * l + q)%nat))))).
  - apply rsum_ext. intros l Hl. transitivity (rsum (2 * l + 1) (fun k => rsum (2 * l + 1) (fun q => X (l * l + q)%nat * (D (l * l + q)%nat (l * l + k)%nat * c (1 + i)%nat (1 + j)%nat (l * l + k)%nat)))).
    + apply rsum_ext. intros k Hk. rewrite H, <- rsum_scal_r by assumption. apply rsum_ext. intros; ring.
    + rewrite rsum_swap. apply rsum_ext. intros q Hq. rewrite rsum_scal_l. f_equal. now apply backwards.
  - rewrite <- (rsum_nine (fun L => X L * rsum 3 (fun a => rsum 3 (fun b => entry m a i * entry m b j * c (1 + a)%nat (1 + b)%nat L)))).
    transitivity (rsum 9 (fun L => rsum 3 (fun a => rsum 3 (fun b => entry m a i * (X L * c (1 + a)%nat (1 + b)%nat L) * entry m b j)))).
    + apply rsum_ext. intros L _. rewrite <- rsum_scal_l. apply rsum_ext. intros a _. rewrite <- rsum_scal_l. apply rsum_ext. intros; ring.
    + rewrite rsum_swap. apply rsum_ext. intros a _. rewrite rsum_swap. apply rsum_ext. intros b _. now rewrite rsum_scal_r, rsum_scal_l.
Qed.
End Turned.

(** * Points *)
Lemma points_transformed : forall s m D dtype points, proper_rotation m -> wigner_matrix true m D -> s = 1 \/ s = -1 ->
  transformed s (fun _ => D) (point_features dtype points) (point_features dtype (turned_points s m points)).
Proof.
  intros s m D dt points Hm HD Hs. unfold turned_points. do 5 (split; [cbn [fB fS fD fF fdt point_features]; now rewrite ?map_length|]). intros i p l k f Hp Hk.
  destruct (C67_matrices _ _ _ (constant_rotations true m D Hm HD)) as [K0 _]. unfold comp. cbn [fS fD fv point_features Nat.eqb]. rewrite map_length.
  destruct (Nat.leb_spec ((l + 1) * (l + 1)) 4) as [Hl|Hl]; [|rewrite rsum_zero by (intros; ring); ring].
  destruct (Nat.eqb_spec p (l mod 2)) as [Ep|Ep]; [|rewrite rsum_zero by (intros; ring); ring].
  destruct i as [|n [|]]; [rewrite rsum_zero by (intros; ring); ring| |rewrite rsum_zero by (intros; ring); ring].
  destruct (Nat.ltb_spec n (length points)) as [Hn|Hn]; cbn [andb]; [|rewrite rsum_zero by (intros; ring); ring].
  destruct (f <? 1)%nat; [|rewrite rsum_zero by (intros; ring); ring].
  assert (EN : nth n (map (fun q => (fst q, turned_by s m (snd q))) points) (0, (0, 0, 0)) = (fst (nth n points (0, (0, 0, 0))), turned_by s m (snd (nth n points (0, (0, 0, 0)))))).
  { rewrite (nth_indep _ _ ((fun q => (fst q, turned_by s m (snd q))) (0, (0, 0, 0)))) by (now rewrite map_length). now rewrite (map_nth (fun q => (fst q, turned_by s m (snd q)))). }
  rewrite EN. cbn [fst snd]. destruct (nth n points (0, (0, 0, 0))) as [w v]. cbn [fst snd].
  assert (CL : l = 0%nat \/ l = 1%nat) by nia. destruct CL as [-> | ->].
  - replace k with 0%nat by lia. rewrite Ep. change (0 mod 2)%nat with 0%nat. change (2 * 0 + 1)%nat with 1%nat. cbn [rsum]. change (0 * 0 + 0)%nat with 0%nat. pose proof (K0 []) as K. cbn beta in K. rewrite K. unfold parity_sign. cbn. ring.
  - rewrite Ep. change (1 mod 2)%nat with 1%nat. change (2 * 1 + 1)%nat with 3%nat in *. change (1 * 1)%nat with 1%nat.
    rewrite (rsum_ext 3 _ (fun k' => (if (k' <? 3)%nat then coord v k' else 0) * entry m k' k)) by (intros k' Hk'; rewrite (degree_one m D Hm HD) by assumption; reflexivity).
    cbn [rsum Nat.add Nat.ltb Nat.leb]. change (parity_sign s 1) with s. destruct (Nat.ltb_spec k 3); [|lia]. unfold turned_by. destruct v as [[v1 v2] v3], m as [[[[a1 a2] a3] [[b1 b2] b3]] [[c1 c2] c3]].
    destruct k as [|[|[|k]]]; cbn; try ring; lia.
Qed.
Lemma points_scalars : forall dtype points, has_scalars (point_features dtype points).
Proof. intros. exists 1%nat. split; [now left|reflexivity]. Qed.

(** If the points are rotated, the predicted matrix is rotated.  It stays the same if the points are inverted and the array holds
    pseudotensors. *)
Theorem C98_matrix_turns : forall cgf dtype cs k points s m z T, uses_package true cgf -> Forall proper_call cs -> proper_rotation m -> s = 1 \/ s = -1 ->
  point_array cgf dtype cs k points = Ok z -> (s = 1 \/ fS z = 2%nat) -> point_model cgf dtype cs k points = Ok T ->
  exists T', point_model cgf dtype cs k (turned_points s m points) = Ok T' /\ forall i j, (i < 3)%nat -> (j < 3)%nat -> T' i j = turned_matrix m T i j.
Proof.
  intros cgf dt cs k points s m z T HP Hc Hm Hs Ez HS HT. unfold point_model in *. rewrite Ez in HT. cbn [bind] in HT. unfold point_array in *.
  apply bind_inv in Ez as [ys [Ey Ez]]. pose proof (wigner_entries_matrix true m) as HD.
  destruct (C69_network true cgf m _ s 0 0 HP Hm HD Hs None None None no_edges I cs [point_features dt points] [point_features dt (turned_points s m points)] ys Hc) with (3 := Ey) as [ys' [Ey' TY]].
  { constructor; [apply points_scalars|constructor]. }
  { constructor; [now apply points_transformed|constructor]. }
  unfold select in Ez. destruct (nth_error ys k) as [z0|] eqn:EK; [|discriminate]. injection Ez as ->.
  assert (Q : exists z', nth_error ys' k = Some z' /\ transformed s (fun _ => wigner_entries true m) z z').
  { clear -TY EK. revert k EK. induction TY as [|a b u u' H _ IH]; intros [|k] EK; cbn in *; try discriminate; [injection EK as <-; eauto|eauto]. }
  destruct Q as [z' [EK' [TB [TS [TD [TF [_ TC]]]]]]]. rewrite Ey'. cbn [bind]. unfold select. rewrite EK'. cbn [bind]. unfold read_matrix in *. rewrite TF, TD.
  destruct (fF z =? 0)%nat; [discriminate|]. destruct (cgf 1%Z 1%Z 2%Z) as [c|] eqn:EC; cbn [bind] in *; [|discriminate]. destruct (Nat.eqb_spec (fD z) 9) as [E9|]; [|discriminate].
  injection HT as <-. eexists. split; [reflexivity|]. intros i j Hi Hj. apply (matrix_turned cgf m (wigner_entries true m) c HP Hm HD EC); [|assumption..].
  intros l q Hl Hq. unfold point_sum, turned_points. rewrite map_length.
  transitivity (rsum (length points) (fun n => rsum (2 * l + 1) (fun q0 => fv z [n] 0 (l * l + q0)%nat 0 * wigner_entries true m (l * l + q0) (l * l + q)))).
  - apply rsum_ext. intros n _. assert (L9 : ((l + 1) * (l + 1) <= 9)%nat) by nia. 
    set (p := if (fS z =? 2)%nat then 0%nat else (l mod 2)%nat).
    assert (V : forall w q0, fS w = fS z -> fD w = 9%nat -> comp w [n] p l q0 0 = fv w [n] 0 (l * l + q0)%nat 0).
    { intros w q0 S0 D0. unfold comp, p. rewrite S0, D0. destruct (Nat.leb_spec ((l + 1) * (l + 1)) 9); [|lia]. destruct (fS z =? 2)%nat; [reflexivity|]. now rewrite Nat.eqb_refl. }
    assert (Hp : (p < 2)%nat) by (unfold p; destruct (fS z =? 2)%nat; [lia|apply Nat.mod_upper_bound; lia]).
    rewrite <- (V z' q TS ltac:(congruence)), TC by assumption. replace (parity_sign s p) with 1.
    + rewrite Rmult_1_l. apply rsum_ext. intros q0 _. now rewrite V.
    + unfold parity_sign, p. destruct HS as [-> | ->]; [now destruct (_ =? 1)%nat|reflexivity].
  - rewrite rsum_swap. apply rsum_ext. intros q0 _. now rewrite rsum_scal_r.
Qed.
Print Assumptions C98_matrix_turns.

(** Every matrix, as for example the product of two vectors, is that of exactly one list of nine irreps: those in the coupling
    [1 x 1 = 0 + 1 + 2] of its entries ... *)
Theorem C98_all_matrices : forall cgf c, uses_package true cgf -> cgf 1%Z 1%Z 2%Z = Ok c ->
  (forall T i j, (i < 3)%nat -> (j < 3)%nat -> matrix_of c (fun l => rsum 3 (fun a => rsum 3 (fun b => T a b * c (1 + a)%nat (1 + b)%nat l))) i j = T i j)
  /\ (forall X X', (forall i j, (i < 3)%nat -> (j < 3)%nat -> matrix_of c X i j = matrix_of c X' i j) -> forall l, (l < 9)%nat -> X l = X' l).
Proof.
  intros cgf c HP EC. destruct (package_array _ _ _ _ _ _ HP EC) as [C [HC ->]]. split.
  - intros T i j Hi Hj. unfold matrix_of.
    transitivity (rsum 3 (fun a => rsum 3 (fun b => T a b * rsum 9 (fun l => at3 0 C (1 + a)%nat (1 + b)%nat l * at3 0 C (1 + i)%nat (1 + j)%nat l)))).
    + rewrite (rsum_ext 9 _ (fun l => rsum 3 (fun a => rsum 3 (fun b => T a b * (at3 0 C (1 + a)%nat (1 + b)%nat l * at3 0 C (1 + i)%nat (1 + j)%nat l))))).
      2:{ intros l _. rewrite <- rsum_scal_r. apply rsum_ext. intros a _. rewrite <- rsum_scal_r. apply rsum_ext. intros; ring. }
      rewrite rsum_swap. apply rsum_ext. intros a _. rewrite rsum_swap. apply rsum_ext. intros b _. apply rsum_scal_l.
    + assert (K : forall a b, (a < 3)%nat -> (b < 3)%nat -> rsum 9 (fun l => at3 0 C (1 + a)%nat (1 + b)%nat l * at3 0 C (1 + i)%nat (1 + j)%nat l) = if ((a =? i)%nat && (b =? j)%nat)%bool then 1 else 0).
      { intros a b Ha Hb. exact (C66_complete 1 1 2 true C 1 1 a b i j HC ltac:(cbn; lia) ltac:(cbn; lia) ltac:(cbn; lia) Ha Hb Hi Hj). }
      rewrite (rsum_single 3 _ i Hi); [rewrite (rsum_single 3 _ j Hj)|].
      * rewrite K, !Nat.eqb_refl by assumption. cbn. ring.
      * intros b Hb N. rewrite K by assumption. destruct (Nat.eqb_spec b j); [congruence|]. rewrite andb_false_r. ring.
      * intros a Ha N. apply rsum_zero. intros b Hb. rewrite K by assumption. destruct (Nat.eqb_spec a i); [congruence|]. cbn. ring.
  - assert (INV : forall X l k, (l < 3)%nat -> (k < 2 * l + 1)%nat -> rsum 3 (fun i => rsum 3 (fun j => matrix_of (at3 0 C) X i j * at3 0 C (1 + i)%nat (1 + j)%nat (l * l + k)%nat)) = X (l * l + k)%nat).
    { intros X l k Hl Hk. unfold matrix_of.
      transitivity (rsum 3 (fun l' => rsum (2 * l' + 1) (fun k' => X (l' * l' + k')%nat * rsum 3 (fun i => rsum 3 (fun j => at3 0 C (1 + i)%nat (1 + j)%nat (l' * l' + k')%nat * at3 0 C (1 + i)%nat (1 + j)%nat (l * l + k)%nat))))).
      - rewrite <- (rsum_nine (fun L => X L * rsum 3 (fun i => rsum 3 (fun j => at3 0 C (1 + i)%nat (1 + j)%nat L * at3 0 C (1 + i)%nat (1 + j)%nat (l * l + k)%nat)))).
        symmetry. rewrite (rsum_ext 9 _ (fun L => rsum 3 (fun i => rsum 3 (fun j => X L * at3 0 C (1 + i)%nat (1 + j)%nat L * at3 0 C (1 + i)%nat (1 + j)%nat (l * l + k)%nat)))).
        2:{ intros L _. rewrite <- rsum_scal_l. apply rsum_ext. intros a _. rewrite <- rsum_scal_l. apply rsum_ext. intros; ring. }
        rewrite rsum_swap. apply rsum_ext. intros a _. rewrite rsum_swap. apply rsum_ext. intros b _. now rewrite rsum_scal_r.
      - assert (K : forall l' k', (l' < 3)%nat -> (k' < 2 * l' + 1)%nat -> rsum 3 (fun i => rsum 3 (fun j => at3 0 C (1 + i)%nat (1 + j)%nat (l' * l' + k')%nat * at3 0 C (1 + i)%nat (1 + j)%nat (l * l + k)%nat)) = if (l' * l' + k' =? l * l + k)%nat then 1 else 0).
        { intros l' k' Hl' Hk'. exact (C66_orthonormal 1 1 2 true C 1 1 l' l k' k HC ltac:(cbn; lia) ltac:(cbn; lia) ltac:(cbn; lia) ltac:(cbn; lia) ltac:(lia) ltac:(lia) Hk' Hk). }
        rewrite (rsum_single 3 _ l Hl); [rewrite (rsum_single _ _ k Hk)|].
        + rewrite K, Nat.eqb_refl by assumption. ring.
        + intros k' Hk' N. rewrite K by assumption. destruct (Nat.eqb_spec (l * l + k') (l * l + k)); [lia|ring].
        + intros l' Hl' N. apply rsum_zero. intros k' Hk'. rewrite K by assumption. destruct (Nat.eqb_spec (l' * l' + k') (l * l + k)); [|ring].
          exfalso. apply N. destruct (Nat.lt_trichotomy l l') as [|[|]]; [|lia|]; nia. }
    intros X X' E l Hl. assert (DL : exists a k, (a < 3)%nat /\ (k < 2 * a + 1)%nat /\ l = (a * a + k)%nat).
    { destruct (Nat.lt_ge_cases l 1); [exists 0%nat, l; lia|]. destruct (Nat.lt_ge_cases l 4); [exists 1%nat, (l - 1)%nat; lia|]. exists 2%nat, (l - 4)%nat. lia. }
    destruct DL as [a [k [Ha [Hk ->]]]]. rewrite <- (INV X a k Ha Hk), <- (INV X' a k Ha Hk). apply rsum_ext. intros i Hi. apply rsum_ext. intros j Hj. now rewrite E.
Qed.
Print Assumptions C98_all_matrices.

(** ... and symmetric if and only if those of degree 1 are zero. *)
Theorem C98_symmetric : forall cgf c X, uses_package true cgf -> cgf 1%Z 1%Z 2%Z = Ok c ->
  ((forall i j, (i < 3)%nat -> (j < 3)%nat -> matrix_of c X i j = matrix_of c X j i) <-> forall k, (k < 3)%nat -> X (1 + k)%nat = 0).
Proof.
  intros cgf c X HP EC. pose proof (C98_all_matrices cgf c HP EC) as [_ U]. destruct (package_array _ _ _ _ _ _ HP EC) as [C [HC ->]].
  set (Y := fun l => if ((1 <=? l) && (l <? 4))%nat then - X l else X l).
  assert (EX : forall i j, (i < 3)%nat -> (j < 3)%nat -> matrix_of (at3 0 C) X j i = matrix_of (at3 0 C) Y i j).
  { intros i j Hi Hj. unfold matrix_of. rewrite !rsum_nine. apply rsum_ext. intros l Hl. apply rsum_ext. intros k Hk.
    pose proof (C66_exchange 1 1 2 1 1 2 true C C 1 1 l i j k HC HC ltac:(cbn; lia) ltac:(cbn; lia) ltac:(cbn; lia) ltac:(cbn; lia) ltac:(cbn; lia) ltac:(cbn; lia) Hi Hj Hk) as Q.
    change (1 * 1 + i)%nat with (1 + i)%nat in Q. change (1 * 1 + j)%nat with (1 + j)%nat in Q. rewrite Q. unfold Y.
    destruct l as [|[|[|l]]]; [| | |lia].
    - destruct (Nat.leb_spec 1 (0 * 0 + k)); [lia|]. cbn [andb]. change (1 + 1 + 0)%nat with 2%nat. ring.
    - destruct (Nat.leb_spec 1 (1 * 1 + k)); [|lia]. destruct (Nat.ltb_spec (1 * 1 + k) 4); [|lia]. cbn [andb]. change (1 + 1 + 1)%nat with 3%nat. ring.
    - destruct (Nat.ltb_spec (2 * 2 + k) 4); [lia|]. rewrite andb_false_r. change (1 + 1 + 2)%nat with 4%nat. ring. }
  split.
  - intros H k Hk. assert (E : X (1 + k)%nat = Y (1 + k)%nat) by (apply U; [|lia]; intros i j Hi Hj; rewrite <- EX by assumption; now apply H).
    unfold Y in E. destruct (Nat.leb_spec 1 (1 + k)); [|lia]. destruct (Nat.ltb_spec (1 + k) 4); [|lia]. cbn [andb] in E. lra.
  - intros H i j Hi Hj. rewrite EX by assumption. unfold matrix_of. apply rsum_ext. intros l Hl. unfold Y. destruct (Nat.leb_spec 1 l) as [A|A]; [|reflexivity]. destruct (Nat.ltb_spec l 4) as [B|B]; [|reflexivity]. cbn [andb].
    replace l with (1 + (l - 1))%nat by lia. rewrite H by lia. ring.
Qed.
Print Assumptions C98_symmetric.

(** * The prediction for all points is the sum of the predictions for each of them *)
Lemma no_edges_graph : forall N, good_graph no_edges N [].
Proof. intros N. split; [split; [reflexivity|]|exact I]. intros e n He. cbn in He. lia. Qed.
Definition point_scene (dtype : nat) (points : list (R * vec)) : scene := mkScene [point_features dtype points] None None no_edges (length points) [].
Lemma point_nodes : forall dtype points, node_arrays (point_scene dtype points).
Proof. intros. split; [|discriminate]. exists []. constructor; [|constructor]. split; [apply points_scalars|reflexivity]. Qed.
Lemma points_look_alike : forall k dtype points points' n n', nth_error points n = nth_error points' n' -> (n < length points)%nat -> (n' < length points')%nat ->
  looks_alike (point_scene dtype points) (point_scene dtype points') k n n'.
Proof.
  intros k dt ps ps' n n' E Hn Hn'. assert (NA : node_alike (point_scene dt ps) (point_scene dt ps') n n').
  { split; [exact Hn|]. split; [exact Hn'|]. constructor; [|constructor]. do 4 (split; [reflexivity|]). intros p d f Hp Hd. cbn [point_scene s_at app point_features fv].
    rewrite (proj2 (Nat.ltb_lt _ _) Hn), (proj2 (Nat.ltb_lt _ _) Hn'). cbn [andb].
    assert (EN : nth n' ps' (0, (0, 0, 0)) = nth n ps (0, (0, 0, 0))).
    { destruct (nth_error ps n) as [q|] eqn:E1; [|apply nth_error_None in E1; lia]. symmetry in E. rewrite (nth_error_nth _ _ _ E1), (nth_error_nth _ _ _ E). reflexivity. }
    now rewrite EN. }
  destruct k as [|k]; cbn [looks_alike]; [auto|]. split; [exact NA|]. exists []. split; constructor.
Qed.
Lemma point_run : forall cgf dtype cs points points' ys, uses_package true cgf -> Forall proper_call cs -> run cgf 0 0 None None no_edges [point_features dtype points] cs = Ok ys ->
  exists ys', run cgf 0 0 None None no_edges [point_features dtype points'] cs = Ok ys' /\ Forall2 (sized (length points) (length points')) ys ys'.
Proof.
  intros cgf dt cs ps ps' ys HP Hc H.
  refine (run_sized cgf 0 0 [] [] [] [] (length ps) (length ps') eq_refl eq_refl (C67_checked _ _ HP) None None None None cs _ _ ys Hc _ _ I H).
  - constructor; [apply points_scalars|constructor].
  - constructor; [|constructor]. repeat split.
Qed.
Lemma point_alike : forall cgf dtype cs points points' ys ys' n n', uses_package true cgf -> Forall proper_call cs ->
  run cgf 0 0 None None no_edges [point_features dtype points] cs = Ok ys -> run cgf 0 0 None None no_edges [point_features dtype points'] cs = Ok ys' ->
  nth_error points n = nth_error points' n' -> (n < length points)%nat -> (n' < length points')%nat -> Forall2 (fun y y' => alike y [n] y' [n']) ys ys'.
Proof.
  intros cgf dt cs ps ps' ys ys' n n' HP Hc H H' E Hn Hn'.
  assert (GC : forall N, good_cutoffs no_edges None N []) by (intros N; split; [intros; cbn; lra|intros m Hm X; exfalso; apply X; reflexivity]).
  exact (C70_network true cgf 0 0 (point_scene dt ps) (point_scene dt ps') cs ys ys' (depth cs) n n' HP Hc (point_nodes _ _) (point_nodes _ _) I (no_edges_graph _) (no_edges_graph _) (fun _ => conj (GC _) (GC _)) H H' (le_n _) (points_look_alike _ _ _ _ _ _ E Hn Hn')).
Qed.
Lemma rsum_list : forall (A : Type) (g : A -> R) (l : list A) F, (forall n q, nth_error l n = Some q -> F n = g q) -> rsum (length l) F = fold_right (fun q t => g q + t) 0 l.
Proof.
  intros A g. induction l as [|q l IH]; intros F H; [reflexivity|]. cbn [length fold_right]. rewrite rsum_S_l. rewrite (H 0%nat q eq_refl). f_equal. apply IH. intros n q' E. exact (H (S n) q' E).
Qed.

Theorem C98_sum_over_points : forall cgf dtype cs k points0 T0, uses_package true cgf -> Forall proper_call cs -> point_model cgf dtype cs k points0 = Ok T0 ->
  exists single, (forall q, point_model cgf dtype cs k [q] = Ok (single q)) /\
    forall points, exists T, point_model cgf dtype cs k points = Ok T /\ forall i j, T i j = fold_right (fun q t => single q i j + t) 0 points.
Proof.
  intros cgf dt cs k points0 T0 HP Hc H0. unfold point_model, point_array in H0. apply bind_inv in H0 as [z0 [E0 H0]]. apply bind_inv in E0 as [ys0 [Ey0 E0]].
  unfold select in E0. destruct (nth_error ys0 k) as [z|] eqn:EK0; [|discriminate]. injection E0 as ->.
  unfold read_matrix in H0. destruct (Nat.eqb_spec (fF z0) 0) as [|NF]; [discriminate|]. destruct (cgf 1%Z 1%Z 2%Z) as [c|] eqn:EC; [|discriminate]. cbn [bind] in H0. destruct (Nat.eqb_spec (fD z0) 9) as [E9|]; [|discriminate]. clear H0 T0.
  assert (ALL : forall points, exists ys z, run cgf 0 0 None None no_edges [point_features dt points] cs = Ok ys /\ nth_error ys k = Some z /\ fD z = 9%nat /\ has_scalars z
    /\ point_model cgf dt cs k points = Ok (matrix_of c (point_sum (length points) z))).
  { intros points. destruct (point_run cgf dt cs points0 points ys0 HP Hc Ey0) as [ys [Ey S]].
    assert (Q : exists z, nth_error ys k = Some z /\ fD z = fD z0 /\ fF z = fF z0).
    { clear -S EK0. revert k EK0. induction S as [|a b u u' [_ [_ [_ [D [F _]]]]] _ IH]; intros [|k] EK0; cbn in *; try discriminate; [injection EK0 as <-; eauto|eauto]. }
    destruct Q as [z [EK [ED EF]]]. exists ys, z. split; [exact Ey|]. split; [exact EK|]. split; [congruence|]. split.
    - pose proof (run_scalars cgf 0 0 (C67_checked _ _ HP) None None no_edges cs _ ys Hc (Forall_cons _ (points_scalars dt points) (Forall_nil _)) Ey) as V. rewrite Forall_forall in V. exact (V z (nth_error_In _ _ EK)).
    - unfold point_model, point_array. rewrite Ey. cbn [bind]. unfold select. rewrite EK. cbn [bind]. unfold read_matrix. rewrite EF, ED, E9, EC. destruct (Nat.eqb_spec (fF z0) 0); [contradiction|reflexivity]. }
  exists (fun q => match point_model cgf dt cs k [q] with Ok T => T | Err _ => fun _ _ => 0 end). split.
  - intros q. destruct (ALL [q]) as [ys [z [_ [_ [_ [_ ->]]]]]]. reflexivity.
  - intros points. destruct (ALL points) as [ys [z [Ey [EK [ED [[nz [VS VD]] EM]]]]]]. eexists. split; [exact EM|]. intros i j.
    transitivity (rsum (length points) (fun n => matrix_of c (fun l => fv z [n] 0 l 0) i j)).
    { unfold matrix_of, point_sum. rewrite (rsum_ext 9 _ (fun l => rsum (length points) (fun n => fv z [n] 0 l 0 * c (1 + i)%nat (1 + j)%nat l))) by (intros; now rewrite rsum_scal_r). apply rsum_swap. }
    apply rsum_list. intros n q En. destruct (ALL [q]) as [ys' [z' [Ey' [EK' [ED' [_ ->]]]]]].
    assert (Hn : (n < length points)%nat) by (apply nth_error_Some; congruence).
    pose proof (point_alike cgf dt cs points [q] ys ys' n 0%nat HP Hc Ey Ey' En Hn ltac:(cbn; lia)) as AL.
    assert (A : alike z [n] z' [0%nat]).
    { clear -AL EK EK'. revert k EK EK'. induction AL as [|a b u u' A _ IH]; intros [|k] EK EK'; cbn in *; try discriminate; [injection EK as <-; injection EK' as <-; exact A|eauto]. }
    destruct A as [_ [_ [_ [_ A]]]]. unfold matrix_of, point_sum. apply rsum_ext. intros l Hl. cbn [length rsum]. rewrite A by lia. ring.
Qed.
Print Assumptions C98_sum_over_points.

(** In particular the order of the points does not matter. *)
Theorem C98_order_of_points : forall cgf dtype cs k points points' T, uses_package true cgf -> Forall proper_call cs -> Permutation points points' -> point_model cgf dtype cs k points = Ok T ->
  exists T', point_model cgf dtype cs k points' = Ok T' /\ forall i j, T' i j = T i j.
Proof.
  intros cgf dt cs k ps ps' T HP Hc PM H. destruct (C98_sum_over_points cgf dt cs k ps T HP Hc H) as [single [_ S]]. destruct (S ps) as [T1 [E1 V1]]. destruct (S ps') as [T2 [E2 V2]].
  assert (T1 = T) by congruence. subst T1. exists T2. split; [exact E2|]. intros i j. rewrite V1, V2. clear -PM. induction PM; cbn [fold_right]; lra.
Qed.
Print Assumptions C98_order_of_points.

(** * Shapes *)
Lemma total_moved : forall s m t ps, total_vec (moved_shape s m t ps) = plus (turned_by s m (total_vec ps)) (times (INR (length ps)) t).
Proof.
  intros s m t ps. unfold moved_shape, total_vec. induction ps as [|p ps IH].
  - destruct t as [[t1 t2] t3], m as [[[[a1 a2] a3] [[b1 b2] b3]] [[c1 c2] c3]]. cbn. f_equal; [f_equal|]; ring.
  - cbn [map fold_right]. rewrite IH. change (length (p :: ps)) with (S (length ps)). rewrite S_INR. generalize (fold_right plus (0, 0, 0) ps) (INR (length ps)). intros [[u1 u2] u3] q.
    destruct p as [[p1 p2] p3], t as [[t1 t2] t3], m as [[[[a1 a2] a3] [[b1 b2] b3]] [[c1 c2] c3]]. cbn. f_equal; [f_equal|]; ring.
Qed.
Lemma centered_moved : forall s m t ps, ps <> [] -> centered (moved_shape s m t ps) = map (turned_by s m) (centered ps).
Proof.
  intros s m t ps Hne. unfold centered. rewrite total_moved. unfold moved_shape. rewrite map_length, !map_map.
  assert (NZ : INR (length ps) <> 0) by (apply not_0_INR; destruct ps; [contradiction|discriminate]).
  revert NZ. generalize (INR (length ps)) (total_vec ps). intros q [[u1 u2] u3] NZ. apply map_ext. intros [[p1 p2] p3].
  destruct t as [[t1 t2] t3], m as [[[[a1 a2] a3] [[b1 b2] b3]] [[c1 c2] c3]]. cbn. f_equal; [f_equal|]; field; exact NZ.
Qed.
Lemma mean_transformed : forall s D n x x', transformed s (fun _ => D) x x' -> transformed s (fun _ => D) (mean_features n x) (mean_features n x').
Proof.
  intros s D n x x' [_ [TS [TD [TF [TT TC]]]]]. do 5 (split; [assumption || reflexivity|]). intros i p l k f Hp Hk.
  assert (M : forall w d, comp (mean_features n w) i p l d f = match i with [] => rsum n (fun e => comp w [e] p l d f) / INR n | _ => 0 end).
  { intros w d. unfold comp. cbn [fS fD fv mean_features]. destruct i as [|a i].
    - destruct ((l + 1) * (l + 1) <=? fD w)%nat; [destruct (fS w =? 2)%nat; [reflexivity|destruct (p =? l mod 2)%nat; [reflexivity|]]|]; rewrite rsum_zero by reflexivity; unfold Rdiv; ring.
    - destruct ((l + 1) * (l + 1) <=? fD w)%nat; [destruct (fS w =? 2)%nat; [reflexivity|destruct (p =? l mod 2)%nat; reflexivity]|reflexivity]. }
  rewrite M. rewrite (rsum_ext (2 * l + 1) _ (fun k' => (match i with [] => rsum n (fun e => comp x [e] p l k' f) / INR n | _ => 0 end) * D (l * l + k')%nat (l * l + k)%nat)) by (intros; now rewrite M).
  destruct i as [|a i]; [|rewrite rsum_zero by (intros; ring); ring]. unfold Rdiv.
  rewrite (rsum_ext n _ (fun e => parity_sign s p * rsum (2 * l + 1) (fun k' => comp x [e] p l k' f * D (l * l + k')%nat (l * l + k)%nat))) by (intros; now apply TC).
  rewrite rsum_scal_l, Rmult_assoc. f_equal. rewrite rsum_swap, <- rsum_scal_r. apply rsum_ext. intros k' _. rewrite <- !rsum_scal_r. apply rsum_ext. intros; ring.
Qed.
Lemma edges_scalars : forall dtype n L num y, (0 <= L)%Z -> has_scalars (edge_features dtype n L num y).
Proof. intros. exists (Z.to_nat L). split; [now left|]. unfold edge_features, degrees. cbn [fD]. now rewrite Nat.add_1_r. Qed.

(** A shape that is turned, possibly reflected, and shifted has features that are the same (degree 0, even parity), or change sign with
    the reflection (degree 0, odd parity). *)
Theorem C98_shape : forall cgf tiny dtype L num radial g cs k ps s m t z, uses_package true cgf -> Forall proper_call cs -> proper_rotation m -> s = 1 \/ s = -1 ->
  0 < tiny -> ps <> [] -> (0 <= L)%Z -> radial_values radial num (centered ps) g -> shape_features cgf tiny dtype L num radial cs k ps z ->
  (exists z', shape_features cgf tiny dtype L num radial cs k (moved_shape s m t ps) z') /\
  forall z', shape_features cgf tiny dtype L num radial cs k (moved_shape s m t ps) z' -> fS z' = fS z /\ fD z' = fD z /\ fF z' = fF z
    /\ (forall f, fv z' [] 0 0 f = fv z [] 0 0 f) /\ (fS z = 2%nat -> forall f, fv z' [] 1 0 f = s * fv z [] 1 0 f).
Proof.
  intros cgf tiny dt L num radial g cs k ps s m t z HP Hc Hm Hs Ht Hne HL Hg [y [ys [Hy [Ey EK]]]]. pose proof (wigner_entries_matrix true m) as HD.
  assert (CN : centered ps <> []) by (unfold centered; destruct ps; [contradiction|discriminate]).
  assert (CL : length (centered ps) = length ps) by (unfold centered; apply map_length).
  assert (ML : length (moved_shape s m t ps) = length ps) by (unfold moved_shape; apply map_length).
  assert (CORE : forall y', basis_returns tiny (centered (moved_shape s m t ps)) L num radial None false false None true y' ->
    exists ys' z', run cgf 0 0 None None no_edges [mean_features (length (moved_shape s m t ps)) (edge_features dt (length (moved_shape s m t ps)) L num y')] cs = Ok ys' /\ nth_error ys' k = Some z'
      /\ transformed s (fun _ => wigner_entries true m) z z').
  { intros y' Hy'. rewrite centered_moved in Hy' by exact Hne. rewrite ML.
    pose proof (proj1 (C68_basis true m _ s Hm HD Hs tiny (centered ps) L num radial None None false false g _ _ Ht CN HL Hg eq_refl eq_refl ltac:(discriminate) dt y y' Hy Hy')) as TE. rewrite CL in TE.
    destruct (C69_network true cgf m _ s 0 0 HP Hm HD Hs None None None no_edges I cs [mean_features (length ps) (edge_features dt (length ps) L num y)] [mean_features (length ps) (edge_features dt (length ps) L num y')] ys Hc) with (3 := Ey) as [ys' [Ey' TY]].
    { constructor; [|constructor]. destruct (edges_scalars dt (length ps) L num y HL) as [q [A B]]. exists q. split; [exact A|exact B]. }
    { constructor; [now apply mean_transformed|constructor]. }
    exists ys'. clear -TY EK Ey'. assert (Q : exists z', nth_error ys' k = Some z' /\ transformed s (fun _ => wigner_entries true m) z z').
    { clear Ey'. revert k EK. induction TY as [|a b u u' H _ IH]; intros [|k] EK; cbn in *; try discriminate; [injection EK as <-; eauto|eauto]. }
    destruct Q as [z' [A B]]. exists z'. auto. }
  split.
  - destruct Hy as [empty [w [st [o [Hw [Ho _]]]]]].
    assert (SZ : map size (map (turned_by s m) (centered ps)) = map size (centered ps)).
    { rewrite map_map. apply map_ext. intros r. unfold turned_by. destruct Hs as [-> | ->]; [rewrite times_one; apply size_act; now apply rotation_orthogonal|]. rewrite <- act_negative. apply size_act, orthogonal_negative. now apply rotation_orthogonal. }
    assert (TN : map (turned_by s m) (centered ps) <> []) by (intros X; apply map_eq_nil in X; contradiction).
    assert (TG : radial_values radial num (map (turned_by s m) (centered ps)) g).
    { destruct Hg as [G1 [G2 G3]]. split; [now rewrite SZ|]. split; [now rewrite map_length|exact G3]. }
    destruct (C51_total tiny empty w st o (map (turned_by s m) (centered ps)) L num radial None false false None true g _ _ Ht TN Hw Ho HL TG eq_refl eq_refl ltac:(discriminate)) as [y' Ey'].
    assert (Hy' : basis_returns tiny (centered (moved_shape s m t ps)) L num radial None false false None true y') by (rewrite centered_moved by exact Hne; exists empty, w, st, o; auto).
    destruct (CORE y' Hy') as [ys' [z' [A [B _]]]]. exists z', y', ys'. auto.
  - intros z' [y' [ys' [Hy' [Ey' EK']]]]. destruct (CORE y' Hy') as [ys2 [z2 [A [B T]]]]. assert (ys2 = ys') by congruence. subst ys2. assert (z2 = z') by congruence. subst z2.
    assert (V : has_scalars z).
    { assert (VS : Forall has_scalars ys). { refine (run_scalars cgf 0 0 (C67_checked _ _ HP) None None no_edges cs _ ys Hc _ Ey). constructor; [|constructor]. destruct (edges_scalars dt (length ps) L num y HL) as [q [E F]]. exists q. split; [exact E|exact F]. }
      rewrite Forall_forall in VS. exact (VS z (nth_error_In _ _ EK)). }
    destruct V as [nz [VS VD]]. pose proof T as [_ [TS [TD [TF [_ TC]]]]]. do 3 (split; [assumption|]).
    destruct (C67_matrices _ _ _ (constant_rotations true m _ Hm HD)) as [K0 _]. pose proof (K0 []) as K. cbn beta in K.
    assert (P : forall p f, (p < 2)%nat -> comp z' [] p 0 0 f = parity_sign s p * comp z [] p 0 0 f).
    { intros p f Hp. rewrite TC by lia. change (2 * 0 + 1)%nat with 1%nat. cbn [rsum]. change (0 * 0 + 0)%nat with 0%nat. rewrite K. ring. }
    assert (D1 : ((0 + 1) * (0 + 1) <=? fD z)%nat = true) by (apply Nat.leb_le; rewrite VD; nia).
    split.
    + intros f. pose proof (P 0%nat f ltac:(lia)) as Q. unfold comp in Q. rewrite TS, TD, D1 in Q. change (0 =? 0 mod 2)%nat with true in Q. change (0 * 0 + 0)%nat with 0%nat in Q. change (parity_sign s 0) with 1 in Q. destruct (fS z =? 2)%nat; lra.
    + intros S2 f. pose proof (P 1%nat f ltac:(lia)) as Q. unfold comp in Q. rewrite TS, TD, D1, S2 in Q. exact Q.
Qed.
Print Assumptions C98_shape.

(** So the class scores of a turned and shifted shape are the same; without pseudotensors also those of its mirror image. *)
Theorem C98_logits : forall cgf tiny dtype L num radial g cs k ps s m t z z' W b c, uses_package true cgf -> Forall proper_call cs -> proper_rotation m -> s = 1 \/ s = -1 ->
  0 < tiny -> ps <> [] -> (0 <= L)%Z -> radial_values radial num (centered ps) g -> shape_features cgf tiny dtype L num radial cs k ps z -> fD z = 1%nat -> (s = 1 \/ fS z = 1%nat) ->
  shape_features cgf tiny dtype L num radial cs k (moved_shape s m t ps) z' -> logit W b z' c = logit W b z c.
Proof.
  intros cgf tiny dt L num radial g cs k ps s m t z z' W b c HP Hc Hm Hs Ht Hne HL Hg Hz D1 HS Hz'.
  assert (CS : fS z = 1%nat \/ fS z = 2%nat).
  { destruct Hz as [y [ys [Hy [Ey EK]]]]. assert (VS : Forall has_scalars ys). { refine (run_scalars cgf 0 0 (C67_checked _ _ HP) None None no_edges cs _ ys Hc _ Ey). constructor; [|constructor]. destruct (edges_scalars dt (length ps) L num y HL) as [q [E F]]. exists q. split; [exact E|exact F]. }
    rewrite Forall_forall in VS. destruct (VS z (nth_error_In _ _ EK)) as [q [E _]]. exact E. }
  destruct (C98_shape cgf tiny dt L num radial g cs k ps s m t z HP Hc Hm Hs Ht Hne HL Hg Hz) as [_ U]. destruct (U z' Hz') as [ES [ED [EF [V0 V1]]]].
  unfold logit, flattened. rewrite ES, ED, EF, D1. f_equal. apply rsum_ext. intros j Hj. f_equal. rewrite Nat.mod_1_r.
  assert (HF : (1 * fF z <> 0)%nat) by (intros X; rewrite X in Hj; lia).
  assert (HJ : (j / (1 * fF z) < fS z)%nat) by (apply Nat.div_lt_upper_bound; lia).
  destruct (j / (1 * fF z))%nat as [|[|p]].
  - apply V0.
  - destruct CS as [C1|C2]; [lia|]. rewrite (V1 C2). destruct HS as [-> | X]; [ring|lia].
  - lia.
Qed.
Print Assumptions C98_logits.

(** The cubes are centred at the origin. *)
Theorem C98_centered : forall ps, ps <> [] -> total_vec (centered ps) = (0, 0, 0).
Proof.
  intros ps Hne. unfold centered. assert (NZ : INR (length ps) <> 0) by (apply not_0_INR; destruct ps; [contradiction|discriminate]).
  assert (E : forall u l, total_vec (map (fun p => plus p u) l) = plus (total_vec l) (times (INR (length l)) u)).
  { intros u l. unfold total_vec. induction l as [|p l IH]; [destruct u as [[u1 u2] u3]; cbn; f_equal; [f_equal|]; ring|]. cbn [map fold_right]. rewrite IH. change (length (p :: l)) with (S (length l)). rewrite S_INR.
    generalize (fold_right plus (0, 0, 0) l) (INR (length l)). intros [[v1 v2] v3] q. destruct p as [[p1 p2] p3], u as [[u1 u2] u3]. cbn. f_equal; [f_equal|]; ring. }
  rewrite E. revert NZ. generalize (INR (length ps)) (total_vec ps). intros q [[u1 u2] u3] NZ. cbn. f_equal; [f_equal|]; field; exact NZ.
Qed.
Print Assumptions C98_centered.

(** Pseudoscalars that are not zero tell a shape from its mirror image: some weights of the last layer give them other scores. *)
Theorem C98_mirror_images : forall cgf tiny dtype L num radial g cs k ps m t z z' f, uses_package true cgf -> Forall proper_call cs -> proper_rotation m ->
  0 < tiny -> ps <> [] -> (0 <= L)%Z -> radial_values radial num (centered ps) g -> shape_features cgf tiny dtype L num radial cs k ps z -> fS z = 2%nat -> fD z = 1%nat ->
  shape_features cgf tiny dtype L num radial cs k (moved_shape (-1) m t ps) z' -> (f < fF z)%nat -> fv z [] 1 0 f <> 0 ->
  exists W b, logit W b z' 0 <> logit W b z 0.
Proof.
  intros cgf tiny dt L num radial g cs k ps m t z z' f HP Hc Hm Ht Hne HL Hg Hz S2 D1 Hz' Hf NZ.
  destruct (C98_shape cgf tiny dt L num radial g cs k ps (-1) m t z HP Hc Hm (or_intror eq_refl) Ht Hne HL Hg Hz) as [_ U]. destruct (U z' Hz') as [ES [ED [EF [_ V1]]]].
  exists (fun j _ => if (j =? fF z + f)%nat then 1 else 0), (fun _ => 0).
  assert (E : forall w, fS w = 2%nat -> fD w = 1%nat -> fF w = fF z -> logit (fun j _ => if (j =? fF z + f)%nat then 1 else 0) (fun _ => 0) w 0 = fv w [] 1 0 f).
  { intros w WS WD WF. unfold logit, flattened. rewrite WS, WD, WF. rewrite (rsum_single _ _ (fF z + f)%nat).
    - rewrite Nat.eqb_refl, Nat.mod_1_r, Nat.mul_1_l. replace (fF z + f)%nat with (f + 1 * fF z)%nat by lia. rewrite Nat.div_add, Nat.mod_add, Nat.div_small, Nat.mod_small by lia. cbn [Nat.add]. ring.
    - lia.
    - intros j _ N. destruct (Nat.eqb_spec j (fF z + f)); [contradiction|ring]. }
  rewrite (E z S2 D1 eq_refl), (E z' ltac:(congruence) ltac:(congruence) EF), (V1 S2 f). lra.
Qed.
Print Assumptions C98_mirror_images.

(** * The networks of the notebooks *)
Lemma package_ok : forall cgf a b c, uses_package true cgf -> (0 <= a)%Z -> (0 <= b)%Z -> (0 <= c)%Z -> exists C, cgf a b c = Ok C.
Proof.
  intros cgf a b c HP Ha Hb Hc. destruct (HP a b c) as [empty [w [s [o [Hw [Ho Q]]]]]].
  destruct (C59_entries R 0 rzero real_clebsch_gordan empty w s o a b c true rzero_test Hw Ho Ha Hb Hc) as [C [E _]]. rewrite E in Q. eexists. exact Q.
Qed.
Lemma inertia_proper : forall P A B C D, Forall proper_call (inertia_network P A B C D).
Proof. intros. unfold inertia_network. repeat constructor; intros d E; injection E as <-; lia. Qed.
Lemma shape_proper : forall i A B C D, Forall proper_call (shape_network i A B C D).
Proof. intros. unfold shape_network. repeat constructor; intros d E; [discriminate|injection E as <-; lia]. Qed.
Lemma inertia_run : forall cgf dtype P Pd1 K1 Pd2 K2, uses_package true cgf ->
  exists a b c, run cgf 0 0 None None no_edges [point_features dtype []] (inertia_network P Pd1 (PTensor K1) Pd2 (PTensor K2)) = Ok [point_features dtype []; a; b; c]
    /\ fS c = 2%nat /\ fD c = 9%nat /\ fF c = 1%nat.
Proof.
  intros cgf dt P Pd1 K1 Pd2 K2 HP.
  destruct (package_ok cgf 1 1 1 HP ltac:(lia) ltac:(lia) ltac:(lia)) as [C1 E1]. destruct (package_ok cgf 1 1 2 HP ltac:(lia) ltac:(lia) ltac:(lia)) as [C2 E2]. clear HP.
  unfold inertia_network. cbn [run].
  destruct (ok_case _ (perform cgf 0 0 None None no_edges [point_features dt []] (UseDense 0 8 true P))
    (fun z => fB z = [0%nat] /\ fS z = 1%nat /\ fD z = 4%nat /\ fF z = 8%nat)) as [z [Ez Sz]].
  { vm_compute. repeat split. }
  rewrite Ez. cbn [bind app]. destruct z as [zB zS zD zF zd zv]. cbn in Sz. destruct Sz as [-> [-> [-> ->]]].
  set (x0 := point_features dt []) in *. clearbody x0. clear Ez.
  destruct (ok_case _ (perform cgf 0 0 None None no_edges [x0; mkFeat [0%nat] 1 4 8 zd zv] (UseTensorDense 1 None (Some 1%Z) true true Pd1 (PTensor K1)))
    (fun z => fB z = [0%nat] /\ fS z = 2%nat /\ fD z = 4%nat /\ fF z = 8%nat)) as [y [Ey Sy]].
  { vm_compute. rewrite ?E1. vm_compute. repeat split. }
  rewrite Ey. cbn [bind app]. destruct y as [yB yS yD yF yd yv]. cbn in Sy. destruct Sy as [-> [-> [-> ->]]]. clear Ey.
  set (x1 := mkFeat [0%nat] 1 4 8 zd zv) in *. clearbody x1.
  destruct (ok_case _ (perform cgf 0 0 None None no_edges [x0; x1; mkFeat [0%nat] 2 4 8 yd yv] (UseTensorDense 2 (Some 1%nat) (Some 2%Z) true true Pd2 (PTensor K2)))
    (fun z => fS z = 2%nat /\ fD z = 9%nat /\ fF z = 1%nat)) as [w [Ew Sw]].
  { vm_compute. rewrite ?E2. vm_compute. repeat split. }
  rewrite Ew. cbn [bind app]. do 3 eexists. split; [reflexivity|exact Sw].
Qed.

(** For all weights and all points the network of the notebook has a result, which turns with the points and does not change when they are
    inverted; it is the sum over the points. *)
Theorem C98_inertia_notebook : forall cgf dtype P Pd1 K1 Pd2 K2, uses_package true cgf ->
  exists single, forall points, exists T, point_model cgf dtype (inertia_network P Pd1 (PTensor K1) Pd2 (PTensor K2)) 3 points = Ok T
    /\ (forall i j, T i j = fold_right (fun q t => single q i j + t) 0 points)
    /\ forall s m, s = 1 \/ s = -1 -> proper_rotation m -> exists T', point_model cgf dtype (inertia_network P Pd1 (PTensor K1) Pd2 (PTensor K2)) 3 (turned_points s m points) = Ok T'
        /\ forall i j, (i < 3)%nat -> (j < 3)%nat -> T' i j = turned_matrix m T i j.
Proof.
  intros cgf dt P Pd1 K1 Pd2 K2 HP. destruct (inertia_run cgf dt P Pd1 K1 Pd2 K2 HP) as [a [b [c [ER [S2 [D9 F1]]]]]]. pose proof (inertia_proper P Pd1 (PTensor K1) Pd2 (PTensor K2)) as HC.
  set (cs := inertia_network P Pd1 (PTensor K1) Pd2 (PTensor K2)) in *. clearbody cs.
  assert (M0 : exists T0, point_model cgf dt cs 3 [] = Ok T0).
  { unfold point_model, point_array. rewrite ER. cbn [bind]. unfold select. cbn [nth_error bind]. unfold read_matrix. rewrite F1, D9. destruct (package_ok cgf 1 1 2 HP ltac:(lia) ltac:(lia) ltac:(lia)) as [C ->]. eexists. reflexivity. }
  destruct M0 as [T0 M0]. destruct (C98_sum_over_points cgf dt cs 3 [] T0 HP HC M0) as [single [_ S]]. exists single. intros points. destruct (S points) as [T [ET VT]]. exists T. split; [exact ET|]. split; [exact VT|].
  intros s m Hs Hm. destruct (point_run cgf dt cs [] points _ HP HC ER) as [ys [Ey SZ]].
  assert (Q : exists z, point_array cgf dt cs 3 points = Ok z /\ fS z = 2%nat).
  { inversion SZ as [|? ? ? ? _ Z1]; subst. inversion Z1 as [|? ? ? ? _ Z2]; subst. inversion Z2 as [|? ? ? ? _ Z3]; subst. inversion Z3 as [|? z ? ? ZZ _]; subst. exists z. unfold point_array. rewrite Ey. split; [reflexivity|].
    destruct ZZ as [_ [_ [ES _]]]. congruence. }
  destruct Q as [z [Ez Sz]]. exact (C98_matrix_turns cgf dt cs 3 points s m z T HP HC Hm Hs Ez (or_intror Sz) ET).
Qed.
Print Assumptions C98_inertia_notebook.

Lemma shape_run : forall cgf dtype v include Pd1 K1 Pd2 K2, uses_package true cgf ->
  exists a b, run cgf 0 0 None None no_edges [mkFeat [] 1 9 8 dtype v] (shape_network include Pd1 (PTensor K1) Pd2 (PTensor K2)) = Ok [mkFeat [] 1 9 8 dtype v; a; b]
    /\ fS b = (if include then 2 else 1)%nat /\ fD b = 1%nat /\ fF b = 8%nat.
Proof.
  intros cgf dt v include Pd1 K1 Pd2 K2 HP.
  destruct (package_ok cgf 2 2 2 HP ltac:(lia) ltac:(lia) ltac:(lia)) as [C1 E1]. destruct (package_ok cgf 2 2 0 HP ltac:(lia) ltac:(lia) ltac:(lia)) as [C2 E2]. clear HP.
  unfold shape_network. cbn [run].
  destruct (ok_case _ (perform cgf 0 0 None None no_edges [mkFeat [] 1 9 8 dt v] (UseTensorDense 0 None None true true Pd1 (PTensor K1)))
    (fun z => fB z = [] /\ fS z = 2%nat /\ fD z = 9%nat /\ fF z = 8%nat)) as [y [Ey Sy]].
  { vm_compute. rewrite ?E1. vm_compute. repeat split. }
  rewrite Ey. cbn [bind app]. destruct y as [yB yS yD yF yd yv]. cbn in Sy. destruct Sy as [-> [-> [-> ->]]]. clear Ey.
  set (x0 := mkFeat [] 1 9 8 dt v) in *. clearbody x0.
  destruct (ok_case _ (perform cgf 0 0 None None no_edges [x0; mkFeat [] 2 9 8 yd yv] (UseTensorDense 1 None (Some 0%Z) include true Pd2 (PTensor K2)))
    (fun z => fS z = (if include then 2 else 1)%nat /\ fD z = 1%nat /\ fF z = 8%nat)) as [w [Ew Sw]].
  { destruct include; vm_compute; rewrite ?E2; vm_compute; repeat split. }
  rewrite Ew. cbn [bind app]. do 2 eexists. split; [reflexivity|exact Sw].
Qed.

(** The network of the notebook classifies every shape, and gives shapes that are turned and shifted the same scores; without pseudotensors
    in the last layer also mirror images. *)
Theorem C98_shape_notebook : forall cgf tiny dtype radial g include Pd1 K1 Pd2 K2 W b ps, uses_package true cgf -> 0 < tiny -> ps <> [] -> radial_values radial 8 (centered ps) g ->
  let net := shape_network include Pd1 (PTensor K1) Pd2 (PTensor K2) in
  exists z, shape_features cgf tiny dtype 2 8 radial net 2 ps z /\ fS z = (if include then 2 else 1)%nat /\ fD z = 1%nat /\ fF z = 8%nat /\
  forall s m t, proper_rotation m -> s = 1 \/ s = -1 -> (s = 1 \/ include = false) ->
    exists z', shape_features cgf tiny dtype 2 8 radial net 2 (moved_shape s m t ps) z' /\ forall c, logit W b z' c = logit W b z c.
Proof.
  intros cgf tiny dt radial g include Pd1 K1 Pd2 K2 W b ps HP Ht Hne Hg net.
  assert (CN : centered ps <> []) by (unfold centered; destruct ps; [contradiction|discriminate]).
  destruct (C51_total tiny 0 empty_world None IoOk (centered ps) 2 8 radial None false false None true g _ _ Ht CN sh_ready_empty call_ok_serial ltac:(lia) Hg eq_refl eq_refl ltac:(discriminate)) as [y Ey].
  assert (Hy : basis_returns tiny (centered ps) 2 8 radial None false false None true y) by (exists 0%nat, empty_world, None, IoOk; auto using sh_ready_empty, call_ok_serial).
  destruct (shape_run cgf dt (fv (mean_features (length ps) (edge_features dt (length ps) 2 8 y))) include Pd1 K1 Pd2 K2 HP) as [a [z [ER [S2 [D1 F8]]]]].
  assert (Hz : shape_features cgf tiny dt 2 8 radial net 2 ps z) by (exists y; eexists; split; [exact Hy|]; split; [exact ER|reflexivity]).
  exists z. split; [exact Hz|]. do 3 (split; [assumption|]). intros s m t Hm Hs HI. pose proof (shape_proper include Pd1 (PTensor K1) Pd2 (PTensor K2)) as HC. fold net in HC.
  destruct (C98_shape cgf tiny dt 2 8 radial g net 2 ps s m t z HP HC Hm Hs Ht Hne ltac:(lia) Hg Hz) as [[z' Hz'] _]. exists z'. split; [exact Hz'|]. intros c.
  assert (HS : s = 1 \/ fS z = 1%nat) by (destruct HI as [H| ->]; auto).
  exact (C98_logits cgf tiny dt 2 8 radial g net 2 ps s m t z z' W b c HP HC Hm Hs Ht Hne ltac:(lia) Hg Hz D1 HS Hz').
Qed.
Print Assumptions C98_shape_notebook.

(** Concrete cases: the quarter turn with inversion, two points, and the four cubes of the "L" with radial functions of eight values. *)
Example C98_case : let cgf := package_cg true in let P := mkDense (fun _ _ i j => INR (i + j)) (fun _ => 1) in let K := fun _ _ _ _ _ _ _ : nat => 2 in
  let points := [(1, (1, 0, 0)); (2, (0, 1, 3))] in let radial := fun (n : list R) (k : Z) => Ok (map (fun x => repeat x (Z.to_nat k)) n) in
  let shape := [(0, 0, 0); (1, 0, 0); (2, 0, 0); (2, 1, 0)] in
  uses_package true cgf /\ proper_rotation quarter_turn /\ Permutation points (rev points)
  /\ (exists T, point_model cgf 0 (inertia_network P P (PTensor K) P (PTensor K)) 3 points = Ok T) /\ (exists g, radial_values radial 8 (centered shape) g)
  /\ turned_points (-1) quarter_turn points <> points.
Proof.
  intros cgf P K points radial shape. split; [apply package_cg_uses|]. split; [exact quarter_turn_rotation|]. split; [apply Permutation_rev|]. split; [|split].
  - destruct (C98_inertia_notebook cgf 0 P P K P K (package_cg_uses true)) as [single S]. destruct (S points) as [T [E _]]. exists T. exact E.
  - eexists. split; [reflexivity|]. split; [reflexivity|]. apply Forall_map, Forall_forall. intros r _. apply repeat_length.
  - unfold points. cbn. intros E. injection E. intros. lra.
Qed.
