(** Properties C26-C30: norms, rotation matrices, Euler angles, alignment and random rotations. *)
Require Import List Reals Lra Lia Bool Psatz.
Require Import Verif.Base Verif.Radial_Model Verif.Radial_Proofs Verif.Rotations_Model Verif.Rotations_Spec
  Verif.Rotations_Proofs Verif.Rotations_More_Proofs Verif.Rotations_Euler_Proofs Verif.Rotations_Random_Proofs.
Import ListNotations.
Open Scope R_scope.

Lemma nth_map_in : forall (A B : Type) (f : A -> B) l i a b, (i < length l)%nat -> nth i (map f l) b = f (nth i l a).
Proof. intros A B f l; induction l; intros [|i] a' b H; cbn in *; try lia; [reflexivity|]. apply IHl; lia. Qed.

Lemma nth_combine : forall (A B : Type) (l : list A) (l' : list B) i a b, (i < length l)%nat -> length l = length l' ->
  nth i (combine l l') (a, b) = (nth i l a, nth i l' b).
Proof. intros; apply combine_nth; assumption. Qed.

(** * C30 *)

(** [norm] of an array, reduced in groups, is the Euclidean length of each group; an array without
    entries raises. *)
Theorem C30_norm : forall tiny x, 0 < tiny ->
  (concat x <> [] -> norm tiny x = Ok (map length_of x)) /\
  (concat x = [] -> norm tiny x = Err ValueError).
Proof. intros tiny x Ht; split; intros H; [apply norm_ok | apply norm_empty]; assumption. Qed.
Print Assumptions C30_norm.

Example C30_norm_case : norm (/ 1000) [[3; 4]; [0; 0]] = Ok [5; 0].
Proof.
  rewrite (proj1 (C30_norm (/ 1000) [[3; 4]; [0; 0]] ltac:(lra))) by discriminate.
  cbn [map]. unfold length_of; cbn [map sum_of].
  replace (3 ^ 2 + (4 ^ 2 + 0)) with (5 * 5) by ring. replace (0 ^ 2 + (0 ^ 2 + 0)) with 0 by ring.
  rewrite sqrt_square, sqrt_0 by lra. reflexivity.
Qed.

(** [normalize] divides each group by its length unless the squared length is at most [tiny], in which
    case the group is returned unchanged; [normalize_and_return_norm] also returns the lengths. *)
Theorem C30_normalize : forall tiny x, 0 < tiny -> concat x <> [] ->
  exists y, normalize tiny x = Ok y /\
    normalize_and_return_norm tiny x = Ok (y, map length_of x) /\
    length y = length x /\
    forall i, (i < length x)%nat ->
      let g := nth i x [] in let h := nth i y [] in
      (tiny < length_of g ^ 2 -> h = map (fun v => v / length_of g) g /\ length_of h = 1) /\
      (length_of g ^ 2 <= tiny -> h = g).
Proof.
  intros tiny x Ht Hx. exists (map (unit_scale tiny) x).
  split; [apply normalize_ok; assumption|]. split; [apply normalize_nr_ok; assumption|].
  split; [apply map_length|].
  intros i Hi g h. assert (E : h = unit_scale tiny g) by (unfold h, g; apply nth_map_in; exact Hi).
  rewrite E. unfold unit_scale. replace (length_of g ^ 2) with (length_of g * length_of g) by ring.
  unfold Rltb. destruct (Rlt_dec tiny (length_of g * length_of g)) as [P|P]; split; intros Q; try lra.
  - split; [reflexivity|]. pose proof (length_of_nonneg g).
    assert (0 < length_of g) by nra. rewrite length_of_div by assumption. field; lra.
  - transitivity (map (fun v : R => v) g); [apply map_ext; intros; field | apply map_id].
Qed.
Print Assumptions C30_normalize.

Example C30_normalize_case : exists y, normalize (/ 1000) [[3; 4]; [0; 0]] = Ok y /\ nth 0 y [] = [3 / 5; 4 / 5] /\ nth 1 y [] = [0; 0].
Proof.
  destruct (C30_normalize (/ 1000) [[3; 4]; [0; 0]] ltac:(lra) ltac:(discriminate)) as (y & E & _ & _ & H).
  exists y; split; [exact E|].
  assert (L1 : length_of [3; 4] = 5).
  { unfold length_of; cbn [map sum_of]. replace (3 ^ 2 + (4 ^ 2 + 0)) with (5 * 5) by ring. apply sqrt_square; lra. }
  assert (L2 : length_of [0; 0] = 0).
  { unfold length_of; cbn [map sum_of]. replace (0 ^ 2 + (0 ^ 2 + 0)) with 0 by ring. apply sqrt_0. }
  split.
  - destruct (proj1 (H 0%nat ltac:(cbn; lia)) ltac:(cbn [nth]; rewrite L1; lra)) as [-> _]. cbn [nth map]. rewrite L1. reflexivity.
  - apply (proj2 (H 1%nat ltac:(cbn; lia))). cbn [nth]. rewrite L2. lra.
Qed.

(** The custom derivative rule: the tangent of each group is the directional derivative of its length
    wherever the length is positive, is zero where the length is zero, and never exceeds the length of
    the input tangent. *)
Theorem C30_norm_derivative : forall tiny x x_dot, 0 < tiny -> concat x <> [] -> length x = length x_dot ->
  (forall i, (i < length x)%nat -> length (nth i x []) = length (nth i x_dot [])) ->
  exists primal tangent, norm_jvp tiny x x_dot = Ok (primal, tangent) /\ norm tiny x = Ok primal /\
    length tangent = length x /\
    forall i, (i < length x)%nat ->
      let g := nth i x [] in let d := nth i x_dot [] in
      (0 < length_of g ->
       derivable_pt_lim (fun t => length_of (map (fun p => fst p + t * snd p) (combine g d))) 0 (nth i tangent 0)) /\
      (length_of g = 0 -> nth i tangent 0 = 0) /\
      Rabs (nth i tangent 0) <= length_of d.
Proof.
  intros tiny x xd Ht Hx Hl Hg. exists (map length_of x). exists (map (fun p => tangent (fst p) (snd p)) (combine x xd)).
  split; [apply norm_jvp_ok; assumption|]. split; [apply norm_ok; assumption|].
  split; [rewrite map_length, combine_length; lia|].
  intros i Hi g d.
  assert (E : nth i (map (fun p => tangent (fst p) (snd p)) (combine x xd)) 0 = tangent g d).
  { rewrite (nth_map_in _ _ _ _ _ ([], []) 0) by (rewrite combine_length; lia).
    rewrite nth_combine by assumption. reflexivity. }
  rewrite E. specialize (Hg i Hi). fold g d in Hg.
  split; [|split].
  - intros P. pose proof (norm_derivative g d Hg P) as D. unfold tangent.
    unfold Rltb. destruct (Rlt_dec 0 (length_of g)); [exact D | contradiction].
  - intros Z. unfold tangent. rewrite inner_zero; [unfold Rdiv; ring | apply zero_norm_zero, Z].
  - apply tangent_bound, Hg.
Qed.
Print Assumptions C30_norm_derivative.

Example C30_norm_derivative_case : concat [[3; 4]] <> [] /\ 0 < length_of [3; 4].
Proof. split; [discriminate|]. unfold length_of; apply sqrt_lt_R0; cbn [map sum_of]; lra. Qed.

(** * C26 *)

(** Each matrix of the batch is a proper rotation and turns every vector counterclockwise about the
    direction of the axis by the angle; it fixes the axis and its trace is 1+2cos(angle). *)
Theorem C26_rotation : forall tiny axis angle, 0 < tiny -> axis <> [] -> length axis = length angle ->
  exists ms, rotation tiny axis angle = Ok ms /\ length ms = length axis /\
    forall i, (i < length axis)%nat ->
      let k := nth i axis e1 in let t := nth i angle 0 in let m := nth i ms eye3 in
      tiny < dot k k ->
      proper_rotation m /\
      (forall v, act v m = turned (unit_of k) t v) /\
      act k m = k /\
      trace3 m = 1 + 2 * cos t.
Proof.
  intros tiny axis angle Ht Ha Hl. rewrite rotation_ok by assumption.
  eexists; split; [reflexivity|]. split; [rewrite map_length, combine_length; lia|].
  intros i Hi k t m Hk.
  assert (E : m = rotation_of_normalized (vnorm tiny k) t).
  { unfold m. rewrite (nth_map_in _ _ _ _ _ (e1, 0) eye3) by (rewrite combine_length; lia).
    rewrite nth_combine by assumption. reflexivity. }
  destruct (vnorm_unit tiny k Ht Hk) as [U1 U2]. rewrite E. clear E m.
  assert (F : forall v, act v (rotation_of_normalized (vnorm tiny k) t) = turned (unit_of k) t v).
  { intros v; rewrite rotation_turned by exact U2. rewrite U1; reflexivity. }
  split; [apply rotation_proper; exact U2|]. split; [exact F|]. split.
  - rewrite F. rewrite U1 in U2. assert (S : 0 < size k) by (apply size_pos; lra).
    assert (K : k = times (size k) (unit_of k)).
    { unfold unit_of. destruct k as [[a b] c]; cbn [times]. apply triple_eq; field; lra. }
    assert (L : forall s v, turned (unit_of k) t (times s v) = times s (turned (unit_of k) t v)).
    { intros s [[x y] z]. unfold turned. destruct (unit_of k) as [[a b] c]; cbn [times plus outer dot]. apply triple_eq; ring. }
    rewrite K at 2. rewrite L, turned_axis by exact U2. symmetry; exact K.
  - apply rotation_trace; exact U2.
Qed.
Print Assumptions C26_rotation.

Example C26_rotation_case : exists ms, rotation (/ 1000) [(0, 2, 0)] [PI] = Ok ms /\ act (1, 0, 0) (nth 0 ms eye3) = (-1, 0, 0).
Proof.
  destruct (C26_rotation (/ 1000) [(0, 2, 0)] [PI] ltac:(lra) ltac:(discriminate) eq_refl) as (ms & E & _ & H).
  exists ms; split; [exact E|].
  destruct (H 0%nat ltac:(cbn; lia) ltac:(cbn [nth dot]; lra)) as (_ & T & _). cbn [nth] in T. rewrite T.
  unfold turned, unit_of. rewrite cos_PI, sin_PI. cbn [times plus outer dot]. apply triple_eq; ring.
Qed.

(** Rotations about one axis compose by adding the angles; in particular negating the angle gives the
    inverse. *)
Theorem C26_composition : forall tiny k s t, 0 < tiny -> tiny < dot k k ->
  exists m1 m2 m3 m4, rotation tiny [k] [s] = Ok [m1] /\ rotation tiny [k] [t] = Ok [m2] /\
    rotation tiny [k] [s + t] = Ok [m3] /\ rotation tiny [k] [- s] = Ok [m4] /\
    mmul m1 m2 = m3 /\ inverse_matrices m1 m4.
Proof.
  intros tiny k s t Ht Hk. destruct (vnorm_unit tiny k Ht Hk) as [U1 U2].
  set (u := vnorm tiny k) in *.
  exists (rotation_of_normalized u s), (rotation_of_normalized u t),
    (rotation_of_normalized u (s + t)), (rotation_of_normalized u (- s)).
  rewrite !rotation_ok by (assumption || discriminate). cbn [map combine fst snd]. fold u.
  do 4 (split; [reflexivity|]). split.
  - apply mat_ext; intros v. rewrite act_mmul, !rotation_turned, turned_comp by exact U2. reflexivity.
  - intros v; rewrite !rotation_turned, !turned_comp by exact U2.
    replace (s + - s) with 0 by ring. replace (- s + s) with 0 by ring. rewrite turned_id0. split; reflexivity.
Qed.
Print Assumptions C26_composition.
Example C26_composition_case : / 1000 < dot (0, 0, 3) (0, 0, 3).
Proof. cbn [dot]; lra. Qed.

(** What happens without a usable axis: the zero axis gives cos(angle/2)^2 times the identity, which is
    a rotation only if the angle is a multiple of 2 pi. *)
Theorem C26_zero_axis : forall tiny angle, 0 < tiny ->
  rotation tiny [(0, 0, 0)] [angle] = Ok [mscale eye3 (cos (angle / 2) ^ 2)].
Proof.
  intros tiny t Ht. rewrite rotation_ok by (assumption || discriminate). cbn [map combine fst snd].
  assert (vnorm tiny (0, 0, 0) = (0, 0, 0)) as ->.
  { unfold vnorm, Rltb; cbn [dot]. destruct (Rlt_dec tiny (0 * 0 + 0 * 0 + 0 * 0)); [lra | reflexivity]. }
  replace (t / 2) with (0.5 * t) by lra.
  unfold rotation_of_normalized, stack_last, mscale, eye3; cbv zeta; cbn [vscale].
  do 2 f_equal. apply triple_eq'; apply triple_eq; ring.
Qed.
Print Assumptions C26_zero_axis.

(** * C27 *)

(** A rotation from Euler angles is proper and turns about x by [a], then about y by [b], then about z
    by [c]. *)
Theorem C27_euler : forall a b c, proper_rotation (rotation_euler a b c) /\
  forall v, act v (rotation_euler a b c) = turned e3 c (turned e2 b (turned e1 a v)).
Proof. intros; split; [apply euler_proper | intros; apply euler_turned]. Qed.
Print Assumptions C27_euler.

(** The same as multiplying the matrices of the three axis rotations. *)
Theorem C27_euler_product : forall tiny a b c, 0 < tiny < 1 ->
  exists mx my mz, rotation tiny [e1; e2; e3] [a; b; c] = Ok [mx; my; mz] /\
    rotation_euler a b c = mmul (mmul mx my) mz.
Proof.
  intros tiny a b c Ht. rewrite rotation_ok by (lra || discriminate). cbn [map combine fst snd].
  assert (D1 : dot e1 e1 = 1) by (unfold e1; cbn [dot]; ring).
  assert (D2 : dot e2 e2 = 1) by (unfold e2; cbn [dot]; ring).
  assert (D3 : dot e3 e3 = 1) by (unfold e3; cbn [dot]; ring).
  assert (V : forall e, dot e e = 1 -> vnorm tiny e = e).
  { intros e He. destruct (vnorm_unit tiny e) as [E _]; [lra | lra |]. rewrite E. unfold unit_of, size.
    rewrite He, sqrt_1. destruct e as [[x y] z]; cbn [times]. apply triple_eq; field. }
  rewrite !V by assumption. do 3 eexists; split; [reflexivity|].
  apply mat_ext; intros v. rewrite !act_mmul, euler_turned, !rotation_turned by assumption. reflexivity.
Qed.
Print Assumptions C27_euler_product.

(** Reconstruction: outside the gimbal-lock branch the extracted angles reproduce the matrix exactly;
    in the gimbal-lock branch every entry is off by at most sqrt(2d)+5d, where d < epsneg is the distance
    of |R[0,2]| from one (so exactly for d = 0). *)
Theorem C27_euler_inverse : forall epsneg shape rots, 0 < epsneg < / 2 ->
  Forall proper_rotation rots ->
  (exists pre, shape = pre ++ [3; 3]%nat) ->
  exists angles, euler_angles_from_rotation epsneg shape rots = Ok angles /\ length angles = length rots /\
    forall n, (n < length rots)%nat ->
      let m := nth n rots eye3 in let '(a, b, c) := nth n angles (0, 0, 0) in
      (Rabs (entry m 0 2) <= 1 - epsneg -> rotation_euler a b c = m) /\
      (1 - epsneg < Rabs (entry m 0 2) -> forall i j, (i < 3)%nat -> (j < 3)%nat ->
         let d := 1 - Rabs (entry m 0 2) in
         Rabs (entry (rotation_euler a b c) i j - entry m i j) <= sqrt (2 * d) + 5 * d).
Proof.
  intros eps shape rots He HP (pre & ->).
  exists (map (euler_angles_of eps) rots).
  assert (C : check_rotation_matrix_shape (pre ++ [3; 3]%nat) = Ok tt).
  { unfold check_rotation_matrix_shape. rewrite app_length. cbn [length].
    replace (length pre + 2 - 2)%nat with (length pre) by lia.
    rewrite skipn_app, skipn_all, Nat.sub_diag. cbn [skipn app].
    destruct (2 <=? length pre + 2)%nat eqn:E; [|apply Nat.leb_gt in E; lia].
    destruct (list_eq_dec Nat.eq_dec [3; 3]%nat [3; 3]%nat); [reflexivity | congruence]. }
  split; [unfold euler_angles_from_rotation; rewrite C; reflexivity|].
  split; [apply map_length|].
  intros n Hn m.
  assert (P : proper_rotation m) by (apply (proj1 (Forall_forall _ _) HP); apply nth_In, Hn).
  rewrite (nth_map_in _ _ _ _ _ eye3 (0, 0, 0)) by exact Hn. fold m.
  pose proof (euler_inverse_normal eps m ltac:(lra) P) as N. pose proof (euler_inverse_gimbal eps m He P) as G.
  destruct (euler_angles_of eps m) as [[a b] c]. split.
  - intros H; apply N, H.
  - intros H i j Hi Hj. apply G; assumption.
Qed.
Print Assumptions C27_euler_inverse.

Example C27_euler_inverse_case : Forall proper_rotation [rotation_euler 1 (1 / 2) 2; rotation_euler 1 (PI / 2) 2].
Proof. repeat constructor; apply euler_proper. Qed.

(** A matrix whose last two axes do not have sizes three is rejected. *)
Theorem C27_shape : forall epsneg shape rots,
  ~ (exists pre, shape = pre ++ [3; 3]%nat) -> euler_angles_from_rotation epsneg shape rots = Err ValueError.
Proof.
  intros eps shape rots H. unfold euler_angles_from_rotation, check_rotation_matrix_shape.
  destruct (2 <=? length shape)%nat eqn:E; cbn [andb]; [|reflexivity].
  destruct (list_eq_dec Nat.eq_dec (skipn (length shape - 2) shape) [3; 3]%nat) as [Q|Q]; [|reflexivity].
  exfalso; apply H. exists (firstn (length shape - 2) shape). rewrite <- Q. symmetry; apply firstn_skipn.
Qed.
Print Assumptions C27_shape.
Example C27_shape_case : euler_angles_from_rotation (/ 8) [3; 4]%nat [] = Err ValueError.
Proof. reflexivity. Qed.

(** * C28 *)

(** Every pair of vectors of a batch (of any size) that is not antiparallel is aligned by a proper
    rotation whose trace shows that its angle is the angle between the vectors (shortest arc) and whose
    axis is perpendicular to both. *)
Theorem C28_alignment : forall tiny u v, 0 < tiny -> u <> [] -> length u = length v ->
  exists ms, alignment_rotation tiny u v = Ok ms /\ length ms = length u /\
    forall i, (i < length u)%nat ->
      let a := nth i u e1 in let b := nth i v e1 in let m := nth i ms eye3 in
      tiny < dot a a -> tiny < dot b b -> unit_of b <> times (-1) (unit_of a) ->
      proper_rotation m /\ act (unit_of a) m = unit_of b /\
      trace3 m = 1 + 2 * dot (unit_of a) (unit_of b) /\
      act (outer (unit_of a) (unit_of b)) m = outer (unit_of a) (unit_of b).
Proof.
  intros tiny u v Ht Hu Hl. rewrite alignment_ok by assumption. eexists; split; [reflexivity|].
  split; [rewrite map_length, combine_length; lia|].
  intros i Hi a b m Ha Hb Hn.
  assert (E : m = align_entry tiny (all_scale tiny (sums tiny u)) a b).
  { unfold m. rewrite (nth_map_in _ _ _ _ _ (e1, e1) eye3) by (rewrite combine_length; lia).
    rewrite nth_combine by assumption. reflexivity. }
  destruct (vnorm_unit tiny a Ht Ha) as [A1 A2]. destruct (vnorm_unit tiny b Ht Hb) as [B1 B2].
  assert (P : 0 < 1 + dot (unit_of a) (unit_of b)).
  { destruct (Rlt_or_le 0 (1 + dot (unit_of a) (unit_of b))) as [|Q]; [assumption|].
    exfalso; apply Hn. rewrite A1 in A2. rewrite B1 in B2. apply anti_unit; assumption. }
  rewrite E. unfold align_entry. cbv zeta. rewrite A1, B1 in *.
  assert (D : align_div (unit_of a) (unit_of b) = 1 + dot (unit_of a) (unit_of b)).
  { destruct (unit_of a) as [[? ?] ?], (unit_of b) as [[? ?] ?]. unfold align_div, sum_prod, sum_list; cbn [vmap2 vlist fold_right dot]; ring. }
  rewrite D. unfold Rltb. destruct (Rlt_dec 0 (1 + dot (unit_of a) (unit_of b))); [|contradiction].
  apply align_general_spec; assumption.
Qed.
Print Assumptions C28_alignment.

(** Antiparallel pairs: if the direction of [u] is not too close to the cube diagonals, the result is a
    half turn mapping [u] to [v]. *)
Theorem C28_antiparallel_partial : forall tiny u v, 0 < tiny -> u <> [] -> length u = length v ->
  (forall x, In x u -> tiny < dot x x) ->
  exists ms, alignment_rotation tiny u v = Ok ms /\ length ms = length u /\
    forall i, (i < length u)%nat ->
      let a := nth i u e1 in let b := nth i v e1 in let m := nth i ms eye3 in
      tiny < dot b b -> unit_of b = times (-1) (unit_of a) ->
      (let '(x, y, z) := unit_of a in tiny * (4 * INR (length u)) < 1 - (x * z + y * x + z * y) ^ 2) ->
      proper_rotation m /\ act (unit_of a) m = unit_of b /\ trace3 m = -1.
Proof.
  intros tiny u v Ht Hu Hl Hall. rewrite alignment_ok by assumption. eexists; split; [reflexivity|].
  split; [rewrite map_length, combine_length; lia|].
  intros i Hi a b m Hb Hn Hd.
  assert (Ha : tiny < dot a a) by (apply Hall, nth_In, Hi).
  set (s := all_scale tiny (sums tiny u)).
  assert (E : m = align_entry tiny s a b).
  { unfold m. rewrite (nth_map_in _ _ _ _ _ (e1, e1) eye3) by (rewrite combine_length; lia).
    rewrite nth_combine by assumption. reflexivity. }
  destruct (vnorm_unit tiny a Ht Ha) as [A1 A2]. destruct (vnorm_unit tiny b Ht Hb) as [B1 B2].
  rewrite A1 in A2. rewrite B1 in B2.
  rewrite E. unfold align_entry. cbv zeta. rewrite A1, B1, Hn.
  assert (D : align_div (unit_of a) (times (-1) (unit_of a)) = 0).
  { rewrite <- (Rminus_diag_eq 1 1 eq_refl). rewrite <- A2 at 2.
    destruct (unit_of a) as [[? ?] ?]. unfold align_div, sum_prod, sum_list; cbn [times vmap2 vlist fold_right dot]; ring. }
  rewrite D. unfold Rltb at 1 2 3. destruct (Rlt_dec 0 0); [lra|].
  destruct (anti_spec tiny s (unit_of a) Ht A2) as (P1 & P2 & P3).
  - destruct (anti_axis_facts tiny s (unit_of a) A2) as [F _]. rewrite F.
    pose proof (all_scale_bound tiny u Ht Hu Hall) as B. fold s in B.
    set (w := dot (unit_of a) (roll1 (unit_of a))).
    assert (W : tiny * (4 * INR (length u)) < 1 - w * w).
    { unfold w. destruct (unit_of a) as [[x y] z]. cbn [dot roll1].
      replace ((x * z + y * x + z * y) * (x * z + y * x + z * y)) with ((x * z + y * x + z * y) ^ 2) by ring. exact Hd. }
    assert (0 < INR (length u)).
    { apply lt_0_INR. lia. }
    assert (0 <= s * s) by nra.
    assert (0 < s * s) by nra.
    apply Rle_lt_trans with (s * s * (tiny * (4 * INR (length u)))); [nra|].
    apply Rmult_lt_compat_l; assumption.
  - split; [exact P1|]. split; [exact P2 | exact P3].
Qed.
Print Assumptions C28_antiparallel_partial.

Example C28_antiparallel_case :
  let u := [(1, 0, 0)] in let v := [(-2, 0, 0)] in
  exists ms, alignment_rotation (/ 1000) u v = Ok ms /\ act (1, 0, 0) (nth 0 ms eye3) = (-1, 0, 0).
Proof.
  cbv zeta.
  destruct (C28_antiparallel_partial (/ 1000) [(1, 0, 0)] [(-2, 0, 0)] ltac:(lra) ltac:(discriminate) eq_refl) as (ms & E & _ & H).
  { intros x [<-|[]]; cbn [dot]; lra. }
  exists ms; split; [exact E|].
  assert (U1 : unit_of (1, 0, 0) = (1, 0, 0)).
  { unfold unit_of, size; cbn [dot times]. replace (1 * 1 + 0 * 0 + 0 * 0) with 1 by ring. rewrite sqrt_1. apply triple_eq; field. }
  assert (U2 : unit_of (-2, 0, 0) = (-1, 0, 0)).
  { unfold unit_of, size; cbn [dot times]. replace (-2 * -2 + 0 * 0 + 0 * 0) with (2 * 2) by ring.
    rewrite sqrt_square by lra. apply triple_eq; field. }
  specialize (H 0%nat ltac:(cbn; lia)). cbn [nth] in H. rewrite U1, U2 in H.
  destruct H as (_ & H & _).
  - cbn [dot]; lra.
  - cbn [times]. apply triple_eq; ring.
  - cbn [length]. change (INR 1) with 1. lra.
  - exact H.
Qed.

(** The full claim is false: for [u] = (1,1,1) and [v] = -(1,1,1) the result is the zero matrix. *)
Theorem C28_diagonal_refuted : forall tiny, 0 < tiny < 1 ->
  alignment_rotation tiny [(1, 1, 1)] [(-1, -1, -1)] = Ok [((0, 0, 0), (0, 0, 0), (0, 0, 0))] /\
  ~ proper_rotation ((0, 0, 0), (0, 0, 0), (0, 0, 0)).
Proof.
  intros tiny Ht. split.
  - rewrite alignment_ok by (lra || discriminate || reflexivity). cbn [map combine fst snd].
    set (s := all_scale tiny _). clearbody s. unfold align_entry. cbv zeta.
    assert (V1 : vnorm tiny (1, 1, 1) = (/ sqrt 3, / sqrt 3, / sqrt 3)).
    { destruct (vnorm_unit tiny (1, 1, 1)) as [E _]; [lra | cbn [dot]; lra |]. rewrite E. unfold unit_of, size; cbn [dot times].
      replace (1 * 1 + 1 * 1 + 1 * 1) with 3 by ring. apply triple_eq; ring. }
    assert (V2 : vnorm tiny (-1, -1, -1) = (- / sqrt 3, - / sqrt 3, - / sqrt 3)).
    { destruct (vnorm_unit tiny (-1, -1, -1)) as [E _]; [lra | cbn [dot]; lra |]. rewrite E. unfold unit_of, size; cbn [dot times].
      replace (-1 * -1 + -1 * -1 + -1 * -1) with 3 by ring. apply triple_eq; ring. }
    rewrite V1, V2. set (q := / sqrt 3) in *.
    assert (Q : q * q = / 3).
    { unfold q. rewrite <- Rinv_mult, sqrt_sqrt by lra. reflexivity. }
    assert (D : align_div (q, q, q) (- q, - q, - q) = 0).
    { unfold align_div, sum_prod, sum_list; cbn [vmap2 vlist fold_right].
      replace (1 + (q * - q + (q * - q + (q * - q + 0)))) with (1 - 3 * (q * q)) by ring. rewrite Q; lra. }
    rewrite D. unfold Rltb at 1. destruct (Rlt_dec 0 0); [lra|].
    assert (X : anti_axis tiny s (q, q, q) = (0, 0, 0)).
    { unfold anti_axis; cbn [cross times vadd roll1]. apply triple_eq; ring. }
    rewrite X.
    assert (vnorm tiny (0, 0, 0) = (0, 0, 0)) as ->.
    { unfold vnorm, Rltb; cbn [dot]. destruct (Rlt_dec tiny (0 * 0 + 0 * 0 + 0 * 0)); [lra | reflexivity]. }
    unfold rotation_of_normalized, stack_last; cbv zeta. replace (0.5 * PI) with (PI / 2) by lra. rewrite cos_PI2.
    do 2 f_equal. apply triple_eq'; apply triple_eq; ring.
  - intros [O _]. specialize (O 0 0 ltac:(lia) ltac:(lia))%nat. cbn [row dot Nat.eqb] in O. lra.
Qed.
Print Assumptions C28_diagonal_refuted.
Example C28_diagonal_case : 0 < / 1000 < 1.
Proof. lra. Qed.

(** * C29 *)

(** A row of uniform draws. *)
Definition uniform_draw (u : vec) : Prop := let '(a, b, c) := u in 0 <= a < 1 /\ 0 <= b < 1 /\ 0 <= c < 1.

Definition close_to_rotation (e : R) (m : mat) : Prop :=
  (forall i j, (i < 3)%nat -> (j < 3)%nat -> Rabs (dot (row m i) (row m j) - if Nat.eqb i j then 1 else 0) <= e) /\
  Rabs (dot (outer (row m 0) (row m 1)) (row m 2) - 1) <= e.

Lemma random_cases : forall perturbation u, uniform_draw u ->
  let p := clamp 0 perturbation 1 in
  exists r i j k, flipped (random_quaternion u) = (r, i, j, k) /\
    r * r + i * i + j * j + k * k = 1 /\ 0 <= r <= 1 /\
    ((Rabs (sin (acos r)) < / 10 ^ 9 /\
      random_rotation_row perturbation u = quaternion_matrix (1 - p + p * r, p * i, p * j, p * k)) \/
     (/ 10 ^ 9 <= Rabs (sin (acos r)) /\
      exists r' i' j' k', slerp p (random_quaternion u) = (r', i', j', k') /\
        random_rotation_row perturbation u = quaternion_matrix (r', i', j', k') /\
        r' * r' + i' * i' + j' * j' + k' * k' = 1 /\ r' = cos (p * acos r))).
Proof.
  intros pert [[u0 u1] u2] (H0 & H1 & H2) p.
  pose proof (random_unit u0 u1 u2 ltac:(lra)) as N.
  unfold random_rotation_row. fold p.
  destruct (random_quaternion (u0, u1, u2)) as [[[r0 i0] j0] k0] eqn:Q.
  pose proof (flipped_facts (r0, i0, j0, k0) N) as F.
  pose proof (slerp_unit p (r0, i0, j0, k0) N) as S.
  rewrite slerp_form in *.
  destruct (flipped (r0, i0, j0, k0)) as [[[r i] j] k] eqn:Fq. destruct F as [F1 F2].
  exists r, i, j, k. split; [reflexivity|]. split; [exact F1|]. split; [exact F2|].
  destruct (Rlt_or_le (Rabs (sin (acos r))) (/ 10 ^ 9)) as [M|M].
  - left. split; [exact M|]. cbv zeta. unfold Rltb. destruct (Rlt_dec (Rabs (sin (acos r))) (/ 10 ^ 9)); [reflexivity | contradiction].
  - right. split; [exact M|]. specialize (S M). cbv zeta in *.
    do 4 eexists. split; [reflexivity|]. split; [reflexivity|]. exact S.
Qed.

Lemma small36 : 4 * (/ 2 * / 10 ^ 18) * / 10 ^ 18 <= / 10 ^ 35.
Proof.
  assert (E : / 10 ^ 36 = / 10 ^ 18 * / 10 ^ 18) by (rewrite <- Rinv_mult, <- pow_add; reflexivity).
  assert (T : / 10 ^ 35 = 10 * / 10 ^ 36).
  { replace (10 ^ 36) with (10 * 10 ^ 35) by reflexivity. rewrite Rinv_mult, <- Rmult_assoc, Rinv_r, Rmult_1_l by lra. reflexivity. }
  rewrite T, E. assert (0 < / 10 ^ 18) by (apply Rinv_0_lt_compat, pow_lt; lra). nra.
Qed.

(** For every outcome of the draws and every perturbation the matrix is a proper rotation, exactly
    unless the drawn rotation is within 1e-9 of the identity, in which case the rows are orthonormal and
    the determinant is one up to 1e-35. *)
Theorem C29_random : forall perturbation u, Forall uniform_draw u ->
  let '(shape, ms) := random_rotation perturbation u in
  length ms = length u /\
  shape = (if Nat.eqb (length u) 1 then [3; 3]%nat else [length u; 3; 3]%nat) /\
  forall n, (n < length u)%nat ->
    let m := nth n ms eye3 in
    close_to_rotation (/ 10 ^ 35) m /\
    (let '(r, _, _, _) := random_quaternion (nth n u (0, 0, 0)) in
     r * r <= 1 - / 10 ^ 18 -> proper_rotation m).
Proof.
  intros pert u HU. unfold random_rotation.
  split; [apply map_length|]. split; [reflexivity|].
  intros n Hn. set (m := nth n (map (random_rotation_row pert) u) eye3).
  assert (U : uniform_draw (nth n u (0, 0, 0))) by (apply (proj1 (Forall_forall _ _) HU), nth_In, Hn).
  assert (E : m = random_rotation_row pert (nth n u (0, 0, 0))) by (apply nth_map_in; exact Hn).
  rewrite E. clear E m.
  destruct (random_cases pert _ U) as (r & i & j & k & F & N & B & C).
  set (p := clamp 0 pert 1) in *. pose proof (clamp_range pert) as Hp. fold p in Hp.
  assert (Proper : forall m, proper_rotation m -> close_to_rotation (/ 10 ^ 35) m).
  { intros m [P1 P2]. assert (0 < / 10 ^ 35) by (apply Rinv_0_lt_compat, pow_lt; lra).
    split; [intros; rewrite P1 by assumption | rewrite P2];
      unfold Rminus; rewrite Rplus_opp_r, Rabs_R0; lra. }
  destruct C as [[M E]|(M & r' & i' & j' & k' & _ & E & N' & _)].
  - rewrite E. split.
    + destruct (slerp_near p r i j k Hp N B M) as (D1 & D2 & _).
      set (q := (1 - p + p * r, p * i, p * j, p * k)) in *.
      pose proof small36 as S36. assert (0 < / 10 ^ 18) by (apply Rinv_0_lt_compat, pow_lt; lra).
      assert (W : p * i * (p * i) + p * j * (p * j) + p * k * (p * k) <= / 10 ^ 18) by nra.
      assert (Key : forall t, Rabs t <= / 10 ^ 18 -> Rabs (4 * defect q * t) <= / 10 ^ 35).
      { intros t Ht. rewrite !Rabs_mult, (Rabs_right 4) by lra. pose proof (Rabs_pos (defect q)). pose proof (Rabs_pos t).
        apply Rle_trans with (4 * (/ 2 * / 10 ^ 18) * / 10 ^ 18); [|exact S36].
        apply Rmult_le_compat; lra. }
      split.
      * intros a b Ha Hb. destruct (quaternion_gram (1 - p + p * r) (p * i) (p * j) (p * k) a b Ha Hb) as (t & T1 & T2).
        fold q in T2. rewrite T2.
        match goal with |- Rabs ?x <= _ => replace x with (4 * defect q * t) by ring end.
        apply Key. lra.
      * pose proof (quaternion_det (1 - p + p * r) (p * i) (p * j) (p * k)) as QD. cbv zeta in QD. fold q in QD. rewrite QD.
        match goal with |- Rabs ?x <= _ => replace x with (- (4 * defect q * (p * i * (p * i) + p * j * (p * j) + p * k * (p * k)))) by ring end.
        rewrite Rabs_Ropp. apply Key. rewrite Rabs_right; [exact W|]. 
        assert (0 <= p * i * (p * i)) by (apply Rle_0_sqr). assert (0 <= p * j * (p * j)) by (apply Rle_0_sqr).
        assert (0 <= p * k * (p * k)) by (apply Rle_0_sqr). lra.
    + destruct (random_quaternion (nth n u (0, 0, 0))) as [[[r0 i0] j0] k0]. intros Hr. exfalso.
      assert (r * r = r0 * r0).
      { unfold flipped in F. destruct (Rltb r0 0); injection F as <- _ _ _; ring. }
      assert (C : cos (acos r) = r) by (apply cos_acos; lra).
      pose proof (sc1 (acos r)) as S. rewrite C in S. set (s := sin (acos r)) in *.
      assert (0 < / 10 ^ 9) by (apply Rinv_0_lt_compat, pow_lt; lra).
      assert (/ 10 ^ 9 * / 10 ^ 9 = / 10 ^ 18) as E9 by (rewrite <- Rinv_mult, <- pow_add; reflexivity).
      assert (s * s < / 10 ^ 18); [|lra]. rewrite <- E9.
      assert (- / 10 ^ 9 < s < / 10 ^ 9) by (unfold Rabs in M; destruct (Rcase_abs s); lra). nra.
  - rewrite E. pose proof (quaternion_proper r' i' j' k' N') as P. split; [apply Proper, P|].
    destruct (random_quaternion (nth n u (0, 0, 0))) as [[[r0 i0] j0] k0]. intros _; exact P.
Qed.
Print Assumptions C29_random.

Example C29_random_case : Forall uniform_draw [(/ 2, / 4, / 8); (0, 0, 0)] /\
  let '(r, _, _, _) := random_quaternion (/ 2, 1 / 4, / 8) in r * r <= 1 - / 10 ^ 18.
Proof.
  split; [repeat constructor; lra|]. unfold random_quaternion; cbv zeta.
  replace (2 * PI * (1 / 4)) with (PI / 2) by field. rewrite sin_PI2.
  replace (sqrt (1 - / 2) * 1 * (sqrt (1 - / 2) * 1)) with (sqrt (1 - / 2) * sqrt (1 - / 2)) by ring.
  rewrite sqrt_sqrt by lra. assert (/ 10 ^ 18 <= / 2); [|lra]. apply Rinv_le_contravar; [lra|].
  assert (1 <= 10 ^ 17) by (apply pow_R1_Rle; lra). replace (10 ^ 18) with (10 * 10 ^ 17) by reflexivity. lra.
Qed.

(** Perturbation zero (or less) always gives the identity. *)
Theorem C29_no_perturbation : forall perturbation u, perturbation <= 0 -> Forall uniform_draw u ->
  snd (random_rotation perturbation u) = repeat eye3 (length u).
Proof.
  intros pert u Hp HU. unfold random_rotation; cbn [snd].
  assert (Z : clamp 0 pert 1 = 0).
  { unfold clamp, Rmin, Rmax. destruct (Rle_dec pert 0), (Rle_dec _ 1); lra. }
  induction HU as [|x u U HU IH]; [reflexivity|]. cbn [map length repeat]. rewrite IH. f_equal.
  destruct (random_cases pert x U) as (r & i & j & k & F & N & B & C). rewrite Z in C.
  assert (I : forall a, a * a = 1 -> quaternion_matrix (a, 0, 0, 0) = eye3).
  { intros a Ha; unfold quaternion_matrix, stack_last, eye3; cbv zeta. apply triple_eq'; apply triple_eq; ring. }
  destruct C as [[M E]|(M & r' & i' & j' & k' & S & E & N' & R')].
  - rewrite E, !Rmult_0_l. apply I. ring.
  - rewrite E. rewrite slerp_form, F in S. cbv zeta in S. rewrite !Rmult_0_l, sin_0 in S. unfold Rdiv in S. rewrite Rmult_0_l in S.
    unfold Rltb in S. destruct (Rlt_dec (Rabs (sin (acos r))) (/ 10 ^ 9)); [lra|]. rewrite !Rmult_0_l in S.
    injection S as _ <- <- <-. apply I. lra.
Qed.
Print Assumptions C29_no_perturbation.
Example C29_no_perturbation_case : snd (random_rotation 0 [(/ 2, / 4, / 8)]) = [eye3].
Proof. apply (C29_no_perturbation 0 [(/ 2, / 4, / 8)]); [lra | repeat constructor; lra]. Qed.

(** The perturbation bounds how far any point of the unit sphere moves: the angle between [v] and its
    image is at most perturbation*pi. *)
Theorem C29_displacement : forall p u, 0 <= p <= 1 -> Forall uniform_draw u ->
  forall m, In m (snd (random_rotation p u)) -> forall v, dot v v = 1 -> cos (p * PI) <= dot v (act v m).
Proof.
  intros p u Hp HU m Hm v Hv. unfold random_rotation in Hm; cbn [snd] in Hm. apply in_map_iff in Hm.
  destruct Hm as (x & <- & Hx). assert (U : uniform_draw x) by (apply (proj1 (Forall_forall _ _) HU), Hx).
  destruct (random_cases p x U) as (r & i & j & k & F & N & B & C). rewrite (clamp_id p Hp) in C.
  destruct C as [[M E]|(M & r' & i' & j' & k' & _ & E & N' & R')]; rewrite E.
  - destruct (slerp_near p r i j k Hp N B M) as (_ & D2 & _).
    assert (L : 1 - 2 * (p * i * (p * i) + p * j * (p * j) + p * k * (p * k)) <=
                dot v (act v (quaternion_matrix (1 - p + p * r, p * i, p * j, p * k)))).
    { set (a := p * i); set (b := p * j); set (c := p * k). destruct v as [[x1 x2] x3].
      unfold quaternion_matrix, stack_last; cbv zeta; cbn [act times plus dot] in *.
      assert (Z : x3 * x3 = 1 - x1 * x1 - x2 * x2) by lra.
      pose proof (Rle_0_sqr (a * x1 + b * x2 + c * x3)) as Q; unfold Rsqr in Q.
      match goal with |- _ <= ?y => replace y with (1 - 2 * (a * a + b * b + c * c) + 2 * ((a * x1 + b * x2 + c * x3) * (a * x1 + b * x2 + c * x3))) by ring [Z] end.
      lra. }
    pose proof (cos_below p Hp) as CB.
    assert (/ 10 ^ 18 <= / 8).
    { apply Rinv_le_contravar; [lra|]. assert (1 <= 10 ^ 17) by (apply pow_R1_Rle; lra). replace (10 ^ 18) with (10 * 10 ^ 17) by reflexivity. lra. }
    assert (0 <= p * p) by nra. nra.
  - pose proof (quaternion_displacement r' i' j' k' v N' Hv) as L.
    apply Rle_trans with (2 * r' * r' - 1); [|exact L].
    rewrite R'. replace (2 * cos (p * acos r) * cos (p * acos r) - 1) with (cos (2 * (p * acos r))) by (rewrite cos_2a_cos; ring).
    assert (A : 0 <= acos r <= PI / 2).
    { split; [apply acos_bound|]. destruct (Rle_or_lt (acos r) (PI / 2)) as [|G]; [assumption|].
      pose proof (acos_bound r) as AB. pose proof (cos_acos r ltac:(lra)) as CA.
      pose proof PI_RGT_0. assert (cos (acos r) < 0) by (apply cos_lt_0; lra). lra. }
    pose proof PI_RGT_0. destruct (Req_dec (2 * (p * acos r)) (p * PI)) as [->|Ne]; [lra|].
    left. apply cos_decreasing_1; nra.
Qed.
Print Assumptions C29_displacement.
Example C29_displacement_case : 0 <= / 2 <= 1 /\ Forall uniform_draw [(/ 2, / 4, / 8)] /\ dot (0, 1, 0) (0, 1, 0) = 1.
Proof. split; [lra|]. split; [repeat constructor; lra|]. cbn [dot]; ring. Qed.
