Require Import List Reals Lra Lia Bool Psatz.
Require Import Verif.Base Verif.Radial_Model Verif.Radial_Proofs Verif.Rotations_Model Verif.Rotations_Spec.
Import ListNotations.
Open Scope R_scope.

Lemma triple_eq : forall a b c x y z : R, a = x -> b = y -> c = z -> (a, b, c) = (x, y, z).
Proof. intros; subst; reflexivity. Qed.
Lemma triple_eq' : forall a b c x y z : vec, a = x -> b = y -> c = z -> (a, b, c) = (x, y, z).
Proof. intros; subst; reflexivity. Qed.

(** * Norms *)
Lemma sum_of_nonneg : forall l, (forall x, In x l -> 0 <= x) -> 0 <= sum_of l.
Proof.
  induction l as [|x l IH]; intros H; cbn [sum_of]; [lra|].
  assert (0 <= x) by (apply H; left; reflexivity).
  assert (0 <= sum_of l) by (apply IH; intros; apply H; right; assumption). lra.
Qed.
Lemma squares_nonneg : forall l, 0 <= sum_of (map (fun x => x ^ 2) l).
Proof.
  intros; apply sum_of_nonneg; intros x H; apply in_map_iff in H; destruct H as (y & <- & _).
  nra.
Qed.
Lemma length_of_nonneg : forall l, 0 <= length_of l.
Proof. intros; apply sqrt_pos. Qed.
Lemma length_of_sq : forall l, length_of l * length_of l = sum_of (map (fun x => x ^ 2) l).
Proof. intros; unfold length_of; apply sqrt_sqrt, squares_nonneg. Qed.

Lemma sum_squares_scaled : forall a l, a <> 0 ->
  sum_squares (map (fun v => v / a) l) = sum_of (map (fun x => x ^ 2) l) / (a * a).
Proof.
  intros a l Ha; induction l as [|x l IH]; unfold sum_squares, sum_list in *; cbn [map fold_right sum_of].
  - field; assumption.
  - rewrite IH. field; assumption.
Qed.

Lemma norm_scaled : forall a l, 0 < a ->
  a * sqrt (sum_squares (map (fun v => v / a) l)) = length_of l.
Proof.
  intros a l Ha; rewrite sum_squares_scaled by lra.
  unfold length_of; rewrite sqrt_div_alt by nra.
  rewrite sqrt_square by lra. field; lra.
Qed.

Lemma norm_ok : forall tiny x, 0 < tiny -> concat x <> [] -> norm tiny x = Ok (map length_of x).
Proof.
  intros tiny x Ht Hx; unfold norm. destruct (concat x) as [|y ys] eqn:E; [congruence|].
  f_equal. apply map_ext; intros g. apply norm_scaled.
  eapply Rlt_le_trans; [exact Ht | apply Rmax_r].
Qed.

Lemma norm_empty : forall tiny x, concat x = [] -> norm tiny x = Err ValueError.
Proof. intros tiny x E; unfold norm; rewrite E; reflexivity. Qed.

Definition unit_scale (tiny : R) (g : list R) : list R :=
  map (fun v => v / (if Rltb tiny (length_of g * length_of g) then length_of g else 1)) g.

Lemma normalize_nr_ok : forall tiny x, 0 < tiny -> concat x <> [] ->
  normalize_and_return_norm tiny x = Ok (map (unit_scale tiny) x, map length_of x).
Proof.
  intros tiny x Ht Hx; unfold normalize_and_return_norm; rewrite norm_ok by assumption; cbn [bind].
  f_equal. f_equal. clear Hx. induction x as [|g x IH]; [reflexivity|]. cbn [map combine fst snd]. rewrite IH.
  reflexivity.
Qed.
Lemma normalize_ok : forall tiny x, 0 < tiny -> concat x <> [] ->
  normalize tiny x = Ok (map (unit_scale tiny) x).
Proof. intros; unfold normalize; rewrite normalize_nr_ok by assumption; reflexivity. Qed.

Lemma sum_of_div : forall l n, n <> 0 ->
  sum_of (map (fun x => x ^ 2) (map (fun v => v / n) l)) = sum_of (map (fun x => x ^ 2) l) / (n * n).
Proof.
  intros l n Hn; induction l as [|x l IH]; cbn [map sum_of]; [field; assumption|].
  rewrite IH; field; assumption.
Qed.
Lemma length_of_div : forall l n, 0 < n -> length_of (map (fun v => v / n) l) = length_of l / n.
Proof.
  intros l n Hn; unfold length_of; rewrite sum_of_div by lra.
  rewrite sqrt_div_alt by nra. rewrite sqrt_square by lra. reflexivity.
Qed.

(** * Vectors *)
Definition vnorm (tiny : R) (v : vec) : vec :=
  if Rltb tiny (dot v v) then unit_of v else v.

Lemma size_sq : forall v, size v * size v = dot v v.
Proof.
  intros [[x y] z]; unfold size; apply sqrt_sqrt; cbn [dot]; nra.
Qed.
Lemma dot_nonneg : forall v, 0 <= dot v v.
Proof. intros [[x y] z]; cbn [dot]; nra. Qed.
Lemma size_pos : forall v, 0 < dot v v -> 0 < size v.
Proof. intros; apply sqrt_lt_R0; assumption. Qed.

Lemma unit_dot : forall v, 0 < dot v v -> dot (unit_of v) (unit_of v) = 1.
Proof.
  intros v H; pose proof (size_pos v H) as S. pose proof (size_sq v) as Q.
  unfold unit_of; destruct v as [[x y] z]; cbn [times dot] in *.
  transitivity ((x * x + y * y + z * z) / (size (x, y, z) * size (x, y, z))); [field; lra|].
  rewrite Q; field; lra.
Qed.

Lemma length_vlist : forall v, length_of (vlist v) = size v.
Proof.
  intros [[x y] z]; unfold length_of, size; cbn [vlist map sum_of dot]; f_equal; ring.
Qed.

Lemma unit_scale_vlist : forall tiny v, 0 < tiny -> vof (unit_scale tiny (vlist v)) = vnorm tiny v.
Proof.
  intros tiny v Ht; unfold unit_scale, vnorm; rewrite length_vlist, size_sq.
  destruct (Rltb tiny (dot v v)) eqn:E; destruct v as [[x y] z]; unfold vof, unit_of;
    cbn [vlist map nth times].
  - apply triple_eq; unfold Rdiv; ring.
  - apply triple_eq; field.
Qed.

Lemma concat_vlist_nil : forall vs, concat (map vlist vs) = [] -> vs = [].
Proof. intros [|[[x y] z] vs]; [reflexivity | discriminate]. Qed.

Lemma normalize_rows_ok : forall tiny vs, 0 < tiny -> vs <> [] ->
  normalize_rows tiny vs = Ok (map (vnorm tiny) vs).
Proof.
  intros tiny vs Ht Hv; unfold normalize_rows. rewrite normalize_ok; [|assumption|].
  - cbn [rmap bind]. f_equal. rewrite !map_map. apply map_ext; intros v. apply unit_scale_vlist; assumption.
  - intros C; apply Hv, concat_vlist_nil, C.
Qed.

(** * Rotation about an axis *)
Lemma half_angle : forall t, cos t = cos (0.5 * t) * cos (0.5 * t) - sin (0.5 * t) * sin (0.5 * t) /\
  sin t = 2 * sin (0.5 * t) * cos (0.5 * t).
Proof.
  intros t; rewrite <- sin_2a, <- cos_2a. replace (2 * (0.5 * t)) with t by lra. split; reflexivity.
Qed.
Lemma sc1 : forall t, sin t * sin t + cos t * cos t = 1.
Proof. intros t; pose proof (sin2_cos2 t) as H; unfold Rsqr in H; exact H. Qed.

Lemma rotation_turned : forall k t v, dot k k = 1 ->
  act v (rotation_of_normalized k t) = turned k t v.
Proof.
  intros [[k1 k2] k3] t [[x y] z] Hk; cbn [dot] in Hk.
  destruct (half_angle t) as [Hc Hs]. pose proof (sc1 (0.5 * t)) as H1.
  unfold turned. rewrite Hc, Hs.
  unfold rotation_of_normalized. cbv zeta.
  set (c := cos (0.5 * t)) in *; set (s := sin (0.5 * t)) in *.
  unfold stack_last, act; cbn [times plus outer dot].
  assert (C2 : c * c = 1 - s * s) by lra.
  assert (K3 : k3 * k3 = 1 - k1 * k1 - k2 * k2) by lra.
  apply triple_eq; ring [C2 K3].
Qed.

Lemma turned_id0 : forall k v, turned k 0 v = v.
Proof.
  intros [[a b] c] [[x y] z]; unfold turned; rewrite cos_0, sin_0; cbn [times plus outer dot].
  apply triple_eq; ring.
Qed.

Lemma turned_axis : forall k t, dot k k = 1 -> turned k t k = k.
Proof.
  intros [[a b] c] t H; unfold turned; cbn [times plus outer dot] in *.
  assert (C : c * c = 1 - a * a - b * b) by lra.
  apply triple_eq; ring [C].
Qed.

Lemma turned_comp : forall k s t v, dot k k = 1 -> turned k t (turned k s v) = turned k (s + t) v.
Proof.
  intros [[a b] c] s t [[x y] z] H; unfold turned; rewrite cos_plus, sin_plus; cbn [times plus outer dot] in *.
  assert (C : c * c = 1 - a * a - b * b) by lra.
  set (cs := cos s); set (ss := sin s); set (ct := cos t); set (st := sin t).
  apply triple_eq; ring [C].
Qed.

Lemma act_rows : forall m, row m 0 = act e1 m /\ row m 1 = act e2 m /\ row m 2 = act e3 m.
Proof.
  intros [[[[a b] c] [[d e] f]] [[g h] i]]; unfold e1, e2, e3; cbn [row act times plus].
  repeat split; apply triple_eq; ring.
Qed.

Lemma turned_dot : forall k t u v, dot k k = 1 -> dot (turned k t u) (turned k t v) = dot u v.
Proof.
  intros [[a b] c] t [[x y] z] [[u v] w] H; unfold turned; cbn [times plus outer dot] in *.
  pose proof (sc1 t) as S. set (ct := cos t) in *; set (st := sin t) in *.
  assert (C : c * c = 1 - a * a - b * b) by lra.
  assert (T : ct * ct = 1 - st * st) by lra.
  ring [C T].
Qed.
Lemma turned_outer : forall k t u v, dot k k = 1 ->
  outer (turned k t u) (turned k t v) = turned k t (outer u v).
Proof.
  intros [[a b] c] t [[x y] z] [[u v] w] H; unfold turned; cbn [times plus outer dot] in *.
  pose proof (sc1 t) as S. set (ct := cos t) in *; set (st := sin t) in *.
  assert (C : c * c = 1 - a * a - b * b) by lra.
  assert (T : ct * ct = 1 - st * st) by lra.
  apply triple_eq; ring [C T].
Qed.

Lemma proper_intro : forall m,
  (forall u v, dot (act u m) (act v m) = dot u v) ->
  outer (act e1 m) (act e2 m) = act e3 m -> proper_rotation m.
Proof.
  intros m D O. destruct (act_rows m) as (R0 & R1 & R2). split.
  - intros i j Hi Hj.
    assert (forall i, (i < 3)%nat -> row m i = act (match i with O => e1 | 1%nat => e2 | _ => e3 end) m).
    { intros [|[|[|n]]] Hn; [exact R0 | exact R1 | exact R2 | lia]. }
    rewrite !H, D by assumption.
    destruct i as [|[|[|i]]], j as [|[|[|j]]]; try lia; unfold e1, e2, e3; cbn [dot Nat.eqb]; ring.
  - rewrite R0, R1, R2, O, D. unfold e3; cbn [dot]; ring.
Qed.

Lemma rotation_proper : forall k t, dot k k = 1 -> proper_rotation (rotation_of_normalized k t).
Proof.
  intros k t H; apply proper_intro.
  - intros; rewrite !rotation_turned, turned_dot by assumption; reflexivity.
  - rewrite !rotation_turned, turned_outer by assumption. f_equal.
    unfold e1, e2, e3; cbn [outer]; apply triple_eq; ring.
Qed.

Lemma rotation_trace : forall k t, dot k k = 1 -> trace3 (rotation_of_normalized k t) = 1 + 2 * cos t.
Proof.
  intros [[k1 k2] k3] t H; unfold trace3, entry.
  destruct (half_angle t) as [Hc Hs]. pose proof (sc1 (0.5 * t)) as H1. rewrite Hc.
  unfold rotation_of_normalized. cbv zeta.
  set (c := cos (0.5 * t)) in *; set (s := sin (0.5 * t)) in *.
  unfold stack_last; cbn [row coord dot] in *.
  assert (C2 : c * c = 1 - s * s) by lra.
  assert (K3 : k3 * k3 = 1 - k1 * k1 - k2 * k2) by lra.
  ring [C2 K3].
Qed.

Lemma rotation_ok : forall tiny axis angle, 0 < tiny -> axis <> [] ->
  rotation tiny axis angle =
  Ok (map (fun p => rotation_of_normalized (vnorm tiny (fst p)) (snd p)) (combine axis angle)).
Proof.
  intros tiny axis angle Ht Ha; unfold rotation; rewrite normalize_rows_ok by assumption; cbn [bind].
  f_equal. clear Ha. revert angle; induction axis as [|k axis IH]; intros [|t angle]; cbn [map combine]; try reflexivity.
  rewrite IH; reflexivity.
Qed.

Lemma mat_ext : forall m m', (forall v, act v m = act v m') -> m = m'.
Proof.
  intros m m' H. destruct (act_rows m) as (A & B & C), (act_rows m') as (A' & B' & C').
  destruct m as [[r1 r2] r3], m' as [[r1' r2'] r3']. cbn [row] in *.
  apply triple_eq'; congruence.
Qed.

Lemma act_mmul : forall v a b, act v (mmul a b) = act (act v a) b.
Proof.
  intros [[x y] z] [[[[a1 a2] a3] [[a4 a5] a6]] [[a7 a8] a9]] [[[[b1 b2] b3] [[b4 b5] b6]] [[b7 b8] b9]].
  cbn [mmul act times plus]. apply triple_eq; ring.
Qed.
