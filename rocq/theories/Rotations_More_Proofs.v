Require Import List Reals Lra Lia Bool Psatz.
Require Import Verif.Base Verif.Radial_Model Verif.Radial_Proofs Verif.Rotations_Model Verif.Rotations_Spec
  Verif.Rotations_Proofs.
Import ListNotations.
Open Scope R_scope.

(** * The derivative rule of the norm *)
Definition moved (g g_dot : list R) (t : R) : list R := map (fun p => fst p + t * snd p) (combine g g_dot).
Definition inner (g g_dot : list R) : R := sum_of (map (fun p => fst p * snd p) (combine g g_dot)).

Lemma moved_squares : forall g g_dot t, length g = length g_dot ->
  sum_of (map (fun x => x ^ 2) (moved g g_dot t)) =
  sum_of (map (fun x => x ^ 2) g) + t * (2 * inner g g_dot) + t ^ 2 * sum_of (map (fun x => x ^ 2) g_dot).
Proof.
  unfold moved, inner. induction g as [|x g IH]; intros [|y g_dot] t E; cbn [length] in E; try discriminate.
  - cbn. ring.
  - cbn [combine map sum_of fst snd]. rewrite IH by congruence. ring.
Qed.

Lemma quad_deriv : forall a b c, derivable_pt_lim (fun t => a + t * b + t ^ 2 * c) 0 b.
Proof.
  intros a b c eps He. exists (mkposreal (eps / (Rabs c + 1)) (Rdiv_lt_0_compat _ _ He (Rle_lt_0_plus_1 _ (Rabs_pos c)))).
  intros h Hh Hd; cbn [pos] in Hd.
  replace ((a + (0 + h) * b + (0 + h) ^ 2 * c - (a + 0 * b + 0 ^ 2 * c)) / h - b) with (h * c) by (field; exact Hh).
  rewrite Rabs_mult.
  pose proof (Rabs_pos c) as Pc.
  apply Rle_lt_trans with (Rabs h * (Rabs c + 1)); [pose proof (Rabs_pos h); nra|].
  apply (Rmult_lt_compat_r (Rabs c + 1)) in Hd; [|lra].
  replace (eps / (Rabs c + 1) * (Rabs c + 1)) with eps in Hd by (field; lra). exact Hd.
Qed.

Lemma norm_derivative : forall g g_dot, length g = length g_dot -> 0 < length_of g ->
  derivable_pt_lim (fun t => length_of (moved g g_dot t)) 0 (inner g g_dot / length_of g).
Proof.
  intros g gd E P.
  set (a := sum_of (map (fun x => x ^ 2) g)). set (c := sum_of (map (fun x => x ^ 2) gd)).
  assert (A : 0 < a).
  { pose proof (length_of_sq g) as Q. fold a in Q. nra. }
  assert (F : forall t, length_of (moved g gd t) = sqrt (a + t * (2 * inner g gd) + t ^ 2 * c)).
  { intros t; unfold length_of; rewrite moved_squares by assumption; reflexivity. }
  assert (derivable_pt_lim (fun t => sqrt (a + t * (2 * inner g gd) + t ^ 2 * c)) 0 (/ (2 * sqrt a) * (2 * inner g gd))) as D.
  { apply (derivable_pt_lim_comp (fun t => a + t * (2 * inner g gd) + t ^ 2 * c) sqrt).
    - apply quad_deriv.
    - replace (a + 0 * (2 * inner g gd) + 0 ^ 2 * c) with a by ring.
      apply derivable_pt_lim_sqrt; exact A. }
  assert (sqrt a = length_of g) as L by reflexivity. rewrite L in D.
  replace (/ (2 * length_of g) * (2 * inner g gd)) with (inner g gd / length_of g) in D by (field; lra).
  intros eps He. destruct (D eps He) as [d Hd]. exists d. intros h H1 H2. rewrite !F. apply Hd; assumption.
Qed.

Lemma zero_norm_zero : forall g, length_of g = 0 -> forall x, In x g -> x = 0.
Proof.
  intros g E. assert (S : sum_of (map (fun x => x ^ 2) g) = 0).
  { rewrite <- length_of_sq, E; ring. }
  clear E. induction g as [|y g IH]; intros x H; [destruct H|].
  cbn [map sum_of] in S. pose proof (squares_nonneg g) as N.
  assert (Y : 0 <= y ^ 2) by nra.
  destruct H as [<-|H]; [nra|]. apply IH; [lra | exact H].
Qed.

Lemma tangent_form : forall g g_dot n, n <> 0 ->
  sum_list (map (fun p => fst p * snd p / n) (combine g_dot g)) = inner g g_dot / n.
Proof.
  unfold inner, sum_list. induction g as [|x g IH]; intros [|y gd] n Hn; cbn [combine map fold_right sum_of fst snd];
    try (field; assumption).
  rewrite IH by assumption. field; assumption.
Qed.

Definition tangent (g g_dot : list R) : R :=
  inner g g_dot / (if Rltb 0 (length_of g) then length_of g else 1).

Lemma norm_jvp_ok : forall tiny x x_dot, 0 < tiny -> concat x <> [] ->
  norm_jvp tiny x x_dot =
  Ok (map length_of x, map (fun p => tangent (fst p) (snd p)) (combine x x_dot)).
Proof.
  intros tiny x x_dot Ht Hx; unfold norm_jvp; rewrite norm_ok by assumption; cbn [bind].
  f_equal. f_equal. rewrite map_map. clear Hx. revert x_dot.
  induction x as [|g x IH]; intros [|gd xd]; cbn [map combine]; try reflexivity.
  rewrite IH. f_equal. cbn [fst snd]. unfold tangent. rewrite tangent_form; [reflexivity|].
  destruct (Rltb 0 (length_of g)) eqn:B; [|lra].
  unfold Rltb in B. destruct (Rlt_dec 0 (length_of g)); [lra | discriminate].
Qed.

Lemma inner_zero : forall g g_dot, (forall x, In x g -> x = 0) -> inner g g_dot = 0.
Proof.
  unfold inner. induction g as [|x g IH]; intros [|y gd] H; cbn [combine map sum_of fst snd]; try reflexivity.
  rewrite (H x) by (left; reflexivity). rewrite IH; [ring|]. intros z Hz; apply H; right; exact Hz.
Qed.

Lemma sq_nonneg_disc : forall a b c, 0 <= c -> (forall t, 0 <= a + t * (2 * b) + t ^ 2 * c) -> b * b <= a * c.
Proof.
  intros a b c Hc H. destruct (Req_dec c 0) as [Z|Z].
  - subst c. assert (b = 0).
    { destruct (Req_dec b 0) as [|N]; [assumption|]. pose proof (H (- (a + 1) / (2 * b))) as K.
      replace (a + - (a + 1) / (2 * b) * (2 * b) + (- (a + 1) / (2 * b)) ^ 2 * 0) with (-1) in K by (field; assumption).
      lra. }
    subst b; lra.
  - pose proof (H (- b / c)) as K.
    replace (a + - b / c * (2 * b) + (- b / c) ^ 2 * c) with ((a * c - b * b) / c) in K by (field; assumption).
    assert (0 < c) by lra.
    apply (Rmult_le_compat_r c) in K; [|lra].
    replace ((a * c - b * b) / c * c) with (a * c - b * b) in K by (field; assumption). lra.
Qed.

Lemma cauchy : forall g g_dot, length g = length g_dot -> Rabs (inner g g_dot) <= length_of g * length_of g_dot.
Proof.
  intros g gd E.
  assert (inner g gd * inner g gd <= sum_of (map (fun x => x ^ 2) g) * sum_of (map (fun x => x ^ 2) gd)) as Q.
  { apply sq_nonneg_disc; [apply squares_nonneg|]. intros t. rewrite <- moved_squares by assumption.
    apply squares_nonneg. }
  rewrite <- !length_of_sq in Q.
  pose proof (length_of_nonneg g); pose proof (length_of_nonneg gd).
  apply Rsqr_incr_0; [unfold Rsqr | apply Rabs_pos | nra].
  unfold Rabs; destruct (Rcase_abs (inner g gd)); nra.
Qed.

Lemma tangent_bound : forall g g_dot, length g = length g_dot -> Rabs (tangent g g_dot) <= length_of g_dot.
Proof.
  intros g gd E; unfold tangent. destruct (Rltb 0 (length_of g)) eqn:B; unfold Rltb in B;
    destruct (Rlt_dec 0 (length_of g)) as [P|P]; try discriminate.
  - pose proof (cauchy g gd E) as C. unfold Rdiv; rewrite Rabs_mult, (Rabs_right (/ length_of g)).
    + apply (Rmult_le_reg_r (length_of g)); [exact P|]. rewrite Rmult_assoc, Rinv_l by lra. lra.
    + left; apply Rinv_0_lt_compat, P.
  - pose proof (length_of_nonneg g). rewrite inner_zero; [|apply zero_norm_zero; lra].
    unfold Rdiv; rewrite Rmult_0_l, Rabs_R0. apply length_of_nonneg.
Qed.

(** * Alignment *)
Lemma align_form : forall u v p, dot u u = 1 -> dot v v = 1 -> 0 < align_div u v ->
  align_div u v = 1 + dot u v /\
  act p (align_general u v) =
  plus (plus (times (dot u v) p) (outer (outer u v) p)) (times (dot (outer u v) p / (1 + dot u v)) (outer u v)).
Proof.
  intros [[u1 u2] u3] [[v1 v2] v3] [[x y] z] Hu Hv Hd.
  assert (D : align_div (u1, u2, u3) (v1, v2, v3) = 1 + dot (u1, u2, u3) (v1, v2, v3)).
  { unfold align_div, sum_prod, sum_list; cbn [vmap2 vlist fold_right dot]; ring. }
  split; [exact D|].
  unfold align_general. unfold Rltb; destruct (Rlt_dec 0 (align_div (u1, u2, u3) (v1, v2, v3))) as [_|N]; [|contradiction].
  rewrite D in *.
  unfold skew, stack_last. unfold outer at 1 2 3. cbn [dot cross] in *. unfold outer. 
  assert (L : (u2 * v3 - u3 * v2) * (u2 * v3 - u3 * v2) + (u3 * v1 - u1 * v3) * (u3 * v1 - u1 * v3) + (u1 * v2 - u2 * v1) * (u1 * v2 - u2 * v1)
          = 1 - (u1 * v1 + u2 * v2 + u3 * v3) * (u1 * v1 + u2 * v2 + u3 * v3)).
  { assert (U : u3 * u3 = 1 - u1 * u1 - u2 * u2) by lra. assert (V : v3 * v3 = 1 - v1 * v1 - v2 * v2) by lra.
    ring [U V]. }
  set (c := u1 * v1 + u2 * v2 + u3 * v3) in *.
  set (x1 := u2 * v3 - u3 * v2) in *; set (x2 := u3 * v1 - u1 * v3) in *; set (x3 := u1 * v2 - u2 * v1) in *.
  clearbody c x1 x2 x3.
  assert (L' : x3 * x3 = 1 - c * c - x1 * x1 - x2 * x2) by lra.
  unfold madd, mscale, mmul, eye3, act; cbn [vmap2 vscale times plus].
  set (i := / (1 + c)). assert (I : i * c = 1 - i) by (unfold i; field; lra).
  unfold Rdiv; fold i. rewrite Rmult_1_l.
  apply triple_eq; ring [L' I].
Qed.

Lemma align_general_spec : forall u v, dot u u = 1 -> dot v v = 1 -> 0 < 1 + dot u v ->
  proper_rotation (align_general u v) /\ act u (align_general u v) = v /\
  trace3 (align_general u v) = 1 + 2 * dot u v /\
  act (outer u v) (align_general u v) = outer u v.
Proof.
  intros u v Hu Hv Hd.
  assert (Hd' : 0 < align_div u v).
  { destruct u as [[u1 u2] u3], v as [[v1 v2] v3]. unfold align_div, sum_prod, sum_list; cbn [vmap2 vlist fold_right dot] in *; lra. }
  assert (F : forall p, act p (align_general u v) = plus (plus (times (dot u v) p) (outer (outer u v) p)) (times (dot (outer u v) p / (1 + dot u v)) (outer u v))).
  { intros p. apply align_form; assumption. }
  assert (L : dot (outer u v) (outer u v) = 1 - dot u v * dot u v).
  { destruct u as [[u1 u2] u3], v as [[v1 v2] v3]; cbn [dot outer] in *.
    assert (U : u3 * u3 = 1 - u1 * u1 - u2 * u2) by lra. assert (V : v3 * v3 = 1 - v1 * v1 - v2 * v2) by lra.
    ring [U V]. }
  set (c := dot u v) in *. set (i := / (1 + c)).
  assert (I : i * c = 1 - i) by (unfold i; field; lra).
  repeat split.
  - apply proper_intro.
    + intros p q. rewrite !F. clear F. unfold Rdiv; fold i.
      destruct (outer u v) as [[x1 x2] x3], p as [[p1 p2] p3], q as [[q1 q2] q3]; cbn [dot outer times plus] in *.
      assert (L' : x3 * x3 = 1 - c * c - x1 * x1 - x2 * x2) by lra. ring [L' I].
    + rewrite !F. clear F. unfold Rdiv; fold i. unfold e1, e2, e3.
      destruct (outer u v) as [[x1 x2] x3]; cbn [dot outer times plus] in *.
      assert (L' : x3 * x3 = 1 - c * c - x1 * x1 - x2 * x2) by lra. apply triple_eq; ring [L' I].
  - apply proper_intro.
    + intros p q. rewrite !F. clear F. unfold Rdiv; fold i.
      destruct (outer u v) as [[x1 x2] x3], p as [[p1 p2] p3], q as [[q1 q2] q3]; cbn [dot outer times plus] in *.
      assert (L' : x3 * x3 = 1 - c * c - x1 * x1 - x2 * x2) by lra. ring [L' I].
    + rewrite !F. clear F. unfold Rdiv; fold i. unfold e1, e2, e3.
      destruct (outer u v) as [[x1 x2] x3]; cbn [dot outer times plus] in *.
      assert (L' : x3 * x3 = 1 - c * c - x1 * x1 - x2 * x2) by lra. apply triple_eq; ring [L' I].
  - rewrite F. clear F Hd' L I. subst c i. destruct u as [[u1 u2] u3], v as [[v1 v2] v3]; cbn [dot outer times plus] in *.
    assert (U : u3 * u3 = 1 - u1 * u1 - u2 * u2) by lra.
    apply triple_eq; field_simplify; try lra; field_simplify_eq; try lra; ring [U].
  - unfold trace3, entry. destruct (act_rows (align_general u v)) as (-> & -> & ->). rewrite !F. clear F. unfold Rdiv; fold i. unfold e1, e2, e3.
    destruct (outer u v) as [[x1 x2] x3]; cbn [dot outer times plus coord] in *.
      assert (L' : x3 * x3 = 1 - c * c - x1 * x1 - x2 * x2) by lra. ring [L' I].
  - rewrite F. clear F. unfold Rdiv; fold i.
    destruct (outer u v) as [[x1 x2] x3]; cbn [dot outer times plus coord] in *.
      assert (L' : x3 * x3 = 1 - c * c - x1 * x1 - x2 * x2) by lra. apply triple_eq; ring [L' I].
Qed.

Lemma chunks3 : forall vs : list vec, map vof (chunks (length vs) 3 (concat (map vlist vs))) = vs.
Proof.
  induction vs as [|[[x y] z] vs IH]; [reflexivity|].
  cbn [length map concat vlist app chunks firstn skipn]. rewrite IH. reflexivity.
Qed.

Lemma chunks3' : forall f (vs : list vec),
  map vof (chunks (length vs) 3 (concat (map vlist (map f vs)))) = map f vs.
Proof. intros f vs. rewrite <- (map_length f vs). apply chunks3. Qed.

Lemma concat_vlist_map : forall f (vs : list vec),
  map f (concat (map vlist vs)) = concat (map vlist (map (fun v => let '(x, y, z) := v in (f x, f y, f z)) vs)).
Proof.
  intros f; induction vs as [|[[x y] z] vs IH]; [reflexivity|].
  cbn [map concat vlist app]. rewrite IH. reflexivity.
Qed.

(** Sum of the squared lengths of all vectors of a batch. *)
Definition total (vs : list vec) : R := sum_of (map (fun v => dot v v) vs).
Lemma total_concat : forall vs, sum_of (map (fun x => x ^ 2) (concat (map vlist vs))) = total vs.
Proof.
  unfold total; induction vs as [|[[x y] z] vs IH]; [reflexivity|].
  cbn [map concat vlist app sum_of dot]. rewrite IH. ring.
Qed.
Definition all_scale (tiny : R) (vs : list vec) : R := if Rltb tiny (total vs) then / sqrt (total vs) else 1.

Lemma normalize_all_ok : forall tiny vs, 0 < tiny -> vs <> [] ->
  normalize_all tiny vs = Ok (map (times (all_scale tiny vs)) vs).
Proof.
  intros tiny vs Ht Hv; unfold normalize_all. rewrite normalize_ok; [|assumption|].
  2:{ cbn [concat]. rewrite app_nil_r. intros C; apply Hv, concat_vlist_nil, C. }
  cbn [rmap bind map concat]. rewrite app_nil_r. unfold unit_scale. rewrite concat_vlist_map.
  f_equal.
  rewrite chunks3'. apply map_ext. intros [[x y] z]. cbn [times].
  rewrite length_of_sq, total_concat. unfold all_scale.
  replace (length_of (concat (map vlist vs))) with (sqrt (total vs))
    by (unfold length_of; rewrite total_concat; reflexivity).
  destruct (Rltb tiny (total vs)); apply triple_eq; unfold Rdiv; try rewrite Rinv_1; ring.
Qed.

Definition anti_axis (tiny s : R) (u : vec) : vec := cross u (times s (vadd u (roll1 u))).

Definition align_entry (tiny s : R) (u v : vec) : mat :=
  let a := vnorm tiny u in let b := vnorm tiny v in
  if Rltb 0 (align_div a b) then align_general a b
  else rotation_of_normalized (vnorm tiny (anti_axis tiny s a)) PI.

Lemma combine_map_both : forall (A B C D : Type) (f : A -> C) (g : B -> D) l l',
  combine (map f l) (map g l') = map (fun p => (f (fst p), g (snd p))) (combine l l').
Proof. intros A B C D f g; induction l; intros [|b l']; cbn; try reflexivity. rewrite IHl; reflexivity. Qed.

Lemma combine_repeat : forall (A B : Type) (l : list A) (b : B), combine l (repeat b (length l)) = map (fun a => (a, b)) l.
Proof. induction l; intros; cbn; [reflexivity|]. rewrite IHl; reflexivity. Qed.

Lemma combine_map_same : forall (A B C : Type) (f : A -> B) (g : A -> C) l,
  combine (map f l) (map g l) = map (fun a => (f a, g a)) l.
Proof. induction l; cbn; [reflexivity|]. rewrite IHl; reflexivity. Qed.

Definition sums (tiny : R) (u : list vec) : list vec := map (fun x => vadd (vnorm tiny x) (roll1 (vnorm tiny x))) u.

Lemma alignment_ok : forall tiny u v, 0 < tiny -> u <> [] -> length u = length v ->
  alignment_rotation tiny u v =
  Ok (map (fun p => align_entry tiny (all_scale tiny (sums tiny u)) (fst p) (snd p)) (combine u v)).
Proof.
  intros tiny u v Ht Hu Hl. unfold alignment_rotation.
  rewrite normalize_rows_ok by assumption. cbn [bind].
  assert (Hv : v <> []) by (intros ->; apply Hu; destruct u; [reflexivity | discriminate]).
  rewrite normalize_rows_ok by assumption. cbn [bind].
  rewrite map_map. fold (sums tiny u).
  rewrite normalize_all_ok; [|assumption|].
  2:{ intros C; apply map_eq_nil in C; contradiction. }
  cbn [bind]. set (s := all_scale tiny (sums tiny u)).
  assert (combine (map (vnorm tiny) u) (map (times s) (sums tiny u)) =
          map (fun x => (vnorm tiny x, times s (vadd (vnorm tiny x) (roll1 (vnorm tiny x))))) u) as ->.
  { unfold sums. rewrite map_map. apply combine_map_same. }
  rewrite map_map. cbn [fst snd].
  rewrite rotation_ok; [|assumption|].
  2:{ intros C; apply map_eq_nil in C; contradiction. }
  cbn [bind]. f_equal. rewrite map_length.
  assert (combine (map (fun x => cross (vnorm tiny x) (times s (vadd (vnorm tiny x) (roll1 (vnorm tiny x))))) u)
            (repeat PI (length u)) = map (fun x => (anti_axis tiny s (vnorm tiny x), PI)) u) as ->.
  { rewrite <- (map_length (fun x => cross (vnorm tiny x) (times s (vadd (vnorm tiny x) (roll1 (vnorm tiny x))))) u).
    rewrite combine_repeat, map_map. reflexivity. }
  rewrite map_map. cbn [fst snd]. clearbody s. clear Hu Hv.
  revert v Hl; induction u as [|x u IH]; intros [|y v] Hl; cbn [length] in Hl; try discriminate; [reflexivity|].
  cbn [map combine fst snd]. rewrite IH by congruence. reflexivity.
Qed.

(** The antiparallel case. *)
Lemma anti_unit : forall u v, dot u u = 1 -> dot v v = 1 -> 1 + dot u v <= 0 -> v = times (-1) u.
Proof.
  intros [[u1 u2] u3] [[v1 v2] v3] Hu Hv H; cbn [dot times] in *.
  pose proof (Rle_0_sqr (u1 + v1)) ; unfold Rsqr in *. pose proof (Rle_0_sqr (u2 + v2)) ; unfold Rsqr in *.
  pose proof (Rle_0_sqr (u3 + v3)) ; unfold Rsqr in *.
  assert ((u1 + v1) * (u1 + v1) + (u2 + v2) * (u2 + v2) + (u3 + v3) * (u3 + v3) <= 0) by nra.
  assert (forall z, z * z = 0 -> z = 0) as Z by (intros z Hz; destruct (Rmult_integral _ _ Hz); assumption).
  assert (u1 + v1 = 0) by (apply Z; lra). assert (u2 + v2 = 0) by (apply Z; lra). assert (u3 + v3 = 0) by (apply Z; lra).
  apply triple_eq; lra.
Qed.

Lemma anti_axis_facts : forall tiny s u, dot u u = 1 ->
  dot (anti_axis tiny s u) (anti_axis tiny s u) = s * s * (1 - dot u (roll1 u) * dot u (roll1 u)) /\
  dot (anti_axis tiny s u) u = 0.
Proof.
  intros tiny s [[x y] z] H; unfold anti_axis; cbn [dot cross times vadd roll1] in *.
  assert (Z : z * z = 1 - x * x - y * y) by lra. split; ring [Z].
Qed.

Lemma turned_pi_perp : forall k u, dot k u = 0 -> turned k PI u = times (-1) u.
Proof.
  intros [[a b] c] [[x y] z] H; unfold turned; rewrite cos_PI, sin_PI; cbn [dot outer times plus] in *.
  rewrite H. apply triple_eq; ring.
Qed.

Lemma vnorm_unit : forall tiny v, 0 < tiny -> tiny < dot v v -> vnorm tiny v = unit_of v /\ dot (vnorm tiny v) (vnorm tiny v) = 1.
Proof.
  intros tiny v Ht H. assert (vnorm tiny v = unit_of v) as E.
  { unfold vnorm, Rltb. destruct (Rlt_dec tiny (dot v v)); [reflexivity | contradiction]. }
  split; [exact E|]. rewrite E. apply unit_dot; lra.
Qed.

Lemma unit_dot_zero : forall k u, dot k u = 0 -> dot (unit_of k) u = 0.
Proof.
  intros [[a b] c] [[x y] z] H; unfold unit_of; cbn [dot times] in *.
  set (i := / size (a, b, c)). replace (i * a * x + i * b * y + i * c * z) with (i * (a * x + b * y + c * z)) by ring.
  rewrite H; ring.
Qed.

Lemma anti_spec : forall tiny s u, 0 < tiny -> dot u u = 1 -> tiny < dot (anti_axis tiny s u) (anti_axis tiny s u) ->
  proper_rotation (rotation_of_normalized (vnorm tiny (anti_axis tiny s u)) PI) /\
  act u (rotation_of_normalized (vnorm tiny (anti_axis tiny s u)) PI) = times (-1) u /\
  trace3 (rotation_of_normalized (vnorm tiny (anti_axis tiny s u)) PI) = -1.
Proof.
  intros tiny s u Ht Hu Ha. destruct (vnorm_unit _ _ Ht Ha) as [E1 E2]. destruct (anti_axis_facts tiny s u Hu) as [_ P].
  split; [apply rotation_proper; exact E2|]. split.
  - rewrite rotation_turned by exact E2. apply turned_pi_perp. rewrite E1. apply unit_dot_zero, P.
  - rewrite rotation_trace by exact E2. rewrite cos_PI; ring.
Qed.

Lemma total_bound : forall tiny u, 0 < tiny ->
  (forall x, In x u -> tiny < dot x x) -> total (sums tiny u) <= 4 * INR (length u).
Proof.
  intros tiny u Ht; unfold total, sums; induction u as [|x u IH]; intros H.
  - cbn. lra.
  - assert (dot (vnorm tiny x) (vnorm tiny x) = 1) as D by (apply vnorm_unit; [exact Ht | apply H; left; reflexivity]).
    assert (total (sums tiny u) <= 4 * INR (length u)) as T by (apply IH; intros; apply H; right; assumption).
    unfold total, sums in T.
    cbn [length map sum_of]. rewrite S_INR.
    assert (dot (vadd (vnorm tiny x) (roll1 (vnorm tiny x))) (vadd (vnorm tiny x) (roll1 (vnorm tiny x))) <= 4).
    { destruct (vnorm tiny x) as [[a b] c]; cbn [dot vadd roll1] in *.
      pose proof (Rle_0_sqr (a - c)) ; unfold Rsqr in *. pose proof (Rle_0_sqr (b - a)) ; unfold Rsqr in *. pose proof (Rle_0_sqr (c - b)) ; unfold Rsqr in *. nra. }
    lra.
Qed.

Lemma all_scale_bound : forall tiny u, 0 < tiny -> u <> [] ->
  (forall x, In x u -> tiny < dot x x) ->
  1 <= all_scale tiny (sums tiny u) * all_scale tiny (sums tiny u) * (4 * INR (length u)).
Proof.
  intros tiny u Ht Hu H. pose proof (total_bound tiny u Ht H) as B.
  assert (1 <= INR (length u)) as N.
  { destruct u; [congruence|]. cbn [length]. rewrite S_INR. pose proof (pos_INR (length u)). lra. }
  unfold all_scale, Rltb. destruct (Rlt_dec tiny (total (sums tiny u))) as [P|P].
  - set (t := total (sums tiny u)) in *.
    assert (sqrt t * sqrt t = t) as S by (apply sqrt_sqrt; lra).
    assert (0 < sqrt t) by (apply sqrt_lt_R0; lra).
    replace (/ sqrt t * / sqrt t) with (/ t) by (rewrite <- Rinv_mult, S; reflexivity).
    apply (Rmult_le_reg_l t); [lra|]. rewrite <- Rmult_assoc, Rinv_r by lra. lra.
  - lra.
Qed.
