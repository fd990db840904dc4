(** Consequences for the arrays returned by the functions of irreps.py and wigner_d. *)
Require Import String List Reals ZArith Bool Lia Lra Permutation ZifyNat FinFun FunctionalExtensionality.
Require Import Verif.Base Verif.RSum Verif.Common_Model Verif.Common_Spec Verif.Common_Proofs Verif.Common_Enum_Proofs Verif.Common_Props
  Verif.LUT_Model Verif.LUT_Spec Verif.LUT_Props Verif.Symbolic_Model
  Verif.Rotations_Model Verif.Rotations_Spec Verif.Rotations_Euler_Proofs Verif.Poly_Proofs Verif.PolyDiff_Proofs Verif.Harmonics_Basis_Proofs
  Verif.PolyCalc_Proofs Verif.Symbolic_Proofs Verif.Irreps_Model Verif.Irreps_Spec Verif.Irreps_Proofs Verif.Irreps_Wigner_Proofs.
Import ListNotations.
Open Scope R_scope.
Open Scope list_scope.
Local Notation key3 := Symbolic_Model.key3.
Local Notation row := Rotations_Spec.row.

(** * Inversion of the calls *)

Lemma const_racah : forall l, const_of "racah" l = 1. Proof. reflexivity. Qed.
Lemma racah_known : known_normalization "racah". Proof. now left. Qed.

Lemma table_negative : forall w L s o, sh_ready w -> call_ok s o -> (L < 0)%Z -> spherical_harmonics_table w L s o = (w, Err ValueError).
Proof. intros w L s o _ _ H. unfold spherical_harmonics_table, sh_generate, generate, check_degree. destruct (L <? 0)%Z eqn:E; [reflexivity|lia]. Qed.

Lemma spherical_negative : forall empty tiny w s o dim rs L nrm c norm, (L < 0)%Z ->
  spherical_harmonics empty tiny w s o dim rs L nrm c norm = (w, Err ValueError).
Proof.
  intros empty tiny w s o dim rs L nrm c norm H. unfold spherical_harmonics. destruct (dim =? 3)%nat; [|reflexivity]. cbn [negb].
  unfold check_degree. destruct (L <? 0)%Z eqn:E; [reflexivity|lia].
Qed.

Lemma spherical_unknown : forall empty tiny w s o rs L nrm c norm, sh_ready w -> call_ok s o -> (0 <= L)%Z -> ~ known_normalization norm ->
  snd (spherical_harmonics empty tiny w s o 3 rs L nrm c norm) = Err ValueError.
Proof.
  intros empty tiny w s o rs L nrm c norm Hw Hc HL Hn. unfold spherical_harmonics. cbn [Nat.eqb negb].
  unfold check_degree at 1. destruct (L <? 0)%Z eqn:E0; [lia|]. cbv beta iota.
  destruct (sh_table_value w L s o Hw Hc HL) as [t [Et _]]. destruct (spherical_harmonics_table w L s o) as [w' r]. cbn [snd] in *. subst r. cbn [bind].
  now rewrite normalize_columns_unknown.
Qed.

Lemma known_dec : forall norm, known_normalization norm \/ ~ known_normalization norm.
Proof. intros norm. destruct (in_dec string_dec norm ["racah"; "schmidt"; "4pi"; "orthonormal"]%string); [left|right]; assumption. Qed.

Lemma spherical_inv : forall tiny rs L nrm c norm ys, 0 < tiny -> spherical_returns tiny rs L nrm c norm ys ->
  (0 <= L)%Z /\ known_normalization norm /\ Forall2 (fun v => row_of (Z.to_nat L) c norm (if nrm then v else direction tiny v)) rs ys.
Proof.
  intros tiny rs L nrm c norm ys Ht [empty [w [s [o [Hw [Hc E]]]]]].
  destruct (Z_lt_le_dec L 0) as [H|H]; [rewrite spherical_negative in E by exact H; discriminate|]. split; [exact H|].
  destruct (known_dec norm) as [Hn|Hn]; [|rewrite spherical_unknown in E by assumption; discriminate]. split; [exact Hn|].
  destruct rs as [|r rs].
  - destruct nrm.
    + destruct (spherical_ok empty tiny w s o [] L true c norm Hw Hc H Hn (or_introl eq_refl)) as [ys' [E' F]]. rewrite E in E'. injection E' as <-. exact F.
    + exfalso. revert E. unfold spherical_harmonics. cbn [Nat.eqb negb]. unfold check_degree at 1. destruct (L <? 0)%Z eqn:E0; [lia|]. cbv beta iota.
      destruct (sh_table_value w L s o Hw Hc H) as [t [Et _]]. destruct (spherical_harmonics_table w L s o) as [w' q]. cbn [snd] in *. subst q. cbn [bind].
      destruct (normalize_columns_ok norm (Z.to_nat L) (sh_cm R t) Hn) as [cm' [E1 _]]. rewrite E1. cbn [bind map]. discriminate.
  - assert (Hne : r :: rs <> []) by congruence.
    destruct (spherical_ok empty tiny w s o (r :: rs) L nrm c norm Hw Hc H Hn (or_intror (conj Ht Hne))) as [ys' [E' F]].
    rewrite E in E'. injection E' as <-. exact F.
Qed.

Lemma solid_inv : forall rs L c ys, solid_returns rs L c ys -> (0 <= L)%Z /\ Forall2 (row_of (Z.to_nat L) c "racah") rs ys.
Proof.
  intros rs L c ys [empty [tiny [w [s [o [Hw [Hc E]]]]]]]. unfold solid_harmonics in E.
  destruct (Z_lt_le_dec L 0) as [H|H]; [rewrite spherical_negative in E by exact H; discriminate|]. split; [exact H|].
  destruct (spherical_ok empty tiny w s o rs L true c "racah" Hw Hc H racah_known (or_introl eq_refl)) as [ys' [E' F]]. rewrite E in E'. injection E' as <-. exact F.
Qed.

Lemma wigner_negative : forall empty w s o dims ms L c, (L < 0)%Z -> wigner_d empty w s o dims ms L c = (w, Err ValueError).
Proof.
  intros empty w s o dims ms L c H. unfold wigner_d. destruct (fst dims =? 3)%nat; [|reflexivity]. destruct (snd dims =? 3)%nat; [|reflexivity]. cbn [negb andb].
  unfold wigner_d_table, wd_generate, generate, check_degree. destruct (L <? 0)%Z eqn:E; [reflexivity|lia].
Qed.

Lemma wigner_inv : forall ms L c ds, wigner_returns ms L c ds -> (0 <= L)%Z /\ Forall2 (matrix_of (Z.to_nat L) c) ms ds.
Proof.
  intros ms L c ds [empty [w [s [o [Hw [Hc E]]]]]].
  destruct (Z_lt_le_dec L 0) as [H|H]; [rewrite wigner_negative in E by exact H; discriminate|]. split; [exact H|].
  destruct (wigner_ok empty w s o ms L c Hw Hc H) as [ds' [E' F]]. rewrite E in E'. injection E' as <-. exact F.
Qed.

Lemma Forall2_get : forall A B (P : A -> B -> Prop) l l' d b a, Forall2 P l l' -> nth_error l b = Some a -> P a (nth b l' d) /\ (b < length l')%nat.
Proof.
  intros A B P l l' d b a H. revert b. induction H as [|x y l l' Hxy H IH]; intros b E; [destruct b; discriminate|].
  destruct b as [|b]; [injection E as <-; cbn; split; [exact Hxy|lia]|]. cbn in E. destruct (IH b E). cbn. split; [assumption|lia].
Qed.

Lemma row_of_unique : forall L c norm v y y', row_of L c norm v y -> row_of L c norm v y' -> y = y'.
Proof.
  intros L c norm v y y' [H1 H2] [H1' H2']. apply (nth_ext _ _ 0 0); [congruence|]. intros n Hn. rewrite H1 in Hn.
  destruct (block_decomp n) as [l [k [-> [Hk _]]]]. assert (l <= L)%nat by nia. now rewrite H2, H2'.
Qed.

Lemma Forall2_unique : forall A B (P : A -> B -> Prop), (forall a b b', P a b -> P a b' -> b = b') -> forall l l1 l2, Forall2 P l l1 -> Forall2 P l l2 -> l1 = l2.
Proof. intros A B P U l l1 l2 H. revert l2. induction H as [|a b l l1 Hab H IH]; intros l2 H2; inversion H2; subst; [reflexivity|]. f_equal; eauto. Qed.

Lemma matrix_of_unique : forall L c m d d', matrix_of L c m d -> matrix_of L c m d' -> d = d'.
Proof.
  intros L c m d d' [H1 [H2 H3]] [H1' [H2' H3']]. apply (nth_ext _ _ [] []); [congruence|]. intros p Hp.
  assert (Hr : length (nth p d []) = ((L + 1) * (L + 1))%nat) by (apply H2, nth_In; exact Hp).
  assert (Hr' : length (nth p d' []) = ((L + 1) * (L + 1))%nat) by (apply H2', nth_In; congruence).
  apply (nth_ext _ _ 0 0); [congruence|]. intros q Hq. rewrite Hr in Hq. rewrite H1 in Hp.
  destruct (block_decomp p) as [l [i [-> [Hi _]]]]. destruct (block_decomp q) as [l' [j [-> [Hj _]]]].
  assert (l <= L)%nat by nia. assert (l' <= L)%nat by nia. specialize (H3 l l' i j). specialize (H3' l l' i j). unfold at2 in *. rewrite H3, H3' by assumption. reflexivity.
Qed.

(** * Orders *)

Lemma rsum_list_perm : forall a b, Permutation a b -> rsum_list a = rsum_list b.
Proof. intros a b H. induction H; unfold rsum_list in *; simpl; try lra. Qed.

Lemma rsum_reindex : forall n s f, (forall i, (i < n)%nat -> (s i < n)%nat) -> (forall i j, (i < n)%nat -> (j < n)%nat -> s i = s j -> i = j) ->
  rsum n (fun i => f (s i)) = rsum n f.
Proof.
  intros n s f H1 H2. rewrite !rsum_as_list. rewrite <- (map_map s f). apply rsum_list_perm, Permutation_map.
  apply NoDup_Permutation_bis; [|rewrite map_length, !seq_length; lia|].
  - assert (G : forall l, (forall i, In i l -> (i < n)%nat) -> NoDup l -> NoDup (map s l)).
    { induction l as [|a l IH]; intros Hl ND; [constructor|]. inversion ND; subst. cbn. constructor.
      - intros HI. apply in_map_iff in HI as [b [E Hb]]. apply H2 in E; [subst; contradiction| |]; apply Hl; [now right|now left].
      - apply IH; [intros; apply Hl; now right|assumption]. }
    apply G; [intros i Hi; apply in_seq in Hi; lia|apply seq_NoDup].
  - intros x Hx. apply in_map_iff in Hx as [i [<- Hi]]. apply in_seq in Hi. apply in_seq. specialize (H1 i). lia.
Qed.

Lemma pos_inj : forall c l i j, (i < 2 * l + 1)%nat -> (j < 2 * l + 1)%nat -> pos c l i = pos c l j -> i = j.
Proof. intros [] l i j Hi Hj H; [|exact H]. cbn in H. revert H. apply cart_index_inj; assumption. Qed.

Lemma rsum_pos : forall c l f, rsum (2 * l + 1) (fun k => f (pos c l k)) = rsum (2 * l + 1) f.
Proof. intros c l f. apply rsum_reindex; [intros; now apply pos_lt|intros; eapply pos_inj; eauto]. Qed.

Lemma kron_eqb : forall i j, kron i j = if Nat.eqb i j then 1 else 0.
Proof. intros i j. unfold kron. destruct (Nat.eq_dec i j) as [->|N]; [now rewrite Nat.eqb_refl|]. apply Nat.eqb_neq in N. now rewrite N. Qed.

Lemma kron_pos : forall c l i j, (i < 2 * l + 1)%nat -> (j < 2 * l + 1)%nat -> kron (pos c l i) (pos c l j) = kron i j.
Proof.
  intros c l i j Hi Hj. unfold kron. destruct (Nat.eq_dec i j) as [->|N]; [destruct (Nat.eq_dec _ _); congruence|].
  destruct (Nat.eq_dec (pos c l i) (pos c l j)) as [E|]; [|reflexivity]. exfalso. apply N. eapply pos_inj; eauto.
Qed.

(** * Matrices *)

Lemma orthogonal_rows : forall m, orthogonal m -> orthonormal_rows (entry m) /\ orthonormal_rows (mtrans (entry m)).
Proof.
  intros m H. split; intros i j Hi Hj; destruct (H i j Hi Hj) as [H1 H2]; rewrite kron_eqb.
  - rewrite <- H1. unfold entry. destruct (row m i) as [[a b] c], (row m j) as [[a' b'] c']. reflexivity.
  - exact H2.
Qed.

Lemma rotation_orthogonal : forall m, proper_rotation m -> orthogonal m.
Proof.
  intros m H i j Hi Hj. pose proof (proper_transpose m H) as [T _]. specialize (T i j Hi Hj). split; [now apply H|]. rewrite <- T.
  destruct m as [[[[a b] c] [[d e] f]] [[g h] k]]. destruct i as [|[|[|]]]; [| | |lia]; (destruct j as [|[|[|]]]; [| | |lia]); cbn; ring.
Qed.

Lemma act_mapply : forall r m, act r m = mapply (mtrans (entry m)) r.
Proof. intros [[x y] z] [[[[a b] c] [[d e] f]] [[g h] k]]. unfold mtrans. cbn. f_equal; [f_equal|]; ring. Qed.

Lemma dot_act : forall r m, orthogonal m -> dot (act r m) (act r m) = dot r r.
Proof.
  intros [[x y] z] m H. pose proof (fun i j Hi Hj => proj1 (H i j Hi Hj)) as G.
  pose proof (G 0 0 ltac:(lia) ltac:(lia))%nat as G00. pose proof (G 0 1 ltac:(lia) ltac:(lia))%nat as G01. pose proof (G 0 2 ltac:(lia) ltac:(lia))%nat as G02.
  pose proof (G 1 1 ltac:(lia) ltac:(lia))%nat as G11. pose proof (G 1 2 ltac:(lia) ltac:(lia))%nat as G12. pose proof (G 2 2 ltac:(lia) ltac:(lia))%nat as G22.
  destruct m as [[[[a b] c] [[d e] f]] [[g h] k]]. cbn in *.
  transitivity (x * x * (a * a + b * b + c * c) + y * y * (d * d + e * e + f * f) + z * z * (g * g + h * h + k * k)
    + 2 * x * y * (a * d + b * e + c * f) + 2 * x * z * (a * g + b * h + c * k) + 2 * y * z * (d * g + e * h + f * k)); [ring|].
  rewrite G00, G01, G02, G11, G12, G22. ring.
Qed.

Lemma length_vlist : forall v, length_of (vlist v) = sqrt (dot v v).
Proof. intros [[x y] z]. unfold length_of. cbn. f_equal. ring. Qed.
Lemma dot_nonneg : forall v, 0 <= dot v v.
Proof. intros [[x y] z]. cbn. nra. Qed.
Lemma length_vlist_sq : forall v, length_of (vlist v) ^ 2 = dot v v.
Proof. intros v. rewrite length_vlist. rewrite <- Rsqr_pow2. apply Rsqr_sqrt, dot_nonneg. Qed.

Lemma direction_def : forall tiny v, direction tiny v = if Rlt_dec tiny (dot v v) then times (/ sqrt (dot v v)) v else v.
Proof.
  intros tiny v. unfold direction. rewrite length_vlist_sq. destruct (Rlt_dec tiny (dot v v)); [|reflexivity].
  rewrite length_vlist. destruct v as [[x y] z]. unfold vof. cbn [vlist map nth times]. unfold Rdiv. f_equal; [f_equal|]; ring.
Qed.

Lemma times_act : forall t r m, times t (act r m) = act (times t r) m.
Proof. intros t [[x y] z] [[[[a b] c] [[d e] f]] [[g h] k]]. cbn. f_equal; [f_equal|]; ring. Qed.

Lemma direction_act : forall tiny r m, orthogonal m -> direction tiny (act r m) = act (direction tiny r) m.
Proof. intros tiny r m H. rewrite !direction_def, dot_act by exact H. destruct (Rlt_dec tiny (dot r r)); [apply times_act|reflexivity]. Qed.

Lemma peval_times : forall l i t v, (i < 2 * l + 1)%nat -> peval (Yi l i) (times t v) = t ^ l * peval (Yi l i) v.
Proof. intros l i t [[x y] z] H. cbn [times]. apply peval_homogeneous. apply homogeneous_Y. now apply order_bound. Qed.

(** Y(r @ m) = Y(r) @ D(m) inside one block. *)
Lemma Y_act : forall l j r m, orthogonal m -> (j < 2 * l + 1)%nat ->
  peval (Yi l j) (act r m) = rsum (2 * l + 1) (fun k => peval (Yi l k) r * dmat (entry m) l k j).
Proof.
  intros l j r m H Hj. destruct (orthogonal_rows m H) as [H1 H2]. rewrite act_mapply, Y_rotate by assumption.
  apply rsum_ext. intros k _. rewrite dmat_trans by assumption. ring.
Qed.

(** * Whole rows and matrices *)

Lemma full_sum : forall L c (y : list R) (d : list (list R)) m norm v l j, row_of L c norm v y -> matrix_of L c m d -> (l <= L)%nat -> (j < 2 * l + 1)%nat ->
  rsum ((L + 1) * (L + 1)) (fun k => nth k y 0 * at2 d k (l * l + j)) = const_of norm l * rsum (2 * l + 1) (fun k => peval (Yi l k) v * dmat (entry m) l k (pos c l j)).
Proof.
  intros L c y d m norm v l j [_ Hy] [_ [_ Hd]] Hl Hj. rewrite rsum_degrees.
  rewrite (rsum_single _ _ l).
  2:{ lia. }
  2:{ intros l1 Hl1 N. apply rsum_zero. intros k Hk. assert (l1 <= L)%nat by lia. rewrite (Hd l1 l k j) by assumption. destruct (Nat.eq_dec l1 l); [congruence|ring]. }
  rewrite <- rsum_scal_l. symmetry. rewrite <- (rsum_pos c l). symmetry. apply rsum_ext. intros k Hk. rewrite (Hy l k), (Hd l l k j) by assumption. destruct (Nat.eq_dec l l); [ring|congruence].
Qed.

Lemma matrix_sum : forall L c d d' m m' l l' i j, matrix_of L c m d -> matrix_of L c m' d' -> (l <= L)%nat -> (l' <= L)%nat -> (i < 2 * l + 1)%nat -> (j < 2 * l' + 1)%nat ->
  rsum ((L + 1) * (L + 1)) (fun k => at2 d (l * l + i) k * at2 d' k (l' * l' + j))
  = if Nat.eq_dec l l' then rsum (2 * l + 1) (fun k => dmat (entry m) l (pos c l i) k * dmat (entry m') l k (pos c l j)) else 0.
Proof.
  intros L c d d' m m' l l' i j [_ [_ Hd]] [_ [_ Hd']] Hl Hl' Hi Hj. rewrite rsum_degrees.
  rewrite (rsum_single _ _ l).
  2:{ lia. }
  2:{ intros l1 Hl1 N. apply rsum_zero. intros k Hk. assert (l1 <= L)%nat by lia. rewrite (Hd l l1 i k) by assumption. destruct (Nat.eq_dec l l1); [congruence|ring]. }
  destruct (Nat.eq_dec l l') as [<-|N].
  - symmetry. rewrite <- (rsum_pos c l). symmetry. apply rsum_ext. intros k Hk. rewrite (Hd l l i k), (Hd' l l k j) by assumption. destruct (Nat.eq_dec l l); [ring|congruence].
  - apply rsum_zero. intros k Hk. rewrite (Hd' l l' k j) by assumption. destruct (Nat.eq_dec l l'); [contradiction|ring].
Qed.

Lemma matrix_gram_rows : forall L c d m l l' i j, matrix_of L c m d -> orthogonal m -> (l <= L)%nat -> (l' <= L)%nat -> (i < 2 * l + 1)%nat -> (j < 2 * l' + 1)%nat ->
  rsum ((L + 1) * (L + 1)) (fun k => at2 d (l * l + i) k * at2 d (l' * l' + j) k) = if Nat.eq_dec l l' then kron i j else 0.
Proof.
  intros L c d m l l' i j [_ [_ Hd]] Ho Hl Hl' Hi Hj. destruct (orthogonal_rows m Ho) as [H1 H2]. rewrite rsum_degrees.
  rewrite (rsum_single _ _ l).
  2:{ lia. }
  2:{ intros l1 Hl1 N. apply rsum_zero. intros k Hk. assert (l1 <= L)%nat by lia. rewrite (Hd l l1 i k) by assumption. destruct (Nat.eq_dec l l1); [congruence|ring]. }
  destruct (Nat.eq_dec l l') as [<-|N].
  - rewrite <- (kron_pos c l i j) by assumption. rewrite <- (dmat_rows (entry m) l) by (assumption || now apply pos_lt). symmetry. rewrite <- (rsum_pos c l). symmetry. apply rsum_ext. intros k Hk. rewrite (Hd l l i k), (Hd l l j k) by assumption. destruct (Nat.eq_dec l l); [ring|congruence].
  - apply rsum_zero. intros k Hk. rewrite (Hd l' l j k) by assumption. destruct (Nat.eq_dec l' l); [congruence|ring].
Qed.

Lemma matrix_gram_cols : forall L c d m l l' i j, matrix_of L c m d -> orthogonal m -> (l <= L)%nat -> (l' <= L)%nat -> (i < 2 * l + 1)%nat -> (j < 2 * l' + 1)%nat ->
  rsum ((L + 1) * (L + 1)) (fun k => at2 d k (l * l + i) * at2 d k (l' * l' + j)) = if Nat.eq_dec l l' then kron i j else 0.
Proof.
  intros L c d m l l' i j [_ [_ Hd]] Ho Hl Hl' Hi Hj. destruct (orthogonal_rows m Ho) as [H1 H2]. rewrite rsum_degrees.
  rewrite (rsum_single _ _ l).
  2:{ lia. }
  2:{ intros l1 Hl1 N. apply rsum_zero. intros k Hk. assert (l1 <= L)%nat by lia. rewrite (Hd l1 l k i) by assumption. destruct (Nat.eq_dec l1 l); [congruence|ring]. }
  destruct (Nat.eq_dec l l') as [<-|N].
  - rewrite <- (kron_pos c l i j) by assumption. rewrite <- (dmat_cols (entry m) l) by (assumption || now apply pos_lt). symmetry. rewrite <- (rsum_pos c l). symmetry. apply rsum_ext. intros k Hk. rewrite (Hd l l k i), (Hd l l k j) by assumption. destruct (Nat.eq_dec l l); [ring|congruence].
  - apply rsum_zero. intros k Hk. rewrite (Hd l l' k j) by assumption. destruct (Nat.eq_dec l l'); [congruence|ring].
Qed.

(** * Low degrees *)

Lemma dmat_0 : forall M, dmat M 0 0 0 = 1.
Proof.
  intros M. pose proof (fischer_Yi 0 0 0 ltac:(lia) ltac:(lia)) as H. unfold dmat. pose proof (ynorm_pos 0) as Hp.
  assert (E : psubst M (Yi 0 0) == Yi 0 0).
  { pose proof (homogeneous_Y 0 _ (order_bound 0 0 ltac:(lia))) as Hh. fold (Yi 0 0) in Hh. intros w. unfold psubst. rewrite lin_lift.
    apply lin_ext_in. intros [[a b] c] Hk. apply in_map_iff in Hk as [t [Et Ht]]. specialize (Hh t Ht). rewrite Et in Hh. cbn in Hh.
    assert (a = 0 /\ b = 0 /\ c = 0)%nat as [-> [-> ->]] by lia. cbn. ring. }
  rewrite (fischer_proper (Yi 0 0) (Yi 0 0) (peq_refl _) _ _ E), H. unfold kron. cbn. field. lra.
Qed.

Lemma comb_n0 : forall n, comb n 0 = 1%nat. Proof. destruct n; reflexivity. Qed.

Lemma pi_11 : sh_pi 1 1 == p3_const (/ sqrt 2).
Proof.
  unfold sh_pi. cbn [Nat.sub Nat.add Nat.div Nat.divmod fst]. rewrite psum_S, psum_0.
  intros w. rewrite lin_scal, lin_add, lin_scal, lin_mul, lin_nil. cbn [Nat.mul Nat.sub].
  rewrite !ppow_0. unfold pone. rewrite !lin_const. cbn [key3_mul Nat.add].
  replace (sqrt (INR (fact 0) / INR (fact 2))) with (/ sqrt 2).
  2:{ unfold fact. cbn [Nat.mul Nat.add INR]. replace (1 / (1 + 1)) with (/ 2) by field. now rewrite inv_sqrt_depr by lra || now rewrite sqrt_inv. }
  unfold sh_coefficient. cbn [Nat.mul Nat.sub Nat.add pow comb fact INR]. field.
  apply Rgt_not_eq, sqrt_lt_R0; lra.
Qed.

Lemma pi_10 : sh_pi 1 0 == p3_z.
Proof.
  unfold sh_pi. cbn [Nat.sub Nat.add Nat.div Nat.divmod fst]. rewrite psum_S, psum_0.
  intros w. rewrite lin_scal, lin_add, lin_scal, lin_mul, lin_nil. cbn [Nat.mul Nat.sub].
  unfold fact. cbn [Nat.mul Nat.add INR]. replace (1 / 1) with 1 by field. rewrite sqrt_1.
  cbn [p3_pow ppow p3_mul pmul p3_z p3_const lin fold_right flat_map map app fst snd key3_mul Nat.add].
  unfold sh_coefficient. cbn [Nat.mul Nat.sub Nat.add pow comb fact INR]. cbn. field.
Qed.

Lemma a_1 : sh_a 1 == p3_x.
Proof.
  unfold sh_a. cbn [Nat.add]. rewrite psum_S, psum_S, psum_0. cbn [comb Nat.sub INR]. intros w. rewrite !lin_add, !lin_scal, lin_nil.
  replace (1 * PI / 2) with (PI / 2) by field. replace (0 * PI / 2) with 0 by field. rewrite cos_PI2, cos_0.
  cbn [p3_pow ppow p3_mul pmul p3_x p3_y p3_const lin fold_right flat_map map app fst snd key3_mul Nat.add]. cbn. ring.
Qed.
Lemma b_1 : sh_b 1 == p3_y.
Proof.
  unfold sh_b. cbn [Nat.add]. rewrite psum_S, psum_S, psum_0. cbn [comb Nat.sub INR]. intros w. rewrite !lin_add, !lin_scal, lin_nil.
  replace (1 * PI / 2) with (PI / 2) by field. replace (0 * PI / 2) with 0 by field. rewrite sin_PI2, sin_0.
  cbn [p3_pow ppow p3_mul pmul p3_x p3_y p3_const lin fold_right flat_map map app fst snd key3_mul Nat.add]. cbn. ring.
Qed.

Lemma sqrt2_scal : forall p, p3_scal (sqrt 2) (p3_mul (p3_const (/ sqrt 2)) p) == p.
Proof.
  intros p w. rewrite lin_scal, pmul_const, lin_scal. field. apply Rgt_not_eq, sqrt_lt_R0. lra.
Qed.

(** Degree 1 in the standard order: y, z, x. *)
Lemma Y_10 : Yi 1 0 == p3_y.
Proof. unfold Yi, order, spherical_harmonics_poly. cbn -[sh_pi sh_a sh_b p3_mul p3_scal]. change (Pos.to_nat 1) with 1%nat. rewrite pi_11, b_1. apply sqrt2_scal. Qed.
Lemma Y_11 : Yi 1 1 == p3_z.
Proof. unfold Yi, order, spherical_harmonics_poly. cbn -[sh_pi sh_a sh_b p3_mul p3_scal]. apply pi_10. Qed.
Lemma Y_12 : Yi 1 2 == p3_x.
Proof. unfold Yi, order, spherical_harmonics_poly. cbn -[sh_pi sh_a sh_b p3_mul p3_scal]. change (Pos.to_nat 1) with 1%nat. rewrite pi_11, a_1. apply sqrt2_scal. Qed.
Lemma Y_00 : Yi 0 0 == pone.
Proof.
  unfold Yi, order, spherical_harmonics_poly. cbn -[sh_pi sh_a sh_b p3_mul p3_scal]. unfold sh_pi. cbn [Nat.sub Nat.add Nat.div Nat.divmod fst]. rewrite psum_S, psum_0.
  intros w. rewrite lin_scal, lin_add, lin_scal, lin_mul, lin_nil. cbn [Nat.mul Nat.sub]. rewrite !ppow_0. unfold pone. rewrite !lin_const. cbn [key3_mul Nat.add].
  unfold fact. cbn [INR]. replace (1 / 1) with 1 by field. rewrite sqrt_1.
  unfold sh_coefficient. cbn [Nat.mul Nat.sub Nat.add pow comb fact INR]. field.
Qed.

Lemma Y1_cart : forall k v, (k < 3)%nat -> peval (Yi 1 (cart_index 1 k)) v = coord v k.
Proof.
  intros k [[x y] z] Hk. destruct k as [|[|[|]]]; [| | |lia]; unfold cart_index; cbn [Nat.even Nat.div Nat.divmod fst Nat.mul Nat.sub Nat.add coord].
  - rewrite (peval_peq _ _ _ Y_12). apply peval_x.
  - rewrite (peval_peq _ _ _ Y_10). apply peval_y.
  - rewrite (peval_peq _ _ _ Y_11). apply peval_z.
Qed.

Lemma peval_subst_Y1 : forall M i v, (i < 3)%nat -> peval (psubst M (Yi 1 (cart_index 1 i))) v = M i 0%nat * coord v 0 + M i 1%nat * coord v 1 + M i 2%nat * coord v 2.
Proof. intros M i [[x y] z] Hi. rewrite peval_subst, Y1_cart by exact Hi. destruct i as [|[|[|]]]; [| | |lia]; reflexivity. Qed.

Lemma rsum3 : forall f, rsum 3 f = f 0%nat + f 1%nat + f 2%nat. Proof. intros f. simpl. ring. Qed.

Lemma dmat_1 : forall M i j, orthonormal_rows M -> (i < 3)%nat -> (j < 3)%nat -> dmat M 1 (cart_index 1 i) (cart_index 1 j) = M i j.
Proof.
  intros M i j HM Hi Hj.
  set (e := fun k : nat => (kron 0 k, kron 1 k, kron 2 k)).
  assert (He : forall k k', (k < 3)%nat -> (k' < 3)%nat -> peval (Yi 1 (cart_index 1 k)) (e k') = kron k k').
  { intros k k' Hk Hk'. rewrite Y1_cart by exact Hk. unfold e. destruct k as [|[|[|]]]; [| | |lia]; reflexivity. }
  pose proof (Y_rotate M 1 (cart_index 1 i) (e j) HM (cart_index_lt 1 i Hi)) as H.
  rewrite <- peval_subst, peval_subst_Y1 in H by exact Hi.
  change (2 * 1 + 1)%nat with 3%nat in H. pose proof (rsum_pos true 1 (fun k => dmat M 1 (cart_index 1 i) k * peval (Yi 1 k) (e j))) as P. cbn [pos] in P. change (2 * 1 + 1)%nat with 3%nat in P. rewrite <- P in H.
  rewrite rsum3, !He in H by lia. unfold e, coord, kron in H.
  destruct j as [|[|[|]]]; [| | |lia]; cbn [Nat.eq_dec] in H; repeat (destruct (Nat.eq_dec _ _) in H; try lia); lra.
Qed.
