(** Lemmas for the indexed reductions, the softmax and the gathers (C06-C09). *)
Require Import List ZArith Bool Lia Permutation Reals Lra.
Require Import Verif.Base Verif.Indexed_Model Verif.Indexed_Spec Verif.Indexed_Pair_Proofs
  Verif.Indexed_Conv_Proofs.
Import ListNotations.

Lemma reduce_segment_spec : forall lo hi m s dst vals,
  reduce_segment lo hi m s dst vals
  = list_extreme (op_of m) (init_of lo hi m) (values_at s (combine dst vals)).
Proof.
  intros lo hi m s dst; induction dst as [|d dst IH]; intros [|v vals]; simpl; try reflexivity.
  unfold values_at; simpl. destruct (d =? s)%Z; simpl; rewrite IH; reflexivity.
Qed.

Lemma reduce_row_spec : forall lo hi m vals w,
  reduce_row lo hi m vals w
  = list_extreme (op_of m) (init_of lo hi m)
      (map fst (filter (fun p : R * bool => snd p) (combine vals w))).
Proof.
  intros lo hi m vals; induction vals as [|v vals IH]; intros [|[] w]; simpl; try reflexivity;
    rewrite IH; reflexivity.
Qed.

Lemma list_extreme_sum : forall l, list_extreme Rplus 0 l = list_sum l.
Proof. induction l; simpl; [|rewrite IHl]; reflexivity. Qed.

Lemma op_comm : forall m a b, op_of m a b = op_of m b a.
Proof. intros [] a b; simpl; [apply Rplus_comm|apply Rmin_comm|apply Rmax_comm]. Qed.

Lemma op_assoc : forall m a b c, op_of m a (op_of m b c) = op_of m (op_of m a b) c.
Proof. intros [] a b c; simpl; [symmetry; apply Rplus_assoc|apply Rmin_assoc|apply Rmax_assoc]. Qed.

Lemma list_extreme_perm : forall m st l l', Permutation l l' ->
  list_extreme (op_of m) st l = list_extreme (op_of m) st l'.
Proof.
  intros m st l l' H; induction H; simpl; try congruence.
  rewrite !op_assoc. f_equal. apply op_comm.
Qed.

Lemma Permutation_filter : forall A (f : A -> bool) l l',
  Permutation l l' -> Permutation (filter f l) (filter f l').
Proof.
  intros A f l l' H; induction H; simpl; try (destruct (f x)); try (destruct (f y)); auto;
    try constructor; auto. etransitivity; eauto.
Qed.

Lemma values_at_perm : forall s l l', Permutation l l' -> Permutation (values_at s l) (values_at s l').
Proof. intros. unfold values_at. now apply Permutation_map, Permutation_filter. Qed.

Lemma reduce_sparse_perm : forall lo hi m n dst vals dst' vals',
  Permutation (combine dst vals) (combine dst' vals') ->
  reduce_sparse lo hi m n dst vals = reduce_sparse lo hi m n dst' vals'.
Proof.
  intros. unfold reduce_sparse. apply map_ext. intros s. rewrite !reduce_segment_spec.
  now apply list_extreme_perm, values_at_perm.
Qed.

(** Edge values given by a function of destination and source. *)
Definition dense_values (g : Z -> Z -> R) (rows : list (list Z)) : list (list R) :=
  map (fun i => map (g (Z.of_nat i)) (nth i rows [])) (seq 0 (length rows)).

Definition sparse_values (g : Z -> Z -> R) (dst src : list Z) : list R :=
  map (fun e => g (fst e) (snd e)) (combine dst src).

Lemma values_at_edges : forall g s dst src, length dst = length src ->
  values_at s (combine dst (sparse_values g dst src)) = map (g s) (sources_of s (combine dst src)).
Proof.
  intros g s dst; unfold values_at, sources_of, sparse_values;
  induction dst as [|d dst IH]; intros [|x src] H; simpl in *; try lia; [reflexivity|].
  destruct (Z.eqb_spec d s) as [->|]; simpl; rewrite IH by lia; reflexivity.
Qed.

Lemma filter_combine_mask : forall (g : Z -> R) pad r,
  map fst (filter (fun p : R * bool => snd p) (combine (map g r) (map (fun j => (j <? pad)%Z) r)))
  = map g (filter (fun j => (j <? pad)%Z) r).
Proof.
  intros g pad r; induction r as [|a r IH]; simpl; [reflexivity|].
  destruct (a <? pad)%Z; simpl; rewrite IH; reflexivity.
Qed.

Lemma combine_map_seq : forall A B (f : nat -> A) (h : list Z -> B) (rows : list (list Z)),
  combine (map f (seq 0 (length rows))) (map h rows)
  = map (fun i => (f i, h (nth i rows []))) (seq 0 (length rows)).
Proof.
  intros A B f h rows.
  assert (Hrows : map h rows = map (fun i => h (nth i rows [])) (seq 0 (length rows))).
  { apply nth_ext with (d := h []) (d' := h (nth 0 rows [])).
    - now rewrite !map_length, seq_length.
    - intros n Hn. rewrite map_length in Hn. rewrite map_nth.
      rewrite (nth_map_d _ _ _ (seq 0 (length rows)) n 0) by (now rewrite seq_length).
      rewrite seq_nth by assumption. reflexivity. }
  rewrite Hrows. generalize (seq 0 (length rows)). intros l.
  induction l as [|a l IH]; simpl; [reflexivity|]. now rewrite IH.
Qed.

Lemma reduce_dense_spec : forall lo hi m g pad rows,
  reduce_dense lo hi m (dense_values g rows) (map (map (fun j => (j <? pad)%Z)) rows)
  = map (fun i => list_extreme (op_of m) (init_of lo hi m)
           (map (g (Z.of_nat i)) (filter (fun j => (j <? pad)%Z) (nth i rows []))))
        (seq 0 (length rows)).
Proof.
  intros. unfold reduce_dense, dense_values.
  rewrite combine_map_seq, map_map. apply map_ext. intros i. simpl.
  rewrite reduce_row_spec, filter_combine_mask. reflexivity.
Qed.

Lemma dense_sparse_reduce : forall lo hi m g adj pad ds ss b,
  concat (concat adj) <> [] ->
  dense_to_sparse_indices adj (Some pad) = (ds, ss) -> b < length adj ->
  (Z.of_nat (length (nth b adj [])) <= pad)%Z ->
  reduce_dense lo hi m (dense_values g (nth b adj [])) (map (map (fun j => (j <? pad)%Z)) (nth b adj []))
  = reduce_sparse lo hi m (length (nth b adj [])) (nth b ds []) (sparse_values g (nth b ds []) (nth b ss [])).
Proof.
  intros lo hi m g adj pad ds ss b Hne E Hb Hpad.
  destruct (dense_to_sparse_spec adj (Some pad) Hne) as [ds' [ss' [w [E' [_ [_ [HB _]]]]]]].
  rewrite E in E'. injection E' as <- <-. destruct (HB b Hb) as [Hl1 [Hl2 [k Ek]]]. unfold d2s_pad in Ek.
  rewrite reduce_dense_spec. unfold reduce_sparse. apply map_ext_in. intros i Hi. apply in_seq in Hi.
  rewrite reduce_segment_spec, values_at_edges by congruence. f_equal. f_equal.
  rewrite Ek, sources_of_app, sources_of_repeat_pad, app_nil_r by lia.
  symmetry. apply sources_of_adjacency. lia.
Qed.

(** Padded edges contribute nothing and isolated nodes receive the start value. *)
Lemma reduce_sparse_ignores : forall lo hi m n dst vals dp vp, length dst = length vals ->
  (forall d, In d dp -> (d < 0 \/ Z.of_nat n <= d)%Z) ->
  reduce_sparse lo hi m n (dst ++ dp) (vals ++ vp) = reduce_sparse lo hi m n dst vals.
Proof.
  intros lo hi m n dst vals dp vp H Hd. unfold reduce_sparse. apply map_ext_in. intros s Hs.
  apply in_seq in Hs. rewrite !reduce_segment_spec. f_equal.
  rewrite combine_app_eq by assumption. unfold values_at. rewrite filter_app, map_app.
  rewrite (filter_ext_in' _ _ (fun _ => false) (combine dp vp)).
  - replace (filter (fun _ => false) (combine dp vp)) with (@nil (Z * R)) by (induction (combine dp vp); auto).
    apply app_nil_r.
  - intros [d v] He. apply in_combine_l in He. simpl. apply Z.eqb_neq. specialize (Hd d He). lia.
Qed.

Lemma reduce_sparse_nth : forall lo hi m n dst vals s, s < n ->
  nth s (reduce_sparse lo hi m n dst vals) 0%R
  = list_extreme (op_of m) (init_of lo hi m) (values_at (Z.of_nat s) (combine dst vals)).
Proof. intros. unfold reduce_sparse. rewrite nth_map_seq by assumption. apply reduce_segment_spec. Qed.

(** Min and max really are extreme values of the selected entries. *)
Lemma list_extreme_max : forall lo l, (forall x, In x l -> (lo <= x)%R) -> l <> [] ->
  In (list_extreme Rmax lo l) l /\ forall x, In x l -> (x <= list_extreme Rmax lo l)%R.
Proof.
  intros lo l; induction l as [|a l IH]; intros Hlo Hne; [congruence|].
  destruct l as [|b l].
  - simpl. rewrite Rmax_left by (apply Hlo; now left). split; [now left|]. intros x [->|[]]; lra.
  - destruct IH as [H1 H2]; [intros; apply Hlo; now right|discriminate|]. split.
    + change (In (Rmax a (list_extreme Rmax lo (b :: l))) (a :: b :: l)).
      generalize dependent (list_extreme Rmax lo (b :: l)). intros X H1 _.
      unfold Rmax. destruct (Rle_dec a X); [now right|now left].
    + change (forall x, In x (a :: b :: l) -> (x <= Rmax a (list_extreme Rmax lo (b :: l)))%R).
      intros x [->|Hx]; [apply Rmax_l|]. eapply Rle_trans; [now apply H2|apply Rmax_r].
Qed.

Lemma list_extreme_min : forall hi l, (forall x, In x l -> (x <= hi)%R) -> l <> [] ->
  In (list_extreme Rmin hi l) l /\ forall x, In x l -> (list_extreme Rmin hi l <= x)%R.
Proof.
  intros hi l; induction l as [|a l IH]; intros Hlo Hne; [congruence|].
  destruct l as [|b l].
  - simpl. rewrite Rmin_left by (apply Hlo; now left). split; [now left|]. intros x [->|[]]; lra.
  - destruct IH as [H1 H2]; [intros; apply Hlo; now right|discriminate|]. split.
    + change (In (Rmin a (list_extreme Rmin hi (b :: l))) (a :: b :: l)).
      generalize dependent (list_extreme Rmin hi (b :: l)). intros X H1 _.
      unfold Rmin. destruct (Rle_dec a X); [now left|now right].
    + change (forall x, In x (a :: b :: l) -> (Rmin a (list_extreme Rmin hi (b :: l)) <= x)%R).
      intros x [->|Hx]; [apply Rmin_l|]. eapply Rle_trans; [apply Rmin_r|now apply H2].
Qed.

(** ** Gathers *)

Lemma jax_index_in : forall n i, (0 <= i < Z.of_nat n)%Z -> jax_index n i = Z.to_nat i.
Proof.
  intros n i H. unfold jax_index. destruct (Z.ltb_spec i 0); [lia|]. f_equal. lia.
Qed.

Lemma take_in : forall A (d : A) x i, (0 <= i < Z.of_nat (length x))%Z -> take d x i = nth (Z.to_nat i) x d.
Proof. intros. unfold take. now rewrite jax_index_in. Qed.

Lemma gather_sparse_nth : forall A (d : A) x idx e, e < length idx ->
  (0 <= nth e idx 0 < Z.of_nat (length x))%Z ->
  nth e (gather_sparse d x idx) d = nth (Z.to_nat (nth e idx 0%Z)) x d.
Proof.
  intros A d x idx e He Hi. unfold gather_sparse.
  rewrite (nth_map_d _ _ _ idx e 0%Z) by assumption. now apply take_in.
Qed.

Lemma jax_index_lt : forall n i, 0 < n -> jax_index n i < n.
Proof. intros n i H. unfold jax_index. lia. Qed.

(** ** Softmax *)

Definition weight_list (n : nat) (mult : option (list R)) : list R :=
  match mult with None => repeat 1%R n | Some mk => mk end.

Lemma values_sum_scale : forall c s dst l l', length dst = length l -> length dst = length l' ->
  (forall e, e < length dst -> nth e dst 0%Z = s -> nth e l 0%R = (c * nth e l' 0)%R) ->
  list_sum (values_at s (combine dst l)) = (c * list_sum (values_at s (combine dst l')))%R.
Proof.
  intros c s dst; unfold values_at; induction dst as [|d dst IH]; intros [|a l] [|a' l'] H H' He;
    simpl in *; try lia; [lra|].
  assert (IHe : forall e, e < length dst -> nth e dst 0%Z = s -> nth e l 0%R = (c * nth e l' 0)%R).
  { intros e Hlt. apply (He (S e)). lia. }
  destruct (Z.eqb_spec d s) as [E|]; simpl; rewrite (IH l l') by (lia || assumption); [|reflexivity].
  pose proof (He 0 ltac:(lia) E) as H0. simpl in H0. rewrite H0. lra.
Qed.

Lemma length_softmax_num : forall (vals maximum : list R) mult,
  length vals = length maximum -> length (weight_list (length vals) mult) = length vals ->
  forall e, e < length vals ->
  let numer := map (fun p => exp (fst p - snd p)) (combine vals maximum) in
  let numer := match mult with None => numer
               | Some mk => map (fun p : R * R => (fst p * snd p)%R) (combine numer mk) end in
  length numer = length vals /\
  nth e numer 0%R = (exp (nth e vals 0 - nth e maximum 0) * nth e (weight_list (length vals) mult) 0)%R.
Proof.
  intros vals maximum mult H1 H2 e He numer0 numer.
  assert (L0 : length numer0 = length vals) by (unfold numer0; rewrite map_length, combine_length; lia).
  assert (N0 : nth e numer0 0%R = exp (nth e vals 0 - nth e maximum 0)%R).
  { unfold numer0. rewrite (nth_map_d _ _ _ (combine vals maximum) e (0%R, 0%R)) by (rewrite combine_length; lia).
    rewrite nth_combine by assumption. reflexivity. }
  destruct mult as [mk|]; simpl in *; subst numer.
  - split; [rewrite map_length, combine_length; lia|].
    rewrite (nth_map_d _ _ _ (combine numer0 mk) e (0%R, 0%R)) by (rewrite combine_length; lia).
    rewrite nth_combine by lia. simpl. now rewrite N0.
  - split; [assumption|]. rewrite N0.
    rewrite (nth_indep (repeat 1%R (length vals)) 0%R 1%R) by (rewrite repeat_length; lia). rewrite nth_repeat. lra.
Qed.

Lemma gather_reduce_nth : forall lo hi m n dst l e, e < length dst ->
  (0 <= nth e dst 0 < Z.of_nat n)%Z ->
  nth e (gather_sparse 0%R (reduce_sparse lo hi m n dst l) dst) 0%R
  = list_extreme (op_of m) (init_of lo hi m) (values_at (nth e dst 0%Z) (combine dst l)).
Proof.
  intros lo hi m n dst l e He Hd.
  assert (Hlen : length (reduce_sparse lo hi m n dst l) = n) by (unfold reduce_sparse; now rewrite map_length, seq_length).
  rewrite gather_sparse_nth by (rewrite ?Hlen; assumption).
  rewrite reduce_sparse_nth by lia. rewrite Z2Nat.id by lia. reflexivity.
Qed.

(** The mathematical softmax weight of an edge. *)
Definition exp_weights (vals w : list R) : list R :=
  map (fun p => (exp (fst p) * snd p)%R) (combine vals w).

Lemma exp_weights_nth : forall vals w e, length vals = length w -> e < length vals ->
  nth e (exp_weights vals w) 0%R = (exp (nth e vals 0) * nth e w 0)%R.
Proof.
  intros. unfold exp_weights.
  rewrite (nth_map_d _ _ _ (combine vals w) e (0%R, 0%R)) by (rewrite combine_length; lia).
  now rewrite nth_combine.
Qed.

Lemma softmax_sparse_formula : forall lo hi n dst vals mult,
  length dst = length vals -> length (weight_list (length vals) mult) = length vals ->
  forall e, e < length dst -> (0 <= nth e dst 0 < Z.of_nat n)%Z ->
  list_sum (values_at (nth e dst 0%Z) (combine dst (exp_weights vals (weight_list (length vals) mult)))) <> 0%R ->
  nth e (softmax_sparse lo hi n dst vals mult) 0%R
  = (exp (nth e vals 0) * nth e (weight_list (length vals) mult) 0
     / list_sum (values_at (nth e dst 0%Z) (combine dst (exp_weights vals (weight_list (length vals) mult)))))%R.
Proof.
  intros lo hi n dst vals mult Hd Hw e He Hr Hnz. unfold softmax_sparse.
  set (maximum := gather_sparse 0%R (reduce_sparse lo hi RMax n dst vals) dst).
  assert (Lm : length vals = length maximum) by (unfold maximum, gather_sparse; rewrite map_length; lia).
  cbv zeta.
  set (numer := match mult with None => _ | Some mk => _ end).
  assert (Hnum : forall k, k < length vals -> length numer = length vals /\
    nth k numer 0%R = (exp (nth k vals 0 - nth k maximum 0) * nth k (weight_list (length vals) mult) 0)%R).
  { intros k Hk. exact (length_softmax_num vals maximum mult Lm Hw k Hk). }
  destruct (Hnum e ltac:(lia)) as [Ln Ne].
  set (denom := gather_sparse 0%R (reduce_sparse lo hi RSum n dst numer) dst).
  assert (Ld : length denom = length dst) by (unfold denom, gather_sparse; now rewrite map_length).
  rewrite (nth_map_d _ _ _ (combine numer denom) e (0%R, 0%R)) by (rewrite combine_length; lia).
  rewrite nth_combine by lia. cbn [fst snd].
  set (s := nth e dst 0%Z) in *.
  set (M := list_extreme Rmax lo (values_at s (combine dst vals))).
  assert (HM : forall k, k < length dst -> nth k dst 0%Z = s -> nth k maximum 0%R = M).
  { intros k Hk Hs. unfold maximum. rewrite gather_reduce_nth by (rewrite ?Hs; assumption).
    rewrite Hs. reflexivity. }
  assert (HD : nth e denom 0%R = (exp (- M) * list_sum (values_at s (combine dst (exp_weights vals (weight_list (length vals) mult)))))%R).
  { unfold denom. rewrite gather_reduce_nth by assumption. fold s. simpl op_of; simpl init_of.
    rewrite list_extreme_sum. apply values_sum_scale.
    - lia.
    - unfold exp_weights. rewrite map_length, combine_length. lia.
    - intros k Hk Hs. destruct (Hnum k ltac:(lia)) as [_ ->].
      rewrite exp_weights_nth by lia. rewrite HM by assumption.
      unfold Rminus. rewrite exp_plus. lra. }
  rewrite HD, Ne, HM by (reflexivity || assumption).
  unfold Rminus. rewrite exp_plus. field. split; [assumption|]. pose proof (exp_pos (- M)). lra.
Qed.

Lemma softmax_sparse_length : forall lo hi n dst vals mult,
  length dst = length vals -> length (weight_list (length vals) mult) = length vals ->
  length (softmax_sparse lo hi n dst vals mult) = length dst.
Proof.
  intros lo hi n dst vals mult Hd Hw. unfold softmax_sparse.
  destruct mult as [mk|]; simpl in *; unfold gather_sparse; repeat rewrite map_length || rewrite combine_length; lia.
Qed.

Lemma list_sum_nonneg : forall l, (forall x, In x l -> (0 <= x)%R) -> (0 <= list_sum l)%R.
Proof.
  induction l as [|a l IH]; intros H; simpl; [lra|].
  assert (0 <= a)%R by (apply H; now left). assert (0 <= list_sum l)%R by (apply IH; intros; apply H; now right). lra.
Qed.

Lemma list_sum_pos : forall l x, (forall x, In x l -> (0 <= x)%R) -> In x l -> (0 < x)%R -> (0 < list_sum l)%R.
Proof.
  induction l as [|a l IH]; intros x H Hx Hp; simpl; [destruct Hx|].
  assert (0 <= a)%R by (apply H; now left).
  assert (0 <= list_sum l)%R by (apply list_sum_nonneg; intros; apply H; now right).
  destruct Hx as [->|Hx]; [lra|]. assert (0 < list_sum l)%R by (eapply IH; eauto; intros; apply H; now right). lra.
Qed.

Lemma values_at_in : forall s dst l x, In x (values_at s (combine dst l)) <->
  exists e, e < length dst /\ e < length l /\ nth e dst 0%Z = s /\ nth e l 0%R = x.
Proof.
  intros s dst; unfold values_at; induction dst as [|d dst IH]; intros [|a l] x; simpl.
  - split; [intros []|intros [e [H _]]; lia].
  - split; [intros []|intros [e [H _]]; lia].
  - split; [intros []|intros [e [_ [H _]]]; lia].
  - destruct (Z.eqb_spec d s) as [E|E]; simpl; rewrite IH; split.
    + intros [<-|[e [H1 [H2 [H3 H4]]]]]; [exists 0; repeat split; (lia || assumption)|].
      exists (S e); repeat split; (lia || assumption).
    + intros [[|e] [H1 [H2 [H3 H4]]]]; [left; assumption|]. right. exists e. repeat split; (lia || assumption).
    + intros [e [H1 [H2 [H3 H4]]]]. exists (S e); repeat split; (lia || assumption).
    + intros [[|e] [H1 [H2 [H3 H4]]]]; [contradiction|]. exists e. repeat split; (lia || assumption).
Qed.

Section Softmax.
Variables (lo hi : R) (n : nat) (dst : list Z) (vals : list R) (mult : option (list R)).
Let w := weight_list (length vals) mult.
Hypothesis Hd : length dst = length vals.
Hypothesis Hw : length w = length vals.
Hypothesis Hwpos : forall x, In x w -> (0 <= x)%R.

Lemma segment_mass_pos : forall s e0, e0 < length dst -> nth e0 dst 0%Z = s -> (0 < nth e0 w 0)%R ->
  (0 < list_sum (values_at s (combine dst (exp_weights vals w))))%R.
Proof.
  intros s e0 He0 Hs Hp.
  assert (Le : length (exp_weights vals w) = length vals) by (unfold exp_weights; rewrite map_length, combine_length; lia).
  apply list_sum_pos with (x := nth e0 (exp_weights vals w) 0%R).
  - intros x Hx. apply values_at_in in Hx. destruct Hx as [e [H1 [H2 [H3 <-]]]].
    rewrite exp_weights_nth by lia. apply Rmult_le_pos; [left; apply exp_pos|]. apply Hwpos, nth_In. lia.
  - apply values_at_in. exists e0. repeat split; try lia; assumption.
  - rewrite exp_weights_nth by lia. apply Rmult_lt_0_compat; [apply exp_pos|assumption].
Qed.

Lemma softmax_nonneg : forall e e0, e < length dst -> (0 <= nth e dst 0 < Z.of_nat n)%Z ->
  e0 < length dst -> nth e0 dst 0%Z = nth e dst 0%Z -> (0 < nth e0 w 0)%R ->
  (0 <= nth e (softmax_sparse lo hi n dst vals mult) 0)%R.
Proof.
  intros e e0 He Hr He0 Hs Hp.
  pose proof (segment_mass_pos _ e0 He0 Hs Hp) as Hm.
  rewrite softmax_sparse_formula; try assumption; [|fold w; lra]. fold w.
  apply Rmult_le_pos; [apply Rmult_le_pos; [left; apply exp_pos|apply Hwpos, nth_In; lia]|].
  left. now apply Rinv_0_lt_compat.
Qed.

Lemma softmax_sum_one : forall s e0, (0 <= s < Z.of_nat n)%Z ->
  e0 < length dst -> nth e0 dst 0%Z = s -> (0 < nth e0 w 0)%R ->
  list_sum (values_at s (combine dst (softmax_sparse lo hi n dst vals mult))) = 1%R.
Proof.
  intros s e0 Hs He0 E0 Hp.
  pose proof (segment_mass_pos s e0 He0 E0 Hp) as Hm.
  set (D := list_sum (values_at s (combine dst (exp_weights vals w)))) in *.
  rewrite (values_sum_scale (/ D) s dst _ (exp_weights vals w)).
  - fold D. field. lra.
  - symmetry. now apply softmax_sparse_length.
  - unfold exp_weights. rewrite map_length, combine_length. lia.
  - intros e He Es. rewrite softmax_sparse_formula; try assumption.
    + fold w. rewrite Es. fold D. rewrite exp_weights_nth by lia. field. lra.
    + rewrite Es. assumption.
    + fold w. rewrite Es. fold D. lra.
Qed.
End Softmax.

Lemma softmax_shift : forall lo hi n dst vals mult c,
  let w := weight_list (length vals) mult in
  length dst = length vals -> length w = length vals -> (forall x, In x w -> (0 <= x)%R) ->
  forall e e0, e < length dst -> (0 <= nth e dst 0 < Z.of_nat n)%Z ->
  e0 < length dst -> nth e0 dst 0%Z = nth e dst 0%Z -> (0 < nth e0 w 0)%R ->
  nth e (softmax_sparse lo hi n dst (map (fun v => (v + c)%R) vals) mult) 0%R
  = nth e (softmax_sparse lo hi n dst vals mult) 0%R.
Proof.
  intros lo hi n dst vals mult c w Hd Hw Hpos e e0 He Hr He0 Es Hp.
  set (vals' := map (fun v => (v + c)%R) vals).
  assert (Lv : length vals' = length vals) by (unfold vals'; apply map_length).
  pose proof (segment_mass_pos dst vals mult Hd Hw Hpos _ e0 He0 Es Hp) as Hm. fold w in Hm.
  set (D := list_sum (values_at (nth e dst 0%Z) (combine dst (exp_weights vals w)))) in *.
  assert (HD' : list_sum (values_at (nth e dst 0%Z) (combine dst (exp_weights vals' w))) = (exp c * D)%R).
  { apply values_sum_scale.
    - unfold exp_weights. rewrite map_length, combine_length. lia.
    - unfold exp_weights. rewrite map_length, combine_length. lia.
    - intros k Hk _. rewrite !exp_weights_nth by lia. unfold vals'.
      rewrite (nth_map_d _ _ _ vals k 0%R) by lia. rewrite exp_plus. lra. }
  pose proof (exp_pos c).
  assert (Hne : (exp c * D <> 0)%R) by (apply Rmult_integral_contrapositive_currified; lra).
  rewrite (softmax_sparse_formula lo hi n dst vals') by
    (rewrite ?Lv; fold w; rewrite ?HD'; assumption || lia).
  rewrite (softmax_sparse_formula lo hi n dst vals) by (fold w; fold D; assumption || lra).
  rewrite Lv. fold w. rewrite HD'. fold D. unfold vals'. rewrite (nth_map_d _ _ _ vals e 0%R) by lia.
  rewrite exp_plus. field. split; lra.
Qed.

(** Dense softmax of one row. *)
Lemma reduce_row_sum_scale : forall lo hi c l l' wh, length l = length l' -> 
  (forall e, e < length l -> nth e l 0%R = (c * nth e l' 0)%R) ->
  reduce_row lo hi RSum l wh = (c * reduce_row lo hi RSum l' wh)%R.
Proof.
  intros lo hi c l; induction l as [|a l IH]; intros [|a' l'] wh H He; simpl in *; try lia; [lra|].
  destruct wh as [|b wh]; [simpl; lra|].
  assert (Hrest : reduce_row lo hi RSum l wh = (c * reduce_row lo hi RSum l' wh)%R).
  { apply IH; [lia|]. intros e Hlt. apply (He (S e)). lia. }
  pose proof (He 0 ltac:(lia)) as H0. simpl in H0. destruct b; rewrite Hrest; [rewrite H0; simpl; lra|reflexivity].
Qed.

Lemma softmax_row_formula : forall lo hi wh vals mult,
  let w := weight_list (length vals) mult in
  length w = length vals ->
  let D := reduce_row lo hi RSum (exp_weights vals w) wh in
  D <> 0%R ->
  forall e, e < length vals ->
  nth e (softmax_row lo hi wh vals mult) 0%R = (exp (nth e vals 0) * nth e w 0 / D)%R.
Proof.
  intros lo hi wh vals mult w Hw D HD e He. unfold softmax_row.
  set (M := reduce_row lo hi RMax vals wh). cbv zeta.
  set (numer := match mult with None => _ | Some mk => _ end).
  assert (Hn : length numer = length vals /\ forall k, k < length vals ->
             nth k numer 0%R = (exp (- M) * nth k (exp_weights vals w) 0)%R).
  { unfold numer, w in *. destruct mult as [mk|]; simpl in *.
    - split; [rewrite map_length, combine_length, map_length; lia|]. intros k Hk.
      rewrite exp_weights_nth by lia.
      rewrite (nth_map_d _ _ _ (combine (map (fun v => exp (v - M)) vals) mk) k (0%R, 0%R))
        by (rewrite combine_length, map_length; lia).
      rewrite nth_combine by (rewrite map_length; lia). cbn [fst snd].
      rewrite (nth_map_d _ _ _ vals k 0%R) by lia. unfold Rminus. rewrite exp_plus. lra.
    - split; [apply map_length|]. intros k Hk.
      rewrite exp_weights_nth by lia. rewrite (nth_map_d _ _ _ vals k 0%R) by lia.
      rewrite (nth_indep (repeat 1%R (length vals)) 0%R 1%R) by lia. rewrite nth_repeat. unfold Rminus. rewrite exp_plus. lra. }
  destruct Hn as [Ln Hn].
  rewrite (reduce_row_sum_scale lo hi (exp (- M)) numer (exp_weights vals w) wh).
  - fold D. rewrite (nth_map_d _ _ _ numer e 0%R) by lia. rewrite Hn by assumption.
    rewrite exp_weights_nth by lia. pose proof (exp_pos (- M)). field. split; [assumption|lra].
  - unfold exp_weights. rewrite map_length, combine_length. lia.
  - intros k Hk. apply Hn. lia.
Qed.

Lemma softmax_row_length : forall lo hi wh vals mult,
  length (weight_list (length vals) mult) = length vals ->
  length (softmax_row lo hi wh vals mult) = length vals.
Proof.
  intros lo hi wh vals [mk|] H; unfold softmax_row; simpl in *;
    repeat rewrite map_length || rewrite combine_length; lia.
Qed.

Lemma softmax_row_sum_one : forall lo hi wh vals mult,
  let w := weight_list (length vals) mult in
  length w = length vals ->
  reduce_row lo hi RSum (exp_weights vals w) wh <> 0%R ->
  reduce_row lo hi RSum (softmax_row lo hi wh vals mult) wh = 1%R.
Proof.
  intros lo hi wh vals mult w Hw HD.
  rewrite (reduce_row_sum_scale lo hi (/ reduce_row lo hi RSum (exp_weights vals w) wh)
             _ (exp_weights vals w)).
  - field. assumption.
  - rewrite softmax_row_length by assumption. unfold exp_weights. rewrite map_length, combine_length. lia.
  - intros e He. rewrite softmax_row_length in He by assumption.
    rewrite softmax_row_formula by assumption. fold w. rewrite exp_weights_nth by lia. field. assumption.
Qed.

Lemma reduce_row_pos : forall lo hi l wh e, (forall x, In x l -> (0 <= x)%R) ->
  e < length l -> nth e wh false = true -> (0 < nth e l 0)%R -> (0 < reduce_row lo hi RSum l wh)%R.
Proof.
  intros lo hi l wh e Hp He Hw Hpos. rewrite reduce_row_spec. simpl. rewrite list_extreme_sum.
  assert (Hew : e < length wh).
  { destruct (Nat.lt_ge_cases e (length wh)); [assumption|]. rewrite nth_overflow in Hw by assumption. discriminate. }
  apply list_sum_pos with (x := nth e l 0%R); [| |assumption].
  - intros x Hx. apply in_map_iff in Hx. destruct Hx as [[a b] [<- H]]. apply filter_In in H.
    destruct H as [H _]. apply in_combine_l in H. now apply Hp.
  - apply in_map_iff. exists (nth e l 0%R, nth e wh false). split; [reflexivity|]. apply filter_In.
    split; [|assumption]. clear Hp Hpos Hw. revert wh e He Hew.
    induction l as [|a l IH]; intros [|b wh] [|e] He Hew; simpl in *; try lia; [now left|].
    right. apply IH; lia.
Qed.
