(** Lemmas for the conversions between dense and sparse index lists (C02-C05). *)
Require Import List ZArith Bool Lia Permutation Sorted.
Require Import Verif.Base Verif.Indexed_Model Verif.Indexed_Spec Verif.Indexed_Pair_Proofs.
Import ListNotations.

Lemma list_eq_dec_true : forall (a b : list nat),
  (if list_eq_dec Nat.eq_dec a b then true else false) = true <-> a = b.
Proof. intros a b. destruct (list_eq_dec Nat.eq_dec a b); split; congruence. Qed.

Lemma select_src_spec : forall i dst src,
  select_src i dst src = sources_of i (combine dst src).
Proof.
  intros i dst; induction dst as [|d dst IH]; intros [|s src]; simpl; try reflexivity.
  unfold sources_of; simpl. destruct (d =? i)%Z; simpl; rewrite IH; reflexivity.
Qed.

Lemma count_dst_spec : forall i dst src, length dst = length src ->
  count_dst i dst = length (sources_of i (combine dst src)).
Proof.
  intros i dst; unfold count_dst, sources_of;
  induction dst as [|d dst IH]; intros [|s src] H; simpl in *; try lia.
  destruct (d =? i)%Z; simpl; rewrite (IH src) by lia; reflexivity.
Qed.

Lemma set_prefix_spec : forall vals pad w, length vals <= w ->
  set_prefix (length vals) vals (repeat pad w) = vals ++ repeat pad (w - length vals).
Proof.
  intros vals pad w H. unfold set_prefix. rewrite firstn_all. f_equal.
  replace w with (length vals + (w - length vals)) at 1 by lia.
  rewrite repeat_app, skipn_app, repeat_length, Nat.sub_diag.
  rewrite skipn_all2 by (rewrite repeat_length; lia). reflexivity.
Qed.

Lemma list_max_ge : forall l x, In x l -> x <= list_max l.
Proof.
  intros l x H. pose proof (proj1 (list_max_le l (list_max l)) (Nat.le_refl _)) as HF.
  rewrite Forall_forall in HF. now apply HF.
Qed.

Lemma list_max_in : forall l, l <> [] -> In (list_max l) l.
Proof.
  induction l as [|a l IH]; intros H; [congruence|].
  destruct l as [|b l]; [simpl; left; lia|].
  change (list_max (a :: b :: l)) with (Nat.max a (list_max (b :: l))).
  destruct (Nat.max_spec a (list_max (b :: l))) as [[_ ->]|[_ ->]];
    [right; apply IH; discriminate | now left].
Qed.

Lemma list_max_in_or_zero : forall l, In (list_max l) l \/ (list_max l = 0 /\ l = []).
Proof. intros [|a l]; [right; split; reflexivity|left; apply list_max_in; discriminate]. Qed.

Lemma map_length_combine : forall (A B : Type) (a : list (list A)) (b : list (list B)),
  map (@length A) a = map (@length B) b ->
  length a = length b /\ (forall p, In p (combine a b) -> length (fst p) = length (snd p)).
Proof.
  intros A B a; induction a as [|x a IH]; intros [|y b] H; simpl in *; try discriminate.
  - split; [reflexivity|intros p []].
  - injection H as H1 H2. destruct (IH b H2) as [H3 H4]. split; [lia|].
    intros p [<-|Hp]; [exact H1|now apply H4].
Qed.

(** One row of the dense result. *)
Definition s2d_row (pad : Z) (w : nat) (ds : list Z * list Z) (i : nat) : list Z :=
  let s := sources_of (Z.of_nat i) (combine (fst ds) (snd ds)) in
  s ++ repeat pad (w - length s).

Definition s2d_width (n : nat) (dst src : list (list Z)) : nat :=
  list_max (concat (map (fun ds : list Z * list Z =>
     map (fun i => length (sources_of (Z.of_nat i) (combine (fst ds) (snd ds)))) (seq 0 n))
     (combine dst src))).

Lemma s2d_width_counts : forall n dst src, map (@length Z) dst = map (@length Z) src ->
  list_max (concat (map (fun d => map (fun i => count_dst (Z.of_nat i) d) (seq 0 n)) dst))
  = s2d_width n dst src.
Proof.
  intros n dst src H. unfold s2d_width. f_equal. f_equal.
  revert src H; induction dst as [|d dst IH]; intros [|s src] H; simpl in *; try discriminate; [reflexivity|].
  injection H as H1 H2. rewrite (IH src H2). f_equal.
  apply map_ext. intros i. now apply count_dst_spec.
Qed.

Lemma sparse_to_dense_closed : forall dst src pad,
  map (@length Z) dst = map (@length Z) src -> concat dst <> [] -> (0 < pad)%Z ->
  sparse_to_dense_indices dst src (Some pad)
  = Ok (map (fun ds => map (s2d_row pad (s2d_width (Z.to_nat pad) dst src) ds) (seq 0 (Z.to_nat pad)))
            (combine dst src)).
Proof.
  intros dst src pad H Hne Hp. unfold sparse_to_dense_indices, same_shape.
  destruct (list_eq_dec Nat.eq_dec _ _) as [_|Hn]; [|contradiction]. simpl.
  destruct (concat dst) as [|z zs] eqn:E; [congruence|].
  destruct (Nat.eqb_spec (Z.to_nat pad) 0); [lia|]. f_equal.
  rewrite s2d_width_counts with (src := src) by assumption.
  apply map_ext_in. intros ds Hds. apply map_ext_in. intros i Hi.
  destruct (map_length_combine _ _ dst src H) as [_ Hl].
  rewrite select_src_spec.
  rewrite (count_dst_spec _ (fst ds) (snd ds)) by (now apply Hl).
  unfold s2d_row. cbv zeta. rewrite set_prefix_spec; [reflexivity|].
  unfold s2d_width. apply list_max_ge. apply in_concat.
  eexists. split; [apply in_map; exact Hds|].
  apply (in_map (fun i => length (sources_of (Z.of_nat i) (combine (fst ds) (snd ds))))). exact Hi.
Qed.

Lemma nth_map_seq : forall A (f : nat -> A) n i d, i < n -> nth i (map f (seq 0 n)) d = f i.
Proof.
  intros A f n i d H. rewrite (nth_indep _ d (f 0)) by (rewrite map_length, seq_length; lia).
  rewrite map_nth, seq_nth by lia. reflexivity.
Qed.

Lemma nth_combine : forall A B (a : list A) (b : list B) i da db,
  length a = length b -> nth i (combine a b) (da, db) = (nth i a da, nth i b db).
Proof. intros. now apply combine_nth. Qed.

Lemma s2d_width_ge : forall dst src n b i, map (@length Z) dst = map (@length Z) src ->
  b < length dst -> i < n ->
  length (sources_of (Z.of_nat i) (combine (nth b dst []) (nth b src []))) <= s2d_width n dst src.
Proof.
  intros dst src n b i H Hb Hi. unfold s2d_width. apply list_max_ge. apply in_concat.
  destruct (map_length_combine _ _ dst src H) as [Hl _].
  assert (In (nth b dst [], nth b src []) (combine dst src)) as Hin.
  { rewrite <- (nth_combine _ _ dst src b [] []) by assumption.
    apply nth_In. rewrite combine_length. lia. }
  eexists. split; [apply in_map; exact Hin|]. simpl.
  apply (in_map (fun i => length (sources_of (Z.of_nat i) (combine (nth b dst []) (nth b src []))))).
  apply in_seq. lia.
Qed.

Lemma s2d_width_attained : forall dst src n, map (@length Z) dst = map (@length Z) src ->
  dst <> [] -> 0 < n ->
  exists b i, b < length dst /\ i < n /\
   length (sources_of (Z.of_nat i) (combine (nth b dst []) (nth b src []))) = s2d_width n dst src.
Proof.
  intros dst src n H Hne Hn. destruct (map_length_combine _ _ dst src H) as [Hl _].
  assert (Hin : In (s2d_width n dst src) (concat (map (fun ds : list Z * list Z =>
     map (fun i => length (sources_of (Z.of_nat i) (combine (fst ds) (snd ds)))) (seq 0 n))
     (combine dst src)))).
  { apply list_max_in. destruct dst as [|d dst]; [congruence|]. destruct src as [|s src]; [discriminate|].
    destruct n; [lia|]. simpl. discriminate. }
  apply in_concat in Hin. destruct Hin as [row [Hrow Hx]].
  apply in_map_iff in Hrow. destruct Hrow as [ds [<- Hds]].
  apply in_map_iff in Hx. destruct Hx as [i [Hi Hi2]]. apply in_seq in Hi2.
  destruct (In_nth _ _ ([], []) Hds) as [b [Hb E]].
  rewrite combine_length in Hb. rewrite nth_combine in E by assumption. subst ds. simpl in Hi.
  exists b, i. repeat split; try lia; assumption.
Qed.

(** Full specification of sparse_to_dense_indices with an explicit padding index. *)
Lemma sparse_to_dense_spec : forall dst src pad,
  map (@length Z) dst = map (@length Z) src -> concat dst <> [] -> (0 < pad)%Z ->
  exists adj w, sparse_to_dense_indices dst src (Some pad) = Ok adj
   /\ length adj = length dst
   /\ (forall b, b < length dst -> length (nth b adj []) = Z.to_nat pad
        /\ forall i, (Z.of_nat i < pad)%Z ->
             exists k, nth i (nth b adj []) [] =
                         sources_of (Z.of_nat i) (combine (nth b dst []) (nth b src [])) ++ repeat pad k
                    /\ length (nth i (nth b adj []) []) = w)
   /\ (exists b i, b < length dst /\ (Z.of_nat i < pad)%Z /\
        length (sources_of (Z.of_nat i) (combine (nth b dst []) (nth b src []))) = w).
Proof.
  intros dst src pad H Hne Hp. destruct (map_length_combine _ _ dst src H) as [Hl _].
  rewrite sparse_to_dense_closed by assumption.
  set (w := s2d_width (Z.to_nat pad) dst src).
  eexists; exists w. split; [reflexivity|]. split; [rewrite map_length, combine_length; lia|]. split.
  - intros b Hb.
    rewrite (nth_indep _ [] (map (s2d_row pad w ([],[])) (seq 0 (Z.to_nat pad))))
      by (rewrite map_length, combine_length; lia).
    rewrite (map_nth (fun ds => map (s2d_row pad w ds) (seq 0 (Z.to_nat pad)))).
    rewrite nth_combine by assumption. split; [now rewrite map_length, seq_length|].
    intros i Hi. rewrite nth_map_seq by lia. unfold s2d_row. simpl fst; simpl snd. cbv zeta.
    eexists. split; [reflexivity|]. rewrite app_length, repeat_length.
    pose proof (s2d_width_ge dst src (Z.to_nat pad) b i H Hb ltac:(lia)) as Hw. fold w in Hw. lia.
  - destruct (s2d_width_attained dst src (Z.to_nat pad) H) as [b [i [Hb [Hi E]]]].
    + intros ->. apply Hne. reflexivity.
    + lia.
    + exists b, i. repeat split; try lia; assumption.
Qed.

Lemma sparse_to_dense_shape_error : forall dst src pad,
  map (@length Z) dst <> map (@length Z) src -> sparse_to_dense_indices dst src pad = Err ValueError.
Proof.
  intros dst src pad H. unfold sparse_to_dense_indices, same_shape.
  destruct (list_eq_dec Nat.eq_dec _ _) as [E|_]; [contradiction|reflexivity].
Qed.

Lemma sparse_to_dense_pad_error : forall dst src pad,
  map (@length Z) dst = map (@length Z) src -> concat dst <> [] -> (pad <= 0)%Z ->
  sparse_to_dense_indices dst src (Some pad) = Err ValueError.
Proof.
  intros dst src pad H Hne Hp. unfold sparse_to_dense_indices, same_shape.
  destruct (list_eq_dec Nat.eq_dec _ _) as [_|Hn]; [|contradiction]. simpl.
  destruct (concat dst) as [|z zs] eqn:E; [congruence|].
  destruct (Nat.eqb_spec (Z.to_nat pad) 0); [reflexivity|lia].
Qed.

(** ** Dense to sparse *)

Lemma d2s_rows_lengths : forall pad rows i,
  length (fst (d2s_rows pad i rows)) = length (snd (d2s_rows pad i rows)).
Proof.
  intros pad rows; induction rows as [|r rows IH]; intros i; simpl; [reflexivity|].
  specialize (IH (S i)). destruct (d2s_rows pad (S i) rows) as [dt st]. simpl in *.
  rewrite !app_length, repeat_length, IH. reflexivity.
Qed.

Lemma d2s_rows_edges_from : forall pad rows i,
  combine (fst (d2s_rows pad i rows)) (snd (d2s_rows pad i rows))
  = flat_map (fun k => map (fun j => (Z.of_nat (i + k), j)) (filter (fun j => (j <? pad)%Z) (nth k rows [])))
             (seq 0 (length rows)).
Proof.
  intros pad rows; induction rows as [|r rows IH]; intros i; simpl; [reflexivity|].
  specialize (IH (S i)). destruct (d2s_rows pad (S i) rows) as [dt st]. simpl in *.
  rewrite combine_app_eq by (now rewrite repeat_length). rewrite IH, Nat.add_0_r. f_equal.
  - generalize (filter (fun j => (j <? pad)%Z) r). intros l. induction l as [|a l IHl]; simpl; [reflexivity|].
    now rewrite IHl.
  - rewrite <- seq_shift, flat_map_concat_map, (flat_map_concat_map _ (map S _)), map_map.
    f_equal. apply map_ext. intros k. replace (i + S k) with (S i + k) by lia. reflexivity.
Qed.

Lemma d2s_rows_edges : forall pad rows,
  combine (fst (d2s_rows pad 0 rows)) (snd (d2s_rows pad 0 rows)) = edges_of_adjacency pad rows.
Proof. intros. rewrite d2s_rows_edges_from. reflexivity. Qed.

Lemma combine_repeat : forall A B (a : A) (b : B) k, combine (repeat a k) (repeat b k) = repeat (a, b) k.
Proof. intros; induction k; simpl; [|rewrite IHk]; reflexivity. Qed.

Lemma edges_length : forall pad rows,
  length (fst (d2s_rows pad 0 rows)) = length (edges_of_adjacency pad rows).
Proof.
  intros. rewrite <- d2s_rows_edges, combine_length, <- d2s_rows_lengths. lia.
Qed.

Definition d2s_pad (adj : list adjacency) (pad_idx : option Z) : Z :=
  match pad_idx with None => (zmax_list (concat (concat adj)) + 1)%Z | Some p => p end.

Definition d2s_size (pad : Z) (adj : list adjacency) : nat :=
  list_max (map (fun a => length (edges_of_adjacency pad a)) adj).

Lemma dense_to_sparse_closed : forall adj pad_idx, concat (concat adj) <> [] ->
  let pad := d2s_pad adj pad_idx in
  dense_to_sparse_indices adj pad_idx
  = (map (fun a => pad_to pad (d2s_size pad adj) (fst (d2s_rows pad 0 a))) adj,
     map (fun a => pad_to pad (d2s_size pad adj) (snd (d2s_rows pad 0 a))) adj).
Proof.
  intros adj pad_idx Hne pad. unfold dense_to_sparse_indices.
  destruct (concat (concat adj)) as [|z zs] eqn:E; [congruence|]. rewrite <- E.
  fold (d2s_pad adj pad_idx). fold pad. cbv zeta.
  assert (Hs : list_max (map (fun p : list Z * list Z => length (fst p)) (map (d2s_rows pad 0) adj))
               = d2s_size pad adj).
  { unfold d2s_size. f_equal. rewrite map_map. apply map_ext. intros a. apply edges_length. }
  rewrite Hs, !map_map. reflexivity.
Qed.

Lemma combine_pad_to : forall pad w a,
  combine (pad_to pad w (fst (d2s_rows pad 0 a))) (pad_to pad w (snd (d2s_rows pad 0 a)))
  = edges_of_adjacency pad a ++ repeat (pad, pad) (w - length (edges_of_adjacency pad a)).
Proof.
  intros. unfold pad_to. rewrite combine_app_eq by apply d2s_rows_lengths.
  rewrite <- d2s_rows_lengths, combine_repeat, d2s_rows_edges, edges_length. reflexivity.
Qed.

Lemma nth_map_d : forall A B (f : A -> B) l i da db, i < length l ->
  nth i (map f l) db = f (nth i l da).
Proof.
  intros. rewrite (nth_indep _ db (f da)) by (now rewrite map_length). apply map_nth.
Qed.

Lemma dense_to_sparse_spec : forall adj pad_idx, concat (concat adj) <> [] ->
  let pad := d2s_pad adj pad_idx in
  exists ds ss w, dense_to_sparse_indices adj pad_idx = (ds, ss)
   /\ length ds = length adj /\ length ss = length adj
   /\ (forall b, b < length adj ->
         length (nth b ds []) = w /\ length (nth b ss []) = w /\
         exists k, combine (nth b ds []) (nth b ss [])
                   = edges_of_adjacency pad (nth b adj []) ++ repeat (pad, pad) k)
   /\ (exists b, b < length adj /\ w = length (edges_of_adjacency pad (nth b adj []))).
Proof.
  intros adj pad_idx Hne pad. rewrite dense_to_sparse_closed by assumption. fold pad.
  eexists; eexists; exists (d2s_size pad adj). split; [reflexivity|].
  rewrite !map_length. split; [reflexivity|split; [reflexivity|split]].
  - intros b Hb. rewrite !(nth_map_d _ _ _ adj b [] []) by assumption.
    assert (Hle : length (edges_of_adjacency pad (nth b adj [])) <= d2s_size pad adj).
    { unfold d2s_size. apply list_max_ge.
      apply (in_map (fun a => length (edges_of_adjacency pad a))). now apply nth_In. }
    assert (Hlen : forall l, length l = length (edges_of_adjacency pad (nth b adj [])) ->
              length (pad_to pad (d2s_size pad adj) l) = d2s_size pad adj).
    { intros l Hl. unfold pad_to. rewrite app_length, repeat_length, Hl. lia. }
    split; [apply Hlen, edges_length|].
    split; [apply Hlen; rewrite <- d2s_rows_lengths; apply edges_length|].
    eexists. apply combine_pad_to.
  - assert (Hin : In (d2s_size pad adj) (map (fun a => length (edges_of_adjacency pad a)) adj)).
    { apply list_max_in. destruct adj; [now contradict Hne|discriminate]. }
    apply in_map_iff in Hin. destruct Hin as [a [E Ha]].
    destruct (In_nth _ _ [] Ha) as [b [Hb <-]]. exists b. split; [assumption|now symmetry].
Qed.

Lemma fold_max_ge : forall l a x, (x = a \/ In x l) -> (x <= fold_left Z.max l a)%Z.
Proof.
  induction l as [|b l IH]; intros a x H; simpl in *.
  - destruct H as [->|[]]; lia.
  - destruct H as [->|[->|H]].
    + etransitivity; [|apply IH; left; reflexivity]. lia.
    + etransitivity; [|apply IH; left; reflexivity]. lia.
    + apply IH. now right.
Qed.

Lemma zmax_list_ge : forall l x, In x l -> (x <= zmax_list l)%Z.
Proof. intros [|a l] x H; [destruct H|]. simpl. apply fold_max_ge. destruct H; [left; now symmetry|now right]. Qed.

(** Without [pad_idx] nothing is treated as padding. *)
Lemma d2s_default_pad_keeps : forall adj a, In a adj ->
  edges_of_adjacency (d2s_pad adj None) a
  = flat_map (fun i => map (fun j => (Z.of_nat i, j)) (nth i a [])) (seq 0 (length a)).
Proof.
  intros adj a Ha. unfold edges_of_adjacency. apply flat_map_ext_in. intros i Hi.
  apply in_seq in Hi. f_equal. rewrite (filter_ext_in' _ _ (fun _ => true)).
  - apply filter_true'. reflexivity.
  - intros j Hj. apply Z.ltb_lt. simpl.
    assert (j <= zmax_list (concat (concat adj)))%Z; [|lia].
    apply zmax_list_ge. apply in_concat. exists (nth i a []). split; [|assumption].
    apply in_concat. exists a. split; [assumption|]. apply nth_In. lia.
Qed.

(** ** Round trips *)

Lemma sources_of_app : forall i a b, sources_of i (a ++ b) = sources_of i a ++ sources_of i b.
Proof. intros. unfold sources_of. now rewrite filter_app, map_app. Qed.

Lemma sources_of_none : forall i l, (forall e, In e l -> fst e <> i) -> sources_of i l = [].
Proof.
  intros i l H. unfold sources_of. induction l as [|e l IH]; simpl; [reflexivity|].
  destruct (Z.eqb_spec (fst e) i) as [E|_]; [exfalso; apply (H e); [now left|assumption]|].
  apply IH. intros; apply H; now right.
Qed.

Lemma sources_of_all : forall i (l : list Z), sources_of i (map (fun j => (i, j)) l) = l.
Proof.
  intros i l. unfold sources_of. induction l as [|a l IH]; simpl; [reflexivity|].
  now rewrite Z.eqb_refl; simpl; rewrite IH.
Qed.

Lemma sources_of_blocks : forall (g : nat -> list Z) i n s, s <= i < s + n ->
  sources_of (Z.of_nat i) (flat_map (fun k => map (fun j => (Z.of_nat k, j)) (g k)) (seq s n)) = g i.
Proof.
  intros g i n; induction n as [|n IH]; intros s H; [lia|]. simpl. rewrite sources_of_app.
  destruct (Nat.eq_dec s i) as [->|Hne].
  - rewrite sources_of_all. rewrite sources_of_none; [apply app_nil_r|].
    intros e He. apply in_flat_map in He. destruct He as [k [Hk He]]. apply in_map_iff in He.
    destruct He as [j [<- _]]. apply in_seq in Hk. simpl. lia.
  - rewrite sources_of_none; [apply IH; lia|].
    intros e He. apply in_map_iff in He. destruct He as [j [<- _]]. simpl. lia.
Qed.

Lemma sources_of_adjacency : forall pad rows i, i < length rows ->
  sources_of (Z.of_nat i) (edges_of_adjacency pad rows) = filter (fun j => (j <? pad)%Z) (nth i rows []).
Proof.
  intros. unfold edges_of_adjacency.
  apply (sources_of_blocks (fun k => filter (fun j => (j <? pad)%Z) (nth k rows []))). lia.
Qed.

Lemma sources_of_adjacency_out : forall pad rows i, ~ (0 <= i < Z.of_nat (length rows))%Z ->
  sources_of i (edges_of_adjacency pad rows) = [].
Proof.
  intros. apply sources_of_none. intros e He. unfold edges_of_adjacency in He.
  apply in_flat_map in He. destruct He as [k [Hk He]]. apply in_map_iff in He.
  destruct He as [j [<- _]]. apply in_seq in Hk. simpl. lia.
Qed.

Lemma sources_of_repeat_pad : forall i pad k, i <> pad -> sources_of i (repeat (pad, pad) k) = [].
Proof.
  intros. apply sources_of_none. intros e He. apply repeat_spec in He. subst. simpl. congruence.
Qed.

Lemma nth_filter_nil : forall (rows : list (list Z)) i, length rows <= i -> nth i rows [] = [].
Proof. intros. now apply nth_overflow. Qed.

Lemma map_nth_eq : forall (A B : Type) (f : A -> B) (da : A) l m, length l = length m ->
  (forall i, i < length l -> f (nth i l da) = f (nth i m da)) -> map f l = map f m.
Proof.
  intros A B f da l; induction l as [|x l IH]; intros [|y m] H Hf; simpl in *; try lia; [reflexivity|].
  f_equal; [apply (Hf 0); lia|]. apply IH; [lia|]. intros i Hi. apply (Hf (S i)). lia.
Qed.

Lemma concat_nonempty : forall A (l : list (list A)) b, b < length l -> nth b l [] <> [] -> concat l <> [].
Proof.
  intros A l b Hb H E. apply H. destruct (nth b l []) as [|a r] eqn:En; [reflexivity|].
  exfalso. assert (In a (concat l)) as Hin.
  { apply in_concat. exists (nth b l []). split; [now apply nth_In|]. rewrite En. now left. }
  rewrite E in Hin. destruct Hin.
Qed.

(** dense -> sparse -> dense *)
Lemma dense_sparse_dense : forall adj pad ds ss,
  (0 < pad)%Z ->
  (exists b i j, b < length adj /\ i < length (nth b adj []) /\ In j (nth i (nth b adj []) []) /\ (j < pad)%Z) ->
  dense_to_sparse_indices adj (Some pad) = (ds, ss) ->
  exists adj', sparse_to_dense_indices ds ss (Some pad) = Ok adj'
   /\ length adj' = length adj
   /\ forall b, b < length adj -> length (nth b adj' []) = Z.to_nat pad
      /\ forall i, (Z.of_nat i < pad)%Z ->
           exists k, nth i (nth b adj' []) []
                     = filter (fun j => (j <? pad)%Z) (nth i (nth b adj []) []) ++ repeat pad k.
Proof.
  intros adj pad ds ss Hp [b0 [i0 [j0 [Hb0 [Hi0 [Hj0 Hlt]]]]]] E.
  assert (Hne : concat (concat adj) <> []).
  { intro E0. assert (In j0 (concat (concat adj))) as Hin.
    { apply in_concat. exists (nth i0 (nth b0 adj []) []). split; [|assumption].
      apply in_concat. exists (nth b0 adj []). split; apply nth_In; assumption. }
    rewrite E0 in Hin. destruct Hin. }
  destruct (dense_to_sparse_spec adj (Some pad) Hne) as [ds' [ss' [w [E' [L1 [L2 [Hb [bw [Hbw Hw]]]]]]]]].
  rewrite E in E'. injection E' as <- <-. unfold d2s_pad in *.
  assert (Hshape : map (@length Z) ds = map (@length Z) ss).
  { apply map_nth_eq with (da := []); [lia|]. intros i Hi. destruct (Hb i ltac:(lia)) as [H1 [H2 _]]. congruence. }
  assert (Hnds : concat ds <> []).
  { apply concat_nonempty with (b := b0); [lia|]. destruct (Hb b0 Hb0) as [H1 [H2 [k Hk]]].
    intro Hnil. rewrite Hnil in Hk. simpl in Hk. symmetry in Hk. apply app_eq_nil in Hk. destruct Hk as [Hk _].
    assert (In (Z.of_nat i0, j0) (edges_of_adjacency pad (nth b0 adj []))) as Hin.
    { unfold edges_of_adjacency. apply in_flat_map. exists i0. split; [apply in_seq; lia|].
      apply in_map_iff. exists j0. split; [reflexivity|]. apply filter_In. split; [assumption|]. now apply Z.ltb_lt. }
    rewrite Hk in Hin. destruct Hin. }
  destruct (sparse_to_dense_spec ds ss pad Hshape Hnds Hp) as [adj' [w' [E' [L [HB _]]]]].
  exists adj'. split; [assumption|]. split; [lia|]. intros b Hbb.
  destruct (HB b ltac:(lia)) as [Hl Hrow]. split; [assumption|]. intros i Hi.
  destruct (Hrow i Hi) as [k [Ek _]]. exists k. rewrite Ek. f_equal.
  destruct (Hb b Hbb) as [_ [_ [k' Ek']]]. rewrite Ek', sources_of_app, sources_of_repeat_pad by lia.
  rewrite app_nil_r. destruct (Nat.lt_ge_cases i (length (nth b adj []))) as [Hlt'|Hge].
  - now apply sources_of_adjacency.
  - rewrite (nth_overflow (nth b adj []) []) by assumption. simpl. apply sources_of_adjacency_out. lia.
Qed.

(** When no entry is real, the number of rows is lost on the way back. *)
Lemma dense_sparse_dense_empty : forall adj pad ds ss,
  concat (concat adj) <> [] ->
  (forall a r j, In a adj -> In r a -> In j r -> (pad <= j)%Z) ->
  dense_to_sparse_indices adj (Some pad) = (ds, ss) ->
  sparse_to_dense_indices ds ss (Some pad) = Ok (map (fun _ => []) adj).
Proof.
  intros adj pad ds ss Hne Hall E.
  assert (Hz : forall a, In a adj -> edges_of_adjacency pad a = []).
  { intros a Ha. unfold edges_of_adjacency.
    rewrite (flat_map_ext_in _ _ _ (fun _ => [])); [induction (seq 0 (length a)); auto|].
    intros i Hi. apply in_seq in Hi. rewrite (filter_ext_in' _ _ (fun _ => false)).
    - induction (nth i a []); auto.
    - intros j Hj. apply Z.ltb_ge. apply (Hall a (nth i a []) j); [assumption|apply nth_In; lia|assumption]. }
  destruct (dense_to_sparse_spec adj (Some pad) Hne) as [ds' [ss' [w [E' [L1 [L2 [Hb [bw [Hbw Hw]]]]]]]]].
  rewrite E in E'. injection E' as <- <-. unfold d2s_pad in *.
  rewrite Hz in Hw by (now apply nth_In). simpl in Hw. subst w.
  assert (Hshape : map (@length Z) ds = map (@length Z) ss).
  { apply map_nth_eq with (da := []); [lia|]. intros i Hi. destruct (Hb i ltac:(lia)) as [H1 [H2 _]]. congruence. }
  assert (Hd : ds = map (fun _ => []) adj).
  { apply nth_ext with (d := []) (d' := []); [now rewrite map_length|]. intros n Hn.
    rewrite (nth_map_d _ _ _ adj n [] []) by lia. destruct (Hb n ltac:(lia)) as [H1 _].
    now apply length_zero_iff_nil. }
  unfold sparse_to_dense_indices, same_shape.
  destruct (list_eq_dec Nat.eq_dec _ _) as [_|Hn]; [|contradiction]. simpl.
  replace (concat ds) with (@nil Z).
  - f_equal. rewrite Hd, map_map. reflexivity.
  - rewrite Hd. clear. induction adj; auto.
Qed.

(** sparse -> dense -> sparse: the edges come back grouped by destination. *)
Lemma filter_lt_all : forall pad l, (forall j, In j l -> (j < pad)%Z) ->
  filter (fun j => (j <? pad)%Z) l = l.
Proof.
  intros pad l H. rewrite (filter_ext_in' _ _ (fun _ => true)); [apply filter_true'; reflexivity|].
  intros a Ha. apply Z.ltb_lt. now apply H.
Qed.

Lemma filter_lt_repeat : forall pad k, filter (fun j => (j <? pad)%Z) (repeat pad k) = [].
Proof. intros; induction k; simpl; [reflexivity|]. now rewrite Z.ltb_irrefl. Qed.

Lemma sources_of_in : forall i j es, In j (sources_of i es) <-> In (i, j) es.
Proof.
  intros. unfold sources_of. rewrite in_map_iff. split.
  - intros [[a b] [E H]]. apply filter_In in H. destruct H as [H1 H2]. simpl in *. apply Z.eqb_eq in H2. now subst.
  - intros H. exists (i, j). split; [reflexivity|]. apply filter_In. split; [assumption|apply Z.eqb_refl].
Qed.

(** The sources of all destinations [s, s+n) put one after the other: a stable sort. *)
Lemma group_by_destination : forall n s es,
  Permutation (flat_map (fun i => map (fun j => (Z.of_nat i, j)) (sources_of (Z.of_nat i) es)) (seq s n))
              (filter (fun e => (Z.of_nat s <=? fst e)%Z && (fst e <? Z.of_nat (s + n))%Z) es).
Proof.
  intros n; induction n as [|n IH]; intros s es; simpl.
  - rewrite (filter_ext_in' _ _ (fun _ => false)); [induction es; auto|].
    intros e _. rewrite Nat.add_0_r. destruct (Z.leb_spec (Z.of_nat s) (fst e)); simpl; [|reflexivity].
    apply Z.ltb_ge. lia.
  - etransitivity; [apply Permutation_app_head, IH|].
    replace (S s + n) with (s + S n) by lia.
    induction es as [|[d v] es IHe]; [constructor|].
    unfold sources_of in *. cbn [filter map fst snd].
    destruct (Z.eqb_spec d (Z.of_nat s)) as [->|Hne]; cbn [map app snd].
    + replace (Z.of_nat (S s) <=? Z.of_nat s)%Z with false by (symmetry; apply Z.leb_gt; lia).
      replace (Z.of_nat s <=? Z.of_nat s)%Z with true by (symmetry; apply Z.leb_le; lia).
      replace (Z.of_nat s <? Z.of_nat (s + S n))%Z with true by (symmetry; apply Z.ltb_lt; lia).
      cbn [andb]. constructor. assumption.
    + replace (Z.of_nat s <=? d)%Z with (Z.of_nat (S s) <=? d)%Z
        by (destruct (Z.leb_spec (Z.of_nat (S s)) d); destruct (Z.leb_spec (Z.of_nat s) d); lia || reflexivity).
      destruct ((Z.of_nat (S s) <=? d)%Z && (d <? Z.of_nat (s + S n))%Z); [|assumption].
      etransitivity; [|apply perm_skip; exact IHe]. symmetry. apply Permutation_middle.
Qed.

Lemma sparse_dense_sparse : forall dst src pad adj,
  map (@length Z) dst = map (@length Z) src -> concat dst <> [] -> (0 < pad)%Z ->
  (forall b, b < length dst -> forall d s, In (d, s) (combine (nth b dst []) (nth b src [])) ->
        (0 <= d)%Z /\ ((d < pad)%Z -> (s < pad)%Z)) ->
  (exists b d, b < length dst /\ In d (nth b dst []) /\ (0 <= d < pad)%Z) ->
  sparse_to_dense_indices dst src (Some pad) = Ok adj ->
  exists ds ss, dense_to_sparse_indices adj (Some pad) = (ds, ss)
   /\ length ds = length dst
   /\ forall b, b < length dst -> exists k,
        combine (nth b ds []) (nth b ss [])
        = flat_map (fun i => map (fun j => (Z.of_nat i, j))
                       (sources_of (Z.of_nat i) (combine (nth b dst []) (nth b src []))))
                   (seq 0 (Z.to_nat pad)) ++ repeat (pad, pad) k
        /\ Permutation (combine (nth b ds []) (nth b ss []))
             (filter (fun e => (fst e <? pad)%Z) (combine (nth b dst []) (nth b src [])) ++ repeat (pad, pad) k).
Proof.
  intros dst src pad adj Hshape Hne Hp Hin [b0 [d0 [Hb0 [Hd0 Hr0]]]] E.
  destruct (map_length_combine _ _ dst src Hshape) as [Hl Hl'].
  destruct (sparse_to_dense_spec dst src pad Hshape Hne Hp) as [adj' [w [E' [L [HB _]]]]].
  rewrite E in E'. injection E' as <-.
  assert (Hedge : exists s0, In (d0, s0) (combine (nth b0 dst []) (nth b0 src []))).
  { destruct (In_nth _ _ 0%Z Hd0) as [k [Hk <-]]. exists (nth k (nth b0 src []) 0%Z).
    assert (HL : length (nth b0 dst []) = length (nth b0 src [])).
    { specialize (Hl' (nth b0 dst [], nth b0 src [])). apply Hl'.
      rewrite <- (nth_combine _ _ dst src b0 [] []) by assumption.
      apply nth_In. rewrite combine_length. lia. }
    rewrite <- (nth_combine _ _ (nth b0 dst []) (nth b0 src []) k 0%Z 0%Z) by assumption.
    apply nth_In. rewrite combine_length. lia. }
  destruct Hedge as [s0 Hs0].
  assert (Hne2 : concat (concat adj) <> []).
  { destruct (HB b0 Hb0) as [Hrows Hrow]. destruct (Hrow (Z.to_nat d0) ltac:(lia)) as [k [Ek _]].
    intro E0. assert (In s0 (concat (concat adj))) as Hx.
    { apply in_concat. exists (nth (Z.to_nat d0) (nth b0 adj []) []). split.
      - apply in_concat. exists (nth b0 adj []). split; apply nth_In; lia.
      - rewrite Ek. apply in_app_iff. left. apply sources_of_in. rewrite Z2Nat.id by lia. assumption. }
    rewrite E0 in Hx. destruct Hx. }
  destruct (dense_to_sparse_spec adj (Some pad) Hne2) as [ds [ss [w' [Eds [L1 [L2 [Hb _]]]]]]].
  unfold d2s_pad in *.
  exists ds, ss. split; [assumption|]. split; [exact (eq_trans L1 L)|]. intros b Hbb.
  destruct (Hb b ltac:(lia)) as [_ [_ [k Ek]]]. exists k.
  assert (Eedges : edges_of_adjacency pad (nth b adj [])
     = flat_map (fun i => map (fun j => (Z.of_nat i, j))
          (sources_of (Z.of_nat i) (combine (nth b dst []) (nth b src [])))) (seq 0 (Z.to_nat pad))).
  { unfold edges_of_adjacency. destruct (HB b Hbb) as [Hrows Hrow]. rewrite Hrows.
    apply flat_map_ext_in. intros i Hi. apply in_seq in Hi. f_equal.
    destruct (Hrow i ltac:(lia)) as [k' [-> _]]. rewrite filter_app, filter_lt_repeat, app_nil_r.
    apply filter_lt_all. intros j Hj. apply sources_of_in in Hj.
    destruct (Hin b Hbb _ _ Hj) as [_ H]. apply H. lia. }
  rewrite Ek, Eedges. split; [reflexivity|]. apply Permutation_app_tail.
  etransitivity; [apply group_by_destination|]. simpl.
  erewrite filter_ext_in'; [reflexivity|]. intros [d s] He. simpl.
  destruct (Hin b Hbb _ _ He) as [Hd _]. rewrite Z2Nat.id by lia.
  destruct (Z.leb_spec 0 d); [reflexivity|lia].
Qed.

(** ** Default padding value (C05) *)

Lemma sparse_to_dense_default : forall dst src, concat dst <> [] ->
  sparse_to_dense_indices dst src None = sparse_to_dense_indices dst src (Some (zmax_list (concat dst) + 1)%Z).
Proof.
  intros dst src Hne. unfold sparse_to_dense_indices.
  destruct (negb (same_shape dst src)); [reflexivity|]. destruct (concat dst); [congruence|reflexivity].
Qed.

Lemma default_pad_ok : forall dst src,
  map (@length Z) dst = map (@length Z) src -> concat dst <> [] ->
  (forall d, In d (concat dst) -> (0 <= d)%Z) ->
  let pad := (zmax_list (concat dst) + 1)%Z in
  (forall s, In s (concat src) -> (s < pad)%Z) ->
  exists adj, sparse_to_dense_indices dst src None = Ok adj
   /\ forall b i, b < length dst -> (Z.of_nat i < pad)%Z ->
       filter (fun j => (j <? pad)%Z) (nth i (nth b adj []) [])
       = sources_of (Z.of_nat i) (combine (nth b dst []) (nth b src [])).
Proof.
  intros dst src Hshape Hne Hpos pad Hs. rewrite sparse_to_dense_default by assumption. fold pad.
  assert (Hp : (0 < pad)%Z).
  { unfold pad. destruct (concat dst) as [|z zs] eqn:E; [congruence|]. 
    assert (z <= zmax_list (z :: zs))%Z by (apply zmax_list_ge; now left).
    specialize (Hpos z (or_introl eq_refl)). lia. }
  destruct (sparse_to_dense_spec dst src pad Hshape Hne Hp) as [adj [w [E [L [HB _]]]]].
  exists adj. split; [assumption|]. intros b i Hb Hi. destruct (HB b Hb) as [_ Hrow].
  destruct (Hrow i Hi) as [k [-> _]]. rewrite filter_app, filter_lt_repeat, app_nil_r.
  apply filter_lt_all. intros j Hj. apply Hs. apply sources_of_in in Hj. apply in_combine_r in Hj.
  apply in_concat. exists (nth b src []). split; [|assumption]. apply nth_In.
  destruct (map_length_combine _ _ dst src Hshape) as [Hl _]. lia.
Qed.
