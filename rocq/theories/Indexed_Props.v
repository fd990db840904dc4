(** Properties C01-C09: index lists, gathers and indexed reductions. *)
Require Import List ZArith Bool Lia Permutation Sorted Reals Lra.
Require Import Verif.Base Verif.Indexed_Model Verif.Indexed_Spec Verif.Indexed_Pair_Proofs
  Verif.Indexed_Conv_Proofs Verif.Indexed_Red_Proofs.
Import ListNotations.

(** ** C01 *)

Theorem C01_sparse_pairwise_indices_complete : forall num m, (1 <= num)%Z ->
  exists dst src, sparse_pairwise_indices num m = Ok (dst, src)
    /\ length dst = length src
    /\ NoDup (combine dst src)
    /\ (forall i j, In (i, j) (combine dst src) <->
          (Z.of_nat i < num)%Z /\ (Z.of_nat j < num)%Z /\ (m = true -> i <> j))
    /\ StronglySorted le dst.
Proof. exact sparse_pairwise_spec. Qed.
Print Assumptions C01_sparse_pairwise_indices_complete.

Theorem C01_dense_pairwise_indices_rows : forall num m, (1 <= num)%Z ->
  exists rows, dense_pairwise_indices num m = Ok rows
    /\ length rows = Z.to_nat num
    /\ forall i, (Z.of_nat i < num)%Z ->
         nth i rows [] = filter (fun j => negb (m && (j =? i))) (seq 0 (Z.to_nat num)).
Proof. exact dense_pairwise_spec. Qed.
Print Assumptions C01_dense_pairwise_indices_rows.

(** Both formats list the sources in the same order. *)
Theorem C01_pairwise_formats_agree : forall num m rows dst src,
  dense_pairwise_indices num m = Ok rows -> sparse_pairwise_indices num m = Ok (dst, src) ->
  concat rows = src.
Proof. exact pairwise_agree. Qed.
Print Assumptions C01_pairwise_formats_agree.

Theorem C01_pairwise_rejects_small : forall num m, (num < 1)%Z ->
  dense_pairwise_indices num m = Err ValueError /\ sparse_pairwise_indices num m = Err ValueError.
Proof. exact pairwise_errors. Qed.
Print Assumptions C01_pairwise_rejects_small.

Example C01_example :
  sparse_pairwise_indices 3 true = Ok ([0; 0; 1; 1; 2; 2], [1; 2; 0; 2; 0; 1])
  /\ dense_pairwise_indices 3 true = Ok [[1; 2]; [0; 2]; [0; 1]]
  /\ dense_pairwise_indices 1 true = Ok [[]].
Proof. repeat split. Qed.

(** ** C02 *)

Theorem C02_sparse_to_dense_groups_sources : forall dst src pad,
  map (@length Z) dst = map (@length Z) src -> concat dst <> [] -> (0 < pad)%Z ->
  exists adj w, sparse_to_dense_indices dst src (Some pad) = Ok adj
   /\ length adj = length dst
   /\ (forall b, b < length dst -> length (nth b adj []) = Z.to_nat pad
        /\ forall i, (Z.of_nat i < pad)%Z ->
             exists k, nth i (nth b adj []) [] =
                         sources_of (Z.of_nat i) (combine (nth b dst []) (nth b src [])) ++ repeat pad k
                    /\ length (nth i (nth b adj []) []) = w)
   /\ (exists b i, b < length dst /\ (Z.of_nat i < pad)%Z /\
        length (sources_of (Z.of_nat i) (combine (nth b dst []) (nth b src []))) = w).
Proof. exact sparse_to_dense_spec. Qed.
Print Assumptions C02_sparse_to_dense_groups_sources.

Theorem C02_sparse_to_dense_errors : forall dst src pad,
  (map (@length Z) dst <> map (@length Z) src ->
     sparse_to_dense_indices dst src pad = Err ValueError)
  /\ (map (@length Z) dst = map (@length Z) src -> concat dst <> [] ->
      forall p, pad = Some p -> (p <= 0)%Z -> sparse_to_dense_indices dst src pad = Err ValueError).
Proof.
  intros dst src pad. split; [apply sparse_to_dense_shape_error|].
  intros H1 H2 p -> Hp. now apply sparse_to_dense_pad_error.
Qed.
Print Assumptions C02_sparse_to_dense_errors.

Example C02_example :
  sparse_to_dense_indices [[1; 0; 1; 3]; [2; 2; 2; 0]]%Z [[0; 1; 2; 3]; [0; 1; 2; 1]]%Z (Some 3%Z)
  = Ok [[[1; 3; 3]; [0; 2; 3]; [3; 3; 3]]; [[1; 3; 3]; [3; 3; 3]; [0; 1; 2]]]%Z.
Proof. reflexivity. Qed.

(** ** C03 *)

Theorem C03_dense_to_sparse_lists_real_entries : forall adj pad, concat (concat adj) <> [] ->
  exists ds ss w, dense_to_sparse_indices adj (Some pad) = (ds, ss)
   /\ length ds = length adj /\ length ss = length adj
   /\ (forall b, b < length adj ->
         length (nth b ds []) = w /\ length (nth b ss []) = w /\
         exists k, combine (nth b ds []) (nth b ss [])
                   = edges_of_adjacency pad (nth b adj []) ++ repeat (pad, pad) k)
   /\ (exists b, b < length adj /\ w = length (edges_of_adjacency pad (nth b adj []))).
Proof. intros adj pad. exact (dense_to_sparse_spec adj (Some pad)). Qed.
Print Assumptions C03_dense_to_sparse_lists_real_entries.

(** Without [pad_idx] every entry is listed. *)
Theorem C03_dense_to_sparse_default_keeps_all : forall adj, concat (concat adj) <> [] ->
  exists ds ss pad, dense_to_sparse_indices adj None = (ds, ss)
   /\ forall b, b < length adj -> exists k,
        combine (nth b ds []) (nth b ss [])
        = flat_map (fun i => map (fun j => (Z.of_nat i, j)) (nth i (nth b adj []) []))
                   (seq 0 (length (nth b adj []))) ++ repeat (pad, pad) k.
Proof.
  intros adj Hne. destruct (dense_to_sparse_spec adj None Hne) as [ds [ss [w [E [L1 [L2 [HB _]]]]]]].
  exists ds, ss, (d2s_pad adj None). split; [assumption|]. intros b Hb.
  destruct (HB b Hb) as [_ [_ [k Ek]]]. exists k. rewrite Ek. f_equal.
  apply d2s_default_pad_keeps. now apply nth_In.
Qed.
Print Assumptions C03_dense_to_sparse_default_keeps_all.

Example C03_example :
  dense_to_sparse_indices [[[1; 3]; [3; 0]; [0; 1]]; [[3; 3]; [2; 3]; [3; 3]]]%Z (Some 3%Z)
  = ([[0; 1; 2; 2]; [1; 3; 3; 3]], [[1; 0; 0; 1]; [2; 3; 3; 3]])%Z.
Proof. reflexivity. Qed.

(** ** C04 *)

Theorem C04_dense_sparse_dense_roundtrip : forall adj pad ds ss,
  (0 < pad)%Z ->
  (exists b i j, b < length adj /\ i < length (nth b adj []) /\ In j (nth i (nth b adj []) []) /\ (j < pad)%Z) ->
  dense_to_sparse_indices adj (Some pad) = (ds, ss) ->
  exists adj', sparse_to_dense_indices ds ss (Some pad) = Ok adj'
   /\ length adj' = length adj
   /\ forall b, b < length adj -> length (nth b adj' []) = Z.to_nat pad
      /\ forall i, (Z.of_nat i < pad)%Z ->
           exists k, nth i (nth b adj' []) []
                     = filter (fun j => (j <? pad)%Z) (nth i (nth b adj []) []) ++ repeat pad k.
Proof. exact dense_sparse_dense. Qed.
Print Assumptions C04_dense_sparse_dense_roundtrip.

(** The hypothesis that some entry is real is needed: for an adjacency list that
    consists of padding only, the way back loses all rows. *)
Theorem C04_dense_sparse_dense_all_padding : forall adj pad ds ss,
  concat (concat adj) <> [] ->
  (forall a r j, In a adj -> In r a -> In j r -> (pad <= j)%Z) ->
  dense_to_sparse_indices adj (Some pad) = (ds, ss) ->
  sparse_to_dense_indices ds ss (Some pad) = Ok (map (fun _ => []) adj).
Proof. exact dense_sparse_dense_empty. Qed.
Print Assumptions C04_dense_sparse_dense_all_padding.

Theorem C04_sparse_dense_sparse_roundtrip : forall dst src pad adj,
  map (@length Z) dst = map (@length Z) src -> concat dst <> [] -> (0 < pad)%Z ->
  (forall b, b < length dst -> forall d s, In (d, s) (combine (nth b dst []) (nth b src [])) ->
        (0 <= d)%Z /\ ((d < pad)%Z -> (s < pad)%Z)) ->
  (exists b d, b < length dst /\ In d (nth b dst []) /\ (0 <= d < pad)%Z) ->
  sparse_to_dense_indices dst src (Some pad) = Ok adj ->
  exists ds ss, dense_to_sparse_indices adj (Some pad) = (ds, ss)
   /\ length ds = length dst
   /\ forall b, b < length dst -> exists k,
        combine (nth b ds []) (nth b ss [])
        = flat_map (fun i => map (fun j => (Z.of_nat i, j))
                       (sources_of (Z.of_nat i) (combine (nth b dst []) (nth b src []))))
                   (seq 0 (Z.to_nat pad)) ++ repeat (pad, pad) k
        /\ Permutation (combine (nth b ds []) (nth b ss []))
             (filter (fun e => (fst e <? pad)%Z) (combine (nth b dst []) (nth b src [])) ++ repeat (pad, pad) k).
Proof. exact sparse_dense_sparse. Qed.
Print Assumptions C04_sparse_dense_sparse_roundtrip.

Example C04_example :
  (let '(d, s) := dense_to_sparse_indices [[[3; 1]; [2; 0]; [3; 3]]]%Z (Some 3%Z) in
   sparse_to_dense_indices d s (Some 3%Z) = Ok [[[1; 3]; [2; 0]; [3; 3]]]%Z)
  /\ (match sparse_to_dense_indices [[1; 0; 1]]%Z [[0; 1; 1]]%Z (Some 2%Z) with
      | Ok a => dense_to_sparse_indices a (Some 2%Z) = ([[0; 1; 1]], [[1; 0; 1]])%Z
      | Err _ => False end).
Proof. split; reflexivity. Qed.

(** ** C05 *)

(** Refutation: with the default [pad_idx] the value used for padding can be a real
    source index, so padded and real entries cannot be told apart. *)
Theorem C05_default_padding_unambiguous_refuted :
  exists dst src adj pad,
    sparse_to_dense_indices [dst] [src] None = Ok [adj]
    /\ (forall d, In d dst -> (0 <= d)%Z) /\ (forall s, In s src -> (0 <= s)%Z)
    /\ (forall d, In d dst -> (d < pad)%Z)
    /\ nth 1 adj [] = [pad; pad]                       (* padding and a real entry look alike *)
    /\ sources_of 1 (combine dst src) = [pad].
Proof.
  exists [0; 0; 1]%Z, [5; 6; 2]%Z, [[5; 6]; [2; 2]]%Z, 2%Z.
  repeat split; simpl; intros; intuition lia.
Qed.
Print Assumptions C05_default_padding_unambiguous_refuted.

(** It does hold when all sources are at most the largest destination. *)
Theorem C05_default_padding_unambiguous_partial : forall dst src,
  map (@length Z) dst = map (@length Z) src -> concat dst <> [] ->
  (forall d, In d (concat dst) -> (0 <= d)%Z) ->
  let pad := (zmax_list (concat dst) + 1)%Z in
  (forall s, In s (concat src) -> (s < pad)%Z) ->
  exists adj, sparse_to_dense_indices dst src None = Ok adj
   /\ forall b i, b < length dst -> (Z.of_nat i < pad)%Z ->
       filter (fun j => (j <? pad)%Z) (nth i (nth b adj []) [])
       = sources_of (Z.of_nat i) (combine (nth b dst []) (nth b src [])).
Proof. exact default_pad_ok. Qed.
Print Assumptions C05_default_padding_unambiguous_partial.

Example C05_example :
  sparse_to_dense_indices [[0; 0; 2]]%Z [[1; 2; 0]]%Z None = Ok [[[1; 2]; [3; 3]; [0; 3]]]%Z.
Proof. reflexivity. Qed.

(** ** C06 *)

(** The same edges, once as adjacency list with [where = adj < pad], once as the sparse
    list it converts to; edge values are an arbitrary function of destination and source. *)
Theorem C06_dense_sparse_reductions_agree : forall lo hi m g adj pad ds ss b,
  concat (concat adj) <> [] ->
  dense_to_sparse_indices adj (Some pad) = (ds, ss) -> b < length adj ->
  (Z.of_nat (length (nth b adj [])) <= pad)%Z ->
  let rows := nth b adj [] in
  indexed_reduce lo hi m (EDense (map (fun i => map (g (Z.of_nat i)) (nth i rows [])) (seq 0 (length rows)))) false
    (mkReduceArgs (Some rows) (Some (map (map (fun j => (j <? pad)%Z)) rows)) None None)
  = indexed_reduce lo hi m (ESparse (map (fun e => g (fst e) (snd e)) (combine (nth b ds []) (nth b ss [])))) false
      (mkReduceArgs None None (Some (nth b ds [])) (Some (length rows)))
  /\ indexed_reduce lo hi m (EDense (map (fun i => map (g (Z.of_nat i)) (nth i rows [])) (seq 0 (length rows)))) false
    (mkReduceArgs (Some rows) (Some (map (map (fun j => (j <? pad)%Z)) rows)) None None)
  = Ok (GSparse (map (fun i => list_extreme (op_of m) (init_of lo hi m)
           (map (g (Z.of_nat i)) (filter (fun j => (j <? pad)%Z) (nth i rows []))))
        (seq 0 (length rows)))).
Proof.
  intros lo hi m g adj pad ds ss b Hne E Hb Hpad rows.
  fold (dense_values g rows). fold (sparse_values g (nth b ds []) (nth b ss [])).
  assert (Hsh : map (@length Z) rows = map (@length R) (dense_values g rows)).
  { unfold dense_values. rewrite map_map. apply nth_ext with (d := 0) (d' := 0).
    - now rewrite !map_length, seq_length.
    - intros n Hn. rewrite map_length in Hn. rewrite nth_map_seq by assumption.
      rewrite (nth_map_d _ _ _ rows n []) by assumption. now rewrite map_length. }
  destruct (dense_to_sparse_spec adj (Some pad) Hne) as [ds' [ss' [w [E' [_ [_ [HB _]]]]]]].
  rewrite E in E'. injection E' as <- <-. destruct (HB b Hb) as [Hl1 [Hl2 _]].
  assert (Hlen : length (nth b ds []) = length (sparse_values g (nth b ds []) (nth b ss []))).
  { unfold sparse_values. rewrite map_length, combine_length. lia. }
  unfold indexed_reduce. simpl.
  destruct (list_eq_dec Nat.eq_dec _ _) as [_|Hn]; [|contradiction].
  rewrite Hlen, Nat.eqb_refl.
  split.
  - f_equal. f_equal. exact (dense_sparse_reduce lo hi m g adj pad ds ss b Hne E Hb Hpad).
  - f_equal. f_equal. apply reduce_dense_spec.
Qed.
Print Assumptions C06_dense_sparse_reductions_agree.

Theorem C06_padding_edges_ignored : forall lo hi m n dst vals dp vp,
  length dst = length vals -> length dp = length vp ->
  (forall d, In d dp -> (d < 0 \/ Z.of_nat n <= d)%Z) ->
  indexed_reduce lo hi m (ESparse (vals ++ vp)) false (mkReduceArgs None None (Some (dst ++ dp)) (Some n))
  = indexed_reduce lo hi m (ESparse vals) false (mkReduceArgs None None (Some dst) (Some n)).
Proof.
  intros lo hi m n dst vals dp vp H H' Hd. unfold indexed_reduce. simpl.
  rewrite !app_length, H, H', !Nat.eqb_refl. f_equal. f_equal. now apply reduce_sparse_ignores.
Qed.
Print Assumptions C06_padding_edges_ignored.

(** With keepdims every edge of the sparse format, and every row of the dense one, gets the value of
    its own destination. *)
Theorem C06_keepdims : forall lo hi m,
  (forall vals dst n out, length dst = length vals ->
     indexed_reduce lo hi m (ESparse vals) false (mkReduceArgs None None (Some dst) (Some n)) = Ok (GSparse out) ->
     exists kept, indexed_reduce lo hi m (ESparse vals) true (mkReduceArgs None None (Some dst) (Some n)) = Ok (GSparse kept)
       /\ length kept = length dst
       /\ forall e, e < length dst -> (0 <= nth e dst 0 < Z.of_nat n)%Z ->
            nth e kept 0%R = nth (Z.to_nat (nth e dst 0%Z)) out 0%R)
  /\ (forall rows adj w out,
     indexed_reduce lo hi m (EDense rows) false (mkReduceArgs (Some adj) (Some w) None None) = Ok (GSparse out) ->
     indexed_reduce lo hi m (EDense rows) true (mkReduceArgs (Some adj) (Some w) None None)
     = Ok (GDense (map (fun v => [v]) out))).
Proof.
  intros lo hi m. split.
  - intros vals dst n out Hl. unfold indexed_reduce. simpl. rewrite Hl, Nat.eqb_refl.
    intros E. injection E as <-. eexists. split; [reflexivity|]. split; [unfold gather_sparse; now rewrite map_length|].
    intros e He Hr. rewrite gather_sparse_nth; [reflexivity|lia|].
    unfold reduce_sparse. now rewrite map_length, seq_length.
  - intros rows adj w out. unfold indexed_reduce. simpl.
    destruct (list_eq_dec _ _ _); intros E; [|discriminate]. now injection E as <-.
Qed.
Print Assumptions C06_keepdims.

(** Every segment of the sum is the sum over its edges; min/max are attained bounds. *)
Theorem C06_segments_are_reductions : forall lo hi n dst vals s,
  length dst = length vals -> s < n ->
  (exists out, indexed_reduce lo hi RSum (ESparse vals) false (mkReduceArgs None None (Some dst) (Some n))
               = Ok (GSparse out)
     /\ length out = n /\ nth s out 0%R = list_sum (values_at (Z.of_nat s) (combine dst vals)))
  /\ (values_at (Z.of_nat s) (combine dst vals) <> [] ->
      (forall v, In v vals -> (lo <= v <= hi)%R) ->
      (exists out, indexed_reduce lo hi RMax (ESparse vals) false (mkReduceArgs None None (Some dst) (Some n))
               = Ok (GSparse out)
        /\ In (nth s out 0%R) (values_at (Z.of_nat s) (combine dst vals))
        /\ forall v, In v (values_at (Z.of_nat s) (combine dst vals)) -> (v <= nth s out 0)%R)
      /\ (exists out, indexed_reduce lo hi RMin (ESparse vals) false (mkReduceArgs None None (Some dst) (Some n))
               = Ok (GSparse out)
        /\ In (nth s out 0%R) (values_at (Z.of_nat s) (combine dst vals))
        /\ forall v, In v (values_at (Z.of_nat s) (combine dst vals)) -> (nth s out 0 <= v)%R)).
Proof.
  intros lo hi n dst vals s H Hs. unfold indexed_reduce. simpl. rewrite H, Nat.eqb_refl. split.
  - eexists. split; [reflexivity|]. split; [unfold reduce_sparse; now rewrite map_length, seq_length|].
    rewrite reduce_sparse_nth by assumption. apply list_extreme_sum.
  - intros Hne Hb.
    assert (Hv : forall v, In v (values_at (Z.of_nat s) (combine dst vals)) -> (lo <= v <= hi)%R).
    { intros v Hv. apply values_at_in in Hv. destruct Hv as [e [_ [He [_ <-]]]]. apply Hb, nth_In. assumption. }
    split; eexists; (split; [reflexivity|]); rewrite reduce_sparse_nth by assumption; simpl op_of; simpl init_of.
    + apply list_extreme_max; [intros; now apply Hv|assumption].
    + apply list_extreme_min; [intros; now apply Hv|assumption].
Qed.
Print Assumptions C06_segments_are_reductions.

Example C06_example :
  exists g : Z -> Z -> R,
  let rows := [[1; 3]; [0; 2]; [3; 3]]%Z in
  indexed_reduce (-10) 10 RSum (EDense (map (fun i => map (g (Z.of_nat i)) (nth i rows [])) (seq 0 3))) false
    (mkReduceArgs (Some rows) (Some (map (map (fun j => (j <? 3)%Z)) rows)) None None)
  = Ok (GSparse [1; 22; 0]%R).
Proof.
  exists (fun i j => (10 * IZR i + IZR j)%R). unfold indexed_reduce, reduce_dense. simpl.
  f_equal. f_equal. repeat (apply f_equal2; [lra|]). reflexivity.
Qed.

(** ** C07 *)

Theorem C07_reductions_edge_order_independent : forall lo hi m n dst vals dst' vals',
  length dst = length vals -> length dst' = length vals' ->
  Permutation (combine dst vals) (combine dst' vals') ->
  indexed_reduce lo hi m (ESparse vals) false (mkReduceArgs None None (Some dst) (Some n))
  = indexed_reduce lo hi m (ESparse vals') false (mkReduceArgs None None (Some dst') (Some n)).
Proof.
  intros lo hi m n dst vals dst' vals' H H' HP. unfold indexed_reduce. simpl.
  rewrite H, H', !Nat.eqb_refl. f_equal. f_equal. now apply reduce_sparse_perm.
Qed.
Print Assumptions C07_reductions_edge_order_independent.

Example C07_example : Permutation (combine [0; 1; 0]%Z [1; 2; 3]%R) (combine [1; 0; 0]%Z [2; 1; 3]%R).
Proof. simpl. apply perm_swap. Qed.

(** Required arguments are checked. *)
Theorem C07_reduce_argument_errors : forall lo hi m inputs kd adj dst w n,
  indexed_reduce lo hi m inputs kd (mkReduceArgs None w None n) = Err RuntimeError
  /\ indexed_reduce lo hi m inputs kd (mkReduceArgs (Some adj) w (Some dst) n) = Err RuntimeError
  /\ indexed_reduce lo hi m inputs kd (mkReduceArgs (Some adj) None None n) = Err TypeError
  /\ indexed_reduce lo hi m inputs kd (mkReduceArgs None w (Some dst) None) = Err TypeError.
Proof. intros. repeat split; reflexivity. Qed.
Print Assumptions C07_reduce_argument_errors.

(** ** C08 *)

(** [w] is the multiplicative mask, or all ones when none is given. *)
Theorem C08_softmax_formula : forall lo hi n dst vals mult,
  let w := match mult with None => repeat 1%R (length vals) | Some mk => mk end in
  length dst = length vals -> length w = length vals -> (forall x, In x w -> (0 <= x)%R) ->
  forall e e0, e < length dst -> (0 <= nth e dst 0 < Z.of_nat n)%Z ->
  e0 < length dst -> nth e0 dst 0%Z = nth e dst 0%Z -> (0 < nth e0 w 0)%R ->
  nth e (softmax_sparse lo hi n dst vals mult) 0%R
  = (exp (nth e vals 0) * nth e w 0
     / list_sum (values_at (nth e dst 0%Z)
          (combine dst (map (fun p => (exp (fst p) * snd p)%R) (combine vals w)))))%R.
Proof.
  intros lo hi n dst vals mult w Hd Hw Hpos e e0 He Hr He0 Es Hp.
  apply softmax_sparse_formula; try assumption.
  pose proof (segment_mass_pos dst vals mult Hd Hw Hpos _ e0 He0 Es Hp) as Hm. unfold weight_list in *. 
  apply Rgt_not_eq. exact Hm.
Qed.
Print Assumptions C08_softmax_formula.

Theorem C08_softmax_distribution : forall lo hi n dst vals mult,
  let w := match mult with None => repeat 1%R (length vals) | Some mk => mk end in
  length dst = length vals -> length w = length vals -> (forall x, In x w -> (0 <= x)%R) ->
  forall s e0, (0 <= s < Z.of_nat n)%Z ->
  e0 < length dst -> nth e0 dst 0%Z = s -> (0 < nth e0 w 0)%R ->
  list_sum (values_at s (combine dst (softmax_sparse lo hi n dst vals mult))) = 1%R
  /\ forall e, e < length dst -> nth e dst 0%Z = s ->
       (0 <= nth e (softmax_sparse lo hi n dst vals mult) 0)%R.
Proof.
  intros lo hi n dst vals mult w Hd Hw Hpos s e0 Hs He0 E0 Hp. split.
  - exact (softmax_sum_one lo hi n dst vals mult Hd Hw Hpos s e0 Hs He0 E0 Hp).
  - intros e He Es. apply (softmax_nonneg lo hi n dst vals mult Hd Hw Hpos e e0); try assumption; try congruence.
Qed.
Print Assumptions C08_softmax_distribution.

Theorem C08_softmax_shift_invariant : forall lo hi n dst vals mult c,
  let w := match mult with None => repeat 1%R (length vals) | Some mk => mk end in
  length dst = length vals -> length w = length vals -> (forall x, In x w -> (0 <= x)%R) ->
  forall e e0, e < length dst -> (0 <= nth e dst 0 < Z.of_nat n)%Z ->
  e0 < length dst -> nth e0 dst 0%Z = nth e dst 0%Z -> (0 < nth e0 w 0)%R ->
  nth e (softmax_sparse lo hi n dst (map (fun v => (v + c)%R) vals) mult) 0%R
  = nth e (softmax_sparse lo hi n dst vals mult) 0%R.
Proof. exact softmax_shift. Qed.
Print Assumptions C08_softmax_shift_invariant.

(** Dense rows: the entries selected by [where] sum to one. *)
Theorem C08_softmax_dense_distribution : forall lo hi wh vals mult,
  let w := match mult with None => repeat 1%R (length vals) | Some mk => mk end in
  length w = length vals -> (forall x, In x w -> (0 <= x)%R) ->
  forall e0, e0 < length vals -> nth e0 wh false = true -> (0 < nth e0 w 0)%R ->
  let out := softmax_row lo hi wh vals mult in
  list_sum (map fst (filter (fun p : R * bool => snd p) (combine out wh))) = 1%R
  /\ forall e, e < length vals -> (0 <= nth e out 0)%R.
Proof.
  intros lo hi wh vals mult w Hw Hpos e0 He0 Hwh Hp out.
  assert (Hexp : forall x, In x (exp_weights vals w) -> (0 <= x)%R).
  { intros x Hx. unfold exp_weights in Hx. apply in_map_iff in Hx. destruct Hx as [[a b] [<- H]].
    apply in_combine_r in H. simpl. apply Rmult_le_pos; [left; apply exp_pos|now apply Hpos]. }
  assert (HD : (0 < reduce_row lo hi RSum (exp_weights vals w) wh)%R).
  { apply reduce_row_pos with (e := e0); try assumption.
    - unfold exp_weights. rewrite map_length, combine_length. lia.
    - rewrite exp_weights_nth by lia. apply Rmult_lt_0_compat; [apply exp_pos|assumption]. }
  split.
  - rewrite <- list_extreme_sum. pose proof (reduce_row_spec lo hi RSum out wh) as Hs. simpl in Hs. rewrite <- Hs.
    apply (softmax_row_sum_one lo hi wh vals mult Hw). apply Rgt_not_eq. exact HD.
  - intros e He. unfold out. rewrite (softmax_row_formula lo hi wh vals mult Hw); [|apply Rgt_not_eq; exact HD|assumption].
    apply Rmult_le_pos; [apply Rmult_le_pos; [left; apply exp_pos|apply Hpos, nth_In; unfold w in *; lia]|].
    left. apply Rinv_0_lt_compat. exact HD.
Qed.
Print Assumptions C08_softmax_dense_distribution.

Example C08_example :
  (* three edges, two of them into node 0; the second one is masked out *)
  let dst := [0; 0; 1]%Z in let vals := [2; 5; 7]%R in let mk := [1; 0; 1]%R in
  length dst = length vals /\ length mk = length vals /\ (forall x, In x mk -> (0 <= x)%R)
  /\ (0 <= 0 < Z.of_nat 2)%Z /\ nth 0 dst 0%Z = 0%Z /\ (0 < nth 0 mk 0)%R.
Proof.
  simpl. repeat split; try lra; try lia.
  intros x H. repeat (destruct H as [<-|H]; [lra|]). destruct H.
Qed.

(** ** C09 *)

Theorem C09_gather_src_sparse : forall A (d : A) x src,
  exists out, gather_src d x None (Some src) = Ok (GSparse out) /\ length out = length src
    /\ forall e, e < length src -> (0 <= nth e src 0 < Z.of_nat (length x))%Z ->
         nth e out d = nth (Z.to_nat (nth e src 0%Z)) x d.
Proof.
  intros A d x src. exists (gather_sparse d x src). split; [reflexivity|].
  split; [apply map_length|]. intros. now apply gather_sparse_nth.
Qed.
Print Assumptions C09_gather_src_sparse.

Theorem C09_gather_src_dense : forall A (d : A) x adj,
  exists out, gather_src d x (Some adj) None = Ok (GDense out) /\ map (@length A) out = map (@length Z) adj
    /\ forall i k, i < length adj -> k < length (nth i adj []) ->
         (0 <= nth k (nth i adj []) 0 < Z.of_nat (length x))%Z ->
         nth k (nth i out []) d = nth (Z.to_nat (nth k (nth i adj []) 0%Z)) x d.
Proof.
  intros A d x adj. exists (gather_dense d x adj). split; [reflexivity|]. unfold gather_dense. split.
  - rewrite map_map. apply map_ext. intros; apply map_length.
  - intros i k Hi Hk Hr. rewrite (nth_map_d _ _ _ adj i []) by assumption.
    rewrite (nth_map_d _ _ _ (nth i adj []) k 0%Z) by assumption. now apply take_in.
Qed.
Print Assumptions C09_gather_src_dense.

Theorem C09_gather_dst : forall A (d : A) x,
  (forall dst, exists out, gather_dst d x None (Some dst) = Ok (GSparse out) /\ length out = length dst
    /\ forall e, e < length dst -> (0 <= nth e dst 0 < Z.of_nat (length x))%Z ->
         nth e out d = nth (Z.to_nat (nth e dst 0%Z)) x d)
  /\ (forall adj, length adj = length x ->
      exists out, gather_dst d x (Some adj) None = Ok (GDense out)
       /\ length out = length adj
       /\ forall i, i < length adj -> nth i out [] = repeat (nth i x d) (length (nth i adj []))).
Proof.
  intros A d x. split.
  - intros dst. exists (gather_sparse d x dst). split; [reflexivity|].
    split; [apply map_length|]. intros. now apply gather_sparse_nth.
  - intros adj Hl. eexists. split; [reflexivity|]. rewrite map_length, combine_length. split; [lia|].
    intros i Hi. rewrite (nth_map_d _ _ _ (combine x adj) i (d, [])) by (rewrite combine_length; lia).
    rewrite nth_combine by (now symmetry). simpl.
    induction (nth i adj []); simpl; [|rewrite IHl]; reflexivity.
Qed.
Print Assumptions C09_gather_dst.

(** Indices outside the array: a negative one counts from the end, and anything further out is
    clamped to the first or last entry (in both gathers and both formats, which share [take]). *)
Theorem C09_gather_out_of_range : forall A (d : A) x src, x <> [] ->
  exists out, gather_src d x None (Some src) = Ok (GSparse out)
    /\ gather_dst d x None (Some src) = Ok (GSparse out)
    /\ forall e, e < length src ->
         ((- Z.of_nat (length x) <= nth e src 0 < 0)%Z ->
            nth e out d = nth (Z.to_nat (nth e src 0 + Z.of_nat (length x))%Z) x d)
         /\ ((nth e src 0 < - Z.of_nat (length x))%Z -> nth e out d = hd d x)
         /\ ((Z.of_nat (length x) <= nth e src 0)%Z -> nth e out d = last x d).
Proof.
  intros A d x src Hx. eexists. split; [reflexivity|]. split; [reflexivity|]. intros e He.
  unfold gather_sparse. rewrite (nth_map_d _ _ _ src e 0%Z) by assumption.
  set (i := nth e src 0%Z). unfold take, jax_index.
  assert (Hn : 0 < length x) by (destruct x; [congruence|simpl; lia]).
  repeat split; intros H.
  - destruct (Z.ltb_spec i 0); [|lia]. f_equal. lia.
  - destruct (Z.ltb_spec i 0); [|lia].
    replace (Z.to_nat _) with 0 by lia. destruct x; reflexivity.
  - destruct (Z.ltb_spec i 0); [lia|].
    replace (Z.to_nat _) with (length x - 1) by lia.
    destruct (exists_last Hx) as [l' [a ->]]. rewrite app_length, last_last. simpl.
    rewrite app_nth2 by lia. replace (length l' + 1 - 1 - length l') with 0 by lia. reflexivity.
Qed.
Print Assumptions C09_gather_out_of_range.

(** Every edge sees its own source whichever format is used. *)
Theorem C09_gather_formats_agree : forall A (d : A) x adj pad ds ss b,
  concat (concat adj) <> [] -> dense_to_sparse_indices adj (Some pad) = (ds, ss) -> b < length adj ->
  exists k, gather_sparse d x (nth b ss [])
    = concat (map (fun row => map (take d x) (filter (fun j => (j <? pad)%Z) row)) (nth b adj [])) ++ repeat (take d x pad) k.
Proof.
  intros A d x adj pad ds ss b Hne E Hb.
  destruct (dense_to_sparse_spec adj (Some pad) Hne) as [ds' [ss' [w [E' [_ [_ [HB _]]]]]]].
  rewrite E in E'. injection E' as <- <-. destruct (HB b Hb) as [Hl1 [Hl2 [k Ek]]]. unfold d2s_pad in Ek.
  exists k. assert (Hss : nth b ss [] = map snd (combine (nth b ds []) (nth b ss []))).
  { assert (Hc : forall (a c : list Z), length a = length c -> map snd (combine a c) = c).
    { induction a as [|y a IHa]; intros [|z c] Hc; simpl in *; try lia; [reflexivity|]. now rewrite IHa by lia. }
    symmetry. apply Hc. congruence. }
  rewrite Hss, Ek. unfold gather_sparse. rewrite map_map, map_app. f_equal.
  - unfold edges_of_adjacency. set (rows := nth b adj []).
    assert (Hrows : map (fun row => map (take d x) (filter (fun j => (j <? pad)%Z) row)) rows
       = map (fun i => map (take d x) (filter (fun j => (j <? pad)%Z) (nth i rows []))) (seq 0 (length rows))).
    { apply nth_ext with (d := []) (d' := []); [now rewrite !map_length, seq_length|].
      intros n Hn. rewrite map_length in Hn. rewrite nth_map_seq by assumption.
      now rewrite (nth_map_d _ _ _ rows n []) by assumption. }
    rewrite Hrows. clear. induction (seq 0 (length rows)) as [|i l IH]; simpl; [reflexivity|].
    rewrite map_app, IH, map_map. reflexivity.
  - clear. induction k; simpl; [|rewrite IHk]; reflexivity.
Qed.
Print Assumptions C09_gather_formats_agree.

Theorem C09_index_type_errors : forall A (d : A) x adj src,
  gather_src d x None None = Err RuntimeError
  /\ gather_dst d x None None = Err RuntimeError
  /\ gather_src d x (Some adj) (Some src) = Err RuntimeError
  /\ gather_dst d x (Some adj) (Some src) = Err RuntimeError.
Proof. intros. repeat split; reflexivity. Qed.
Print Assumptions C09_index_type_errors.

(** Index lists of different shapes are rejected, and only they. *)
Theorem C09_determine_index_type_sparse : forall d s,
  determine_index_type None (Some d) (Some s) = (if list_eq_dec Nat.eq_dec d s then Ok Sparse else Err ValueError).
Proof. reflexivity. Qed.
Print Assumptions C09_determine_index_type_sparse.

Example C09_example :
  gather_src 0 [10; 11; 12] (Some [[1; 2]; [0; 2]; [0; 1]]%Z) None
  = Ok (GDense [[11; 12]; [10; 12]; [10; 11]])
  /\ gather_src 0 [10; 11; 12] None (Some [2; 0]%Z) = Ok (GSparse [12; 10]).
Proof. split; reflexivity. Qed.
