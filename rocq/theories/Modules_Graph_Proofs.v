(** Proofs about gathering, summing over edges, the convolution and message passing. *)
Require Import List Reals ZArith Bool Lia Lra.
Require Import ZifyNat.
Require Import Verif.Base Verif.RSum Verif.Features_Model Verif.Features_Spec Verif.Features_Proofs
  Verif.Indexed_Model Verif.Modules_Model Verif.Modules_Spec Verif.Modules_Proofs
  Verif.Modules_Tensor_Proofs Verif.Modules_Fused_Proofs Verif.Modules_Equiv_Proofs.
Import ListNotations.
Open Scope R_scope.
Arguments Nat.modulo : simpl never.
Arguments Nat.mul : simpl never.

Notation Fshape := Modules_Equiv_Proofs.same_shape.

(** * Lists *)

Lemma nth_map_seq : forall (A : Type) (v : nat -> A) n a e d, (e < n)%nat -> nth e (map v (seq a n)) d = v (a + e)%nat.
Proof.
  intros A v n a e d H. rewrite (nth_indep _ d (v 0%nat)) by (rewrite map_length, seq_length; lia).
  rewrite map_nth, seq_nth by lia. reflexivity.
Qed.

Lemma row_sum : forall M v a ws,
  reduce_row 0 0 Indexed_Model.RSum (map v (seq a M)) ws = rsum M (fun m => if nth m ws false then v (a + m)%nat else 0).
Proof.
  induction M as [|M IH]; intros v a ws; [reflexivity|].
  cbn [seq map]. destruct ws as [|w ws].
  - rewrite rsum_zero; [reflexivity|]. intros [|m] _; reflexivity.
  - cbn [reduce_row op_of]. rewrite rsum_S_l, IH. rewrite Nat.add_0_r. cbn [nth].
    assert (E : rsum M (fun m => if nth m ws false then v (S a + m)%nat else 0) = rsum M (fun i => if nth i ws false then v (a + S i)%nat else 0)).
    { apply rsum_ext. intros m _. replace (a + S m)%nat with (S a + m)%nat by lia. reflexivity. }
    rewrite E. destruct w; ring.
Qed.

Lemma segment_sum : forall P v a dst s,
  reduce_segment 0 0 Indexed_Model.RSum s dst (map v (seq a P))
  = rsum P (fun e => if ((e <? length dst)%nat && (nth e dst 0 =? s)%Z)%bool then v (a + e)%nat else 0).
Proof.
  induction P as [|P IH]; intros v a dst s; [destruct dst; reflexivity|].
  cbn [seq map]. destruct dst as [|d dst].
  - rewrite rsum_zero; [reflexivity|]. intros [|m] _; reflexivity.
  - cbn [reduce_segment op_of]. rewrite rsum_S_l, IH. rewrite Nat.add_0_r. cbn [nth length].
    assert (E : rsum P (fun e => if ((e <? length dst)%nat && (nth e dst 0 =? s)%Z)%bool then v (S a + e)%nat else 0)
       = rsum P (fun i => if ((S i <? S (length dst))%nat && (nth i dst 0 =? s)%Z)%bool then v (a + S i)%nat else 0)).
    { apply rsum_ext. intros m _. replace (a + S m)%nat with (S a + m)%nat by lia. reflexivity. }
    change (0 <? S (length dst))%nat with true. cbn [andb].
    rewrite E. destruct (d =? s)%Z; ring.
Qed.

Lemma removelast_snoc : forall (A : Type) (b : list A) x, removelast (b ++ [x]) = b.
Proof. intros. apply removelast_last. Qed.

Lemma but_last_snoc : forall b n, but_last (b ++ [n]) = b.
Proof. intros. apply removelast_snoc. Qed.
Lemma but_last_snoc2 : forall b n m, but_last (b ++ [n; m]) = b ++ [n].
Proof. intros. change [n; m] with ([n] ++ [m]). rewrite app_assoc. apply removelast_snoc. Qed.
Lemma but_last2_snoc : forall b n m, but_last2 (b ++ [n; m]) = b.
Proof. intros. unfold but_last2. change (removelast (b ++ [n; m])) with (but_last (b ++ [n; m])). rewrite but_last_snoc2. apply removelast_snoc. Qed.
Lemma last1_snoc : forall b n, last1 (b ++ [n]) = n.
Proof. intros. apply last_last. Qed.
Lemma last1_snoc2 : forall b n m, last1 (b ++ [n; m]) = m.
Proof. intros. change [n; m] with ([n] ++ [m]). rewrite app_assoc. apply last_last. Qed.
Lemma last2_snoc : forall b n m, last2 (b ++ [n; m]) = n.
Proof. intros. unfold last2. change (removelast (b ++ [n; m])) with (but_last (b ++ [n; m])). rewrite but_last_snoc2. apply last_last. Qed.

(** * Linear operations on the batch index *)

Lemma linear_transformed : forall s Dx Dy x x' y y' (E : list nat -> nat) (c : list nat -> nat -> nat -> R) (idx : list nat -> nat -> list nat),
  transformed s Dx x x' -> Fshape y y' -> fS y = fS x -> fD y = fD x ->
  (forall i p d f, fv y i p d f = rsum (E i) (fun e => c i e f * fv x (idx i e) p d f)) ->
  (forall i p d f, fv y' i p d f = rsum (E i) (fun e => c i e f * fv x' (idx i e) p d f)) ->
  (forall i e, (e < E i)%nat -> Dx (idx i e) = Dy i) ->
  transformed s Dy y y'.
Proof.
  intros s Dx Dy x x' y y' E c idx [TB [TS [TD [TF [Td TC]]]]] [HB [HS [HD [HF Hd]]]] ES ED Hy Hy' HE.
  do 5 (split; [assumption|]). intros i p l k f Hp Hk.
  assert (L : forall (x y : feat) i p l k f, fS y = fS x -> fD y = fD x ->
    (forall i p d f, fv y i p d f = rsum (E i) (fun e => c i e f * fv x (idx i e) p d f)) ->
    comp y i p l k f = rsum (E i) (fun e => c i e f * comp x (idx i e) p l k f)).
  { clear. intros x y i p l k f ES ED Hy. unfold comp. rewrite ES, ED.
    destruct (_ <=? _)%nat; [|symmetry; apply rsum_zero; intros; ring].
    destruct (fS x =? 2)%nat; [apply Hy|]. destruct (p =? l mod 2)%nat; [apply Hy|symmetry; apply rsum_zero; intros; ring]. }
  rewrite (L x' y') by (assumption || congruence).
  transitivity (parity_sign s p * rsum (2 * l + 1) (fun k' => rsum (E i) (fun e => c i e f * (comp x (idx i e) p l k' f * Dy i (l * l + k')%nat (l * l + k)%nat)))).
  - rewrite rsum_swap, <- rsum_scal_l. apply rsum_ext. intros e He. rewrite TC by assumption.
    rewrite (HE i e He), rsum_scal_l. ring.
  - f_equal. apply rsum_ext. intros k' _. rewrite (L x y) by assumption. rewrite <- rsum_scal_r.
    apply rsum_ext. intros e _. ring.
Qed.

(** * Gathers *)

(** Matrices for the edges of a graph, given one for every batch element. *)
Definition edge_matrices (ty : index_type) (D0 : list nat -> nat -> nat -> R) (i : list nat) : nat -> nat -> R :=
  match ty with Dense => D0 (but_last2 i) | Sparse => D0 (but_last i) end.
Definition node_matrices (D0 : list nat -> nat -> nat -> R) (i : list nat) : nat -> nat -> R := D0 (but_last i).

Lemma take_node : forall x b s d f j,
  take 0 (node_values x b s d f) j
  = if (last1 (fB x) =? 0)%nat then 0 else fv x (b ++ [jax_index (last1 (fB x)) j]) s d f.
Proof.
  intros x b s d f j. unfold take, node_values. rewrite map_length, seq_length.
  destruct (Nat.eqb_spec (last1 (fB x)) 0) as [E|E].
  - rewrite E. cbn [seq map]. destruct (jax_index 0 j); reflexivity.
  - rewrite nth_map_seq; [reflexivity|]. unfold jax_index. lia.
Qed.

Lemma gather_sparse_value : forall x b s d f src e,
  nth e (gather_sparse 0 (node_values x b s d f) src) 0
  = if ((e <? length src)%nat && negb (last1 (fB x) =? 0)%nat)%bool then fv x (b ++ [jax_index (last1 (fB x)) (nth e src 0%Z)]) s d f else 0.
Proof.
  intros x b s d f src e. unfold gather_sparse. destruct (Nat.ltb_spec e (length src)) as [H|H].
  - rewrite (nth_indep _ 0 (take 0 (node_values x b s d f) 0%Z)) by (rewrite map_length; assumption).
    rewrite map_nth, take_node. destruct (last1 (fB x) =? 0)%nat; reflexivity.
  - apply nth_overflow. rewrite map_length. assumption.
Qed.

Lemma gather_dense_value : forall x b s d f adj n m,
  nth m (nth n (gather_dense 0 (node_values x b s d f) adj) []) 0
  = if ((m <? length (nth n adj []))%nat && negb (last1 (fB x) =? 0)%nat)%bool
    then fv x (b ++ [jax_index (last1 (fB x)) (nth m (nth n adj []) 0%Z)]) s d f else 0.
Proof.
  intros x b s d f adj n m. unfold gather_dense. destruct (Nat.ltb_spec n (length adj)) as [Hn|Hn].
  - rewrite (nth_indep _ [] (map (take 0 (node_values x b s d f)) [])) by (rewrite map_length; assumption).
    rewrite (map_nth (map (take 0 (node_values x b s d f))) adj [] n). apply (gather_sparse_value x b s d f (nth n adj [])).
  - rewrite (nth_overflow (map _ adj)) by (rewrite map_length; assumption).
    rewrite (nth_overflow adj) by assumption. destruct m; reflexivity.
Qed.

Lemma gather_src_inv : forall x g y, gather_src_feat x g = Ok y ->
  fS y = fS x /\ fD y = fD x /\ fF y = fF x /\ fdt y = fdt x
  /\ ((exists N M adj, g_adj g = Some (N, M, adj) /\ g_src g = None /\ fB y = but_last (fB x) ++ [N; M]
        /\ forall i p d f, fv y i p d f =
           if ((last1 i <? length (nth (last2 i) (adj (but_last2 i)) []))%nat && negb (last1 (fB x) =? 0)%nat)%bool
           then fv x (but_last2 i ++ [jax_index (last1 (fB x)) (nth (last1 i) (nth (last2 i) (adj (but_last2 i)) []) 0%Z)]) p d f else 0)
      \/ (exists P src, g_adj g = None /\ g_src g = Some (P, src) /\ fB y = but_last (fB x) ++ [P]
        /\ forall i p d f, fv y i p d f =
           if ((last1 i <? length (src (but_last i)))%nat && negb (last1 (fB x) =? 0)%nat)%bool
           then fv x (but_last i ++ [jax_index (last1 (fB x)) (nth (last1 i) (src (but_last i)) 0%Z)]) p d f else 0)).
Proof.
  intros x g y H. unfold gather_src_feat, graph_type, determine_index_type in H.
  destruct (g_adj g) as [[[N M] adj]|] eqn:EA; destruct (g_src g) as [[P src]|] eqn:ES; cbn in H; try discriminate;
    injection H as <-; do 4 (split; [reflexivity|]).
  - left. exists N, M, adj. do 3 (split; [reflexivity|]). intros i p d f. cbn [fv]. apply gather_dense_value.
  - right. exists P, src. do 3 (split; [reflexivity|]). intros i p d f. cbn [fv]. apply gather_sparse_value.
Qed.

Lemma gather_src_ok : forall x x' g y, Fshape x x' -> gather_src_feat x g = Ok y ->
  exists y', gather_src_feat x' g = Ok y' /\ Fshape y y'.
Proof.
  intros x x' g y [HB [HS [HD [HF Hd]]]] H. unfold gather_src_feat in *. rewrite HB, HS, HD, HF, Hd.
  destruct (graph_type g false true) as [[|]|]; [| |discriminate].
  - destruct (g_adj g) as [[[N M] adj]|]; [|discriminate]. injection H as <-. eexists. split; [reflexivity|]. repeat split.
  - destruct (g_src g) as [[P src]|]; [|discriminate]. injection H as <-. eexists. split; [reflexivity|]. repeat split.
Qed.

Definition graph_kind (g : graph) : index_type := match g_adj g with Some _ => Dense | None => Sparse end.

Lemma gather_src_transformed : forall s D0 x x' g y,
  transformed s (node_matrices D0) x x' -> gather_src_feat x g = Ok y ->
  exists y', gather_src_feat x' g = Ok y' /\ transformed s (edge_matrices (graph_kind g) D0) y y'.
Proof.
  intros s D0 x x' g y T H. pose proof (transformed_shape _ _ _ _ T) as Sx.
  destruct (gather_src_ok x x' g y Sx H) as [y' [H' Sy]]. exists y'. split; [exact H'|].
  destruct (gather_src_inv x g y H) as [ES [ED [EF [Ed V]]]].
  destruct (gather_src_inv x' g y' H') as [ES' [ED' [EF' [Ed' V']]]].
  destruct Sx as [XB _]. rewrite XB in V'. unfold graph_kind.
  destruct V as [[N [M [adj [EA [EC [EB V]]]]]]|[P [src [EA [EC [EB V]]]]]];
  destruct V' as [[N' [M' [adj' [EA' [EC' [EB' V']]]]]]|[P' [src' [EA' [EC' [EB' V']]]]]]; try congruence; rewrite EA; cbn [edge_matrices].
  - assert (adj' = adj) by congruence. subst adj'.
    apply (linear_transformed s (node_matrices D0) _ x x' y y'
      (fun i => if ((last1 i <? length (nth (last2 i) (adj (but_last2 i)) []))%nat && negb (last1 (fB x) =? 0)%nat)%bool then 1%nat else 0%nat)
      (fun _ _ _ => 1)
      (fun i _ => but_last2 i ++ [jax_index (last1 (fB x)) (nth (last1 i) (nth (last2 i) (adj (but_last2 i)) []) 0%Z)])); auto.
    + intros i p d f. rewrite V. destruct (_ && _)%bool; cbn [rsum]; ring.
    + intros i p d f. rewrite V'. destruct (_ && _)%bool; cbn [rsum]; ring.
    + intros i e _. unfold node_matrices. rewrite but_last_snoc. reflexivity.
  - assert (src' = src) by congruence. subst src'.
    apply (linear_transformed s (node_matrices D0) _ x x' y y'
      (fun i => if ((last1 i <? length (src (but_last i)))%nat && negb (last1 (fB x) =? 0)%nat)%bool then 1%nat else 0%nat)
      (fun _ _ _ => 1)
      (fun i _ => but_last i ++ [jax_index (last1 (fB x)) (nth (last1 i) (src (but_last i)) 0%Z)])); auto.
    + intros i p d f. rewrite V. destruct (_ && _)%bool; cbn [rsum]; ring.
    + intros i p d f. rewrite V'. destruct (_ && _)%bool; cbn [rsum]; ring.
    + intros i e _. unfold node_matrices. rewrite but_last_snoc. reflexivity.
Qed.

(** * Sums over edges *)

Lemma reduce_dense_value : forall N M v b w n,
  nth n (reduce_dense 0 0 Indexed_Model.RSum (dense_edge_values N M v b) w) 0
  = if (n <? N)%nat then rsum M (fun m => if nth m (nth n w []) false then v (b ++ [n; m]) else 0) else 0.
Proof.
  intros N M v b w n. unfold reduce_dense, dense_edge_values.
  destruct (Nat.ltb_spec n N) as [Hn|Hn].
  - destruct (Nat.lt_ge_cases n (length w)) as [Hw|Hw].
    + set (rows := map (fun n => map (fun m => v (b ++ [n; m])) (seq 0 M)) (seq 0 N)).
      rewrite (nth_indep _ 0 ((fun p : list R * list bool => reduce_row 0 0 Indexed_Model.RSum (fst p) (snd p)) ([], [])))
        by (unfold rows; rewrite map_length, combine_length, map_length, seq_length; lia).
      rewrite (map_nth (fun p : list R * list bool => reduce_row 0 0 Indexed_Model.RSum (fst p) (snd p)) (combine rows w) ([], []) n).
      rewrite (nth_indep _ ([], []) ([], nth n w [])) by (unfold rows; rewrite combine_length, map_length, seq_length; lia).
      assert (E : nth n (combine rows w) ([], nth n w []) = (nth n rows [], nth n w [])).
      { clear -Hn Hw. assert (Hr : (n < length rows)%nat) by (unfold rows; rewrite map_length, seq_length; assumption).
        clearbody rows. clear Hn. revert rows w Hw Hr. induction n as [|n IH]; intros [|r rows] [|u w] Hw Hr; cbn in *; try lia; [reflexivity|].
        apply IH; lia. }
      rewrite E. cbn [fst snd]. unfold rows. rewrite nth_map_seq by assumption. apply row_sum.
    + rewrite nth_overflow by (rewrite map_length, combine_length; lia).
      rewrite (nth_overflow w) by assumption. symmetry. apply rsum_zero. intros m _. destruct m; reflexivity.
  - apply nth_overflow. rewrite map_length, combine_length, map_length, seq_length. lia.
Qed.

Lemma reduce_sparse_value : forall n P v b dst s,
  nth s (reduce_sparse 0 0 Indexed_Model.RSum n dst (sparse_edge_values P v b)) 0
  = if (s <? n)%nat then rsum P (fun e => if ((e <? length dst)%nat && (nth e dst 0 =? Z.of_nat s)%Z)%bool then v (b ++ [e]) else 0) else 0.
Proof.
  intros n P v b dst s. unfold reduce_sparse, sparse_edge_values. destruct (Nat.ltb_spec s n) as [H|H].
  - rewrite nth_map_seq by assumption. apply (segment_sum P (fun e => v (b ++ [e])) 0 dst (Z.of_nat s)).
  - apply nth_overflow. rewrite map_length, seq_length. assumption.
Qed.

Lemma indexed_sum_inv : forall x g y, indexed_sum_feat x g = Ok y ->
  fS y = fS x /\ fD y = fD x /\ fF y = fF x /\ fdt y = fdt x
  /\ ((exists N M adj w, g_adj g = Some (N, M, adj) /\ g_dst g = None /\ g_where g = Some w
        /\ fB x = but_last2 (fB x) ++ [N; M] /\ fB y = but_last (fB x)
        /\ forall i p d f, fv y i p d f =
           if (last1 i <? N)%nat then rsum M (fun m => if nth m (nth (last1 i) (w (but_last i)) []) false
                then fv x (but_last i ++ [last1 i; m]) p d f else 0) else 0)
      \/ (exists P dst n, g_adj g = None /\ g_dst g = Some (P, dst) /\ g_segments g = Some n
        /\ fB x = but_last (fB x) ++ [P] /\ fB y = but_last (fB x) ++ [n]
        /\ forall i p d f, fv y i p d f =
           if (last1 i <? n)%nat then rsum P (fun e => if ((e <? length (dst (but_last i)))%nat && (nth e (dst (but_last i)) 0 =? Z.of_nat (last1 i))%Z)%bool
                then fv x (but_last i ++ [e]) p d f else 0) else 0)).
Proof.
  intros x g y H. unfold indexed_sum_feat, graph_type, determine_index_type in H.
  destruct (g_adj g) as [[[N M] adj]|] eqn:EA; destruct (g_dst g) as [[P dst]|] eqn:ES; cbn in H; try discriminate.
  - destruct (g_where g) as [w|] eqn:EW; [|discriminate].
    destruct (list_nat_eqb (fB x) (but_last2 (fB x) ++ [N; M])) eqn:EL; [|discriminate]. cbn [negb] in H.
    apply list_nat_eqb_spec in EL. injection H as <-. do 4 (split; [reflexivity|]).
    left. exists N, M, adj, w. do 3 (split; [reflexivity|]). split; [exact EL|]. split; [reflexivity|].
    intros i p d f. cbn [fv]. apply reduce_dense_value.
  - destruct (g_segments g) as [n|] eqn:EW; [|discriminate].
    destruct (list_nat_eqb (fB x) (but_last (fB x) ++ [P])) eqn:EL; [|discriminate]. cbn [negb] in H.
    apply list_nat_eqb_spec in EL. injection H as <-. do 4 (split; [reflexivity|]).
    right. exists P, dst, n. do 3 (split; [reflexivity|]). split; [exact EL|]. split; [reflexivity|].
    intros i p d f. cbn [fv]. apply reduce_sparse_value.
Qed.

Lemma indexed_sum_ok : forall x x' g y, Fshape x x' -> indexed_sum_feat x g = Ok y ->
  exists y', indexed_sum_feat x' g = Ok y' /\ Fshape y y'.
Proof.
  intros x x' g y [HB [HS [HD [HF Hd]]]] H. unfold indexed_sum_feat in *. rewrite HB, HS, HD, HF, Hd.
  destruct (graph_type g true false) as [[|]|]; [| |discriminate].
  - destruct (g_where g); [|discriminate]. destruct (g_adj g) as [[[N M] adj]|]; [|discriminate].
    destruct (negb _); [discriminate|]. injection H as <-. eexists. split; [reflexivity|]. repeat split.
  - destruct (g_segments g); [|discriminate]. destruct (g_dst g) as [[P src]|]; [|discriminate].
    destruct (negb _); [discriminate|]. injection H as <-. eexists. split; [reflexivity|]. repeat split.
Qed.

Lemma indexed_sum_transformed : forall s D0 x x' g y,
  transformed s (edge_matrices (graph_kind g) D0) x x' -> indexed_sum_feat x g = Ok y ->
  exists y', indexed_sum_feat x' g = Ok y' /\ transformed s (node_matrices D0) y y'.
Proof.
  intros s D0 x x' g y T H. pose proof (transformed_shape _ _ _ _ T) as Sx.
  destruct (indexed_sum_ok x x' g y Sx H) as [y' [H' Sy]]. exists y'. split; [exact H'|].
  destruct (indexed_sum_inv x g y H) as [ES [ED [EF [Ed V]]]].
  destruct (indexed_sum_inv x' g y' H') as [ES' [ED' [EF' [Ed' V']]]].
  unfold graph_kind in T.
  destruct V as [[N [M [adj [w [EA [EC [EW [_ [EB V]]]]]]]]]|[P [dst [n [EA [EC [EW [_ [EB V]]]]]]]]];
  destruct V' as [[N' [M' [adj' [w' [EA' [EC' [EW' [_ [EB' V']]]]]]]]]|[P' [dst' [n' [EA' [EC' [EW' [_ [EB' V']]]]]]]]];
    try congruence; rewrite EA in T; cbn [edge_matrices] in T.
  - assert (EE : N' = N /\ M' = M) by (split; congruence). destruct EE as [-> ->]. assert (w' = w) by congruence. subst w'.
    apply (linear_transformed s _ (node_matrices D0) x x' y y' (fun i => if (last1 i <? N)%nat then M else 0%nat)
      (fun i m _ => if nth m (nth (last1 i) (w (but_last i)) []) false then 1 else 0)
      (fun i m => but_last i ++ [last1 i; m]) T); auto.
    + intros i p d f. rewrite V. destruct (last1 i <? N)%nat; [|reflexivity]. apply rsum_ext. intros m _. destruct (nth m _ false); ring.
    + intros i p d f. rewrite V'. destruct (last1 i <? N)%nat; [|reflexivity]. apply rsum_ext. intros m _. destruct (nth m _ false); ring.
    + intros i e _. unfold node_matrices. cbn [edge_matrices]. rewrite but_last2_snoc. reflexivity.
  - assert (EE : P' = P /\ n' = n) by (split; congruence). destruct EE as [-> ->]. assert (dst' = dst) by congruence. subst dst'.
    apply (linear_transformed s _ (node_matrices D0) x x' y y' (fun i => if (last1 i <? n)%nat then P else 0%nat)
      (fun i e _ => if ((e <? length (dst (but_last i)))%nat && (nth e (dst (but_last i)) 0 =? Z.of_nat (last1 i))%Z)%bool then 1 else 0)
      (fun i e => but_last i ++ [e]) T); auto.
    + intros i p d f. rewrite V. destruct (last1 i <? n)%nat; [|reflexivity]. apply rsum_ext. intros m _. destruct (_ && _)%bool; ring.
    + intros i p d f. rewrite V'. destruct (last1 i <? n)%nat; [|reflexivity]. apply rsum_ext. intros m _. destruct (_ && _)%bool; ring.
    + intros i e _. unfold node_matrices. cbn [edge_matrices]. rewrite but_last_snoc. reflexivity.
Qed.
