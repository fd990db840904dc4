(** What attention computes: shares of the edges that end in a node, and sums of weighted values. *)
Require Import List Reals ZArith Bool Lia Lra.
Require Import ZifyNat.
Require Import Verif.Base Verif.RSum Verif.Features_Model Verif.Features_Spec Verif.Features_Proofs
  Verif.Indexed_Model Verif.Indexed_Spec Verif.Indexed_Red_Proofs Verif.Modules_Model Verif.Modules_Spec Verif.Modules_Graph_Spec Verif.Modules_Proofs
  Verif.Modules_Tensor_Proofs Verif.Modules_Fused_Proofs Verif.Modules_Equiv_Proofs Verif.Modules_Graph_Proofs
  Verif.Modules_Conv_Proofs Verif.Modules_Attention_Proofs Verif.Modules_Message_Proofs Verif.Modules_Relabel_Proofs.
Import ListNotations.
Open Scope R_scope.
Arguments Nat.modulo : simpl never.
Arguments Nat.mul : simpl never.

Lemma at_node_test : forall l e n, at_node l e n = ((e <? length l)%nat && (nth e l 0 =? Z.of_nat n)%Z)%bool.
Proof.
  intros l e n. unfold at_node. destruct (nth_error l e) as [v|] eqn:Ev.
  - rewrite (nth_error_nth _ _ 0%Z Ev). destruct (Nat.ltb_spec e (length l)) as [|H]; [reflexivity|]. apply nth_error_None in H. congruence.
  - apply nth_error_None in Ev. destruct (Nat.ltb_spec e (length l)); [lia|reflexivity].
Qed.

Lemma values_at_rsum : forall Q v a dst n,
  list_sum (values_at (Z.of_nat n) (combine dst (map v (seq a Q)))) = rsum Q (fun e => if at_node dst e n then v (a + e)%nat else 0).
Proof.
  induction Q as [|Q IH]; intros v a dst n.
  - cbn [seq map]. rewrite combine_nil. reflexivity.
  - cbn [seq map]. destruct dst as [|d dst].
    + rewrite rsum_zero; [reflexivity|]. intros [|m] _; reflexivity.
    + rewrite rsum_S_l. cbn [combine]. unfold values_at in *. cbn [filter fst].
      assert (E : rsum Q (fun i => if at_node (d :: dst) (S i) n then v (a + S i)%nat else 0)
                = list_sum (map snd (filter (fun e : Z * R => (fst e =? Z.of_nat n)%Z) (combine dst (map v (seq (S a) Q)))))).
      { rewrite IH. apply rsum_ext. intros i _. replace (a + S i)%nat with (S a + i)%nat by lia. reflexivity. }
      rewrite E. unfold at_node at 1. cbn [nth_error]. rewrite Nat.add_0_r. destruct (d =? Z.of_nat n)%Z; cbn [map snd list_sum fold_right].
      * reflexivity.
      * ring.
Qed.

Lemma combine_map_seq : forall (A B : Type) (u : nat -> A) (v : nat -> B) Q a,
  combine (map u (seq a Q)) (map v (seq a Q)) = map (fun e => (u e, v e)) (seq a Q).
Proof. intros A B u v Q. induction Q as [|Q IH]; intros a; [reflexivity|]. cbn [seq map combine]. rewrite IH. reflexivity. Qed.

Lemma exp_weights_map : forall u v Q, exp_weights (map u (seq 0 Q)) (map v (seq 0 Q)) = map (fun e => exp (u e) * v e) (seq 0 Q).
Proof. intros u v Q. unfold exp_weights. rewrite combine_map_seq, map_map. reflexivity. Qed.

Lemma repeat_map_seq : forall Q a, repeat 1 Q = map (fun _ => 1) (seq a Q).
Proof. induction Q as [|Q IH]; intros a; [reflexivity|]. cbn. rewrite (IH (S a)). reflexivity. Qed.

Lemma rsum_pos_at : forall n f e, (forall i, (i < n)%nat -> 0 <= f i) -> (e < n)%nat -> 0 < f e -> 0 < rsum n f.
Proof.
  induction n as [|n IH]; intros f e Hf He Hp; [lia|]. cbn [rsum].
  assert (Hn : 0 <= rsum n f) by (apply rsum_nonneg; intros i Hi; apply Hf; lia).
  destruct (Nat.eq_dec e n) as [->|Hne].
  - lra.
  - assert (0 < rsum n f) by (apply (IH f e); [intros i Hi; apply Hf; lia|lia|assumption]). pose proof (Hf n ltac:(lia)). lra.
Qed.

Section Weights.
Variables lo hi : R.

Lemma weight_sparse : forall g Q dst n0 cutoff dot b n e,
  g_adj g = None -> g_dst g = Some (Q, dst) -> g_segments g = Some n0 -> length (dst b) = Q ->
  (forall e', (e' < Q)%nat -> 0 <= cutoff_at cutoff (b ++ [e'])) -> (n < n0)%nat -> (e < Q)%nat -> at_node (dst b) e n = true ->
  (exists e0, (e0 < Q)%nat /\ at_node (dst b) e0 n = true /\ 0 < cutoff_at cutoff (b ++ [e0])) ->
  attention_weight lo hi g cutoff dot (b ++ [e])
  = Ok (share Q (fun e' => at_node (dst b) e' n) (fun e' => cutoff_at cutoff (b ++ [e'])) (fun e' => dot (b ++ [e'])) e).
Proof.
  intros g Q dst n0 cutoff dot b n e GA GD GS HL Hc Hn He Ha [e0 [He0 [Ha0 Hp]]].
  unfold attention_weight, graph_type, determine_index_type. rewrite GA, GD. cbn. rewrite GS.
  rewrite but_last_snoc, last1_snoc. f_equal. unfold sparse_edge_values.
  set (vals := map (fun e => dot (b ++ [e])) (seq 0 Q)).
  set (mult := option_map (fun c => map (fun e => c (b ++ [e])) (seq 0 Q)) cutoff).
  assert (Lv : length vals = Q) by (unfold vals; rewrite map_length, seq_length; reflexivity).
  assert (Ew : weight_list (length vals) mult = map (fun e => cutoff_at cutoff (b ++ [e])) (seq 0 Q)).
  { rewrite Lv. unfold mult, weight_list, cutoff_at. destruct cutoff as [c|]; cbn [option_map]; [reflexivity|]. apply repeat_map_seq. }
  assert (Hd : nth e (dst b) 0%Z = Z.of_nat n).
  { rewrite at_node_test in Ha. apply andb_true_iff in Ha. destruct Ha as [_ Ha]. apply Z.eqb_eq in Ha. exact Ha. }
  assert (ED : list_sum (values_at (nth e (dst b) 0%Z) (combine (dst b) (exp_weights vals (weight_list (length vals) mult))))
     = rsum Q (fun e' => if at_node (dst b) e' n then cutoff_at cutoff (b ++ [e']) * exp (dot (b ++ [e'])) else 0)).
  { rewrite Hd, Ew. unfold vals. rewrite exp_weights_map, values_at_rsum. apply rsum_ext. intros e' _. cbn [Nat.add].
    destruct (at_node (dst b) e' n); ring. }
  assert (HP : 0 < rsum Q (fun e' => if at_node (dst b) e' n then cutoff_at cutoff (b ++ [e']) * exp (dot (b ++ [e'])) else 0)).
  { apply rsum_pos_at with (e := e0); [|assumption|].
    - intros i Hi. destruct (at_node (dst b) i n); [|lra]. apply Rmult_le_pos; [apply Hc; assumption|left; apply exp_pos].
    - rewrite Ha0. apply Rmult_lt_0_compat; [assumption|apply exp_pos]. }
  etransitivity; [apply (softmax_sparse_formula lo hi n0 (dst b) vals mult)|].
  - congruence.
  - rewrite Ew, map_length, seq_length. congruence.
  - lia.
  - rewrite Hd. lia.
  - rewrite ED. lra.
  - rewrite ED, Ew. unfold share, vals. rewrite !nth_map_seq by assumption. cbn [Nat.add]. f_equal. ring.
Qed.

Lemma row_rsum : forall M v a ws,
  reduce_row lo hi Indexed_Model.RSum (map v (seq a M)) ws = rsum M (fun m => if nth m ws false then v (a + m)%nat else 0).
Proof.
  intros. rewrite <- row_sum. generalize (map v (seq a M)). intros l. revert ws. induction l as [|x l IH]; intros ws; [reflexivity|].
  destruct ws as [|u ws]; [reflexivity|]. cbn [reduce_row]. rewrite IH. reflexivity.
Qed.

Lemma weight_dense : forall g N M adj w cutoff dot b n m,
  g_adj g = Some (N, M, adj) -> g_dst g = None -> g_where g = Some w ->
  (forall m', (m' < M)%nat -> 0 <= cutoff_at cutoff (b ++ [n; m'])) -> (n < N)%nat -> (m < M)%nat ->
  (exists m0, (m0 < M)%nat /\ nth m0 (nth n (w b) []) false = true /\ 0 < cutoff_at cutoff (b ++ [n; m0])) ->
  attention_weight lo hi g cutoff dot (b ++ [n; m])
  = Ok (share M (fun m' => nth m' (nth n (w b) []) false) (fun m' => cutoff_at cutoff (b ++ [n; m'])) (fun m' => dot (b ++ [n; m'])) m).
Proof.
  intros g N M adj w cutoff dot b n m GA GD GW Hc Hn Hm [m0 [Hm0 [Ha0 Hp]]].
  unfold attention_weight, graph_type, determine_index_type. rewrite GA, GD. cbn. rewrite GW.
  rewrite last1_snoc2, but_last2_snoc, last2_snoc. f_equal. unfold dense_edge_values.
  set (vals := nth n (map (fun n => map (fun m => dot (b ++ [n; m])) (seq 0 M)) (seq 0 N)) []).
  set (mult := option_map _ cutoff).
  assert (Ev : vals = map (fun m => dot (b ++ [n; m])) (seq 0 M)) by (unfold vals; rewrite nth_map_seq by assumption; reflexivity).
  assert (Lv : length vals = M) by (rewrite Ev, map_length, seq_length; reflexivity).
  assert (Ew : weight_list (length vals) mult = map (fun m => cutoff_at cutoff (b ++ [n; m])) (seq 0 M)).
  { rewrite Lv. unfold mult, weight_list, cutoff_at. destruct cutoff as [c|]; cbn [option_map]; [|apply repeat_map_seq].
    rewrite nth_map_seq by assumption. reflexivity. }
  assert (ED : reduce_row lo hi Indexed_Model.RSum (exp_weights vals (weight_list (length vals) mult)) (nth n (w b) [])
     = rsum M (fun m' => if nth m' (nth n (w b) []) false then cutoff_at cutoff (b ++ [n; m']) * exp (dot (b ++ [n; m'])) else 0)).
  { rewrite Ew, Ev, exp_weights_map, row_rsum. apply rsum_ext. intros e' _. cbn [Nat.add].
    destruct (nth e' _ _); ring. }
  assert (HP : 0 < rsum M (fun m' => if nth m' (nth n (w b) []) false then cutoff_at cutoff (b ++ [n; m']) * exp (dot (b ++ [n; m'])) else 0)).
  { apply rsum_pos_at with (e := m0); [|assumption|].
    - intros i Hi. destruct (nth i _ _); [|lra]. apply Rmult_le_pos; [apply Hc; assumption|left; apply exp_pos].
    - rewrite Ha0. apply Rmult_lt_0_compat; [assumption|apply exp_pos]. }
  etransitivity; [apply (softmax_row_formula lo hi (nth n (w b) []) vals mult)|].
  - rewrite Ew, map_length, seq_length. congruence.
  - fold (weight_list (length vals) mult). rewrite ED. lra.
  - lia.
  - fold (weight_list (length vals) mult). rewrite ED, Ew, Ev. unfold share. rewrite !nth_map_seq by assumption. cbn [Nat.add]. f_equal. ring.
Qed.

End Weights.

Lemma share_ext : forall Q sel c s s' e, (forall e', (e' < Q)%nat -> sel e' = true -> s' e' = s e') -> (e < Q)%nat -> sel e = true ->
  share Q sel c s' e = share Q sel c s e.
Proof.
  intros Q sel c s s' e H He Hs. unfold share. rewrite (H e He Hs). unfold Rdiv. f_equal. f_equal. apply rsum_ext. intros e' He'.
  destruct (sel e') eqn:E; [|reflexivity]. rewrite (H e' He' E). reflexivity.
Qed.

Lemma dot_score : forall H gq gk q k rel r i jq jk h n,
  fS gq = fS q -> fD gq = fD q -> fF gq = fF q -> (fD q = n * n)%nat ->
  (forall p d c, fv gq i p d c = fv q jq p d c) -> (forall p d c, fv gk i p d c = fv k jk p d c) ->
  (forall p d c, (d < n * n)%nat -> match rel with Some r0 => r0 i p d c | None => 1 end = r p d c) ->
  attention_dot H gq gk rel i h = head_score H q k r jq jk h.
Proof.
  intros H gq gk q k rel r i jq jk h n ES ED EF En Hq Hk Hr. unfold attention_dot, head_score. cbv zeta. rewrite ES, ED, EF.
  unfold Rdiv. rewrite Rmult_comm, <- rsum_scal_l. apply rsum_ext. intros p _. rewrite <- rsum_scal_l. apply rsum_ext. intros d Hd.
  rewrite <- rsum_scal_l. apply rsum_ext. intros a _. rewrite Hq, Hk, Hr by congruence. ring.
Qed.

Section Attention.
Variable cgf : Z -> Z -> Z -> result (nat -> nat -> nat -> R).
Variables lo hi : R.

Lemma attention_parts : forall o P xq xkv basis cutoff g y nq nk, valid nq xq -> valid nk xkv ->
  multi_head_attention cgf lo hi o P xq xkv basis cutoff g = Ok y ->
  let F := match o_qkv o with None => fF xq | Some F => F end in
  let n := Nat.min nq nk in
  let g' := with_defaults g (last1 (fB xq)) (last1 (fB xkv)) in
  exists q k v att gq gk gv rel,
    attention_inputs o P xq xkv n q k v att y
    /\ fD q = (n * n)%nat /\ last1 (fB q) = last1 (fB xq) /\ last1 (fB k) = last1 (fB xkv) /\ last1 (fB v) = last1 (fB xkv)
    /\ gather_dst_feat q g = Ok gq /\ gather_src_feat k g = Ok gk /\ gather_src_feat v g = Ok gv
    /\ (forall i p d c, (d < n * n)%nat -> match rel with Some r0 => r0 i p d c | None => 1 end = relative_factor o P basis n F i p d c)
    /\ conv cgf (o_max_degree o) (o_include o) (o_basis_bias o) (a_conv P)
         (mkFeat (fB gv) (fS gv) (fD gv) (fF gv) (fdt gv) (fun i s d f =>
            get_ok (attention_weight lo hi g' cutoff (fun i => attention_dot (o_heads o) gq gk rel i (f / (F / o_heads o)))%nat i) * fv gv i s d f))
         (if o_rel_v o then basis else None) g' = Ok att.
Proof.
  intros o P xq xkv basis cutoff g y nq nk Vq Vk H F n g'. unfold multi_head_attention in H.
  destruct (negb (list_nat_eqb (but_last (fB xq)) (but_last (fB xkv)))); [discriminate|].
  destruct ((o_rel_qk o || o_rel_v o) && _)%bool; [discriminate|]. fold F in H.
  destruct (o_heads o =? 0)%nat; [discriminate|]. destruct (negb (F mod o_heads o =? 0)%nat); [discriminate|].
  rewrite (extract_valid xq nq Vq), (extract_valid xkv nk Vk) in H. cbn [bind] in H.
  replace (Z.min (Z.of_nat nq - 1) (Z.of_nat nk - 1))%Z with (Z.of_nat n - 1)%Z in H by (unfold n; lia).
  set (pseudo := ((fS xq =? 2)%nat && (fS xkv =? 2)%nat)%bool) in *.
  destruct (change_max_degree_or_type xq (Some (Z.of_nat n - 1)%Z) (Some pseudo)) as [qi|] eqn:EQ; [|discriminate].
  destruct (change_max_degree_or_type xkv (Some (Z.of_nat n - 1)%Z) (Some pseudo)) as [ki|] eqn:EK; [|discriminate]. cbn [bind] in *.
  destruct (dense F (o_query_bias o) (a_query P) qi) as [q|] eqn:EDQ; [|discriminate].
  destruct (dense F (o_key_bias o) (a_key P) ki) as [k|] eqn:EDK; [|discriminate].
  destruct (dense F (o_value_bias o) (a_value P) xkv) as [v|] eqn:EDV; [|discriminate]. cbn [bind] in *.
  assert (Hn : (0 < n)%nat).
  { destruct n as [|m0]; [|lia]. exfalso. change (Z.of_nat 0 - 1)%Z with (-1)%Z in EQ.
    pose proof (change_empty nq xq pseudo qi Vq EQ) as V0. rewrite (dense_empty qi F (o_query_bias o) (a_query P) V0) in EDQ. discriminate. }
  assert (I0 : forall n x, valid n x -> transformed 1 identity_matrices x x) by (intros n1 x V; apply (same_transformed n1); [assumption|repeat split; auto]).
  destruct (change_transformed 1 identity_matrices nq n xq xq pseudo qi Vq Hn (I0 nq xq Vq) EQ) as [Vqi [Bqi [Sqi [Fqi _]]]].
  destruct (change_transformed 1 identity_matrices nk n xkv xkv pseudo ki Vk Hn (I0 nk xkv Vk) EK) as [Vki [Bki [Ski [Fki _]]]].
  destruct (gather_dst_feat q g) as [gq|] eqn:EGQ; [|discriminate].
  destruct (gather_src_feat k g) as [gk|] eqn:EGK; [|discriminate]. cbn [bind] in *.
  destruct (gather_src_feat v g) as [gv|] eqn:EGV; [|discriminate]. cbn [bind] in *.
  set (rel := match basis with Some bs => if o_rel_qk o then Some (rel_pos_encoding (o_basis_bias o) (a_rel_kernel P) (a_rel_bias P) bs (Z.of_nat n - 1) F) else None | None => None end) in *.
  destruct (attention_weight _ _ _ _ _ []) as [a0|]; [|discriminate]. cbn [bind] in H. fold g' in H.
  match type of H with bind ?c _ = _ => destruct c as [att|] eqn:EC; [|discriminate] end. cbn [bind] in H.
  destruct (dense_batch _ _ _ _ _ EDQ) as [DBq [_ [_ [_ DDq]]]]. destruct (dense_batch _ _ _ _ _ EDK) as [DBk _]. destruct (dense_batch _ _ _ _ _ EDV) as [DBv _].
  exists q, k, v, att, gq, gk, gv, rel.
  split; [split; [exists qi; auto|split; [exists ki; auto|split; [exact EDV|exact H]]]|].
  split; [rewrite DDq; apply Vqi|]. split; [congruence|]. split; [congruence|]. split; [congruence|].
  split; [exact EGQ|]. split; [exact EGK|]. split; [exact EGV|].
  split; [|exact EC].
  intros i p d c Hd. unfold rel, relative_factor. destruct basis as [bs|]; [|reflexivity]. destruct (o_rel_qk o); [|reflexivity].
  unfold rel_pos_encoding. cbv zeta. rewrite dup_sqrt by assumption.
  replace (Z.to_nat (Z.of_nat n - 1 + 1)) with n by lia. reflexivity.
Qed.

Lemma any_tensor_axes : forall md incl P x1 x2 z, fB x1 = fB x2 -> any_tensor cgf md incl P x1 x2 = Ok z -> fB z = fB x1 /\ fF z = fF x1.
Proof.
  intros md incl [K|K] x1 x2 z HB H; cbn [any_tensor] in H; unfold tensor, fused_tensor in H; rewrite HB, broadcast_same in H; rewrite HB;
    repeat (match type of H with context [bind ?r _] => destruct r; [|discriminate]; cbn [bind] in H | (if ?c then _ else _) = _ => destruct c; try discriminate end);
    try (injection H as <-; split; reflexivity).
Qed.

Lemma conv_axes : forall md incl ub P x basis g y, conv cgf md incl ub P x basis g = Ok y ->
  exists z, indexed_sum_feat z g = Ok y /\ fB z = fB x /\ fF z = fF x.
Proof.
  intros md incl ub P x basis g y H. unfold conv in H. destruct basis as [bs|].
  - destruct (list_nat_eqb (fB x) (fB bs)) eqn:EB; [|discriminate]. apply list_nat_eqb_spec in EB. cbn [negb] in H.
    destruct (dense (fF x) ub (c_filter P) bs) as [fl|] eqn:ED; [|discriminate]. cbn [bind] in H.
    destruct (any_tensor cgf md incl (c_tensor P) fl x) as [z|] eqn:EZ; [|discriminate]. cbn [bind] in H.
    destruct (dense_batch _ _ _ _ _ ED) as [FB [FF _]]. assert (HB : fB fl = fB x) by congruence. destruct (any_tensor_axes _ _ _ _ _ _ HB EZ) as [ZB ZF].
    exists z. split; [exact H|]. split; congruence.
  - cbn [bind] in H. exists x. auto.
Qed.

Lemma attention_sparse : forall o P xq xkv basis cutoff g y nq nk Q dst Q' src, valid nq xq -> valid nk xkv ->
  multi_head_attention cgf lo hi o P xq xkv basis cutoff g = Ok y -> g_dst g = Some (Q, dst) -> g_src g = Some (Q', src) ->
  let F := match o_qkv o with None => fF xq | Some F => F end in
  let n := Nat.min nq nk in
  exists q k v att, attention_inputs o P xq xkv n q k v att y
    /\ fB att = but_last (fB xkv) ++ [opt_default (g_segments g) (last1 (fB xq))] /\ fF att = F
    /\ forall b i, (i < last1 (fB att))%nat -> (i < last1 (fB xq))%nat -> length (dst b) = Q ->
       (forall e, (e < Q)%nat -> at_node (dst b) e i = true -> exists j, (j < last1 (fB xkv))%nat /\ at_node (src b) e j = true) ->
       (forall e, (e < Q)%nat -> 0 <= cutoff_at cutoff (b ++ [e])) ->
       ((exists e, (e < Q)%nat /\ at_node (dst b) e i = true) -> exists e, (e < Q)%nat /\ at_node (dst b) e i = true /\ 0 < cutoff_at cutoff (b ++ [e])) ->
       let message := fun e => edge_message cgf (o_max_degree o) (o_include o) (o_basis_bias o) (a_conv P)
                (weighted (fun c => share Q (fun e' => at_node (dst b) e' i) (fun e' => cutoff_at cutoff (b ++ [e']))
                     (fun e' => head_score (o_heads o) q k (relative_factor o P basis n F (b ++ [e'])) (b ++ [i]) (b ++ [Z.to_nat (nth e' (src b) 0%Z)]) (c / (F / o_heads o))) e)
                   (item v (b ++ [Z.to_nat (nth e (src b) 0%Z)])))
                (option_map (fun bs => item bs (b ++ [e])) (if o_rel_v o then basis else None)) in
       (forall e, (e < Q)%nat -> at_node (dst b) e i = true -> exists r, message e = Ok r /\ fS r = fS att /\ fD r = fD att /\ fF r = fF att)
       /\ forall p d f, (p < fS att)%nat -> (d < fD att)%nat ->
          fv att (b ++ [i]) p d f = rsum Q (fun e => if at_node (dst b) e i then entry (message e) p d f else 0).
Proof.
  intros o P xq xkv basis cutoff g y nq nk Q dst Q' src Vq Vk H GD GS F n.
  destruct (attention_parts o P xq xkv basis cutoff g y nq nk Vq Vk H) as [q [k [v [att [gq [gk [gv [rel [HA [Dq [Bq [Bk [Bv [EGQ [EGK [EGV [Hr EC]]]]]]]]]]]]]]]]].
  fold n F in HA, Dq, Hr, EC.
  exists q, k, v, att. split; [exact HA|].
  destruct (gather_dst_inv q g gq EGQ) as [GSq [GDq [GFq [_ [[N [M [adj [GA _]]]]|[Q1 [dst1 [GA [GD1 [_ Hgq]]]]]]]]]].
  { exfalso. destruct (gather_dst_inv q g gq EGQ) as [_ [_ [_ [_ [[? [? [? [_ [E _]]]]]|[? [? [E _]]]]]]]]; congruence. }
  assert (dst1 = dst) by congruence. subst dst1.
  destruct (gather_src_inv k g gk EGK) as [_ [_ [_ [_ [[N [M [adj [GA1 _]]]]|[Q2 [src2 [_ [GS2 [_ Hgk]]]]]]]]]]; [congruence|].
  assert (src2 = src) by congruence. subst src2.
  destruct (gather_src_inv v g gv EGV) as [VS [VD [VF [Vd [[N [M [adj [GA1 _]]]]|[Q3 [src3 [_ [GS3 [VB Hgv]]]]]]]]]]; [congruence|].
  assert (src3 = src) by congruence. subst src3.
  destruct (conv_parts cgf _ _ _ _ _ _ _ _ EC) as [z [EI HP]].
  destruct (indexed_sum_inv z _ att EI) as [ES [ED [EF [_ [[N [M [adj [w1 [GA' _]]]]]|[Q4 [dst4 [n0 [_ [GD4 [GN [ZB [YB Hv]]]]]]]]]]]]];
    [cbn [with_defaults g_adj] in GA'; congruence|].
  cbn [with_defaults g_dst] in GD4. assert (Q4 = Q) by congruence. assert (dst4 = dst) by congruence. subst Q4 dst4.
  assert (Ln : last1 (fB att) = n0) by (rewrite YB; apply last1_snoc).
  destruct HA as [HA1 [HA2 [HA3 HA4]]]. destruct (dense_batch _ _ _ _ _ HA3) as [VB0 [VF0 _]].
  destruct (conv_axes _ _ _ _ _ _ _ _ EC) as [z1 [EI1 [ZB1 ZF1]]]. cbn [fB fF] in ZB1, ZF1.
  destruct (indexed_sum_inv z1 _ att EI1) as [_ [_ [EF1 [_ [[N [M [adj [w1 [GA' _]]]]]|[Q5 [dst5 [n1 [_ [_ [GN1 [_ [YB1 _]]]]]]]]]]]]];
    [cbn [with_defaults g_adj] in GA'; congruence|].
  split.
  { rewrite YB1, ZB1, VB, but_last_snoc, VB0. f_equal. f_equal. cbn [with_defaults g_segments] in GN1. destruct (g_segments g); cbn in *; congruence. }
  split; [fold F in VF0; congruence|].
  intros b i Hi Hiq HL Hsrc Hc Hex message. rewrite Ln in Hi.
  assert (HE : forall e, (e < Q)%nat -> at_node (dst b) e i = true -> exists r, message e = Ok r /\ fS r = fS z /\ fD r = fD z /\ fF r = fF z /\ forall p d f, fv r [] p d f = fv z (b ++ [e]) p d f).
  2:{ split.
      - intros e He Ha. destruct (HE e He Ha) as [r [R1 [R2 [R3 [R4 _]]]]]. exists r. split; [exact R1|]. split; [congruence|]. split; congruence.
      - intros p d f Hp Hd. rewrite Hv, last1_snoc, but_last_snoc. destruct (Nat.ltb_spec i n0); [|lia].
        apply rsum_ext. intros e He. rewrite <- at_node_test. destruct (at_node (dst b) e i) eqn:Ha; [|reflexivity].
        destruct (HE e He Ha) as [r [R1 [_ [_ [_ R5]]]]]. rewrite R1. cbn [entry]. symmetry. apply R5. }
  intros e He Ha. unfold message.
  (* values, queries and keys at the edges that end in node i *)
  assert (Hs : forall x gx, last1 (fB x) = last1 (fB xkv) ->
    (forall j p d f, fv gx j p d f = if ((last1 j <? length (src (but_last j)))%nat && negb (last1 (fB x) =? 0)%nat)%bool
       then fv x (but_last j ++ [jax_index (last1 (fB x)) (nth (last1 j) (src (but_last j)) 0%Z)]) p d f else 0) ->
    forall e', (e' < Q)%nat -> at_node (dst b) e' i = true -> forall p d c, fv gx (b ++ [e']) p d c = fv x (b ++ [Z.to_nat (nth e' (src b) 0%Z)]) p d c).
  { intros x gx Bx Hg e' He' Ha' p0 d0 c0. destruct (Hsrc e' He' Ha') as [j [Hj Hat]]. unfold at_node in Hat.
    destruct (nth_error (src b) e') as [u|] eqn:Ev; [|discriminate]. apply Z.eqb_eq in Hat.
    assert (Hlen : (e' < length (src b))%nat) by (apply nth_error_Some; congruence).
    rewrite Hg, last1_snoc, but_last_snoc, Bx.
    destruct (Nat.ltb_spec e' (length (src b))); [|lia]. destruct (Nat.eqb_spec (last1 (fB xkv)) 0); [lia|]. cbn [andb negb].
    rewrite (nth_error_nth _ _ 0%Z Ev). rewrite (jax_index_in cgf) by lia. reflexivity. }
  assert (Hq : forall e', (e' < Q)%nat -> at_node (dst b) e' i = true -> forall p d c, fv gq (b ++ [e']) p d c = fv q (b ++ [i]) p d c).
  { intros e' He' Ha' p0 d0 c0. rewrite at_node_test in Ha'. apply andb_true_iff in Ha'. destruct Ha' as [A1 A2]. apply Z.eqb_eq in A2.
    rewrite Hgq, last1_snoc, but_last_snoc, Bq, A1. destruct (Nat.eqb_spec (last1 (fB xq)) 0); [lia|]. cbn [andb negb].
    rewrite A2, (jax_index_in cgf) by lia. rewrite Nat2Z.id. reflexivity. }
  set (m := weighted _ (item v (b ++ [Z.to_nat (nth e (src b) 0%Z)]))).
  destruct (HP (b ++ [e]) m) as [r [R1 [_ [R2 [R3 [R4 [_ R5]]]]]]].
  { split; [reflexivity|]. cbn [fS fD fF fdt m weighted item]. do 4 (split; [unfold m; cbn; congruence|]).
    intros j p0 d0 c0. unfold m. cbn [fv weighted item]. rewrite (Hs v gv Bv Hgv e He Ha). f_equal.
    rewrite (weight_sparse lo hi _ Q dst n0 cutoff _ b i e); cbn [with_defaults g_adj g_dst]; auto.
    - cbn [get_ok]. symmetry. apply (share_ext Q (fun e' => at_node (dst b) e' i)); [|assumption|assumption].
      intros e' He' Ha'. apply (dot_score (o_heads o) gq gk q k rel _ (b ++ [e']) (b ++ [i]) (b ++ [Z.to_nat (nth e' (src b) 0%Z)]) _ n); auto.
    - apply Hex. exists e. auto. }
  exists r. split; [exact R1|]. do 3 (split; [congruence|]). intros p d f. apply R5.
Qed.

Lemma attention_dense : forall o P xq xkv basis cutoff g y nq nk N M adj, valid nq xq -> valid nk xkv ->
  multi_head_attention cgf lo hi o P xq xkv basis cutoff g = Ok y -> g_adj g = Some (N, M, adj) ->
  let F := match o_qkv o with None => fF xq | Some F => F end in
  let n := Nat.min nq nk in
  exists q k v att, attention_inputs o P xq xkv n q k v att y
    /\ fB att = but_last (fB xkv) ++ [N] /\ fF att = F
    /\ forall b i, (i < N)%nat ->
       (forall m, (m < M)%nat -> dense_edge g (last1 (fB xkv)) b i m = true -> exists j, (j < last1 (fB xkv))%nat /\ at_node (nth i (adj b) []) m j = true) ->
       (forall m, (m < M)%nat -> 0 <= cutoff_at cutoff (b ++ [i; m])) ->
       ((exists m, (m < M)%nat /\ dense_edge g (last1 (fB xkv)) b i m = true) -> exists m, (m < M)%nat /\ dense_edge g (last1 (fB xkv)) b i m = true /\ 0 < cutoff_at cutoff (b ++ [i; m])) ->
       let message := fun m => edge_message cgf (o_max_degree o) (o_include o) (o_basis_bias o) (a_conv P)
                (weighted (fun c => share M (fun m' => dense_edge g (last1 (fB xkv)) b i m') (fun m' => cutoff_at cutoff (b ++ [i; m']))
                     (fun m' => head_score (o_heads o) q k (relative_factor o P basis n F (b ++ [i; m'])) (b ++ [i]) (b ++ [Z.to_nat (nth m' (nth i (adj b) []) 0%Z)]) (c / (F / o_heads o))) m)
                   (item v (b ++ [Z.to_nat (nth m (nth i (adj b) []) 0%Z)])))
                (option_map (fun bs => item bs (b ++ [i; m])) (if o_rel_v o then basis else None)) in
       (forall m, (m < M)%nat -> dense_edge g (last1 (fB xkv)) b i m = true -> exists r, message m = Ok r /\ fS r = fS att /\ fD r = fD att /\ fF r = fF att)
       /\ forall p d f, (p < fS att)%nat -> (d < fD att)%nat ->
          fv att (b ++ [i]) p d f = rsum M (fun m => if dense_edge g (last1 (fB xkv)) b i m then entry (message m) p d f else 0).
Proof.
  intros o P xq xkv basis cutoff g y nq nk N M adj Vq Vk H GA F n.
  destruct (attention_parts o P xq xkv basis cutoff g y nq nk Vq Vk H) as [q [k [v [att [gq [gk [gv [rel [HA [Dq [Bq [Bk [Bv [EGQ [EGK [EGV [Hr EC]]]]]]]]]]]]]]]]].
  fold n F in HA, Dq, Hr, EC.
  exists q, k, v, att. split; [exact HA|].
  destruct (gather_dst_inv q g gq EGQ) as [GSq [GDq [GFq [_ [[N1 [M1 [adj1 [GA1 [GD [_ Hgq]]]]]]|[Q1 [dst1 [GA1 _]]]]]]]]; [|congruence].
  destruct (gather_src_inv k g gk EGK) as [_ [_ [_ [_ [[N2 [M2 [adj2 [GA2 [_ [_ Hgk]]]]]]|[Q2 [src2 [GA2 _]]]]]]]]; [|congruence].
  assert (adj2 = adj) by congruence. subst adj2.
  destruct (gather_src_inv v g gv EGV) as [VS [VD [VF [Vd [[N3 [M3 [adj3 [GA3 [_ [VB Hgv]]]]]]|[Q3 [src3 [GA3 _]]]]]]]]; [|congruence].
  assert (adj3 = adj) by congruence. subst adj3.
  destruct (conv_parts cgf _ _ _ _ _ _ _ _ EC) as [z [EI HP]].
  destruct (indexed_sum_inv z _ att EI) as [ES [ED [EF [_ [[N4 [M4 [adj4 [w1 [GA4 [GD4 [GW [ZB [YB Hv]]]]]]]]]|[Q4 [dst4 [n0 [GA4 _]]]]]]]]];
    cbn [with_defaults g_adj] in GA4; [|congruence].
  assert (N4 = N) by congruence. assert (M4 = M) by congruence. subst N4 M4.
  assert (Ln : last1 (fB att) = N) by (rewrite YB, ZB, but_last_snoc2; apply last1_snoc).
  destruct HA as [HA1 [HA2 [HA3 HA4]]]. destruct (dense_batch _ _ _ _ _ HA3) as [VB0 [VF0 _]].
  destruct (conv_axes _ _ _ _ _ _ _ _ EC) as [z1 [EI1 [ZB1 ZF1]]]. cbn [fB fF] in ZB1, ZF1.
  destruct (indexed_sum_inv z1 _ att EI1) as [_ [_ [EF1 [_ [[N5 [M5 [adj5 [w5 [GA5 [_ [_ [_ [YB1 _]]]]]]]]]|[Q5 [dst5 [n5 [GA5 _]]]]]]]]];
    cbn [with_defaults g_adj] in GA5; [|congruence].
  split; [rewrite YB1, ZB1, VB, but_last_snoc2, VB0; congruence|]. split; [fold F in VF0; congruence|].
  intros b i Hi Hsrc Hc Hex message.
  assert (EW : forall m, nth m (nth i (w1 b) []) false = dense_edge g (last1 (fB xkv)) b i m).
  { intros m. cbn [with_defaults g_where] in GW. unfold dense_edge. rewrite GA in *. destruct (g_where g) as [wh|]; [injection GW as <-; reflexivity|].
    injection GW as <-. cbn [snd].
    pose proof (map_nth (map (fun j => (j <? Z.of_nat (last1 (fB xkv)))%Z)) (adj b) [] i) as E. cbn [map] in E. rewrite E. clear E.
    generalize (nth i (adj b) []). intros l. revert m. induction l as [|u l IH]; intros [|m]; cbn; try reflexivity. apply IH. }
  assert (HE : forall e, (e < M)%nat -> dense_edge g (last1 (fB xkv)) b i e = true -> exists r, message e = Ok r /\ fS r = fS z /\ fD r = fD z /\ fF r = fF z /\ forall p d f, fv r [] p d f = fv z (b ++ [i; e]) p d f).
  2:{ split.
      - intros e He Ha. destruct (HE e He Ha) as [r [R1 [R2 [R3 [R4 _]]]]]. exists r. split; [exact R1|]. split; [congruence|]. split; congruence.
      - intros p d f Hp Hd. rewrite Hv, last1_snoc, but_last_snoc. destruct (Nat.ltb_spec i N); [|lia].
        apply rsum_ext. intros e He. rewrite EW. destruct (dense_edge g (last1 (fB xkv)) b i e) eqn:Ha; [|reflexivity].
        destruct (HE e He Ha) as [r [R1 [_ [_ [_ R5]]]]]. rewrite R1. cbn [entry]. symmetry. apply R5. }
  intros e He Ha. unfold message.
  assert (Hs : forall x gx, last1 (fB x) = last1 (fB xkv) ->
    (forall j p d f, fv gx j p d f = if ((last1 j <? length (nth (last2 j) (adj (but_last2 j)) []))%nat && negb (last1 (fB x) =? 0)%nat)%bool
       then fv x (but_last2 j ++ [jax_index (last1 (fB x)) (nth (last1 j) (nth (last2 j) (adj (but_last2 j)) []) 0%Z)]) p d f else 0) ->
    forall e', (e' < M)%nat -> dense_edge g (last1 (fB xkv)) b i e' = true -> forall p d c, fv gx (b ++ [i; e']) p d c = fv x (b ++ [Z.to_nat (nth e' (nth i (adj b) []) 0%Z)]) p d c).
  { intros x gx Bx Hg e' He' Ha' p0 d0 c0. destruct (Hsrc e' He' Ha') as [j [Hj Hat]]. unfold at_node in Hat.
    destruct (nth_error (nth i (adj b) []) e') as [u|] eqn:Ev; [|discriminate]. apply Z.eqb_eq in Hat.
    assert (Hlen : (e' < length (nth i (adj b) []))%nat) by (apply nth_error_Some; congruence).
    rewrite Hg, last1_snoc2, but_last2_snoc, last2_snoc, Bx.
    destruct (Nat.ltb_spec e' (length (nth i (adj b) []))); [|lia]. destruct (Nat.eqb_spec (last1 (fB xkv)) 0); [lia|]. cbn [andb negb].
    rewrite (nth_error_nth _ _ 0%Z Ev). rewrite (jax_index_in cgf) by lia. reflexivity. }
  assert (Hq : forall e' p d c, fv gq (b ++ [i; e']) p d c = fv q (b ++ [i]) p d c).
  { intros e' p0 d0 c0. rewrite Hgq, but_last_snoc2. reflexivity. }
  set (m := weighted _ (item v (b ++ [Z.to_nat (nth e (nth i (adj b) []) 0%Z)]))).
  destruct (HP (b ++ [i; e]) m) as [r [R1 [_ [R2 [R3 [R4 [_ R5]]]]]]].
  { split; [reflexivity|]. do 4 (split; [unfold m; cbn; congruence|]).
    intros j p0 d0 c0. unfold m. cbn [fv weighted item]. rewrite (Hs v gv Bv Hgv e He Ha). f_equal.
    rewrite (weight_dense lo hi _ N M adj w1 cutoff _ b i e); cbn [with_defaults g_adj g_dst]; auto.
    - cbn [get_ok]. symmetry.
      transitivity (share M (fun m' => dense_edge g (last1 (fB xkv)) b i m') (fun m' => cutoff_at cutoff (b ++ [i; m']))
        (fun m' => attention_dot (o_heads o) gq gk rel (b ++ [i; m']) (c0 / (F / o_heads o))) e).
      + unfold share, Rdiv. f_equal. f_equal. apply rsum_ext. intros m' _. rewrite EW. reflexivity.
      + symmetry. apply share_ext; auto. intros e' He' Ha'. symmetry.
        apply (dot_score (o_heads o) gq gk q k rel _ (b ++ [i; e']) (b ++ [i]) (b ++ [Z.to_nat (nth e' (nth i (adj b) []) 0%Z)]) _ n); auto.
    - destruct Hex as [m0 [A1 [A2 A3]]]; [exists e; auto|]. exists m0. rewrite EW. auto. }
  exists r. split; [exact R1|]. do 3 (split; [congruence|]). intros p d f. apply R5.
Qed.

End Attention.
