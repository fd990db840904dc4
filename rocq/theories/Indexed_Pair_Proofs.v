(** Lemmas for the pairwise index lists (C01). *)
Require Import List ZArith Bool Lia Permutation Sorted.
Require Import Verif.Base Verif.Indexed_Model.
Import ListNotations.

Lemma filteri_app : forall A keep i (a b : list A),
  filteri_from keep i (a ++ b) = filteri_from keep i a ++ filteri_from keep (i + length a) b.
Proof.
  intros A keep i a; revert i; induction a as [|x a IH]; intros i b; simpl.
  - now rewrite Nat.add_0_r.
  - rewrite IH. replace (S i + length a) with (i + S (length a)) by lia.
    destruct (keep i); reflexivity.
Qed.

Lemma filteri_map_seq : forall A (f : nat -> A) keep n o s,
  filteri_from keep (o + s) (map f (seq s n))
  = map f (filter (fun c => keep (o + c)) (seq s n)).
Proof.
  intros A f keep n; induction n as [|n IH]; intros o s; simpl; [reflexivity|].
  replace (S (o + s)) with (o + S s) by lia.
  rewrite IH. destruct (keep (o + s)); reflexivity.
Qed.

Lemma flat_map_map_length : forall A (f : nat -> nat -> A) n k s,
  length (flat_map (fun r => map (f r) (seq 0 n)) (seq s k)) = k * n.
Proof.
  intros A f n k; induction k as [|k IH]; intros s; simpl; [reflexivity|].
  rewrite app_length, map_length, seq_length, IH. reflexivity.
Qed.

(** Deleting the diagonal of a row-major [n*n] list. *)
Lemma filteri_grid : forall A (f : nat -> nat -> A) keep n k s,
  filteri_from keep (s * n) (flat_map (fun r => map (f r) (seq 0 n)) (seq s k))
  = flat_map (fun r => map (f r) (filter (fun c => keep (r * n + c)) (seq 0 n))) (seq s k).
Proof.
  intros A f keep n k; induction k as [|k IH]; intros s; simpl; [reflexivity|].
  rewrite filteri_app. f_equal.
  - pose proof (filteri_map_seq A (f s) keep n (s * n) 0) as H.
    rewrite Nat.add_0_r in H. exact H.
  - rewrite map_length, seq_length.
    replace (s * n + n) with (S s * n) by lia. apply IH.
Qed.

Lemma diag_pos : forall n r c, r < n -> c < n ->
  ((r * n + c) mod (n + 1) =? 0) = (c =? r).
Proof.
  intros n r c Hr Hc.
  destruct (Nat.eqb_spec c r) as [->|Hne].
  - replace (r * n + r) with (r * (n + 1)) by lia.
    rewrite Nat.mod_mul by lia. reflexivity.
  - apply Nat.eqb_neq. intro H.
    apply Nat.mod_divides in H; [|lia]. destruct H as [q Hq].
    assert (q < r \/ q = r \/ q > r) as [Hlt|[->|Hgt]] by lia; nia.
Qed.

Definition off_diag (mask_self : bool) (r c : nat) : bool := negb (mask_self && (c =? r)).

Lemma filter_ext_in' : forall A (f g : A -> bool) l,
  (forall a, In a l -> f a = g a) -> filter f l = filter g l.
Proof. intros; apply filter_ext_in; assumption. Qed.

Lemma flat_map_ext_in : forall A B (f g : A -> list B) l,
  (forall a, In a l -> f a = g a) -> flat_map f l = flat_map g l.
Proof.
  intros A B f g l H; induction l as [|a l IH]; simpl; [reflexivity|].
  rewrite H by (now left). rewrite IH; [reflexivity|]. intros; apply H; now right.
Qed.

Lemma delete_diag : forall A (f : nat -> nat -> A) n,
  delete_slice (flat_map (fun r => map (f r) (seq 0 n)) (seq 0 n)) 0 (n * n) (n + 1)
  = flat_map (fun r => map (f r) (filter (off_diag true r) (seq 0 n))) (seq 0 n).
Proof.
  intros A f n. unfold delete_slice.
  pose proof (filteri_grid A f (fun i => negb ((0 <=? i) && (i <? n * n) &&
     ((i - 0) mod (n + 1) =? 0))) n n 0) as H.
  rewrite Nat.mul_0_l in H. rewrite H.
  apply flat_map_ext_in. intros r Hr. apply in_seq in Hr. f_equal.
  apply filter_ext_in'. intros c Hc. apply in_seq in Hc.
  unfold off_diag. rewrite Nat.sub_0_r, diag_pos by lia.
  replace (r * n + c <? n * n) with true; [reflexivity|].
  symmetry; apply Nat.ltb_lt. nia.
Qed.

Lemma tile_grid : forall n k s,
  tile (seq 0 n) k = flat_map (fun r => map (fun c => c) (seq 0 n)) (seq s k).
Proof.
  intros n k; induction k as [|k IH]; intros s; simpl; [reflexivity|].
  f_equal; [now rewrite map_id | apply IH].
Qed.

Lemma map_const_seq : forall A (a : A) n s, map (fun _ => a) (seq s n) = repeat a n.
Proof. intros A a n; induction n; intros; simpl; [|rewrite IHn]; reflexivity. Qed.

Lemma repeat_grid : forall n k s,
  repeat_each (seq s k) n = flat_map (fun r => map (fun c => r) (seq 0 n)) (seq s k).
Proof.
  intros n k s. unfold repeat_each. apply flat_map_ext_in. intros a _.
  now rewrite map_const_seq.
Qed.

Lemma filter_true' : forall A (f : A -> bool) l, (forall a, f a = true) -> filter f l = l.
Proof.
  intros A f l H; induction l as [|a l IH]; simpl; [reflexivity|]. now rewrite H, IH.
Qed.

(** Closed forms of both list pairs. *)
Definition pair_rows (mask_self : bool) (n : nat) : list (list nat) :=
  map (fun r => filter (off_diag mask_self r) (seq 0 n)) (seq 0 n).

Lemma map_id' : forall A (l : list A), map (fun x => x) l = l.
Proof. exact map_id. Qed.

Lemma flat_map_concat_map' : forall A B (f : A -> list B) l, flat_map f l = concat (map f l).
Proof. exact flat_map_concat_map. Qed.

Lemma src_closed : forall (m : bool) n,
  (if m then delete_slice (tile (seq 0 n) n) 0 (n * n) (n + 1) else tile (seq 0 n) n)
  = concat (pair_rows m n).
Proof.
  intros m n. rewrite (tile_grid n n 0). unfold pair_rows. rewrite <- flat_map_concat_map'.
  destruct m.
  - rewrite (delete_diag nat (fun _ c => c)). apply flat_map_ext_in. intros; apply map_id.
  - apply flat_map_ext_in. intros. rewrite map_id. symmetry. apply filter_true'. reflexivity.
Qed.

Lemma dst_closed : forall (m : bool) n,
  (if m then delete_slice (repeat_each (seq 0 n) n) 0 (n * n) (n + 1) else repeat_each (seq 0 n) n)
  = flat_map (fun r => map (fun _ => r) (filter (off_diag m r) (seq 0 n))) (seq 0 n).
Proof.
  intros m n. rewrite (repeat_grid n n 0). destruct m.
  - rewrite (delete_diag nat (fun r _ => r)). reflexivity.
  - apply flat_map_ext_in. intros r _. rewrite filter_true' by reflexivity. reflexivity.
Qed.

Lemma filter_neq_length : forall n r s, s <= r < s + n ->
  length (filter (fun c => negb (c =? r)) (seq s n)) = n - 1.
Proof.
  induction n as [|n IH]; intros r s H; [lia|]. simpl.
  destruct (Nat.eqb_spec s r) as [->|Hne]; simpl.
  - rewrite (filter_ext_in' _ _ (fun _ => true)).
    + rewrite filter_true' by reflexivity. rewrite seq_length. lia.
    + intros a Ha. apply in_seq in Ha. apply negb_true_iff, Nat.eqb_neq. lia.
  - rewrite IH by lia. lia.
Qed.

Definition row_width (m : bool) (n : nat) : nat := if m then n - 1 else n.

Lemma row_length : forall m n r, r < n ->
  length (filter (off_diag m r) (seq 0 n)) = row_width m n.
Proof.
  intros [] n r H; unfold off_diag; simpl.
  - apply filter_neq_length. lia.
  - rewrite filter_true' by reflexivity. apply seq_length.
Qed.

Lemma chunks_concat : forall A m (rows : list (list A)),
  Forall (fun r => length r = m) rows -> chunks (length rows) m (concat rows) = rows.
Proof.
  intros A m rows H; induction H as [|r rows Hr H IH]; simpl; [reflexivity|].
  rewrite firstn_app, skipn_app, Hr, Nat.sub_diag. simpl.
  rewrite firstn_all2, skipn_all2 by lia. simpl. rewrite app_nil_r. now rewrite IH.
Qed.

Lemma concat_length_const : forall A m (rows : list (list A)),
  Forall (fun r => length r = m) rows -> length (concat rows) = length rows * m.
Proof.
  intros A m rows H; induction H as [|r rows Hr H IH]; simpl; [reflexivity|].
  rewrite app_length; lia.
Qed.

Lemma pair_rows_widths : forall m n, Forall (fun r => length r = row_width m n) (pair_rows m n).
Proof.
  intros m n. unfold pair_rows. apply Forall_forall. intros x Hx.
  apply in_map_iff in Hx. destruct Hx as [r [<- Hr]]. apply in_seq in Hr. apply row_length. lia.
Qed.

Lemma pair_rows_length : forall m n, length (pair_rows m n) = n.
Proof. intros. unfold pair_rows. now rewrite map_length, seq_length. Qed.

Lemma dense_pairwise_ok : forall num m, (1 <= num)%Z ->
  dense_pairwise_indices num m = Ok (pair_rows m (Z.to_nat num)).
Proof.
  intros num m H. unfold dense_pairwise_indices.
  destruct (Z.ltb_spec num 1); [lia|].
  set (n := Z.to_nat num). assert (Hn : 0 < n) by (unfold n; lia).
  cbv zeta. rewrite src_closed. unfold reshape_rows.
  rewrite (concat_length_const _ (row_width m n)) by apply pair_rows_widths.
  rewrite pair_rows_length.
  rewrite Nat.mul_comm, Nat.mod_mul, Nat.div_mul by lia. simpl.
  f_equal. rewrite <- (pair_rows_length m n) at 1.
  apply chunks_concat. apply pair_rows_widths.
Qed.

Lemma combine_const_map : forall A B (f : A -> B) (g : A -> A) (l : list A),
  combine (map f l) (map g l) = map (fun a => (f a, g a)) l.
Proof. intros A B f g l; induction l; simpl; [|rewrite IHl]; reflexivity. Qed.

Lemma combine_app_eq : forall A B (a1 a2 : list A) (b1 b2 : list B), length a1 = length b1 ->
  combine (a1 ++ a2) (b1 ++ b2) = combine a1 b1 ++ combine a2 b2.
Proof.
  intros A B a1; induction a1 as [|x a1 IH]; intros a2 [|y b1] b2 H; simpl in *; try lia; [reflexivity|].
  rewrite IH by lia. reflexivity.
Qed.

Definition pair_list (m : bool) (n : nat) : list (nat * nat) :=
  flat_map (fun r => map (fun c => (r, c)) (filter (off_diag m r) (seq 0 n))) (seq 0 n).

Lemma combine_flat : forall (g : nat -> list nat) (l : list nat),
  combine (flat_map (fun r => map (fun _ => r) (g r)) l) (concat (map g l))
  = flat_map (fun r => map (fun c => (r, c)) (g r)) l.
Proof.
  intros g l; induction l as [|r l IH]; simpl; [reflexivity|].
  rewrite combine_app_eq by (now rewrite map_length). rewrite IH. f_equal.
  induction (g r) as [|x t IHt]; simpl; [reflexivity|]. now rewrite IHt.
Qed.

Lemma length_flat : forall (g : nat -> list nat) (l : list nat),
  length (flat_map (fun r => map (fun _ => r) (g r)) l) = length (concat (map g l)).
Proof.
  intros g l; induction l as [|r l IH]; simpl; [reflexivity|].
  rewrite !app_length, map_length, IH. reflexivity.
Qed.

Lemma in_pair_list : forall m n i j,
  In (i, j) (pair_list m n) <-> i < n /\ j < n /\ (m = true -> i <> j).
Proof.
  intros m n i j. unfold pair_list. rewrite in_flat_map. split.
  - intros [r [Hr H]]. apply in_map_iff in H. destruct H as [c [E H]].
    injection E as -> ->. apply filter_In in H. destruct H as [H1 H2].
    apply in_seq in Hr. apply in_seq in H1. repeat split; try lia.
    intros -> ->. unfold off_diag in H2. rewrite Nat.eqb_refl in H2. discriminate.
  - intros [Hi [Hj H]]. exists i. split; [apply in_seq; lia|].
    apply in_map_iff. exists j. split; [reflexivity|]. apply filter_In.
    split; [apply in_seq; lia|]. unfold off_diag. destruct m; simpl; [|reflexivity].
    apply negb_true_iff, Nat.eqb_neq. intro E. apply H; [reflexivity|now symmetry].
Qed.

Lemma NoDup_app_intro : forall A (a b : list A),
  NoDup a -> NoDup b -> (forall x, In x a -> ~ In x b) -> NoDup (a ++ b).
Proof.
  intros A a b Ha; induction Ha as [|x a Hx Ha IH]; intros Hb Hd; simpl; [assumption|].
  constructor.
  - rewrite in_app_iff. intros [H|H]; [contradiction|]. apply (Hd x); [now left|assumption].
  - apply IH; [assumption|]. intros y Hy. apply Hd. now right.
Qed.

Lemma NoDup_flat_pairs : forall (g : nat -> list nat) (l : list nat),
  NoDup l -> (forall r, NoDup (g r)) -> NoDup (flat_map (fun r => map (fun c => (r, c)) (g r)) l).
Proof.
  intros g l Hl Hg; induction Hl as [|r l Hr Hl IH]; simpl; [constructor|].
  apply NoDup_app_intro.
  - apply FinFun.Injective_map_NoDup; [|apply Hg]. intros a b E. now injection E.
  - assumption.
  - intros [a b] H1 H2. apply in_map_iff in H1. destruct H1 as [c [E _]]. injection E as <- <-.
    apply in_flat_map in H2. destruct H2 as [r' [Hr' H2]].
    apply in_map_iff in H2. destruct H2 as [c' [E' _]]. injection E' as -> ->. contradiction.
Qed.

Lemma StronglySorted_app : forall A (Rr : A -> A -> Prop) a b,
  StronglySorted Rr a -> StronglySorted Rr b -> (forall x y, In x a -> In y b -> Rr x y) ->
  StronglySorted Rr (a ++ b).
Proof.
  intros A Rr a b Ha Hb; induction Ha as [|x a Ha IH Hx]; intros H; simpl; [assumption|].
  constructor.
  - apply IH. intros; apply H; [now right|assumption].
  - apply Forall_app. split; [assumption|]. apply Forall_forall. intros y Hy. apply H; [now left|assumption].
Qed.

Lemma dst_sorted : forall (g : nat -> list nat) n s,
  StronglySorted le (flat_map (fun r => map (fun _ => r) (g r)) (seq s n)).
Proof.
  intros g n; induction n as [|n IH]; intros s; simpl; [constructor|].
  apply StronglySorted_app.
  - induction (g s) as [|x t IHt]; simpl; constructor; [assumption|].
    apply Forall_forall. intros y Hy. apply in_map_iff in Hy. destruct Hy as [z [<- _]]. lia.
  - apply IH.
  - intros x y Hx Hy. apply in_map_iff in Hx. destruct Hx as [z [<- _]].
    apply in_flat_map in Hy. destruct Hy as [r [Hr Hy]]. apply in_map_iff in Hy.
    destruct Hy as [w [<- _]]. apply in_seq in Hr. lia.
Qed.

Lemma sparse_pairwise_closed : forall num m, (1 <= num)%Z ->
  let n := Z.to_nat num in
  exists dst src, sparse_pairwise_indices num m = Ok (dst, src)
    /\ dst = flat_map (fun r => map (fun _ => r) (filter (off_diag m r) (seq 0 n))) (seq 0 n)
    /\ src = concat (pair_rows m n).
Proof.
  intros num m H n. unfold sparse_pairwise_indices.
  destruct (Z.ltb_spec num 1); [lia|]. fold n.
  pose proof (dst_closed m n) as Hd. pose proof (src_closed m n) as Hs.
  destruct m; eexists; eexists; (split; [reflexivity|]); split; assumption.
Qed.

Lemma sparse_pairwise_spec : forall num m, (1 <= num)%Z ->
  exists dst src, sparse_pairwise_indices num m = Ok (dst, src)
    /\ length dst = length src
    /\ NoDup (combine dst src)
    /\ (forall i j, In (i, j) (combine dst src) <->
          (Z.of_nat i < num)%Z /\ (Z.of_nat j < num)%Z /\ (m = true -> i <> j))
    /\ StronglySorted le dst.
Proof.
  intros num m H. destruct (sparse_pairwise_closed num m H) as [dst [src [E [Hd Hs]]]].
  exists dst, src. split; [assumption|]. subst dst src. unfold pair_rows.
  rewrite length_flat. split; [reflexivity|].
  rewrite combine_flat.
  split; [|split].
  - apply NoDup_flat_pairs; [apply seq_NoDup|]. intros. apply NoDup_filter, seq_NoDup.
  - intros i j. fold (pair_list m (Z.to_nat num)). rewrite in_pair_list. split; intros [Ha [Hb Hc]]; (split; [lia | split; [lia | assumption]]).
  - apply dst_sorted.
Qed.

Lemma dense_pairwise_spec : forall num m, (1 <= num)%Z ->
  exists rows, dense_pairwise_indices num m = Ok rows
    /\ length rows = Z.to_nat num
    /\ forall i, (Z.of_nat i < num)%Z ->
         nth i rows [] = filter (fun j => negb (m && (j =? i))) (seq 0 (Z.to_nat num)).
Proof.
  intros num m H. exists (pair_rows m (Z.to_nat num)). split; [now apply dense_pairwise_ok|].
  split; [apply pair_rows_length|]. intros i Hi. unfold pair_rows.
  rewrite (nth_indep _ [] (filter (off_diag m 0) (seq 0 (Z.to_nat num))))
    by (rewrite map_length, seq_length; lia).
  rewrite (map_nth (fun r => filter (off_diag m r) (seq 0 (Z.to_nat num)))).
  rewrite seq_nth by lia. reflexivity.
Qed.

Lemma pairwise_agree : forall num m rows dst src,
  dense_pairwise_indices num m = Ok rows -> sparse_pairwise_indices num m = Ok (dst, src) ->
  concat rows = src.
Proof.
  intros num m rows dst src H1 H2.
  destruct (Z_lt_le_dec num 1) as [Hlt|Hle].
  - unfold dense_pairwise_indices in H1. apply Z.ltb_lt in Hlt. rewrite Hlt in H1. discriminate.
  - rewrite dense_pairwise_ok in H1 by assumption. injection H1 as <-.
    destruct (sparse_pairwise_closed num m Hle) as [d [s [E [_ Hs]]]].
    rewrite E in H2. injection H2 as <- <-. now symmetry.
Qed.

Lemma pairwise_errors : forall num m, (num < 1)%Z ->
  dense_pairwise_indices num m = Err ValueError /\ sparse_pairwise_indices num m = Err ValueError.
Proof.
  intros num m H. unfold dense_pairwise_indices, sparse_pairwise_indices.
  apply Z.ltb_lt in H. now rewrite H.
Qed.
