(** Proofs about matrices of matrices. *)
Require Import List Reals ZArith Bool Lia Lra.
Require Import ZifyNat.
Require Import Verif.Base Verif.RSum Verif.Matmat_Model Verif.Matmat_Spec.
Import ListNotations.
Open Scope R_scope.
Ltac Zify.zify_post_hook ::= Z.div_mod_to_equations.
Arguments Nat.mul : simpl never.

(** ** Lists *)

Lemma firstn_S_nth : forall (A : Type) (d : A) l n, (n < length l)%nat -> firstn (S n) l = firstn n l ++ [nth n l d].
Proof.
  intros A d l; induction l as [|a l IH]; intros n H; [cbn in H; lia|]. destruct n; [reflexivity|].
  cbn in H. cbn [firstn nth app]. rewrite <- IH by lia. reflexivity.
Qed.

Lemma nth_list_prod : forall (A B : Type) (l : list A) (m : list B) a b i j, (i < length l)%nat -> (j < length m)%nat ->
  nth (i * length m + j) (list_prod l m) (a, b) = (nth i l a, nth j m b).
Proof.
  intros A B l m a b; induction l as [|x l IH]; intros i j Hi Hj; [cbn in Hi; lia|]. cbn [list_prod]. destruct i.
  - change (0 * length m + j)%nat with j. rewrite app_nth1 by (rewrite map_length; exact Hj). rewrite (nth_indep _ _ (x, b)) by (rewrite map_length; exact Hj).
    exact (map_nth (fun y => (x, y)) m b j).
  - rewrite app_nth2; rewrite map_length; [|nia]. replace (S i * length m + j - length m)%nat with (i * length m + j)%nat by nia.
    cbn [length] in Hi. rewrite IH by lia. reflexivity.
Qed.

Lemma update_at_length : forall l i x, length (update_at l i x) = length l.
Proof. induction l as [|y l IH]; intros [|i] x; cbn; auto. Qed.

Lemma update_at_nth : forall l i x k, (i < length l)%nat -> nth k (update_at l i x) 0%nat = if (k =? i)%nat then x else nth k l 0%nat.
Proof.
  induction l as [|y l IH]; intros [|i] x [|k] H; cbn in *; try lia; try reflexivity. apply IH. lia.
Qed.

Lemma nth_error_nth0 : forall (l : list nat) k, (k < length l)%nat -> nth_error l k = Some (nth k l 0%nat).
Proof. intros l k H. apply nth_error_nth'. exact H. Qed.

(** ** One rectangle *)

Definition uses (N la lb l : nat) : bool := triangle la lb l && (l <? N)%nat.

Lemma absdiff_le : forall a b l, (absdiff a b <= l <-> a <= b + l /\ b <= a + l)%nat.
Proof. intros. unfold absdiff. lia. Qed.

Lemma triangle_iff : forall la lb l, triangle la lb l = true <-> (absdiff la lb <= l <= la + lb)%nat.
Proof. intros. unfold triangle, absdiff. rewrite !andb_true_iff, !Nat.leb_le. lia. Qed.

Lemma nrange_in : forall a b l, In l (nrange a b) <-> (a <= l < b)%nat.
Proof. intros. unfold nrange. rewrite in_seq. lia. Qed.

Section Rect.
Variable irreps : list mat.
Variable N : nat.
Variable number : nat -> nat.
Hypothesis shape : irreps_shape N number irreps.

Lemma irrep_nth : forall l, (l < N)%nat -> exists x, nth_error irreps l = Some x /\ rows x = (2 * l + 1)%nat /\ cols x = number l
  /\ forall k c, val x k c = irrep irreps l k c.
Proof.
  intros l Hl. destruct shape as [HN H]. destruct (nth_error irreps l) as [x|] eqn:E.
  - exists x. destruct (H l x E). repeat split; auto. intros. unfold irrep. rewrite E. reflexivity.
  - apply nth_error_None in E. lia.
Qed.

Lemma take_ok : forall idx m2 n lower, length idx = N -> (lower + n <= N)%nat ->
  exists ps, take_irreps irreps idx m2 (seq lower n) = Ok ps /\ length ps = n
  /\ forall t, (t < n)%nat -> exists p, nth_error ps t = Some p /\ rows p = (2 * (lower + t) + 1)%nat
     /\ cols p = (Nat.min (nth (lower + t) idx 0%nat + m2) (number (lower + t)) - nth (lower + t) idx 0%nat)%nat
     /\ forall k f, val p k f = irrep irreps (lower + t) k (nth (lower + t) idx 0%nat + f)%nat.
Proof.
  intros idx m2 n; induction n as [|n IH]; intros lower HI HN.
  - exists []. split; [reflexivity|]. split; [reflexivity|]. intros t Ht. lia.
  - destruct (IH (S lower) HI ltac:(lia)) as [ps [E [EL H]]]. cbn [seq take_irreps].
    destruct (irrep_nth lower ltac:(lia)) as [x [Ex [Er [Ec Ev]]]].
    rewrite Ex, (nth_error_nth0 idx lower) by lia. rewrite E. cbn [rmap]. eexists. split; [reflexivity|]. split; [cbn; lia|].
    intros t Ht. destruct t as [|t].
    + eexists. split; [reflexivity|]. cbn [rows cols slice_cols val]. replace (lower + 0)%nat with lower by lia.
      split; [exact Er|]. split; [rewrite Ec; reflexivity|]. intros. apply Ev.
    + destruct (H t ltac:(lia)) as [p [Ep [Pr [Pc Pv]]]]. exists p. cbn [nth_error].
      replace (lower + S t)%nat with (S lower + t)%nat by lia. auto.
Qed.

Lemma advance_ok : forall m2 n lower idx, length idx = N -> (lower + n <= N)%nat ->
  (forall l, (lower <= l < lower + n)%nat -> (nth l idx 0%nat + m2 <= number l)%nat) ->
  exists idx', advance irreps idx m2 (seq lower n) = Ok idx' /\ length idx' = N
  /\ forall l, nth l idx' 0%nat = (nth l idx 0%nat + (if (lower <=? l) && (l <? lower + n) then m2 else 0))%nat.
Proof.
  intros m2 n; induction n as [|n IH]; intros lower idx HI HN H.
  - exists idx. split; [reflexivity|]. split; [exact HI|]. intros l.
    destruct (Nat.leb_spec lower l), (Nat.ltb_spec l (lower + 0)); cbn [andb]; lia.
  - cbn [seq advance]. destruct (irrep_nth lower ltac:(lia)) as [x [Ex [Er [Ec Ev]]]].
    rewrite Ex, (nth_error_nth0 idx lower) by lia. rewrite Ec.
    destruct (Nat.ltb_spec (number lower) (nth lower idx 0%nat + m2)%nat) as [Hlt|_]; [pose proof (H lower ltac:(lia)); lia|].
    destruct (IH (S lower) (update_at idx lower (nth lower idx 0%nat + m2)%nat)) as [idx' [E [EL Hi]]].
    + rewrite update_at_length. exact HI.
    + lia.
    + intros l Hl. rewrite update_at_nth by lia. destruct (Nat.eqb_spec l lower); [lia|]. apply H. lia.
    + exists idx'. split; [exact E|]. split; [exact EL|]. intros l. rewrite Hi, update_at_nth by lia.
      destruct (Nat.eqb_spec l lower) as [->|Hne].
      * destruct (Nat.leb_spec (S lower) lower), (Nat.leb_spec lower lower), (Nat.ltb_spec lower (lower + S n)); cbn [andb]; lia.
      * destruct (Nat.leb_spec (S lower) l), (Nat.ltb_spec l (S lower + n)), (Nat.leb_spec lower l), (Nat.ltb_spec l (lower + S n)); cbn [andb]; lia.
Qed.

Lemma advance_inv : forall m2 n lower idx idx', length idx = N -> (lower + n <= N)%nat ->
  advance irreps idx m2 (seq lower n) = Ok idx' ->
  forall l, (lower <= l < lower + n)%nat -> (nth l idx 0%nat + m2 <= number l)%nat.
Proof.
  intros m2 n; induction n as [|n IH]; intros lower idx idx' HI HN H l Hl; [lia|]. cbn [seq advance] in H.
  destruct (irrep_nth lower ltac:(lia)) as [x [Ex [Er [Ec Ev]]]]. rewrite Ex, (nth_error_nth0 idx lower) in H by lia. rewrite Ec in H.
  destruct (Nat.ltb_spec (number lower) (nth lower idx 0%nat + m2)%nat) as [Hlt|Hge]; [discriminate|].
  destruct (Nat.eq_dec l lower) as [->|Hne]; [exact Hge|].
  assert (Hr : (nth l (update_at idx lower (nth lower idx 0%nat + m2)%nat) 0%nat + m2 <= number l)%nat).
  { apply (IH (S lower) (update_at idx lower (nth lower idx 0%nat + m2)%nat) idx'); [rewrite update_at_length; exact HI|lia|exact H|lia]. }
  rewrite update_at_nth in Hr by lia. destruct (Nat.eqb_spec l lower); [lia|]. exact Hr.
Qed.

Lemma stack_sum : forall n lower ps f (G : nat -> R), length ps = n ->
  (forall t, (t < n)%nat -> exists p, nth_error ps t = Some p /\ rows p = (2 * (lower + t) + 1)%nat) ->
  fold_left Nat.add (map rows ps) 0%nat = ((lower + n) * (lower + n) - lower * lower)%nat
  /\ rsum ((lower + n) * (lower + n) - lower * lower) (fun m => stack_value ps m f * G (lower * lower + m)%nat)
     = rsum n (fun t => rsum (2 * (lower + t) + 1) (fun k =>
         match nth_error ps t with Some p => val p k f | None => 0 end * G ((lower + t) * (lower + t) + k)%nat)).
Proof.
  intros n; induction n as [|n IH]; intros lower ps f G HL H.
  - destruct ps; [|discriminate]. replace ((lower + 0) * (lower + 0) - lower * lower)%nat with 0%nat by lia. split; reflexivity.
  - destruct ps as [|p ps]; [discriminate|]. injection HL as HL.
    destruct (IH (S lower) ps f G HL) as [E1 E2].
    { intros t Ht. destruct (H (S t) ltac:(lia)) as [q [Eq Rq]]. exists q. split; [exact Eq|]. rewrite Rq. lia. }
    destruct (H 0%nat ltac:(lia)) as [q [Eq Rq]]. cbn in Eq. injection Eq as <-.
    assert (F : forall l a, fold_left Nat.add l a = (a + fold_left Nat.add l 0)%nat).
    { induction l as [|x l IHl]; intros a; cbn; [lia|]. rewrite IHl, (IHl x). lia. }
    assert (EN : ((lower + S n) * (lower + S n) - lower * lower = (2 * lower + 1) + ((S lower + n) * (S lower + n) - S lower * S lower))%nat) by nia.
    split.
    + cbn [map fold_left]. rewrite F, E1, Rq. nia.
    + rewrite EN, rsum_add, rsum_S_l. f_equal.
      * replace (lower + 0)%nat with lower in * by lia. cbn [nth_error]. apply rsum_ext. intros k Hk. cbn [stack_value]. rewrite Rq.
        destruct (Nat.ltb_spec k (2 * lower + 1)); [reflexivity|lia].
      * transitivity (rsum ((S lower + n) * (S lower + n) - S lower * S lower) (fun m => stack_value ps m f * G (S lower * S lower + m)%nat)).
        { apply rsum_ext. intros m Hm. cbn [stack_value]. rewrite Rq. replace (lower + 0)%nat with lower by lia.
          destruct (Nat.ltb_spec (2 * lower + 1 + m) (2 * lower + 1)); [lia|]. f_equal; f_equal; nia. }
        rewrite E2. apply rsum_ext. intros t Ht. replace (lower + S t)%nat with (S lower + t)%nat by lia. reflexivity.
Qed.

Variable cg : tensor3.
Variable mult : nat.

Lemma rows_last : (0 < N)%nat -> forall x0, rows (last irreps x0) = (2 * (N - 1) + 1)%nat.
Proof.
  intros HN x0. destruct shape as [HL H]. assert (E : nth_error irreps (N - 1) = Some (last irreps x0)).
  { clear H. subst N. destruct (exists_last (l := irreps)) as [l' [a ->]]; [intros ->; cbn in HN; lia|].
    rewrite last_last, app_length. cbn [length]. replace (length l' + 1 - 1)%nat with (length l') by lia.
    rewrite nth_error_app2 by lia. replace (length l' - length l')%nat with 0%nat by lia. reflexivity. }
  apply (H _ _ E).
Qed.

(** Value of a rectangle, and the new pointers. *)
Definition rect_value (la lb : nat) (idx : list nat) (i u j v : nat) : R :=
  rsum N (fun l => if triangle la lb l
    then rsum (2 * l + 1) (fun k => irrep irreps l k (nth l idx 0%nat + (i * mult + j))%nat
                                    * tval cg (la * la + u)%nat (lb * lb + v)%nat (l * l + k)%nat)
    else 0).

Lemma rect_ok : forall idx la lb, (0 < N)%nat -> length idx = N ->
  ((la + 1) * (la + 1) <= t1 cg)%nat -> ((lb + 1) * (lb + 1) <= t2 cg)%nat -> (Nat.min (la + lb + 1) N * Nat.min (la + lb + 1) N <= t3 cg)%nat ->
  (forall l, (l < N)%nat -> triangle la lb l = true -> (nth l idx 0%nat + mult * mult <= number l)%nat) ->
  exists M idx', make_rectangular_matrix irreps idx (2 * la + 1) (2 * lb + 1) cg mult = Ok (M, idx')
  /\ rows M = ((2 * la + 1) * mult)%nat /\ cols M = ((2 * lb + 1) * mult)%nat
  /\ length idx' = N
  /\ (forall l, (l < N)%nat -> nth l idx' 0%nat = (nth l idx 0%nat + if triangle la lb l then mult * mult else 0)%nat)
  /\ forall i u j v, (i < mult)%nat -> (j < mult)%nat -> (u < 2 * la + 1)%nat -> (v < 2 * lb + 1)%nat ->
       val M (i * (2 * la + 1) + u)%nat (j * (2 * lb + 1) + v)%nat = rect_value la lb idx i u j v.
Proof.
  intros idx la lb HN HI H1 H2 H3 Hfit. unfold make_rectangular_matrix.
  destruct irreps as [|x0 rest] eqn:Eir; [destruct shape as [HL _]; cbn in HL; lia|]. rewrite <- Eir in *.
  assert (R0 : rows x0 = 1%nat) by (destruct shape as [_ H]; destruct (H 0%nat x0) as [Hr _]; [rewrite Eir; reflexivity|exact Hr]).
  rewrite R0, (rows_last HN). change (1 mod 2)%nat with 1%nat. change (1 / 2)%nat with 0%nat. change (1 =? 0)%nat with false. cbn iota.
  assert (Ea : forall l, ((2 * l + 1) mod 2 =? 0)%nat = false) by (intros l; apply Nat.eqb_neq; lia).
  assert (Eb : forall l, ((2 * l + 1) / 2)%nat = l) by (intros l; lia).
  rewrite !Ea, !Eb. cbn iota zeta. rewrite Nat.max_0_r.
  set (lower := absdiff la lb). set (upper := (Nat.min (la + lb) (N - 1) + 1)%nat).
  assert (EU : upper = Nat.min (la + lb + 1) N) by (unfold upper; lia).
  assert (HT : forall l, (l < N)%nat -> triangle la lb l = true <-> (lower <= l < upper)%nat).
  { intros l Hl. rewrite triangle_iff. fold lower. lia. }
  destruct (Nat.leb_spec upper lower) as [Hul|Hul].
  - assert (HF : forall l, (l < N)%nat -> triangle la lb l = false).
    { intros l Hl. destruct (triangle la lb l) eqn:E; [|reflexivity]. apply HT in E; lia. }
    eexists _, _. split; [reflexivity|]. split; [reflexivity|]. split; [reflexivity|]. split; [exact HI|]. split.
    + intros l Hl. rewrite HF by exact Hl. lia.
    + intros. cbn [val]. symmetry. apply rsum_zero. intros l Hl. rewrite HF by exact Hl. reflexivity.
  - destruct (Nat.ltb_spec (t1 cg) ((la + 1) * (la + 1))); [lia|]. destruct (Nat.ltb_spec (t2 cg) ((lb + 1) * (lb + 1))); [lia|].
    destruct (Nat.ltb_spec (t3 cg) (upper * upper)); [rewrite EU in *; lia|].
    set (n := (upper - lower)%nat). assert (En : (lower + n = upper)%nat) by (unfold n; lia).
    unfold nrange. fold n.
    destruct (take_ok idx (mult * mult) n lower HI ltac:(lia)) as [ps [E1 [EL Hps]]]. rewrite E1. cbn [bind].
    assert (Hcols : forall t, (t < n)%nat -> exists p, nth_error ps t = Some p /\ cols p = (mult * mult)%nat).
    { intros t Ht. destruct (Hps t Ht) as [p [Ep [_ [Pc _]]]]. exists p. split; [exact Ep|]. rewrite Pc.
      pose proof (Hfit (lower + t)%nat ltac:(lia) ltac:(apply HT; lia)). lia. }
    assert (Ecat : concat_rows ps = Ok (mkMat (fold_left Nat.add (map rows ps) 0%nat) (mult * mult) (stack_value ps))).
    { destruct ps as [|p ps']; [cbn in EL; lia|]. unfold concat_rows.
      destruct (Hcols 0%nat ltac:(lia)) as [p0 [Ep0 Ec0]]. injection Ep0 as <-.
      assert (FB : forallb (fun y => (cols y =? cols p)%nat) ps' = true).
      { apply forallb_forall. intros y Hy. apply In_nth_error in Hy. destruct Hy as [t Ht].
        assert (Htl : (t < length ps')%nat) by (apply nth_error_Some; congruence).
        cbn in EL. destruct (Hcols (S t) ltac:(lia)) as [q [Eq Ecq]]. cbn in Eq. rewrite Ht in Eq. injection Eq as <-. apply Nat.eqb_eq. lia. }
      rewrite FB, Ec0. reflexivity. }
    rewrite Ecat. cbn [bind].
    destruct (advance_ok (mult * mult) n lower idx HI ltac:(lia)) as [idx' [E2 [EL' Hi']]].
    { intros l Hl. apply Hfit; [lia|apply HT; lia]. }
    rewrite E2. cbn [bind rows val].
    assert (Hrow : forall t, (t < n)%nat -> exists p, nth_error ps t = Some p /\ rows p = (2 * (lower + t) + 1)%nat).
    { intros t Ht. destruct (Hps t Ht) as [p [Ep [Pr _]]]. eauto. }
    destruct (stack_sum n lower ps 0%nat (fun _ => 0) EL Hrow) as [ER _]. rewrite ER, En, Nat.eqb_refl. cbn [negb].
    eexists _, _. split; [reflexivity|]. split; [reflexivity|]. split; [reflexivity|]. split; [exact EL'|]. split.
    + intros l Hl. rewrite Hi'. f_equal. destruct (triangle la lb l) eqn:ET.
      * apply HT in ET; [|exact Hl]. destruct (Nat.leb_spec lower l), (Nat.ltb_spec l (lower + n)); cbn [andb]; lia.
      * assert (~ (lower <= l < upper)%nat) by (intros HH; apply HT in HH; [congruence|exact Hl]).
        destruct (Nat.leb_spec lower l), (Nat.ltb_spec l (lower + n)); cbn [andb]; lia.
    + intros i u j v Hi Hj Hu Hv. cbn [val].
      assert (Emod : forall q w m, (w < m)%nat -> ((q * m + w) mod m = w /\ (q * m + w) / m = q)%nat).
      { intros q w m Hw. split; [rewrite Nat.add_comm, Nat.mod_add by lia; apply Nat.mod_small; exact Hw|].
        rewrite Nat.add_comm, Nat.div_add by lia. rewrite Nat.div_small by exact Hw. reflexivity. }
      destruct (Emod i u (2 * la + 1)%nat Hu) as [-> ->]. destruct (Emod j v (2 * lb + 1)%nat Hv) as [-> ->].
      destruct (stack_sum n lower ps (i * mult + j)%nat (fun m => tval cg (la * la + u)%nat (lb * lb + v)%nat m) EL Hrow) as [_ ES].
      rewrite En in ES. rewrite ES. unfold rect_value. symmetry.
      rewrite (rsum_window lower upper N) by (solve [lia | intros l Hl Hno; destruct (triangle la lb l) eqn:ET; [apply HT in ET; [contradiction|exact Hl]|reflexivity]]).
      fold n. apply rsum_ext. intros t Ht. rewrite (proj2 (HT (lower + t)%nat ltac:(lia))) by lia. apply rsum_ext. intros k Hk.
      destruct (Hps t Ht) as [p [Ep [_ [_ Pv]]]]. rewrite Ep, Pv. reflexivity.
Qed.

(** If a rectangle is returned there were enough irreps. *)
Lemma rect_inv : forall idx la lb M idx', (0 < N)%nat -> length idx = N ->
  make_rectangular_matrix irreps idx (2 * la + 1) (2 * lb + 1) cg mult = Ok (M, idx') ->
  (forall l, (l < N)%nat -> triangle la lb l = true -> (nth l idx 0%nat + mult * mult <= number l)%nat)
  /\ ((exists l, (l < N)%nat /\ triangle la lb l = true) ->
      ((la + 1) * (la + 1) <= t1 cg)%nat /\ ((lb + 1) * (lb + 1) <= t2 cg)%nat /\ (Nat.min (la + lb + 1) N * Nat.min (la + lb + 1) N <= t3 cg)%nat).
Proof.
  intros idx la lb M idx' HN HI H. unfold make_rectangular_matrix in H.
  destruct irreps as [|x0 rest] eqn:Eir; [destruct shape as [HL _]; cbn in HL; lia|]. rewrite <- Eir in *.
  assert (R0 : rows x0 = 1%nat) by (destruct shape as [_ Hx]; destruct (Hx 0%nat x0) as [Hr _]; [rewrite Eir; reflexivity|exact Hr]).
  rewrite R0, (rows_last HN) in H. change (1 mod 2)%nat with 1%nat in H. change (1 / 2)%nat with 0%nat in H. change (1 =? 0)%nat with false in H. cbn iota in H.
  assert (Ea : forall l, ((2 * l + 1) mod 2 =? 0)%nat = false) by (intros l; apply Nat.eqb_neq; lia).
  assert (Eb : forall l, ((2 * l + 1) / 2)%nat = l) by (intros l; lia).
  rewrite !Ea, !Eb in H. cbn iota zeta in H. rewrite Nat.max_0_r in H.
  set (lower := absdiff la lb) in H. set (upper := (Nat.min (la + lb) (N - 1) + 1)%nat) in H.
  assert (EU : upper = Nat.min (la + lb + 1) N) by (unfold upper; lia).
  assert (HT : forall l, (l < N)%nat -> triangle la lb l = true <-> (lower <= l < upper)%nat).
  { intros l Hl. rewrite triangle_iff. fold lower. lia. }
  destruct (Nat.leb_spec upper lower) as [Hul|Hul].
  - split; [intros l Hl E; apply HT in E; lia|]. intros [l [Hl E]]. apply HT in E; lia.
  - destruct (Nat.ltb_spec (t1 cg) ((la + 1) * (la + 1))); [discriminate|]. destruct (Nat.ltb_spec (t2 cg) ((lb + 1) * (lb + 1))); [discriminate|].
    destruct (Nat.ltb_spec (t3 cg) (upper * upper)); [discriminate|].
    destruct (take_irreps _ _ _ _); [|discriminate]. cbn [bind] in H. destruct (concat_rows _); [|discriminate]. cbn [bind] in H.
    unfold nrange in H. destruct (advance irreps idx (mult * mult) (seq lower (upper - lower))) as [idx2|] eqn:EA; [|discriminate].
    split; [|intros _; rewrite <- EU; auto]. intros l Hl E. apply HT in E; [|exact Hl].
    refine (advance_inv (mult * mult)%nat (upper - lower)%nat lower idx idx2 HI _ EA l _); lia.
Qed.

End Rect.

(** ** The loops *)

Lemma blocks_with_app : forall l p q, blocks_with l (p ++ q) = (blocks_with l p + blocks_with l q)%nat.
Proof. intros. unfold blocks_with. rewrite filter_app, app_length. reflexivity. Qed.

Lemma blocks_with_firstn : forall l k p, (blocks_with l (firstn k p) <= blocks_with l p)%nat.
Proof. intros. rewrite <- (firstn_skipn k p) at 2. rewrite blocks_with_app. lia. Qed.

Lemma blocks_with_step : forall l q p, (q < length p)%nat ->
  blocks_with l (firstn (S q) p) = (blocks_with l (firstn q p) + if triangle (fst (nth q p (0, 0)%nat)) (snd (nth q p (0, 0)%nat)) l then 1 else 0)%nat.
Proof.
  intros. rewrite (firstn_S_nth _ (0, 0)%nat) by assumption. rewrite blocks_with_app. f_equal. unfold blocks_with. cbn [filter].
  destruct (triangle _ _ _); reflexivity.
Qed.

Lemma list_sum_app1 : forall l x, list_sum (l ++ [x]) = (list_sum l + x)%nat.
Proof. intros. rewrite list_sum_app. cbn. lia. Qed.

Section Loops.
Variable irreps : list mat.
Variable N : nat.
Variable degrees : list nat.
Variable mult : nat.
Variable cg : tensor3.
Variable shift : bool.

Notation n := (length degrees).
Notation d := (degree_at degrees).
Notation pairs := (list_prod degrees degrees).
Notation ns := (compute_side_lengths degrees).
Notation off := (offset degrees mult).

Lemma offset_S : forall A, (A < n)%nat -> off (S A) = (off A + (2 * d A + 1) * mult)%nat.
Proof.
  intros A HA. unfold offset. rewrite (firstn_S_nth _ 0%nat) by exact HA. rewrite map_app. cbn [map]. rewrite list_sum_app1. unfold degree_at. lia.
Qed.

Lemma offset_mono : forall A B, (A <= B)%nat -> (B <= n)%nat -> (off A <= off B)%nat.
Proof. intros A B H. induction H; intros HB; [lia|]. rewrite offset_S by lia. specialize (IHle ltac:(lia)). lia. Qed.

Lemma position_bounds : forall A i u, in_group degrees mult A i u ->
  (off A <= position degrees mult A i u < off (S A))%nat.
Proof. intros A i u [HA [Hi Hu]]. rewrite offset_S by exact HA. unfold position. nia. Qed.

Lemma position_inj : forall A i u A' i' u', in_group degrees mult A i u -> in_group degrees mult A' i' u' ->
  position degrees mult A i u = position degrees mult A' i' u' -> A = A' /\ i = i' /\ u = u'.
Proof.
  intros A i u A' i' u' H H' E. pose proof (position_bounds _ _ _ H) as B1. pose proof (position_bounds _ _ _ H') as B2.
  destruct H as [HA [Hi Hu]], H' as [HA' [Hi' Hu']].
  assert (EA : A = A').
  { destruct (Nat.lt_trichotomy A A') as [Hl|[He|Hl]]; [|exact He|].
    - pose proof (offset_mono (S A) A' ltac:(lia) ltac:(lia)). lia.
    - pose proof (offset_mono (S A') A ltac:(lia) ltac:(lia)). lia. }
  subst A'. unfold position in E. split; [reflexivity|].
  assert (Ed : (i * (2 * d A + 1) + u = i' * (2 * d A + 1) + u')%nat) by lia.
  assert (i = i') by nia. subst i'. split; lia.
Qed.

Lemma position_surj : forall r, (r < off n)%nat -> exists A i u, in_group degrees mult A i u /\ r = position degrees mult A i u.
Proof.
  intros r Hr. assert (G : forall k, (k <= n)%nat -> (r < off k)%nat -> exists A i u, in_group degrees mult A i u /\ r = position degrees mult A i u).
  { induction k as [|k IH]; intros Hk Hrk; [unfold offset in Hrk; cbn in Hrk; lia|].
    destruct (Nat.lt_ge_cases r (off k)) as [Hlt|Hge]; [apply IH; lia|].
    rewrite offset_S in Hrk by lia. exists k, ((r - off k) / (2 * d k + 1))%nat, ((r - off k) mod (2 * d k + 1))%nat.
    split.
    - split; [lia|]. split; [apply Nat.div_lt_upper_bound; lia|apply Nat.mod_upper_bound; lia].
    - unfold position. pose proof (Nat.div_mod (r - off k) (2 * d k + 1) ltac:(lia)). lia. }
  exact (G n (le_n _) Hr).
Qed.

Definition entry (A i u B j v : nat) : R :=
  assembled (tval cg) N degrees mult irreps A i u B j v
  + (if shift then eye (position degrees mult A i u) (position degrees mult B j v) else 0).

Variable number : nat -> nat.
Hypothesis Npos : (0 < N)%nat.
Hypothesis shape : irreps_shape N number irreps.
Hypothesis dims : forall A, (A < n)%nat -> ((d A + 1) * (d A + 1) <= t1 cg /\ (d A + 1) * (d A + 1) <= t2 cg)%nat.
Hypothesis dim3 : (N * N <= t3 cg)%nat.

Definition idx_at (q : nat) (idx : list nat) : Prop :=
  length idx = N /\ forall l, (l < N)%nat -> nth l idx 0%nat = (blocks_with l (firstn q pairs) * (mult * mult))%nat.

Lemma ns_nth : forall A, (A < n)%nat -> nth A ns 0%nat = (2 * d A + 1)%nat.
Proof.
  intros A HA. unfold compute_side_lengths. rewrite (nth_indep _ _ ((fun l => 2 * l + 1) 0)%nat) by (rewrite map_length; exact HA).
  rewrite (map_nth (fun l => 2 * l + 1)%nat). reflexivity.
Qed.

Lemma ns_length : length ns = n.
Proof. apply map_length. Qed.

Lemma pairs_length : length pairs = (n * n)%nat.
Proof. apply prod_length. Qed.

Lemma rect_value_assembled : forall A B idx i u j v, idx_at (A * n + B) idx ->
  rect_value irreps N cg mult (d A) (d B) idx i u j v = assembled (tval cg) N degrees mult irreps A i u B j v.
Proof.
  intros A B idx i u j v [_ H]. unfold rect_value, assembled. apply rsum_ext. intros l Hl. destruct (triangle _ _ l); [|reflexivity].
  apply rsum_ext. intros k Hk. rewrite H by exact Hl. reflexivity.
Qed.

(** Effect of one rectangle. *)
Lemma inner_step_ok : forall A B m idx, (A < n)%nat -> (B < n)%nat ->
  (forall l, (l < N)%nat -> (blocks_with l (firstn (S (A * n + B)) pairs) * (mult * mult) <= number l)%nat) ->
  idx_at (A * n + B) idx ->
  exists m' idx', inner_step irreps cg mult shift (off A) (2 * d A + 1) (Ok (m, idx, off B)) (2 * d B + 1) = Ok (m', idx', off (S B))
  /\ idx_at (S (A * n + B)) idx'
  /\ (forall i u j v, in_group degrees mult A i u -> in_group degrees mult B j v ->
        m' (position degrees mult A i u) (position degrees mult B j v) = entry A i u B j v)
  /\ (forall r c, (r < off A \/ off (S A) <= r \/ c < off B)%nat -> m' r c = m r c).
Proof.
  intros A B m idx HA HB Hfit HI.
  assert (Hq : (A * n + B < length pairs)%nat) by (rewrite pairs_length; nia).
  assert (Enth : nth (A * n + B) pairs (0, 0)%nat = (d A, d B)) by (apply nth_list_prod; assumption).
  pose proof HI as [HL HI'].
  destruct (dims A HA) as [D1 _]. destruct (dims B HB) as [_ D2].
  destruct (rect_ok irreps N number shape cg mult idx (d A) (d B)) as [M [idx' [E [Er [Ec [EL [Hi HV]]]]]]]; try assumption.
  { etransitivity; [|exact dim3]. assert (Nat.min (d A + d B + 1) N <= N)%nat by lia. nia. }
  { intros l Hl ET. specialize (Hfit l Hl). rewrite blocks_with_step, Enth in Hfit by exact Hq. cbn [fst snd] in Hfit. rewrite ET in Hfit. rewrite HI' by exact Hl. lia. }
  unfold inner_step. cbn [bind]. rewrite E. cbn [bind].
  rewrite <- (offset_S B HB).
  eexists _, _. split; [reflexivity|]. split; [|split].
  - split; [exact EL|]. intros l Hl. rewrite Hi, HI' by exact Hl. rewrite blocks_with_step, Enth by exact Hq. cbn [fst snd].
    destruct (triangle _ _ l); lia.
  - intros i u j v Hu Hv. pose proof (position_bounds _ _ _ Hu) as B1. pose proof (position_bounds _ _ _ Hv) as B2.
    unfold set_block. rewrite <- (offset_S A HA).
    destruct (Nat.leb_spec (off A) (position degrees mult A i u)); [|lia].
    destruct (Nat.ltb_spec (position degrees mult A i u) (off (S A))); [|lia].
    destruct (Nat.leb_spec (off B) (position degrees mult B j v)); [|lia].
    destruct (Nat.ltb_spec (position degrees mult B j v) (off (S B))); [|lia]. cbn [andb].
    assert (P1 : (position degrees mult A i u - off A = i * (2 * d A + 1) + u)%nat) by (unfold position; lia).
    assert (P2 : (position degrees mult B j v - off B = j * (2 * d B + 1) + v)%nat) by (unfold position; lia).
    assert (VM : val M (position degrees mult A i u - off A)%nat (position degrees mult B j v - off B)%nat = assembled (tval cg) N degrees mult irreps A i u B j v).
    { rewrite P1, P2. destruct Hu as [_ [? ?]], Hv as [_ [? ?]]. rewrite HV by assumption. apply rect_value_assembled. exact HI. }
    unfold entry. destruct shift; cbn [andb]; [|rewrite VM; lra].
    destruct (Nat.eqb_spec (off A) (off B)) as [Eo|Eo]; cbn [val].
    + rewrite VM. f_equal. unfold eye. rewrite Eo.
      destruct (Nat.eqb_spec (position degrees mult A i u - off B) (position degrees mult B j v - off B)), (Nat.eqb_spec (position degrees mult A i u) (position degrees mult B j v)); try reflexivity; lia.
    + rewrite VM. unfold eye. destruct (Nat.eqb_spec (position degrees mult A i u) (position degrees mult B j v)) as [Ep|]; [|lra].
      exfalso. apply Eo. destruct (position_inj _ _ _ _ _ _ Hu Hv Ep) as [-> _]. reflexivity.
  - intros r c Hrc. unfold set_block. rewrite <- (offset_S A HA).
    destruct (Nat.leb_spec (off A) r); cbn [andb]; [|reflexivity].
    destruct (Nat.ltb_spec r (off (S A))); cbn [andb]; [|reflexivity].
    destruct (Nat.leb_spec (off B) c); cbn [andb]; [|reflexivity].
    lia.
Qed.

Lemma inner_step_inv : forall A B m idx s, (A < n)%nat -> (B < n)%nat ->
  idx_at (A * n + B) idx ->
  inner_step irreps cg mult shift (off A) (2 * d A + 1) (Ok (m, idx, off B)) (2 * d B + 1) = Ok s ->
  forall l, (l < N)%nat -> triangle (d A) (d B) l = true -> (blocks_with l (firstn (S (A * n + B)) pairs) * (mult * mult) <= number l)%nat.
Proof.
  intros A B m idx s HA HB HI H l Hl ET. unfold inner_step in H. cbn [bind] in H.
  assert (Hq : (A * n + B < length pairs)%nat) by (rewrite pairs_length; nia).
  assert (Enth : nth (A * n + B) pairs (0, 0)%nat = (d A, d B)) by (apply nth_list_prod; assumption).
  destruct HI as [HL HI'].
  destruct (make_rectangular_matrix irreps idx (2 * d A + 1) (2 * d B + 1) cg mult) as [[M idx']|] eqn:E; [|discriminate].
  destruct (rect_inv irreps N number shape cg mult idx (d A) (d B) M idx' Npos HL E) as [F _]. specialize (F l Hl ET).
  rewrite HI' in F by exact Hl. rewrite blocks_with_step, Enth by exact Hq. cbn [fst snd]. rewrite ET. lia.
Qed.

Lemma inner_fold_err : forall l sa a e, fold_left (inner_step irreps cg mult shift sa a) l (Err e) = Err e.
Proof. induction l as [|b l IH]; intros; cbn; auto. Qed.

Lemma outer_fold_err : forall l e, fold_left (outer_step irreps cg mult shift ns) l (Err e) = Err e.
Proof. induction l as [|b l IH]; intros; cbn; auto. Qed.

Definition fit (q : nat) : Prop := forall l, (l < N)%nat -> (blocks_with l (firstn q pairs) * (mult * mult) <= number l)%nat.

Lemma fit_mono : forall p q, (p <= q)%nat -> fit q -> fit p.
Proof.
  intros p q H F l Hl. etransitivity; [|exact (F l Hl)]. apply Nat.mul_le_mono_r.
  replace (firstn p pairs) with (firstn p (firstn q pairs)); [apply blocks_with_firstn|]. rewrite firstn_firstn. f_equal. lia.
Qed.

Lemma inner_ok : forall A m idx, (A < n)%nat -> idx_at (A * n) idx ->
  forall B, (B <= n)%nat -> fit (A * n + B) ->
  exists m' idx', fold_left (inner_step irreps cg mult shift (off A) (2 * d A + 1)) (firstn B ns) (Ok (m, idx, 0%nat)) = Ok (m', idx', off B)
  /\ idx_at (A * n + B) idx'
  /\ (forall B' i u j v, (B' < B)%nat -> in_group degrees mult A i u -> in_group degrees mult B' j v ->
        m' (position degrees mult A i u) (position degrees mult B' j v) = entry A i u B' j v)
  /\ (forall r c, (r < off A \/ off (S A) <= r)%nat -> m' r c = m r c).
Proof.
  intros A m idx HA HI B. induction B as [|B IH]; intros HB Hfit.
  - exists m, idx. split; [cbn [firstn fold_left]; f_equal; f_equal; unfold offset; cbn; lia|]. split; [replace (A * n + 0)%nat with (A * n)%nat by lia; exact HI|].
    split; [intros; lia|reflexivity].
  - destruct (IH ltac:(lia)) as [m1 [idx1 [E1 [I1 [V1 F1]]]]]; [refine (fit_mono _ _ _ Hfit); lia|].
    destruct (inner_step_ok A B m1 idx1 HA ltac:(lia)) as [m2 [idx2 [E2 [I2 [V2 F2]]]]]; [|exact I1|].
    { replace (S (A * n + B)) with (A * n + S B)%nat by lia. exact Hfit. }
    exists m2, idx2. split.
    { rewrite (firstn_S_nth _ 0%nat) by (rewrite ns_length; lia). rewrite fold_left_app, E1, ns_nth by lia. cbn [fold_left]. exact E2. }
    split; [replace (A * n + S B)%nat with (S (A * n + B)) by lia; exact I2|].
    split.
    + intros B' i u j v HB' Hu Hv. destruct (Nat.eq_dec B' B) as [->|Hne]; [apply V2; assumption|].
      rewrite F2; [apply V1; [lia|assumption|assumption]|]. right. right.
      pose proof (position_bounds _ _ _ Hv). pose proof (offset_mono (S B') B ltac:(lia) ltac:(lia)). lia.
    + intros r c Hr. rewrite F2 by lia. apply F1. exact Hr.
Qed.

Lemma inner_inv : forall A m idx, (A < n)%nat -> idx_at (A * n) idx -> fit (A * n) ->
  forall B s, (B <= n)%nat ->
  fold_left (inner_step irreps cg mult shift (off A) (2 * d A + 1)) (firstn B ns) (Ok (m, idx, 0%nat)) = Ok s -> fit (A * n + B).
Proof.
  intros A m idx HA HI HF B. induction B as [|B IH]; intros s HB H.
  - replace (A * n + 0)%nat with (A * n)%nat by lia. exact HF.
  - rewrite (firstn_S_nth _ 0%nat) in H by (rewrite ns_length; lia). rewrite fold_left_app in H. rewrite ns_nth in H by lia. cbn [fold_left] in H.
    destruct (fold_left (inner_step irreps cg mult shift (off A) (2 * d A + 1)) (firstn B ns) (Ok (m, idx, 0%nat))) as [s1|e] eqn:E1; [|discriminate].
    assert (F1 : fit (A * n + B)) by (apply (IH s1); [lia|reflexivity]).
    destruct (inner_ok A m idx HA HI B ltac:(lia) F1) as [m1 [idx1 [E1' [I1 _]]]]. rewrite E1' in E1. injection E1 as <-.
    intros l Hl. replace (A * n + S B)%nat with (S (A * n + B)) by lia.
    destruct (triangle (d A) (d B) l) eqn:ET; [exact (inner_step_inv A B m1 idx1 s HA ltac:(lia) I1 H l Hl ET)|].
    rewrite blocks_with_step by (rewrite pairs_length; nia). unfold degree_at in ET.
    rewrite nth_list_prod by lia. cbn [fst snd]. rewrite ET. specialize (F1 l Hl). lia.
Qed.

Lemma outer_ok : length irreps = N ->
  forall A, (A <= n)%nat -> fit (A * n) ->
  exists m idx, fold_left (outer_step irreps cg mult shift ns) (firstn A ns) (Ok (fun _ _ => 0, repeat 0%nat (length irreps), 0%nat)) = Ok (m, idx, off A)
  /\ idx_at (A * n) idx
  /\ (forall A' B i u j v, (A' < A)%nat -> in_group degrees mult A' i u -> in_group degrees mult B j v ->
        m (position degrees mult A' i u) (position degrees mult B j v) = entry A' i u B j v).
Proof.
  intros HL A. induction A as [|A IH]; intros HA Hfit.
  - exists (fun _ _ => 0), (repeat 0%nat (length irreps)). split; [cbn [firstn fold_left]; f_equal; f_equal; unfold offset; cbn; lia|].
    split; [|intros; lia]. split; [rewrite repeat_length; exact HL|]. intros l Hl. change (0 * n)%nat with 0%nat. cbn [firstn].
    change (blocks_with l []) with 0%nat. rewrite nth_repeat. lia.
  - destruct (IH ltac:(lia)) as [m1 [idx1 [E1 [I1 V1]]]]; [refine (fit_mono _ _ _ Hfit); nia|].
    destruct (inner_ok A m1 idx1 ltac:(lia) I1 n (le_n _)) as [m2 [idx2 [E2 [I2 [V2 F2]]]]].
    { replace (A * n + n)%nat with (S A * n)%nat by lia. exact Hfit. }
    rewrite firstn_all2 in E2 by (rewrite ns_length; lia).
    exists m2, idx2. split.
    { rewrite (firstn_S_nth _ 0%nat) by (rewrite ns_length; lia). rewrite fold_left_app, E1, ns_nth by lia. cbn [fold_left].
      unfold outer_step. cbn [bind]. rewrite E2. cbn [bind]. rewrite <- (offset_S A) by lia. reflexivity. }
    split; [replace (S A * n)%nat with (A * n + n)%nat by lia; exact I2|].
    intros A' B i u j v HA' Hu Hv. destruct (Nat.eq_dec A' A) as [->|Hne].
    + apply V2; [destruct Hv; assumption|assumption|assumption].
    + rewrite F2; [apply V1; [lia|assumption|assumption]|]. left.
      pose proof (position_bounds _ _ _ Hu). pose proof (offset_mono (S A') A ltac:(lia) ltac:(lia)). lia.
Qed.

Lemma outer_inv : length irreps = N -> forall A s, (A <= n)%nat ->
  fold_left (outer_step irreps cg mult shift ns) (firstn A ns) (Ok (fun _ _ => 0, repeat 0%nat (length irreps), 0%nat)) = Ok s -> fit (A * n).
Proof.
  intros HL A. induction A as [|A IH]; intros s HA H.
  - intros l Hl. change (0 * n)%nat with 0%nat. cbn [firstn]. change (blocks_with l []) with 0%nat. lia.
  - rewrite (firstn_S_nth _ 0%nat) in H by (rewrite ns_length; lia). rewrite fold_left_app in H. rewrite ns_nth in H by lia. cbn [fold_left] in H.
    destruct (fold_left (outer_step irreps cg mult shift ns) (firstn A ns) (Ok (fun _ _ => 0, repeat 0%nat (length irreps), 0%nat))) as [s1|e] eqn:E1; [|discriminate].
    assert (F1 : fit (A * n)) by (apply (IH s1); [lia|reflexivity]).
    destruct (outer_ok HL A ltac:(lia) F1) as [m1 [idx1 [E1' [I1 _]]]]. rewrite E1' in E1. injection E1 as <-.
    unfold outer_step in H. cbn [bind] in H.
    destruct (fold_left (inner_step irreps cg mult shift (off A) (2 * d A + 1)) ns (Ok (m1, idx1, 0%nat))) as [s2|] eqn:E2; [|discriminate].
    replace (S A * n)%nat with (A * n + n)%nat by lia. apply (inner_inv A m1 idx1 ltac:(lia) I1 F1 n s2 (le_n _)).
    rewrite firstn_all2 by (rewrite ns_length; lia). exact E2.
Qed.

End Loops.
