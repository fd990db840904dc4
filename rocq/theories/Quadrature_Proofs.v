(** Proofs about the selection of quadrature grids. *)
Require Import List ZArith Bool Lia.
Require Import Verif.Base Verif.Quadrature_Model Verif.Quadrature_Spec.
Import ListNotations.
Open Scope Z_scope.

Lemma np_max_spec : forall l m, np_max l = Ok m -> In m l /\ forall x, In x l -> x <= m.
Proof.
  intros [|a t] m H; [discriminate|]. injection H as <-. revert a.
  induction t as [|b t IH]; intros a; cbn [fold_left].
  - split; [left; reflexivity|]. intros x [<-|[]]. lia.
  - destruct (IH (Z.max a b)) as [H1 H2]. split.
    + destruct H1 as [H1|H1]; [|right; right; exact H1]. destruct (Z.max_spec a b) as [[_ E]|[_ E]]; rewrite E in *; [right; left|left]; congruence.
    + intros x [<-|[<-|Hx]]; [| |apply H2; right; exact Hx]; pose proof (H2 (Z.max a b) ltac:(left; reflexivity)); lia.
Qed.

Lemma np_min_spec : forall l m, np_min l = Ok m -> In m l /\ forall x, In x l -> m <= x.
Proof.
  intros [|a t] m H; [discriminate|]. injection H as <-. revert a.
  induction t as [|b t IH]; intros a; cbn [fold_left].
  - split; [left; reflexivity|]. intros x [<-|[]]. lia.
  - destruct (IH (Z.min a b)) as [H1 H2]. split.
    + destruct H1 as [H1|H1]; [|right; right; exact H1]. destruct (Z.min_spec a b) as [[_ E]|[_ E]]; rewrite E in *; [left|right; left]; congruence.
    + intros x [<-|[<-|Hx]]; [| |apply H2; right; exact Hx]; pose proof (H2 (Z.min a b) ltac:(left; reflexivity)); lia.
Qed.

Definition best_ok (l : list (option Z)) (r : option (nat * Z)) : Prop :=
  match r with
  | Some (i, x) => nth_error l i = Some (Some x) /\ forall j y, nth_error l j = Some (Some y) -> x <= y
  | None => forall j y, nth_error l j <> Some (Some y)
  end.

Lemma nanargmin_from_ok : forall t pre best, best_ok pre best -> best_ok (pre ++ t) (nanargmin_from (length pre) best t).
Proof.
  assert (SN : forall (pre : list (option Z)) a j y, nth_error (pre ++ [a]) j = Some (Some y) -> nth_error pre j = Some (Some y) \/ (j = length pre /\ a = Some y)).
  { intros pre a j y H. destruct (Nat.lt_ge_cases j (length pre)) as [Hl|Hg].
    - rewrite nth_error_app1 in H by exact Hl. left. exact H.
    - rewrite nth_error_app2 in H by exact Hg. right. destruct (j - length pre)%nat as [|k] eqn:E; [|destruct k; discriminate]. injection H as <-. split; [lia|reflexivity]. }
  induction t as [|a t IH]; intros pre best H; [rewrite app_nil_r; exact H|].
  replace (pre ++ a :: t) with ((pre ++ [a]) ++ t) by (rewrite <- app_assoc; reflexivity).
  assert (EL : S (length pre) = length (pre ++ [a])) by (rewrite app_length; cbn; lia).
  assert (Keep : forall i x, nth_error pre i = Some (Some x) -> nth_error (pre ++ [a]) i = Some (Some x)).
  { intros i x Hi. rewrite nth_error_app1; [exact Hi|]. apply nth_error_Some. congruence. }
  assert (Last : forall x, a = Some x -> nth_error (pre ++ [a]) (length pre) = Some (Some x)).
  { intros x ->. rewrite nth_error_app2 by lia. replace (length pre - length pre)%nat with 0%nat by lia. reflexivity. }
  destruct a as [x|]; cbn [nanargmin_from]; rewrite EL; apply IH.
  - destruct best as [[j y]|]; cbn [best_ok] in H.
    + destruct H as [H1 H2]. destruct (Z.ltb_spec x y) as [Hlt|Hge]; cbn [best_ok].
      * split; [apply Last; reflexivity|]. intros k z Hk. destruct (SN _ _ _ _ Hk) as [Hp|[_ [= <-]]]; [|lia]. specialize (H2 k z Hp). lia.
      * split; [apply Keep; exact H1|]. intros k z Hk. destruct (SN _ _ _ _ Hk) as [Hp|[_ [= <-]]]; [exact (H2 k z Hp)|lia].
    + cbn [best_ok]. split; [apply Last; reflexivity|]. intros k z Hk. destruct (SN _ _ _ _ Hk) as [Hp|[_ [= <-]]]; [exfalso; exact (H k z Hp)|lia].
  - destruct best as [[j y]|]; cbn [best_ok] in *.
    + destruct H as [H1 H2]. split; [apply Keep; exact H1|]. intros k z Hk. destruct (SN _ _ _ _ Hk) as [Hp|[_ Hx]]; [exact (H2 k z Hp)|discriminate].
    + intros k z Hk. destruct (SN _ _ _ _ Hk) as [Hp|[_ Hx]]; [exact (H k z Hp)|discriminate].
Qed.

(** If some entry is not NaN, the index of the smallest one is returned. *)
Lemma nanargmin_ok : forall (f : Z -> Z) l k, (k < length l)%nat -> 0 <= f (nth k l 0) ->
  exists i, nanargmin (map (fun a => nan_if_negative (f a)) l) = Ok i /\ (i < length l)%nat /\ 0 <= f (nth i l 0)
  /\ forall j, (j < length l)%nat -> 0 <= f (nth j l 0) -> f (nth i l 0) <= f (nth j l 0).
Proof.
  intros f l k Hk Hf. unfold nanargmin.
  pose proof (nanargmin_from_ok (map (fun a => nan_if_negative (f a)) l) [] None) as H. cbn [app length] in H.
  assert (B : best_ok [] None) by (intros [|j] y; discriminate). specialize (H B).
  assert (NE : forall j, (j < length l)%nat -> nth_error (map (fun a => nan_if_negative (f a)) l) j = Some (nan_if_negative (f (nth j l 0)))).
  { intros j Hj. rewrite nth_error_map, (nth_error_nth' l 0 Hj). reflexivity. }
  destruct (nanargmin_from 0 None (map (fun a => nan_if_negative (f a)) l)) as [[i x]|]; cbn [best_ok] in H.
  - destruct H as [H1 H2]. exists i. split; [reflexivity|].
    assert (Hi : (i < length l)%nat) by (assert (i < length (map (fun a => nan_if_negative (f a)) l))%nat by (apply nth_error_Some; congruence); rewrite map_length in H; exact H).
    rewrite (NE i Hi) in H1. unfold nan_if_negative in H1. destruct (Z.ltb_spec (f (nth i l 0)) 0); [discriminate|]. injection H1 as H1.
    split; [exact Hi|]. split; [assumption|]. intros j Hj Hfj. rewrite H1. apply (H2 j). rewrite (NE j Hj). unfold nan_if_negative.
    destruct (Z.ltb_spec (f (nth j l 0)) 0); [lia|reflexivity].
  - exfalso. apply (H k (f (nth k l 0))). rewrite (NE k Hk). unfold nan_if_negative. destruct (Z.ltb_spec (f (nth k l 0)) 0); [lia|reflexivity].
Qed.

Lemma In_nth_Z : forall (l : list Z) x, In x l -> exists i, (i < length l)%nat /\ nth i l 0 = x.
Proof. intros l x H. destruct (In_nth l x 0 H) as [n [H1 H2]]. eauto. Qed.

Section Select.
Context {G : Type}.
Variable q : archive G.
Hypothesis U : usable q.

Lemma mono_num : forall i j, (i < length (a_precision q))%nat -> (j < length (a_precision q))%nat ->
  nth i (a_precision q) 0 <= nth j (a_precision q) 0 -> nth i (a_num q) 0 <= nth j (a_num q) 0.
Proof.
  destruct U as [_ [_ [_ H]]]. intros i j Hi Hj Hp. destruct (Nat.lt_trichotomy i j) as [Hl|[->|Hl]]; [|lia|].
  - destruct (H i j ltac:(lia)). lia.
  - destruct (H j i ltac:(lia)). lia.
Qed.

Lemma mono_precision : forall i j, (i < length (a_precision q))%nat -> (j < length (a_precision q))%nat ->
  nth i (a_num q) 0 <= nth j (a_num q) 0 -> nth i (a_precision q) 0 <= nth j (a_precision q) 0.
Proof.
  destruct U as [_ [_ [_ H]]]. intros i j Hi Hj Hp. destruct (Nat.lt_trichotomy i j) as [Hl|[->|Hl]]; [|lia|].
  - destruct (H i j ltac:(lia)). lia.
  - destruct (H j i ltac:(lia)). lia.
Qed.

Lemma nonempty : (0 < length (a_precision q))%nat.
Proof. destruct U as [H _]. destruct (a_precision q); [congruence|cbn; lia]. Qed.

Lemma select_precision : forall p, exists i g w, select (Ok q) (Some p) None = Ok (g, w) /\ (i < length (a_precision q))%nat /\ a_grid q i = Some g
  /\ (w = false /\ p <= nth i (a_precision q) 0 /\ (forall j, (j < length (a_precision q))%nat -> p <= nth j (a_precision q) 0 -> nth i (a_num q) 0 <= nth j (a_num q) 0)
      \/ w = true /\ (forall j, (j < length (a_precision q))%nat -> nth j (a_precision q) 0 < p)
         /\ forall j, (j < length (a_precision q))%nat -> nth j (a_precision q) 0 <= nth i (a_precision q) 0).
Proof.
  intros p. pose proof nonempty as NE. destruct U as [_ [HL [HG HM]]]. unfold select. cbn [bind].
  destruct (np_max (a_precision q)) as [m|] eqn:E; [|destruct (a_precision q); [cbn in NE; lia|discriminate]]. cbn [bind].
  destruct (np_max_spec _ _ E) as [E1 E2]. destruct (Z.ltb_spec m p) as [Hlt|Hge].
  - cbn [bind]. set (i := (length (a_precision q) - 1)%nat). assert (Hi : (i < length (a_precision q))%nat) by (unfold i; lia).
    destruct (HG i Hi) as [_ [_ [g Eg]]]. exists i, g, true. rewrite Eg. split; [reflexivity|]. split; [exact Hi|]. split; [reflexivity|].
    right. split; [reflexivity|]. split.
    + intros j Hj. pose proof (E2 (nth j (a_precision q) 0) (nth_In _ _ Hj)). lia.
    + intros j Hj. destruct (Nat.eq_dec j i) as [->|Hne]; [lia|]. destruct (HM j i); [unfold i in *; lia|lia].
  - destruct (In_nth_Z _ _ E1) as [k [Hk Ek]].
    destruct (HG k Hk) as [Pk _].
    destruct (nanargmin_ok (fun a => a - Z.max p 0) (a_precision q) k Hk) as [i [Ei [Hi [Fi Mi]]]]; [lia|].
    rewrite Ei. cbn [rmap bind]. destruct (HG i Hi) as [Pi [_ [g Eg]]]. exists i, g, false. rewrite Eg. split; [reflexivity|]. split; [exact Hi|]. split; [reflexivity|].
    left. split; [reflexivity|]. split; [lia|]. intros j Hj Hp. destruct (HG j Hj) as [Pj _]. apply mono_num; [exact Hi|exact Hj|].
    specialize (Mi j Hj). lia.
Qed.

Lemma select_num : forall n, exists i g w, select (Ok q) None (Some n) = Ok (g, w) /\ (i < length (a_precision q))%nat /\ a_grid q i = Some g
  /\ (w = false /\ nth i (a_num q) 0 <= n /\ (forall j, (j < length (a_precision q))%nat -> nth j (a_num q) 0 <= n -> nth j (a_precision q) 0 <= nth i (a_precision q) 0)
      \/ w = true /\ (forall j, (j < length (a_precision q))%nat -> n < nth j (a_num q) 0)
         /\ forall j, (j < length (a_precision q))%nat -> nth i (a_num q) 0 <= nth j (a_num q) 0).
Proof.
  intros n. pose proof nonempty as NE. destruct U as [_ [HL [HG HM]]]. unfold select. cbn [bind].
  destruct (np_min (a_num q)) as [m|] eqn:E; [|destruct (a_num q); [cbn in HL; lia|discriminate]]. cbn [bind].
  destruct (np_min_spec _ _ E) as [E1 E2]. destruct (Z.ltb_spec n m) as [Hlt|Hge].
  - cbn [bind]. destruct (HG 0%nat NE) as [_ [_ [g Eg]]]. exists 0%nat, g, true. rewrite Eg. split; [reflexivity|]. split; [exact NE|]. split; [reflexivity|].
    right. split; [reflexivity|]. split.
    + intros j Hj. assert (Hj2 : (j < length (a_num q))%nat) by lia. pose proof (E2 (nth j (a_num q) 0) (nth_In _ _ Hj2)). lia.
    + intros j Hj. destruct (Nat.eq_dec j 0) as [->|Hne]; [lia|]. destruct (HM 0%nat j); lia.
  - destruct (In_nth_Z _ _ E1) as [k [Hk Ek]].
    destruct (HG k ltac:(lia)) as [_ [Pk _]].
    destruct (nanargmin_ok (fun a => Z.max n 0 - a) (a_num q) k Hk) as [i [Ei [Hi [Fi Mi]]]]; [lia|].
    rewrite Ei. cbn [rmap bind]. destruct (HG i ltac:(lia)) as [_ [Pi [g Eg]]]. exists i, g, false. rewrite Eg. split; [reflexivity|]. split; [lia|]. split; [reflexivity|].
    left. split; [reflexivity|]. split; [lia|]. intros j Hj Hp. destruct (HG j Hj) as [_ [Pj _]]. apply mono_precision; [exact Hj|lia|].
    specialize (Mi j ltac:(lia)). lia.
Qed.

End Select.
