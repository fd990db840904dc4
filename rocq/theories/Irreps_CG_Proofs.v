(** Entries of the arrays returned by [clebsch_gordan] and [clebsch_gordan_for_degrees] (C59). *)
Require Import String List Reals ZArith Bool Lia Permutation ZifyNat.
Require Import Verif.Base Verif.Common_Model Verif.Common_Spec Verif.Common_Proofs
  Verif.LUT_Model Verif.LUT_Spec Verif.LUT_Props Verif.Irreps_Model Verif.Irreps_Spec Verif.Irreps_Proofs.
Import ListNotations.
Open Scope nat_scope.
Open Scope list_scope.

Section CG.
Variable A : Type.
Variable zero : A.
Variable is_zero : A -> bool.
Variable value : cg_key -> A.
Hypothesis Hz : zero_test zero is_zero.

Lemma cg_table_prefix : forall w w' L L' s s' o o' , cg_ready A zero is_zero value w -> call_ok s o -> cg_ready A zero is_zero value w' -> call_ok s' o' -> (0 <= L)%Z -> (0 <= L')%Z ->
  exists t t', snd (clebsch_gordan_table A zero is_zero value w L s o) = Ok t /\ snd (clebsch_gordan_table A zero is_zero value w' L' s' o') = Ok t' /\
  forall l1 i l2 j l3 k, l1 <= Z.to_nat L -> l2 <= Z.to_nat L -> l3 <= Z.to_nat L -> l1 <= Z.to_nat L' -> l2 <= Z.to_nat L' -> l3 <= Z.to_nat L' -> i < 2 * l1 + 1 -> j < 2 * l2 + 1 -> k < 2 * l3 + 1 ->
    cg_at A t (l1 * l1 + i, l2 * l2 + j, l3 * l3 + k) = cg_at A t' (l1 * l1 + i, l2 * l2 + j, l3 * l3 + k).
Proof.
  intros w w' L L' s s' o o' Hw Hc Hw' Hc' HL HL'.
  pose proof (cg_ready_reply A zero is_zero value w L s o Hz Hw Hc) as H. cbn [as_cold] in H.
  pose proof (cg_ready_reply A zero is_zero value w' L' s' o' Hz Hw' Hc') as H'. cbn [as_cold] in H'.
  destruct (snd (clebsch_gordan_table A zero is_zero value w L s o)) as [t|e]; [|destruct H; lia].
  destruct (snd (clebsch_gordan_table A zero is_zero value w' L' s' o')) as [t'|e]; [|destruct H'; lia].
  exists t, t'. split; [reflexivity|]. split; [reflexivity|].
  destruct H as [t0 [_ [E [_ [_ S]]]]]. destruct H' as [t0' [_ [E' [_ [_ S']]]]].
  destruct (C15_cold_table A zero is_zero value L Hz HL) as [t1 [E1 [_ V]]]. rewrite E in E1. injection E1 as <-.
  destruct (C15_cold_table A zero is_zero value L' Hz HL') as [t1' [E1' [_ V']]]. rewrite E' in E1'. injection E1' as <-.
  intros l1 i l2 j l3 k B1 B2 B3 B1' B2' B3' Hi Hj Hk. rewrite <- S, <- S' by nia.
  specialize (V l1 (Z.of_nat i - Z.of_nat l1)%Z l2 (Z.of_nat j - Z.of_nat l2)%Z l3 (Z.of_nat k - Z.of_nat l3)%Z ltac:(lia) ltac:(lia) ltac:(lia) ltac:(lia) ltac:(lia) ltac:(lia)).
  specialize (V' l1 (Z.of_nat i - Z.of_nat l1)%Z l2 (Z.of_nat j - Z.of_nat l2)%Z l3 (Z.of_nat k - Z.of_nat l3)%Z ltac:(lia) ltac:(lia) ltac:(lia) ltac:(lia) ltac:(lia) ltac:(lia)).
  cbv zeta in V, V'. replace (Z.to_nat (Z.of_nat (l1 * l1 + l1) + (Z.of_nat i - Z.of_nat l1))) with (l1 * l1 + i) in V, V' by lia.
  replace (Z.to_nat (Z.of_nat (l2 * l2 + l2) + (Z.of_nat j - Z.of_nat l2))) with (l2 * l2 + j) in V, V' by lia.
  replace (Z.to_nat (Z.of_nat (l3 * l3 + l3) + (Z.of_nat k - Z.of_nat l3))) with (l3 * l3 + k) in V, V' by lia.
  assert (D : selected l1 (Z.of_nat i - Z.of_nat l1) l2 (Z.of_nat j - Z.of_nat l2) l3 (Z.of_nat k - Z.of_nat l3) \/
              ~ selected l1 (Z.of_nat i - Z.of_nat l1) l2 (Z.of_nat j - Z.of_nat l2) l3 (Z.of_nat k - Z.of_nat l3)) by (unfold selected; lia).
  destruct V as [V1 V2], V' as [V1' V2'], D as [D|D]; [rewrite V1, V1' by exact D|rewrite V2, V2' by exact D]; reflexivity.
Qed.

Lemma cg_table_entry : forall w L s o, cg_ready A zero is_zero value w -> call_ok s o -> (0 <= L)%Z ->
  exists t, snd (clebsch_gordan_table A zero is_zero value w L s o) = Ok t /\
  forall l1 i l2 j l3 k, l1 <= Z.to_nat L -> l2 <= Z.to_nat L -> l3 <= Z.to_nat L -> i < 2 * l1 + 1 -> j < 2 * l2 + 1 -> k < 2 * l3 + 1 ->
    (selected l1 (Z.of_nat i - Z.of_nat l1) l2 (Z.of_nat j - Z.of_nat l2) l3 (Z.of_nat k - Z.of_nat l3) ->
      cg_at A t (l1 * l1 + i, l2 * l2 + j, l3 * l3 + k) = value (l1, Z.of_nat i - Z.of_nat l1, l2, Z.of_nat j - Z.of_nat l2, l3, Z.of_nat k - Z.of_nat l3)%Z) /\
    (~ selected l1 (Z.of_nat i - Z.of_nat l1) l2 (Z.of_nat j - Z.of_nat l2) l3 (Z.of_nat k - Z.of_nat l3) ->
      cg_at A t (l1 * l1 + i, l2 * l2 + j, l3 * l3 + k) = zero).
Proof.
  intros w L s o Hw Hc HL. pose proof (cg_ready_reply A zero is_zero value w L s o Hz Hw Hc) as H. cbn [as_cold] in H.
  destruct (snd (clebsch_gordan_table A zero is_zero value w L s o)) as [t|e]; [|destruct H; lia]. exists t. split; [reflexivity|].
  destruct H as [t0 [_ [E [_ [_ S]]]]]. destruct (C15_cold_table A zero is_zero value L Hz HL) as [t1 [E1 [_ V]]]. rewrite E in E1. injection E1 as <-.
  intros l1 i l2 j l3 k B1 B2 B3 Hi Hj Hk. rewrite <- S by nia.
  specialize (V l1 (Z.of_nat i - Z.of_nat l1)%Z l2 (Z.of_nat j - Z.of_nat l2)%Z l3 (Z.of_nat k - Z.of_nat l3)%Z ltac:(lia) ltac:(lia) ltac:(lia) ltac:(lia) ltac:(lia) ltac:(lia)).
  cbv zeta in V. replace (Z.to_nat (Z.of_nat (l1 * l1 + l1) + (Z.of_nat i - Z.of_nat l1))) with (l1 * l1 + i) in V by lia.
  replace (Z.to_nat (Z.of_nat (l2 * l2 + l2) + (Z.of_nat j - Z.of_nat l2))) with (l2 * l2 + j) in V by lia.
  replace (Z.to_nat (Z.of_nat (l3 * l3 + l3) + (Z.of_nat k - Z.of_nat l3))) with (l3 * l3 + k) in V by lia. exact V.
Qed.

Lemma nth_map_seq : forall X (f : nat -> X) d s n i, i < n -> nth i (map f (seq s n)) d = f (s + i).
Proof. intros X f d s n i H. rewrite (nth_indep _ d (f 0)) by (rewrite map_length, seq_length; exact H). rewrite map_nth, seq_nth by exact H. reflexivity. Qed.

Lemma slice3_shape : forall i0 i1 j0 j1 k0 k1 (a : LUT_Model.key3 -> A), shape3 (i1 - i0) (j1 - j0) (k1 - k0) (slice3 A i0 i1 j0 j1 k0 k1 a).
Proof.
  intros i0 i1 j0 j1 k0 k1 a. unfold slice3. split; [now rewrite map_length, seq_length|]. apply Forall_forall. intros x Hx. apply in_map_iff in Hx as [i [<- _]].
  split; [now rewrite map_length, seq_length|]. apply Forall_forall. intros y Hy. apply in_map_iff in Hy as [j [<- _]]. now rewrite map_length, seq_length.
Qed.

Lemma slice3_at : forall i0 i1 j0 j1 k0 k1 (a : LUT_Model.key3 -> A) i j k, i < i1 - i0 -> j < j1 - j0 -> k < k1 - k0 ->
  at3 zero (slice3 A i0 i1 j0 j1 k0 k1 a) i j k = a (i0 + i, j0 + j, k0 + k).
Proof. intros i0 i1 j0 j1 k0 k1 a i j k Hi Hj Hk. unfold at3, slice3. rewrite nth_map_seq by exact Hi. rewrite nth_map_seq by exact Hj. rewrite nth_map_seq by exact Hk. reflexivity. Qed.

Lemma nth_map_lt : forall X Y (f : X -> Y) l d d' i, i < length l -> nth i (map f l) d' = f (nth i l d).
Proof. intros X Y f l d d' i H. rewrite (nth_indep _ d' (f d)) by (rewrite map_length; exact H). apply map_nth. Qed.

Lemma permute3_at : forall p1 p2 p3 (c : list (list (list A))) i j k, i < length p1 -> j < length p2 -> k < length p3 ->
  at3 zero (permute3 A zero p1 p2 p3 c) i j k = at3 zero c (nth i p1 0) (nth j p2 0) (nth k p3 0).
Proof.
  intros p1 p2 p3 c i j k Hi Hj Hk. unfold at3, permute3, take.
  rewrite !map_map. rewrite (nth_map_lt _ _ _ p1 0 [] i) by exact Hi. rewrite map_map. rewrite (nth_map_lt _ _ _ p2 0 [] j) by exact Hj. rewrite (nth_map_lt _ _ _ p3 0 zero k) by exact Hk. reflexivity.
Qed.

Lemma permute3_shape : forall p1 p2 p3 (c : list (list (list A))), shape3 (length p1) (length p2) (length p3) (permute3 A zero p1 p2 p3 c).
Proof.
  intros p1 p2 p3 c. unfold permute3, take. split; [now rewrite !map_length|]. apply Forall_forall. intros x Hx. apply in_map_iff in Hx as [y [<- Hy]].
  apply in_map_iff in Hy as [z [<- _]]. split; [now rewrite !map_length|]. apply Forall_forall. intros u Hu. apply in_map_iff in Hu as [v [<- _]]. now rewrite map_length.
Qed.

Lemma cg_total : forall empty w s o L1 L2 L3 c, cg_ready A zero is_zero value w -> call_ok s o -> (0 <= L1)%Z -> (0 <= L2)%Z -> (0 <= L3)%Z ->
  exists t y, snd (clebsch_gordan_table A zero is_zero value w (Z.max (Z.max L1 L2) L3) s o) = Ok t /\
  snd (clebsch_gordan A zero is_zero value empty w s o L1 L2 L3 c) = Ok y /\
  shape3 (degrees L1 * degrees L1) (degrees L2 * degrees L2) (degrees L3 * degrees L3) y /\
  forall l1 i l2 j l3 k, l1 < degrees L1 -> l2 < degrees L2 -> l3 < degrees L3 -> i < 2 * l1 + 1 -> j < 2 * l2 + 1 -> k < 2 * l3 + 1 ->
    at3 zero y (l1 * l1 + i) (l2 * l2 + j) (l3 * l3 + k) = cg_at A t (l1 * l1 + pos c l1 i, l2 * l2 + pos c l2 j, l3 * l3 + pos c l3 k).
Proof.
  intros empty w s o L1 L2 L3 c Hw Hc H1 H2 H3. destruct (cg_table_entry w (Z.max (Z.max L1 L2) L3) s o Hw Hc ltac:(lia)) as [t [Et _]].
  unfold clebsch_gordan, check_degree. destruct (L1 <? 0)%Z eqn:N1; [lia|]. destruct (L2 <? 0)%Z eqn:N2; [lia|]. destruct (L3 <? 0)%Z eqn:N3; [lia|]. cbn [bind].
  destruct (clebsch_gordan_table A zero is_zero value w (Z.max (Z.max L1 L2) L3) s o) as [w1 r]. cbn [snd] in *. subst r. cbn [bind snd].
  exists t. eexists. split; [reflexivity|]. split; [reflexivity|]. unfold degrees. replace ((Z.to_nat L1 + 1) ^ 2) with ((Z.to_nat L1 + 1) * (Z.to_nat L1 + 1)) by (cbn; lia).
  replace ((Z.to_nat L2 + 1) ^ 2) with ((Z.to_nat L2 + 1) * (Z.to_nat L2 + 1)) by (cbn; lia). replace ((Z.to_nat L3 + 1) ^ 2) with ((Z.to_nat L3 + 1) * (Z.to_nat L3 + 1)) by (cbn; lia).
  assert (P : forall L, length (cartesian_permutation empty L) = (L + 1) * (L + 1)).
  { intros L. apply cart_perm_length. }
  destruct c.
  - split; [rewrite <- !P; apply permute3_shape|]. intros l1 i l2 j l3 k B1 B2 B3 Hi Hj Hk.
    rewrite permute3_at by (rewrite P; nia). rewrite !cart_perm_nth by lia. cbn [pos].
    pose proof (cart_index_lt l1 i Hi). pose proof (cart_index_lt l2 j Hj). pose proof (cart_index_lt l3 k Hk). rewrite slice3_at by nia. reflexivity.
  - split.
    + pose proof (slice3_shape 0 ((Z.to_nat L1 + 1) * (Z.to_nat L1 + 1)) 0 ((Z.to_nat L2 + 1) * (Z.to_nat L2 + 1)) 0 ((Z.to_nat L3 + 1) * (Z.to_nat L3 + 1)) (cg_at A t)) as S.
      rewrite !Nat.sub_0_r in S. exact S.
    + intros l1 i l2 j l3 k B1 B2 B3 Hi Hj Hk. rewrite slice3_at by nia. reflexivity.
Qed.

Lemma cg_degrees_total : forall empty w s o l1 l2 l3 c, cg_ready A zero is_zero value w -> call_ok s o -> (0 <= l1)%Z -> (0 <= l2)%Z -> (0 <= l3)%Z ->
  exists t y, snd (clebsch_gordan_table A zero is_zero value w (Z.max (Z.max l1 l2) l3) s o) = Ok t /\
  snd (clebsch_gordan_for_degrees A zero is_zero value empty w s o l1 l2 l3 c) = Ok y /\
  shape3 (2 * Z.to_nat l1 + 1) (2 * Z.to_nat l2 + 1) (2 * Z.to_nat l3 + 1) y /\
  forall i j k, i < 2 * Z.to_nat l1 + 1 -> j < 2 * Z.to_nat l2 + 1 -> k < 2 * Z.to_nat l3 + 1 ->
    at3 zero y i j k = cg_at A t (Z.to_nat l1 * Z.to_nat l1 + pos c (Z.to_nat l1) i, Z.to_nat l2 * Z.to_nat l2 + pos c (Z.to_nat l2) j, Z.to_nat l3 * Z.to_nat l3 + pos c (Z.to_nat l3) k).
Proof.
  intros empty w s o L1 L2 L3 c Hw Hc H1 H2 H3. destruct (cg_table_entry w (Z.max (Z.max L1 L2) L3) s o Hw Hc ltac:(lia)) as [t [Et _]].
  unfold clebsch_gordan_for_degrees, check_degree. destruct (L1 <? 0)%Z eqn:N1; [lia|]. destruct (L2 <? 0)%Z eqn:N2; [lia|]. destruct (L3 <? 0)%Z eqn:N3; [lia|]. cbn [bind].
  destruct (clebsch_gordan_table A zero is_zero value w (Z.max (Z.max L1 L2) L3) s o) as [w1 r]. cbn [snd] in *. subst r. cbn [bind snd].
  exists t. eexists. split; [reflexivity|]. split; [reflexivity|]. set (a := Z.to_nat L1). set (b := Z.to_nat L2). set (d := Z.to_nat L3).
  assert (Q : forall n, (n + 1) ^ 2 - n ^ 2 = 2 * n + 1) by (intros n; cbn; lia). assert (Q2 : forall n, n ^ 2 = n * n) by (intros n; cbn; lia).
  destruct c.
  - split; [rewrite <- !(cart_perm_degree_length empty); apply permute3_shape|]. intros i j k Hi Hj Hk.
    rewrite permute3_at by (rewrite cart_perm_degree_length; assumption). rewrite !cart_perm_degree_nth by assumption. cbn [pos].
    rewrite slice3_at by (rewrite Q; now apply cart_index_lt). now rewrite !Q2.
  - split; [rewrite <- !Q; apply slice3_shape|]. intros i j k Hi Hj Hk. rewrite slice3_at by (rewrite Q; assumption). now rewrite !Q2.
Qed.
End CG.
