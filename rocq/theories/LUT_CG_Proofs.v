(** The Clebsch-Gordan table (C15). *)
Require Import String List ZArith Bool Lia Permutation.
Require Import Verif.Base Verif.Common_Model Verif.LUT_Model Verif.LUT_Spec Verif.LUT_Proofs.
Import ListNotations.

Lemma lm_index_bound : forall l m L, l <= L -> (Z.abs m <= Z.of_nat l)%Z -> lm_index l m < num_sph L.
Proof.
  intros l m L Hl Hm. unfold lm_index, num_sph, total_number_of_spherical_harmonics.
  apply Nat2Z.inj_lt. rewrite Z2Nat.id by lia. nia.
Qed.

Lemma lm_index_inj : forall l m l' m', (Z.abs m <= Z.of_nat l)%Z -> (Z.abs m' <= Z.of_nat l')%Z ->
  lm_index l m = lm_index l' m' -> l = l' /\ m = m'.
Proof.
  intros l m l' m' H H' E. unfold lm_index in E.
  assert (E' : (Z.of_nat (l * l + l) + m = Z.of_nat (l' * l' + l') + m')%Z) by (apply Z2Nat.inj in E; nia).
  assert (l = l') by nia. subst. split; [reflexivity|lia].
Qed.

(** Every index of the table belongs to one degree and order. *)
Lemma lm_index_surj : forall L i, i < num_sph L ->
  exists l m, l <= L /\ (Z.abs m <= Z.of_nat l)%Z /\ i = lm_index l m.
Proof.
  intros L i Hi. unfold num_sph, total_number_of_spherical_harmonics in Hi.
  pose proof (Nat.sqrt_spec i ltac:(lia)) as [H1 H2]. set (l := Nat.sqrt i) in *. simpl in H2.
  exists l, (Z.of_nat i - Z.of_nat (l * l + l))%Z. split; [nia|]. split; [nia|].
  unfold lm_index. lia.
Qed.

Definition selected_dec : forall l1 m1 l2 m2 l3 m3,
  {selected l1 m1 l2 m2 l3 m3} + {~ selected l1 m1 l2 m2 l3 m3}.
Proof.
  intros. unfold selected.
  destruct (le_dec l1 (l2 + l3)); [|right; tauto]. destruct (le_dec l2 (l1 + l3)); [|right; tauto].
  destruct (le_dec l3 (l1 + l2)); [|right; tauto].
  destruct (Z.eq_dec m3 (m1 + m2)); [left; tauto|]. destruct (Z.eq_dec m3 (m1 - m2)); [left; tauto|].
  destruct (Z.eq_dec m3 (m2 - m1)); [left; tauto|]. destruct (Z.eq_dec m3 (- m1 - m2)); [left; tauto|].
  right. tauto.
Defined.

Lemma in_cg_keys : forall L ls l1 m1 l2 m2 l3 m3,
  In (l1, m1, l2, m2, l3, m3) (cg_degrees_and_orders L ls) <->
  (l1 <= L /\ l2 <= L /\ l3 <= L) /\ ~ (l1 < ls /\ l2 < ls /\ l3 < ls) /\
  (Z.abs m1 <= Z.of_nat l1 /\ Z.abs m2 <= Z.of_nat l2 /\ Z.abs m3 <= Z.of_nat l3)%Z /\
  selected l1 m1 l2 m2 l3 m3.
Proof.
  intros L ls l1 m1 l2 m2 l3 m3. unfold cg_degrees_and_orders, selected. split.
  - intros H. apply in_flat_map in H. destruct H as [a1 [Ha1 H]]. apply in_seq in Ha1.
    apply in_flat_map in H. destruct H as [a2 [Ha2 H]]. apply in_seq in Ha2.
    apply in_flat_map in H. destruct H as [a3 [Ha3 H]]. apply in_seq in Ha3.
    destruct ((a1 <? ls) && (a2 <? ls) && (a3 <? ls)) eqn:Els; [destruct H|].
    apply in_flat_map in H. destruct H as [n1 [Hn1 H]]. apply in_zrange in Hn1.
    apply in_flat_map in H. destruct H as [n2 [Hn2 H]]. apply in_zrange in Hn2.
    apply in_flat_map in H. destruct H as [n3 [Hn3 H]].
    destruct (Z.ltb_spec (Z.of_nat a3) (Z.abs n3)) as [Hb|Hb]; [destruct H|].
    destruct H as [H|[]]. injection H as -> -> -> -> -> ->.
    rewrite !andb_false_iff, !Nat.ltb_ge in Els.
    simpl in Hn3.
    repeat split; try lia.
  - intros [[B1 [B2 B3]] [Hls [[A1 [A2 A3]] [[T1 [T2 T3]] Hm]]]].
    apply in_flat_map. exists l1. split; [apply in_seq; lia|].
    apply in_flat_map. exists l2. split; [apply in_seq; lia|].
    apply in_flat_map. exists l3. split; [apply in_seq; lia|].
    destruct ((l1 <? ls) && (l2 <? ls) && (l3 <? ls)) eqn:Els.
    { rewrite !andb_true_iff, !Nat.ltb_lt in Els. tauto. }
    apply in_flat_map. exists m1. split; [apply in_zrange; lia|].
    apply in_flat_map. exists m2. split; [apply in_zrange; lia|].
    apply in_flat_map. exists m3. split; [simpl; lia|].
    destruct (Z.ltb_spec (Z.of_nat l3) (Z.abs m3)); [lia|now left].
Qed.

Section CG.
Variable A : Type.
Variable zero : A.
Variable is_zero : A -> bool.
Hypothesis is_zero_iff : forall a, is_zero a = true <-> a = zero.
Variable value : cg_key -> A.

(** The entry a table must hold. *)
Definition cg_entry (l1 : nat) (m1 : Z) (l2 : nat) (m2 : Z) (l3 : nat) (m3 : Z) : A :=
  if selected_dec l1 m1 l2 m2 l3 m3 then value (l1, m1, l2, m2, l3, m3) else zero.

Definition cg_good (L : nat) (t : cg_table A) : Prop :=
  cg_max A t = L /\
  forall l1 m1 l2 m2 l3 m3, l1 <= L -> l2 <= L -> l3 <= L ->
    (Z.abs m1 <= Z.of_nat l1)%Z -> (Z.abs m2 <= Z.of_nat l2)%Z -> (Z.abs m3 <= Z.of_nat l3)%Z ->
    cg_at A t (lm_index l1 m1, lm_index l2 m2, lm_index l3 m3) = cg_entry l1 m1 l2 m2 l3 m3.

Definition cg_part (d : Z) (L : nat) (t : cg_table A) : Prop :=
  forall l1 m1 l2 m2 l3 m3, l1 <= L -> l2 <= L -> l3 <= L ->
    (Z.abs m1 <= Z.of_nat l1)%Z -> (Z.abs m2 <= Z.of_nat l2)%Z -> (Z.abs m3 <= Z.of_nat l3)%Z ->
    cg_at A t (lm_index l1 m1, lm_index l2 m2, lm_index l3 m3)
    = if ((Z.of_nat l1 <=? d) && (Z.of_nat l2 <=? d) && (Z.of_nat l3 <=? d))%Z
      then cg_entry l1 m1 l2 m2 l3 m3 else zero.

Definition cg_valid (c : cg_file A) (d : Z) : Prop :=
  ((cgf_max A c < 0)%Z /\ d = (-1)%Z) \/
  exists L, d = Z.of_nat L /\ cgf_max A c = d /\
    (forall k v, In (k, v) (cgf_entries A c) -> in3 (num_sph L) k = true) /\
    cg_good L (mkCG A L (puts A key3 eq3 (cgf_entries A c) (zeros A zero))).

Lemma in3_lm : forall L l1 m1 l2 m2 l3 m3,
  (Z.abs m1 <= Z.of_nat l1)%Z -> (Z.abs m2 <= Z.of_nat l2)%Z -> (Z.abs m3 <= Z.of_nat l3)%Z ->
  in3 (num_sph L) (lm_index l1 m1, lm_index l2 m2, lm_index l3 m3)
  = (l1 <=? L) && (l2 <=? L) && (l3 <=? L).
Proof.
  intros L l1 m1 l2 m2 l3 m3 H1 H2 H3.
  assert (G : forall l m, (Z.abs m <= Z.of_nat l)%Z -> (lm_index l m <? num_sph L) = (l <=? L)).
  { intros l m H. destruct (Nat.leb_spec l L) as [Hl|Hl].
    - apply Nat.ltb_lt. now apply lm_index_bound.
    - apply Nat.ltb_ge. unfold lm_index, num_sph, total_number_of_spherical_harmonics. 
      apply Nat2Z.inj_le. rewrite Z2Nat.id by lia. nia. }
  unfold in3, in2. simpl. now rewrite !G.
Qed.

Lemma cg_load_ok : forall L c d, cg_valid c d ->
  exists t, cg_load A zero L c = Ok (d, t) /\ ((Z.of_nat L <= d)%Z -> cg_good L t)
    /\ ((d < Z.of_nat L)%Z -> cg_part d L t).
Proof.
  intros L c d [[Hneg ->]|[Lc [-> [Hmax [Hin [_ Hg]]]]]].
  - unfold cg_load. destruct (Z.ltb_spec (cgf_max A c) 0); [|lia].
    exists (cg_init_empty A zero L). split; [reflexivity|]. split; [lia|]. intros _ l1 m1 l2 m2 l3 m3 _ _ _ _ _ _.
    destruct (Z.leb_spec (Z.of_nat l1) (-1)); [lia|]. reflexivity.
  - unfold cg_load. rewrite Hmax. destruct (Z.ltb_spec (Z.of_nat Lc) 0); [lia|].
    rewrite Nat2Z.id. rewrite scatter_ok by assumption. simpl bind.
    destruct (Z.leb_spec (Z.of_nat L) (Z.of_nat Lc)) as [Hle|Hlt].
    + eexists. split; [reflexivity|]. split; [|lia]. intros _. split; [reflexivity|].
      intros. apply Hg; try assumption; lia.
    + eexists. split; [reflexivity|]. split; [lia|]. intros _ l1 m1 l2 m2 l3 m3 B1 B2 B3 A1 A2 A3.
      simpl cg_at. rewrite in3_lm by assumption.
      assert (E : forall l, (Z.of_nat l <=? Z.of_nat Lc)%Z = (l <=? Lc)).
      { intros l. destruct (Nat.leb_spec l Lc); [apply Z.leb_le|apply Z.leb_gt]; lia. }
      rewrite !E. destruct ((l1 <=? Lc) && (l2 <=? Lc) && (l3 <=? Lc)) eqn:Eb; [|reflexivity].
      rewrite !andb_true_iff, !Nat.leb_le in Eb. apply Hg; try assumption; lia.
Qed.

Lemma cg_init_ok : forall L, cg_part (-1) L (cg_init_empty A zero L).
Proof.
  intros L l1 m1 l2 m2 l3 m3 _ _ _ _ _ _. destruct (Z.leb_spec (Z.of_nat l1) (-1)); [lia|]. reflexivity.
Qed.

Lemma in_combine_map : forall X Y Z (f : X -> Y) (g : X -> Z) l p,
  In p (combine (map f l) (map g l)) <-> exists x, In x l /\ p = (f x, g x).
Proof.
  intros X Y Z f g l p; induction l as [|a l IH]; simpl.
  - split; [tauto|]. intros [x [[] _]].
  - rewrite IH. split.
    + intros [<-|[x [H ->]]]; eauto.
    + intros [x [[->|H] ->]]; [now left|right; eauto].
Qed.

Lemma cg_extend_ok : forall s d L t, valid_schedule s -> (-1 <= d < Z.of_nat L)%Z -> cg_part d L t ->
  exists t', cg_extend A value s L (Z.to_nat (d + 1)) t = Ok t' /\ cg_good L t'.
Proof.
  intros s d L t Hs Hd Hp. unfold cg_extend. rewrite pool_map_ok by assumption. simpl bind.
  set (keys := cg_degrees_and_orders L (Z.to_nat (d + 1))).
  set (es := combine (map cg_index keys) (map value keys)).
  assert (Hes : forall k v, In (k, v) es -> exists l1 m1 l2 m2 l3 m3,
     In (l1, m1, l2, m2, l3, m3) keys /\ k = (lm_index l1 m1, lm_index l2 m2, lm_index l3 m3)
     /\ v = value (l1, m1, l2, m2, l3, m3)).
  { intros k v H. apply in_combine_map in H. destruct H as [[[[[[l1 m1] l2] m2] l3] m3] [H E]].
    injection E as -> ->. exists l1, m1, l2, m2, l3, m3. auto. }
  rewrite scatter_ok.
  2:{ intros k v H. destruct (Hes k v H) as [l1 [m1 [l2 [m2 [l3 [m3 [Hk [-> _]]]]]]]].
      apply in_cg_keys in Hk. rewrite in3_lm by tauto. rewrite !andb_true_iff, !Nat.leb_le. tauto. }
  eexists. split; [reflexivity|]. split; [reflexivity|].
  intros l1 m1 l2 m2 l3 m3 B1 B2 B3 A1 A2 A3. simpl cg_at.
  assert (Hfun : forall v, In ((lm_index l1 m1, lm_index l2 m2, lm_index l3 m3), v) es ->
     In (l1, m1, l2, m2, l3, m3) keys /\ v = value (l1, m1, l2, m2, l3, m3)).
  { intros v H. destruct (Hes _ _ H) as [a1 [n1 [a2 [n2 [a3 [n3 [Hk [E ->]]]]]]]].
    pose proof Hk as Hk'. apply in_cg_keys in Hk'. injection E as E1 E2 E3.
    apply lm_index_inj in E1; [|tauto|tauto]. apply lm_index_inj in E2; [|tauto|tauto].
    apply lm_index_inj in E3; [|tauto|tauto].
    destruct E1 as [<- <-]. destruct E2 as [<- <-]. destruct E3 as [<- <-]. auto. }
  destruct (selected_dec l1 m1 l2 m2 l3 m3) as [Hsel|Hsel].
  - assert (Hent : cg_entry l1 m1 l2 m2 l3 m3 = value (l1, m1, l2, m2, l3, m3)).
    { unfold cg_entry. destruct (selected_dec l1 m1 l2 m2 l3 m3); [reflexivity|contradiction]. }
    destruct ((l1 <? Z.to_nat (d + 1)) && (l2 <? Z.to_nat (d + 1)) && (l3 <? Z.to_nat (d + 1))) eqn:Els.
    + rewrite !andb_true_iff, !Nat.ltb_lt in Els.
      rewrite (puts_miss A zero key3 eq3 eq3_iff).
      * rewrite Hp by assumption.
        assert (Eb : forall l, l < Z.to_nat (d + 1) -> (Z.of_nat l <=? d)%Z = true) by (intros; apply Z.leb_le; lia).
        now rewrite !Eb by tauto.
      * intros v H. destruct (Hfun v H) as [Hk _]. apply in_cg_keys in Hk. tauto.
    + rewrite (puts_hit A key3 eq3 eq3_iff _ (value (l1, m1, l2, m2, l3, m3))); [now symmetry| |].
      * intros v H. now apply Hfun.
      * apply in_combine_map. exists (l1, m1, l2, m2, l3, m3). split; [|reflexivity].
        apply in_cg_keys. repeat split; try tauto; try apply Hsel.
        intros H. rewrite !andb_false_iff, !Nat.ltb_ge in Els. lia.
  - assert (Hent : cg_entry l1 m1 l2 m2 l3 m3 = zero).
    { unfold cg_entry. destruct (selected_dec l1 m1 l2 m2 l3 m3); [contradiction|reflexivity]. }
    rewrite (puts_miss A zero key3 eq3 eq3_iff).
    + rewrite Hp by assumption. rewrite Hent. now destruct (_ && _ && _).
    + intros v H. destruct (Hfun v H) as [Hk _]. apply in_cg_keys in Hk. tauto.
Qed.

Lemma cg_compress_ok : forall L t, cg_good L t -> cg_valid (cg_compress A is_zero t) (Z.of_nat L).
Proof.
  intros L t [HL Hg]. right. exists L. split; [reflexivity|]. simpl. rewrite HL. split; [reflexivity|]. split.
  - intros k v H. apply nonzeros_in in H. apply in_keys3. apply H.
  - split; [reflexivity|]. intros. simpl cg_at.
    rewrite (nonzeros_scatter A zero is_zero is_zero_iff key3 eq3 eq3_iff); [now apply Hg|].
    apply in_keys3. rewrite in3_lm by assumption. rewrite !andb_true_iff, !Nat.leb_le. tauto.
Qed.

Lemma cg_valid_deg : forall c d, cg_valid c d -> (-1 <= d)%Z.
Proof. intros c d [[_ ->]|[L [-> _]]]; lia. Qed.

Lemma cg_valid_fun : forall c d d', cg_valid c d -> cg_valid c d' -> d = d'.
Proof.
  intros c d d' [[H ->]|[L [-> [H _]]]] [[H' ->]|[L' [-> [H' _]]]]; try lia.
Qed.

Definition cg_run_ok := run_ok (cg_file A) (cg_table A) (cg_load A zero) (cg_init_empty A zero) schedule
  (cg_extend A value) (cg_compress A is_zero) cg_valid cg_good cg_part valid_schedule
  cg_valid_deg cg_valid_fun cg_load_ok cg_init_ok cg_extend_ok cg_compress_ok.
End CG.
