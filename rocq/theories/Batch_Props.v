(** C97: molecules in a batch get the predictions, energies and forces that each of them gets alone. *)
Require Import List Reals ZArith Bool Lia Lra Permutation.
Require Import ZifyNat.
Require Import Verif.Base Verif.RSum Verif.Features_Model Verif.Features_Spec Verif.Features_Proofs Verif.Modules_Model Verif.Modules_Spec Verif.Modules_Graph_Spec
  Verif.Rotations_Model Verif.Rotations_Spec Verif.Rotations_Proofs Verif.LUT_Model Verif.LUT_Spec Verif.Irreps_Model Verif.Irreps_Spec Verif.Irreps_Props Verif.Wrappers_Model Verif.Wrappers_Spec Verif.Embed_Model Verif.Embed_Spec Verif.Embed_Props
  Verif.Equivariance_Spec Verif.Equivariance_Props Verif.Structure_Props Verif.Network_Spec Verif.Network_Props Verif.Shapes_Proofs Verif.Locality_Spec Verif.Locality_Proofs Verif.Locality_Props
  Verif.Molecule_Spec Verif.Molecule_Props Verif.Accept_Props Verif.Cutoff_Spec Verif.Cutoff_Proofs Verif.Cutoff_Props Verif.Batch_Model Verif.Batch_Spec.
Import ListNotations.
Open Scope R_scope.

(** * Parts of a molecule *)
Section Part.
Variables (o : nat) (A C : molecule).
Hypothesis AC : part o A C.
Hypothesis inside : Forall (fun e => (fst e < atoms A)%nat /\ (snd e < atoms A)%nat) (pairs A).

Lemma part_pairs : exists q, (forall k a b, nth_error (pairs A) k = Some (a, b) -> nth_error (pairs C) (q + k) = Some (o + a, o + b)%nat)
  /\ forall k a b n, (n < atoms A)%nat -> nth_error (pairs C) k = Some (a, b) -> a = (o + n)%nat ->
       exists k', k = (q + k')%nat /\ exists b', b = (o + b')%nat /\ nth_error (pairs A) k' = Some (n, b').
Proof using AC inside.
  destruct AC as [_ [_ [before [after [E F]]]]]. exists (length before). split.
  - intros k a b H. rewrite E, nth_error_app2 by lia. replace (length before + k - length before)%nat with k by lia.
    rewrite nth_error_app1 by (rewrite map_length; apply nth_error_Some; congruence). now rewrite nth_error_map, H.
  - intros k a b n Hn H Ea. rewrite Forall_forall in F. rewrite E in H. destruct (Nat.lt_ge_cases k (length before)) as [K|K].
    + exfalso. rewrite nth_error_app1 in H by exact K. apply nth_error_In in H. specialize (F _ (in_or_app _ _ _ (or_introl H))). cbn [fst] in F. lia.
    + rewrite nth_error_app2 in H by exact K. exists (k - length before)%nat. split; [lia|]. destruct (Nat.lt_ge_cases (k - length before) (length (pairs A))) as [K'|K'].
      * rewrite nth_error_app1, nth_error_map in H by (rewrite map_length; exact K'). destruct (nth_error (pairs A) (k - length before)) as [[a' b']|]; [|discriminate].
        cbn in H. injection H as H1 H2. exists b'. split; [lia|]. f_equal. f_equal. lia.
      * exfalso. rewrite nth_error_app2 in H by (rewrite map_length; exact K'). apply nth_error_In in H. specialize (F _ (in_or_app _ _ _ (or_intror H))). cbn [fst] in F. lia.
Qed.

Lemma part_carries : forall M x x' y y', proper_model M -> pairs A <> [] -> basis_of M A y -> basis_of M C y' ->
  (forall n n', (n < atoms A)%nat -> (n' < atoms C)%nat -> number C n' = number A n -> alike x [n] x' [n']) ->
  carries (molecule_scene M A x y) (molecule_scene M C x' y') (fun n => (o + n)%nat).
Proof using AC inside.
  intros M x x' y y' PM Hne Hy Hy' HX n Hn. cbn [molecule_scene s_nodes] in Hn. destruct part_pairs as [q [P1 P2]]. pose proof AC as [HN [HV _]]. rewrite Forall_forall in inside.
  assert (Hne' : pairs C <> []).
  { destruct (pairs A) as [|[a b] l] eqn:EA; [contradiction|]. intros E. specialize (P1 0%nat a b eq_refl). rewrite E in P1. now destruct (q + 0)%nat. }
  split.
  - split; [exact Hn|]. split; [cbn; lia|]. cbn [molecule_scene s_inputs s_at app]. constructor; [|constructor]. apply HX; [exact Hn|lia|now apply HV].
  - apply (matched_by _ _ _ _ _ (fun e => ([(q + nth 0 (fst e) 0)%nat], (o + snd e)%nat))); cbn [molecule_scene s_graph s_nodes s_at].
    + intros e He. apply sparse_in in He as [k [Hk [Ek ->]]]. rewrite map_length in Hk. pose proof (pairs_nth _ _ Hk) as Pk. rewrite Ek in Pk. cbn [fst snd app nth].
      pose proof (P1 _ _ _ Pk) as Ck. assert (Hk' : (q + k < length (pairs C))%nat) by (apply nth_error_Some; congruence). pose proof (pairs_nth _ _ Hk') as Qk. rewrite Ck in Qk. injection Qk as Q1 Q2.
      split; [|split; [|reflexivity]].
      * apply sparse_in. exists (q + k)%nat. rewrite map_length. split; [exact Hk'|]. split; [now rewrite <- Q1|]. now rewrite <- Q2.
      * refine (pair_alike M A C x x' y y' k (q + k)%nat _ _ _ _ PM Hne Hne' Hy Hy' Pk Ck _). destruct (inside _ (nth_error_In _ _ Pk)) as [I1 I2]. cbn [fst snd] in I1, I2.
        unfold vector_to. now rewrite (proj2 (HV _ I1)), (proj2 (HV _ I2)).
    + intros e1 e2 H1 H2. apply sparse_in in H1 as [k1 [_ [_ ->]]]. apply sparse_in in H2 as [k2 [_ [_ ->]]]. cbn [fst snd app nth]. intros E. injection E as E _. assert (k1 = k2) by lia. now subst.
    + intros e He. apply sparse_in in He as [k [Hk [Ek ->]]]. rewrite map_length in Hk. pose proof (pairs_nth _ _ Hk) as Pk. destruct (P2 _ _ _ n Hn Pk Ek) as [k' [-> [b' [Eb Pk']]]].
      exists ([k'], b'). cbn [fst snd app nth]. split; [|now rewrite Eb]. assert (Hk' : (k' < length (pairs A))%nat) by (apply nth_error_Some; congruence). pose proof (pairs_nth _ _ Hk') as Q. rewrite Pk' in Q. injection Q as Q1 Q2.
      apply sparse_in. exists k'. rewrite map_length. split; [exact Hk'|]. split; [now symmetry|]. now rewrite <- Q2.
Qed.
End Part.

(** If the atoms of A are atoms of C and no other pairs end in them, the predictions are the same. *)
Theorem C97_part : forall M A C o ys zs, proper_model M -> proper_molecule M A -> sound_molecule M C -> close_enough M A -> close_enough M C -> part o A C ->
  predicts M A ys -> predicts M C zs -> Forall2 (fun y z => forall n, (n < atoms A)%nat -> alike y [n] z [(o + n)%nat]) ys zs.
Proof.
  intros M A C o ys zs PM PA SC CE CE' AC HA HC. pose proof HA as [e [x [y [Ee [Ax [Hy H]]]]]]. pose proof HC as [e' [x' [y' [Ee' [Ax' [Hy' H']]]]]].
  pose proof PM as [HP [Hpc [Ht [HL [Hg Hrc]]]]]. pose proof PA as [Hne [Hin Hz]]. pose proof SC as [Hin' Hz'].
  assert (Hne' : pairs C <> []) by (destruct AC as [_ [_ [b [a [E _]]]]]; rewrite E; destruct b; [|discriminate]; destruct (pairs A); [contradiction|discriminate]).
  destruct (embed_part _ _ _ _ Ee Ax) as [X1 [X2 [X3 [X4 [X5 XV]]]]]. destruct (embed_part _ _ _ _ Ee' Ax') as [Y1 [Y2 [Y3 [Y4 [Y5 YV]]]]].
  assert (DEG : degrees (m_degree M) = S (Z.to_nat (m_degree M))) by (unfold degrees; lia).
  assert (NA : forall B z w, fB z = [atoms B] -> fS z = 1%nat -> fD z = 1%nat -> node_arrays (molecule_scene M B z w)).
  { intros B z w Z1 Z2 Z3. split.
    - exists []. constructor; [|constructor]. split; [exists 0%nat; split; [now left|exact Z3]|exact Z1].
    - intros bs E. injection E as <-. exists (Z.to_nat (m_degree M)). split; [now left|]. cbn [fD edge_features]. rewrite DEG. reflexivity. }
  assert (GG : forall B, Forall (fun e => (fst e < atoms B)%nat /\ (snd e < atoms B)%nat) (pairs B) -> good_graph (sparse_graph (map fst (pairs B)) (map snd (pairs B))) (atoms B) []).
  { intros B F. apply sparse_good; [now rewrite !map_length|]. apply Forall_map. eapply Forall_impl; [|exact F]. intros [a b] [_ X]. exact X. }
  apply (Forall2_all (atoms A) (fun n y y' => alike y [n] y' [(o + n)%nat])).
  - apply (C70_carries (m_cartesian M) (m_cg M) (m_low M) (m_high M) (molecule_scene M A x y) (molecule_scene M C x' y') (fun n => (o + n)%nat) (m_calls M) ys zs); auto.
    + repeat split.
    + now apply GG.
    + now apply GG.
    + intros HT. split; [exact (cutoffs_good M A y PM Hne CE HT Hy)|exact (cutoffs_good M C y' PM Hne' CE' HT Hy')].
    + apply (part_carries o A C AC Hin M); auto. intros m m' Hm Hm' EN.
      split; [congruence|]. split; [congruence|]. split; [congruence|]. split; [congruence|]. intros p d f Hp Hd. rewrite X2 in Hp. rewrite X3 in Hd. replace p with 0%nat by lia. replace d with 0%nat by lia.
      rewrite (XV m f Hm (Hz m Hm)), (YV m' f Hm' (Hz' m' Hm')), EN. reflexivity.
  - now rewrite (run_length _ _ _ _ _ _ _ _ _ H), (run_length _ _ _ _ _ _ _ _ _ H').
Qed.
Print Assumptions C97_part.

(** * Batches *)
Definition in_range (A : molecule) : Prop := Forall (fun e => (fst e < atoms A)%nat /\ (snd e < atoms A)%nat) (pairs A).

Lemma batch_pairs : forall As j A, Forall in_range As -> nth_error As j = Some A -> exists before after,
  pairs (batch As) = before ++ map (fun e => (offset As j + fst e, offset As j + snd e)%nat) (pairs A) ++ after
  /\ Forall (fun e => ~ (offset As j <= fst e < offset As j + atoms A)%nat) (before ++ after).
Proof.
  induction As as [|A0 As IH]; intros [|j] A HF H; try discriminate; inversion HF as [|? ? H0 HF']; subst; cbn [batch fold_right beside pairs offset]; fold (batch As).
  - injection H as ->. exists [], (map (fun e => (atoms A + fst e, atoms A + snd e)%nat) (pairs (batch As))). split.
    + cbn [app]. f_equal. rewrite <- (map_id (pairs A)) at 1. apply map_ext. intros [a b]. reflexivity.
    + apply Forall_map, Forall_forall. intros [a b] _. cbn. lia.
  - destruct (IH j A HF' H) as [before [after [E F]]]. set (sh := fun e : nat * nat => (atoms A0 + fst e, atoms A0 + snd e)%nat).
    exists (pairs A0 ++ map sh before), (map sh after). split.
    + rewrite E, !map_app, map_map, app_assoc. do 2 f_equal. apply map_ext. intros [a b]. unfold sh. cbn [fst snd]. f_equal; lia.
    + rewrite <- app_assoc. apply Forall_app. split.
      * eapply Forall_impl; [|exact H0]. cbn. intros e [X _]. lia.
      * rewrite <- map_app. apply Forall_map. eapply Forall_impl; [|exact F]. intros [a b]. unfold sh. cbn [fst snd]. lia.
Qed.
Lemma batch_atoms : forall As j A, nth_error As j = Some A -> (offset As j + atoms A <= atoms (batch As))%nat
  /\ forall n, (n < atoms A)%nat -> number (batch As) (offset As j + n) = number A n /\ position (batch As) (offset As j + n) = position A n.
Proof.
  induction As as [|A0 As IH]; intros [|j] A H; try discriminate; cbn [batch fold_right beside atoms number position offset]; fold (batch As).
  - injection H as ->. split; [lia|]. intros n Hn. cbn [Nat.add]. destruct (Nat.ltb_spec n (atoms A)); [split; reflexivity|lia].
  - destruct (IH j A H) as [L V]. split; [lia|]. intros n Hn. destruct (Nat.ltb_spec (atoms A0 + offset As j + n) (atoms A0)); [lia|].
    replace (atoms A0 + offset As j + n - atoms A0)%nat with (offset As j + n)%nat by lia. now apply V.
Qed.
Lemma batch_part : forall As j A, Forall in_range As -> nth_error As j = Some A -> part (offset As j) A (batch As).
Proof. intros As j A F H. destruct (batch_atoms As j A H) as [L V]. split; [exact L|]. split; [exact V|]. now apply batch_pairs. Qed.
Lemma batch_part_moved : forall As j A p, Forall in_range As -> nth_error As j = Some A -> part (offset As j) (with_positions A (fun n => p (offset As j + n)%nat)) (with_positions (batch As) p).
Proof. intros As j A p F H. destruct (batch_atoms As j A H) as [L V]. split; [exact L|]. split; [intros n Hn; split; [now apply V|reflexivity]|]. cbn [with_positions pairs atoms]. now apply batch_pairs. Qed.

(** Every atom and every pair of a batch belongs to a molecule. *)
Lemma batch_locate : forall As n, (n < atoms (batch As))%nat -> exists j A m, nth_error As j = Some A /\ (m < atoms A)%nat /\ n = (offset As j + m)%nat.
Proof.
  induction As as [|A0 As IH]; intros n Hn; [cbn in Hn; lia|]. cbn [batch fold_right beside atoms] in Hn. fold (batch As) in Hn. destruct (Nat.lt_ge_cases n (atoms A0)) as [K|K].
  - exists 0%nat, A0, n. cbn. auto.
  - destruct (IH (n - atoms A0)%nat ltac:(lia)) as [j [A [m [E [Hm En]]]]]. exists (S j), A, m. cbn [nth_error offset]. split; [exact E|]. split; [exact Hm|lia].
Qed.
Lemma batch_locate_pair : forall As e, In e (pairs (batch As)) -> exists j A e', nth_error As j = Some A /\ In e' (pairs A) /\ e = (offset As j + fst e', offset As j + snd e')%nat.
Proof.
  induction As as [|A0 As IH]; intros e H; [contradiction|]. cbn [batch fold_right beside pairs] in H. fold (batch As) in H. apply in_app_or in H as [H|H].
  - exists 0%nat, A0, e. cbn. split; [reflexivity|]. split; [exact H|now destruct e].
  - apply in_map_iff in H as [e1 [<- H]]. destruct (IH _ H) as [j [A [e' [E [I1 ->]]]]]. exists (S j), A, e'. cbn [nth_error offset fst snd]. split; [exact E|]. split; [exact I1|]. f_equal; lia.
Qed.
Lemma batch_sound : forall M As, Forall (sound_molecule M) As -> sound_molecule M (batch As).
Proof.
  intros M As F. rewrite Forall_forall in F. split.
  - apply Forall_forall. intros e H. destruct (batch_locate_pair As e H) as [j [A [e' [E [I1 ->]]]]]. destruct (F A (nth_error_In _ _ E)) as [R _]. rewrite Forall_forall in R. destruct (R _ I1). destruct (batch_atoms As j A E) as [L _]. cbn [fst snd]. lia.
  - intros n Hn. destruct (batch_locate As n Hn) as [j [A [m [E [Hm ->]]]]]. destruct (F A (nth_error_In _ _ E)) as [_ R]. rewrite (proj1 (proj2 (batch_atoms As j A E) m Hm)). now apply R.
Qed.
Lemma batch_with_pairs : forall As A, In A As -> pairs A <> [] -> pairs (batch As) <> [].
Proof.
  induction As as [|A0 As IH]; intros A I0 H; [contradiction|]. destruct I0 as [I0|I0]; cbn [batch fold_right beside pairs]; fold (batch As).
  - subst. destruct (pairs A); [contradiction|discriminate].
  - intros E. apply app_eq_nil in E as [_ E]. apply (IH A); auto. destruct (pairs (batch As)); [reflexivity|discriminate].
Qed.
Lemma sound_in_range : forall M As, Forall (sound_molecule M) As -> Forall in_range As.
Proof. intros M As F. eapply Forall_impl; [|exact F]. intros A [X _]. exact X. Qed.

(** Close neighbours in the molecules are close neighbours in the batch. *)
Lemma close_moved : forall M As p, As <> [] -> Forall (sound_molecule M) As -> (forall j A, nth_error As j = Some A -> close_enough M (with_positions A (fun n => p (offset As j + n)%nat))) ->
  close_enough M (with_positions (batch As) p).
Proof.
  intros M As p HN F H ER HA c EC. split.
  - destruct As as [|A0 As]; [contradiction|]. exact (proj1 (H 0%nat A0 eq_refl ER HA c EC)).
  - intros e He. destruct (batch_locate_pair As e He) as [j [A [e' [E [I1 ->]]]]]. destruct (proj2 (H j A E ER HA c EC) e' I1) as [e2 [J1 [J2 J3]]].
    destruct (batch_pairs As j A (sound_in_range M As F) E) as [before [after [EP _]]]. exists (offset As j + fst e2, offset As j + snd e2)%nat. split.
    + cbn [with_positions pairs]. rewrite EP. apply in_or_app. right. apply in_or_app. left. apply in_map_iff. exists e2. split; [reflexivity|exact J1].
    + cbn [fst]. split; [now rewrite J2|]. unfold distance in *. cbn [with_positions position fst snd] in *. exact J3.
Qed.
Lemma close_agree : forall M A A', atoms A' = atoms A -> pairs A' = pairs A -> in_range A -> (forall n, (n < atoms A)%nat -> position A' n = position A n) -> close_enough M A -> close_enough M A'.
Proof.
  intros M A A' _ EP R V H ER HA c EC. destruct (H ER HA c EC) as [H1 H2]. split; [exact H1|]. intros e He. rewrite EP in *. destruct (H2 e He) as [e' [I1 [I2 I3]]]. exists e'. split; [exact I1|]. split; [exact I2|].
  unfold in_range in R. rewrite Forall_forall in R. destruct (R e' I1) as [Ra Rb]. unfold distance. now rewrite (V _ Ra), (V _ Rb).
Qed.
Lemma close_batch : forall M As, As <> [] -> Forall (sound_molecule M) As -> Forall (close_enough M) As -> close_enough M (batch As).
Proof.
  intros M As HN F C. change (close_enough M (with_positions (batch As) (position (batch As)))). apply close_moved; auto. intros j A E. rewrite Forall_forall in C. pose proof (nth_error_In _ _ E) as I1.
  apply (close_agree M A); try reflexivity; [rewrite Forall_forall in F; exact (proj1 (F A I1))| |now apply C]. intros n Hn. cbn [with_positions position]. now apply (batch_atoms As j A E).
Qed.

(** Every atom of a batch gets the features that it gets in its own molecule.  Other molecules of the batch may have no pairs. *)
Theorem C97_features : forall M As j A ys zs, proper_model M -> Forall (sound_molecule M) As -> Forall (close_enough M) As ->
  nth_error As j = Some A -> pairs A <> [] -> predicts M A ys -> predicts M (batch As) zs ->
  Forall2 (fun y z => forall n, (n < atoms A)%nat -> alike y [n] z [(offset As j + n)%nat]) ys zs.
Proof.
  intros M As j A ys zs PM F C E Hne HA HB. pose proof (nth_error_In _ _ E) as I1. assert (HN : As <> []) by (intros ->; contradiction).
  apply (C97_part M A (batch As) (offset As j) ys zs PM); auto.
  - rewrite Forall_forall in F. exact (conj Hne (F A I1)).
  - now apply batch_sound.
  - rewrite Forall_forall in C. now apply C.
  - now apply close_batch.
  - apply batch_part; [exact (sound_in_range M As F)|exact E].
Qed.
Print Assumptions C97_features.

(** A model that accepts a molecule accepts all batches of molecules, if there is at least one pair of atoms. *)
Theorem C97_accepted : forall M A0 ys As, proper_model M -> proper_molecule M A0 -> predicts M A0 ys ->
  Forall (sound_molecule M) As -> Exists (fun A => pairs A <> []) As -> exists zs, predicts M (batch As) zs /\ Forall2 (atoms_alike (atoms A0) (atoms (batch As))) ys zs.
Proof.
  intros M A0 ys As PM PA H F EX. assert (PB : proper_molecule M (batch As)).
  { split; [|now apply batch_sound]. apply Exists_exists in EX as [A [I1 I2]]. exact (batch_with_pairs As A I1 I2). }
  destruct (C75_every_molecule M A0 (batch As) ys PM PA PB H) as [[zs HZ] K]. exists zs. auto.
Qed.
Print Assumptions C97_accepted.

(** * Energies *)
Lemma predicts_scalars : forall M A ys, proper_model M -> predicts M A ys -> Forall has_scalars ys.
Proof.
  intros M A ys PM [e0 [x [w [Ee [Ax [_ H]]]]]]. destruct (embed_part _ _ _ _ Ee Ax) as [_ [X2 [X3 _]]]. pose proof PM as [HP [Hpc _]].
  refine (run_scalars _ _ _ (C67_checked _ _ HP) _ _ _ _ _ _ Hpc _ H). constructor; [|constructor]. exists 0%nat. split; [now left|exact X3].
Qed.
Lemma alike_comp : forall y z n m f, has_scalars y -> alike y [n] z [m] -> comp z [m] 0 0 0 f = comp y [n] 0 0 0 f.
Proof.
  intros y z n m f SC [S1 [S2 [S3 [_ V]]]]. unfold comp. rewrite S1, S2.
  destruct (Nat.leb_spec ((0 + 1) * (0 + 1)) (fD y)); [|reflexivity]. destruct (Nat.eqb_spec (fS y) 2); [apply V; lia|]. destruct (Nat.eqb_spec 0 (0 mod 2)); [|reflexivity].
  destruct SC as [q [[VS|VS] _]]; apply V; lia.
Qed.
Lemma related_nth : forall (A B : Type) (R : A -> B -> Prop) l l' k b, Forall2 R l l' -> nth_error l' k = Some b -> exists a, nth_error l k = Some a /\ R a b.
Proof. intros A B R l l' k b H. revert k. induction H as [|x y l l' H _ IH]; intros [|k] E; cbn in E; try discriminate; [|exact (IH k E)]. injection E as <-. exists x. auto. Qed.

Lemma f2_length : forall (A B : Type) (R : A -> B -> Prop) l l', Forall2 R l l' -> length l = length l'.
Proof. intros A B R l l' H. induction H; cbn; congruence. Qed.

Lemma rsum_batch : forall As g, rsum (atoms (batch As)) g = rsum (length As) (fun j => match nth_error As j with Some A => rsum (atoms A) (fun n => g (offset As j + n)%nat) | None => 0 end).
Proof.
  induction As as [|A As IH]; intros g; [reflexivity|]. cbn [batch fold_right beside atoms length]. fold (batch As). rewrite rsum_add, rsum_S_l. cbn [nth_error offset]. f_equal.
  rewrite IH. apply rsum_ext. intros j Hj. destruct (nth_error As j) as [B|]; [|reflexivity]. apply rsum_ext. intros n _. f_equal. lia.
Qed.
Lemma segment_entry : forall data ids k, add_all (map fst (filter (fun p => (snd p =? k)%nat) (combine data ids))) =
  rsum (length data) (fun n => match nth_error ids n with Some i => if (i =? k)%nat then nth n data 0 else 0 | None => 0 end).
Proof.
  induction data as [|x data IH]; intros [|i ids] k; cbn [combine filter map add_all fold_right length].
  - reflexivity.
  - reflexivity.
  - symmetry. apply rsum_zero. intros n _. now destruct n.
  - rewrite rsum_S_l. cbn [nth_error nth snd]. specialize (IH ids k). unfold add_all in IH |- *. destruct (i =? k)%nat; cbn [map fold_right fst]; rewrite IH; ring.
Qed.

(** The energies of a batch are the energies of its molecules, one for each. *)
Theorem C97_energies : forall M As bias k f ids zs z, proper_model M -> Forall (sound_molecule M) As -> Forall (close_enough M) As -> labels As ids ->
  predicts M (batch As) zs -> nth_error zs k = Some z ->
  length (energies bias (batch As) z f ids (length As)) = length As /\
  forall j A v, nth_error As j = Some A -> pairs A <> [] -> total M A k f v ->
    nth_error (energies bias (batch As) z f ids (length As)) j = Some (v + rsum (atoms A) (fun n => bias (number A n))).
Proof.
  intros M As bias k f ids zs z PM F C [LI HI] HB Ez. unfold energies, segment_sum. split; [now rewrite map_length, seq_length|]. intros j A v E Hne [ys [y [HA [Ey ->]]]].
  assert (Hj : (j < length As)%nat) by (apply nth_error_Some; congruence).
  rewrite nth_error_map, (nth_error_nth' (seq 0 (length As)) 0%nat) by now rewrite seq_length. rewrite seq_nth by exact Hj. cbn [Nat.add option_map]. f_equal.
  rewrite segment_entry. unfold atomic_energies. rewrite map_length, seq_length, rsum_batch.
  destruct (related_nth _ _ _ _ _ _ _ (C97_features M As j A ys zs PM F C E Hne HA HB) Ez) as [y' [Ey' AL]]. rewrite Ey in Ey'. injection Ey' as <-.
  assert (SY : has_scalars y) by (pose proof (predicts_scalars M A ys PM HA) as S; rewrite Forall_forall in S; exact (S y (nth_error_In _ _ Ey))).
  rewrite (rsum_single _ _ j Hj).
  - rewrite E, <- rsum_plus. apply rsum_ext. intros n Hn. rewrite (HI j A n E Hn), Nat.eqb_refl. destruct (batch_atoms As j A E) as [L V].
    rewrite (nth_indep _ 0 (comp z [0%nat] 0 0 0 f + bias (number (batch As) 0))) by (rewrite map_length, seq_length; lia).
    rewrite (map_nth (fun m => comp z [m] 0 0 0 f + bias (number (batch As) m))), seq_nth by lia. cbn [Nat.add]. rewrite (proj1 (V n Hn)), (alike_comp y z n (offset As j + n) f SY (AL n Hn)). reflexivity.
  - intros i Hi Hij. destruct (nth_error As i) as [B|] eqn:EB; [|reflexivity]. apply rsum_zero. intros n Hn. rewrite (HI i B n EB Hn). destruct (Nat.eqb_spec i j); [contradiction|reflexivity].
Qed.
Print Assumptions C97_energies.

(** Their sum is the energy of the batch as one large molecule. *)
Theorem C97_total : forall M As k f v, proper_model M -> As <> [] -> Forall (proper_molecule M) As -> Forall (close_enough M) As ->
  (total M (batch As) k f v <-> exists vs, Forall2 (fun A v => total M A k f v) As vs /\ v = add_all vs).
Proof.
  intros M As k f v PM HN PA C. assert (F : Forall (sound_molecule M) As) by (eapply Forall_impl; [|exact PA]; intros A [_ X]; exact X).
  assert (PB : proper_molecule M (batch As)).
  { split; [|now apply batch_sound]. destruct As as [|A As]; [contradiction|]. apply (batch_with_pairs _ A); [now left|]. inversion PA as [|? ? [X _] _]. exact X. }
  assert (KEY : forall zs z vs, predicts M (batch As) zs -> nth_error zs k = Some z -> Forall2 (fun A v => total M A k f v) As vs -> rsum (atoms (batch As)) (fun n => comp z [n] 0 0 0 f) = add_all vs).
  { intros zs z vs HB Ez HV. rewrite rsum_batch.
    assert (Q : forall j A u, nth_error As j = Some A -> nth_error vs j = Some u -> rsum (atoms A) (fun n => comp z [(offset As j + n)%nat] 0 0 0 f) = u).
    { intros j A u E Eu. assert (T : total M A k f u) by (clear -HV E Eu; revert j E Eu; induction HV as [|a b l l' H _ IH]; intros [|j] E Eu; cbn in E, Eu; try discriminate; [|exact (IH j E Eu)]; injection E as <-; injection Eu as <-; exact H).
      destruct T as [ys [y [HA [Ey ->]]]]. rewrite Forall_forall in PA. pose proof (PA A (nth_error_In _ _ E)) as [Hne _].
      destruct (related_nth _ _ _ _ _ _ _ (C97_features M As j A ys zs PM F C E Hne HA HB) Ez) as [y' [Ey' AL]]. rewrite Ey in Ey'. injection Ey' as <-.
      apply rsum_ext. intros n Hn. apply alike_comp; [|now apply AL]. pose proof (predicts_scalars M A ys PM HA) as S. rewrite Forall_forall in S. exact (S y (nth_error_In _ _ Ey)). }
    pose proof (f2_length _ _ _ _ _ HV) as LV. rewrite (rsum_ext _ _ (fun j => nth j vs 0)).
    - rewrite LV. clear. induction vs as [|u vs IH]; [reflexivity|]. cbn [length]. rewrite rsum_S_l. cbn [nth]. rewrite IH. reflexivity.
    - intros j Hj. destruct (nth_error As j) as [A|] eqn:E; [|apply nth_error_None in E; lia]. destruct (nth_error vs j) as [u|] eqn:Eu; [|apply nth_error_None in Eu; lia]. rewrite (Q j A u E Eu). symmetry. now apply nth_error_nth. }
  split.
  - intros [zs [z [HB [Ez ->]]]].
    assert (EX : exists vs, Forall2 (fun A v => total M A k f v) As vs).
    { assert (T : forall A, In A As -> exists u, total M A k f u).
      { intros A I1. rewrite Forall_forall in PA. destruct (C75_every_molecule M (batch As) A zs PM PB (PA A I1) HB) as [[ys HA] K]. pose proof (f2_length _ _ _ _ _ (K ys HA)) as LK.
        assert (Hk : (k < length ys)%nat) by (rewrite <- LK; apply nth_error_Some; congruence). destruct (nth_error ys k) as [y|] eqn:Ey; [|apply nth_error_None in Ey; lia]. eexists. exists ys, y. eauto. }
      clear -T. induction As as [|A As IH]; [exists []; constructor|]. destruct (T A (or_introl eq_refl)) as [u Hu]. destruct IH as [vs Hv]; [intros; apply T; now right|]. exists (u :: vs). now constructor. }
    destruct EX as [vs HV]. exists vs. split; [exact HV|]. exact (KEY zs z vs HB Ez HV).
  - intros [vs [HV ->]]. destruct As as [|A As]; [contradiction|]. inversion HV as [|? u ? us HU _]; subst. destruct HU as [ys [y [HA [Ey _]]]]. inversion PA as [|? ? PA0 _]; subst.
    destruct (C75_every_molecule M A (batch (A :: As)) ys PM PA0 PB HA) as [[zs HB] K]. pose proof (f2_length _ _ _ _ _ (K zs HB)) as LK.
    assert (Hk : (k < length zs)%nat) by (rewrite <- LK; apply nth_error_Some; congruence). destruct (nth_error zs k) as [z|] eqn:Ez; [|apply nth_error_None in Ez; lia].
    exists zs, z. split; [exact HB|]. split; [exact Ez|]. symmetry. exact (KEY zs z _ HB Ez HV).
Qed.
Print Assumptions C97_total.

(** * Forces *)
Lemma offset_disjoint : forall As i j A B n m, nth_error As i = Some A -> nth_error As j = Some B -> (n < atoms A)%nat -> (m < atoms B)%nat -> (offset As i + n = offset As j + m)%nat -> i = j.
Proof.
  induction As as [|A0 As IH]; intros [|i] [|j] A B n m HA HB Hn Hm E; try discriminate; cbn [offset nth_error] in *.
  - reflexivity.
  - injection HA as ->. lia.
  - injection HB as ->. lia.
  - f_equal. apply (IH i j A B n m); auto. lia.
Qed.
Lemma common_delta : forall n (P : nat -> R -> Prop), (forall j d d', 0 < d' <= d -> P j d -> P j d') -> (forall j, (j < n)%nat -> exists d, 0 < d /\ P j d) -> exists d, 0 < d /\ forall j, (j < n)%nat -> P j d.
Proof.
  intros n P M. induction n as [|n IH]; intros H; [exists 1; split; [lra|lia]|]. destruct IH as [d [Hd D]]; [intros; apply H; lia|]. destruct (H n ltac:(lia)) as [d' [Hd' D']].
  pose proof (Rmin_l d d'). pose proof (Rmin_r d d'). assert (0 < Rmin d d') by now apply Rmin_glb_lt. exists (Rmin d d'). split; [assumption|]. intros j Hj. destruct (Nat.eq_dec j n) as [->|].
  - apply (M n d'); [lra|exact D'].
  - apply (M j d); [lra|]. apply D. lia.
Qed.
Lemma extent_nonneg : forall N d, 0 <= extent N d.
Proof. intros N d. apply rsum_nonneg. intros. unfold size. apply sqrt_pos. Qed.
Lemma rsum_member : forall n g j, (forall i, (i < n)%nat -> 0 <= g i) -> (j < n)%nat -> g j <= rsum n g.
Proof.
  induction n as [|n IH]; intros g j H Hj; [lia|]. cbn [rsum]. assert (0 <= rsum n g) by (apply rsum_nonneg; intros; apply H; lia). assert (0 <= g n) by (apply H; lia).
  destruct (Nat.eq_dec j n) as [->|]; [lra|]. assert (g j <= rsum n g) by (apply IH; [intros; apply H|]; lia). lra.
Qed.
Lemma rsum_below : forall n g h, (forall i, (i < n)%nat -> Rabs (g i) <= h i) -> Rabs (rsum n g) <= rsum n h.
Proof.
  induction n as [|n IH]; intros g h H; cbn [rsum]; [rewrite Rabs_R0; lra|]. eapply Rle_trans; [apply Rabs_triang|]. apply Rplus_le_compat; [apply IH; intros; apply H; lia|apply H; lia].
Qed.

Lemma energy_agree : forall M A k f E p q, proper_model M -> proper_molecule M A -> close_enough M (with_positions A p) -> energy_function M A k f E ->
  (forall n, (n < atoms A)%nat -> q n = p n) -> E q = E p.
Proof.
  intros M A k f E p q PM PA CE HE H. apply (C72_determined M (with_positions A p) (with_positions A q) k f (E p) (E q)); auto.
Qed.

Section Forces.
Variables (M : model) (As : list molecule) (k f : nat) (E : (nat -> vec) -> R) (Es : nat -> (nat -> vec) -> R).
Hypothesis PM : proper_model M.
Hypothesis some : As <> [].
Hypothesis PA : Forall (proper_molecule M) As.
Hypothesis HE : energy_function M (batch As) k f E.
Hypothesis HEs : forall j A, nth_error As j = Some A -> energy_function M A k f (Es j).

Lemma batch_energy : forall p, (forall j A, nth_error As j = Some A -> close_enough M (with_positions A (fun n => p (offset As j + n)%nat))) ->
  E p = rsum (length As) (fun j => Es j (fun n => p (offset As j + n)%nat)).
Proof using PM some PA HE HEs.
  intros p C. assert (F : Forall (sound_molecule M) As) by (eapply Forall_impl; [|exact PA]; intros A [_ X]; exact X).
  destruct (HE p) as [zs [z [HB [Ez ->]]]]. change (atoms (with_positions (batch As) p)) with (atoms (batch As)). rewrite rsum_batch. apply rsum_ext. intros j Hj.
  destruct (nth_error As j) as [A|] eqn:EA; [|apply nth_error_None in EA; lia]. destruct (HEs j A EA (fun n => p (offset As j + n)%nat)) as [ys [y [HA [Ey ->]]]].
  rewrite Forall_forall in PA. pose proof (PA A (nth_error_In _ _ EA)) as PAA.
  assert (AL : Forall2 (fun y z => forall n, (n < atoms A)%nat -> alike y [n] z [(offset As j + n)%nat]) ys zs).
  { apply (C97_part M (with_positions A (fun n => p (offset As j + n)%nat)) (with_positions (batch As) p) (offset As j) ys zs PM PAA); auto.
    - exact (batch_sound M As F).
    - now apply close_moved.
    - apply batch_part_moved; [exact (sound_in_range M As F)|exact EA]. }
  destruct (related_nth _ _ _ _ _ _ _ AL Ez) as [y' [Ey' AL']]. rewrite Ey in Ey'. injection Ey' as <-.
  apply rsum_ext. intros n Hn. apply alike_comp; [|now apply AL']. pose proof (predicts_scalars M _ ys PM HA) as S. rewrite Forall_forall in S. exact (S y (nth_error_In _ _ Ey)).
Qed.

Hypothesis SC : Forall (stays_close M) As.
Variable F : nat -> vec.

(** The error of the linear approximation, in the molecules and in the batch. *)
Let part_error (j : nat) (A : molecule) (d : nat -> vec) : R := Es j (displaced (position A) d) - Es j (position A) + rsum (atoms A) (fun n => dot (F (offset As j + n)%nat) (d n)).
Let here (j : nat) (d : nat -> vec) : nat -> vec := fun n => d (offset As j + n)%nat.

Lemma extent_batch : forall d, extent (atoms (batch As)) d = rsum (length As) (fun j => match nth_error As j with Some A => extent (atoms A) (here j d) | None => 0 end).
Proof using. intros d. unfold extent. rewrite rsum_batch. reflexivity. Qed.
Lemma extent_here : forall d j A, nth_error As j = Some A -> extent (atoms A) (here j d) <= extent (atoms (batch As)) d.
Proof using.
  intros d j A EA. rewrite extent_batch. assert (Hj : (j < length As)%nat) by (apply nth_error_Some; congruence).
  pose proof (rsum_member (length As) (fun j => match nth_error As j with Some A => extent (atoms A) (here j d) | None => 0 end) j) as Q. cbn beta in Q. rewrite EA in Q. apply Q; [|exact Hj].
  intros i _. destruct (nth_error As i); [apply extent_nonneg|lra].
Qed.

Lemma batch_errors : exists delta, 0 < delta /\ forall d, extent (atoms (batch As)) d < delta ->
  E (displaced (position (batch As)) d) - E (position (batch As)) + rsum (atoms (batch As)) (fun n => dot (F n) (d n))
  = rsum (length As) (fun j => match nth_error As j with Some A => part_error j A (here j d) | None => 0 end)
  /\ forall j A, nth_error As j = Some A -> close_enough M (with_positions A (displaced (position A) (here j d))).
Proof using PM some PA HE HEs SC.
  destruct (common_delta (length As) (fun j delta => forall A, nth_error As j = Some A -> forall d, extent (atoms A) d < delta -> close_enough M (with_positions A (displaced (position A) d)))) as [delta [Hd D]].
  { intros j a b Hab H A EA d Hd. apply (H A EA). lra. }
  { intros j Hj. destruct (nth_error As j) as [A|] eqn:EA; [|apply nth_error_None in EA; lia]. rewrite Forall_forall in SC. destruct (SC A (nth_error_In _ _ EA)) as [a [Ha H]]. exists a. split; [exact Ha|]. intros A' EA'. injection EA' as <-. exact H. }
  exists delta. split; [exact Hd|].
  assert (CL : forall d, extent (atoms (batch As)) d < delta -> forall j A, nth_error As j = Some A -> close_enough M (with_positions A (displaced (position A) (here j d)))).
  { intros d X j A EA. assert (Hj : (j < length As)%nat) by (apply nth_error_Some; congruence). apply (D j Hj A EA). pose proof (extent_here d j A EA). lra. }
  assert (EV : forall d, extent (atoms (batch As)) d < delta -> E (displaced (position (batch As)) d) = rsum (length As) (fun j => match nth_error As j with Some A => Es j (displaced (position A) (here j d)) | None => 0 end)).
  { intros d X. assert (AG : forall j A, nth_error As j = Some A -> forall n, (n < atoms A)%nat -> displaced (position (batch As)) d (offset As j + n)%nat = displaced (position A) (here j d) n).
    { intros j A EA n Hn. unfold displaced, here. now rewrite (proj2 (proj2 (batch_atoms As j A EA) n Hn)). }
    pose proof (proj1 (Forall_forall _ _) PA) as PA'. rewrite batch_energy.
    - apply rsum_ext. intros j Hj. destruct (nth_error As j) as [A|] eqn:EA; [|apply nth_error_None in EA; lia].
      apply (energy_agree M A k f (Es j) (displaced (position A) (here j d)) _ PM (PA' A (nth_error_In _ _ EA)) (CL d X j A EA) (HEs j A EA) (AG j A EA)).
    - intros j A EA. apply (close_agree M (with_positions A (displaced (position A) (here j d)))); try reflexivity; [exact (proj1 (proj2 (PA' A (nth_error_In _ _ EA))))|exact (AG j A EA)|exact (CL d X j A EA)]. }
  intros d X. split; [|exact (CL d X)]. rewrite (EV d X).
  assert (Z0 : extent (atoms (batch As)) (fun _ => (0, 0, 0)) = 0).
  { unfold extent. apply rsum_zero. intros n _. unfold size. cbn. replace (0 * 0 + 0 * 0 + 0 * 0) with 0 by ring. apply sqrt_0. }
  assert (P0 : forall p, displaced p (fun _ => (0, 0, 0)) = displaced p (fun _ => (0, 0, 0))) by reflexivity. clear P0.
  assert (E0 : E (position (batch As)) = rsum (length As) (fun j => match nth_error As j with Some A => Es j (position A) | None => 0 end)).
  { pose proof (proj1 (Forall_forall _ _) PA) as PA'. assert (PZ : forall p n, displaced p (fun _ => (0, 0, 0)) n = p n) by (intros p n; unfold displaced; destruct (p n) as [[x y] w]; cbn; repeat apply f_equal2; ring).
    assert (CZ : forall j A, nth_error As j = Some A -> close_enough M (with_positions A (position A))).
    { intros j A EA. apply (close_agree M (with_positions A (displaced (position A) (fun _ => (0, 0, 0))))); try reflexivity; [exact (proj1 (proj2 (PA' A (nth_error_In _ _ EA))))|intros n _; symmetry; apply PZ|]. apply (CL (fun _ => (0, 0, 0)) ltac:(lra) j A EA). }
    rewrite batch_energy.
    - apply rsum_ext. intros j Hj. destruct (nth_error As j) as [A|] eqn:EA; [|apply nth_error_None in EA; lia]. apply (energy_agree M A k f (Es j) (position A) _ PM (PA' A (nth_error_In _ _ EA)) (CZ j A EA) (HEs j A EA)).
      intros n Hn. now apply (batch_atoms As j A EA).
    - intros j A EA. apply (close_agree M (with_positions A (position A))); try reflexivity; [exact (proj1 (proj2 (PA' A (nth_error_In _ _ EA))))| |exact (CZ j A EA)]. intros n Hn. now apply (batch_atoms As j A EA). }
  rewrite E0, rsum_batch, <- rsum_minus, <- rsum_plus. apply rsum_ext. intros j Hj. destruct (nth_error As j) as [A|]; [|ring]. reflexivity.
Qed.

Lemma forces_of_batch : (forall j A, nth_error As j = Some A -> forces (atoms A) (Es j) (position A) (fun n => F (offset As j + n)%nat)) -> forces (atoms (batch As)) E (position (batch As)) F.
Proof using PM some PA HE HEs SC.
  intros H eps Heps. destruct batch_errors as [d1 [Hd1 B]].
  destruct (common_delta (length As) (fun j delta => forall A, nth_error As j = Some A -> forall d, extent (atoms A) d < delta -> Rabs (part_error j A d) <= eps * extent (atoms A) d)) as [d2 [Hd2 D]].
  { intros j a b Hab X A EA d Hd. apply (X A EA). lra. }
  { intros j Hj. destruct (nth_error As j) as [A|] eqn:EA; [|apply nth_error_None in EA; lia]. destruct (H j A EA eps Heps) as [a [Ha X]]. exists a. split; [exact Ha|]. intros A' EA'. injection EA' as <-. exact X. }
  exists (Rmin d1 d2). split; [now apply Rmin_glb_lt|]. intros d Hd. pose proof (Rmin_l d1 d2). pose proof (Rmin_r d1 d2). destruct (B d ltac:(lra)) as [-> _].
  rewrite extent_batch, <- rsum_scal_l. apply rsum_below. intros j Hj. destruct (nth_error As j) as [A|] eqn:EA; [|rewrite Rabs_R0; lra].
  apply (D j Hj A EA). pose proof (extent_here d j A EA). lra.
Qed.

Lemma forces_in_batch : forces (atoms (batch As)) E (position (batch As)) F -> forall j A, nth_error As j = Some A -> forces (atoms A) (Es j) (position A) (fun n => F (offset As j + n)%nat).
Proof using PM some PA HE HEs SC.
  intros H j A EA eps Heps. destruct batch_errors as [d1 [Hd1 B]]. destruct (H eps Heps) as [d2 [Hd2 D]]. assert (Hj : (j < length As)%nat) by (apply nth_error_Some; congruence).
  rewrite Forall_forall in SC, PA. destruct (SC A (nth_error_In _ _ EA)) as [d3 [Hd3 C3]].
  exists (Rmin d1 (Rmin d2 d3)). split; [repeat apply Rmin_glb_lt; assumption|]. intros d Hd. pose proof (Rmin_l d1 (Rmin d2 d3)). pose proof (Rmin_r d1 (Rmin d2 d3)). pose proof (Rmin_l d2 d3). pose proof (Rmin_r d2 d3).
  set (D0 := fun n => if ((offset As j <=? n) && (n <? offset As j + atoms A))%nat then d (n - offset As j)%nat else (0, 0, 0)).
  assert (DJ : forall n, (n < atoms A)%nat -> here j D0 n = d n).
  { intros n Hn. unfold here, D0. destruct (Nat.leb_spec (offset As j) (offset As j + n)); [|lia]. destruct (Nat.ltb_spec (offset As j + n) (offset As j + atoms A)); [|lia]. cbn [andb]. f_equal. lia. }
  assert (DI : forall i B n, nth_error As i = Some B -> i <> j -> (n < atoms B)%nat -> here i D0 n = (0, 0, 0)).
  { intros i B0 n EB N Hn. unfold here, D0. destruct (Nat.leb_spec (offset As j) (offset As i + n)); [|reflexivity]. destruct (Nat.ltb_spec (offset As i + n) (offset As j + atoms A)); [|reflexivity].
    exfalso. apply N. apply (offset_disjoint As i j B0 A n (offset As i + n - offset As j)); auto; lia. }
  assert (XJ : extent (atoms A) (here j D0) = extent (atoms A) d) by (apply rsum_ext; intros n Hn; now rewrite DJ).
  assert (SZ : size (0, 0, 0) = 0) by (unfold size; cbn; replace (0 * 0 + 0 * 0 + 0 * 0) with 0 by ring; apply sqrt_0).
  assert (X : extent (atoms (batch As)) D0 = extent (atoms A) d).
  { rewrite extent_batch, (rsum_single _ _ j Hj); [now rewrite EA|]. intros i Hi N. destruct (nth_error As i) as [B0|] eqn:EB; [|reflexivity]. apply rsum_zero. intros n Hn. now rewrite (DI i B0 n EB N Hn). }
  destruct (B D0 ltac:(lra)) as [EQ CL]. pose proof (D D0 ltac:(lra)) as BD. rewrite EQ, X in BD.
  rewrite (rsum_single _ _ j Hj) in BD.
  - rewrite EA in BD. unfold part_error in BD. rewrite (rsum_ext _ _ (fun n => dot (F (offset As j + n)%nat) (d n))) in BD by (intros n Hn; now rewrite DJ).
    rewrite (energy_agree M A k f (Es j) (displaced (position A) d) (displaced (position A) (here j D0)) PM (PA A (nth_error_In _ _ EA)) (C3 d ltac:(lra)) (HEs j A EA)) in BD.
    + exact BD.
    + intros n Hn. unfold displaced. now rewrite DJ.
  - intros i Hi N. destruct (nth_error As i) as [B0|] eqn:EB; [|reflexivity]. unfold part_error.
    rewrite (rsum_zero _ (fun n => dot (F (offset As i + n)%nat) (here i D0 n))) by (intros n Hn; rewrite (DI i B0 n EB N Hn); destruct (F (offset As i + n)%nat) as [[x y] w]; cbn; ring).
    rewrite (energy_agree M B0 k f (Es i) (displaced (position B0) (here i D0)) (position B0) PM (PA B0 (nth_error_In _ _ EB)) (CL i B0 EB) (HEs i B0 EB)); [ring|].
    intros n Hn. unfold displaced. rewrite (DI i B0 n EB N Hn). destruct (position B0 n) as [[x y] w]. cbn. repeat apply f_equal2; ring.
Qed.
End Forces.

(** The forces of a batch, i.e. minus the gradient of the sum of all energies with respect to all positions, are the forces of the molecules. *)
Theorem C97_forces : forall M As k f E Es F, proper_model M -> As <> [] -> Forall (proper_molecule M) As -> Forall (stays_close M) As ->
  energy_function M (batch As) k f E -> (forall j A, nth_error As j = Some A -> energy_function M A k f (Es j)) ->
  (forces (atoms (batch As)) E (position (batch As)) F <->
   forall j A, nth_error As j = Some A -> forces (atoms A) (Es j) (position A) (fun n => F (offset As j + n)%nat)).
Proof.
  intros M As k f E Es F PM HN PA SC HE HEs. split; [now apply (forces_in_batch M As k f E Es PM HN PA HE HEs SC F)|now apply (forces_of_batch M As k f E Es PM HN PA HE HEs SC F)].
Qed.
Print Assumptions C97_forces.

(** * The arrays of a batch *)
Lemma with_offsets_S : forall idx n size, with_offsets idx (S n) size = idx ++ map (Nat.add size) (with_offsets idx n size).
Proof.
  intros idx n size. unfold with_offsets. cbn [seq map concat]. f_equal.
  - rewrite <- (map_id idx) at 2. apply map_ext. intros. lia.
  - rewrite <- seq_shift, map_map, concat_map, map_map. f_equal. apply map_ext. intros j. rewrite map_map. apply map_ext. intros. lia.
Qed.
Lemma repeat_range_S : forall n k, repeat_range (S n) k = repeat 0%nat k ++ map S (repeat_range n k).
Proof.
  intros n k. unfold repeat_range. cbn [seq map concat]. f_equal. rewrite <- seq_shift, map_map, concat_map, map_map. f_equal. apply map_ext. intros j. induction k as [|k IH]; [reflexivity|]. cbn [repeat map]. now rewrite IH.
Qed.
Lemma with_offsets_length : forall idx n size, length (with_offsets idx n size) = (n * length idx)%nat.
Proof. intros idx n size. induction n as [|n IH]; [reflexivity|]. now rewrite with_offsets_S, app_length, map_length, IH. Qed.
Lemma combine_both : forall (a b a' b' : list nat), length a = length b -> combine (a ++ a') (b ++ b') = combine a b ++ combine a' b'.
Proof. induction a as [|x a IH]; intros [|y b] a' b' H; try discriminate; [reflexivity|]. cbn. f_equal. apply IH. now injection H. Qed.
Lemma combine_moved : forall s a b, combine (map (Nat.add s) a) (map (Nat.add s) b) = map (fun e => (s + fst e, s + snd e)%nat) (combine a b).
Proof. intros s. induction a as [|x a IH]; intros [|y b]; try reflexivity. cbn. now rewrite IH. Qed.

(** The arrays made for a batch are those of the configurations one after the other, and its segments say which atom belongs to
    which configuration. *)
Theorem C97_prepared : forall numbers dst src positions, length dst = length src -> Forall (fun p => length p = length numbers) positions ->
  let b := prepare_batch numbers dst src positions in
  let As := map (fun p => arrays_molecule numbers p dst src) positions in
  same_molecule (batch As) (arrays_molecule (b_numbers b) (b_positions b) (b_dst b) (b_src b)) /\ labels As (b_segments b).
Proof.
  intros numbers dst src positions HL. cbv zeta. unfold prepare_batch. cbn [b_numbers b_positions b_dst b_src b_segments].
  induction positions as [|p ps IH]; intros HP.
  - split; [split; [reflexivity|split; [reflexivity|intros n Hn; cbn in Hn; lia]]|]. split; [reflexivity|]. intros [|j] A n E; discriminate.
  - inversion_clear HP as [|? ? Lp Lps]. destruct (IH Lps) as [[E1 [E2 E3]] [L1 L2]]. clear IH. set (As := map (fun p => arrays_molecule numbers p dst src) ps) in *.
    cbn [map batch fold_right length]. fold (batch As). fold As. cbn [arrays_molecule atoms pairs number position] in *. rewrite with_offsets_S, with_offsets_S, repeat_range_S.
    change (tile numbers (S (length ps))) with (numbers ++ tile numbers (length ps)). cbn [concat].
    split; [split; [|split]|split].
    + cbn [beside arrays_molecule atoms]. now rewrite app_length, E1.
    + cbn [beside arrays_molecule atoms pairs]. now rewrite combine_both, combine_moved, E2 by assumption.
    + intros n Hn. cbn [beside arrays_molecule atoms number position] in *. destruct (Nat.ltb_spec n (length numbers)) as [H|H].
      * rewrite !app_nth1 by lia. split; reflexivity.
      * rewrite !app_nth2 by lia. rewrite Lp. apply E3. unfold batch. lia.
    + rewrite app_length, repeat_length, map_length, L1. reflexivity.
    + intros [|j] A n E Hn; cbn [nth_error offset] in *.
      * injection E as <-. cbn [arrays_molecule atoms] in Hn. cbn [plus]. rewrite nth_error_app1 by (rewrite repeat_length; exact Hn). now apply nth_error_repeat.
      * cbn [arrays_molecule atoms]. rewrite nth_error_app2, repeat_length by (rewrite repeat_length; lia). replace (length numbers + offset As j + n - length numbers)%nat with (offset As j + n)%nat by lia.
        now rewrite nth_error_map, (L2 j A n E Hn).
Qed.
Print Assumptions C97_prepared.

(** * Example: two pairs of atoms connected by springs *)
Definition other_positions (n : nat) : vec := match n with O => (0, 0, 0) | _ => (0, 3, 4) end.
Definition two_springs : list molecule := [dumbbell two_positions; dumbbell other_positions].

Lemma springs_proper : Forall (proper_molecule spring) two_springs.
Proof. repeat constructor; try discriminate; cbn in *; lia. Qed.
Lemma springs_close : Forall (close_enough spring) two_springs.
Proof. constructor; [apply spring_close|constructor; [apply spring_close|constructor]]. Qed.
Lemma springs_total : forall p q, total spring (batch [dumbbell p; dumbbell q]) 1 0 (spring_energy p + spring_energy q).
Proof.
  intros p q. apply C97_total.
  - exact spring_proper.
  - discriminate.
  - constructor; [apply dumbbell_proper|constructor; [apply dumbbell_proper|constructor]].
  - constructor; [apply spring_close|constructor; [apply spring_close|constructor]].
  - exists [spring_energy p; spring_energy q]. split; [constructor; [apply spring_total|constructor; [apply spring_total|constructor]]|]. cbn. ring.
Qed.
Lemma springs_function : energy_function spring (batch two_springs) 1 0 (fun r => spring_energy r + spring_energy (fun n => r (2 + n)%nat)).
Proof.
  intros r. set (B := batch [dumbbell r; dumbbell (fun n => r (2 + n)%nat)]). pose proof (springs_total r (fun n => r (2 + n)%nat)) as T. fold B in T.
  assert (PB : proper_molecule spring B) by (split; [discriminate|split; [repeat constructor|]]; intros [|[|[|[|n]]]] Hn; cbn in *; lia).
  assert (CB : close_enough spring B) by (apply close_batch; [discriminate|constructor; [apply dumbbell_proper|constructor; [apply dumbbell_proper|constructor]]|constructor; [apply spring_close|constructor; [apply spring_close|constructor]]]).
  pose proof T as [zs [z [HZ [Ez _]]]]. assert (PR : proper_molecule spring (with_positions (batch two_springs) r)) by exact PB.
  destruct (C75_every_molecule spring B _ zs spring_proper PB PR HZ) as [[ws HW] AW]. pose proof (AW ws HW) as AW'. pose proof (f2_length _ _ _ _ _ AW') as LW. destruct (nth_error ws 1) as [w|] eqn:Ew; [|apply nth_error_None in Ew; assert (1 < length zs)%nat by (apply nth_error_Some; congruence); lia].
  assert (T' : total spring (with_positions (batch two_springs) r) 1 0 (rsum (atoms (batch two_springs)) (fun n => comp w [n] 0 0 0 0))) by (exists ws, w; auto).
  rewrite <- (C72_determined spring B (with_positions (batch two_springs) r) 1 0 _ _ spring_proper PB CB eq_refl eq_refl) with (2 := T) (3 := T'); [exact T'|].
  intros n Hn. split; [reflexivity|]. cbn [B batch two_springs fold_right beside dumbbell with_positions position atoms nowhere]. destruct n as [|[|[|[|n]]]]; try reflexivity. cbn in Hn. lia.
Qed.

Example C97_case : labels two_springs [0; 0; 1; 1]%nat
  /\ (exists zs z, predicts spring (batch two_springs) zs /\ nth_error zs 1 = Some z
      /\ energies (fun n => IZR n) (batch two_springs) z 0 [0; 0; 1; 1]%nat 2 = [19; 51])
  /\ forces 4 (fun r => spring_energy r + spring_energy (fun n => r (2 + n)%nat)) (position (batch two_springs))
       (fun n => match n with O | 1%nat => spring_force two_positions n | _ => spring_force other_positions (n - 2) end)
  /\ spring_force other_positions 0 = (0, 12, 16).
Proof.
  assert (L : labels two_springs [0; 0; 1; 1]%nat).
  { split; [reflexivity|]. intros [|[|[|j]]] A [|[|n]] E Hn; try discriminate; try reflexivity; injection E as <-; cbn in Hn; lia. }
  assert (S0 : spring_energy two_positions = 18) by (unfold spring_energy; rewrite size_sq; cbn; ring).
  assert (S1 : spring_energy other_positions = 50) by (unfold spring_energy; rewrite size_sq; cbn; ring).
  split; [exact L|]. split; [|split].
  - destruct (springs_total two_positions other_positions) as [zs [z [HZ [Ez _]]]]. exists zs, z. split; [exact HZ|]. split; [exact Ez|].
    assert (F : Forall (sound_molecule spring) two_springs) by (eapply Forall_impl; [|exact springs_proper]; intros A [_ X]; exact X).
    destruct (C97_energies spring two_springs (fun n => IZR n) 1 0 _ zs z spring_proper F springs_close L HZ Ez) as [LE HV].
    pose proof (HV 0%nat _ _ eq_refl ltac:(discriminate) (spring_total two_positions)) as E0. pose proof (HV 1%nat _ _ eq_refl ltac:(discriminate) (spring_total other_positions)) as E1.
    change (length two_springs) with 2%nat in *. destruct (energies _ _ _ _ _ _) as [|a [|b [|c l]]]; try discriminate. injection E0 as ->. injection E1 as ->.
    cbn [atoms dumbbell number rsum]. rewrite S0, S1. cbn [Z.of_nat Pos.of_succ_nat]. apply f_equal2; [ring|apply f_equal2; [ring|reflexivity]].
  - apply (C97_forces spring two_springs 1 0 _ (fun _ => spring_energy) _ spring_proper ltac:(discriminate) springs_proper).
    + constructor; [apply spring_stays|constructor; [apply spring_stays|constructor]].
    + exact springs_function.
    + intros [|[|[|j]]] A E; try discriminate; injection E as <-; apply spring_function.
    + intros [|[|[|j]]] A E; try discriminate; injection E as <-; cbn [offset two_springs atoms dumbbell Nat.add position].
      * intros eps He. destruct (spring_forces two_positions eps He) as [dl [Hd H]]. exists dl. split; [exact Hd|]. intros d X. exact (H d X).
      * intros eps He. destruct (spring_forces other_positions eps He) as [dl [Hd H]]. exists dl. split; [exact Hd|]. intros d X. exact (H d X).
  - cbn. apply triple_eq; ring.
Qed.

(** Two configurations of a molecule of two atoms. *)
Example C97_prepared_case : prepare_batch [1; 0]%Z [0; 1]%nat [1; 0]%nat [[(0, 0, 0); (1, 2, 2)]; [(0, 0, 0); (0, 3, 4)]]
  = mkPrepared [1; 0; 1; 0]%Z [(0, 0, 0); (1, 2, 2); (0, 0, 0); (0, 3, 4)] [0; 1; 2; 3]%nat [1; 0; 3; 2]%nat [0; 0; 1; 1]%nat.
Proof. reflexivity. Qed.
