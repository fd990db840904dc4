(** C72: what a model predicts for a molecule does not depend on the position and orientation of the
    molecule or on the numbering of its atoms and pairs.  C73: forces. *)
Require Import List Reals ZArith Bool Lia Lra.
Require Import ZifyNat.
Require Import Verif.Base Verif.RSum Verif.Common_Proofs Verif.Features_Model Verif.Features_Spec Verif.Features_Proofs Verif.Modules_Model Verif.Modules_Spec Verif.Modules_Graph_Spec Verif.Modules_Relabel_Proofs
  Verif.Modules_Graph_Props Verif.Rotations_Model Verif.Rotations_Spec Verif.Rotations_Proofs Verif.LUT_Model Verif.LUT_Spec Verif.Irreps_Model Verif.Irreps_Spec Verif.Irreps_Proofs Verif.Irreps_Laws_Proofs Verif.Irreps_Props
  Verif.Wrappers_Model Verif.Wrappers_Spec Verif.Wrappers_Proofs Verif.Wrappers_Props Verif.Embed_Model Verif.Embed_Spec Verif.Embed_Props
  Verif.Equivariance_Spec Verif.Equivariance_Props Verif.Structure_Props Verif.Network_Spec Verif.Network_Props Verif.Shapes_Proofs Verif.Locality_Spec Verif.Locality_Proofs Verif.Locality_Props Verif.Molecule_Spec Verif.Symbolic_Model Verif.Clebsch_Model Verif.CGTable_Proofs Verif.Clebsch_Props.
Import ListNotations.
Open Scope R_scope.

Definition factor (c : option (R -> R)) (x : R) : R := match c with Some c => c x | None => 1 end.

Lemma factor_everywhere : forall c rs, factor_values (option_map everywhere c) rs (map (fun v => factor c (size v)) rs).
Proof. intros [c|] rs; cbn [option_map factor_values factor]; [|reflexivity]. unfold everywhere. rewrite map_map, map_length. auto. Qed.
Lemma radial_everywhere : forall g num rs, (forall x, length (g x) = Z.to_nat num) -> radial_values (fun x _ => Ok (map g x)) num rs (map (fun v => g (size v)) rs).
Proof.
  intros g num rs H. unfold radial_values. rewrite map_map, map_length. split; [reflexivity|]. split; [reflexivity|]. apply Forall_map, Forall_forall. intros v _. apply H.
Qed.

Lemma basis_values : forall tiny rs L num g c d rc rn ca y, 0 < tiny -> rs <> [] -> (0 <= L)%Z -> (forall x, length (g x) = Z.to_nat num) -> (rc = true -> c <> None) ->
  basis_returns tiny rs L num (fun x _ => Ok (map g x)) (option_map everywhere c) rc rn (option_map everywhere d) ca y ->
  cutoffs y = (if rc then Some (map (fun v => factor c (size v)) rs) else None) /\
  exists ys, solid_returns (map heading rs) L ca ys /\
    forall b v i f, nth_error rs b = Some v -> (i < degrees L * degrees L)%nat -> (f < Z.to_nat num)%nat ->
      entry_of y b i f = at2 ys b i * (nth f (g (size v)) 0 * factor c (size v) * (if (i =? 0)%nat then 1 else factor d (size v))).
Proof.
  intros tiny rs L num g c d rc rn ca y Ht Hne HL Hg Hrc H.
  assert (Hrc' : rc = true -> option_map everywhere c <> None) by (intros X; specialize (Hrc X); destruct c; [discriminate|contradiction]).
  destruct (basis_inv _ _ _ _ _ _ _ _ _ _ _ _ _ _ Ht Hne HL (radial_everywhere g num rs Hg) (factor_everywhere c rs) (factor_everywhere d rs) Hrc' H) as (ys & HS & R1 & _ & _ & _ & V).
  split; [exact R1|]. exists ys. split; [exact HS|]. intros b v i f Eb Hi Hf.
  assert (Hb : (b < length rs)%nat) by (apply nth_error_Some; congruence). rewrite V by assumption. unfold at2 at 2.
  assert (NM : forall (A : Type) (q : vec -> A) z, nth b (map q rs) z = q v) by (intros A q z; apply nth_error_nth; rewrite nth_error_map, Eb; reflexivity).
  rewrite !NM. reflexivity.
Qed.

Lemma basis_same : forall tiny rs rs' L num g c d rc rn ca y y' b b' v, 0 < tiny -> rs <> [] -> rs' <> [] -> (0 <= L)%Z -> (forall x, length (g x) = Z.to_nat num) -> (rc = true -> c <> None) ->
  basis_returns tiny rs L num (fun x _ => Ok (map g x)) (option_map everywhere c) rc rn (option_map everywhere d) ca y ->
  basis_returns tiny rs' L num (fun x _ => Ok (map g x)) (option_map everywhere c) rc rn (option_map everywhere d) ca y' ->
  nth_error rs b = Some v -> nth_error rs' b' = Some v ->
  (forall i f, (i < degrees L * degrees L)%nat -> (f < Z.to_nat num)%nat -> entry_of y' b' i f = entry_of y b i f) /\ cutoff_at (edge_cutoffs y') [b'] = cutoff_at (edge_cutoffs y) [b].
Proof.
  intros tiny rs rs' L num g c d rc rn ca y y' b b' v Ht Hne Hne' HL Hg Hrc H H' Eb Eb'.
  destruct (basis_values _ _ _ _ _ _ _ _ _ _ _ Ht Hne HL Hg Hrc H) as [C [ys [S V]]]. destruct (basis_values _ _ _ _ _ _ _ _ _ _ _ Ht Hne' HL Hg Hrc H') as [C' [ys' [S' V']]]. split.
  - intros i f Hi Hf. rewrite (V b v) by assumption. rewrite (V' b' v) by assumption. f_equal.
    destruct (block_decomp i) as [l [k [-> [Hk _]]]]. assert (Hl : (l < degrees L)%nat) by nia.
    assert (E1 : nth_error (map heading rs) b = Some (heading v)) by (rewrite nth_error_map, Eb; reflexivity).
    assert (E2 : nth_error (map heading rs') b' = Some (times 1 (heading v))) by (rewrite nth_error_map, Eb'; cbn; f_equal; destruct (heading v) as [[p q] w]; cbn; repeat apply f_equal2; ring).
    rewrite (C21_homogeneous _ _ _ _ _ _ _ _ _ _ _ _ S S' E1 E2 Hl Hk). rewrite pow1. ring.
  - unfold edge_cutoffs. rewrite C, C'. destruct rc; [|reflexivity]. cbn [cutoff_at].
    transitivity (factor c (size v)); [|symmetry]; apply nth_error_nth; rewrite nth_error_map, ?Eb, ?Eb'; reflexivity.
Qed.

Lemma basis_exists : forall tiny rs L num g c d rc rn ca, 0 < tiny -> rs <> [] -> (0 <= L)%Z -> (forall x, length (g x) = Z.to_nat num) -> (rc = true -> c <> None) ->
  exists y, basis_returns tiny rs L num (fun x _ => Ok (map g x)) (option_map everywhere c) rc rn (option_map everywhere d) ca y.
Proof.
  intros tiny rs L num g c d rc rn ca Ht Hne HL Hg Hrc.
  assert (Hrc' : rc = true -> option_map everywhere c <> None) by (intros X; specialize (Hrc X); destruct c; [discriminate|contradiction]).
  destruct (C51_total tiny 0 empty_world None IoOk rs L num _ _ rc rn _ ca _ _ _ Ht Hne sh_ready_empty call_ok_serial HL (radial_everywhere g num rs Hg) (factor_everywhere c rs) (factor_everywhere d rs) Hrc') as [y Ey].
  exists y, 0%nat, empty_world, None, IoOk. auto using sh_ready_empty, call_ok_serial.
Qed.

(** ** Parts of a prediction *)

Lemma displacements_nth : forall p ps e a b, nth_error ps e = Some (a, b) -> nth_error (displacements p ps) e = Some (plus (p b) (times (-1) (p a))).
Proof. intros p ps e a b H. unfold displacements. rewrite nth_error_map, H. reflexivity. Qed.

Lemma embed_part : forall M A e x, embed (m_species M) (m_features M) None (m_dtype M) (m_embedding M) true [atoms A] (fun i => number A (nth 0 i 0%nat)) = Ok e -> as_features e x ->
  fB x = [atoms A] /\ fS x = 1%nat /\ fD x = 1%nat /\ fF x = m_features M /\ fdt x = m_dtype M /\
  forall n f, (n < atoms A)%nat -> (0 <= number A n < Z.of_nat (m_species M))%Z -> fv x [n] 0%nat 0%nat f = m_embedding M (Z.to_nat (number A n)) f.
Proof.
  intros M A e x E [X1 [X2 [X3 [X4 [X5 V]]]]]. injection E as <-. cbn [e_batch e_features e_dtype e_value] in *. repeat (split; [assumption|]). intros n f Hn R.
  specialize (V [n] f (conj Hn I)). cbn [nth] in V. rewrite (proj2 (take_row_spec (m_species M) (number A n) (Z.to_nat (number A n)))) in V by (split; [lia|left; lia]). congruence.
Qed.

Lemma pairs_nth : forall (ps : list (nat * nat)) e, (e < length ps)%nat -> nth_error ps e = Some (nth e (map fst ps) 0%nat, nth e (map snd ps) 0%nat).
Proof.
  intros ps e H. destruct (nth_error ps e) as [[a b]|] eqn:E; [|apply nth_error_None in E; lia].
  rewrite (nth_error_nth (map fst ps) e 0%nat (x := a)) by (rewrite nth_error_map, E; reflexivity).
  rewrite (nth_error_nth (map snd ps) e 0%nat (x := b)) by (rewrite nth_error_map, E; reflexivity). reflexivity.
Qed.

Lemma cutoffs_good : forall M A y, proper_model M -> pairs A <> [] -> close_enough M A -> has_attention (m_calls M) ->
  basis_returns (m_tiny M) (displacements (position A) (pairs A)) (m_degree M) (m_num M) (fun x _ => Ok (map (m_radial M) x))
      (option_map everywhere (m_cutoff M)) (m_return_cutoff M) false (option_map everywhere (m_damping M)) (m_cartesian M) y ->
  good_cutoffs (sparse_graph (map fst (pairs A)) (map snd (pairs A))) (edge_cutoffs y) (atoms A) [].
Proof.
  intros M A y [_ [_ [Ht [HL [Hg Hrc]]]]] Hne CE HA HB. assert (Hne' : displacements (position A) (pairs A) <> []) by (destruct (pairs A); [contradiction|discriminate]).
  destruct (basis_values _ _ _ _ _ _ _ _ _ _ _ Ht Hne' HL Hg Hrc HB) as [C _]. unfold edge_cutoffs. rewrite C.
  destruct (m_return_cutoff M) eqn:ER.
  - destruct (m_cutoff M) as [c|] eqn:EC; [|destruct (Hrc eq_refl eq_refl)]. destruct (CE ER HA c EC) as [P Q]. cbn [factor]. split.
    + intros i. cbn [cutoff_at]. destruct i as [|e [|? ?]]; try lra.
      destruct (nth_error (map (fun v => c (size v)) (displacements (position A) (pairs A))) e) as [z|] eqn:Ez.
      * rewrite (nth_error_nth _ _ 0 Ez). rewrite nth_error_map in Ez. destruct (nth_error _ e) as [v|]; [|discriminate]. injection Ez as <-. apply P.
      * apply nth_error_None in Ez. rewrite nth_overflow by exact Ez. lra.
    + intros n Hn NE. destruct (incoming (sparse_graph (map fst (pairs A)) (map snd (pairs A))) (atoms A) [] n) as [|e0 l] eqn:EI; [contradiction|]. rewrite <- EI.
      assert (I0 : In e0 (incoming (sparse_graph (map fst (pairs A)) (map snd (pairs A))) (atoms A) [] n)) by (rewrite EI; now left). apply sparse_in in I0 as [k [Hk [Ek _]]]. rewrite map_length in Hk.
      pose proof (pairs_nth _ _ Hk) as Pk. destruct (Q _ (nth_error_In _ _ Pk)) as [[a b] [I1 [I2 I3]]]. cbn [fst] in I2. apply In_nth_error in I1 as [k' I1].
      assert (Hk' : (k' < length (pairs A))%nat) by (apply nth_error_Some; congruence). pose proof (pairs_nth _ _ Hk') as Pk'. rewrite I1 in Pk'. injection Pk' as Pa Pb.
      apply Exists_exists. exists ([k'], nth k' (map snd (pairs A)) 0%nat). split.
      * apply sparse_in. exists k'. rewrite map_length. rewrite <- Pa, I2, Ek. auto.
      * cbn [fst cutoff_at]. rewrite (nth_error_nth _ _ 0 (x := c (distance A (a, b)))); [exact I3|]. rewrite nth_error_map, (displacements_nth _ _ _ _ _ I1). reflexivity.
  - split; [intros i; cbn; lra|]. intros n Hn NE. destruct (incoming _ _ _ n) as [|e0 l]; [contradiction|]. left. cbn. lra.
Qed.

(** ** The theorem *)

Lemma distance_turned : forall s m t A p e, proper_rotation m -> (s = 1 \/ s = -1) -> (forall n, p n = plus (turned_by s m (position A n)) t) ->
  distance (with_positions A p) e = distance A e.
Proof.
  intros s m t A p [a b] Hm Hs Hp. unfold distance. cbn [fst snd with_positions position]. rewrite !Hp.
  rewrite <- (size_act (plus (position A b) (times (-1) (position A a))) m) by (now apply rotation_orthogonal).
  unfold size. f_equal. unfold turned_by. destruct (position A a) as [[x1 x2] x3], (position A b) as [[y1 y2] y3], t as [[t1 t2] t3], m as [[[[a1 a2] a3] [[b1 b2] b3]] [[c1 c2] c3]].
  destruct Hs as [->| ->]; cbn; ring.
Qed.

(** Features y' of atom n' are those of atom n, y, turned: scalars are the same, vectors turned (and, if of odd
    parity, reflected), and the features of every degree are multiplied with the Wigner-D matrix. *)
Definition turned_features (cartesian : bool) (s : R) (m : mat) (D : nat -> nat -> R) (y : feat) (n : nat) (y' : feat) (n' : nat) : Prop :=
  fS y' = fS y /\ fD y' = fD y /\ fF y' = fF y /\ forall f,
    comp y' [n'] 0 0 0 f = comp y [n] 0 0 0 f
    /\ (cartesian = true -> vector_at y' [n'] 1 f = turned_by s m (vector_at y [n] 1 f) /\ vector_at y' [n'] 0 f = act (vector_at y [n] 0 f) m)
    /\ forall p l k, (p < 2)%nat -> (k < 2 * l + 1)%nat ->
         comp y' [n'] p l k f = parity_sign s p * rsum (2 * l + 1) (fun k' => comp y [n] p l k' f * D (l * l + k')%nat (l * l + k)%nat).

Theorem C72_molecule : forall M A B s m t D h h' r r', proper_model M -> proper_molecule M A -> close_enough M A ->
  proper_rotation m -> wigner_matrix (m_cartesian M) m D -> (s = 1 \/ s = -1) ->
  renumbering (atoms A) h h' -> renumbering (length (pairs A)) r r' -> moved s m t h r A B ->
  ((exists ys, predicts M A ys) -> exists ys', predicts M B ys')
  /\ forall ys ys', predicts M A ys -> predicts M B ys' ->
     Forall2 (fun y y' => forall n, (n < atoms A)%nat -> turned_features (m_cartesian M) s m D y n y' (h n)) ys ys'.
Proof.
  intros M A B s m t D h h' r r' PM PA CE Hm HD Hs Hh Hr [EN [EL [HN HE]]].
  pose proof PM as [HP [Hc [Ht [HL [Hg Hrc]]]]]. pose proof PA as [Hne [Hin Hz]].
  set (pm := fun n => plus (turned_by s m (position A n)) t). set (Am := with_positions A pm).
  assert (NB : forall n, (n < atoms B)%nat -> (0 <= number B n < Z.of_nat (m_species M))%Z).
  { intros n Hn. rewrite EN in Hn. destruct (Hh n Hn) as [_ [_ [H1 H2]]]. destruct (HN _ H1) as [H3 _]. rewrite H2 in H3. rewrite H3. now apply Hz. }
  assert (Hne' : pairs B <> []) by (intros X; rewrite X in EL; destruct (pairs A); [contradiction|discriminate]).
  assert (DB : forall P Q : molecule, pairs Q <> [] -> displacements (position P) (pairs Q) <> []) by (intros P Q X; destruct (pairs Q); [contradiction|discriminate]).
  destruct (basis_exists (m_tiny M) (displacements pm (pairs A)) (m_degree M) (m_num M) (m_radial M) (m_cutoff M) (m_damping M) (m_return_cutoff M) false (m_cartesian M) Ht (DB Am A Hne) HL Hg Hrc) as [ym Hym].
  destruct (basis_exists (m_tiny M) (displacements (position B) (pairs B)) (m_degree M) (m_num M) (m_radial M) (m_cutoff M) (m_damping M) (m_return_cutoff M) false (m_cartesian M) Ht (DB B B Hne') HL Hg Hrc) as [yB HyB].
  destruct (C71_scalars (m_species M) (m_features M) None (m_dtype M) (m_embedding M) [atoms B] (fun i => number B (nth 0 i 0%nat))) as [eB [xB [EeB [AxB _]]]].
  { intros [|n [|? ?]]; cbn [inside]; try tauto. intros [Hn _]. now apply NB. }
  assert (Hrc' : m_return_cutoff M = true -> option_map everywhere (m_cutoff M) <> None) by (intros X; specialize (Hrc X); destruct (m_cutoff M); [discriminate|contradiction]).
  assert (CEm : close_enough M Am).
  { intros X1 X2 c X3. destruct (CE X1 X2 c X3) as [P Q]. split; [exact P|]. intros e Ie. destruct (Q e Ie) as [e' [I1 [I2 I3]]]. exists e'. split; [exact I1|]. split; [exact I2|].
    unfold Am. rewrite (distance_turned s m t A pm e' Hm Hs (fun _ => eq_refl)). exact I3. }
  (* for every prediction for A and all arrays x' and y' for B *)
  assert (KEY : forall ys, predicts M A ys -> forall e' x' y',
    embed (m_species M) (m_features M) None (m_dtype M) (m_embedding M) true [atoms B] (fun i => number B (nth 0 i 0%nat)) = Ok e' -> as_features e' x' ->
    basis_returns (m_tiny M) (displacements (position B) (pairs B)) (m_degree M) (m_num M) (fun x _ => Ok (map (m_radial M) x))
      (option_map everywhere (m_cutoff M)) (m_return_cutoff M) false (option_map everywhere (m_damping M)) (m_cartesian M) y' ->
    exists ys', run (m_cg M) (m_low M) (m_high M) (Some (edge_features (m_dtype M) (length (pairs B)) (m_degree M) (m_num M) y')) (edge_cutoffs y')
      (sparse_graph (map fst (pairs B)) (map snd (pairs B))) [x'] (m_calls M) = Ok ys' /\
      Forall2 (fun y y' => forall n, (n < atoms A)%nat -> turned_features (m_cartesian M) s m D y n y' (h n)) ys ys').
  { intros ys [e [x [y [Ee [Ax [Hy H]]]]]] e' x' y' Ee' Ax' Hy'.
    destruct (embed_part _ _ _ _ Ee Ax) as [X1 [X2 [X3 [X4 [X5 XV]]]]]. destruct (embed_part _ _ _ _ Ee' Ax') as [Y1 [Y2 [Y3 [Y4 [Y5 YV]]]]].
    destruct (C69_molecule (m_cartesian M) (m_cg M) m D s t (m_low M) (m_high M) (m_tiny M) (position A) pm (pairs A) (m_degree M) (m_num M) _ _ _ (m_return_cutoff M) false _ _ _ (m_dtype M) y ym
      (sparse_graph (map fst (pairs A)) (map snd (pairs A))) (m_calls M) [x] ys HP Hm HD Hs (fun _ => eq_refl) Hne Ht HL
      (radial_everywhere (m_radial M) (m_num M) _ Hg) (factor_everywhere (m_cutoff M) _) (factor_everywhere (m_damping M) _) Hrc' Hy Hym Hc (Forall_cons _ (conj X2 X3) (Forall_nil _)) H) as [ysm [Hrun TR]].
    set (sm := mkScene [x] (Some (edge_features (m_dtype M) (length (pairs A)) (m_degree M) (m_num M) ym)) (edge_cutoffs ym) (sparse_graph (map fst (pairs A)) (map snd (pairs A))) (atoms A) []).
    set (sB := mkScene [x'] (Some (edge_features (m_dtype M) (length (pairs B)) (m_degree M) (m_num M) y')) (edge_cutoffs y') (sparse_graph (map fst (pairs B)) (map snd (pairs B))) (atoms B) []).
    assert (DEG : degrees (m_degree M) = S (Z.to_nat (m_degree M))) by (unfold degrees; lia).
    assert (EQ : forall k, (k < length (pairs A))%nat -> nth (r k) (map fst (pairs B)) 0%nat = h (nth k (map fst (pairs A)) 0%nat) /\ nth (r k) (map snd (pairs B)) 0%nat = h (nth k (map snd (pairs A)) 0%nat) /\ edge_alike sm sB [k] [r k]).
    { intros k Hk. pose proof (pairs_nth _ _ Hk) as Pk. pose proof (HE _ _ _ Pk) as PB. destruct (Hr k Hk) as [Hrk _].
      assert (Hrk' : (r k < length (pairs B))%nat) by lia. pose proof (pairs_nth _ _ Hrk') as PB'. rewrite PB in PB'. injection PB' as F1 F2.
      split; [now symmetry|]. split; [now symmetry|].
      assert (IA : (nth k (map fst (pairs A)) 0 < atoms A)%nat /\ (nth k (map snd (pairs A)) 0 < atoms A)%nat) by (rewrite Forall_forall in Hin; exact (Hin _ (nth_error_In _ _ Pk))).
      assert (SV : nth_error (displacements (position B) (pairs B)) (r k) = nth_error (displacements pm (pairs A)) k).
      { rewrite (displacements_nth _ _ _ _ _ Pk), (displacements_nth _ _ _ _ _ PB). rewrite (proj2 (HN _ (proj1 IA))), (proj2 (HN _ (proj2 IA))). reflexivity. }
      pose proof (displacements_nth pm _ _ _ _ Pk) as Vk. rewrite Vk in SV.
      destruct (basis_same (m_tiny M) (displacements pm (pairs A)) (displacements (position B) (pairs B)) (m_degree M) (m_num M) (m_radial M) (m_cutoff M) (m_damping M) (m_return_cutoff M) false (m_cartesian M) ym y' k (r k) _
        Ht (DB Am A Hne) (DB B B Hne') HL Hg Hrc Hym Hy' Vk SV) as [SE SC].
      split; [|exact SC]. cbn [s_basis sm sB]. repeat (split; [reflexivity|]). cbn [fS fD fv edge_features]. intros p d f _ Hd.
      destruct (Nat.ltb_spec k (length (pairs A))); [|lia]. destruct (Nat.ltb_spec (r k) (length (pairs B))); [|lia]. cbn [andb]. destruct (Nat.ltb_spec f (Z.to_nat (m_num M))); [|reflexivity]. now apply SE. }
    destruct (C70_renumber (m_cartesian M) (m_cg M) (m_low M) (m_high M) sm sB (map fst (pairs A)) (map snd (pairs A)) (map fst (pairs B)) (map snd (pairs B)) h h' r r' (m_calls M) ysm) as [ys' [H' AL]]; try reflexivity.
    - exact HP.
    - exact Hc.
    - split.
      + exists []. constructor; [|constructor]. split; [exists 0%nat; split; [now left|exact X3]|exact X1].
      + intros bs E. injection E as <-. exists (Z.to_nat (m_degree M)). split; [now left|]. cbn [fD edge_features]. rewrite DEG. reflexivity.
    - constructor; [|constructor]. repeat split; congruence.
    - cbn [like_opt s_basis sm sB]. repeat split. cbn [fB edge_features]. now rewrite EL.
    - now rewrite !map_length.
    - now rewrite !map_length.
    - now rewrite !map_length.
    - apply Forall_map. eapply Forall_impl; [|exact Hin]. intros [a b] [X _]. exact X.
    - apply Forall_map. eapply Forall_impl; [|exact Hin]. intros [a b] [_ X]. exact X.
    - exact EN.
    - exact Hh.
    - rewrite map_length. exact Hr.
    - intros n Hn. cbn [s_nodes sm] in Hn. split; [exact Hn|]. split; [cbn [s_nodes sB]; rewrite EN; now apply Hh|]. cbn [s_inputs s_at sm sB app]. constructor; [|constructor].
      split; [congruence|]. split; [congruence|]. split; [congruence|]. split; [congruence|]. intros p d f Hp Hd. rewrite X2 in Hp. rewrite X3 in Hd. replace p with 0%nat by lia. replace d with 0%nat by lia.
      assert (Hhn : (h n < atoms B)%nat) by (rewrite EN; now apply Hh). rewrite (XV n f Hn (Hz n Hn)), (YV (h n) f Hhn (NB _ Hhn)), (proj1 (HN n Hn)). reflexivity.
    - intros k Hk. rewrite map_length in Hk. now apply EQ.
    - intros HA. split; [exact (cutoffs_good M Am ym PM Hne CEm HA Hym)|]. intros i. cbn [s_cutoff sB].
      destruct (basis_values _ _ _ _ _ _ _ _ _ _ _ Ht (DB B B Hne') HL Hg Hrc Hy') as [C _]. unfold edge_cutoffs. rewrite C. destruct (m_return_cutoff M) eqn:ER; [|cbn; lra].
      destruct (m_cutoff M) as [c|] eqn:EC; [|destruct (Hrc eq_refl eq_refl)]. destruct (CE ER HA c EC) as [P _]. cbn [cutoff_at factor]. destruct i as [|b [|? ?]]; try lra.
      destruct (nth_error (map (fun v => c (size v)) (displacements (position B) (pairs B))) b) as [z|] eqn:Ez.
      + rewrite (nth_error_nth _ _ 0 Ez). rewrite nth_error_map in Ez. destruct (nth_error _ b) as [v|]; [|discriminate]. injection Ez as <-. apply P.
      + apply nth_error_None in Ez. rewrite nth_overflow by exact Ez. lra.
    - exact Hrun.
    - exists ys'. split; [exact H'|]. cbn [s_nodes sm] in AL.
      assert (SC : Forall has_scalars ysm).
      { refine (run_scalars _ _ _ (C67_checked _ _ HP) _ _ _ _ _ _ Hc _ Hrun). constructor; [|constructor]. exists 0%nat. split; [now left|exact X3]. }
      clear -TR AL SC.
      revert ys' AL SC. induction TR as [|z zm zs zms [T1 T2] _ IH]; intros ys' AL SC; inversion AL as [|? z' ? zs' [Z1 _] ZS]; subst; inversion SC as [|? ? [q [V1 V2]] SC']; subst; constructor; [|now apply IH].
      intros n Hn. destruct (Z1 n Hn) as [S1 [S2 [S3 [S4 SV]]]]. destruct T1 as [_ [T1S [T1D [T1F [_ TC]]]]].
      assert (CO : forall p l k f, (p < 2)%nat -> (k < 2 * l + 1)%nat -> comp z' [h n] p l k f = comp zm [n] p l k f).
      { intros p l k f Hp Hk. unfold comp. rewrite S1, S2. destruct (Nat.leb_spec ((l + 1) * (l + 1)) (fD zm)); [|reflexivity].
        destruct (Nat.eqb_spec (fS zm) 2) as [E1|E1]; [apply SV; nia|]. destruct (p =? l mod 2)%nat; [|reflexivity]. apply SV; nia. }
      split; [congruence|]. split; [congruence|]. split; [congruence|]. intros f. destruct (T2 [n] f) as [T3 T4]. rewrite CO by lia. split; [exact T3|]. split.
      + unfold vector_at in *. rewrite !CO by lia. exact T4.
      + intros p l k Hp Hk. rewrite CO by assumption. now apply TC. }
  split.
  - intros [ys Hys]. destruct (KEY ys Hys eB xB yB EeB AxB HyB) as [ys' [H' _]]. exists ys', eB, xB, yB. auto.
  - intros ys ys' Hys [e' [x' [y' [Ee' [Ax' [Hy' H']]]]]]. destruct (KEY ys Hys e' x' y' Ee' Ax' Hy') as [ys'' [H'' F]]. replace ys' with ys'' by congruence. exact F.
Qed.
Print Assumptions C72_molecule.

Definition same_numbers (n : nat) : nat := n.
Lemma renumbering_same : forall N, renumbering N same_numbers same_numbers.
Proof. intros N n Hn. unfold same_numbers. auto. Qed.
Lemma unit_rotation : proper_rotation unit_matrix.
Proof. split; [|cbn; ring]. intros i j Hi Hj. do 3 (destruct i as [|i]; [do 3 (destruct j as [|j]; [cbn; ring|]); lia|]). lia. Qed.
Lemma act_unit : forall v, act v unit_matrix = v.
Proof. intros [[x y] z]. cbn. repeat apply f_equal2; ring. Qed.

(** A sum of scalars over all atoms, like an energy, is the same for the moved molecule. *)
Theorem C72_total : forall M A B s m t h h' r r' k f v, proper_model M -> proper_molecule M A -> close_enough M A ->
  proper_rotation m -> (s = 1 \/ s = -1) -> renumbering (atoms A) h h' -> renumbering (length (pairs A)) r r' -> moved s m t h r A B ->
  total M A k f v -> total M B k f v /\ forall v', total M B k f v' -> v' = v.
Proof.
  intros M A B s m t h h' r r' k f v PM PA CE Hm Hs Hh Hr MV [ys [y [HA [Ey Ev]]]].
  destruct (C72_molecule M A B s m t _ h h' r r' PM PA CE Hm (wigner_entries_matrix (m_cartesian M) m) Hs Hh Hr MV) as [EX ALL].
  assert (KEY : forall ys', predicts M B ys' -> exists y', nth_error ys' k = Some y' /\ v = rsum (atoms B) (fun n => comp y' [n] 0 0 0 f)).
  { intros ys' HB. specialize (ALL ys ys' HA HB). destruct MV as [EN _]. clear -ALL Ey Ev EN Hh. revert k Ey. induction ALL as [|z z' zs zs' Z _ IH]; intros k Ey; [destruct k; discriminate|].
    destruct k as [|k]; [|apply IH; exact Ey]. injection Ey as ->. exists z'. split; [reflexivity|]. rewrite Ev, EN.
    rewrite <- (rsum_renumber _ h h' (fun n => comp z' [n] 0 0 0 f) Hh). apply rsum_ext. intros n Hn. destruct (Z n Hn) as [_ [_ [_ C]]]. symmetry. apply C. }
  split.
  - destruct (EX (ex_intro _ ys HA)) as [ys' HB]. destruct (KEY ys' HB) as [y' [E1 E2]]. exists ys', y'. auto.
  - intros v' [ys' [y' [HB [E1 E2]]]]. destruct (KEY ys' HB) as [y'' [E3 E4]]. assert (y'' = y') by congruence. subst y''. now rewrite E2, E4.
Qed.
Print Assumptions C72_total.

(** What is predicted is determined by the atomic numbers, positions and pairs of the atoms. *)
Theorem C72_determined : forall M A B k f v v', proper_model M -> proper_molecule M A -> close_enough M A ->
  atoms B = atoms A -> pairs B = pairs A -> (forall n, (n < atoms A)%nat -> number B n = number A n /\ position B n = position A n) ->
  total M A k f v -> total M B k f v' -> v' = v.
Proof.
  intros M A B k f v v' PM PA CE EN EP EV HA HB.
  destruct (C72_total M A B 1 unit_matrix (0, 0, 0) same_numbers same_numbers same_numbers same_numbers k f v PM PA CE unit_rotation (or_introl eq_refl) (renumbering_same _) (renumbering_same _)) as [_ U]; [|exact HA|exact (U v' HB)].
  split; [exact EN|]. split; [now rewrite EP|]. split.
  - intros n Hn. unfold same_numbers. destruct (EV n Hn) as [E1 E2]. split; [exact E1|]. rewrite E2. unfold turned_by. rewrite act_unit. destruct (position A n) as [[x y] z]. cbn. repeat apply f_equal2; ring.
  - intros e a b H. rewrite EP. exact H.
Qed.
Print Assumptions C72_determined.

(** Whether a model accepts a molecule does not depend on the positions and the numbers of the atoms. *)
Theorem C72_accepted : forall M A p z, proper_model M -> proper_molecule M A -> (forall n, (n < atoms A)%nat -> (0 <= z n < Z.of_nat (m_species M))%Z) ->
  (exists ys, predicts M A ys) -> exists ys, predicts M (mkMolecule (atoms A) z p (pairs A)) ys.
Proof.
  intros M A p z [HP [Hc [Ht [HL [Hg Hrc]]]]] [Hne _] Hz [ys [e [x [y [Ee [Ax [Hy H]]]]]]].
  assert (Hne' : displacements p (pairs A) <> []) by (destruct (pairs A); [contradiction|discriminate]).
  destruct (basis_exists (m_tiny M) (displacements p (pairs A)) (m_degree M) (m_num M) (m_radial M) (m_cutoff M) (m_damping M) (m_return_cutoff M) false (m_cartesian M) Ht Hne' HL Hg Hrc) as [y' Hy'].
  destruct (C71_scalars (m_species M) (m_features M) None (m_dtype M) (m_embedding M) [atoms A] (fun i => z (nth 0 i 0%nat))) as [e' [x' [Ee' [Ax' _]]]].
  { intros [|n [|? ?]]; cbn [inside]; try tauto. intros [Hn _]. now apply Hz. }
  destruct (embed_part _ _ _ _ Ee Ax) as [X1 [X2 [X3 [X4 [X5 _]]]]]. destruct (embed_part M (mkMolecule (atoms A) z p (pairs A)) _ _ Ee' Ax') as [Y1 [Y2 [Y3 [Y4 [Y5 _]]]]]. cbn [atoms] in Y1.
  destruct (run_like (m_cg M) (m_low M) (m_high M) (C67_checked _ _ HP) (Some (edge_features (m_dtype M) (length (pairs A)) (m_degree M) (m_num M) y)) (Some (edge_features (m_dtype M) (length (pairs A)) (m_degree M) (m_num M) y'))
    (edge_cutoffs y) (edge_cutoffs y') (sparse_graph (map fst (pairs A)) (map snd (pairs A))) (sparse_graph (map fst (pairs A)) (map snd (pairs A))) (m_calls M) [x] [x'] ys Hc) as [ys' [H' _]].
  - constructor; [|constructor]. exists 0%nat. split; [now left|exact X3].
  - constructor; [|constructor]. repeat split; congruence.
  - repeat split.
  - repeat split; auto.
  - exact H.
  - exists ys', e', x', y'. auto.
Qed.
Print Assumptions C72_accepted.

(** * C73 *)

Lemma close_ext : forall M A p p', (forall n, p' n = p n) -> close_enough M (with_positions A p) -> close_enough M (with_positions A p').
Proof.
  intros M A p p' E H X1 X2 c X3. destruct (H X1 X2 c X3) as [P Q]. split; [exact P|]. intros e Ie. destruct (Q e Ie) as [e' [I1 [I2 I3]]]. exists e'. split; [exact I1|]. split; [exact I2|].
  unfold distance in *. cbn [with_positions position] in *. rewrite !E. exact I3.
Qed.

Lemma energy_moved : forall M A B s m t h h' r r' k f E E' p p', proper_model M -> proper_molecule M A -> close_enough M (with_positions A p) ->
  proper_rotation m -> (s = 1 \/ s = -1) -> renumbering (atoms A) h h' -> renumbering (length (pairs A)) r r' -> moved s m t h r A B ->
  energy_function M A k f E -> energy_function M B k f E' -> (forall n, (n < atoms A)%nat -> p' (h n) = plus (turned_by s m (p n)) t) -> E' p' = E p.
Proof.
  intros M A B s m t h h' r r' k f E E' p p' PM PA CE Hm Hs Hh Hr [M1 [M2 [M3 M4]]] HE HE' Hp.
  destruct (C72_total M (with_positions A p) (with_positions B p') s m t h h' r r' k f (E p) PM PA CE Hm Hs Hh Hr) as [_ U]; [|apply HE|apply U, HE'].
  split; [exact M1|]. split; [exact M2|]. split; [|exact M4]. intros n Hn. split; [apply (M3 n Hn)|now apply Hp].
Qed.

(** The inverse motion of a displacement. *)
Definition turned_back (s : R) (m : mat) (v : vec) : vec := (s * dot (row m 0) v, s * dot (row m 1) v, s * dot (row m 2) v).
Lemma turned_turned_back : forall s m v, proper_rotation m -> (s = 1 \/ s = -1) -> turned_by s m (turned_back s m v) = v.
Proof.
  intros s m v Hm Hs. pose proof (rotation_orthogonal m Hm) as O.
  assert (C : forall i j, (i < 3)%nat -> (j < 3)%nat -> Rotations_Spec.entry m 0 i * Rotations_Spec.entry m 0 j + Rotations_Spec.entry m 1 i * Rotations_Spec.entry m 1 j + Rotations_Spec.entry m 2 i * Rotations_Spec.entry m 2 j = (if Nat.eqb i j then 1 else 0)) by (intros i j Hi Hj; apply (O i j Hi Hj)).
  assert (SS : s * s = 1) by (destruct Hs as [->| ->]; ring).
  pose proof (C 0%nat 0%nat ltac:(lia) ltac:(lia)) as C00. pose proof (C 0%nat 1%nat ltac:(lia) ltac:(lia)) as C01. pose proof (C 0%nat 2%nat ltac:(lia) ltac:(lia)) as C02.
  pose proof (C 1%nat 1%nat ltac:(lia) ltac:(lia)) as C11. pose proof (C 1%nat 2%nat ltac:(lia) ltac:(lia)) as C12. pose proof (C 2%nat 2%nat ltac:(lia) ltac:(lia)) as C22. clear C O Hm.
  destruct m as [[[[a1 a2] a3] [[b1 b2] b3]] [[c1 c2] c3]], v as [[x y] z]. cbn in C00, C01, C02, C11, C12, C22. unfold turned_by, turned_back. cbn.
  repeat apply f_equal2.
  - replace x with (s * s * (x * (a1 * a1 + b1 * b1 + c1 * c1) + y * (a1 * a2 + b1 * b2 + c1 * c2) + z * (a1 * a3 + b1 * b3 + c1 * c3))) at 4; [ring|rewrite SS, C00, C01, C02; ring].
  - replace y with (s * s * (x * (a1 * a2 + b1 * b2 + c1 * c2) + y * (a2 * a2 + b2 * b2 + c2 * c2) + z * (a2 * a3 + b2 * b3 + c2 * c3))) at 4; [ring|rewrite SS, C01, C11, C12; ring].
  - replace z with (s * s * (x * (a1 * a3 + b1 * b3 + c1 * c3) + y * (a2 * a3 + b2 * b3 + c2 * c3) + z * (a3 * a3 + b3 * b3 + c3 * c3))) at 4; [ring|rewrite SS, C02, C12, C22; ring].
Qed.
Lemma dot_turned : forall s m u v, dot (turned_by s m u) v = dot u (turned_back s m v).
Proof. intros s [[[[a1 a2] a3] [[b1 b2] b3]] [[c1 c2] c3]] [[x y] z] [[p q] w]. unfold turned_by, turned_back. cbn. ring. Qed.
Lemma size_turned : forall s m v, proper_rotation m -> (s = 1 \/ s = -1) -> size (turned_by s m v) = size v.
Proof.
  intros s m v Hm Hs. rewrite <- (size_act v m) by (now apply rotation_orthogonal). unfold size, turned_by. f_equal. destruct (act v m) as [[x y] z]. destruct Hs as [->| ->]; cbn; ring.
Qed.
Lemma size_turned_back : forall s m v, proper_rotation m -> (s = 1 \/ s = -1) -> size (turned_back s m v) = size v.
Proof. intros s m v Hm Hs. rewrite <- (size_turned s m (turned_back s m v) Hm Hs). now rewrite turned_turned_back. Qed.

Lemma stays_close_here : forall M A, stays_close M A -> close_enough M (with_positions A (position A)).
Proof.
  intros M A [delta [Hd H]]. apply (close_ext M A (displaced (position A) (fun _ => (0, 0, 0)))).
  - intros n. unfold displaced. destruct (position A n) as [[x y] z]. cbn. repeat apply f_equal2; ring.
  - apply H. unfold extent. rewrite rsum_zero; [exact Hd|]. intros n _. unfold size. cbn. replace (0 * 0 + 0 * 0 + 0 * 0) with 0 by ring. apply sqrt_0.
Qed.

(** Forces turn with the molecule. *)
Theorem C73_forces : forall M A B s m t h h' r r' k f energy energy' F F', proper_model M -> proper_molecule M A -> stays_close M A ->
  proper_rotation m -> (s = 1 \/ s = -1) -> renumbering (atoms A) h h' -> renumbering (length (pairs A)) r r' -> moved s m t h r A B ->
  energy_function M A k f energy -> energy_function M B k f energy' ->
  forces (atoms A) energy (position A) F -> (forall n, (n < atoms A)%nat -> F' (h n) = turned_by s m (F n)) ->
  forces (atoms B) energy' (position B) F'.
Proof.
  intros M A B s m t h h' r r' k f E E' F F' PM PA SC Hm Hs Hh Hr MV HE HE' HF EF eps Heps. pose proof MV as [EN [_ [HN _]]]. rewrite EN.
  destruct (HF eps Heps) as [d1 [Hd1 B1]]. pose proof (stays_close_here M A SC) as C0. destruct SC as [d2 [Hd2 B2]].
  exists (Rmin d1 d2). split; [now apply Rmin_glb_lt|]. intros d Hd. pose proof (Rmin_l d1 d2) as L1. pose proof (Rmin_r d1 d2) as L2.
  set (db := fun n => turned_back s m (d (h n))).
  assert (EX : extent (atoms A) db = extent (atoms A) d).
  { unfold extent. rewrite <- (rsum_renumber _ h h' (fun n => size (d n)) Hh). apply rsum_ext. intros n _. now apply size_turned_back. }
  assert (P1 : E' (displaced (position B) d) = E (displaced (position A) db)).
  { apply (energy_moved M A B s m t h h' r r' k f E E'); auto; [apply B2; lra|]. intros n Hn. unfold displaced. rewrite (proj2 (HN n Hn)).
    assert (Q : d (h n) = turned_by s m (db n)) by (symmetry; now apply turned_turned_back). rewrite Q. clear Q. generalize (db n). intros u. clear. unfold turned_by. destruct (position A n) as [[x y] z], u as [[p q] w], t as [[t1 t2] t3], m as [[[[a1 a2] a3] [[b1 b2] b3]] [[c1 c2] c3]]. cbn. apply triple_eq; ring. }
  assert (P2 : E' (position B) = E (position A)) by (apply (energy_moved M A B s m t h h' r r' k f E E'); auto; intros n Hn; apply HN; exact Hn).
  rewrite P1, P2, <- EX.
  replace (rsum (atoms A) (fun n => dot (F' n) (d n))) with (rsum (atoms A) (fun n => dot (F n) (db n))); [apply B1; lra|].
  rewrite <- (rsum_renumber _ h h' (fun n => dot (F' n) (d n)) Hh). apply rsum_ext. intros n Hn. rewrite (EF n Hn), dot_turned. reflexivity.
Qed.
Print Assumptions C73_forces.

(** Energies that do not change along a family of displacements: the forces do no work. *)
Lemma no_work : forall N E p F a b (d : R -> nat -> vec) C, forces N E p F ->
  (forall x, 0 < x < 1 -> extent N (d x) <= C * x) -> 0 <= C ->
  (exists c, 0 < c /\ forall x, 0 < x < c -> E (displaced p (d x)) = E p) ->
  (forall x, rsum N (fun n => dot (F n) (d x n)) = a * (cos x - 1) + b * sin x) -> b = 0.
Proof.
  intros N E p F a b d C HF HC HC0 [c [Hc HE]] HW. destruct (Req_dec b 0) as [|NB]; [assumption|exfalso].
  assert (PB : 0 < Rabs b) by (now apply Rabs_pos_lt). pose proof (Rabs_pos a) as PA.
  set (eps := Rabs b / (4 * (C + 1))). assert (Heps : 0 < eps) by (unfold eps; apply Rdiv_lt_0_compat; lra).
  set (eta := Rabs b / (4 * (Rabs a + 1))). assert (Heta : 0 < eta) by (unfold eta; apply Rdiv_lt_0_compat; lra).
  destruct (HF eps Heps) as [delta [Hd B]].
  destruct (derivable_pt_lim_sin 0 (1 / 2) ltac:(lra)) as [[d1 P1] S1]. destruct (derivable_pt_lim_cos 0 eta Heta) as [[d2 P2] S2]. cbn [RIneq.pos] in S1, S2.
  set (x := Rmin (Rmin (Rmin (1 / 2) (c / 2)) (delta / (2 * (C + 1)))) (Rmin (d1 / 2) (d2 / 2))).
  assert (X0 : 0 < x). { unfold x. repeat apply Rmin_glb_lt; try lra; apply Rdiv_lt_0_compat; lra. }
  assert (X1 : x <= 1 / 2) by (unfold x; do 3 (eapply Rle_trans; [apply Rmin_l|]); lra). assert (X2 : x <= c / 2) by (unfold x; do 2 (eapply Rle_trans; [apply Rmin_l|]); apply Rmin_r).
  assert (X3 : x <= delta / (2 * (C + 1))) by (unfold x; eapply Rle_trans; [apply Rmin_l|]; apply Rmin_r).
  assert (X5 : x <= d1 / 2) by (unfold x; eapply Rle_trans; [apply Rmin_r|]; apply Rmin_l). assert (X6 : x <= d2 / 2) by (unfold x; eapply Rle_trans; [apply Rmin_r|]; apply Rmin_r).
  clearbody x. specialize (HC x ltac:(lra)).
  assert (X3' : x * (2 * (C + 1)) <= delta). { apply (Rmult_le_compat_r (2 * (C + 1))) in X3; [|lra]. replace (delta / (2 * (C + 1)) * (2 * (C + 1))) with delta in X3 by (field; lra). exact X3. }
  assert (E1 : eps * (C + 1) = Rabs b / 4) by (unfold eps; field; lra). assert (E2 : eta * (Rabs a + 1) = Rabs b / 4) by (unfold eta; field; lra).
  specialize (B (d x) ltac:(nra)). rewrite HE in B by lra. rewrite HW in B. replace (E p - E p + (a * (cos x - 1) + b * sin x)) with (b * sin x + a * (cos x - 1)) in B by ring.
  specialize (S1 x ltac:(lra) ltac:(rewrite Rabs_pos_eq; lra)). specialize (S2 x ltac:(lra) ltac:(rewrite Rabs_pos_eq; lra)).
  rewrite Rplus_0_l, sin_0, cos_0 in S1. rewrite Rplus_0_l, sin_0, cos_0 in S2. rewrite Rminus_0_r in S1. replace ((cos x - 1) / x - - 0) with ((cos x - 1) / x) in S2 by ring.
  assert (SX : x / 2 < sin x). { apply Rabs_def2 in S1 as [_ S1]. assert (1 / 2 < sin x / x) by lra. apply (Rmult_lt_compat_r x) in H; [|lra]. replace (sin x / x * x) with (sin x) in H by (field; lra). lra. }
  assert (CX : Rabs (cos x - 1) <= eta * x). { unfold Rdiv in S2. rewrite Rabs_mult, (Rabs_pos_eq (/ x)) in S2 by (left; now apply Rinv_0_lt_compat). apply (Rmult_lt_compat_r x) in S2; [|lra]. rewrite Rmult_assoc, Rinv_l, Rmult_1_r in S2 by lra. lra. }
  pose proof (Rabs_triang (b * sin x + a * (cos x - 1)) (- (a * (cos x - 1)))) as T. replace (b * sin x + a * (cos x - 1) + - (a * (cos x - 1))) with (b * sin x) in T by ring.
  rewrite Rabs_Ropp, !Rabs_mult, (Rabs_pos_eq (sin x)) in T by lra.
  assert (Y1 : Rabs b * (x / 2) < Rabs b * sin x) by (apply Rmult_lt_compat_l; lra).
  assert (Y2 : Rabs a * Rabs (cos x - 1) <= Rabs a * (eta * x)) by (apply Rmult_le_compat_l; lra).
  assert (Y3 : eps * extent N (d x) <= eps * (C * x)) by (apply Rmult_le_compat_l; lra). nra.
Qed.

Lemma rsum_coord : forall N (v : nat -> vec) u, rsum N (fun n => dot (v n) u) = dot (vsum N v) u.
Proof.
  intros N v [[x y] z]. unfold vsum. cbn [dot]. rewrite <- !rsum_scal_r, <- !rsum_plus. apply rsum_ext. intros n _. destruct (v n) as [[a b] c]. reflexivity.
Qed.
Lemma dot_axes : forall v, dot v e1 = 0 -> dot v e2 = 0 -> dot v e3 = 0 -> v = (0, 0, 0).
Proof. intros [[x y] z]. cbn. intros. apply triple_eq; lra. Qed.
Lemma size_times : forall a v, size (times a v) = Rabs a * size v.
Proof.
  intros a [[x y] z]. unfold size. cbn [times dot]. replace (a * x * (a * x) + a * y * (a * y) + a * z * (a * z)) with (a * a * (x * x + y * y + z * z)) by ring.
  rewrite sqrt_mult by nra. f_equal. apply sqrt_Rsqr_abs.
Qed.

Lemma size_l1 : forall v, size v <= Rabs (coord v 0) + Rabs (coord v 1) + Rabs (coord v 2).
Proof.
  intros [[x y] z]. unfold size. cbn [dot coord]. pose proof (Rabs_pos x). pose proof (Rabs_pos y). pose proof (Rabs_pos z).
  rewrite <- (sqrt_square (Rabs x + Rabs y + Rabs z)) by lra. apply sqrt_le_1_alt.
  assert (SQ : forall a, a * a = Rabs a * Rabs a) by (intros a; rewrite <- Rabs_mult, Rabs_pos_eq; [reflexivity|nra]). rewrite (SQ x), (SQ y), (SQ z). nra.
Qed.
Lemma small_turn : forall u r x, 0 < x < 1 -> let w := plus r (times (- dot u r) u) in let v := outer u r in
  size (plus (turned u x r) (times (-1) r)) <= (Rabs (coord w 0) + Rabs (coord w 1) + Rabs (coord w 2) + (Rabs (coord v 0) + Rabs (coord v 1) + Rabs (coord v 2))) * x.
Proof.
  intros u r x Hx w v.
  assert (S1 : 0 <= sin x) by (apply sin_ge_0; pose proof PI2_3_2; lra). assert (S2 : sin x <= x) by (left; apply sin_lt_x; lra).
  assert (C1 : 0 <= 1 - cos x) by (pose proof (COS_bound x); lra).
  assert (C2 : 1 - cos x <= x).
  { replace x with (2 * (x / 2)) at 1 by field. rewrite cos_2a_sin. assert (0 <= sin (x / 2)) by (apply sin_ge_0; pose proof PI2_3_2; lra). assert (sin (x / 2) <= x / 2) by (left; apply sin_lt_x; lra). nra. }
  assert (E : plus (turned u x r) (times (-1) r) = plus (times (cos x - 1) w) (times (sin x) v)).
  { unfold turned, w, v. destruct u as [[a b] c], r as [[p q] t]. cbn. apply triple_eq; ring. }
  rewrite E. clearbody w v. eapply Rle_trans; [apply size_l1|].
  assert (B : forall a b, Rabs ((cos x - 1) * a + sin x * b) <= (Rabs a + Rabs b) * x).
  { intros a b. eapply Rle_trans; [apply Rabs_triang|]. rewrite !Rabs_mult, (Rabs_pos_eq (sin x)) by lra. rewrite (Rabs_minus_sym (cos x) 1), (Rabs_pos_eq (1 - cos x)) by lra. pose proof (Rabs_pos a). pose proof (Rabs_pos b). nra. }
  destruct w as [[w1 w2] w3], v as [[v1 v2] v3]. cbn [plus times coord]. pose proof (B w1 v1). pose proof (B w2 v2). pose proof (B w3 v3). lra.
Qed.

(** Without external fields, the forces on all atoms add up to zero, and so do the torques. *)
Theorem C73_conservation : forall M A k f energy F, proper_model M -> proper_molecule M A -> stays_close M A ->
  energy_function M A k f energy -> forces (atoms A) energy (position A) F ->
  vsum (atoms A) F = (0, 0, 0) /\ vsum (atoms A) (fun n => outer (position A n) (F n)) = (0, 0, 0).
Proof.
  intros M A k f E F PM PA SC HE HF. pose proof (stays_close_here M A SC) as C0.
  assert (INV : forall m t p, proper_rotation m -> (forall n, p n = plus (act (position A n) m) t) -> E p = E (position A)).
  { intros m t p Hm Hp. apply (energy_moved M A (with_positions A (fun n => plus (turned_by 1 m (position A n)) t)) 1 m t same_numbers same_numbers same_numbers same_numbers k f E E); auto.
    - apply renumbering_same. - apply renumbering_same.
    - split; [reflexivity|]. split; [reflexivity|]. split; [|auto]. intros n Hn. split; reflexivity.
    - intros n Hn. unfold same_numbers. rewrite Hp. f_equal. unfold turned_by. destruct (act (position A n) m) as [[x y] z]. cbn. apply triple_eq; ring. }
  split.
  - assert (Z : forall u, dot (vsum (atoms A) F) u = 0).
    { intros u. apply (no_work (atoms A) E (position A) F 0 _ (fun x _ => times (sin x) u) (INR (atoms A) * size u) HF).
      - intros x Hx. unfold extent. rewrite rsum_const, size_times, (Rabs_pos_eq (sin x)) by (apply sin_ge_0; pose proof PI2_3_2; lra).
        assert (sin x <= x) by (left; apply sin_lt_x; lra). rewrite (Rmult_comm (sin x)), <- Rmult_assoc. apply Rmult_le_compat_l; [|assumption]. apply Rmult_le_pos; [apply pos_INR|apply sqrt_pos].
      - apply Rmult_le_pos; [apply pos_INR|apply sqrt_pos].
      - exists 1. split; [lra|]. intros x _. apply (INV unit_matrix (times (sin x) u)); [exact unit_rotation|]. intros n. unfold displaced. now rewrite act_unit.
      - intros x. rewrite (rsum_coord _ F). destruct u as [[a b] c], (vsum (atoms A) F) as [[p q] w]. cbn. ring. }
    apply dot_axes; apply Z.
  - assert (Z : forall u, dot u u = 1 -> dot (vsum (atoms A) (fun n => outer (position A n) (F n))) u = 0).
    { intros u Hu.
      set (w := fun n => plus (position A n) (times (- dot u (position A n)) u)). set (v := fun n => outer u (position A n)).
      set (K := fun n => Rabs (coord (w n) 0) + Rabs (coord (w n) 1) + Rabs (coord (w n) 2) + (Rabs (coord (v n) 0) + Rabs (coord (v n) 1) + Rabs (coord (v n) 2))).
      apply (no_work (atoms A) E (position A) F (rsum (atoms A) (fun n => dot (F n) (w n))) _ (fun x n => plus (turned u x (position A n)) (times (-1) (position A n))) (rsum (atoms A) K) HF).
      - intros x Hx. unfold extent. rewrite <- rsum_scal_r. apply rsum_le. intros n _. now apply small_turn.
      - apply rsum_nonneg. intros n _. unfold K. pose proof (Rabs_pos (coord (w n) 0)). pose proof (Rabs_pos (coord (w n) 1)). pose proof (Rabs_pos (coord (w n) 2)). pose proof (Rabs_pos (coord (v n) 0)). pose proof (Rabs_pos (coord (v n) 1)). pose proof (Rabs_pos (coord (v n) 2)). lra.
      - exists 1. split; [lra|]. intros x _. apply (INV (rotation_of_normalized u x) (0, 0, 0)); [now apply rotation_proper|]. intros n. unfold displaced. rewrite rotation_turned by exact Hu.
        destruct (turned u x (position A n)) as [[a b] c], (position A n) as [[p q] t]. cbn. apply triple_eq; ring.
      - intros x. rewrite <- (rsum_coord (atoms A) (fun n => outer (position A n) (F n)) u), <- !rsum_scal_r, <- rsum_plus. apply rsum_ext. intros n _. unfold w, turned. destruct (F n) as [[f1 f2] f3], (position A n) as [[p q] t], u as [[a b] c]. cbn. ring. }
    apply dot_axes; apply Z; cbn; ring.
Qed.
Print Assumptions C73_conservation.

(** ** A case: two atoms and an energy that is twice the square of their distance *)

Definition spring_network : list call :=
  [UseMessagePass 0 (Some 0%Z) false false (mkConv (mkDense (fun _ _ _ _ => 1) (fun _ => 0)) (PTensor (fun _ _ _ _ _ _ _ => 1)))].
Definition spring : model := mkModel true (package_cg true) 0 0 2 1 0 (fun _ _ => 1) 1 0 1 (fun x => [x * x]) None None false spring_network.
Definition dumbbell (p : nat -> vec) : molecule := mkMolecule 2 (fun n => Z.of_nat n) p [(0, 1); (1, 0)]%nat.
Definition spring_energy (p : nat -> vec) : R := 2 * (size (plus (p 1%nat) (times (-1) (p 0%nat))) * size (plus (p 1%nat) (times (-1) (p 0%nat)))).
Definition spring_force (p : nat -> vec) (n : nat) : vec := match n with O => times 4 (plus (p 1%nat) (times (-1) (p 0%nat))) | _ => times (-4) (plus (p 1%nat) (times (-1) (p 0%nat))) end.

Lemma spring_step : forall cgf C x b, cgf 0%Z 0%Z 0%Z = Ok C -> fB x = [2%nat] -> fS x = 1%nat -> fD x = 1%nat -> fF x = 1%nat -> fdt x = 0%nat -> exists z,
  run cgf 0 0 (Some (mkFeat [2%nat] 1 1 1 0 b)) None (sparse_graph [0; 1]%nat [1; 0]%nat) [x] spring_network = Ok [x; z] /\ fS z = 1%nat /\ fD z = 1%nat
  /\ fv z [0%nat] 0%nat 0%nat 0%nat = b [0%nat] 0%nat 0%nat 0%nat * fv x [1%nat] 0%nat 0%nat 0%nat * C 0%nat 0%nat 0%nat
  /\ fv z [1%nat] 0%nat 0%nat 0%nat = b [1%nat] 0%nat 0%nat 0%nat * fv x [0%nat] 0%nat 0%nat 0%nat * C 0%nat 0%nat 0%nat.
Proof.
  intros cgf C [xB xS xD xF xd xv] b H. cbn [fB fS fD fF fdt fv]. intros -> -> -> -> ->. eexists. split.
  - unfold spring_network. cbv -[Rplus Rmult IZR Rminus]. rewrite H. cbv -[Rplus Rmult IZR Rminus]. reflexivity.
  - cbn [fS fD fv]. split; [reflexivity|]. split; [reflexivity|]. cbv -[Rplus Rmult IZR Rminus]. split; ring.
Qed.
Lemma spring_total : forall p, total spring (dumbbell p) 1 0 (spring_energy p).
Proof.
  intros p. set (rs := displacements p [(0, 1); (1, 0)]%nat).
  destruct (C71_scalars 2 1 None 0%nat (fun _ _ => 1) [2%nat] (fun i => Z.of_nat (nth 0 i 0%nat))) as [e [x [Ee [Ax _]]]].
  { intros [|n [|? ?]]; cbn [inside]; try tauto. intros [Hn _]. cbn [nth]. lia. }
  destruct (embed_part spring (dumbbell p) e x Ee Ax) as [X1 [X2 [X3 [X4 [X5 XV]]]]]. cbn [spring dumbbell m_features m_dtype m_species m_embedding atoms number] in X1, X2, X3, X4, X5, XV.
  destruct (basis_exists 1 rs 0 1 (fun x => [x * x]) None None false false true ltac:(lra) ltac:(discriminate) ltac:(lia) ltac:(reflexivity) ltac:(discriminate)) as [y Hy].
  destruct (basis_values 1 rs 0 1 (fun x => [x * x]) None None false false true y ltac:(lra) ltac:(discriminate) ltac:(lia) ltac:(reflexivity) ltac:(discriminate) Hy) as [CY [ys [SY VY]]].
  assert (V : forall b v, nth_error rs b = Some v -> entry_of y b 0 0 = size v * size v).
  { intros b v Eb. rewrite (VY b v 0%nat 0%nat Eb ltac:(cbn; lia) ltac:(cbn; lia)). cbn [nth factor Nat.eqb].
    destruct (heading v) as [[h1 h2] h3] eqn:Eh. rewrite (proj1 (C21_low_degrees _ _ _ b h1 h2 h3 _ SY ltac:(rewrite nth_error_map, Eb; cbn [option_map]; now rewrite Eh))). ring. }
  destruct (C59_entries R 0 rzero real_clebsch_gordan 0 empty_world None IoOk 0 0 0 true rzero_test (cg_ready_empty _ _ _ _) call_ok_serial ltac:(lia) ltac:(lia) ltac:(lia)) as [c [Ec _]].
  assert (C1 : at3 0 c 0 0 0 = 1).
  { assert (Hc : cg_array 0 0 0 true c) by (exists 0%nat, empty_world, None, IoOk; auto using cg_ready_empty, call_ok_serial).
    destruct (C66_scalar_factor 0 0 0 true c 0 0 0 Hc ltac:(cbn; lia) ltac:(lia) ltac:(lia)) as [Q _]. exact (Q ltac:(cbn; lia)). }
  assert (EC : package_cg true 0 0 0 = Ok (at3 0 c)) by (unfold package_cg; now rewrite Ec).
  destruct (spring_step (package_cg true) (at3 0 c) x (fv (edge_features 0 2 0 1 y)) EC X1 X2 X3 X4 X5) as [z [RZ [Z1 [Z2 [Z3 Z4]]]]].
  exists [x; z], z. split.
  - exists e, x, y. split; [exact Ee|]. split; [exact Ax|]. split; [exact Hy|].
    cbn [spring dumbbell m_cg m_low m_high m_dtype m_degree m_num m_calls pairs length map fst snd]. unfold edge_cutoffs. rewrite CY. exact RZ.
  - split; [reflexivity|]. assert (CZ : forall n, comp z [n] 0 0 0 0 = fv z [n] 0%nat 0%nat 0%nat) by (intros n; unfold comp; rewrite Z1, Z2; reflexivity).
    cbn [dumbbell atoms rsum]. rewrite !CZ, Z3, Z4, !XV, C1 by lia. cbn [edge_features fv]. cbn [Nat.ltb Nat.leb andb Z.to_nat Pos.to_nat Pos.iter_op]. 
    rewrite (V 0%nat _ eq_refl), (V 1%nat _ eq_refl). unfold spring_energy.
    assert (S : forall u v, size (plus u (times (-1) v)) = size (plus v (times (-1) u))).
    { intros [[u1 u2] u3] [[v1 v2] v3]. unfold size. f_equal. cbn. ring. }
    cbn [snd fst]. rewrite (S (p 0%nat)). change (Pos.to_nat 1) with 1%nat. cbn [Nat.leb]. ring.
Qed.

Lemma spring_proper : proper_model spring.
Proof.
  split; [apply package_cg_uses|]. split; [repeat constructor; intros d E; injection E as <-; lia|]. split; [cbn; lra|]. split; [cbn; lia|]. split; [reflexivity|discriminate].
Qed.
Lemma dumbbell_proper : forall p, proper_molecule spring (dumbbell p).
Proof. intros p. split; [discriminate|]. split; [repeat constructor|]. cbn [dumbbell atoms number spring m_species]. intros n Hn. lia. Qed.
Lemma spring_close : forall p, close_enough spring (dumbbell p).
Proof. intros p H. discriminate. Qed.
Lemma spring_stays : forall p, stays_close spring (dumbbell p).
Proof. intros p. exists 1. split; [lra|]. intros d _ H. discriminate. Qed.
Lemma spring_function : forall p, energy_function spring (dumbbell p) 1 0 spring_energy.
Proof. intros p q. apply (spring_total q). Qed.

Lemma spring_forces : forall p, forces 2 spring_energy p (spring_force p).
Proof.
  intros p eps Heps. exists (eps / 4). split; [lra|]. intros d Hd. unfold extent in *. cbn [rsum] in *.
  assert (Q : spring_energy (displaced p d) - spring_energy p + (0 + dot (spring_force p 0) (d 0%nat) + dot (spring_force p 1) (d 1%nat)) =
              2 * dot (plus (d 1%nat) (times (-1) (d 0%nat))) (plus (d 1%nat) (times (-1) (d 0%nat)))).
  { unfold spring_energy, displaced, spring_force. rewrite !size_sq. destruct (p 0%nat) as [[a1 a2] a3], (p 1%nat) as [[b1 b2] b3], (d 0%nat) as [[c1 c2] c3], (d 1%nat) as [[e1' e2'] e3']. cbn. ring. }
  rewrite Q. assert (S0 := size_sq (d 0%nat)). assert (S1 := size_sq (d 1%nat)).
  assert (P0 : 0 <= size (d 0%nat)) by apply sqrt_pos. assert (P1 : 0 <= size (d 1%nat)) by apply sqrt_pos.
  destruct (d 0%nat) as [[c1 c2] c3], (d 1%nat) as [[g1 g2] g3]. cbn in S0, S1 |- *. set (u := size (c1, c2, c3)) in *. set (w := size (g1, g2, g3)) in *.
  rewrite Rabs_pos_eq by (pose proof Rle_0_sqr as SQ; unfold Rsqr in SQ; pose proof (SQ (g1 + -1 * c1)); pose proof (SQ (g2 + -1 * c2)); pose proof (SQ (g3 + -1 * c3)); lra). apply Rle_trans with (4 * (u * u + w * w)).
  - rewrite S0, S1. pose proof Rle_0_sqr as F. unfold Rsqr in F. pose proof (F (c1 + g1)). pose proof (F (c2 + g2)). pose proof (F (c3 + g3)). lra.
  - apply Rle_trans with (4 * (u + w) * (u + w)).
    + pose proof (Rmult_le_pos u w P0 P1). lra.
    + replace (0 + u + w) with (u + w) by ring. apply Rmult_le_compat_r; lra.
Qed.

Definition swap (n : nat) : nat := (1 - n)%nat.
Lemma swap_renumbering : renumbering 2 swap swap.
Proof. intros n Hn. unfold swap. lia. Qed.
Definition two_positions (n : nat) : vec := match n with O => (1, 2, 2) | _ => (0, 0, 0) end.
Definition swapped_positions (n : nat) : vec := plus (turned_by (-1) quarter_turn (two_positions (swap n))) (5, 6, 7).
Definition swapped_dumbbell : molecule := mkMolecule 2 (fun n => Z.of_nat (swap n)) swapped_positions [(0, 1); (1, 0)]%nat.
Lemma dumbbell_moved : moved (-1) quarter_turn (5, 6, 7) swap swap (dumbbell two_positions) swapped_dumbbell.
Proof.
  split; [reflexivity|]. split; [reflexivity|]. split.
  - cbn [dumbbell atoms number position swapped_dumbbell]. intros [|[|n]] Hn; [split; reflexivity|split; reflexivity|lia].
  - intros [|[|e]] a b E; cbn in E; [injection E as <- <-; reflexivity|injection E as <- <-; reflexivity|destruct e; discriminate].
Qed.

Example C72_case : proper_model spring /\ proper_molecule spring (dumbbell two_positions) /\ close_enough spring (dumbbell two_positions)
  /\ proper_rotation quarter_turn /\ renumbering 2 swap swap /\ moved (-1) quarter_turn (5, 6, 7) swap swap (dumbbell two_positions) swapped_dumbbell
  /\ total spring (dumbbell two_positions) 1 0 18 /\ total spring swapped_dumbbell 1 0 18.
Proof.
  assert (T : total spring (dumbbell two_positions) 1 0 18).
  { replace 18 with (spring_energy two_positions); [apply spring_total|]. unfold spring_energy. rewrite size_sq. cbn. ring. }
  repeat (split; [first [apply spring_proper|apply dumbbell_proper|apply spring_close|apply quarter_turn_rotation|apply swap_renumbering|apply dumbbell_moved|exact T]|]).
  apply (C72_total spring (dumbbell two_positions) swapped_dumbbell (-1) quarter_turn (5, 6, 7) swap swap swap swap 1 0 18 spring_proper (dumbbell_proper _) (spring_close _) quarter_turn_rotation
    (or_intror eq_refl) swap_renumbering swap_renumbering dumbbell_moved T).
Qed.

Example C73_case : stays_close spring (dumbbell two_positions) /\ energy_function spring (dumbbell two_positions) 1 0 spring_energy
  /\ forces 2 spring_energy two_positions (spring_force two_positions)
  /\ spring_force two_positions 0 = (-4, -8, -8) /\ spring_force two_positions 1 = (4, 8, 8)
  /\ (forall F', F' 1%nat = turned_by (-1) quarter_turn (-4, -8, -8) -> F' 0%nat = turned_by (-1) quarter_turn (4, 8, 8) ->
        forall energy', energy_function spring swapped_dumbbell 1 0 energy' -> forces 2 energy' swapped_positions F').
Proof.
  assert (F0 : spring_force two_positions 0 = (-4, -8, -8)) by (cbn; apply triple_eq; ring).
  assert (F1 : spring_force two_positions 1 = (4, 8, 8)) by (cbn; apply triple_eq; ring).
  repeat (split; [first [apply spring_stays|apply spring_function|apply spring_forces|exact F0|exact F1]|]).
  intros F' E1 E0 energy' HE. apply (C73_forces spring (dumbbell two_positions) swapped_dumbbell (-1) quarter_turn (5, 6, 7) swap swap swap swap 1 0 spring_energy energy' (spring_force two_positions) F'
    spring_proper (dumbbell_proper _) (spring_stays _) quarter_turn_rotation (or_intror eq_refl) swap_renumbering swap_renumbering dumbbell_moved (spring_function _) HE (spring_forces _)).
  cbn [dumbbell atoms]. intros [|[|n]] Hn; [rewrite F0; exact E1|rewrite F1; exact E0|lia].
Qed.
