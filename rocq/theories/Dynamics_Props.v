(** C80: energies and forces do not jump when atoms enter or leave the neighbour list. *)
Require Import List Reals ZArith Bool Lia Lra Permutation.
Require Import ZifyNat.
Require Import Verif.Base Verif.RSum Verif.Common_Proofs Verif.Features_Model Verif.Features_Spec Verif.Features_Proofs Verif.Modules_Model Verif.Modules_Spec Verif.Modules_Graph_Spec Verif.Modules_Relabel_Proofs
  Verif.Modules_Graph_Props Verif.Rotations_Model Verif.Rotations_Spec Verif.Rotations_Proofs Verif.LUT_Model Verif.LUT_Spec Verif.Irreps_Model Verif.Irreps_Spec Verif.Irreps_Proofs Verif.Irreps_Laws_Proofs Verif.Irreps_Props
  Verif.Wrappers_Model Verif.Wrappers_Spec Verif.Wrappers_Proofs Verif.Wrappers_Props Verif.Embed_Model Verif.Embed_Spec Verif.Embed_Props
  Verif.Equivariance_Spec Verif.Equivariance_Props Verif.Structure_Props Verif.Network_Spec Verif.Network_Props Verif.Shapes_Proofs Verif.Locality_Spec Verif.Locality_Proofs Verif.Locality_Props Verif.Molecule_Spec Verif.Molecule_Props Verif.Accept_Props
  Verif.Symbolic_Model Verif.Clebsch_Model Verif.CGTable_Proofs Verif.Clebsch_Props Verif.Cutoff_Spec Verif.Cutoff_Proofs Verif.Radial_Model Verif.Radial_Props
  Verif.Activations_Model Verif.Activations_Proofs Verif.Smooth Verif.Cutoff_Props Verif.Regular_Spec Verif.Regular_Class_Proofs Verif.Regular_Props Verif.Parts_Props Verif.Dynamics_Spec Verif.Initializers_Proofs Verif.Indexed_Model Verif.Indexed_Props.
Import ListNotations.
Open Scope R_scope.

(** * Lists that contain the same close pairs *)

Lemma all_pairs_in : forall N a b, In (a, b) (all_pairs N) <-> (a < N)%nat /\ (b < N)%nat /\ a <> b.
Proof.
  intros N a b. unfold all_pairs. rewrite filter_In, in_prod_iff, !in_seq. cbn [fst snd]. destruct (Nat.eqb_spec a b); cbn [negb]; intuition (try discriminate; lia).
Qed.
Lemma all_pairs_list : forall r N p, neighbour_list r N p (all_pairs N).
Proof.
  intros r N p. split; [|split].
  - apply NoDup_filter, nodup_prod; apply seq_NoDup.
  - intros a b H. now apply all_pairs_in.
  - intros a b Ha Hb Hab _. now apply all_pairs_in.
Qed.
Lemma same_close : forall r N Z0 p ps ps', neighbour_list r N p ps -> neighbour_list r N p ps' -> Permutation (closer r (mkMolecule N Z0 p ps)) (closer r (mkMolecule N Z0 p ps')).
Proof.
  intros r N Z0 p ps ps' [N1 [V1 C1]] [N2 [V2 C2]]. apply NoDup_Permutation; [now apply NoDup_filter|now apply NoDup_filter|].
  assert (X : forall ps ps', (forall a b, In (a, b) ps -> (a < N)%nat /\ (b < N)%nat /\ a <> b) -> (forall a b, (a < N)%nat -> (b < N)%nat -> a <> b -> size (plus (p b) (times (-1) (p a))) < r -> In (a, b) ps') ->
    forall e, In e (closer r (mkMolecule N Z0 p ps)) -> In e (closer r (mkMolecule N Z0 p ps'))).
  { clear. intros ps ps' V C [a b] H. unfold closer in *. rewrite filter_In in *. cbn [pairs] in *. destruct H as [H1 H2]. destruct (V a b H1) as [A1 [A2 A3]]. split; [|exact H2].
    unfold distance in H2. cbn [position fst snd] in H2. destruct (Rlt_dec _ _) as [L|]; [|discriminate]. now apply C. }
  intros e. split; now apply X.
Qed.
Lemma list_proper : forall M N Z0 p r ps, neighbour_list r N p ps -> ps <> [] -> (forall n, (n < N)%nat -> (0 <= Z0 n < Z.of_nat (m_species M))%Z) -> proper_molecule M (mkMolecule N Z0 p ps).
Proof.
  intros M N Z0 p r ps [_ [V _]] H HZ. split; [exact H|]. split; [|exact HZ]. apply Forall_forall. intros [a b] Hab. destruct (V a b Hab) as [A1 [A2 _]]. split; assumption.
Qed.
Lemma all_pairs_some : forall r N p ps, neighbour_list r N p ps -> ps <> [] -> all_pairs N <> [].
Proof.
  intros r N p [|[a b] ps] [_ [V _]] H; [contradiction|]. destruct (V a b (or_introl eq_refl)) as [A1 [A2 A3]]. intros E. assert (X : In (a, b) (all_pairs N)) by now apply all_pairs_in. rewrite E in X. destruct X.
Qed.

Lemma close_list : forall M N Z0 p r ps, short_ranged M r -> close_enough M (mkMolecule N Z0 p (all_pairs N)) -> neighbour_list r N p ps -> close_enough M (mkMolecule N Z0 p ps).
Proof.
  intros M N Z0 p r ps [c0 [C0 [C1 _]]] H [_ [V C]] Hr Ha c Hc. destruct (H Hr Ha c Hc) as [H1 H2]. split; [exact H1|]. intros [a b] He. cbn [pairs] in *. destruct (V a b He) as [A1 [A2 A3]].
  destruct (H2 (a, b)) as [[a' b'] [I1 [I2 I3]]]; [now apply all_pairs_in|]. cbn [fst] in I2. subst a'. apply all_pairs_in in I1 as [_ [B1 B2]]. exists (a, b'). split; [|split; [reflexivity|exact I3]].
  apply C; auto. unfold distance in I3. cbn [position fst snd] in I3. rewrite C0 in Hc. injection Hc as <-. apply Rnot_le_lt. intros L. rewrite (C1 _ L) in I3. lra.
Qed.

(** * C80 *)

(** Which pairs beyond the range are listed does not matter. *)
Theorem C80_same_energy : forall M N Z0 p r ps ps' k f v, proper_model M -> short_ranged M r -> (forall n, (n < N)%nat -> (0 <= Z0 n < Z.of_nat (m_species M))%Z) -> close_enough M (mkMolecule N Z0 p (all_pairs N)) ->
  neighbour_list r N p ps -> ps <> [] -> neighbour_list r N p ps' -> ps' <> [] -> total M (mkMolecule N Z0 p ps) k f v -> total M (mkMolecule N Z0 p ps') k f v.
Proof.
  intros M N Z0 p r ps ps' k f v PM SR HZ CE H1 N1 H2 N2 H. pose proof SR as [c [C0 [C1 [C2 C3]]]].
  apply (C74_neighbour_list M (mkMolecule N Z0 p ps) ps' c r k f v PM); auto; cbn [atoms number position].
  - now apply (list_proper M N Z0 p r).
  - now apply (list_proper M N Z0 p r).
  - now apply (close_list M N Z0 p r).
  - now apply (close_list M N Z0 p r).
  - now apply same_close.
Qed.
Print Assumptions C80_same_energy.

Lemma regular_allowed : forall M N Z0 p0, proper_molecule M (mkMolecule N Z0 p0 (all_pairs N)) -> (forall c, m_cutoff M = Some c -> continuous_positive c) -> allowed M (mkMolecule N Z0 p0 (all_pairs N)) (regular_positions M N Z0).
Proof.
  intros M N Z0 p0 PA HC. destruct (C76_positions M (mkMolecule N Z0 p0 (all_pairs N)) PA HC) as [O1 O2].
  assert (EQ : forall p, regular_positions M N Z0 p <-> (forall e, In e (all_pairs N) -> distance (mkMolecule N Z0 p (all_pairs N)) e <> 0) /\ close_enough M (mkMolecule N Z0 p (all_pairs N))).
  { intros p. unfold regular_positions. assert (X : all_apart N p <-> forall e, In e (all_pairs N) -> distance (mkMolecule N Z0 p (all_pairs N)) e <> 0); [|now rewrite X].
    assert (D0 : forall a b, distance (mkMolecule N Z0 p (all_pairs N)) (a, b) = 0 <-> p a = p b).
    { intros a b. unfold distance. cbn [position fst snd]. split.
      - intros Z1. pose proof (size_sq (plus (p b) (times (-1) (p a)))) as S2. rewrite Z1 in S2. destruct (p a) as [[x y] z], (p b) as [[x' y'] z']. cbn in S2. pose proof (Rle_0_sqr (x' + -1 * x)) as Q1. pose proof (Rle_0_sqr (y' + -1 * y)) as Q2. pose proof (Rle_0_sqr (z' + -1 * z)) as Q3. unfold Rsqr in Q1, Q2, Q3.
        assert (Z3 : forall t, t * t = 0 -> t = 0) by (intros t Ht; destruct (Rmult_integral _ _ Ht); assumption).
        pose proof (Z3 (x' + -1 * x) ltac:(lra)). pose proof (Z3 (y' + -1 * y) ltac:(lra)). pose proof (Z3 (z' + -1 * z) ltac:(lra)). apply triple_eq; lra.
      - intros E. rewrite E. unfold size. destruct (p b) as [[x y] z]. replace (dot _ _) with 0 by (cbn; ring). apply sqrt_0. }
    split.
    - intros H [a b] He. apply all_pairs_in in He as [A1 [A2 A3]]. rewrite D0. now apply H.
    - intros H a b A1 A2 A3. rewrite <- D0. apply H. now apply all_pairs_in. }
  split; [|intros p Up; cbn [with_positions atoms number pairs]; now apply EQ].
  intros p Up. destruct (O1 p (proj1 (EQ p) Up)) as [dl [D1 D2]]. exists dl. split; [exact D1|]. intros d Hd. apply EQ. exact (D2 d Hd).
Qed.

Section Surface.
Variables (M : model) (N : nat) (Z0 : nat -> Z) (r : R) (k f : nat) (nl : (nat -> vec) -> list (nat * nat)) (E : (nat -> vec) -> R).
Hypotheses (PM : proper_model M) (SR : short_ranged M r) (HZ : forall n, (n < N)%nat -> (0 <= Z0 n < Z.of_nat (m_species M))%Z).
Hypothesis lists : forall p, regular_positions M N Z0 p -> neighbour_list r N p (nl p) /\ nl p <> [] /\ total M (mkMolecule N Z0 p (nl p)) k f (E p).

Lemma all_total : forall p, regular_positions M N Z0 p -> total M (mkMolecule N Z0 p (all_pairs N)) k f (E p).
Proof using PM SR HZ lists.
  intros p Up. destruct (lists p Up) as [L1 [L2 L3]]. apply (C80_same_energy M N Z0 p r (nl p) (all_pairs N) k f (E p)); auto; [apply Up|apply all_pairs_list|exact (all_pairs_some r N p _ L1 L2)].
Qed.
Lemma all_proper : forall p, regular_positions M N Z0 p -> proper_molecule M (mkMolecule N Z0 p (all_pairs N)).
Proof using HZ lists. intros p Up. destruct (lists p Up) as [L1 [L2 _]]. apply (list_proper M N Z0 p r); [apply all_pairs_list|exact (all_pairs_some r N p _ L1 L2)|exact HZ]. Qed.
End Surface.

(** The neighbour list is computed anew for every configuration, with atoms entering and leaving it; the energy is still
    a continuous function of the positions, *)
Theorem C80_continuous : forall M N Z0 r k f nl E, proper_model M -> short_ranged M r -> (forall n, (n < N)%nat -> (0 <= Z0 n < Z.of_nat (m_species M))%Z) -> built_from continuous_positive continuity M ->
  (forall p, regular_positions M N Z0 p -> neighbour_list r N p (nl p) /\ nl p <> [] /\ total M (mkMolecule N Z0 p (nl p)) k f (E p)) ->
  forall p, regular_positions M N Z0 p -> continuous_at N E p.
Proof.
  intros M N Z0 r k f nl E PM SR HZ B L p Up. pose proof (all_proper M N Z0 r k f nl E HZ L p Up) as PA.
  apply (C76_energy M (mkMolecule N Z0 p (all_pairs N)) (regular_positions M N Z0) k f E PM PA); [|exact B| |exact Up].
  - apply regular_allowed; [exact PA|exact (proj1 (proj2 B))].
  - intros q Uq. exact (all_total M N Z0 r k f nl E PM SR HZ L q Uq).
Qed.
Print Assumptions C80_continuous.

(** forces exist, *)
Theorem C80_forces_exist : forall M N Z0 r k f nl E, proper_model M -> short_ranged M r -> (forall n, (n < N)%nat -> (0 <= Z0 n < Z.of_nat (m_species M))%Z) -> built_from differentiable_positive differentiable M ->
  (forall p, regular_positions M N Z0 p -> neighbour_list r N p (nl p) /\ nl p <> [] /\ total M (mkMolecule N Z0 p (nl p)) k f (E p)) ->
  forall p, regular_positions M N Z0 p -> exists F, forces N E p F.
Proof.
  intros M N Z0 r k f nl E PM SR HZ B L p Up. pose proof (all_proper M N Z0 r k f nl E HZ L p Up) as PA.
  apply (C77_forces_exist M (mkMolecule N Z0 p (all_pairs N)) (regular_positions M N Z0) k f E PM PA); [|exact B| |exact Up].
  - apply regular_allowed; [exact PA|]. intros c Hc. apply differentiable_positive_continuous. exact (proj1 (proj2 B) c Hc).
  - intros q Uq. exact (all_total M N Z0 r k f nl E PM SR HZ L q Uq).
Qed.
Print Assumptions C80_forces_exist.

(** and with smooth parts there is one smooth energy surface with smooth forces, whatever lists are used. *)
Theorem C80_energy_surface : forall M N Z0 r k f, proper_model M -> short_ranged M r -> (forall n, (n < N)%nat -> (0 <= Z0 n < Z.of_nat (m_species M))%Z) -> (2 <= N)%nat -> built_from smooth_positive infinitely_differentiable M ->
  (exists A v, proper_molecule M A /\ total M A k f v) -> (exists p, regular_positions M N Z0 p) ->
  exists E F, (forall p, regular_positions M N Z0 p -> forall ps, neighbour_list r N p ps -> ps <> [] -> forall v, total M (mkMolecule N Z0 p ps) k f v <-> v = E p)
    /\ smooth_on N (regular_positions M N Z0) E /\ (forall p, regular_positions M N Z0 p -> forces N E p (F p))
    /\ forall n j, (n < N)%nat -> (j < 3)%nat -> smooth_on N (regular_positions M N Z0) (fun p => coord (F p n) j).
Proof.
  intros M N Z0 r k f PM SR HZ HN B [A0 [v0 [PA0 T0]]] [p0 U0].
  assert (NE : all_pairs N <> []). { intros X. assert (Y : In (0, 1)%nat (all_pairs N)) by (apply all_pairs_in; lia). rewrite X in Y. destruct Y. }
  set (A := mkMolecule N Z0 p0 (all_pairs N)). assert (PA : proper_molecule M A) by (apply (list_proper M N Z0 p0 r); [apply all_pairs_list|exact NE|exact HZ]).
  assert (T : exists v, total M A k f v).
  { destruct T0 as [ys0 [y0 [P0 [K0 _]]]]. destruct (proj1 (C75_every_molecule M A0 A ys0 PM PA0 PA P0)) as [ys H].
    assert (L : length ys = length ys0). { clear -H P0. destruct H as [? [? [? [_ [_ [_ H]]]]]]. destruct P0 as [? [? [? [_ [_ [_ P0]]]]]]. rewrite (run_length _ _ _ _ _ _ _ _ _ H), (run_length _ _ _ _ _ _ _ _ _ P0). reflexivity. }
    destruct (nth_error ys k) as [y|] eqn:Ey; [|apply nth_error_None in Ey; assert (k < length ys0)%nat by (apply nth_error_Some; congruence); lia]. eexists. exists ys, y. auto. }
  assert (AL : allowed M A (regular_positions M N Z0)). { apply regular_allowed; [exact PA|]. intros c Hc. apply differentiable_positive_continuous, tdp_differentiable. exact (proj1 (proj2 B) c Hc 1%nat). }
  destruct (C78_energy_surface M A _ k f PM PA AL B T (ex_intro _ p0 U0)) as [E [F [H1 [H2 [H3 H4]]]]]. exists E, F. split; [|auto].
  intros p Up ps Hps Nps v. rewrite <- (H1 p Up v). cbn [A with_positions atoms number pairs].
  split; intros H; [apply (C80_same_energy M N Z0 p r ps (all_pairs N) k f v)|apply (C80_same_energy M N Z0 p r (all_pairs N) ps k f v)]; auto; try apply Up; apply all_pairs_list.
Qed.
Print Assumptions C80_energy_surface.

(** The list of all pairs that the package computes is a neighbour list. *)
Theorem C80_all_pairs : forall N r p, (1 <= N)%nat -> exists dst src, sparse_pairwise_indices (Z.of_nat N) true = Ok (dst, src) /\ length dst = length src /\ neighbour_list r N p (combine dst src).
Proof.
  intros N r p HN. destruct (C01_sparse_pairwise_indices_complete (Z.of_nat N) true ltac:(lia)) as [dst [src [H1 [H2 [H3 [H4 _]]]]]]. exists dst, src. split; [exact H1|]. split; [exact H2|]. split; [exact H3|]. split.
  - intros a b H. apply H4 in H. destruct H as [A1 [A2 A3]]. specialize (A3 eq_refl). lia.
  - intros a b A1 A2 A3 _. apply H4. split; [lia|]. split; [lia|auto].
Qed.
Print Assumptions C80_all_pairs.

(** ** A case: three atoms on a line, the third one within or beyond the range of the others *)

Example C80_case : exists c, (forall x, smooth_cutoff x 3 = Ok (c x)) /\ let Z0 := fun _ : nat => 0%Z in
  exists E F, (forall p, all_apart 3 p -> forall ps, neighbour_list 3 3 p ps -> ps <> [] -> forall v, total (bond c) (mkMolecule 3 Z0 p ps) 2 0 v <-> v = E p)
    /\ smooth_on 3 (regular_positions (bond c) 3 Z0) E /\ (forall p, all_apart 3 p -> forces 3 E p (F p))
    /\ let line := fun t n => match n with O => (0, 0, 0) | S O => (1, 0, 0) | _ => (t, 0, 0) end : vec in
       (forall t, 4 <= t -> all_apart 3 (line t) /\ neighbour_list 3 3 (line t) [(0, 1); (1, 0)]%nat) /\ all_apart 3 (line 2) /\ ~ neighbour_list 3 3 (line 2) [(0, 1); (1, 0)]%nat.
Proof.
  destruct (C41_smooth_cutoff 3 ltac:(lra)) as [c [H1 [_ [_ [_ [_ [HV [F0 [F1 F2]]]]]]]]]. exists c. split; [exact H1|]. cbn zeta.
  assert (SP : smooth_positive c) by (intros n; apply (tdp_ext n F0); [intros x Hx; symmetry; apply F2; lra|]; apply tdp_of_td, F1).
  set (Z0 := fun _ : nat => 0%Z). set (line := fun t n => match n with O => (0, 0, 0) | S O => (1, 0, 0) | _ => (t, 0, 0) end : vec).
  assert (RP : forall p, all_apart 3 p -> regular_positions (bond c) 3 Z0 p) by (intros p Hp; split; [exact Hp|intros X; discriminate]).
  assert (LA : forall t, t <> 0 -> t <> 1 -> all_apart 3 (line t)).
  { intros t T0 T1 a b Ha Hb Hab. destruct a as [|[|[|a]]], b as [|[|[|b]]]; try lia; cbn; intros X; injection X; lra. }
  assert (SZ : forall u v, size (plus (u, 0, 0) (times (-1) (v, 0, 0))) = Rabs (u - v)).
  { intros u v. unfold size. replace (dot _ _) with (Rsqr (u - v)) by (unfold Rsqr; cbn; ring). apply sqrt_Rsqr_abs. }
  destruct (C80_energy_surface (bond c) 3 Z0 3 2 0 (bond_proper c)) as [E [F [X1 [X2 [X3 _]]]]].
  - exists c. split; [reflexivity|]. split; [exact HV|]. split; [|repeat constructor]. intros [i [j [o [q [X|[X|[]]]]]]]; discriminate.
  - intros n _. unfold Z0. cbn. lia.
  - lia.
  - now apply bond_built.
  - destruct (bond_total c 1 ltac:(lra)) as [v Hv]. eexists _, v. split; [|exact Hv]. split; [discriminate|]. split; [repeat constructor|]. cbn [soft_pair atoms number bond m_species]. intros n Hn. lia.
  - exists (line 2). apply RP, LA; lra.
  - exists E, F. split; [intros p Hp; exact (X1 p (RP p Hp))|]. split; [exact X2|]. split; [intros p Hp; exact (X3 p (RP p Hp))|]. split; [|split].
    + intros t Ht. split; [apply LA; lra|]. split; [repeat constructor; cbn; intuition discriminate|]. split.
      * intros a b [X|[X|[]]]; injection X as <- <-; lia.
      * intros a b Ha Hb Hab Hs. destruct a as [|[|[|a]]], b as [|[|[|b]]]; try lia; cbn [line] in Hs; rewrite SZ in Hs; cbn; try tauto; apply Rabs_def2 in Hs; lra.
    + apply LA; lra.
    + intros [_ [_ C]]. assert (X : In (1, 2)%nat [(0, 1); (1, 0)]%nat). { apply C; try lia. cbn [line]. rewrite SZ. apply Rabs_def1; lra. } cbn in X. intuition discriminate.
Qed.
