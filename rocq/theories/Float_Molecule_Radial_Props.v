(** Property C96 (continued): the radial functions, cutoffs and damping functions of e3x on machines. *)
Require Import String List Reals ZArith Bool Lia Lra FunctionalExtensionality.
Require Import Verif.Base Verif.RSum Verif.Common_Model Verif.Common_Proofs Verif.LUT_Model Verif.LUT_Spec Verif.Rotations_Model Verif.Rotations_Spec Verif.Rotations_Proofs Verif.Irreps_Model Verif.Irreps_Spec Verif.Irreps_Proofs Verif.Irreps_Laws_Proofs Verif.Irreps_Props Verif.Clebsch_Model Verif.CGTable_Proofs Verif.Clebsch_Props
  Verif.Symbolic_Model Verif.Wrappers_Model Verif.Wrappers_Spec Verif.Wrappers_Proofs Verif.Wrappers_Props Verif.Embed_Model Verif.Embed_Spec Verif.Embed_Props Verif.Equivariance_Spec Verif.Equivariance_Props Verif.Network_Spec Verif.Network_Props Verif.Shapes_Proofs Verif.Locality_Spec Verif.Features_Model Verif.Features_Spec Verif.Features_Proofs Verif.Modules_Model Verif.Modules_Spec Verif.Modules_Graph_Spec Verif.Structure_Props
  Verif.Radial_Model Verif.AutoDiff_Model Verif.AutoDiff_Spec Verif.AutoDiff_Proofs Verif.AutoDiff_Radial_Proofs Verif.AutoDiff_Radial_Props Verif.AutoDiff_Basis_Model Verif.AutoDiff_Basis_Props Verif.AutoDiff_Props Verif.Molecule_Spec Verif.Molecule_Props Verif.Float_Einsum_Model Verif.Float_Einsum_Spec Verif.Float_Einsum_Props Verif.Float_Harmonics_Model Verif.Float_Harmonics_Spec Verif.Float_Harmonics_Proofs Verif.Float_Harmonics_Props
  Verif.Float_Network_Model Verif.Float_Network_Spec Verif.Float_Network_Proofs Verif.Float_Network_Props Verif.Float_Program_Model Verif.Float_Program_Spec Verif.Float_Program_Proofs Verif.Float_Program_Props Verif.Float_Deep_Model Verif.Float_Deep_Spec Verif.Float_Deep_Proofs Verif.Float_Deep_Props Verif.Float_Molecule_Model Verif.Float_Molecule_Spec Verif.Float_Molecule_Proofs Verif.Float_Molecule_Props.
Import ListNotations.
Open Scope R_scope.

(** * Functions of the distance *)
Lemma realizes_program e f (exceptions : R -> Prop) : (forall u, 0 <= u -> ~ exceptions u -> stable e (fun _ => u) /\ AutoDiff_Model.value e (fun _ => u) = Some (f u)) -> realizes (run_program e) f exceptions.
Proof. intros H t P N C. destruct (H _ P N) as [S V]. unfold run_program. apply converges_apply; [intros _; exact C|exact S|exact V]. Qed.
Lemma program_converges e v t : converges t -> stable e (fun _ => exact t) -> AutoDiff_Model.value e (fun _ => exact t) = Some v -> converges (run_program e t) /\ exact (run_program e t) = v.
Proof. intros C S V. unfold run_program. apply converges_apply; [intros _; exact C|exact S|exact V]. Qed.

(** Points where the formula of a family of functions of a mapping changes. *)
Definition family_exception (eps : R) (f : string) (mapping : R) : Prop :=
  (f = "bernstein"%string /\ (1 - mapping = eps \/ 1 - mapping = 1 - eps)) \/ (f = "chebyshev"%string /\ Rabs (2 * mapping - 1) = 1 - eps).

Lemma inner_converges eps f num k P g t : 0 < eps < 1 / 2 -> known f -> (k < num)%nat -> (forall a, inner_prog eps f num k a = Ok (P a)) -> block P g AutoDiff_Props.everywhere (inner_exception eps f) ->
  converges t -> ~ family_exception eps f (exact t) -> converges (inner_routine eps f num k t) /\ exact (inner_routine eps f num k t) = g (exact t).
Proof.
  intros E F K HP B C N. assert (V : AutoDiff_Model.value (P X) (fun _ => exact t) = Some (g (exact t))). { destruct (B X (fun _ => exact t) 0%nat (exact t) 1 (diff_var _ 0) I) as [(d & Q & _) _]. exact Q. }
  unfold inner_routine. destruct (String.eqb_spec f "bernstein") as [->|NB].
  - specialize (HP X). cbn in HP. injection HP as HP. rewrite <- HP in V. cbn [AutoDiff_Model.value obind unary_value binary_value bernstein_prog] in V. rewrite (bernstein_primal_value eps (num - 1) k (1 - exact t) E) in V. injection V as <-.
    destruct (program_converges (Const 1 -! X) (1 - exact t) t C ltac:(cbn; auto) eq_refl) as [C1 E1]. rewrite <- E1. apply program_converges; [exact C1| |now apply bernstein_primal_value]. rewrite E1. apply bernstein_stable; [exact E| |]; intro Q; apply N; left; auto.
  - rewrite HP. apply program_converges; [exact C| |exact V]. apply (inner_stable eps f num k X (fun _ => exact t) (exact t) (P X) E NB I eq_refl); [|apply HP]. intro Q. apply N. now right.
Qed.

Lemma mapped_converges eps f num k w e1 m t v P g : 0 < eps < 1 / 2 -> known f -> (k < num)%nat -> (forall a, inner_prog eps f num k a = Ok (P a)) -> block P g AutoDiff_Props.everywhere (inner_exception eps f) ->
  (exists d, diff e1 (fun _ => exact t) 0 m d) -> stable e1 (fun _ => exact t) -> AutoDiff_Model.value (weighted_prog w e1 (P e1)) (fun _ => exact t) = Some v ->
  converges t -> ~ family_exception eps f m -> converges (weighted_routine w (inner_routine eps f num k) (run_program e1) t) /\ exact (weighted_routine w (inner_routine eps f num k) (run_program e1) t) = v.
Proof.
  intros E F K HP B (d & DE) S V C N. destruct (program_converges e1 m t C S (proj1 DE)) as [C1 E1]. destruct (B e1 (fun _ => exact t) 0%nat m d DE I) as [(d' & Q & _) _].
  destruct (inner_converges eps f num k P g (run_program e1 t) E F K HP B C1 ltac:(now rewrite E1)) as [C2 E2]. rewrite E1 in E2. unfold weighted_routine. destruct w; cbn [weighted_prog] in V.
  - cbn [AutoDiff_Model.value obind binary_value] in V. rewrite Q, (proj1 DE) in V. injection V as <-. split; [now apply converges_product|]. cbn [Float_Network_Model.exact]. now rewrite E1, E2.
  - rewrite Q in V. injection V as <-. auto.
Qed.

Lemma entries_nth array k g x : entry_ok array k g -> nth k (entries (array x)) 0 = g x.
Proof. intro H. destruct (H x) as (l & -> & Q). cbn. now apply nth_error_nth. Qed.

(** The families of radial functions, as arguments of models in C96. *)
Theorem C96_radial eps f num k : 0 < eps < 1 / 2 -> known f -> (k < num)%nat ->
  (forall kind weighting, (kind = "shifted" \/ kind = "damped" \/ kind = "cuspless")%string -> exists mapping, (forall x, reciprocal_mapping eps x kind = Ok (mapping x)) /\
     realizes (reciprocal_routine eps f num k kind weighting) (fun x => nth k (entries (reciprocal_array eps f num kind weighting x)) 0)
       (fun x => (kind = "damped"%string /\ x = eps) \/ family_exception eps f (mapping x))) /\
  (forall gamma cuspless weighting,
     realizes (exponential_routine eps f num k gamma cuspless weighting) (fun x => nth k (entries (exponential_array eps f num gamma cuspless weighting x)) 0)
       (fun x => family_exception eps f (exponential_mapping x gamma cuspless))) /\
  (forall limit, 0 < limit ->
     realizes (basic_routine eps f num k limit) (fun x => nth k (entries (basic_array eps f num limit x)) 0)
       (fun x => (f = "bernstein"%string /\ (x / limit = eps \/ x / limit = 1 - eps)) \/ (f = "chebyshev"%string /\ Rabs (2 * x / limit - 1) = 1 - eps))).
Proof.
  intros E F K. destruct (inner_block eps f num k E F K) as (P & g & HP & _ & B). split; [|split].
  - intros kind w Kd. destruct (reciprocal_mapping_block eps kind ltac:(lra) Kd) as (PM & mp & HM & FM & BM). exists mp. split; [exact FM|].
    destruct (C81_reciprocal_basis eps f num k kind w E F K Kd) as (e & g2 & m2 & PE & GE & _ & DF). unfold reciprocal_prog in PE. rewrite HM in PE. cbn [bind] in PE. rewrite HP in PE. cbn [rmap bind] in PE. injection PE as <-.
    intros t P0 N C. assert (U : -1 < exact t) by lra. rewrite (entries_nth _ _ _ _ GE). unfold reciprocal_routine. rewrite HM.
    apply (mapped_converges eps f num k w (PM X) (mp (exact t)) t _ P g E F K HP B).
    + exact (proj1 (BM X (fun _ => exact t) 0%nat (exact t) 1 (diff_var _ 0) U)).
    + apply (reciprocal_mapping_stable eps kind _ _ ltac:(lra) Kd (HM X)); [lra|]. intro Q. apply N. now left.
    + exact (proj1 (DF (fun _ => exact t) U)).
    + exact C.
    + intro Q. apply N. now right.
  - intros gamma cuspless w. destruct (C81_exponential_basis eps f num k gamma cuspless w E F K) as (e & g2 & PE & GE & DF). unfold exponential_prog in PE. cbv zeta in PE. rewrite HP in PE. cbn [rmap bind] in PE. injection PE as <-.
    intros t P0 N C. rewrite (entries_nth _ _ _ _ GE). unfold exponential_routine.
    apply (mapped_converges eps f num k w _ (exponential_mapping (exact t) gamma cuspless) t _ P g E F K HP B); [|apply exponential_mapping_stable|exact (proj1 (DF (fun _ => exact t) I))|exact C|exact N].
    exact (proj1 (exponential_mapping_block gamma cuspless X (fun _ => exact t) 0%nat (exact t) 1 (diff_var _ 0) I)).
  - intros limit L t P0 N C. destruct (C81_basic_basis eps f num k limit E F K L) as (e & g2 & PE & GE & DF). rewrite (entries_nth _ _ _ _ GE). pose proof (proj1 (DF (fun _ => exact t) I)) as V. cbv beta in V. unfold basic_routine.
    assert (S1 : stable (X /! Const limit) (fun _ => exact t)) by (stab; lra). assert (V1 : AutoDiff_Model.value (X /! Const limit) (fun _ => exact t) = Some (exact t / limit)) by (cbn -[Float_Network_Model.exact]; unfold Reqb; destruct (Req_EM_T limit 0); [lra|reflexivity]).
    destruct (String.eqb_spec f "bernstein") as [->|NB].
    + cbn in PE. injection PE as <-. destruct (program_converges _ _ t C S1 V1) as [C1 E1]. unfold bernstein_prog in V. cbn [AutoDiff_Model.value obind unary_value] in V. change (obind (AutoDiff_Model.value (X /! Const limit) (fun _ => exact t)) (fun u => AutoDiff_Model.value (bernstein_primal_prog eps (num - 1) k) (fun _ => u)) = Some (g2 (exact t))) in V.
      rewrite V1 in V. cbn [obind] in V. apply program_converges; [exact C1| |rewrite E1; exact V]. rewrite E1. apply bernstein_stable; [exact E| |]; intro Q; apply N; left; auto.
    + rewrite PE. apply program_converges; [exact C| |exact V].
      destruct F as [->|[->|[->| ->]]]; [contradiction| | |]; cbn in PE; injection PE as <-; [|apply gaussian_stable; [exact S1|eauto]|apply fourier_stable; [exact S1|eauto]]. apply basic_chebyshev_stable; try assumption. intro Q. apply N. now right.
Qed.
Print Assumptions C96_radial.

(** Cutoffs, damping and sinc functions. *)
Theorem C96_factors c gamma : 0 < c -> 0 < gamma ->
  (exists f, (forall x, cosine_cutoff x c = Ok (f x)) /\ realizes (run_program (cosine_cutoff_prog c X)) f (fun _ => False)) /\
  (exists f, (forall x, smooth_cutoff x c = Ok (f x)) /\ realizes (run_program (smooth_cutoff_prog c X)) f (fun x => x = c)) /\
  realizes (run_program (smooth_damping_prog gamma X)) (fun x => smooth_damping x gamma) (fun x => x = 0) /\
  (forall num k, (k < num)%nat -> realizes (run_program (sinc_prog c k X)) (fun x => nth k (sinc x (Z.of_nat num) c) 0) (fun _ => False)).
Proof.
  intros C G. destruct (C81_cutoffs c C) as (f & g & F & DF & GG & DG). 
  assert (RC : forall e h domain exc exceptions, differentiates e h domain exc -> computes e h domain exceptions -> (forall u, 0 <= u -> domain u) -> realizes (run_program e) h exceptions).
  { intros e h domain exc exceptions D CO DO t P N CT. assert (V : AutoDiff_Model.value e (fun _ => exact t) = Some (h (exact t))) by exact (proj1 (D (fun _ => exact t) (DO _ P))).
    assert (EX : exact (run_program e t) = h (exact t)) by (unfold run_program, apply; cbn [Float_Network_Model.exact ideal number_leaves without_rounding]; now rewrite V). split; [|exact EX]. unfold converges. rewrite EX. exact (CO (fun m => on m t) (exact t) (DO _ P) N CT). }
  split; [exists g; split; [exact GG|]; apply (RC _ _ _ _ _ DG (cosine_cutoff_computes c g C DG)); intros; exact I|].
  split; [exists f; split; [exact F|]; apply (RC _ _ _ _ _ DF (smooth_cutoff_computes c f C DF)); intros; lra|].
  split; [apply (RC _ _ _ _ _ (C81_damping gamma G) (smooth_damping_computes gamma G)); intros; exact I|].
  intros num k K. destruct (C81_sinc num k c K C) as (h & H & DH). intros t P N CT. destruct (RC _ _ _ _ _ DH (sinc_computes c k h C DH) (fun _ _ => I) t P N CT) as [Q1 Q2]. split; [exact Q1|]. rewrite Q2. symmetry. apply nth_error_nth, H.
Qed.
Print Assumptions C96_factors.

(** * A case: two atoms at distance three, an exponential radial function, smooth cutoff and damping, and a message-passing layer *)
Definition cut (x : R) : R := match smooth_cutoff x 5 with Ok v => v | Err _ => 0 end.
Definition glow : model := mkModel true (package_cg true) 0 0 2 1 0 (fun _ _ => 1) 1 1 1 (fun x => entries (exponential_array (1 / 4) "gaussian" 1 1 false true x))
  (Some cut) (Some (fun x => smooth_damping x 1)) false spring_network.
Definition glow_steps : list step := map (Layer simple_plan) spring_network.
Definition float_glow : float_model := mkFloatModel glow glow_steps (fun k => exponential_routine (1 / 4) "gaussian" 1 k 1 false true)
  (Some (run_program (smooth_cutoff_prog 5 X))) (Some (run_program (smooth_damping_prog 1 X))) (fun _ _ => direct (harmonic_terms 1)).
Definition glow_exceptions (x : R) : Prop := x = 5 \/ x = 0.

Lemma glow_proper : proper_model (f_model float_glow).
Proof.
  split; [apply package_cg_uses|]. split; [repeat constructor; intros d E; injection E as <-; lia|]. split; [cbn; lra|]. split; [cbn; lia|]. split; [|discriminate].
  intro x. reflexivity.
Qed.
Lemma glow_runs erf : runs_model erf (1 / 4) float_glow glow_exceptions.
Proof.
  split; [reflexivity|]. split; [repeat constructor; try apply C92_plan; intros d E; injection E as <-; lia|]. destruct (C96_factors 5 1 ltac:(lra) ltac:(lra)) as (_ & (f & F & RF) & RD & _). split; [|split; [|split]].
  - intros k K. cbn in K. assert (k = 0)%nat as -> by lia. destruct (C96_radial (1 / 4) "gaussian" 1 0 ltac:(lra) ltac:(unfold known; auto) ltac:(lia)) as (_ & Q & _). specialize (Q 1 false true). intros t P N C. apply Q; [exact P| |exact C]. intros [[X _]|[X _]]; discriminate.
  - cbn. intros t P N C. destruct (RF t P) as [Q1 Q2]; [intro Q; apply N; now left|exact C|]. split; [exact Q1|]. rewrite Q2. unfold cut. now rewrite F.
  - cbn. intros t P N C. apply RD; [exact P|intro Q; apply N; now right|exact C].
  - intros e j. apply C90_direct. intros t I. unfold harmonic_terms in I. apply in_map_iff in I as (q & <- & _). intro Q. apply app_eq_nil in Q as [_ Q]. discriminate.
Qed.
Lemma glow_distance e : In e (pairs (dumbbell two_positions)) -> Molecule_Spec.distance (dumbbell two_positions) e = 3.
Proof.
  intros [<-|[<-|[]]]; unfold Molecule_Spec.distance, Rotations_Spec.size; cbn; match goal with |- sqrt ?x = 3 => replace x with (3 * 3) by ring end; apply sqrt_square; lra.
Qed.
Example C96_admissible erf : exists table, admissible erf (1 / 4) float_glow glow_exceptions table (dumbbell two_positions).
Proof.
  exists (snd (spherical_harmonics_table empty_world 1 None IoOk)). split; [apply glow_proper|]. split; [apply glow_runs|]. split; [exists empty_world, None, IoOk; split; [apply sh_ready_empty|split; [apply call_ok_serial|reflexivity]]|]. split; [apply (dumbbell_proper two_positions)|]. split; [discriminate|]. split.
  - intros e I. rewrite (glow_distance e I). split; [lra|]. intros [Q|Q]; lra.
  - intros e x y _ _ _. cbn. split; [exact I|]. intros; exact I.
Qed.

Lemma glow_step : forall cgf C x b, cgf 1%Z 0%Z 0%Z = Ok C -> fB x = [2%nat] -> fS x = 1%nat -> fD x = 1%nat -> fF x = 1%nat -> fdt x = 0%nat -> exists z,
  run cgf 0 0 (Some (mkFeat [2%nat] 1 4 1 0 b)) None (sparse_graph [0; 1]%nat [1; 0]%nat) [x] spring_network = Ok [x; z] /\ fS z = 1%nat /\ fD z = 1%nat
  /\ fv z [0%nat] 0%nat 0%nat 0%nat = b [0%nat] 0%nat 0%nat 0%nat * fv x [1%nat] 0%nat 0%nat 0%nat * C 0%nat 0%nat 0%nat
  /\ fv z [1%nat] 0%nat 0%nat 0%nat = b [1%nat] 0%nat 0%nat 0%nat * fv x [0%nat] 0%nat 0%nat 0%nat * C 0%nat 0%nat 0%nat.
Proof.
  intros cgf C [xB xS xD xF xd xv] b H. cbn [fB fS fD fF fdt fv]. intros -> -> -> -> ->. eexists. split.
  - unfold spring_network. cbv -[Rplus Rmult IZR Rminus]. rewrite H. cbv -[Rplus Rmult IZR Rminus]. reflexivity.
  - cbn [fS fD fv]. split; [reflexivity|]. split; [reflexivity|]. cbv -[Rplus Rmult IZR Rminus]. split; ring.
Qed.
Lemma glow_radial x : nth 0 (entries (exponential_array (1 / 4) "gaussian" 1 1 false true x)) 0 = exp (- (1 * x)).
Proof.
  change (exponential_array (1 / 4) "gaussian" 1 1 false true x) with (rmap (weighted true (exponential_mapping x 1 false)) (gaussian (1 - exponential_mapping x 1 false) 1)). generalize (1 - exponential_mapping x 1 false). intro u.
  destruct (gaussian_array 1 0 u ltac:(lia)) as (l & E & N). change (Z.of_nat 1) with 1%Z in E. rewrite E. cbn [rmap bind entries weighted]. rewrite (nth_error_nth _ _ _ (map_nth_error (fun y => y * exponential_mapping x 1 false) 0 l N)).
  unfold gaussian_fun. cbv zeta. cbn [INR]. replace (exp _) with 1; [unfold exponential_mapping; rewrite Rmult_1_l; f_equal; ring|]. rewrite <- exp_0. f_equal. ring.
Qed.
(** The energy is 2 exp(-3) times the cutoff at 3. *)
Lemma glow_total : total (f_model float_glow) (dumbbell two_positions) 1 0 (2 * (exp (- (3)) * cut 3)).
Proof.
  set (rs := displacements two_positions [(0, 1); (1, 0)]%nat). set (M := f_model float_glow).
  destruct (C71_scalars 2 1 None 0%nat (fun _ _ => 1) [2%nat] (fun i => Z.of_nat (nth 0 i 0%nat))) as [e [x [Ee [Ax _]]]].
  { intros [|n [|? ?]]; cbn [inside]; try tauto. intros [Hn _]. cbn [nth]. lia. }
  destruct (embed_part M (dumbbell two_positions) e x Ee Ax) as [X1 [X2 [X3 [X4 [X5 XV]]]]]. cbn [M f_model float_glow glow dumbbell m_features m_dtype m_species m_embedding atoms Molecule_Spec.number] in X1, X2, X3, X4, X5, XV.
  destruct (basis_exists 1 rs 1 1 (m_radial M) (m_cutoff M) (m_damping M) false false true ltac:(lra) ltac:(discriminate) ltac:(lia) ltac:(reflexivity) ltac:(discriminate)) as [y Hy].
  destruct (basis_values 1 rs 1 1 (m_radial M) (m_cutoff M) (m_damping M) false false true y ltac:(lra) ltac:(discriminate) ltac:(lia) ltac:(reflexivity) ltac:(discriminate) Hy) as [CY [ys [SY VY]]].
  assert (V : forall b, (b < 2)%nat -> entry_of y b 0 0 = exp (- (3)) * cut 3).
  { intros b Hb. assert (Eb : exists v, nth_error rs b = Some v /\ size v = 3).
    { destruct b as [|[|b]]; [| |lia]; eexists; (split; [reflexivity|]); [apply (glow_distance (0, 1)%nat); now left|apply (glow_distance (1, 0)%nat); right; now left]. }
    destruct Eb as (v & Eb & Sv). rewrite (VY b v 0%nat 0%nat Eb ltac:(cbn; lia) ltac:(cbn; lia)), Sv. cbn [M f_model float_glow glow m_radial m_cutoff m_damping Molecule_Props.factor Nat.eqb]. rewrite glow_radial.
    destruct (heading v) as [[h1 h2] h3] eqn:Eh. rewrite (proj1 (C21_low_degrees _ _ _ b h1 h2 h3 _ SY ltac:(rewrite nth_error_map, Eb; cbn [option_map]; now rewrite Eh))). replace (1 * 3) with 3 by ring. ring. }
  destruct (C59_entries R 0 rzero real_clebsch_gordan 0 empty_world None IoOk 1 0 0 true rzero_test (cg_ready_empty _ _ _ _) call_ok_serial ltac:(lia) ltac:(lia) ltac:(lia)) as [c [Ec _]].
  assert (C1 : at3 0 c 0 0 0 = 1).
  { assert (Hc : cg_array 1 0 0 true c) by (exists 0%nat, empty_world, None, IoOk; auto using cg_ready_empty, call_ok_serial).
    destruct (C66_scalar_factor 1 0 0 true c 0 0 0 Hc ltac:(cbn; lia) ltac:(lia) ltac:(lia)) as [Q _]. exact (Q ltac:(cbn; lia)). }
  assert (EC : package_cg true 1 0 0 = Ok (at3 0 c)) by (unfold package_cg; now rewrite Ec).
  destruct (glow_step (package_cg true) (at3 0 c) x (fv (edge_features 0 2 1 1 y)) EC X1 X2 X3 X4 X5) as [z [RZ [Z1 [Z2 [Z3 Z4]]]]].
  exists [x; z], z. split.
  - exists e, x, y. split; [exact Ee|]. split; [exact Ax|]. split; [exact Hy|].
    change (edge_cutoffs y) with (match cutoffs y with Some c => Some (fun i => match i with [e] => nth e c 0 | _ => 0 end) | None => None end). rewrite CY. exact RZ.
  - split; [reflexivity|]. assert (CZ : forall n, comp z [n] 0 0 0 0 = fv z [n] 0%nat 0%nat 0%nat) by (intros n; unfold comp; rewrite Z1, Z2; reflexivity).
    cbn [dumbbell atoms rsum]. rewrite !CZ, Z3, Z4, !XV, C1 by lia. cbn [edge_features fv]. cbn [Nat.ltb Nat.leb andb Z.to_nat Pos.to_nat Pos.iter_op].
    rewrite (V 0%nat), (V 1%nat) by lia. change (Pos.to_nat 1) with 1%nat. cbn [Nat.leb]. ring.
Qed.

(** All machines that are precise enough find an energy close to this number, whatever the orders of evaluation. *)
Example C96_case erf derf empty e table : erf_rule erf derf -> table_read 1 table -> adds_atoms 2 e ->
  exists us u, float_predict erf derf (1 / 4) empty float_glow table (dumbbell two_positions) = Ok us /\ nth_error us 1 = Some u /\ approaches (fun m => on m (float_total e u 0)) (2 * (exp (- (3)) * cut 3)).
Proof.
  intros ER TR AE. destruct (C96_admissible erf) as (t0 & PM & RM & _ & PA & CE & AP & RG).
  apply (C96_total erf derf (1 / 4) empty float_glow glow_exceptions table (dumbbell two_positions) 1 0 _ e ER ltac:(lra)); [|exact glow_total|exact AE].
  split; [exact PM|]. split; [exact RM|]. split; [exact TR|]. auto.
Qed.
