(** From the positions of the atoms to predictions, for families of positions with coordinates in a class of functions. *)
Require Import String List Reals ZArith Bool Lia Lra Permutation.
Require Import ZifyNat.
Require Import Verif.Base Verif.RSum Verif.Common_Proofs Verif.Features_Model Verif.Features_Spec Verif.Features_Proofs Verif.Modules_Model Verif.Modules_Spec Verif.Modules_Graph_Spec Verif.Modules_Equiv_Proofs
  Verif.Rotations_Model Verif.Rotations_Spec Verif.Rotations_Proofs Verif.Symbolic_Model Verif.Poly_Proofs Verif.Symbolic_Proofs Verif.Harmonics_Basis_Proofs Verif.Irreps_Model Verif.Irreps_Spec Verif.Irreps_Proofs Verif.Irreps_Laws_Proofs
  Verif.Wrappers_Model Verif.Wrappers_Spec Verif.Wrappers_Proofs Verif.Embed_Model Verif.Embed_Spec
  Verif.Equivariance_Spec Verif.Equivariance_Props Verif.Structure_Props Verif.Network_Spec Verif.Network_Props Verif.Shapes_Proofs Verif.Locality_Spec Verif.Locality_Proofs Verif.Locality_Props
  Verif.Molecule_Spec Verif.Molecule_Props Verif.Cutoff_Props Verif.Regular_Spec Verif.Regular_Proofs.
Import ListNotations.
Open Scope R_scope.

(** Compositions with functions of positive numbers. *)
Definition closed_positive {T : Type} (G : T -> Prop) (K : (T -> R) -> Prop) (g : R -> R) : Prop :=
  forall u, K u -> (forall t, G t -> 0 < u t) -> K (fun t => g (u t)).

Section Molecules.
Variables (T : Type) (t0 : T) (G : T -> Prop) (K : (T -> R) -> Prop).
Hypothesis C : closed_class G K.
Variables (M : model) (A : molecule) (P : T -> nat -> vec).
Hypotheses (PM : proper_model M) (PA : proper_molecule M A) (G0 : G t0).
Hypothesis k_sqrt : closed_positive G K sqrt.
Hypothesis k_inv : closed_positive G K Rinv.
Hypothesis k_exp : has_attention (m_calls M) -> closed_under K exp.
Hypothesis parts : built_from (closed_positive G K) (closed_under K) M.
Hypothesis k_pos : forall n j, (n < atoms A)%nat -> (j < 3)%nat -> K (fun t => coord (P t n) j).
Hypothesis apart : forall t, G t -> forall e, In e (pairs A) -> distance (with_positions A (P t)) e <> 0.
Hypothesis close : forall t, G t -> close_enough M (with_positions A (P t)).

Let Q := length (pairs A).
Let dst := map fst (pairs A).
Let src := map snd (pairs A).
Definition edge_vector (t : T) (e : nat) : vec := plus (P t (nth e src 0%nat)) (times (-1) (P t (nth e dst 0%nat))).
Let DD := (degrees (m_degree M) * degrees (m_degree M))%nat.
Let num := Z.to_nat (m_num M).

Lemma edge_pair : forall e, (e < Q)%nat -> nth_error (pairs A) e = Some (nth e dst 0%nat, nth e src 0%nat).
Proof using. intros e He. exact (pairs_nth (pairs A) e He). Qed.
Lemma edge_ends : forall e, (e < Q)%nat -> (nth e dst 0%nat < atoms A)%nat /\ (nth e src 0%nat < atoms A)%nat.
Proof using PA. intros e He. destruct PA as [_ [H _]]. rewrite Forall_forall in H. exact (H _ (nth_error_In _ _ (edge_pair e He))). Qed.

Lemma k_edge : forall e j, (e < Q)%nat -> (j < 3)%nat -> K (fun t => coord (edge_vector t e) j).
Proof using C PA k_pos.
  intros e j He Hj. destruct (edge_ends e He) as [H1 H2].
  apply (k_eq _ G K C (fun t => coord (P t (nth e src 0%nat)) j + (-1) * coord (P t (nth e dst 0%nat)) j)).
  - intros t. unfold edge_vector. destruct (P t (nth e src 0%nat)) as [[a b] c], (P t (nth e dst 0%nat)) as [[x y] z]. destruct j as [|[|j]]; cbn; ring.
  - apply (kc_plus _ _ C); [now apply k_pos|apply (kc_mult _ _ C); [exact (kc_const _ _ C _)|now apply k_pos]].
Qed.

Lemma size_positive : forall t e, G t -> (e < Q)%nat -> 0 < size (edge_vector t e).
Proof using apart.
  intros t e Ht He. pose proof (apart t Ht _ (nth_error_In _ _ (edge_pair e He))) as H. unfold distance in H. cbn [fst snd with_positions position] in H. fold (edge_vector t e) in H.
  assert (0 <= size (edge_vector t e)) by (unfold size; apply sqrt_pos). lra.
Qed.

Lemma k_size : forall e, (e < Q)%nat -> K (fun t => size (edge_vector t e)).
Proof using C PA k_pos k_sqrt apart.
  intros e He.
  apply (k_eq _ G K C (fun t => sqrt (coord (edge_vector t e) 0 * coord (edge_vector t e) 0 + coord (edge_vector t e) 1 * coord (edge_vector t e) 1 + coord (edge_vector t e) 2 * coord (edge_vector t e) 2))).
  - intros t. unfold size. destruct (edge_vector t e) as [[a b] c]. cbn. f_equal.
  - apply k_sqrt.
    + repeat first [apply (kc_plus _ _ C)|apply (kc_mult _ _ C)|apply k_edge]; auto.
    + intros t Ht. pose proof (size_positive t e Ht He) as H. unfold size in H. destruct (edge_vector t e) as [[a b] c]. cbn in *. destruct (Rle_lt_dec (a * a + b * b + c * c) 0) as [X|X]; [|exact X]. rewrite sqrt_neg_0 in H by exact X. lra.
Qed.

Lemma k_heading : forall e j, (e < Q)%nat -> (j < 3)%nat -> K (fun t => coord (heading (edge_vector t e)) j).
Proof using C PA k_pos k_sqrt k_inv apart.
  intros e j He Hj. apply (kc_ext _ _ C (fun t => / size (edge_vector t e) * coord (edge_vector t e) j)).
  - intros t Ht. pose proof (size_positive t e Ht He) as H. unfold heading. destruct (Req_EM_T (size (edge_vector t e)) 0) as [X|X]; [lra|]. unfold unit_of, size. destruct (edge_vector t e) as [[a b] c]. destruct j as [|[|j]]; cbn [coord times]; unfold Rdiv; ring.
  - apply (kc_mult _ _ C); [|now apply k_edge]. apply k_inv; [now apply k_size|]. intros t Ht. now apply size_positive.
Qed.

Lemma k_pow : forall u n, K u -> K (fun t => u t ^ n).
Proof using C. intros u n H. induction n as [|n IH]; [exact (kc_const _ _ C 1)|]. apply (k_eq _ G K C (fun t => u t * u t ^ n)); [reflexivity|]. now apply (kc_mult _ _ C). Qed.

Lemma k_peval : forall q (v : T -> vec), (forall j, (j < 3)%nat -> K (fun t => coord (v t) j)) -> K (fun t => peval q (v t)).
Proof using C.
  intros q v H. unfold peval. induction q as [|[c k] q IH]; [exact (kc_const _ _ C 0)|].
  apply (k_eq _ G K C (fun t => c * mono_at (v t) k + lin (mono_at (v t)) q)); [reflexivity|]. apply (kc_plus _ _ C); [|exact IH]. apply (kc_mult _ _ C); [exact (kc_const _ _ C c)|].
  destruct k as [[a b] d]. apply (k_eq _ G K C (fun t => coord (v t) 0 ^ a * coord (v t) 1 ^ b * coord (v t) 2 ^ d)); [intros t; destruct (v t) as [[x y] z]; reflexivity|].
  repeat apply (kc_mult _ _ C); apply k_pow; apply H; auto.
Qed.

(** ** The inputs of the network as functions of t *)

Definition solid_value (v : vec) (d : nat) : R := const_of "racah"%string (Nat.sqrt d) * peval (Yi (Nat.sqrt d) (pos (m_cartesian M) (Nat.sqrt d) (d - Nat.sqrt d * Nat.sqrt d))) v.
Definition basis_entry (t : T) (e d f : nat) : R :=
  solid_value (heading (edge_vector t e)) d * (nth f (m_radial M (size (edge_vector t e))) 0 * factor (m_cutoff M) (size (edge_vector t e)) * (if (d =? 0)%nat then 1 else factor (m_damping M) (size (edge_vector t e)))).
Definition the_basis (t : T) : feat :=
  mkFeat [Q] 1 DD num (m_dtype M) (fun i _ d f => match i with [e] => if (e <? Q)%nat && (d <? DD)%nat && (f <? num)%nat then basis_entry t e d f else 0 | _ => 0 end).
Definition the_cutoff : option (T -> list nat -> R) :=
  if m_return_cutoff M then Some (fun t i => match i with [e] => if (e <? Q)%nat then factor (m_cutoff M) (size (edge_vector t e)) else 0 | _ => 0 end) else None.
Definition the_nodes : feat :=
  mkFeat [atoms A] 1 1 (m_features M) (m_dtype M) (fun i _ _ f => match i with [n] => m_embedding M (Z.to_nat (number A n)) f | _ => 0 end).

Lemma k_factor : forall c e, (e < Q)%nat -> (forall g, c = Some g -> closed_positive G K g) -> K (fun t => factor c (size (edge_vector t e))).
Proof using C PA k_pos k_sqrt apart.
  intros [c|] e He H; cbn [factor]; [|exact (kc_const _ _ C 1)]. apply (H c eq_refl); [now apply k_size|]. intros t Ht. now apply size_positive.
Qed.

Lemma basis_regular : regular_opt T K (length dst) (Some the_basis).
Proof using C PA k_pos k_sqrt k_inv apart parts.
  destruct parts as [P1 [P2 [P3 _]]]. cbn [regular_opt]. unfold dst. rewrite map_length. fold Q. exists 1%nat, DD, num, (m_dtype M). split; [intros t; cbn; auto|]. intros e s d f. cbn [the_basis fv].
  destruct (Nat.ltb_spec e Q) as [He|]; [|exact (kc_const _ _ C 0)]. destruct (d <? DD)%nat; [|exact (kc_const _ _ C 0)]. destruct (f <? num)%nat; [|exact (kc_const _ _ C 0)]. cbn [andb]. unfold basis_entry, solid_value.
  repeat apply (kc_mult _ _ C).
  - exact (kc_const _ _ C _).
  - apply k_peval. intros j Hj. now apply k_heading.
  - apply P1; [now apply k_size|]. intros t Ht. now apply size_positive.
  - now apply k_factor.
  - destruct (d =? 0)%nat; [exact (kc_const _ _ C 1)|now apply k_factor].
Qed.

Lemma nodes_regular : Forall (regular T K (atoms A)) [fun _ => the_nodes].
Proof using C. constructor; [|constructor]. exists 1%nat, 1%nat, (m_features M), (m_dtype M). split; [intros t; cbn; auto|]. intros. cbn. exact (kc_const _ _ C _). Qed.

Lemma cutoff_regular : match the_cutoff with Some c => forall e, K (fun t => c t [e]) | None => True end.
Proof using C PA k_pos k_sqrt apart parts.
  unfold the_cutoff. destruct (m_return_cutoff M); [|exact I]. intros e. destruct (Nat.ltb_spec e Q) as [He|]; [|exact (kc_const _ _ C 0)]. apply k_factor; [exact He|apply parts].
Qed.

(** ** Comparison with what [basis] returns *)

Lemma basis_is : forall t y, basis_of M (with_positions A (P t)) y -> forall e d f, (e < Q)%nat -> (d < DD)%nat -> (f < num)%nat -> entry_of y e d f = basis_entry t e d f.
Proof using PM PA.
  clear C G0 k_sqrt k_inv k_exp parts k_pos apart close K G t0.
  intros t y Hy e d f He Hd Hf. destruct PM as [_ [_ [Ht [HL [Hg Hrc]]]]].
  destruct (basis_values _ _ _ _ _ _ _ _ _ _ _ Ht (some_displacements (with_positions A (P t)) (proj1 PA)) HL Hg Hrc Hy) as [_ [ys [HS V]]].
  pose proof (displacements_nth (P t) (pairs A) _ _ _ (edge_pair e He)) as Ve. fold (edge_vector t e) in Ve.
  rewrite (V e (edge_vector t e)) by assumption. unfold basis_entry. f_equal. apply solid_inv in HS as [_ HS]. cbn [with_positions position pairs] in HS.
  assert (Ex : nth_error (map heading (displacements (P t) (pairs A))) e = Some (heading (edge_vector t e))) by (rewrite nth_error_map, Ve; reflexivity).
  assert (RW : exists row, nth_error ys e = Some row /\ row_of (Z.to_nat (m_degree M)) (m_cartesian M) "racah"%string (heading (edge_vector t e)) row).
  { clear -HS Ex. revert HS Ex. generalize (map heading (displacements (P t) (pairs A))). intros l HS. revert e. generalize (heading (edge_vector t 0)) as dummy. intros _ e.
    generalize (heading (edge_vector t e)). revert e. induction HS as [|v r l l' H _ IH]; intros [|e] w E; try discriminate; cbn in *; [injection E as ->; eauto|now apply IH]. }
  destruct RW as [row [Er [_ HR]]]. unfold at2. rewrite (nth_error_nth _ _ [] Er). unfold solid_value.
  destruct (block_decomp d) as [l [k [-> [Hk El]]]]. rewrite <- El. replace (l * l + k - l * l)%nat with k by lia. apply HR; [|exact Hk]. unfold DD, degrees in Hd. nia.
Qed.

Lemma cutoff_is : forall t y, basis_of M (with_positions A (P t)) y -> forall i, cutoff_at (cut_of T the_cutoff t) i = cutoff_at (edge_cutoffs y) i.
Proof using PM PA.
  clear C G0 k_sqrt k_inv k_exp parts k_pos apart close K G t0.
  intros t y Hy i. destruct PM as [_ [_ [Ht [HL [Hg Hrc]]]]].
  destruct (basis_values _ _ _ _ _ _ _ _ _ _ _ Ht (some_displacements (with_positions A (P t)) (proj1 PA)) HL Hg Hrc Hy) as [HC _]. unfold edge_cutoffs, the_cutoff, cut_of. rewrite HC.
  destruct (m_return_cutoff M); [|reflexivity]. cbn [option_map cutoff_at]. destruct i as [|e [|? ?]]; try reflexivity. cbn [with_positions position pairs]. destruct (Nat.ltb_spec e Q) as [He|He].
  - symmetry. apply nth_error_nth. rewrite nth_error_map. rewrite (displacements_nth (P t) (pairs A) _ _ _ (edge_pair e He)). reflexivity.
  - rewrite nth_overflow; [reflexivity|]. unfold displacements. rewrite !map_length. exact He.
Qed.

Definition the_scene (t : T) : scene :=
  mkScene [the_nodes] (Some (the_basis t)) (cut_of T the_cutoff t) (sparse_graph dst src) (atoms A) [].

Lemma same_scene : forall t x y e, embed (m_species M) (m_features M) None (m_dtype M) (m_embedding M) true [atoms A] (fun i => number A (nth 0 i 0%nat)) = Ok e -> as_features e x ->
  basis_of M (with_positions A (P t)) y -> carries (molecule_scene M (with_positions A (P t)) x y) (the_scene t) (fun n => n).
Proof using PM PA.
  clear C G0 k_sqrt k_inv k_exp parts k_pos apart close K G t0.
  intros t x y e Ee Ax Hy n Hn. cbn [molecule_scene s_nodes with_positions atoms] in Hn. destruct (embed_part M A e x Ee Ax) as [X1 [X2 [X3 [X4 [X5 XV]]]]]. split.
  - split; [exact Hn|]. split; [exact Hn|]. cbn [molecule_scene the_scene s_inputs s_at app]. constructor; [|constructor]. unfold alike. cbn [the_nodes fS fD fF fdt fv]. rewrite X2, X3, X4, X5. repeat (split; [reflexivity|]).
    intros p d f Hp Hd. replace p with 0%nat by lia. replace d with 0%nat by lia. symmetry. apply XV; [exact Hn|]. now apply PA.
  - unfold matched. cbn [molecule_scene the_scene s_graph s_nodes s_at with_positions pairs atoms]. fold dst src. exists (incoming (sparse_graph dst src) (atoms A) [] n). split; [apply Permutation_refl|].
    assert (X : Forall (fun e => exists k, (k < Q)%nat /\ fst e = [k]) (incoming (sparse_graph dst src) (atoms A) [] n)).
    { apply Forall_forall. intros e0 He. apply sparse_in in He as [k [Hk [_ ->]]]. exists k. split; [|reflexivity]. unfold dst in Hk. now rewrite map_length in Hk. }
    revert X. generalize (incoming (sparse_graph dst src) (atoms A) [] n). intros l X. induction X as [|e0 l [k [Hk Ek]] _ IH]; constructor; [|exact IH]. split; [|reflexivity]. rewrite Ek. split.
    + cbn [molecule_scene the_scene s_basis with_positions pairs]. fold Q. unfold alike. cbn [the_basis edge_features fS fD fF fdt fv]. repeat (split; [reflexivity|]).
      intros p d f Hp Hd. fold DD in Hd. fold num. destruct (Nat.ltb_spec k Q); [|lia]. destruct (Nat.ltb_spec d DD); [|lia]. destruct (Nat.ltb_spec f num) as [Hf|]; [|reflexivity]. cbn [andb]. symmetry. now apply basis_is.
    + cbn [molecule_scene the_scene s_cutoff]. now apply cutoff_is.
Qed.

Lemma good_source : good_graph (sparse_graph dst src) (atoms A) [].
Proof using PA.
  apply sparse_good; [unfold src, dst; now rewrite !map_length|]. unfold src. apply Forall_map. destruct PA as [_ [H _]]. revert H. apply Forall_impl. tauto.
Qed.

Lemma the_good_cutoffs : forall t, G t -> has_attention (m_calls M) -> good_cutoffs (sparse_graph dst src) (cut_of T the_cutoff t) (atoms A) [].
Proof using PM PA close.
  intros t Ht HA. destruct PM as [_ [_ [Ht' [HL [Hg Hrc]]]]].
  destruct (basis_exists (m_tiny M) (displacements (P t) (pairs A)) (m_degree M) (m_num M) (m_radial M) (m_cutoff M) (m_damping M) (m_return_cutoff M) false (m_cartesian M) Ht' (some_displacements (with_positions A (P t)) (proj1 PA)) HL Hg Hrc) as [y Hy].
  destruct (cutoffs_good M (with_positions A (P t)) y PM (proj1 PA) (close t Ht) HA Hy) as [H1 H2]. cbn [with_positions pairs atoms] in H2. fold dst src in H2. split.
  - intros i. rewrite (cutoff_is t y Hy). apply H1.
  - intros n Hn Hne. specialize (H2 n Hn Hne). revert H2. apply Exists_impl. intros e. rewrite (cutoff_is t y Hy). auto.
Qed.

Lemma fine_calls : Forall (fine_call T G K dst the_cutoff) (m_calls M).
Proof using C PM PA k_pos k_sqrt k_inv k_exp apart parts close.
  apply Forall_forall. intros c Hc. destruct c as [| | | |i j o pp|i act| |]; cbn [fine_call]; try exact I.
  - assert (HA : has_attention (m_calls M)) by (exists i, j, o, pp; exact Hc). repeat split.
    + exact (k_exp HA).
    + exact k_inv.
    + exact cutoff_regular.
    + intros e. apply (the_good_cutoffs t H HA).
    + intros e He. assert (He' : (e < Q)%nat) by (unfold dst in He; now rewrite map_length in He).
      destruct (the_good_cutoffs t H HA) as [_ H2]. specialize (H2 (nth e dst 0%nat) (proj1 (edge_ends e He'))).
      assert (NE : incoming (sparse_graph dst src) (atoms A) [] (nth e dst 0%nat) <> []).
      { intros X. assert (IN : In ([] ++ [e], nth e src 0%nat) (incoming (sparse_graph dst src) (atoms A) [] (nth e dst 0%nat))) by (apply sparse_in; exists e; auto). rewrite X in IN. destruct IN. }
      specialize (H2 NE). apply Exists_exists in H2 as [e' [IN HP]]. apply sparse_in in IN as [k [Hk [En ->]]]. exists k. auto.
  - destruct parts as [_ [_ [_ P4]]]. exact (P4 i act Hc).
Qed.

(** ** Predictions *)

Lemma predictions_regular : forall k, (exists ys y, predicts M (with_positions A (P t0)) ys /\ nth_error ys k = Some y) ->
  exists z : T -> feat, regular T K (atoms A) z /\ (forall t, has_scalars (z t)) /\
    forall t ys y, G t -> predicts M (with_positions A (P t)) ys -> nth_error ys k = Some y -> forall n, (n < atoms A)%nat -> alike y [n] (z t) [n].
Proof using C PM PA G0 k_pos k_sqrt k_inv k_exp apart parts close.
  intros k [ys0 [y0 [[e0 [x0 [b0 [Ee0 [Ax0 [Hb0 H0]]]]]] Hk0]]]. pose proof PM as [HP [Hc _]]. cbn [with_positions pairs atoms number position] in *. fold dst src in H0.
  destruct (embed_part M A e0 x0 Ee0 Ax0) as [X1 [X2 [X3 [X4 [X5 _]]]]].
  assert (SC : Forall has_scalars [x0]) by (constructor; [|constructor]; exists 0%nat; split; [now left|exact X3]).
  assert (RUN : forall t, exists zs, Network_Spec.run (m_cg M) (m_low M) (m_high M) (Some (the_basis t)) (cut_of T the_cutoff t) (sparse_graph dst src) [the_nodes] (m_calls M) = Ok zs).
  { intros t. destruct (run_like (m_cg M) (m_low M) (m_high M) (C67_checked _ _ HP) (Some (edge_features (m_dtype M) (length (pairs A)) (m_degree M) (m_num M) b0)) (Some (the_basis t))
      (edge_cutoffs b0) (cut_of T the_cutoff t) (sparse_graph dst src) (sparse_graph dst src) (m_calls M) [x0] [the_nodes] ys0 Hc SC) as [zs [Hz _]].
    - constructor; [|constructor]. unfold like. cbn [the_nodes fB fS fD fF fdt]. repeat split; congruence.
    - cbn [like_opt]. unfold like. cbn [the_basis edge_features fB fS fD fF fdt]. repeat split.
    - repeat split; auto.
    - exact H0.
    - exists zs. exact Hz. }
  pose (zs := fun t => match Network_Spec.run (m_cg M) (m_low M) (m_high M) (Some (the_basis t)) (cut_of T the_cutoff t) (sparse_graph dst src) [the_nodes] (m_calls M) with Ok l => l | Err _ => [] end).
  assert (HZ : forall t, Network_Spec.run (m_cg M) (m_low M) (m_high M) (Some (the_basis t)) (cut_of T the_cutoff t) (sparse_graph dst src) [the_nodes] (m_calls M) = Ok (zs t)) by (intros t; unfold zs; destruct (RUN t) as [l ->]; reflexivity).
  assert (SN : Forall has_scalars [the_nodes]) by (constructor; [|constructor]; exists 0%nat; split; [now left|reflexivity]).
  assert (DI : Forall (fun n => (n < atoms A)%nat) dst) by (unfold dst; apply Forall_map; destruct PA as [_ [H _]]; revert H; apply Forall_impl; tauto).
  assert (LE : length src = length dst) by (unfold src, dst; now rewrite !map_length).
  destruct (run_regular T t0 G K C (m_cg M) dst src (atoms A) (m_low M) (m_high M) (Some the_basis) the_cutoff LE DI basis_regular (m_calls M) [fun _ => the_nodes] zs fine_calls nodes_regular HZ) as [gs [Vg Eg]].
  assert (LK : (k < length gs)%nat).
  { pose proof (run_length _ _ _ _ _ _ _ _ _ H0) as L1. pose proof (run_length _ _ _ _ _ _ _ _ _ (HZ t0)) as L2. rewrite Eg in L2. unfold at_all in L2. rewrite map_length in L2. assert (k < length ys0)%nat by (apply nth_error_Some; congruence). cbn [length] in L1, L2. lia. }
  destruct (nth_error gs k) as [z|] eqn:Ez; [|apply nth_error_None in Ez; lia]. exists z. split; [rewrite Forall_forall in Vg; exact (Vg z (nth_error_In _ _ Ez))|].
  assert (NZ : forall t, nth_error (zs t) k = Some (z t)) by (intros t; rewrite Eg; unfold at_all; rewrite nth_error_map, Ez; reflexivity). split.
  - intros t. pose proof (run_scalars (m_cg M) (m_low M) (m_high M) (C67_checked _ _ HP) _ _ _ _ _ _ Hc SN (HZ t)) as S1. rewrite Forall_forall in S1. exact (S1 _ (nth_error_In _ _ (NZ t))).
  - intros t ys y Ht [e [x [b [Ee [Ax [Hb H]]]]]] Hk n Hn. cbn [with_positions pairs atoms number position] in *. fold dst src in H.
    destruct (embed_part M A e x Ee Ax) as [Y1 [Y2 [Y3 [Y4 [Y5 _]]]]].
    pose proof (C70_carries (m_cartesian M) (m_cg M) (m_low M) (m_high M) (molecule_scene M (with_positions A (P t)) x b) (the_scene t) (fun n => n) (m_calls M) ys (zs t) HP Hc) as F.
    assert (F2 : Forall2 (fun y y' => alike y [n] y' [n]) ys (zs t)).
    { apply F; auto.
      - split; [exists []; constructor; [|constructor]; split; [exists 0%nat; split; [now left|exact Y3]|exact Y1]|]. intros bs E. injection E as <-. exists (Z.to_nat (m_degree M)). split; [now left|]. cbn [edge_features fD]. unfold degrees. f_equal; lia.
      - split; [exists []; constructor; [|constructor]; split; [exists 0%nat; split; [now left|reflexivity]|reflexivity]|]. intros bs E. injection E as <-. exists (Z.to_nat (m_degree M)). split; [now left|]. cbn [the_basis fD]. unfold DD, degrees. f_equal; lia.
      - repeat split.
      - exact good_source.
      - exact good_source.
      - intros HA. split; [|now apply the_good_cutoffs]. exact (cutoffs_good M (with_positions A (P t)) b PM (proj1 PA) (close t Ht) HA Hb).
      - exact (HZ t).
      - exact (same_scene t x b e Ee Ax Hb). }
    clear -F2 Hk NZ. revert F2 Hk. specialize (NZ t). revert NZ. generalize (zs t). intros l NZ F2. revert k NZ. induction F2 as [|a b l l' H _ IH]; intros [|k] NZ Hk; try discriminate; cbn in *; [congruence|exact (IH k NZ Hk)].
Qed.
End Molecules.
