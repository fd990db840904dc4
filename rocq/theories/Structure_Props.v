(** Property C68: rotating or reflecting a whole structure.  The displacement vectors of the edges are
    given to [basis], its values to message passing or attention. *)
Require Import String List Reals ZArith Bool Lia Lra.
Require Import Verif.Base Verif.RSum.
Require Import Verif.Features_Model Verif.Features_Spec Verif.Features_Proofs Verif.Common_Proofs Verif.Modules_Model Verif.Modules_Spec Verif.Modules_Graph_Spec
  Verif.Modules_Props Verif.Modules_Graph_Props.
Require Import Verif.LUT_Model Verif.LUT_Spec Verif.LUT_Props Verif.Symbolic_Model Verif.Symbolic_Proofs Verif.Rotations_Model Verif.Rotations_Spec
  Verif.Harmonics_Basis_Proofs Verif.Irreps_Model Verif.Irreps_Spec Verif.Irreps_Proofs Verif.Irreps_Wigner_Proofs Verif.Irreps_Laws_Proofs Verif.Irreps_Props
  Verif.Clebsch_Model Verif.CGTable_Proofs Verif.Clebsch_Props Verif.Wrappers_Model Verif.Wrappers_Spec Verif.Wrappers_Proofs Verif.Wrappers_Props Verif.Equivariance_Spec Verif.Equivariance_Props.
Import ListNotations.
Open Scope R_scope.
Open Scope list_scope.
Arguments Nat.mul : simpl never.

Definition turned_by (s : R) (m : mat) (r : vec) : vec := times s (act r m).

Lemma orthogonal_negative : forall m, orthogonal m -> orthogonal (negative m).
Proof.
  intros m H i j Hi Hj. destruct (H i j Hi Hj) as [A B]. rewrite <- A. destruct m as [[[[a b] c] [[d e] f]] [[g h] k]].
  split.
  - destruct i as [|[|[|]]]; [| | |lia]; (destruct j as [|[|[|]]]; [| | |lia]); cbn; ring.
  - rewrite A, <- B. destruct i as [|[|[|]]]; [| | |lia]; (destruct j as [|[|[|]]]; [| | |lia]); cbn; ring.
Qed.
Lemma act_negative : forall r m, act r (negative m) = times (-1) (act r m).
Proof. intros [[x y] z] [[[[a b] c] [[d e] f]] [[g h] k]]. cbn. f_equal; [f_equal|]; ring. Qed.
Lemma times_one : forall r, times 1 r = r.
Proof. intros [[x y] z]. cbn. f_equal; [f_equal|]; ring. Qed.

Lemma combine_repeat : forall (A : Type) (f : vec -> A -> vec) (a : A) rs, map (fun p => f (fst p) (snd p)) (combine rs (repeat a (length rs))) = map (fun r => f r a) rs.
Proof. intros A f a rs. induction rs as [|r rs IH]; [reflexivity|]. cbn. now rewrite IH. Qed.
Lemma nth_error_repeat : forall (A : Type) (a : A) n i, (i < n)%nat -> nth_error (repeat a n) i = Some a.
Proof. intros A a n. induction n as [|n IH]; intros i Hi; [lia|]. destruct i; [reflexivity|]. cbn. apply IH. lia. Qed.

Section Structure.
Variables (cartesian : bool) (cgf : Z -> Z -> Z -> result (nat -> nat -> nat -> R)) (m : mat) (D : nat -> nat -> R) (s : R).
Hypothesis package : uses_package cartesian cgf.
(** A rotation [m], or with s = -1 the rotation followed by the inversion. *)
Hypothesis proper : proper_rotation m.
Hypothesis matrices : wigner_matrix cartesian m D.
Hypothesis sign : s = 1 \/ s = -1.
(** The displacement vectors of a non-empty list of edges, and arguments of [basis] whose callables
    succeed. *)
Variables (tiny : R) (rs : list vec) (L num : Z) (radial_fn : list R -> Z -> result (list (list R)))
  (cutoff_fn damping_fn : option (list R -> result (list R))) (return_cutoff return_norm : bool) (g : list (list R)) (cut dmp : list R).
Hypothesis Htiny : 0 < tiny.
Hypothesis Hrs : rs <> [].
Hypothesis HL : (0 <= L)%Z.
Hypothesis Hg : radial_values radial_fn num rs g.
Hypothesis Hcut : factor_values cutoff_fn rs cut.
Hypothesis Hdmp : factor_values damping_fn rs dmp.
Hypothesis Hrc : return_cutoff = true -> cutoff_fn <> None.
Variables (dtype : nat) (y y' : basis_output).
Hypothesis Hy : basis_returns tiny rs L num radial_fn cutoff_fn return_cutoff return_norm damping_fn cartesian y.
Hypothesis Hy' : basis_returns tiny (map (turned_by s m) rs) L num radial_fn cutoff_fn return_cutoff return_norm damping_fn cartesian y'.

Let M : mat := if Req_EM_T s 1 then m else negative m.
Lemma M_rotation : s = 1 -> M = m.
Proof. intros E. unfold M. destruct (Req_EM_T s 1); [reflexivity|contradiction]. Qed.
Lemma M_reflection : s <> 1 -> M = negative m.
Proof. intros E. unfold M. destruct (Req_EM_T s 1); [contradiction|reflexivity]. Qed.
Lemma Rcase : forall r : R, r = 1 \/ r <> 1.
Proof. intros r. destruct (Req_EM_T r 1); auto. Qed.
Lemma M_orthogonal : orthogonal M.
Proof. unfold M. destruct (Req_EM_T s 1); [|apply orthogonal_negative]; now apply rotation_orthogonal. Qed.
Lemma act_M : forall r, act r M = turned_by s m r.
Proof.
  intros r. unfold M, turned_by. destruct (Req_EM_T s 1) as [->|N]; [now rewrite times_one|]. destruct sign as [->| ->]; [contradiction|]. apply act_negative.
Qed.

(** Rotated vectors give rotated values, and the same cutoffs and norms. *)
Theorem C68_basis : transformed s (fun _ => D) (edge_features dtype (length rs) L num y) (edge_features dtype (length rs) L num y')
  /\ cutoffs y' = cutoffs y /\ norms y' = norms y.
Proof.
  assert (SS : s * s = 1) by (destruct sign as [->| ->]; ring).
  assert (SZ : map size (map (turned_by s m) rs) = map size rs).
  { rewrite map_map. apply map_ext. intros r. rewrite <- act_M. apply size_act. apply M_orthogonal. }
  split; [|split].
  - do 5 (split; [reflexivity|]). intros i p l k f Hp Hk. unfold comp. cbn [fD fS fv edge_features].
    destruct (Nat.leb_spec ((l + 1) * (l + 1)) (degrees L * degrees L)) as [Hl|Hl]; [|rewrite rsum_zero by (intros; ring); ring].
    cbn [Nat.eqb]. destruct (Nat.eqb_spec p (l mod 2)) as [Ep|Ep]; [|rewrite rsum_zero by (intros; ring); ring].
    assert (Hlt : (l < degrees L)%nat) by nia.
    destruct i as [|e [|]]; [rewrite rsum_zero by (intros; ring); ring| |rewrite rsum_zero by (intros; ring); ring].
    destruct (Nat.ltb_spec e (length rs)) as [He|He]; cbn [andb]; [|rewrite rsum_zero by (intros; ring); ring].
    destruct (Nat.ltb_spec f (Z.to_nat num)) as [Hf|Hf]; [|rewrite rsum_zero by (intros; ring); ring].
    destruct (wigner_exists (repeat M (length rs)) L cartesian HL) as [ds Hd].
    assert (EM : nth_error (repeat M (length rs)) e = Some M) by (now apply nth_error_repeat).
    rewrite (C51_rotate tiny rs _ (repeat M (length rs)) L num radial_fn cutoff_fn return_cutoff return_norm damping_fn cartesian g cut dmp y y' ds e (l * l + k) f
      Htiny Hrs HL Hg Hcut Hdmp Hrc (repeat_length M (length rs)) (proj2 (Forall_forall _ _) (fun x Hx => eq_ind_r orthogonal M_orthogonal (repeat_spec _ _ _ Hx))) eq_refl Hy).
    2:{ rewrite (combine_repeat _ act). rewrite (map_ext _ _ act_M). exact Hy'. }
    2:{ exact Hd. } 2:{ exact He. } 2:{ nia. } 2:{ exact Hf. }
    destruct (C25_block_diagonal _ _ _ _ _ _ Hd EM) as [_ Z].
    rewrite (block_sum L l) by (exact Hlt || (intros l' x Hl' Hx N; rewrite (Z l' l x k) by assumption; ring)).
    rewrite <- rsum_scal_l. apply rsum_ext; intros x Hx.
    assert (E : at3 0 ds e (l * l + x) (l * l + k) = parity_sign s p * D (l * l + x)%nat (l * l + k)%nat); [|rewrite E; ring].
    destruct (matrices L HL) as [ms [a [ds0 [Em [Hd0 V]]]]]. rewrite V by nia. unfold parity_sign. destruct (Rcase s) as [E1|N1].
    + pose proof (M_rotation E1) as EMm. rewrite EMm in EM, Hd.
      rewrite E1. replace (if (p =? 1)%nat then 1 else 1) with 1 by (destruct (p =? 1)%nat; reflexivity). rewrite Rmult_1_l.
      apply wigner_inv in Hd as [_ Hd]. apply wigner_inv in Hd0 as [_ Hd0].
      destruct (Forall2_get _ _ _ _ _ [] _ _ Hd EM) as [[_ [_ A]] _]. destruct (Forall2_get _ _ _ _ _ [] _ _ Hd0 Em) as [[_ [_ B]] _]. unfold degrees in Hlt.
      specialize (A l l x k ltac:(lia) ltac:(lia) Hx Hk). specialize (B l l x k ltac:(lia) ltac:(lia) Hx Hk). unfold at3, at2 in *. now rewrite A, B.
    + pose proof (M_reflection N1) as EMm. rewrite EMm in EM, Hd. assert (s = -1) as -> by (destruct sign; [contradiction|assumption]).
      rewrite (C25_parity _ _ _ _ _ _ a e m l x k Hd0 Hd Em EM Hlt Hx Hk). f_equal. rewrite Ep. pose proof (Nat.mod_upper_bound l 2 ltac:(lia)).
      destruct (Nat.even l) eqn:Ev.
      * apply Nat.even_spec in Ev as [q ->]. rewrite Nat.mul_comm, Nat.mod_mul by lia. reflexivity.
      * assert (O : Nat.odd l = true) by (unfold Nat.odd; now rewrite Ev). apply Nat.odd_spec in O as [q ->].
        replace (2 * q + 1)%nat with (1 + q * 2)%nat by lia. rewrite Nat.mod_add by lia. reflexivity.
  - assert (Hg' : radial_values radial_fn num (map (turned_by s m) rs) g) by (unfold radial_values in *; rewrite SZ, map_length; exact Hg).
    assert (HF : forall h v, factor_values h rs v -> factor_values h (map (turned_by s m) rs) v) by (intros [h|] v H; unfold factor_values in *; [rewrite SZ, map_length; exact H|now rewrite map_map]).
    assert (Hne' : map (turned_by s m) rs <> []) by (destruct rs; [contradiction|discriminate]).
    destruct (basis_inv _ _ _ _ _ _ _ _ _ _ _ _ _ _ Htiny Hrs HL Hg Hcut Hdmp Hrc Hy) as (ys & _ & -> & _).
    destruct (basis_inv _ _ _ _ _ _ _ _ _ _ _ _ _ _ Htiny Hne' HL Hg' (HF _ _ Hcut) (HF _ _ Hdmp) Hrc Hy') as (ys' & _ & -> & _). reflexivity.
  - assert (Hg' : radial_values radial_fn num (map (turned_by s m) rs) g) by (unfold radial_values in *; rewrite SZ, map_length; exact Hg).
    assert (HF : forall h v, factor_values h rs v -> factor_values h (map (turned_by s m) rs) v) by (intros [h|] v H; unfold factor_values in *; [rewrite SZ, map_length; exact H|now rewrite map_map]).
    assert (Hne' : map (turned_by s m) rs <> []) by (destruct rs; [contradiction|discriminate]).
    destruct (basis_inv _ _ _ _ _ _ _ _ _ _ _ _ _ _ Htiny Hrs HL Hg Hcut Hdmp Hrc Hy) as (ys & _ & _ & -> & _).
    destruct (basis_inv _ _ _ _ _ _ _ _ _ _ _ _ _ _ Htiny Hne' HL Hg' (HF _ _ Hcut) (HF _ _ Hdmp) Hrc Hy') as (ys' & _ & _ & -> & _). now rewrite SZ.
Qed.

Lemma constant_rotations : rotations cartesian (fun _ => m) (fun _ => D).
Proof. intros b. split; [exact proper|exact matrices]. Qed.

(** Message passing on a sparse list of edges: if the vectors of all edges and the features of all
    nodes are rotated or reflected, so is the result. *)
Theorem C68_message_pass : forall max_degree include use_basis_bias P x x' w gr z, (forall d, max_degree = Some d -> (0 <= d)%Z) ->
  well_formed x -> (forall w0, w = Some w0 -> scalar_weights gr x w0) -> transformed s (fun _ => D) x x' ->
  message_pass cgf max_degree include use_basis_bias P x (Some (edge_features dtype (length rs) L num y)) w gr = Ok z ->
  exists z', message_pass cgf max_degree include use_basis_bias P x' (Some (edge_features dtype (length rs) L num y')) w gr = Ok z' /\ transformed s (fun _ => D) z z'.
Proof.
  intros md incl ub P x x' w gr z Hmd Vx Hw Tx E. destruct C68_basis as [TB _].
  apply (C67_message_pass cartesian cgf (fun _ => m) (fun _ => D) package constant_rotations s md incl ub P x x' (Some (edge_features dtype (length rs) L num y)) (Some (edge_features dtype (length rs) L num y')) w gr z); try assumption.
  - destruct sign as [->| ->]; ring.
  - unfold on_edges. now destruct (g_adj gr).
Qed.

(** The same for attention. *)
Theorem C68_attention : forall lo hi o P xq xq' xkv xkv' cutoff gr z, (forall d, o_max_degree o = Some d -> (0 <= d)%Z) ->
  transformed s (fun _ => D) xq xq' -> transformed s (fun _ => D) xkv xkv' ->
  multi_head_attention cgf lo hi o P xq xkv (Some (edge_features dtype (length rs) L num y)) cutoff gr = Ok z ->
  exists z', multi_head_attention cgf lo hi o P xq' xkv' (Some (edge_features dtype (length rs) L num y')) cutoff gr = Ok z' /\ transformed s (fun _ => D) z z'.
Proof.
  intros lo hi o P xq xq' xkv xkv' cutoff gr z Hmd Tq Tk E. destruct C68_basis as [TB _].
  apply (C67_attention cartesian cgf (fun _ => m) (fun _ => D) package constant_rotations lo hi s o P xq xq' xkv xkv' (Some (edge_features dtype (length rs) L num y)) (Some (edge_features dtype (length rs) L num y')) cutoff gr z) in E; try assumption.
  - destruct sign as [->| ->]; ring.
  - intros bs Eb. injection Eb as <-. cbn [fD edge_features]. unfold degrees. nia.
  - unfold on_edges. now destruct (g_adj gr).
Qed.

Theorem C68_self_attention : forall lo hi o P x x' cutoff gr z, (forall d, o_max_degree o = Some d -> (0 <= d)%Z) ->
  transformed s (fun _ => D) x x' ->
  self_attention cgf lo hi o P x (Some (edge_features dtype (length rs) L num y)) cutoff gr = Ok z ->
  exists z', self_attention cgf lo hi o P x' (Some (edge_features dtype (length rs) L num y')) cutoff gr = Ok z' /\ transformed s (fun _ => D) z z'.
Proof. intros lo hi o P x x' cutoff gr z Hmd Tx E. unfold self_attention in *. eapply C68_attention; eauto. Qed.
End Structure.
Print Assumptions C68_basis.
Print Assumptions C68_message_pass.
Print Assumptions C68_attention.
Print Assumptions C68_self_attention.

(** Two vectors, a quarter turn with inversion (for message passing and attention see C69_case in
    Network_Props.v and C39_attention_case). *)
Example C68_case : let rs := [(1, 0, 0); (0, 3, 0)] in let radial := fun (n : list R) (_ : Z) => Ok (map (fun x => [x]) n) in
  proper_rotation quarter_turn /\ wigner_matrix true quarter_turn (wigner_entries true quarter_turn) /\ uses_package true (package_cg true) /\
  (exists g, radial_values radial 1 rs g) /\
  exists y y', basis_returns 1 rs 2 1 radial None false true None true y /\ basis_returns 1 (map (turned_by (-1) quarter_turn) rs) 2 1 radial None false true None true y'
    /\ norms y' = Some [1; 3].
Proof.
  intros rs radial. split; [exact quarter_turn_rotation|]. split; [apply wigner_entries_matrix|]. split; [apply package_cg_uses|].
  assert (RV : forall rs, radial_values radial 1 rs (map (fun r => [size r]) rs)).
  { intros rs'. unfold radial_values, radial. rewrite map_map. split; [reflexivity|]. rewrite map_length. split; [reflexivity|]. apply Forall_map, Forall_forall. reflexivity. }
  split; [eexists; apply RV|].
  assert (B : forall rs, rs <> [] -> exists y, basis_returns 1 rs 2 1 radial None false true None true y).
  { intros rs' Hne. destruct (C51_total 1 0 empty_world None IoOk rs' 2 1 radial None false true None true _ _ _ ltac:(lra) Hne sh_ready_empty call_ok_serial ltac:(lia) (RV rs') eq_refl eq_refl ltac:(discriminate)) as [y Ey].
    exists y, 0%nat, empty_world, None, IoOk. auto using sh_ready_empty, call_ok_serial. }
  destruct (B rs ltac:(discriminate)) as [y Hy]. destruct (B (map (turned_by (-1) quarter_turn) rs) ltac:(discriminate)) as [y' Hy'].
  exists y, y'. split; [exact Hy|]. split; [exact Hy'|].
  set (rs' := map (turned_by (-1) quarter_turn) rs) in *.
  destruct (basis_inv 1 rs' 2 1 radial None false true None true (map (fun r => [size r]) rs') (map (fun _ => 1) rs') (map (fun _ => 1) rs') y'
    ltac:(lra) ltac:(discriminate) ltac:(lia) (RV _) eq_refl eq_refl ltac:(discriminate) Hy') as (_ & _ & _ & -> & _).
  unfold rs'. clear.
  unfold rs. cbn [map]. unfold size. cbn. do 2 f_equal; [|f_equal].
  - match goal with |- sqrt ?e = _ => replace e with (1 * 1) by ring end. apply sqrt_square. lra.
  - match goal with |- sqrt ?e = _ => replace e with (3 * 3) by ring end. apply sqrt_square. lra.
Qed.
