(** Property C95: networks with activations and attention approach the networks without rounding when the precision grows. *)
Require Import List Reals ZArith Bool Lra Lia FunctionalExtensionality.
Require Import Verif.Base Verif.RSum Verif.Indexed_Model Verif.Features_Model Verif.Features_Spec Verif.Features_Proofs Verif.Activations_Model Verif.Modules_Model Verif.Modules_Spec Verif.Modules_Proofs Verif.Modules_Graph_Props Verif.Modules_Graph_Spec Verif.Rotations_Spec Verif.Irreps_Spec Verif.Equivariance_Spec Verif.Equivariance_Props Verif.AutoDiff_Model Verif.AutoDiff_Props Verif.Network_Spec Verif.Network_Props
  Verif.Float_Model Verif.Float_Einsum_Model Verif.Float_Einsum_Spec Verif.Float_Einsum_Props Verif.Float_Network_Model Verif.Float_Network_Spec Verif.Float_Network_Proofs Verif.Float_Network_Props Verif.Float_Program_Model Verif.Float_Program_Spec Verif.Float_Program_Proofs Verif.Float_Program_Props Verif.Float_Deep_Model Verif.Float_Deep_Spec Verif.Float_Deep_Proofs.
Import ListNotations.
Open Scope R_scope.
Arguments Nat.mul : simpl never.
Arguments Nat.modulo : simpl never.

(** Whatever the orders of evaluation, a network with activations and attention on a machine accepts the same inputs as the network
    without rounding, and every number of every array approaches that of the network without rounding when the precision grows,
    unless the input of a gate without rounding is one of the points where the gate jumps or changes its formula, or a cutoff in
    attention is negative, or all cutoffs of the edges with the same destination are zero. *)
Theorem C95_network erf derf eps cartesian cgf lo hi cutoff basis g ss ts : erf_rule erf derf -> 0 < eps -> uses_package cartesian cgf ->
  edge_basis basis -> (forall bs, basis = Some bs -> converging bs) -> (forall c, cutoff = Some c -> forall i, converges (c i)) -> Forall proper_step ss -> Forall has_scalars (map value ts) -> Forall converging ts ->
  let cut := option_map (fun c i => exact (c i)) cutoff in
  regular erf eps cgf lo hi (option_map value basis) cut g (map value ts) ss ->
  match run cgf lo hi (option_map value basis) cut g (map value ts) (map (call_of erf eps) ss) with
  | Ok ys => exists us, deep_run erf derf eps cgf lo hi basis cutoff g ts ss = Ok us /\ Forall2 approaches_array us ys
  | Err _ => exists e, deep_run erf derf eps cgf lo hi basis cutoff g ts ss = Err e
  end.
Proof.
  intros ER EP UP HB CB CC PC V C cut RG. assert (S : Forall2 same_feature (map value ts) (map value ts)) by (clear; induction (map value ts); constructor; [apply same_refl|assumption]).
  pose proof (deep_run_limits cartesian cgf erf derf eps UP ER EP lo hi cutoff basis g ss HB CB CC PC ts _ V S C RG) as A. fold cut in A.
  destruct (deep_run erf derf eps cgf lo hi basis cutoff g ts ss) as [us|e], (run cgf lo hi (option_map value basis) cut g (map value ts) (map (call_of erf eps) ss)) as [ys|]; try contradiction; [|now exists e].
  exists us. split; [reflexivity|]. destruct A as [A CU]. remember (map value us) as l eqn:El. clear - A CU El. revert us El CU. induction A as [|x y l ys SX A IH]; intros [|t us] El CU; try discriminate; constructor; inversion CU; subst; injection El as -> ->; [now apply same_limits|now apply IH].
Qed.
Print Assumptions C95_network.

(** Numbers that are stored before the network runs. *)
Theorem C95_given erf derf eps cartesian cgf lo hi cutoff basis g ss xs ys : erf_rule erf derf -> 0 < eps -> uses_package cartesian cgf ->
  (forall bs, basis = Some bs -> (0 < fD bs)%nat /\ well_formed bs) -> Forall proper_step ss -> Forall has_scalars xs ->
  regular erf eps cgf lo hi basis cutoff g xs ss -> run cgf lo hi basis cutoff g xs (map (call_of erf eps) ss) = Ok ys ->
  exists us, deep_run erf derf eps cgf lo hi (option_map given basis) (option_map (fun c i => Operand (stored (c i))) cutoff) g (map given xs) ss = Ok us /\ Forall2 approaches_array us ys.
Proof.
  intros ER EP UP HB PC V RG RY. assert (EX : map value (map (given (V := number)) xs) = xs) by (rewrite map_map, (map_ext _ (fun x => x)); [apply map_id|apply value_given]).
  assert (EB : option_map value (option_map (given (V := number)) basis) = basis) by (destruct basis as [bs|]; [cbn; now rewrite value_given|reflexivity]).
  assert (EC : option_map (fun (c : list nat -> tree number) i => exact (c i)) (option_map (fun c i => Operand (stored (c i))) cutoff) = cutoff) by (destruct cutoff as [c|]; [cbn [option_map]; f_equal; extensionality i; apply ideal_stored|reflexivity]).
  pose proof (C95_network erf derf eps cartesian cgf lo hi (option_map (fun c i => Operand (stored (c i))) cutoff) (option_map given basis) g ss (map given xs) ER EP UP) as A. cbv zeta in A. rewrite EX, EB, EC, RY in A. apply A; try assumption.
  - intros bs E. destruct basis as [b|]; [|discriminate]. injection E as <-. rewrite value_given. exact (HB b eq_refl).
  - intros bs E. destruct basis as [b|]; [|discriminate]. injection E as <-. intros i s d f. apply converges_stored.
  - intros c E i. destruct cutoff as [k|]; [|discriminate]. injection E as <-. apply converges_stored.
  - apply Forall_forall. intros t I. apply in_map_iff in I. destruct I as (x & <- & _). intros i s d f. apply converges_stored.
Qed.
Print Assumptions C95_given.

Lemma eventually_below n (P : nat -> machine -> Prop) : (forall k, (k < n)%nat -> eventually (P k)) -> eventually (fun m => forall k, (k < n)%nat -> P k m).
Proof.
  induction n as [|n IH]; intro H; [apply eventually_all; intros m k K; lia|]. eapply eventually_mono; [|exact (eventually_and _ _ (H n ltac:(lia)) (IH (fun k K => H k ltac:(lia))))].
  intros m [A B] k K. destruct (Nat.eq_dec k n) as [->|N]; [exact A|apply B; lia].
Qed.
Lemma rotated_limits s D t t' y y' : s * s = 1 -> approaches_array t y -> approaches_array t' y' -> transformed s (fun _ => D) y y' -> rotated_on_machines s D t t'.
Proof.
  intros SS (B1 & S1 & D1 & F1 & T1 & Q) (B2 & S2 & D2 & F2 & T2 & Q') T. pose proof T as (TB & TS & TD & TF & TT & TV). repeat (split; [congruence|]).
  intros i p l k f P2 K HSt c error E0. assert (HS : has_slot y p l). { unfold has_slot in *. cbn [value fS fD] in HSt. now rewrite <- S1, <- D1. }
  assert (HS' : has_slot y' p l). { unfold has_slot in *. now rewrite TS, TD. }
  assert (CS : (c < fS y)%nat). { unfold c. rewrite S1. destruct (Nat.eqb_spec (fS y) 2) as [->|N]; [exact P2|]. destruct HS as [_ [X|[X _]]]; [contradiction|]. rewrite X. lia. }
  assert (DL : forall k', (k' < 2 * l + 1)%nat -> (l * l + k' < fD y)%nat) by (intros k' K'; destruct HS as [HD _]; lia).
  set (W := 1 + rsum (2 * l + 1) (fun k' => Rabs (D (l * l + k')%nat (l * l + k)%nat))). assert (WP : 1 <= W) by (unfold W; pose proof (rsum_nonneg (2 * l + 1) (fun k' => Rabs (D (l * l + k')%nat (l * l + k)%nat)) ltac:(intros; apply Rabs_pos)); lra).
  set (e := error / (2 * W)). assert (EP : 0 < e) by (unfold e; apply Rdiv_lt_0_compat; lra).
  assert (EV : eventually (fun m => (exists v', on m (tfv t' i c (l * l + k)%nat f) = Some v' /\ Rabs (v' - fv y' i c (l * l + k)%nat f) < e) /\
    forall k', (k' < 2 * l + 1)%nat -> exists v, on m (tfv t i c (l * l + k')%nat f) = Some v /\ Rabs (v - fv y i c (l * l + k')%nat f) < e)).
  { apply eventually_and; [apply (Q' i c (l * l + k)%nat f); [congruence|rewrite TD; now apply DL|exact EP]|]. apply eventually_below. intros k' K'. apply (Q i c (l * l + k')%nat f CS (DL k' K')). exact EP. }
  revert EV. apply eventually_mono. intros m [(v' & E' & BV') H].
  exists (fun k' => match on m (tfv t i c (l * l + k')%nat f) with Some q => q | None => 0 end), v'. split; [|split; [exact E'|]].
  - intros k' K'. destruct (H k' K') as (q & -> & _). reflexivity.
  - apply Rle_lt_trans with (e + rsum (2 * l + 1) (fun k' => Rabs (D (l * l + k')%nat (l * l + k)%nat) * e)).
    + apply (rotated_close s (fun _ => D) y y' i p l k f); try assumption.
      * intros k' K'. destruct (H k' K') as (q & -> & BQ). rewrite (slot_entry y) by assumption. rewrite <- S1. fold c. now apply Rlt_le.
      * rewrite (slot_entry y') by assumption. rewrite TS, <- S1. fold c. now apply Rlt_le.
    + rewrite (rsum_ext _ _ (fun k' => e * Rabs (D (l * l + k')%nat (l * l + k)%nat))) by (intros; ring). rewrite rsum_scal_l. replace (e + _) with (e * W) by (unfold W; ring). unfold e. replace (error / (2 * W) * W) with (error / 2) by (field; lra). lra.
Qed.

(** With rotated (and reflected) inputs and basis functions, and possibly other orders of evaluation and other errors of cutoffs, all
    arrays that the network computes are rotated up to any error on machines that are precise enough. *)
Theorem C95_equivariant erf derf eps cartesian cgf lo hi cutoff cutoff' m D s basis basis' g ss ss' ts ts' us : erf_rule erf derf -> 0 < eps -> uses_package cartesian cgf ->
  proper_rotation m -> wigner_matrix cartesian m D -> s = 1 \/ s = -1 -> edge_basis basis -> edge_basis basis' ->
  (forall bs, basis = Some bs \/ basis' = Some bs -> converging bs) -> (forall c, cutoff = Some c \/ cutoff' = Some c -> forall i, converges (c i)) ->
  match basis, basis' with Some bs, Some bs' => transformed s (fun _ => D) (value bs) (value bs') | None, None => True | _, _ => False end ->
  match cutoff, cutoff' with Some c, Some c' => forall i, exact (c' i) = exact (c i) | None, None => True | _, _ => False end ->
  Forall proper_step ss -> Forall proper_step ss' -> map (call_of erf eps) ss' = map (call_of erf eps) ss -> Forall has_scalars (map value ts) -> Forall2 (transformed s (fun _ => D)) (map value ts) (map value ts') ->
  let cut := option_map (fun c i => exact (c i)) cutoff in
  Forall converging ts -> Forall converging ts' -> regular erf eps cgf lo hi (option_map value basis) cut g (map value ts) ss -> regular erf eps cgf lo hi (option_map value basis') cut g (map value ts') ss' ->
  deep_run erf derf eps cgf lo hi basis cutoff g ts ss = Ok us ->
  exists us', deep_run erf derf eps cgf lo hi basis' cutoff' g ts' ss' = Ok us' /\ Forall2 (rotated_on_machines s D) us us'.
Proof.
  intros ER EP UP PR WM SG HB HB' CB CC TB TC PC PC' EC V T cut CT CT' RG RG' RU. assert (SS : s * s = 1) by (destruct SG as [-> | ->]; ring).
  assert (V' : Forall has_scalars (map value ts')). { clear - T V. induction T as [|x x' xs xs' TX T IH]; constructor; inversion V as [|? ? [n VX] VS]; subst; [exists n; exact (transformed_valid _ _ _ _ _ VX TX)|now apply IH]. }
  assert (EQ : option_map (fun c i => exact (c i)) cutoff' = cut) by (unfold cut; destruct cutoff as [c|], cutoff' as [c'|]; try contradiction; [cbn; f_equal; extensionality i; apply TC|reflexivity]).
  pose proof (C95_network erf derf eps cartesian cgf lo hi cutoff basis g ss ts ER EP UP HB ltac:(auto) ltac:(auto) PC V CT RG) as A. pose proof (C95_network erf derf eps cartesian cgf lo hi cutoff' basis' g ss' ts' ER EP UP HB' ltac:(auto) ltac:(auto) PC' V' CT') as A'. cbv zeta in A'. rewrite EQ, EC in A'. specialize (A' RG'). fold cut in A.
  destruct (run cgf lo hi (option_map value basis) cut g (map value ts) (map (call_of erf eps) ss)) as [ys|] eqn:RY; [|destruct A as (er & A); congruence]. destruct A as (us0 & E0 & C). rewrite RU in E0. injection E0 as <-.
  assert (ED : match option_map value basis, option_map value basis' with Some bs, Some bs' => transformed s (fun _ => D) bs bs' /\ (0 < fD bs)%nat | None, None => True | _, _ => False end).
  { destruct basis as [bs|], basis' as [bs'|]; try contradiction; [|exact I]. split; [exact TB|]. exact (proj1 (HB bs eq_refl)). }
  assert (PP : Forall proper_call (map (call_of erf eps) ss)). { clear - PC. induction PC as [|c cs P PC IH]; constructor; [now apply call_of_proper|assumption]. }
  destruct (C69_network cartesian cgf m D s lo hi UP PR WM SG _ _ cut g ED (map (call_of erf eps) ss) (map value ts) (map value ts') ys PP V T RY) as (ys' & RY' & TY).
  rewrite RY' in A'. destruct A' as (us' & E' & C'). exists us'. split; [exact E'|].
  clear - C C' TY SS. revert us' ys' C' TY. induction C as [|t y us ys CT C IH]; intros us' ys' C' TY.
  - inversion TY; subst. inversion C'; subst. constructor.
  - inversion TY as [|? y' ? ys1 TY1 TYS]; subst. inversion C' as [|t' ? us1 ? CT' C1]; subst. constructor; [exact (rotated_limits _ _ _ _ _ _ SS CT CT' TY1)|exact (IH _ _ C1 TYS)].
Qed.
Print Assumptions C95_equivariant.

(** An instance: relu, a Dense layer, silu and a residual connection. *)
Example C95_instance erf derf eps g x w b : erf_rule erf derf -> 0 < eps -> x <> 0 ->
  let ss := [Activate 0 Relu; Layer simple_plan (UseDense 1 1 true (mkDense (fun _ _ _ _ => w) (fun _ => b))); Activate 2 Silu; Layer simple_plan (UseAdd [0; 3]%nat)] in let a := mkFeat [1%nat] 1 1 1 0 (fun _ _ _ _ => x) in
  Forall proper_step ss /\ has_scalars a /\ regular erf eps (package_cg true) 0 0 None None g [a] ss /\
  exists us t, deep_run erf derf eps (package_cg true) 0 0 None None g [given a] ss = Ok us /\ nth_error us 4 = Some t /\
    approaches (fun m => on m (tfv t [0%nat] 0%nat 0%nat 0%nat)) (x + expit (relu_gate x * x * w + b) * (relu_gate x * x * w + b)).
Proof.
  intros ER EP X ss a. assert (PL : Forall proper_step ss) by (unfold ss; repeat constructor; try apply C92_plan). assert (HA : has_scalars a) by (exists 0%nat; split; [now left|reflexivity]).
  assert (RG : regular erf eps (package_cg true) 0 0 None None g [a] ss).
  { cbn [regular ss]. split; [|intros y E; split; [exact I|intros y2 E2; split; [|intros y3 E3; split; [exact I|trivial]]]]. - intros z EZ i f _ _. injection EZ as <-. exact X. - intros z _ i f _ _ G. exact G. }
  split; [exact PL|]. split; [exact HA|]. split; [exact RG|].
  assert (RY : exists ys, run (package_cg true) 0 0 None None g [a] (map (call_of erf eps) ss) = Ok ys /\ exists y, nth_error ys 4 = Some y /\ fS y = 1%nat /\ fD y = 1%nat /\
    fv y [0%nat] 0%nat 0%nat 0%nat = x + expit (relu_gate x * x * w + b) * (relu_gate x * x * w + b)).
  { eexists. split; [unfold ss, a; cbv -[Rplus Rmult IZR package_cg relu_gate expit Ropp]; reflexivity|]. eexists. split; [reflexivity|]. split; [reflexivity|]. split; [reflexivity|]. cbv -[Rplus Rmult IZR package_cg relu_gate expit Ropp]. replace (0 + relu_gate x * x * w + b) with (relu_gate x * x * w + b) by ring. ring. }
  destruct RY as (ys & RY & y & NY & SY & DY & VY).
  destruct (C95_given erf derf eps true (package_cg true) 0 0 None None g ss [a] ys ER EP (package_cg_uses true) ltac:(discriminate) PL ltac:(now constructor) RG RY) as (us & RU & C).
  assert (NT : exists t, nth_error us 4 = Some t /\ approaches_array t y). { clear - C NY. revert NY. generalize 4%nat. induction C as [|t z us ys CT C IH]; intros [|n] NY; try discriminate; cbn in *; [injection NY as <-; now exists t|now apply IH]. }
  destruct NT as (t & NT & _ & _ & _ & _ & _ & Q). exists us, t. split; [exact RU|]. split; [exact NT|]. rewrite <- VY. apply Q; lia.
Qed.

(** An instance with attention: three edges, two of them to the first node, with cutoffs that need not be one. *)
Definition simple_dots : dot_plan := fun position S D per _ _ => direct (dot_terms position S D per).
Lemma simple_dots_sound : sound_dots simple_dots.
Proof.
  intros position S D per i h. apply C90_direct. intros t I. unfold dot_terms in I. apply in_flat_map in I. destruct I as (p & _ & I). apply in_flat_map in I. destruct I as (d & _ & I). apply in_map_iff in I. destruct I as (f & <- & _). discriminate.
Qed.
Definition three_edges : graph := mkGraph None None (Some (3%nat, fun _ => [0%Z; 0%Z; 1%Z])) (Some (3%nat, fun _ => [1%Z; 0%Z; 0%Z])) None.
Definition head_options : attention_options := mkOptions 1 None None false false false true false false false None true.
Definition unit_dense : dense_params := mkDense (fun _ _ _ _ => 1) (fun _ => 1).
Definition head_params : attention_params := mkAttention unit_dense unit_dense unit_dense unit_dense (fun _ _ => 1) (fun _ => 1) (mkConv unit_dense (PTensor (fun _ _ _ _ _ _ _ => 1))).

Example C95_attention_instance erf derf eps lo hi x0 x1 c0 c1 c2 : erf_rule erf derf -> 0 < eps -> 0 < c0 -> 0 <= c1 -> 0 < c2 ->
  let ss := [Attend simple_plan simple_dots 0 0 head_options head_params; Activate 1 Silu] in
  let x := mkFeat [2%nat] 1 1 1 0 (fun i _ _ _ => match i with [O] => x0 | _ => x1 end) in let cutoff := Some (fun i => match i with [e] => nth e [c0; c1; c2] 0 | _ => 0 end) in
  Forall proper_step ss /\ has_scalars x /\ regular erf eps (package_cg true) lo hi None cutoff three_edges [x] ss /\
  exists ys, run (package_cg true) lo hi None cutoff three_edges [x] (map (call_of erf eps) ss) = Ok ys /\ map fB ys = [[2]; [2]; [2]]%nat.
Proof.
  intros ER EP P0 P1 P2 ss x cutoff. split; [|split; [|split]].
  - unfold ss. constructor; [|repeat constructor]. split; [apply C92_plan|]. split; [apply simple_dots_sound|discriminate].
  - exists 0%nat. split; [now left|reflexivity].
  - cbn [regular ss]. split; [|intros y _; split; [|trivial]].
    + intros z y EZ EY e r RO. injection EZ as <-. injection EY as <-.
      assert (Q : exists k, (k < 3)%nat /\ r = mkRow 3 (fun e' => [e']) (fun e' => (nth e' [0; 0; 1] (-1) =? nth k [0; 0; 1] (-1))%Z) k).
      { unfold row_of in RO. change (graph_type (with_defaults three_edges (last1 (fB x)) (last1 (fB x))) true false) with (@Ok index_type Sparse) in RO. change (g_segments (with_defaults three_edges (last1 (fB x)) (last1 (fB x)))) with (Some 2%nat) in RO. change (g_dst (with_defaults three_edges (last1 (fB x)) (last1 (fB x)))) with (Some (3%nat, fun _ : list nat => [0%Z; 0%Z; 1%Z])) in RO. cbv zeta in RO.
        destruct (list_nat_eqb e (but_last e ++ [last1 e])); [|discriminate]. cbn [andb] in RO. destruct (in_batch (but_last (fB x)) (but_last e)) eqn:IB; [|discriminate]. assert (BE : but_last e = []) by (destruct (but_last e); [reflexivity|discriminate]). rewrite BE in RO. cbn [andb app] in RO.
        destruct (Nat.ltb_spec (last1 e) 3) as [L|]; [|discriminate]. cbn [andb] in RO. match type of RO with (if ?b then _ else _) = _ => destruct b; [|discriminate] end. injection RO as <-. exists (last1 e). split; [exact L|reflexivity]. }
      destruct Q as (k & K & ->). cbn [r_size r_edge r_selected r_here cutoff cutoff_at]. split.
      * intros j J. do 3 (destruct j as [|j]; [cbn; lra|]). lia.
      * destruct k as [|[|[|k]]]; [exists 0%nat|exists 0%nat|exists 2%nat|lia]; (split; [lia|split; [reflexivity|cbn; assumption]]).
    + intros z _ b f _ _ G. exact G.
  - destruct (ok_case _ (run (package_cg true) lo hi None cutoff three_edges [x] (map (call_of erf eps) ss)) (fun ys => map fB ys = [[2]; [2]; [2]]%nat)) as [ys [Ey Sy]]; [|exists ys; now split].
    unfold ss, x. vm_compute. reflexivity.
Qed.
