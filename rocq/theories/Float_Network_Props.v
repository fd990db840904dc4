(** Property C92: networks of layers in floating point arithmetic. *)
Require Import List Reals ZArith Bool Lra Lia.
From Flocq Require Import Core.
Require Import Verif.Base Verif.RSum Verif.Features_Model Verif.Features_Spec Verif.Features_Proofs Verif.Modules_Model Verif.Modules_Spec Verif.Modules_Proofs Verif.LUT_Model Verif.LUT_Spec Verif.LUT_Props Verif.Symbolic_Model Verif.RealCG_Proofs Verif.Irreps_Laws_Proofs Verif.Wrappers_Model Verif.Wrappers_Spec Verif.Wrappers_Props Verif.Equivariance_Spec Verif.Irreps_Model Verif.Irreps_Proofs Verif.Irreps_Props Verif.Modules_Graph_Props Verif.CGTable_Proofs Verif.Clebsch_Model Verif.Clebsch_Props Verif.Rotations_Spec Verif.Irreps_Spec Verif.Structure_Props Verif.Equivariance_Spec Verif.Equivariance_Props
  Verif.Network_Spec Verif.Network_Props Verif.Float_Model Verif.Float_Spec Verif.Float_Proofs Verif.Float_Formats Verif.Float_Einsum_Model Verif.Float_Einsum_Spec Verif.Float_Einsum_Proofs Verif.Float_Einsum_Props
  Verif.Float_Network_Model Verif.Float_Network_Spec Verif.Float_Network_Proofs.
Import ListNotations.
Open Scope R_scope.
Arguments Nat.mul : simpl never.
Arguments Nat.modulo : simpl never.

Lemma same_close u tiny huge rnd t y : rounding u tiny rnd -> same_feature (value t) y -> close_array u tiny huge rnd t y.
Proof.
  intros H (B & S & D & F & T & V). cbn [value fB fS fD fF fdt fv] in *. repeat (split; [assumption|]). intros i s d f Hs Hd IR. rewrite <- S in Hs. rewrite <- D in Hd.
  destruct (float_eval_accurate u tiny huge rnd _ _ _ H IR) as (v & E & Q). exists v. split; [exact E|]. now rewrite <- (V i s d f Hs Hd), exact_eval.
Qed.

(** Whatever the orders of evaluation, a network with rounding accepts the same inputs as the network without rounding, and every
    number that it computes, in all arrays, is finite and accurate if its computation is in range. *)
Theorem C92_network u tiny huge rnd cartesian cgf lo hi cutoff basis g cs ts : rounding u tiny rnd -> uses_package cartesian cgf ->
  edge_basis basis -> Forall planned cs -> Forall has_scalars (map value ts) ->
  match run cgf lo hi (option_map value basis) cutoff g (map value ts) (map snd cs) with
  | Ok ys => exists us, tree_run cgf basis g ts cs = Ok us /\ Forall2 (close_array u tiny huge rnd) us ys
  | Err _ => exists e, tree_run cgf basis g ts cs = Err e
  end.
Proof.
  intros H UP HB PC V. assert (S : Forall2 same_feature (map value ts) (map value ts)) by (clear; induction (map value ts); constructor; [apply same_refl|assumption]).
  pose proof (tree_run_alike cartesian cgf UP lo hi cutoff basis g cs HB PC ts _ V S) as A.
  destruct (tree_run cgf basis g ts cs) as [us|e], (run cgf lo hi (option_map value basis) cutoff g (map value ts) (map snd cs)) as [ys|]; try contradiction; [|now exists e].
  exists us. split; [reflexivity|]. remember (map value us) as l eqn:El. clear - A H El. revert us El. induction A as [|x y l ys SX A IH]; intros [|t us] El; try discriminate; constructor; injection El as -> ->; [now apply same_close|now apply IH].
Qed.
Print Assumptions C92_network.

(** Numbers that are stored before the network runs: [given]. *)
Theorem C92_given u tiny huge rnd cartesian cgf lo hi cutoff basis g cs xs ys : rounding u tiny rnd -> uses_package cartesian cgf ->
  (forall bs, basis = Some bs -> (0 < fD bs)%nat /\ well_formed bs) -> Forall planned cs -> Forall has_scalars xs ->
  run cgf lo hi basis cutoff g xs (map snd cs) = Ok ys ->
  exists us, tree_run cgf (option_map given basis) g (map given xs) cs = Ok us /\ Forall2 (close_array u tiny huge rnd) us ys.
Proof.
  intros H UP HB PC V RY. assert (EX : map value (map given xs) = xs) by (rewrite map_map, (map_ext _ (fun x => x)); [apply map_id|apply value_given]).
  assert (EB : option_map value (option_map given basis) = basis) by (destruct basis as [bs|]; [cbn; now rewrite value_given|reflexivity]).
  pose proof (C92_network u tiny huge rnd cartesian cgf lo hi cutoff (option_map given basis) g cs (map given xs) H UP) as A. rewrite EX, EB, RY in A. apply A; try assumption.
  intros bs E. destruct basis as [b|]; [|discriminate]. injection E as <-. rewrite value_given. exact (HB b eq_refl).
Qed.
Print Assumptions C92_given.

(** Two runs with different orders of evaluation (two devices, two versions of the compiler, ...) agree up to the sum of the errors. *)
Theorem C92_two_runs u tiny huge rnd cartesian cgf basis g cs cs' ts us : rounding u tiny rnd -> uses_package cartesian cgf ->
  edge_basis basis -> Forall planned cs -> Forall planned cs' -> map snd cs' = map snd cs -> Forall has_scalars (map value ts) ->
  tree_run cgf basis g ts cs = Ok us ->
  exists us', tree_run cgf basis g ts cs' = Ok us' /\ Forall2 (fun t t' => forall i s d f, (s < tfS t)%nat -> (d < tfD t)%nat ->
    in_range u tiny huge (fun r => r) (tfv t i s d f) -> in_range u tiny huge (fun r => r) (tfv t' i s d f) ->
    exists v v', computed rnd huge (tfv t i s d f) = Some v /\ computed rnd huge (tfv t' i s d f) = Some v' /\
      Rabs (v' - v) <= evaluation_error u tiny (fun r => r) (tfv t i s d f) + evaluation_error u tiny (fun r => r) (tfv t' i s d f)) us us'.
Proof.
  intros H UP HB PC PC' EC V RU. pose proof (C92_network u tiny huge rnd cartesian cgf 0 0 None basis g cs ts H UP HB PC V) as A. pose proof (C92_network u tiny huge rnd cartesian cgf 0 0 None basis g cs' ts H UP HB PC' V) as A'. rewrite EC in A'.
  destruct (run cgf 0 0 (option_map value basis) None g (map value ts) (map snd cs)) as [ys|]; [|destruct A as (er & A); congruence].
  destruct A as (us0 & E0 & C). rewrite RU in E0. injection E0 as <-. destruct A' as (us' & E' & C'). exists us'. split; [exact E'|].
  clear - C C'. revert us' C'. induction C as [|t y us ys CT C IH]; intros us' C'; inversion C' as [|t' ? us1 ? CT' C1]; subst; constructor; [|now apply IH].
  destruct CT as (_ & S & D & _ & _ & Q), CT' as (_ & S' & D' & _ & _ & Q'). intros i s d f Hs Hd IR IR'. destruct (Q i s d f ltac:(lia) ltac:(lia) IR) as (v & E & B). destruct (Q' i s d f ltac:(lia) ltac:(lia) IR') as (v' & E' & B').
  exists v, v'. split; [exact E|]. split; [exact E'|]. apply Rabs_le_inv in B. apply Rabs_le_inv in B'. apply Rabs_le. lra.
Qed.
Print Assumptions C92_two_runs.

Lemma slot_entry y i p l k f : has_slot y p l -> comp y i p l k f = fv y i (if (fS y =? 2)%nat then p else 0%nat) (l * l + k) f.
Proof.
  intros [HD HSS]. unfold comp. destruct (Nat.leb_spec ((l + 1) * (l + 1)) (fD y)); [|lia]. destruct (Nat.eqb_spec (fS y) 2); [reflexivity|]. destruct HSS as [Q|[_ ->]]; [contradiction|]. now rewrite Nat.eqb_refl.
Qed.

Lemma rotated_arrays u tiny huge rnd s D t t' y y' : s * s = 1 -> close_array u tiny huge rnd t y -> close_array u tiny huge rnd t' y' -> transformed s (fun _ => D) y y' -> rotated_numbers u tiny huge rnd s D t t'.
Proof.
  intros SS (B1 & S1 & D1 & F1 & T1 & Q) (B2 & S2 & D2 & F2 & T2 & Q') T. pose proof T as (TB & TS & TD & TF & TT & _). repeat (split; [congruence|]).
  intros i p l k f P2 K HSt c e e' IR IR'. assert (HS : has_slot y p l). { unfold has_slot in *. cbn [value fS fD] in HSt. now rewrite <- S1, <- D1. }
  assert (HS' : has_slot y' p l). { unfold has_slot in *. now rewrite TS, TD. }
  assert (CS : (c < fS y)%nat). { unfold c. rewrite S1. destruct (Nat.eqb_spec (fS y) 2) as [->|N]; [exact P2|]. destruct HS as [_ [X|[X _]]]; [contradiction|]. rewrite X. lia. }
  assert (DL : forall k', (k' < 2 * l + 1)%nat -> (l * l + k' < fD y)%nat) by (intros k' K'; destruct HS as [HD _]; lia).
  destruct (Q' i c (l * l + k)%nat f ltac:(lia) ltac:(rewrite TD; now apply DL) IR') as (v' & E' & BV').
  exists (fun k' => match computed rnd huge (e k') with Some q => q | None => 0 end), v'. split; [|split; [exact E'|]].
  - intros k' K'. destruct (Q i c (l * l + k')%nat f CS (DL k' K') (IR k' K')) as (q & EQ & _). fold (e k') in EQ. now rewrite EQ.
  - apply (rotated_close s (fun _ => D) y y' i p l k f); try assumption.
    + intros k' K'. destruct (Q i c (l * l + k')%nat f CS (DL k' K') (IR k' K')) as (q & EQ & BQ). fold (e k') in EQ, BQ. rewrite EQ, (slot_entry y) by assumption. rewrite <- S1. exact BQ.
    + rewrite (slot_entry y') by assumption. rewrite TS, <- S1. exact BV'.
Qed.

(** With rotated (and reflected) inputs and basis functions, and possibly other orders of evaluation, all arrays that the network
    computes are rotated up to rounding errors. *)
Theorem C92_equivariant u tiny huge rnd cartesian cgf m D s basis basis' g cs cs' ts ts' us : rounding u tiny rnd -> uses_package cartesian cgf ->
  proper_rotation m -> wigner_matrix cartesian m D -> s = 1 \/ s = -1 -> edge_basis basis -> edge_basis basis' ->
  match basis, basis' with Some bs, Some bs' => transformed s (fun _ => D) (value bs) (value bs') | None, None => True | _, _ => False end ->
  Forall planned cs -> Forall planned cs' -> map snd cs' = map snd cs -> Forall has_scalars (map value ts) -> Forall2 (transformed s (fun _ => D)) (map value ts) (map value ts') ->
  tree_run cgf basis g ts cs = Ok us ->
  exists us', tree_run cgf basis' g ts' cs' = Ok us' /\ Forall2 (rotated_numbers u tiny huge rnd s D) us us'.
Proof.
  intros H UP PR WM SG HB HB' TB PC PC' EC V T RU. assert (SS : s * s = 1) by (destruct SG as [-> | ->]; ring).
  assert (V' : Forall has_scalars (map value ts')). { clear RU. induction T as [|x x' xs xs' TX T IH]; constructor; inversion V as [|? ? [n VX] VS]; subst; [exists n; exact (transformed_valid _ _ _ _ _ VX TX)|now apply IH]. }
  pose proof (C92_network u tiny huge rnd cartesian cgf 0 0 None basis g cs ts H UP HB PC V) as A. pose proof (C92_network u tiny huge rnd cartesian cgf 0 0 None basis' g cs' ts' H UP HB' PC' V') as A'. rewrite EC in A'.
  destruct (run cgf 0 0 (option_map value basis) None g (map value ts) (map snd cs)) as [ys|] eqn:RY; [|destruct A as (er & A); congruence]. destruct A as (us0 & E0 & C). rewrite RU in E0. injection E0 as <-.
  assert (ED : match option_map value basis, option_map value basis' with Some bs, Some bs' => transformed s (fun _ => D) bs bs' /\ (0 < fD bs)%nat | None, None => True | _, _ => False end).
  { destruct basis as [bs|], basis' as [bs'|]; try contradiction; [|exact I]. split; [exact TB|]. exact (proj1 (HB bs eq_refl)). }
  assert (PP : Forall proper_call (map snd cs)). { clear - PC. induction PC as [|c cs (_ & P & _) PC IH]; constructor; assumption. }
  destruct (C69_network cartesian cgf m D s 0 0 UP PR WM SG _ _ None g ED (map snd cs) (map value ts) (map value ts') ys PP V T RY) as (ys' & RY' & TY).
  rewrite RY' in A'. destruct A' as (us' & E' & C'). exists us'. split; [exact E'|].
  clear - C C' TY SS. revert us' ys' C' TY. induction C as [|t y us ys CT C IH]; intros us' ys' C' TY.
  - inversion TY; subst. inversion C'; subst. constructor.
  - inversion TY as [|? y' ? ys1 TY1 TYS]; subst. inversion C' as [|t' ? us1 ? CT' C1]; subst. constructor; [exact (rotated_arrays _ _ _ _ _ _ _ _ _ _ SS CT CT' TY1)|exact (IH _ _ C1 TYS)].
Qed.
Print Assumptions C92_equivariant.

(** Plans exist: every sum of products term by term. *)
Definition simple_plan : plan :=
  mkPlan (fun F _ _ _ _ => direct (dense_terms F)) (fun mixed S1 D1 S2 D2 _ r _ _ => direct (first_terms mixed S1 D1 S2 D2 r)) (fun D1 D2 _ r _ _ => direct (second_terms D1 D2 r))
    (fun _ n _ _ _ _ => direct (matrix_terms n)) (fun _ w _ _ _ _ => direct (couple_terms w)) (fun _ w _ _ _ => direct (vector_terms w)) (fun n _ _ _ _ => direct (plain_terms n)).
Theorem C92_plan : sound_plan simple_plan.
Proof.
  assert (CT : forall D1 D2 p q t, In t (coupling_terms D1 D2 p q) -> t <> []). { intros D1 D2 p q t I. unfold coupling_terms in I. apply in_flat_map in I. destruct I as (l & _ & I). apply in_map_iff in I. destruct I as (m & <- & _). discriminate. }
  unfold sound_plan. cbn [simple_plan p_dense p_first p_second p_matrix p_couple p_vector p_sum]. repeat split; intros; apply C90_direct; intros t I.
  - apply in_map_iff in I. destruct I as (a & <- & _). discriminate.
  - unfold first_terms in I. destruct mixed; [|destruct (r =? 0)%nat; now apply CT in I]. unfold tensor_terms in I. apply in_flat_map in I. destruct I as (p & _ & I). apply in_flat_map in I. destruct I as (l & _ & I). apply in_flat_map in I. destruct I as (q & _ & I). apply in_map_iff in I. destruct I as (m & <- & _). discriminate.
  - unfold second_terms in I. destruct (r =? 0)%nat; now apply CT in I.
  - apply in_map_iff in I. destruct I as (a & <- & _). discriminate.
  - apply in_map_iff in I. destruct I as (a & <- & _). discriminate.
  - apply in_flat_map in I. destruct I as (p & _ & I). apply in_map_iff in I. destruct I as (a & <- & _). discriminate.
  - apply in_map_iff in I. destruct I as (a & <- & _). discriminate.
Qed.
Print Assumptions C92_plan.

(** An instance: a Dense layer with a residual connection in float32. *)
Example C92_instance : let rnd := rounded (-149) 24 in let huge := bpow radix2 128 in forall g x w b, Rabs x <= 1 -> Rabs w <= 1 -> Rabs b <= 1 ->
  let cs := [(simple_plan, UseDense 0 1 true (mkDense (fun _ _ _ _ => w) (fun _ => b))); (simple_plan, UseAdd [0; 1]%nat)] in let a := mkFeat [1%nat] 1 1 1 0 (fun _ _ _ _ => x) in
  Forall planned cs /\ has_scalars a /\ exists us t v, tree_run (package_cg true) None g [given a] cs = Ok us /\ nth_error us 2 = Some t /\
    computed rnd huge (tfv t [0%nat] 0%nat 0%nat 0%nat) = Some v /\ Rabs (v - (x + (x * w + b))) <= 1 / 200000.
Proof.
  intros rnd huge g x w b HX HW HB cs a. assert (PL : Forall planned cs) by (repeat constructor; try apply C92_plan). assert (HA : has_scalars a) by (exists 0%nat; split; [now left|reflexivity]). split; [exact PL|]. split; [exact HA|].
  pose proof rounding_float32 as H. fold rnd in H. assert (T : 0 < bpow radix2 (-126) <= / 1073741824) by (split; [apply bpow_gt_0|apply Rle_trans with (bpow radix2 (-30)); [apply bpow_le; lia|cbn; lra]]). assert (UV : bpow radix2 (-24) = / 16777216) by (cbn; lra). assert (HH : 1000 <= huge) by (apply Rle_trans with (bpow radix2 10); [cbn; lra|apply bpow_le; lia]).
  set (tiny := bpow radix2 (-126)) in *. clearbody tiny. pose proof (Rabs_pos x). pose proof (Rabs_pos w). pose proof (Rabs_pos b).
  assert (RT : exists us, tree_run (package_cg true) None g [given a] cs = Ok us /\ exists t, nth_error us 2 = Some t /\ tfS t = 1%nat /\ tfD t = 1%nat /\
    tfv t [0%nat] 0%nat 0%nat 0%nat = Sum (Sum Nothing (Operand x)) (Sum (Sum (Product (Operand x) (Operand w)) Nothing) (Operand b))).
  { eexists. split; [unfold cs, a; cbv -[Rplus Rmult IZR package_cg]; reflexivity|]. eexists. split; [reflexivity|]. cbn. auto. }
  destruct RT as (us & EU & t & ET & _ & _ & EV). exists us, t. rewrite EV. set (e := Sum (Sum _ _) _). destruct (float_eval_accurate (bpow radix2 (-24)) tiny huge rnd _ (fun r => r) e H) as (v & EC & BC).
  - split; [rewrite UV; cbn; lra|]. assert (PX : 0 <= (Rabs x + tiny) * (Rabs w + tiny) <= 2 * 2) by (split; [apply Rmult_le_pos; lra|apply Rmult_le_compat; lra]). assert (PK : peak tiny (fun r => r) e <= 20); [|lra]. cbn. repeat apply Rmax_lub; lra.
  - exists v. split; [exact EU|]. split; [exact ET|]. split; [exact EC|]. replace (x + (x * w + b)) with (eval (fun r => r) e) by (cbn; ring). eapply Rle_trans; [exact BC|]. unfold evaluation_error.
    assert (P0 : 0 <= Rabs x * Rabs w <= 1 * 1) by (split; [apply Rmult_le_pos; lra|apply Rmult_le_compat; lra]). assert (P1 : (Rabs x + tiny) * (Rabs w + tiny) <= Rabs x * Rabs w + 3 * tiny).
    { assert (Rabs x * tiny <= 1 * tiny) by (apply Rmult_le_compat_r; lra). assert (Rabs w * tiny <= 1 * tiny) by (apply Rmult_le_compat_r; lra). assert (tiny * tiny <= 1 * tiny) by (apply Rmult_le_compat_r; lra). lra. }
    replace (INR (roundings e)) with 6 by (cbn; lra). rewrite UV.
    assert (M0 : magnitude 0 (fun r => r) e = Rabs x + Rabs x * Rabs w + Rabs b) by (cbn; ring). assert (MT : magnitude tiny (fun r => r) e = Rabs x + (Rabs x + tiny) * (Rabs w + tiny) + Rabs b + 7 * tiny) by (cbn; ring). rewrite M0, MT. lra.
Qed.

(** The hypotheses hold for a network that passes messages between two atoms, couples the results and adds them. *)
Example C92_case : let cgf := package_cg true in let x := mkFeat [2%nat] 1 1 2 0 (fun i _ _ f => INR (hd 0%nat i + f)) in let bs := mkFeat [2%nat] 1 4 1 0 (fun i _ d _ => if (d =? 0)%nat then 1 else INR (d + hd 0%nat i)) in
  let cs := [(simple_plan, UseMessagePass 0 (Some 1%Z) false false (mkConv (mkDense (fun _ _ a f => 1) (fun _ => 0)) (PTensor (fun _ _ _ _ _ _ _ => 1))));
             (simple_plan, UseTensorDense 1 None (Some 1%Z) true true (mkDense (fun _ _ _ _ => 1) (fun _ => 1)) (PFused (mkFused (fun _ _ => 1) (fun _ _ => 1) (fun _ _ => 1) (fun _ _ => 1) (fun _ _ => 1) (fun _ _ => 1) (fun _ _ => 1) (fun _ _ => 1))));
             (simple_plan, UseAdd [0; 1; 2]%nat); (simple_plan, UseDense 3 1 false (mkDense (fun _ _ _ _ => 2) (fun _ => 0)))] in
  uses_package true cgf /\ edge_basis (Some (given bs)) /\ Forall planned cs /\ has_scalars x /\
  exists ys, run cgf 0 0 (Some bs) None pair_graph [x] (map snd cs) = Ok ys /\ map fS ys = [1; 1; 2; 2; 2]%nat /\ map fD ys = [1; 4; 4; 4; 4]%nat /\ map fF ys = [2; 2; 2; 2; 1]%nat.
Proof.
  intros cgf x bs cs. split; [apply package_cg_uses|]. split; [|split; [|split]].
  - intros b E. injection E as <-. split; [cbn; lia|]. exists 2%nat. split; [now left|reflexivity].
  - unfold cs. repeat constructor; try apply C92_plan; intros d E; injection E as <-; lia.
  - exists 0%nat. split; [now left|reflexivity].
  - assert (C1 : exists C, cgf 1%Z 0%Z 1%Z = Ok C).
    { unfold cgf, package_cg. destruct (C59_entries R 0 rzero real_clebsch_gordan 0 empty_world None IoOk 1 0 1 true rzero_test (cg_ready_empty _ _ _ _) call_ok_serial ltac:(lia) ltac:(lia) ltac:(lia)) as [c [E _]]. rewrite E. eexists. reflexivity. }
    assert (C2 : exists C, cgf 1%Z 1%Z 1%Z = Ok C).
    { unfold cgf, package_cg. destruct (C59_entries R 0 rzero real_clebsch_gordan 0 empty_world None IoOk 1 1 1 true rzero_test (cg_ready_empty _ _ _ _) call_ok_serial ltac:(lia) ltac:(lia) ltac:(lia)) as [c [E _]]. rewrite E. eexists. reflexivity. }
    destruct C1 as [c1 E1], C2 as [c2 E2]. clearbody cgf. unfold cs, x, bs. cbn [map snd].
    destruct (ok_case _ (perform cgf 0 0 (Some bs) None pair_graph [x] (snd (hd (simple_plan, UseAdd []) cs))) (fun z => fB z = [2%nat] /\ fS z = 1%nat /\ fD z = 4%nat /\ fF z = 2%nat /\ fdt z = 0%nat)) as [z [Ez Sz]].
    { clear -E1. unfold cs, x, bs. cbn [hd snd perform]. unfold select. cbn [nth_error bind]. unfold message_pass. vm_compute. rewrite E1. vm_compute. repeat split. }
    destruct z as [zB zS zD zF zd zv]. cbn in Sz. destruct Sz as [-> [-> [-> [-> ->]]]].
    destruct (ok_case _ (perform cgf 0 0 (Some bs) None pair_graph [x; mkFeat [2%nat] 1 4 2 0 zv] (snd (hd (simple_plan, UseAdd []) (tl cs)))) (fun z => fB z = [2%nat] /\ fS z = 2%nat /\ fD z = 4%nat /\ fF z = 2%nat /\ fdt z = 0%nat)) as [z [Ez2 Sz]].
    { clear -E2. unfold cs, x, bs. cbn [hd tl snd perform]. unfold select. cbn [nth_error bind]. vm_compute. rewrite E2. vm_compute. repeat split. }
    destruct z as [yB yS yD yF yd yv]. cbn in Sz. destruct Sz as [-> [-> [-> [-> ->]]]].
    destruct (ok_case _ (run cgf 0 0 (Some bs) None pair_graph [x; mkFeat [2%nat] 1 4 2 0 zv; mkFeat [2%nat] 2 4 2 0 yv] (map snd (tl (tl cs)))) (fun ys => map fS ys = [1; 1; 2; 2; 2]%nat /\ map fD ys = [1; 4; 4; 4; 4]%nat /\ map fF ys = [2; 2; 2; 2; 1]%nat)) as [ys [Ey Sy]].
    { clear. vm_compute. repeat split. }
    exists ys. split; [|exact Sy]. cbn [run]. unfold cs, x, bs in Ez, Ez2, Ey. cbn [hd tl map snd] in Ez, Ez2, Ey. rewrite Ez. cbn [bind app]. rewrite Ez2. cbn [bind app]. exact Ey.
Qed.
