(** Property C40: initialisation of tensor product kernels. *)
Require Import List Reals ZArith Bool Lia Lra.
From Coquelicot Require Import Coquelicot.
Require Import Verif.Base Verif.RSum Verif.Features_Model Verif.Features_Spec Verif.Features_Proofs
  Verif.Modules_Model Verif.Modules_Spec Verif.Modules_Proofs Verif.Modules_Tensor_Proofs Verif.Modules_Fused_Proofs Verif.Modules_Props
  Verif.Initializers_Model Verif.Initializers_Spec Verif.Initializers_Proofs.
Import ListNotations.
Open Scope R_scope.
Arguments Nat.modulo : simpl never.
Arguments Nat.mul : simpl never.

(** * Paths and their numbers *)

(** For every valid kernel shape: the mask is True exactly for the allowed coupling paths; fan_in
    is the number of allowed paths into each irrep of the result, fan_out the number of allowed
    paths out of each pair of irreps of the factors. *)
Theorem C40_mask_and_fans : forall S1 n1 S2 n2 S3 n3 F,
  (S1 = 1 \/ S1 = 2)%nat -> (S2 = 1 \/ S2 = 2)%nat -> (S3 = 1 \/ S3 = 2)%nat ->
  exists s, compute_tensor_fans_and_mask [S1; n1; S2; n2; S3; n3; F] = Ok s
  /\ forall p1 l1 p2 l2 p3 l3, (p1 < S1 /\ l1 < n1 /\ p2 < S2 /\ l2 < n2 /\ p3 < S3 /\ l3 < n3)%nat ->
     (path_mask s p1 l1 p2 l2 p3 l3 = true <-> path_allowed S1 S2 S3 p1 l1 p2 l2 p3 l3)
     /\ exactly (fan_in s p3 l3) (fun q => let '(q1, m1, q2, m2) := q in
          (q1 < S1 /\ m1 < n1 /\ q2 < S2 /\ m2 < n2)%nat /\ path_allowed S1 S2 S3 q1 m1 q2 m2 p3 l3)
     /\ exactly (fan_out s p1 l1 p2 l2) (fun q => let '(q3, m3) := q in
          (q3 < S3 /\ m3 < n3)%nat /\ path_allowed S1 S2 S3 p1 l1 p2 l2 q3 m3).
Proof.
  intros S1 n1 S2 n2 S3 n3 F V1 V2 V3. destruct (fans_ok S1 n1 S2 n2 S3 n3 F V1 V2 V3) as [c1 [c2 [c3 [E1 [E2 [E3 E]]]]]].
  eexists. split; [exact E|]. destruct (fans_spec S1 n1 S2 n2 S3 n3 F _ E V1 V2 V3) as [H1 [H2 H3]].
  intros p1 l1 p2 l2 p3 l3 [B1 [B2 [B3 [B4 [B5 B6]]]]]. split; [apply H1; assumption|]. split; [apply H2; assumption|apply H3; assumption].
Qed.
Print Assumptions C40_mask_and_fans.

(** Two vectors without pseudotensors: the scalar product into degree 0; nothing into degree 1
    because the cross product is a pseudovector. *)
Example C40_mask_and_fans_case : path_allowed 1 1 1 0 1 0 1 0 0 /\ ~ path_allowed 1 1 1 0 1 0 1 0 1 /\ path_allowed 1 1 2 0 1 0 1 0 1
  /\ exists s, compute_tensor_fans_and_mask [1; 2; 1; 2; 2; 2; 8]%nat = Ok s /\ fan_in s 0 1 = 1%nat /\ fan_out s 0 1 0 1 = 2%nat /\ fan_in s 1 0 = 0%nat.
Proof.
  split; [|split; [|split]].
  - split; [reflexivity|lia].
  - intros [H _]. discriminate.
  - split; [reflexivity|lia].
  - eexists. split; [reflexivity|]. repeat split.
Qed.

(** Other shapes raise. *)
Theorem C40_shape_errors : forall shape, length shape <> 7%nat
  \/ (exists S1 n1 S2 n2 S3 n3 F, shape = [S1; n1; S2; n2; S3; n3; F]
      /\ ~ ((S1 = 1 \/ S1 = 2) /\ (S2 = 1 \/ S2 = 2) /\ (S3 = 1 \/ S3 = 2))%nat) ->
  compute_tensor_fans_and_mask shape = Err ValueError
  /\ forall scale m dist draw p1 l1 p2 l2 p3 l3 f, tensor_variance_scaling scale m dist shape draw p1 l1 p2 l2 p3 l3 f = Err ValueError.
Proof.
  intros shape H. assert (E : compute_tensor_fans_and_mask shape = Err ValueError).
  { destruct H as [H|[S1 [n1 [S2 [n2 [S3 [n3 [F [-> H]]]]]]]]].
    - do 8 (destruct shape as [|? shape]; [try reflexivity|]); [|reflexivity]. exfalso. apply H. reflexivity.
    - unfold compute_tensor_fans_and_mask, parity_degree_index_parity_list.
      destruct (Nat.eqb_spec S1 2); [|destruct (Nat.eqb_spec S1 1); [|reflexivity]];
      (destruct (Nat.eqb_spec S2 2); [|destruct (Nat.eqb_spec S2 1); [|reflexivity]]);
      (destruct (Nat.eqb_spec S3 2); [|destruct (Nat.eqb_spec S3 1); [|reflexivity]]); exfalso; apply H; auto. }
  split; [exact E|]. intros. unfold tensor_variance_scaling. rewrite E. reflexivity.
Qed.
Print Assumptions C40_shape_errors.

Example C40_shape_errors_case : compute_tensor_fans_and_mask [3; 1; 1; 1; 1; 1; 4]%nat = Err ValueError.
Proof. reflexivity. Qed.

(** * Initial values *)

(** What is multiplied with a standard random number to get the given variance. *)
Definition deviation (dist : distribution) (variance : R) : R :=
  match dist with
  | Uniform => sqrt 3 * sqrt variance
  | TruncatedNormal => sqrt variance / 0.87962566103423978
  | _ => sqrt variance
  end.

(** Every entry of a new kernel: zero for a forbidden path; for an allowed path, a random number
    with variance scale / fan, where fan is the (positive) number of paths selected by the mode.
    In particular it is zero for an allowed path only if the random number is. *)
Theorem C40_initial_kernel : forall scale m dist S1 n1 S2 n2 S3 n3 F draw p1 l1 p2 l2 p3 l3 f, 0 < scale ->
  m <> OtherMode -> dist <> OtherDistribution ->
  (S1 = 1 \/ S1 = 2)%nat -> (S2 = 1 \/ S2 = 2)%nat -> (S3 = 1 \/ S3 = 2)%nat ->
  (p1 < S1 /\ l1 < n1 /\ p2 < S2 /\ l2 < n2 /\ p3 < S3 /\ l3 < n3)%nat ->
  exists v, tensor_variance_scaling scale m dist [S1; n1; S2; n2; S3; n3; F] draw p1 l1 p2 l2 p3 l3 f = Ok v
  /\ (~ path_allowed S1 S2 S3 p1 l1 p2 l2 p3 l3 -> v = 0)
  /\ (path_allowed S1 S2 S3 p1 l1 p2 l2 p3 l3 ->
      (draw p1 l1 p2 l2 p3 l3 f <> 0 -> v <> 0)
      /\ forall into out,
      exactly into (fun q => let '(q1, m1, q2, m2) := q in
          (q1 < S1 /\ m1 < n1 /\ q2 < S2 /\ m2 < n2)%nat /\ path_allowed S1 S2 S3 q1 m1 q2 m2 p3 l3) ->
      exactly out (fun q => let '(q3, m3) := q in
          (q3 < S3 /\ m3 < n3)%nat /\ path_allowed S1 S2 S3 p1 l1 p2 l2 q3 m3) ->
      let fan := match m with FanIn => INR into | FanOut => INR out | _ => (INR into + INR out) / 2 end in
      1 <= fan /\ v = deviation dist (scale / fan) * draw p1 l1 p2 l2 p3 l3 f).
Proof.
  intros scale m dist S1 n1 S2 n2 S3 n3 F draw p1 l1 p2 l2 p3 l3 f Hs Hm Hd V1 V2 V3 B.
  destruct (C40_mask_and_fans S1 n1 S2 n2 S3 n3 F V1 V2 V3) as [s [E H]].
  destruct (H p1 l1 p2 l2 p3 l3 B) as [Hmask [Hin Hout]]. clear H.
  unfold tensor_variance_scaling. rewrite E. cbn [bind].
  set (fan0 := match m with FanIn => INR (fan_in s p3 l3) | FanOut => INR (fan_out s p1 l1 p2 l2)
               | _ => (INR (fan_in s p3 l3) + INR (fan_out s p1 l1 p2 l2)) / 2 end).
  assert (EM : match m with
        | FanIn => Ok (INR (fan_in s p3 l3)) | FanOut => Ok (INR (fan_out s p1 l1 p2 l2))
        | FanAvg => Ok ((INR (fan_in s p3 l3) + INR (fan_out s p1 l1 p2 l2)) / 2) | OtherMode => Err ValueError end = Ok fan0)
    by (unfold fan0; destruct m; auto; congruence).
  rewrite EM. cbn [bind]. set (D := if Rlt_dec 0 fan0 then fan0 else 1).
  assert (HD : 0 < D) by (unfold D; destruct (Rlt_dec 0 fan0); lra).
  set (x := draw p1 l1 p2 l2 p3 l3 f).
  assert (ER : random_array dist (scale / D) x = Ok (deviation dist (scale / D) * x)).
  { unfold random_array, deviation. destruct dist; try reflexivity; [|congruence]. rewrite sqrt_mult_alt by lra. reflexivity. }
  rewrite ER. cbn [bind]. eexists. split; [reflexivity|]. destruct (path_mask s p1 l1 p2 l2 p3 l3) eqn:EP.
  - pose proof (proj1 Hmask eq_refl) as HA. split; [intros HN; contradiction|]. intros _. split.
    + intros Hx. apply Rmult_integral_contrapositive_currified; [|exact Hx]. apply Rgt_not_eq.
      assert (0 < sqrt (scale / D)) by (apply sqrt_lt_R0; apply Rdiv_lt_0_compat; assumption).
      assert (0 < sqrt 3) by (apply sqrt_lt_R0; lra).
      unfold deviation. destruct dist; [apply Rdiv_lt_0_compat; lra|assumption|apply Rmult_lt_0_compat; assumption|assumption].
    + intros into out HI HO. set (fan := match m with FanIn => INR into | FanOut => INR out | _ => (INR into + INR out) / 2 end).
      assert (E1 : into = fan_in s p3 l3) by (eapply exactly_unique; eassumption).
      assert (E2 : out = fan_out s p1 l1 p2 l2) by (eapply exactly_unique; eassumption).
      assert (P1 : (0 < into)%nat) by (apply (exactly_pos _ _ _ (p1, l1, p2, l2) HI); split; [tauto|exact HA]).
      assert (P2 : (0 < out)%nat) by (apply (exactly_pos _ _ _ (p3, l3) HO); split; [tauto|exact HA]).
      assert (Q1 : 1 <= INR into) by (change 1 with (INR 1); apply le_INR; lia).
      assert (Q2 : 1 <= INR out) by (change 1 with (INR 1); apply le_INR; lia).
      assert (EF : fan0 = fan) by (unfold fan0, fan; rewrite E1, E2; reflexivity).
      assert (PF : 1 <= fan) by (unfold fan; destruct m; lra).
      split; [exact PF|]. assert (ED : D = fan) by (unfold D; destruct (Rlt_dec 0 fan0); [exact EF|lra]).
      rewrite ED. reflexivity.
  - split; [reflexivity|]. intros HA. apply Hmask in HA. congruence.
Qed.
Print Assumptions C40_initial_kernel.

(** Invalid arguments raise. *)
Theorem C40_argument_errors : forall scale m dist shape draw p1 l1 p2 l2 p3 l3 f,
  m = OtherMode \/ dist = OtherDistribution ->
  tensor_variance_scaling scale m dist shape draw p1 l1 p2 l2 p3 l3 f = Err ValueError.
Proof.
  intros. unfold tensor_variance_scaling.
  assert (E : forall sh, compute_tensor_fans_and_mask sh = Err ValueError \/ exists s, compute_tensor_fans_and_mask sh = Ok s).
  { intros sh. unfold compute_tensor_fans_and_mask. do 7 (destruct sh as [|? sh]; [left; reflexivity|]). destruct sh; [|left; reflexivity].
    assert (EE : forall S n, parity_degree_index_parity_list S n = Err ValueError \/ exists c, parity_degree_index_parity_list S n = Ok c).
    { intros S k. unfold parity_degree_index_parity_list. destruct (S =? 2)%nat; [right; eexists; reflexivity|].
      destruct (S =? 1)%nat; [right; eexists; reflexivity|left; reflexivity]. }
    destruct (EE n n0) as [->|[? ->]]; [left; reflexivity|]. destruct (EE n1 n2) as [->|[? ->]]; [left; reflexivity|].
    destruct (EE n3 n4) as [->|[? ->]]; [left; reflexivity|right; eexists; reflexivity]. }
  destruct (E shape) as [->|[s ->]]; [reflexivity|]. cbn [bind]. destruct H as [->| ->]; [reflexivity|].
  destruct m; reflexivity.
Qed.
Print Assumptions C40_argument_errors.

(** The named initializers use the documented scale, fan and distribution: LeCun 1 / fan_in, He
    2 / fan_in, Glorot 1 / average fan. *)
Theorem C40_named_initializers : forall init scale m dist S1 n1 S2 n2 S3 n3 F draw p1 l1 p2 l2 p3 l3 f,
  In (init, (scale, m, dist)) [(tensor_lecun_uniform, (1, FanIn, Uniform)); (tensor_lecun_normal, (1, FanIn, TruncatedNormal));
                               (tensor_he_uniform, (2, FanIn, Uniform)); (tensor_he_normal, (2, FanIn, TruncatedNormal));
                               (tensor_glorot_uniform, (1, FanAvg, Uniform)); (tensor_glorot_normal, (1, FanAvg, TruncatedNormal))] ->
  (S1 = 1 \/ S1 = 2)%nat -> (S2 = 1 \/ S2 = 2)%nat -> (S3 = 1 \/ S3 = 2)%nat ->
  (p1 < S1 /\ l1 < n1 /\ p2 < S2 /\ l2 < n2 /\ p3 < S3 /\ l3 < n3)%nat ->
  exists v, init [S1; n1; S2; n2; S3; n3; F] draw p1 l1 p2 l2 p3 l3 f = Ok v
  /\ (~ path_allowed S1 S2 S3 p1 l1 p2 l2 p3 l3 -> v = 0)
  /\ (path_allowed S1 S2 S3 p1 l1 p2 l2 p3 l3 -> forall into out,
      exactly into (fun q => let '(q1, m1, q2, m2) := q in
          (q1 < S1 /\ m1 < n1 /\ q2 < S2 /\ m2 < n2)%nat /\ path_allowed S1 S2 S3 q1 m1 q2 m2 p3 l3) ->
      exactly out (fun q => let '(q3, m3) := q in
          (q3 < S3 /\ m3 < n3)%nat /\ path_allowed S1 S2 S3 p1 l1 p2 l2 q3 m3) ->
      let fan := match m with FanIn => INR into | FanOut => INR out | _ => (INR into + INR out) / 2 end in
      1 <= fan /\ v = deviation dist (scale / fan) * draw p1 l1 p2 l2 p3 l3 f).
Proof.
  intros init scale m dist S1 n1 S2 n2 S3 n3 F draw p1 l1 p2 l2 p3 l3 f HI V1 V2 V3 B.
  assert (H : init = tensor_variance_scaling scale m dist /\ 0 < scale /\ m <> OtherMode /\ dist <> OtherDistribution).
  { destruct HI as [E|[E|[E|[E|[E|[E|[]]]]]]]; injection E as <- <- <- <-; (split; [reflexivity|]; split; [lra|]; split; discriminate). }
  destruct H as [-> [Hs [Hm Hd]]].
  destruct (C40_initial_kernel scale m dist S1 n1 S2 n2 S3 n3 F draw p1 l1 p2 l2 p3 l3 f Hs Hm Hd V1 V2 V3 B) as [v [E [H0 H1]]].
  exists v. split; [exact E|]. split; [exact H0|]. intros HA. exact (proj2 (H1 HA)).
Qed.
Print Assumptions C40_named_initializers.

Example C40_named_initializers_case : path_allowed 1 1 1 0 0 0 0 0 0 /\
  exactly 1 (fun q => let '(q1, m1, q2, m2) := q in (q1 < 1 /\ m1 < 1 /\ q2 < 1 /\ m2 < 1)%nat /\ path_allowed 1 1 1 q1 m1 q2 m2 0 0).
Proof.
  split; [split; [reflexivity|lia]|]. exists [(0, 0, 0, 0)%nat]. split; [repeat constructor; intros []|]. split; [reflexivity|].
  intros [[[q1 m1] q2] m2]. split.
  - intros [E|[]]. injection E as <- <- <- <-. split; [lia|]. split; [reflexivity|lia].
  - intros [H _]. left. repeat f_equal; lia.
Qed.

(** Kernels of the fused layer: masked entries are zero, all others have the requested variance. *)
Theorem C40_fused_initial_kernel : forall scale mask draw l f, 0 <= scale l ->
  fused_tensor_normal scale mask draw l f = Ok (if mask l then deviation TruncatedNormal (scale l) * draw l f else 0) /\
  fused_tensor_uniform scale mask draw l f = Ok (if mask l then deviation Uniform (scale l) * draw l f else 0).
Proof.
  intros scale mask draw l f Hs. unfold fused_tensor_normal, fused_tensor_uniform, fused_tensor_init, random_array, deviation. cbn [bind].
  rewrite sqrt_mult_alt by lra. auto.
Qed.
Print Assumptions C40_fused_initial_kernel.

Example C40_fused_initial_kernel_case :
  fused_tensor_uniform (fun _ => 3) (fused_mask_odd 1) (fun _ _ => 1) 0 0 = Ok 0 /\ fused_tensor_uniform (fun _ => 3) (fused_mask_odd 1) (fun _ _ => 1) 1 0 = Ok 3.
Proof.
  split; [apply (C40_fused_initial_kernel (fun _ => 3) (fused_mask_odd 1)); lra|].
  destruct (C40_fused_initial_kernel (fun _ => 3) (fused_mask_odd 1) (fun _ _ => 1) 1 0 ltac:(lra)) as [_ ->].
  change (Ok (sqrt 3 * sqrt 3 * 1) = Ok 3). rewrite sqrt_sqrt by lra. apply f_equal. ring.
Qed.

(** The uniform distribution on [-1, 1] multiplied with the deviation has mean 0 and the requested
    variance. *)
Theorem C40_uniform_variance : forall variance, 0 <= variance ->
  (exists pr : Riemann_integrable (fun u => deviation Uniform variance * u / 2) (-1) 1, RiemannInt pr = 0)
  /\ (exists pr : Riemann_integrable (fun u => Rsqr (deviation Uniform variance * u) / 2) (-1) 1, RiemannInt pr = variance).
Proof.
  intros v Hv. set (c := deviation Uniform v).
  assert (Hc : c * c = 3 * v).
  { unfold c, deviation. replace (sqrt 3 * sqrt v * (sqrt 3 * sqrt v)) with ((sqrt 3 * sqrt 3) * (sqrt v * sqrt v)) by ring.
    rewrite !sqrt_sqrt by lra. reflexivity. }
  clearbody c. split.
  - assert (HI : is_RInt (fun u => c * u / 2) (-1) 1 0).
    { replace 0 with (minus (c / 4 * 1 * 1) (c / 4 * (-1) * (-1))) by (unfold minus, plus, opp; cbn; ring).
      apply (is_RInt_derive (fun u => c / 4 * u * u)).
      - intros x _. auto_derive; [exact I|]. field.
      - intros x _. apply (ex_derive_continuous (fun u => c * u / 2)). auto_derive. exact I. }
    exists (ex_RInt_Reals_0 _ _ _ (ex_intro _ _ HI)). rewrite <- RInt_Reals. apply is_RInt_unique. exact HI.
  - assert (HI : is_RInt (fun u => Rsqr (c * u) / 2) (-1) 1 v).
    { replace v with (minus (c * c / 6 * 1 ^ 3) (c * c / 6 * (-1) ^ 3)) by (unfold minus, plus, opp; simpl; lra).
      apply (is_RInt_derive (fun u => c * c / 6 * u ^ 3)).
      - intros x _. unfold Rsqr. auto_derive; [exact I|]. field.
      - intros x _. unfold Rsqr. apply (ex_derive_continuous (fun u => c * u * (c * u) / 2)). auto_derive. exact I. }
    exists (ex_RInt_Reals_0 _ _ _ (ex_intro _ _ HI)). rewrite <- RInt_Reals. apply is_RInt_unique. exact HI.
Qed.
Print Assumptions C40_uniform_variance.

(** * The layers do not use what is masked *)

Lemma couplings_same : forall n1 n2 n3 C W W' a b x y z z', valid n1 x -> valid n2 y -> valid n3 z -> valid n3 z' ->
  fB z = fB z' -> fS z = fS z' -> fF z = fF z' -> fdt z = fdt z' ->
  weighted_couplings n1 n2 C W a b x y z -> weighted_couplings n1 n2 C W' a b x y z' ->
  (forall p1 l1 p2 l2 p l k f u v, (p1 < 2)%nat -> (p2 < 2)%nat -> ((p1 + p2) mod 2 = p)%nat -> (k < 2 * l + 1)%nat ->
     has_slot x p1 l1 -> has_slot y p2 l2 -> has_slot z p l ->
     W p1 l1 p2 l2 p l f * coupled C u v l1 l2 l k = W' p1 l1 p2 l2 p l f * coupled C u v l1 l2 l k) ->
  same_feature z z'.
Proof.
  intros n1 n2 n3 C W W' a b x y z z' V1 V2 Vz Vz' HB HS HF Hd H H' HW.
  apply (comp_determines n3); try assumption. intros i p l k f Hp Hl Hk. destruct (slot_dec z p l) as [Hs|Hs].
  - rewrite H by assumption. rewrite H'; [|assumption|assumption|apply (has_slot_ext z z'); auto; rewrite (proj2 Vz), (proj2 Vz'); reflexivity].
    apply rsum_ext. intros p1 Hp1. apply rsum_ext. intros l1 Hl1. apply rsum_ext. intros p2 Hp2. apply rsum_ext. intros l2 Hl2.
    destruct (Nat.eqb_spec ((p1 + p2) mod 2) p) as [Ep|Ep]; [|reflexivity].
    destruct (slot_dec x p1 l1) as [S1|S1].
    + destruct (slot_dec y p2 l2) as [S2|S2]; [apply HW; auto|].
      assert (Z0 : forall k0, comp y (b i) p2 l2 k0 f = 0) by (intros k0; apply (no_slot n2); assumption).
      unfold coupled. rewrite (rsum_zero (2 * l1 + 1)); [ring|]. intros k1 _. apply rsum_zero. intros k2 _. rewrite Z0. ring.
    + assert (Z0 : forall k0, comp x (a i) p1 l1 k0 f = 0) by (intros k0; apply (no_slot n1); assumption).
      unfold coupled. rewrite (rsum_zero (2 * l1 + 1)); [ring|]. intros k1 _. apply rsum_zero. intros k2 _. rewrite Z0. ring.
  - rewrite (no_slot n3 z) by assumption. symmetry. apply (no_slot n3); try assumption.
    intros Hs'. apply Hs. apply (has_slot_ext z' z); auto. rewrite (proj2 Vz), (proj2 Vz'). reflexivity.
Qed.

Lemma slot_parity : forall x p l, has_slot x p l -> entry_parity (fS x) (channel (fS x) p) l = p.
Proof.
  intros x p l [_ H]. unfold entry_parity, channel. destruct (Nat.eqb_spec (fS x) 2); [reflexivity|].
  destruct H as [H|[_ H]]; [contradiction|auto].
Qed.

Section Used.
Variable cgf : Z -> Z -> Z -> result (nat -> nat -> nat -> R).

(** Weights of forbidden paths, which are initialised with zero, never change the result of Tensor. *)
Theorem C40_masked_weights_unused : forall x y max_degree include K K' z, cg_checked cgf ->
  (forall L1 L2 L3 C, cgf L1 L2 L3 = Ok C -> triangle_rule C) ->
  tensor cgf max_degree include K x y = Ok z ->
  (forall p1 l1 p2 l2 p l f, path_allowed (fS x) (fS y) (fS z) p1 l1 p2 l2 p l -> K p1 l1 p2 l2 p l f = K' p1 l1 p2 l2 p l f) ->
  exists z', tensor cgf max_degree include K' x y = Ok z' /\ same_feature z z'.
Proof.
  intros x y md incl K K' z Hcg Ht H HK.
  assert (V : exists n1 n2, valid n1 x /\ valid n2 y).
  { pose proof H as H0. unfold tensor in H0.
    destruct (extract_max_degree_and_check_shape (shape_of x)) as [L1|] eqn:E1; [|discriminate].
    destruct (extract_max_degree_and_check_shape (shape_of y)) as [L2|] eqn:E2; [|discriminate].
    destruct (extract_ok x L1 E1) as [n1 [V1 _]]. destruct (extract_ok y L2 E2) as [n2 [V2 _]]. eauto. }
  destruct V as [n1 [n2 [V1 V2]]].
  destruct (tensor_couplings cgf n1 n2 x y md incl K z Hcg V1 V2 H) as
    [n3 [C [B [EC [P1 [P2 [P3 [P4 [EO [EB [EBz [Vz [ES [EF [EF2 [Ed W]]]]]]]]]]]]]]]].
  destruct (C36_tensor_formula cgf n1 n2 x y md incl K' (Z.of_nat n3 - 1) C B V1 V2 ltac:(auto)
    ltac:(rewrite <- EO; reflexivity) ltac:(lia) Hcg EC EB) as [z' [_ [E' _]]].
  exists z'. split; [exact E'|].
  destruct (tensor_couplings cgf n1 n2 x y md incl K' z' Hcg V1 V2 E') as
    [n3' [C' [B' [EC' [P1' [P2' [P3' [P4' [EO' [EB' [EBz' [Vz' [ES' [EF' [EF2' [Ed' W']]]]]]]]]]]]]]]].
  assert (n3' = n3) by lia. subst n3'. assert (C' = C) by congruence. subst C'. assert (EBB : B' = B) by congruence. rewrite EBB in EBz', W'.
  assert (SS : fS z' = fS z) by congruence. rewrite SS in W'.
  assert (Q1 : fB z = fB z') by congruence. assert (Q2 : fS z = fS z') by congruence.
  assert (Q3 : fF z = fF z') by congruence. assert (Q4 : fdt z = fdt z') by congruence.
  refine (couplings_same _ _ _ _ _ _ _ _ x y z z' V1 V2 Vz Vz' Q1 Q2 Q3 Q4 W W' _).
  intros p1 l1 p2 l2 p l k f u v Hp1 Hp2 Hp Hk S1 S2 S3. cbn beta.
  assert (HT : (l1 <= l2 + l /\ l2 <= l1 + l /\ l <= l1 + l2)%nat \/ ~ (l1 <= l2 + l /\ l2 <= l1 + l /\ l <= l1 + l2)%nat) by lia.
  destruct HT as [HT|HT].
  - rewrite HK; [reflexivity|]. split; [|exact HT]. rewrite !slot_parity by assumption. exact Hp.
  - assert (Z0 : coupled C u v l1 l2 l k = 0); [|rewrite Z0; ring].
    unfold coupled. apply rsum_zero. intros k1 Hk1. apply rsum_zero. intros k2 Hk2. rewrite (Ht _ _ _ _ EC) by assumption. ring.
Qed.

(** Conversely, changing only the weight of an allowed path with a non-zero coefficient changes the
    result for some inputs of the same shape. *)
Theorem C40_allowed_weights_used : forall x0 y0 max_degree include K z0 p1 l1 p2 l2 p l k1 k2 k C, cg_checked cgf ->
  tensor cgf max_degree include K x0 y0 = Ok z0 ->
  has_slot x0 p1 l1 -> has_slot y0 p2 l2 -> has_slot z0 p l -> (p1 < 2)%nat -> (p2 < 2)%nat -> ((p1 + p2) mod 2 = p)%nat ->
  (k1 < 2 * l1 + 1)%nat -> (k2 < 2 * l2 + 1)%nat -> (k < 2 * l + 1)%nat ->
  (forall n1 n2 n3, valid n1 x0 -> valid n2 y0 -> valid n3 z0 -> cgf (Z.of_nat n1 - 1) (Z.of_nat n2 - 1) (Z.of_nat n3 - 1) = Ok C)%Z ->
  C (l1 * l1 + k1)%nat (l2 * l2 + k2)%nat (l * l + k)%nat <> 0 ->
  exists x y K' z z', shape_of x = shape_of x0 /\ shape_of y = shape_of y0
  /\ tensor cgf max_degree include K x y = Ok z /\ tensor cgf max_degree include K' x y = Ok z'
  /\ (forall q1 m1 q2 m2 q m f, ~ (q1 = channel (fS x) p1 /\ m1 = l1 /\ q2 = channel (fS y) p2 /\ m2 = l2 /\ q = channel (fS z) p /\ m = l) ->
        K q1 m1 q2 m2 q m f = K' q1 m1 q2 m2 q m f)
  /\ forall i f, comp z i p l k f <> comp z' i p l k f.
Proof.
  intros x0 y0 md incl K z0 p1 l1 p2 l2 p l k1 k2 k C Hcg H S1 S2 S3 Hp1 Hp2 Hp Hk1 Hk2 Hk HC HN.
  assert (V : exists n1 n2, valid n1 x0 /\ valid n2 y0).
  { pose proof H as H0. unfold tensor in H0.
    destruct (extract_max_degree_and_check_shape (shape_of x0)) as [L1|] eqn:E1; [|discriminate].
    destruct (extract_max_degree_and_check_shape (shape_of y0)) as [L2|] eqn:E2; [|discriminate].
    destruct (extract_ok x0 L1 E1) as [n1 [V1 _]]. destruct (extract_ok y0 L2 E2) as [n2 [V2 _]]. eauto. }
  destruct V as [n1 [n2 [V1 V2]]].
  destruct (tensor_couplings cgf n1 n2 x0 y0 md incl K z0 Hcg V1 V2 H) as
    [n3 [C' [B [EC [P1 [P2 [P3 [P4 [EO [EB [EBz [Vz [ES [EF [EF2 [Ed W]]]]]]]]]]]]]]]].
  assert (C' = C) by (pose proof (HC n1 n2 n3 V1 V2 Vz); congruence). subst C'.
  set (unit (x : feat) (q m j : nat) := mkFeat (fB x) (fS x) (fD x) (fF x) (fdt x)
         (fun _ s d _ => if (s =? channel (fS x) q)%nat && (d =? m * m + j)%nat then 1 else 0)).
  assert (Hu : forall n x q m j, valid n x -> has_slot x q m -> (q < 2)%nat -> (j < 2 * m + 1)%nat -> forall i q' m' j' f, (q' < 2)%nat -> (j' < 2 * m' + 1)%nat ->
     comp (unit x q m j) i q' m' j' f = if (q' =? q)%nat && (m' =? m)%nat && (j' =? j)%nat then 1 else 0).
  { intros n x q m j V [HD HS] Hq Hj i q' m' j' f Hq' Hj'. unfold comp, unit. cbn [fD fS fv].
    assert (Hsq : (m' * m' + j' =? m * m + j)%nat = ((m' =? m) && (j' =? j))%nat).
    { destruct (Nat.eqb_spec m' m) as [->|Hm]; cbn [andb].
      - destruct (Nat.eqb_spec (m * m + j') (m * m + j)), (Nat.eqb_spec j' j); try reflexivity; lia.
      - destruct (Nat.eqb_spec (m' * m' + j') (m * m + j)); [|reflexivity]. exfalso. nia. }
    destruct (Nat.leb_spec ((m' + 1) * (m' + 1)) (fD x)) as [Hle|Hle].
    - rewrite Hsq. unfold channel. destruct (Nat.eqb_spec (fS x) 2) as [E|E]; [rewrite <- andb_assoc; reflexivity|].
      destruct HS as [HS|[HS1 HS]]; [contradiction|]. rewrite Nat.eqb_refl. cbn [andb].
      destruct (Nat.eqb_spec m' m) as [->|Hm].
      + rewrite HS. cbn [andb]. destruct (q' =? m mod 2)%nat; reflexivity.
      + cbn [andb]. rewrite andb_false_r. cbn [andb]. destruct (q' =? m' mod 2)%nat; reflexivity.
    - destruct (Nat.eqb_spec m' m) as [->|Hm]; [lia|]. rewrite andb_false_r. reflexivity. }
  set (x := unit x0 p1 l1 k1). set (y := unit y0 p2 l2 k2).
  set (K' := fun q1 m1 q2 m2 q m (f : nat) => if (q1 =? channel (fS x0) p1)%nat && (m1 =? l1)%nat && (q2 =? channel (fS y0) p2)%nat && (m2 =? l2)%nat
                && (q =? channel (fS z0) p)%nat && (m =? l)%nat then K q1 m1 q2 m2 q m f + 1 else K q1 m1 q2 m2 q m f).
  assert (Vx : valid n1 x) by exact V1. assert (Vy : valid n2 y) by exact V2.
  assert (HT : forall KK, exists zz, tensor cgf md incl KK x y = Ok zz /\ fS zz = fS z0 /\ valid n3 zz /\ weighted_couplings n1 n2 C
         (fun p1 l1 p2 l2 p l f => KK (channel (fS x) p1) l1 (channel (fS y) p2) l2 (channel (fS zz) p) l f)
         (bidx (fB x) B) (bidx (fB y) B) x y zz).
  { intros KK. destruct (C36_tensor_formula cgf n1 n2 x y md incl KK (Z.of_nat n3 - 1) C B Vx Vy ltac:(cbn; auto)
      ltac:(rewrite <- EO; reflexivity) ltac:(lia) Hcg EC EB) as [zz [n3' [E [En [Vzz [_ [_ [_ [ESz Wz]]]]]]]]].
    assert (n3' = n3) by lia. subst n3'. exists zz. split; [exact E|]. split; [|split; [exact Vzz|exact Wz]].
    rewrite ESz, ES. unfold output_pseudotensors. cbn [fS x y unit].
    assert (E1 : (Z.of_nat n1 - 1 =? 0)%Z = (n1 =? 1)%nat) by (destruct (Z.eqb_spec (Z.of_nat n1 - 1) 0), (Nat.eqb_spec n1 1); lia).
    assert (E2 : (Z.of_nat n2 - 1 =? 0)%Z = (n2 =? 1)%nat) by (destruct (Z.eqb_spec (Z.of_nat n2 - 1) 0), (Nat.eqb_spec n2 1); lia).
    assert (E3 : (Z.of_nat n3 - 1 =? 0)%Z = (n3 =? 1)%nat) by (destruct (Z.eqb_spec (Z.of_nat n3 - 1) 0), (Nat.eqb_spec n3 1); lia).
    rewrite E1, E2, E3. destruct ((fS x0 =? 1)%nat && (fS y0 =? 1)%nat && _)%bool; destruct incl; reflexivity. }
  destruct (HT K) as [z [Ez [Sz [Vzz Wz]]]]. destruct (HT K') as [z' [Ez' [Sz' [Vz' Wz']]]].
  exists x, y, K', z, z'. split; [reflexivity|]. split; [reflexivity|]. split; [exact Ez|]. split; [exact Ez'|]. split.
  - intros q1 m1 q2 m2 q m f HNo. unfold K'. rewrite Sz in HNo. cbn [fS x y unit] in HNo.
    destruct ((q1 =? _)%nat && _ && _ && _ && _ && _)%bool eqn:EE; [|reflexivity]. exfalso. apply HNo.
    rewrite !andb_true_iff, !Nat.eqb_eq in EE. tauto.
  - intros i f.
    assert (Hl1 : (l1 < n1)%nat) by (apply (has_slot_valid n1 x0 p1 l1 V1); exact S1).
    assert (Hl2 : (l2 < n2)%nat) by (apply (has_slot_valid n2 y0 p2 l2 V2); exact S2).
    assert (Hl3 : (l < n3)%nat) by (apply (has_slot_valid n3 z0 p l Vz); exact S3).
    assert (Hsl : forall zz, valid n3 zz -> fS zz = fS z0 -> has_slot zz p l).
    { intros zz Vq Sq. apply (has_slot_ext zz z0); auto. rewrite (proj2 Vq), (proj2 Vz). reflexivity. }
    assert (Hp' : (p < 2)%nat) by (rewrite <- Hp; apply Nat.mod_upper_bound; lia).
    assert (HV : forall KK zz, fS zz = fS z0 -> valid n3 zz -> weighted_couplings n1 n2 C
         (fun p1 l1 p2 l2 p l f => KK (channel (fS x) p1) l1 (channel (fS y) p2) l2 (channel (fS zz) p) l f)
         (bidx (fB x) B) (bidx (fB y) B) x y zz ->
       comp zz i p l k f = KK (channel (fS x0) p1) l1 (channel (fS y0) p2) l2 (channel (fS z0) p) l f * C (l1 * l1 + k1)%nat (l2 * l2 + k2)%nat (l * l + k)%nat).
    { intros KK zz Sq Vq Wq. rewrite (Wq i p l k f) by auto. rewrite Sq. cbn [fS x y unit].
      assert (HC0 : forall q1 m1 q2 m2, (q1 < 2)%nat -> (q2 < 2)%nat ->
        coupled C (fun k1 => comp x (bidx (fB x) B i) q1 m1 k1 f) (fun k2 => comp y (bidx (fB y) B i) q2 m2 k2 f) m1 m2 l k
        = if (q1 =? p1)%nat && (m1 =? l1)%nat && (q2 =? p2)%nat && (m2 =? l2)%nat then C (l1 * l1 + k1)%nat (l2 * l2 + k2)%nat (l * l + k)%nat else 0).
      { intros q1 m1 q2 m2 Hq1 Hq2. unfold coupled.
        destruct ((q1 =? p1)%nat && (m1 =? l1)%nat) eqn:EA.
        - apply andb_prop in EA. destruct EA as [EA EB']. apply Nat.eqb_eq in EA, EB'. subst q1 m1. cbn [andb].
          rewrite (rsum_single _ _ k1) by (solve [assumption|intros j Hj Hne; apply rsum_zero; intros j2 _; unfold x;
            rewrite (Hu n1 x0) by auto; rewrite !Nat.eqb_refl; destruct (Nat.eqb_spec j k1); [contradiction|cbn [andb]; ring]]).
          destruct ((q2 =? p2)%nat && (m2 =? l2)%nat) eqn:ED.
          + apply andb_prop in ED. destruct ED as [EA EC']. apply Nat.eqb_eq in EA, EC'. subst q2 m2.
            rewrite (rsum_single _ _ k2) by (solve [assumption|intros j Hj Hne; unfold y;
              rewrite (Hu n2 y0) by auto; rewrite !Nat.eqb_refl; destruct (Nat.eqb_spec j k2); [contradiction|cbn [andb]; ring]]).
            unfold x, y. rewrite (Hu n1 x0), (Hu n2 y0) by auto. rewrite !Nat.eqb_refl. cbn [andb]. ring.
          + apply rsum_zero. intros j Hj. unfold y. rewrite (Hu n2 y0) by auto. rewrite ED. cbn [andb]. ring.
        - cbn [andb]. apply rsum_zero. intros j Hj. apply rsum_zero. intros j2 _. unfold x. rewrite (Hu n1 x0) by auto. rewrite EA. cbn [andb]. ring. }
      rewrite (rsum_single 2 _ p1) by (solve [assumption|intros q Hq Hne; apply rsum_zero; intros; apply rsum_zero; intros; apply rsum_zero; intros;
        rewrite HC0 by auto; destruct (Nat.eqb_spec q p1); [contradiction|]; cbn [andb]; destruct (_ =? _)%nat; ring]).
      rewrite (rsum_single n1 _ l1) by (solve [assumption|intros q Hq Hne; apply rsum_zero; intros; apply rsum_zero; intros;
        rewrite HC0 by auto; destruct (Nat.eqb_spec q l1); [contradiction|]; rewrite andb_false_r; cbn [andb]; destruct (_ =? _)%nat; ring]).
      rewrite (rsum_single 2 _ p2) by (solve [assumption|intros q Hq Hne; apply rsum_zero; intros;
        rewrite HC0 by auto; destruct (Nat.eqb_spec q p2); [contradiction|]; rewrite andb_false_r; cbn [andb]; destruct (_ =? _)%nat; ring]).
      rewrite (rsum_single n2 _ l2) by (solve [assumption|intros q Hq Hne;
        rewrite HC0 by auto; destruct (Nat.eqb_spec q l2); [contradiction|]; rewrite andb_false_r; destruct (_ =? _)%nat; ring]).
      rewrite HC0 by auto. rewrite !Nat.eqb_refl. cbn [andb]. rewrite Hp, Nat.eqb_refl. reflexivity. }
    rewrite (HV K z Sz Vzz Wz), (HV K' z' Sz' Vz' Wz'). unfold K'. rewrite !Nat.eqb_refl. cbn [andb].
    intros EE. apply HN. lra.
Qed.

(** The same for FusedTensor: the weights that its masks set to zero are not used, for coefficients
    with the symmetries of Clebsch-Gordan coefficients. *)
Theorem C40_fused_masked_weights_unused : forall x y max_degree include P P' z, cg_checked cgf ->
  (forall d, max_degree = Some d -> (0 <= d)%Z) ->
  (forall M L C, cgf (Z.of_nat M) (Z.of_nat M) L = Ok C -> swap_rule M C) ->
  fused_tensor cgf max_degree include P x y = Ok z ->
  (forall l f, (fused_mask_even (fS x) l = true -> k_e1 P l f = k_e1 P' l f) /\ (fused_mask_odd (fS x) l = true -> k_o1 P l f = k_o1 P' l f)
     /\ (fused_mask_even (fS y) l = true -> k_e2 P l f = k_e2 P' l f) /\ (fused_mask_odd (fS y) l = true -> k_o2 P l f = k_o2 P' l f)
     /\ k_eee P l f = k_eee P' l f /\ k_ooe P l f = k_ooe P' l f
     /\ (fused_mask_result (fS x) (fS y) l = true -> k_eoo P l f = k_eoo P' l f)
     /\ (fused_mask_result (fS x) (fS y) l = true -> k_oeo P l f = k_oeo P' l f)) ->
  exists z', fused_tensor cgf max_degree include P' x y = Ok z' /\ same_feature z z'.
Proof.
  intros x y md incl P P' z Hcg Hmd HS H HK.
  assert (V : exists n1 n2, valid n1 x /\ valid n2 y).
  { pose proof H as H0. unfold fused_tensor in H0.
    destruct (extract_max_degree_and_check_shape (shape_of x)) as [L1|] eqn:E1; [|discriminate].
    destruct (extract_max_degree_and_check_shape (shape_of y)) as [L2|] eqn:E2; [|discriminate].
    destruct (extract_ok x L1 E1) as [n1 [V1 _]]. destruct (extract_ok y L2 E2) as [n2 [V2 _]]. eauto. }
  destruct V as [n1 [n2 [V1 V2]]].
  assert (Hok : exists z', fused_tensor cgf md incl P' x y = Ok z').
  { unfold fused_tensor in H |- *.
    destruct (extract_max_degree_and_check_shape (shape_of x)); [|discriminate]. destruct (extract_max_degree_and_check_shape (shape_of y)); [|discriminate].
    cbn [bind] in *. destruct (_ <? _)%Z; [discriminate|]. destruct (negb _); [discriminate|]. destruct (cgf _ _ _); [|discriminate].
    cbn [bind] in *. destruct (broadcast_shapes _ _); [|discriminate]. cbn [bind] in *. destruct (output_pseudotensors _ _ _ _ _ _); eexists; reflexivity. }
  destruct Hok as [z' E']. exists z'. split; [exact E'|].
  destruct (fused_couplings cgf n1 n2 x y md incl P z Hcg Hmd V1 V2 H) as
    [n3 [n [M [C [B [EC [P1 [P2 [P3 [P4 [EO [EB [EBz [Vz [ES [EF [EF2 [Ed W]]]]]]]]]]]]]]]]]].
  destruct (fused_couplings cgf n1 n2 x y md incl P' z' Hcg Hmd V1 V2 E') as
    [n3' [n' [M' [C' [B' [EC' [P1' [P2' [P3' [P4' [EO' [EB' [EBz' [Vz' [ES' [EF' [EF2' [Ed' W']]]]]]]]]]]]]]]]]].
  assert (n3' = n3) by lia. subst n3'. assert (En : n' = n) by congruence. rewrite En in P3', EC'. assert (EM : M' = M) by congruence. rewrite EM in EC', W'.
  assert (EC2 : C' = C) by congruence. rewrite EC2 in W'. assert (EBB : B' = B) by congruence. rewrite EBB in EBz', W'.
  destruct (HS M _ C EC) as [HSW [c HTr]].
  assert (Q1 : fB z = fB z') by congruence. assert (Q2 : fS z = fS z') by congruence.
  assert (Q3 : fF z = fF z') by congruence. assert (Q4 : fdt z = fdt z') by congruence.
  refine (couplings_same _ _ _ _ _ _ _ _ x y z z' V1 V2 Vz Vz' Q1 Q2 Q3 Q4 W W' _).
  intros p1 l1 p2 l2 p l k f u v Hp1 Hp2 Hp Hk S1 S2 S3. cbn beta.
  assert (HP : forall x n p l, has_slot x p l -> valid n x -> (p < 2)%nat -> (p = 0%nat -> fused_mask_even (fS x) l = true) /\ (p = 1%nat -> fused_mask_odd (fS x) l = true)).
  { intros x0 n0 q m Hs V Hq. apply (has_slot_valid n0) in Hs; [|exact V]. unfold fused_mask_even, fused_mask_odd.
    destruct Hs as [_ [->|[-> ->]]]; [auto|]. cbn [Nat.eqb].
    split; intros E; [|rewrite E; reflexivity]. apply Nat.eqb_eq. rewrite Nat.add_mod, E by lia. reflexivity. }
  destruct (HK l1 f) as [A1 [A2 [_ [_ [_ [_ [_ _]]]]]]]. destruct (HK l2 f) as [_ [_ [A3 [A4 [_ [_ [_ _]]]]]]].
  destruct (HK l f) as [_ [_ [_ [_ [A5 [A6 [A7 A8]]]]]]].
  assert (Ein1 : kin1 P p1 l1 f = kin1 P' p1 l1 f).
  { destruct (HP x n1 p1 l1 S1 V1 Hp1) as [HE HO]. unfold kin1. destruct p1 as [|[|?]]; [apply A1, HE|apply A2, HO|lia]; reflexivity. }
  assert (Ein2 : kin2 P p2 l2 f = kin2 P' p2 l2 f).
  { destruct (HP y n2 p2 l2 S2 V2 Hp2) as [HE HO]. unfold kin2. destruct p2 as [|[|?]]; [apply A3, HE|apply A4, HO|lia]; reflexivity. }
  rewrite <- Ein1, <- Ein2.
  destruct (fused_mask_result (fS x) (fS y) l) eqn:EMR.
  - assert (Eout : kout P p1 p2 l f = kout P' p1 p2 l f)
      by (unfold kout; destruct p1 as [|[|?]], p2 as [|[|?]]; try lia; auto).
    rewrite <- Eout. reflexivity.
  - unfold fused_mask_result in EMR. destruct ((fS x =? 1)%nat && (fS y =? 1)%nat) eqn:EMS; [|discriminate].
    apply andb_prop in EMS. destruct EMS as [X1 X2]. apply Nat.eqb_eq in X1, X2. apply negb_false_iff, Nat.eqb_eq in EMR. subst l.
    assert (k = 0%nat) by lia. subst k.
    apply (has_slot_valid n1) in S1; [|exact V1]. apply (has_slot_valid n2) in S2; [|exact V2].
    destruct S1 as [Hl1 [S1|[_ S1]]]; [congruence|]. destruct S2 as [Hl2 [S2|[_ S2]]]; [congruence|].
    destruct (Nat.eq_dec p1 p2) as [Ep|Ep].
    + assert (Eout : kout P p1 p2 0 f = kout P' p1 p2 0 f)
        by (unfold kout; destruct p1 as [|[|?]], p2 as [|[|?]]; try lia; auto).
      rewrite <- Eout. reflexivity.
    + assert (Z0 : coupled (fuse (2 * M + 1) (fun u v d => C (M * M + u)%nat (M * M + v)%nat d)) u v l1 l2 0 0 = 0); [|rewrite Z0; ring].
      assert (HM : (n <= 2 * M + 1)%nat) by (rewrite P3; pose proof (Nat.div_mod n 2 ltac:(lia)); pose proof (Nat.mod_upper_bound n 2 ltac:(lia)); lia).
      assert (Hsgn : (if (l1 mod 2 =? 0)%nat then 1 else -1) * (if (l2 mod 2 =? 0)%nat then 1 else -1) = -1).
      { rewrite <- S1, <- S2. destruct p1 as [|[|?]], p2 as [|[|?]]; try lia; cbn; ring. }
      unfold coupled. apply rsum_zero. intros k1 Hk1. apply rsum_zero. intros k2 Hk2.
      assert (FZ : fuse (2 * M + 1) (fun u v d => C (M * M + u)%nat (M * M + v)%nat d) (l1 * l1 + k1) (l2 * l2 + k2) (0 * 0 + 0) = 0); [|rewrite FZ; ring].
      change (0 * 0 + 0)%nat with 0%nat.
      set (w := (2 * M + 1)%nat) in *.
      set (c1 u v := C (M * M + u)%nat (M * M + v)%nat (l1 * l1 + k1)%nat). set (c2 u v := C (M * M + u)%nat (M * M + v)%nat (l2 * l2 + k2)%nat).
      set (T := rsum w (fun u => rsum w (fun v => c1 u v * c2 v u))).
      assert (FT : fuse w (fun u v d => C (M * M + u)%nat (M * M + v)%nat d) (l1 * l1 + k1) (l2 * l2 + k2) 0 = c * T).
      { unfold fuse, T. rewrite <- rsum_scal_l. apply rsum_ext. intros a Ha. rewrite <- rsum_scal_l. apply rsum_ext. intros b Hb.
        rewrite (rsum_single _ _ a) by (solve [assumption|intros t Ht Hne; rewrite HTr by assumption; destruct (Nat.eqb_spec a t); [congruence|ring]]).
        rewrite HTr by assumption. rewrite Nat.eqb_refl. unfold c1, c2. ring. }
      assert (TT : T = - T); [|rewrite FT; replace T with 0 by lra; ring].
      transitivity (rsum w (fun u => rsum w (fun v => - (c1 v u * c2 u v)))).
      * apply rsum_ext. intros a Ha. apply rsum_ext. intros b Hb. unfold c1, c2.
        rewrite (HSW a b l1 k1) by (assumption || lia). rewrite (HSW b a l2 k2) by (assumption || lia).
        set (A := C (M * M + b)%nat (M * M + a)%nat (l1 * l1 + k1)%nat). set (B0 := C (M * M + a)%nat (M * M + b)%nat (l2 * l2 + k2)%nat).
        transitivity ((if (l1 mod 2 =? 0)%nat then 1 else -1) * (if (l2 mod 2 =? 0)%nat then 1 else -1) * (A * B0)); [ring|].
        rewrite Hsgn. ring.
      * rewrite rsum_swap. unfold T. rewrite <- rsum_opp. apply rsum_ext. intros a Ha. rewrite <- rsum_opp. reflexivity.
Qed.

End Used.
Print Assumptions C40_masked_weights_unused.
Print Assumptions C40_allowed_weights_used.
Print Assumptions C40_fused_masked_weights_unused.

(** The couplings of scalars and vectors satisfy the hypotheses. *)
Lemma case_triangle : triangle_rule case_coupling.
Proof.
  assert (U : forall l k l' k', (k < 2 * l + 1)%nat -> (k' < 2 * l' + 1)%nat -> (l * l + k = l' * l' + k')%nat -> l = l') by (intros; nia).
  assert (Z0 : forall l k, (l * l + k = 0)%nat -> l = 0%nat) by (intros; nia).
  assert (O1 : forall l k, (k < 2 * l + 1)%nat -> (l * l + k = 1 \/ l * l + k = 2 \/ l * l + k = 3)%nat -> l = 1%nat) by (intros; nia).
  intros l1 l2 l3 k1 k2 k3 H1 H2 H3 HN.
  remember (l1 * l1 + k1)%nat as a eqn:Ea. remember (l2 * l2 + k2)%nat as b eqn:Eb. remember (l3 * l3 + k3)%nat as c eqn:Ec. symmetry in Ea, Eb, Ec.
  unfold case_coupling. destruct a as [|a].
  { destruct (Nat.eqb_spec b c) as [E|E]; [|reflexivity]. exfalso. pose proof (Z0 _ _ Ea). pose proof (U l2 k2 l3 k3 H2 H3 ltac:(lia)). lia. }
  destruct b as [|b].
  { destruct (Nat.eqb_spec (S a) c) as [E|E]; [|destruct a as [|[|[|?]]]; reflexivity]. exfalso. pose proof (Z0 _ _ Eb). pose proof (U l1 k1 l3 k3 H1 H3 ltac:(lia)). lia. }
  destruct c as [|c].
  { destruct (Nat.eqb_spec (S a) (S b)) as [E|E]; [|destruct a as [|[|[|?]]], b as [|[|[|?]]]; reflexivity]. exfalso. pose proof (Z0 _ _ Ec). pose proof (U l1 k1 l2 k2 H1 H2 ltac:(lia)). lia. }
  destruct (le_lt_dec a 2) as [Ha|Ha]; [|destruct a as [|[|[|?]]]; try lia; reflexivity].
  destruct (le_lt_dec b 2) as [Hb|Hb]; [|destruct a as [|[|[|?]]], b as [|[|[|?]]]; try lia; reflexivity].
  destruct (le_lt_dec c 2) as [Hc|Hc]; [|destruct a as [|[|[|?]]], b as [|[|[|?]]], c as [|[|[|?]]]; try lia; reflexivity].
  exfalso. pose proof (O1 l1 k1 H1 ltac:(lia)). pose proof (O1 l2 k2 H2 ltac:(lia)). pose proof (O1 l3 k3 H3 ltac:(lia)). lia.
Qed.

Lemma case_swap : forall M L C, case_cg (Z.of_nat M) (Z.of_nat M) L = Ok C -> swap_rule M C.
Proof.
  intros M L C H. unfold case_cg in H. destruct ((_ <? 0) || _ || _)%Z; [discriminate|].
  destruct ((Z.of_nat M <=? 1) && _ && _)%Z eqn:E; [|discriminate]. injection H as <-.
  apply andb_prop in E. destruct E as [E _]. apply andb_prop in E. destruct E as [E _]. apply Z.leb_le in E.
  destruct M as [|[|M]]; [| |lia]; (split; [intros u v l k Hu Hv Hk Hl|]).
  - assert (u = 0%nat) by lia. assert (v = 0%nat) by lia. assert (l = 0%nat) by lia. subst. change (2 * 0 + 1)%nat with 1%nat in *. assert (k = 0%nat) by lia. subst. change (0 * 0)%nat with 0%nat. change (0 mod 2)%nat with 0%nat. cbn. ring.
  - exists 1. intros u v Hu Hv. assert (u = 0%nat) by lia. assert (v = 0%nat) by lia. subst. reflexivity.
  - change (2 * 1 + 1)%nat with 3%nat in *. change (1 * 1)%nat with 1%nat. three u; three v; (destruct l as [|[|[|?]]]; [| | |lia]);
      change (2 * 0 + 1)%nat with 1%nat in *; change (2 * 1 + 1)%nat with 3%nat in *; change (2 * 2 + 1)%nat with 5%nat in *;
      change (0 * 0)%nat with 0%nat; change (1 * 1)%nat with 1%nat; change (2 * 2)%nat with 4%nat;
      change (0 mod 2)%nat with 0%nat; change (1 mod 2)%nat with 1%nat; change (2 mod 2)%nat with 0%nat;
      (destruct k as [|[|[|[|[|k]]]]]; try lia); cbn; ring.
  - exists (/ sqrt 3). intros u v Hu Hv. change (2 * 1 + 1)%nat with 3%nat in *. change (1 * 1)%nat with 1%nat. three u; three v; reflexivity.
Qed.

(** Two vectors: the weight of the scalar product is used, that of the pseudovector is not if the
    result has no pseudotensors, and the masked weights of FusedTensor are not. *)
Example C40_weights_case :
  (exists z, tensor case_cg None false (fun _ _ _ _ _ _ _ => 1) case_ex case_ey = Ok z
     /\ path_allowed (fS case_ex) (fS case_ey) (fS z) 0 1 0 1 0 0 /\ ~ path_allowed (fS case_ex) (fS case_ey) (fS z) 0 1 0 1 0 1)
  /\ cg_checked case_cg /\ (forall L1 L2 L3 C, case_cg L1 L2 L3 = Ok C -> triangle_rule C) /\ case_coupling 1 1 0 <> 0
  /\ (exists z, fused_tensor case_cg None false case_fused case_ex case_ey = Ok z)
  /\ (forall M L C, case_cg (Z.of_nat M) (Z.of_nat M) L = Ok C -> swap_rule M C)
  /\ fused_mask_odd 1 0 = false /\ fused_mask_even 1 1 = false /\ fused_mask_result 1 1 0 = false.
Proof.
  assert (V1 : valid 2 case_ex) by (split; [left|]; reflexivity).
  assert (V2 : valid 2 case_ey) by (split; [left|]; reflexivity).
  split; [|split; [apply case_checked|split; [|split; [|split; [|split; [apply case_swap|repeat split]]]]]].
  - destruct (C36_tensor_formula case_cg 2 2 case_ex case_ey None false (fun _ _ _ _ _ _ _ => 1) 1 case_coupling [] V1 V2
      eq_refl eq_refl ltac:(lia) case_checked eq_refl eq_refl) as [z [n3 [E [_ [_ [_ [_ [_ [ES _]]]]]]]]].
    exists z. split; [exact E|]. cbn in ES. rewrite ES. split; [split; [reflexivity|lia]|intros [H _]; discriminate].
  - intros L1 L2 L3 C H. unfold case_cg in H. destruct (_ || _ || _)%bool; [discriminate|]. destruct (_ && _ && _)%bool; [|discriminate].
    injection H as <-. apply case_triangle.
  - cbn. apply Rinv_neq_0_compat, Rgt_not_eq, sqrt_lt_R0. lra.
  - destruct (C37_fused_formula case_cg 2 2 2 2 case_ex case_ey None false case_fused case_coupling [] V1 V2
      eq_refl ltac:(lia) ltac:(lia) ltac:(lia) eq_refl ltac:(lia) case_checked eq_refl eq_refl eq_refl) as [z [E _]]. exists z. exact E.
Qed.
