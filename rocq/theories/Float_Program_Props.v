(** Property C94: elementwise functions in floating point arithmetic approach the exact functions when the precision grows. *)
Require Import List Reals ZArith Bool String Lra Lia.
From Flocq Require Import Core.
Require Import Verif.Base Verif.Radial_Model Verif.Activations_Model Verif.AutoDiff_Model Verif.AutoDiff_Spec Verif.AutoDiff_Proofs Verif.AutoDiff_Props Verif.AutoDiff_Radial_Proofs Verif.AutoDiff_Radial_Props Verif.Float_Model Verif.Float_Spec Verif.Float_Proofs Verif.Float_Formats
  Verif.Float_Program_Model Verif.Float_Program_Spec Verif.Float_Program_Proofs.
Import ListNotations.
Open Scope R_scope.

(** If the inputs approach [r], and [e] is stable there, its results are finite on precise machines and approach the exact result. *)
Theorem C94_program : forall e r (x : machine -> nat -> option R), stable e r -> (forall k, approaches (fun m => x m k) (r k)) ->
  exists v, value e r = Some v /\ approaches (fun m => float_value m e (x m)) v.
Proof. intros e r x S A. destruct (proj1 stable_value e r S) as (v & V). exists v. split; [exact V|]. exact (proj1 program_approaches e r x v S A V). Qed.
Print Assumptions C94_program.

(** * Precise machines exist *)
(** A machine with the rounding of a format, and a library that computes correctly rounded results. *)
Definition rounding_machine (rnd : R -> R) (huge : R) : machine :=
  mkMachine rnd huge (fun op x => obind (unary_value op x) (fl rnd huge)) (fun a b => obind (binary_value LogAddExp a b) (fl rnd huge)) (fun a b c => fl rnd huge (norm3 a b c)).

Theorem C94_formats : forall u tiny rnd huge delta bound, rounding u tiny rnd -> u <= delta -> tiny <= delta -> bound + delta * (bound + 1) < huge -> 0 <= bound ->
  precise delta bound (rounding_machine rnd huge).
Proof.
  intros u tiny rnd huge delta bound H U T B B0. pose proof (rnd_error _ _ _ H) as RE. pose proof (rnd_small _ _ _ H) as RS. pose proof (unit_bounds _ _ _ H). pose proof (tiny_bounds _ _ _ H).
  assert (W : forall x, within delta x (rnd x)).
  { intro x. unfold within. pose proof (Rabs_pos x). destruct (Rle_lt_dec tiny (Rabs x)) as [L|L].
    - specialize (RE x L). apply Rle_trans with (1 := RE). apply Rle_trans with (delta * Rabs x); [apply Rmult_le_compat_r; lra|]. apply Rmult_le_compat_l; lra.
    - specialize (RS x ltac:(lra)). apply Rle_trans with (1 := RS). apply Rle_trans with (delta * 1); [lra|]. apply Rmult_le_compat_l; lra. }
  assert (F : forall v, Rabs v <= bound -> exists y, fl rnd huge v = Some y /\ within delta v y).
  { intros v V. exists (rnd v). split; [|apply W]. unfold fl, Rltb. destruct (Rlt_dec (Rabs (rnd v)) huge) as [|N]; [reflexivity|]. exfalso. apply N. pose proof (W v) as Q. unfold within in Q. pose proof (Rabs_pos v).
    assert (delta * (Rabs v + 1) <= delta * (bound + 1)) by (apply Rmult_le_compat_l; lra). replace (rnd v) with (v + (rnd v - v)) by ring. pose proof (Rabs_triang v (rnd v - v)). lra. }
  assert (DB : 0 <= delta * (bound + 1)) by (apply Rmult_le_pos; lra).
  split; [cbn; lra|]. split; [exact W|]. split; [|split].
  - intros op x v _ V L. cbn. rewrite V. cbn. now apply F.
  - intros a b v V L. cbn [rounding_machine m_logaddexp]. rewrite V. cbn. now apply F.
  - intros a b c L. cbn. apply F. unfold norm3 in *. rewrite Rabs_right; [exact L|]. apply Rle_ge, sqrt_pos.
Qed.
Print Assumptions C94_formats.

Lemma small_power (d : R) : 0 < d -> exists p : Z, (6 <= p)%Z /\ bpow radix2 (- p) <= d.
Proof.
  intro D. set (p := Z.max 6 (up (/ d))). exists p. split; [lia|]. pose proof (archimed (/ d)) as [A _]. assert (I : 0 < / d) by now apply Rinv_0_lt_compat.
  assert (P : / d <= bpow radix2 p). { apply Rle_trans with (IZR p); [apply Rle_trans with (IZR (up (/ d))); [lra|apply IZR_le; lia]|]. rewrite <- IZR_Zpower by lia. apply IZR_le. apply Z.lt_le_incl, Zpower_gt_id. }
  rewrite bpow_opp. rewrite <- (Rinv_inv d). apply Rinv_le_contravar; assumption.
Qed.

(** For every error and bound there is a format with round to nearest, ties to even, that is precise enough. *)
Theorem C94_precise_machines : forall delta bound, 0 < delta -> exists emin prec huge, precise delta bound (rounding_machine (rounded emin prec) huge).
Proof.
  intros delta bound D. destruct (small_power delta D) as (p & P & Q). set (B := Rmax bound 0). exists (- (2 * p + 3))%Z, p, (B + delta * (B + 1) + 1).
  apply precise_weaken with delta B; [lra|apply Rmax_l|]. apply C94_formats with (unit_of_format p) (tiny_of_format (- (2 * p + 3)) p); [apply rounding_rounded; lia|exact Q| |lra|apply Rmax_r].
  pose proof (tiny_ok (- (2 * p + 3)) p P ltac:(lia)). unfold unit_of_format in *. lra.
Qed.
Print Assumptions C94_precise_machines.

(** * The functions of e3x *)
(** On precise machines the program [e] computes the function [g] at all inputs of the domain but the exceptions. *)
Definition computes (e : program) (g : R -> R) (domain exceptions : R -> Prop) : Prop :=
  forall (x : machine -> option R) u, domain u -> ~ exceptions u -> approaches x u -> approaches (fun m => float_value m e (fun _ => x m)) (g u).

Lemma stable_computes e g domain exc exceptions : differentiates e g domain exc -> (forall u, domain u -> ~ exceptions u -> stable e (fun _ => u)) -> computes e g domain exceptions.
Proof.
  intros DF S x u D N A. apply (proj1 program_approaches e (fun _ => u) (fun m _ => x m) (g u)); [now apply S|intros _; exact A|]. exact (proj1 (DF (fun _ => u) D)).
Qed.

(** Rules for stability. *)
Lemma st_un op a r u : stable a r -> value a r = Some u -> match op with Sign => u <> 0 | Log | Sqrt => 0 < u | Log1p => -1 < u | Arccos => -1 < u < 1 | Custom f _ => continuous_at f u | _ => True end -> stable (Un op a) r.
Proof. intros S V C. cbn. split; [exact S|]. exists u. split; assumption. Qed.
Lemma st_div a b r v : stable a r -> stable b r -> value b r = Some v -> v <> 0 -> stable (Bin Div a b) r.
Proof. intros A B V N. cbn. rewrite V. repeat split; auto. congruence. Qed.
Lemma st_bin op a b r : op <> Div -> stable a r -> stable b r -> stable (Bin op a b) r.
Proof. intros O A B. cbn. repeat split; auto. destruct op; try exact I. now contradiction O. Qed.
Lemma st_where c a b r (t : bool) : stable_condition c r -> decided c r -> holds c r = Some t -> stable (if t then a else b) r -> stable (Where c a b) r.
Proof. intros C D H S. cbn. split; [exact C|]. left. split; [exact D|]. rewrite H. split; intro E; injection E as ->; exact S. Qed.
Lemma st_equal c a b r : stable_condition c r -> stable a r -> stable b r -> value a r = value b r -> stable (Where c a b) r.
Proof. intros C A B V. cbn. split; [exact C|]. right. auto. Qed.

Ltac decide_in := repeat match goal with
  | |- context [Rlt_dec ?a ?b] => destruct (Rlt_dec a b); try (exfalso; lra); cbn [obind orb binary_value unary_value]; unfold Rltb, Rleb, Reqb
  | |- context [Rle_dec ?a ?b] => destruct (Rle_dec a b); try (exfalso; lra); cbn [obind orb binary_value unary_value]; unfold Rltb, Rleb, Reqb
  | |- context [Req_EM_T ?a ?b] => destruct (Req_EM_T a b); try (exfalso; lra); cbn [obind orb binary_value unary_value]; unfold Rltb, Rleb, Reqb
  end.
Ltac val := cbn [value holds obind unary_value binary_value]; unfold Rltb, Rleb, Reqb; decide_in; try reflexivity.
Ltac stab := repeat match goal with
  | |- stable (Var _) _ => exact I
  | |- stable (Const _) _ => exact I
  | |- stable (Bin Div _ _) _ => eapply st_div; [| |val|]
  | |- stable (Bin _ _ _) _ => apply st_bin; [discriminate| |]
  | |- stable (Un _ _) _ => eapply st_un; [|val|]
  | |- stable_condition (Or _ _) _ => split
  | |- stable_condition _ _ => split
  | |- decided (Or _ _) _ => split
  | |- decided _ _ => cbn [decided]; val; let Q := fresh in intro Q; injection Q; intro; try lra
  | |- True => exact I
  end.

Lemma relu_computes : computes relu_prog relu_gate everywhere (fun u => u = 0).
Proof. apply stable_computes with (1 := relu_diff). intros u _ N. unfold relu_prog. stab. exact N. Qed.
Ltac branch t := apply st_where with t; [solve [stab]|solve [stab]|solve [val]|]; cbv beta iota.
Ltac fin := repeat first [assumption|lra|solve [let Q := fresh in intro Q; lra]|branch true; stab|branch false; stab].
Ltac sides u c := let L := fresh in destruct (Rtotal_order u c) as [L|[L|L]]; [|try contradiction|].

Lemma leaky_relu_computes s : computes (leaky_relu_prog s) (leaky_relu_gate s) everywhere (fun u => u = 0).
Proof. apply stable_computes with (1 := leaky_relu_diff s). intros u _ N. unfold leaky_relu_prog. sides u 0; [branch false|branch true]; stab. Qed.
Lemma elu_computes eps alpha : 0 < eps -> computes (elu_prog eps alpha) (elu_gate eps alpha) everywhere (fun u => u = 0 \/ u = - eps).
Proof.
  intro E. apply stable_computes with (1 := elu_diff eps alpha ltac:(lra)). intros u _ N. unfold elu_prog. cbv zeta. sides u 0; [|exfalso; now apply N; left|branch true; stab]. branch false.
  assert (AU : Rabs u = - u) by (apply Rabs_left; lra). sides u (- eps); [| exfalso; now apply N; right|].
  - branch true. stab; fin.
  - branch false. stab; fin.
Qed.
Lemma celu_computes eps alpha : 0 < eps -> alpha <> 0 -> computes (celu_prog eps alpha) (celu_gate eps alpha) everywhere (fun u => u = - eps).
Proof.
  intros E A. assert (A2 : 6 * alpha * alpha <> 0) by (repeat apply Rmult_integral_contrapositive_currified; lra). assert (A1 : 2 * alpha <> 0) by lra.
  apply stable_computes with (1 := celu_diff eps alpha ltac:(lra) A). intros u _ N. unfold celu_prog. cbv zeta. sides u 0; [| |branch true; stab].
  - branch false. assert (AU : Rabs u = - u) by (apply Rabs_left; lra). sides u (- eps).
    + branch true. stab; fin.
    + branch false. stab; fin.
  - subst u. assert (AU : Rabs 0 = 0) by apply Rabs_R0. apply st_equal; [stab|stab| |].
    + branch false. stab; fin.
    + val; try contradiction. cbn [binary_value obind]. f_equal. field. lra.
Qed.
Lemma silu_computes : computes silu_prog expit everywhere nowhere.
Proof. apply stable_computes with (1 := silu_diff). intros u _ _. unfold silu_prog. stab. Qed.
Lemma continuous_total f d u : derivable_pt_lim f u d -> continuous_at (fun t => Some (f t)) u.
Proof. intro D. exists (f u). split; [reflexivity|]. apply (tends_continuous f u). apply derivable_continuous_pt. now exists d. Qed.
Lemma gelu_computes erf derf approximate : erf_rule erf derf -> computes (gelu_prog erf derf approximate) (gelu_gate erf approximate) everywhere nowhere.
Proof.
  intro ER. assert (S2 : sqrt 2 <> 0) by (pose proof (sqrt_lt_R0 2 ltac:(lra)); lra). apply stable_computes with (1 := gelu_diff erf derf approximate ER). intros u _ _. unfold gelu_prog. destruct approximate; stab; fin.
  apply continuous_total with (derf (u / sqrt 2)). apply ER.
Qed.
Lemma mish_computes fast : computes (mish_prog fast) (mish_gate fast) everywhere nowhere.
Proof.
  apply stable_computes with (1 := mish_diff fast). intros u _ _. unfold mish_prog. destruct fast; stab. pose proof (exp_pos (- u)). assert (0 < 2 * exp (- u) * exp (- u)) by (apply Rmult_lt_0_compat; lra). lra.
Qed.
Lemma serf_computes erf derf : erf_rule erf derf -> computes (serf_prog erf derf) (serf_gate erf) everywhere nowhere.
Proof. intro ER. apply stable_computes with (1 := serf_diff erf derf ER). intros u _ _. unfold serf_prog. stab. apply continuous_total with (derf (logaddexp u 0)). apply ER. Qed.
Lemma shifted_softplus_computes eps : 0 < eps -> computes (shifted_softplus_prog eps) (shifted_softplus_gate eps) everywhere (fun u => Rabs u = eps).
Proof.
  intro E. apply stable_computes with (1 := shifted_softplus_diff eps ltac:(lra)). intros u _ N. unfold shifted_softplus_prog. cbv zeta. sides (Rabs u) eps; [branch false; stab; fin|].
  assert (NZ : u <> 0) by (intros ->; rewrite Rabs_R0 in *; lra). branch true. stab; fin.
Qed.
Lemma hard_tanh_computes : computes hard_tanh_prog hard_tanh_gate everywhere nowhere.
Proof.
  apply stable_computes with (1 := hard_tanh_diff). intros u _ _. unfold hard_tanh_prog. cbv zeta.
  destruct (Rlt_le_dec 1 u) as [A|A]; [assert (AU : Rabs u = u) by (apply Rabs_right; lra)|].
  { branch true. stab; fin. }
  destruct (Rlt_le_dec u (-1)) as [B|B]; [assert (AU : Rabs u = - u) by (apply Rabs_left; lra)|].
  { branch false. branch true. stab; fin. }
  assert (INNER : -1 < u -> stable (Where (Less (Var 0) (Const (-1))) (Const (-1) /! Where (Less (Const 0.1) (Un Abs (Var 0))) (Var 0) (Const 1)) (Const 1)) (fun _ => u)) by (intro; branch false; stab).
  destruct (Rtotal_order u (-1)) as [L|[L|L]]; [lra| |].
  - subst u. assert (AU : Rabs (-1) = 1) by (rewrite Rabs_left; lra). branch false. apply st_equal; [stab|stab; fin|stab|]. val; f_equal; field.
  - destruct (Rtotal_order u 1) as [M|[M|M]]; [|subst u|lra].
    + branch false. now apply INNER.
    + assert (AU : Rabs 1 = 1) by (apply Rabs_right; lra). apply st_equal; [stab|stab; fin|now apply INNER|]. val; f_equal; field.
Qed.
Lemma soft_sign_computes : computes soft_sign_prog soft_sign_gate everywhere nowhere.
Proof. apply stable_computes with (1 := soft_sign_diff). intros u _ _. unfold soft_sign_prog. stab. pose proof (Rabs_pos u). lra. Qed.
Lemma relu6_computes : computes relu6_prog relu6_gate everywhere (fun u => u = 0).
Proof.
  apply stable_computes with (1 := relu6_diff). intros u _ N. unfold relu6_prog. cbv zeta. assert (S6 : stable (Where (Less (Const 1) (Var 0)) (Var 0) (Const 1)) (fun _ => u)).
  { destruct (Rtotal_order u 1) as [L|[L|L]]; [branch false; stab| |branch true; stab]. apply st_equal; [stab|stab|stab|]. cbn. now rewrite L. }
  apply st_bin; [discriminate|stab; exact N|]. destruct (Rlt_le_dec 1 u) as [L|L]; eapply st_div; [stab|exact S6|val|fin|stab|exact S6|val|fin].
Qed.
Lemma hard_silu_computes : computes hard_silu_prog hard_sigmoid everywhere nowhere.
Proof. apply stable_computes with (1 := hard_silu_diff). intros u _ _. unfold hard_silu_prog. stab. lra. Qed.
Lemma bent_identity_computes eps : 0 < eps -> computes (bent_identity_prog eps) (bent_identity_gate eps) everywhere (fun u => Rabs u = eps).
Proof.
  intro E. apply stable_computes with (1 := bent_identity_diff eps ltac:(lra)). intros u _ N. unfold bent_identity_prog. cbv zeta. sides (Rabs u) eps; [branch false; stab; fin|].
  assert (NZ : u <> 0) by (intros ->; rewrite Rabs_R0 in *; lra). pose proof (Rle_0_sqr u) as SQ. unfold Rsqr in SQ. branch true. stab; fin.
Qed.

(** The gates of all activations. *)
Theorem C94_activations : forall eps alpha slope erf derf approximate fast, 0 < eps -> alpha <> 0 -> erf_rule erf derf ->
  computes relu_prog relu_gate everywhere (fun u => u = 0) /\
  computes (leaky_relu_prog slope) (leaky_relu_gate slope) everywhere (fun u => u = 0) /\
  computes (elu_prog eps alpha) (elu_gate eps alpha) everywhere (fun u => u = 0 \/ u = - eps) /\
  computes (celu_prog eps alpha) (celu_gate eps alpha) everywhere (fun u => u = - eps) /\
  computes silu_prog expit everywhere nowhere /\
  computes (gelu_prog erf derf approximate) (gelu_gate erf approximate) everywhere nowhere /\
  computes (mish_prog fast) (mish_gate fast) everywhere nowhere /\
  computes (serf_prog erf derf) (serf_gate erf) everywhere nowhere /\
  computes (shifted_softplus_prog eps) (shifted_softplus_gate eps) everywhere (fun u => Rabs u = eps) /\
  computes hard_tanh_prog hard_tanh_gate everywhere nowhere /\
  computes soft_sign_prog soft_sign_gate everywhere nowhere /\
  computes relu6_prog relu6_gate everywhere (fun u => u = 0) /\
  computes hard_silu_prog hard_sigmoid everywhere nowhere /\
  computes (bent_identity_prog eps) (bent_identity_gate eps) everywhere (fun u => Rabs u = eps).
Proof.
  intros. split; [apply relu_computes|]. split; [apply leaky_relu_computes|]. split; [now apply elu_computes|]. split; [now apply celu_computes|]. split; [apply silu_computes|]. split; [now apply gelu_computes|]. split; [apply mish_computes|]. split; [now apply serf_computes|].
  split; [now apply shifted_softplus_computes|]. split; [apply hard_tanh_computes|]. split; [apply soft_sign_computes|]. split; [apply relu6_computes|]. split; [apply hard_silu_computes|now apply bent_identity_computes].
Qed.
Print Assumptions C94_activations.

(** * Functions of distances *)
Lemma scaled_stable c u : 0 < c -> stable (scaled_prog c X) (fun _ => u) /\ value (scaled_prog c X) (fun _ => u) = Some (u / c).
Proof.
  intro C. unfold scaled_prog, Reqb. destruct (Req_EM_T c 1) as [->|N]; cbn [negb]; [split; [exact I|cbn; f_equal; field]|]. split; [stab; lra|val].
Qed.
Lemma stable_less a b r x y : stable a r -> stable b r -> value a r = Some x -> value b r = Some y -> x <> y -> stable_condition (Less a b) r /\ decided (Less a b) r /\ holds (Less a b) r = Some (Rltb x y).
Proof. intros A B X Y N. split; [now split|]. cbn. rewrite X, Y. split; [congruence|reflexivity]. Qed.

Lemma cosine_cutoff_computes c g : 0 < c -> differentiates (cosine_cutoff_prog c X) g everywhere nowhere -> computes (cosine_cutoff_prog c X) g everywhere nowhere.
Proof.
  intros C DF. apply stable_computes with (1 := DF). intros u _ _. unfold cosine_cutoff_prog. cbv zeta. destruct (scaled_stable c u C) as [S V]. set (x := scaled_prog c X) in *. clearbody x.
  assert (SB : stable (Const 0.5 *! Un Cos (Const PI *! x) +! Const 0.5) (fun _ => u)).
  { apply st_bin; [discriminate| |exact I]. apply st_bin; [discriminate|exact I|]. apply st_un with (PI * (u / c)); [apply st_bin; [discriminate|exact I|exact S]| |exact I]. cbn. now rewrite V. }
  destruct (Req_dec (u / c) 1) as [E|E].
  - apply st_equal; [now split|exact SB|exact I|]. cbn. rewrite V, E. cbn. f_equal. rewrite Rmult_1_r, cos_PI. lra.
  - destruct (stable_less x (Const 1) (fun _ => u) (u / c) 1 S I V eq_refl E) as (P & Q & H). eapply st_where; [exact P|exact Q|exact H|]. destruct (Rltb (u / c) 1); [exact SB|exact I].
Qed.
Lemma smooth_cutoff_computes c g : 0 < c -> differentiates (smooth_cutoff_prog c X) g (fun x => - c < x) nowhere -> computes (smooth_cutoff_prog c X) g (fun x => - c < x) (fun x => x = c).
Proof.
  intros C DF. apply stable_computes with (1 := DF). intros u D N. unfold smooth_cutoff_prog. cbv zeta. destruct (scaled_stable c u C) as [S V]. set (x := scaled_prog c X) in *. clearbody x.
  assert (E : u / c <> 1) by (intro Q; apply N; apply (Rmult_eq_reg_r (/ c)); [rewrite Rinv_r by lra; exact Q|apply Rinv_neq_0_compat; lra]).
  assert (L : -1 < u / c) by (apply (Rmult_lt_reg_r c); [exact C|]; replace (u / c * c) with u by (field; lra); lra).
  destruct (stable_less x (Const 1) (fun _ => u) (u / c) 1 S I V eq_refl E) as (P & Q & H). eapply st_where; [exact P|exact Q|exact H|]. unfold Rltb in H |- *. destruct (Rlt_dec (u / c) 1) as [T|T]; [|exact I].
  assert (SX : stable (Where (Less x (Const 1)) x (Const 0)) (fun _ => u)) by (eapply st_where; [exact P|exact Q|exact H|exact S]).
  assert (VX : value (Where (Less x (Const 1)) x (Const 0)) (fun _ => u) = Some (u / c)) by (cbn [value]; rewrite H; exact V).
  set (s := Where (Less x (Const 1)) x (Const 0)) in *. clearbody s. assert (D1 : 1 - u / c * (u / c) <> 0).
  { replace (1 - u / c * (u / c)) with ((1 - u / c) * (1 + u / c)) by ring. apply Rmult_integral_contrapositive_currified; lra. }
  assert (VD : value (Const 1 -! s *! s) (fun _ => u) = Some (1 - u / c * (u / c))) by (cbn; now rewrite VX).
  assert (SD : stable (Const 1 -! s *! s) (fun _ => u)) by (repeat (apply st_bin; [discriminate| |]); try exact I; exact SX).
  apply st_un with (1 - 1 / (1 - u / c * (u / c))); [| |exact I].
  - apply st_bin; [discriminate|exact I|]. now apply st_div with (1 - u / c * (u / c)).
  - cbn [value obind binary_value]. change (value (Bin Sub (Const 1) (Bin Mul s s))) with (value (Const 1 -! s *! s)). cbn [value obind] in VD. rewrite VD. cbn [obind binary_value]. unfold Reqb. destruct (Req_EM_T _ 0); [contradiction|reflexivity].
Qed.
Lemma smooth_damping_computes gamma : 0 < gamma -> computes (smooth_damping_prog gamma X) (fun x => smooth_damping x gamma) everywhere (fun x => x = 0).
Proof.
  intro G. apply stable_computes with (1 := C81_damping gamma G). intros u _ N. unfold smooth_damping_prog. cbv zeta. assert (E : 1 - exp (- gamma * u) <> 0).
  { intro Q. assert (Z : exp (- gamma * u) = exp 0) by (rewrite exp_0; lra). apply exp_inv in Z. apply Rmult_integral in Z. lra. }
  set (d := 1 - exp (- gamma * u)) in *. assert (P : 0 < d * d) by (apply Rlt_0_sqr; exact E). assert (VD : value (Const 1 -! Un Exp (Const (- gamma) *! X)) (fun _ => u) = Some d) by reflexivity.
  assert (SD : stable (Const 1 -! Un Exp (Const (- gamma) *! X)) (fun _ => u)) by stab. set (div := Const 1 -! Un Exp (Const (- gamma) *! X)) in *. clearbody div d.
  assert (SS : stable (div *! div) (fun _ => u)) by (apply st_bin; [discriminate|exact SD|exact SD]). assert (VS : value (div *! div) (fun _ => u) = Some (d * d)) by (cbn; now rewrite VD).
  destruct (stable_less (Const 0) (div *! div) (fun _ => u) 0 (d * d) I SS eq_refl VS ltac:(lra)) as (A & B & H). unfold Rltb in H. destruct (Rlt_dec 0 (d * d)) as [T|T]; [|contradiction].
  eapply st_where; [exact A|exact B|exact H|]. cbv beta iota.
  assert (SW : stable (Where (Less (Const 0) (div *! div)) div (Const 1)) (fun _ => u)) by (eapply st_where; [exact A|exact B|exact H|exact SD]).
  assert (VW : value (Where (Less (Const 0) (div *! div)) div (Const 1)) (fun _ => u) = Some d) by (cbn [value]; rewrite H; exact VD).
  set (w := Where (Less (Const 0) (div *! div)) div (Const 1)) in *. clearbody w. apply st_un with (- exp (- gamma * u) / d); [|cbn; rewrite VW; cbn; unfold Reqb; destruct (Req_EM_T d 0); [contradiction|reflexivity]|exact I].
  apply st_div with d; [stab|exact SW|exact VW|exact E].
Qed.
Lemma exponential_mapping_stable gamma cuspless u : stable (exponential_mapping_prog gamma cuspless X) (fun _ => u).
Proof. unfold exponential_mapping_prog. destruct cuspless; stab. Qed.
Lemma exponential_mapping_computes gamma cuspless : computes (exponential_mapping_prog gamma cuspless X) (fun x => exponential_mapping x gamma cuspless) everywhere nowhere.
Proof. apply stable_computes with (1 := C81_exponential_mapping gamma cuspless). intros u _ _. apply exponential_mapping_stable. Qed.
Lemma exp_above u : u + exp (- u) <> 0.
Proof. pose proof (exp_ineq1_le (- u)). lra. Qed.
Lemma reciprocal_mapping_stable eps kind e u : 0 < eps -> (kind = "shifted" \/ kind = "damped" \/ kind = "cuspless")%string -> reciprocal_mapping_prog eps kind X = Ok e -> -1 < u -> ~ (kind = "damped"%string /\ u = eps) -> stable e (fun _ => u).
Proof.
  intros E K P D N. destruct K as [->|[->|K]]; [| |subst kind]; cbn in P; injection P as <-.
  - stab. lra.
  - assert (NE : u <> eps) by (intro; apply N; auto). sides u eps; [branch true|branch false]; stab; fin.
  - stab. apply exp_above.
Qed.
Lemma reciprocal_mapping_computes eps kind : 0 < eps -> (kind = "shifted" \/ kind = "damped" \/ kind = "cuspless")%string ->
  exists e f, reciprocal_mapping_prog eps kind X = Ok e /\ (forall x, reciprocal_mapping eps x kind = Ok (f x)) /\
    computes e f (fun x => -1 < x) (fun x => kind = "damped"%string /\ x = eps).
Proof.
  intros E K. destruct (C81_reciprocal_mapping eps kind E K) as (e & f & P & F & DF). exists e, f. split; [exact P|]. split; [exact F|]. apply stable_computes with (1 := DF). intros u D N. now apply reciprocal_mapping_stable with eps kind.
Qed.

Lemma smooth_switch_computes eps x0 x1 : 0 < eps < 1 / 2 -> x0 < x1 ->
  exists f, (forall x, smooth_switch eps x x0 x1 = Ok (f x)) /\
    forall (a : machine -> option R) u, u <> x0 + eps * (x1 - x0) -> u <> x1 - eps * (x1 - x0) -> approaches a u -> approaches (fun m => float_smooth_switch eps x0 x1 m (a m)) (f u).
Proof.
  intros E L. destruct (C81_switch eps x0 x1 E L) as (f & F & DF). exists f. split; [exact F|]. intros a u N0 N1 A. unfold float_smooth_switch.
  pose proof (proj1 (DF (fun _ => u) I)) as V. unfold smooth_switch_prog in V. set (e := if negb (Reqb x0 0) || negb (Reqb x1 1) then _ else _) in *.
  set (t := (u - x0) / (x1 - x0)). assert (EV : stable e (fun _ => u) /\ value e (fun _ => u) = Some t).
  { unfold e, t, Reqb. destruct (Req_EM_T x0 0) as [->|Z]; destruct (Req_EM_T x1 1) as [->|O]; cbn [negb orb]; [split; [exact I|cbn; f_equal; field]| | |]; (split; [stab; lra|val]). }
  destruct EV as [SE VE]. cbn [value] in V. rewrite VE in V. cbn [obind unary_value switch_op] in V. apply (proj1 program_approaches (switch_primal_prog eps) (fun _ => t)); [| |exact V].
  - assert (T0 : t <> eps) by (intro Q; apply N0; assert (M : t * (x1 - x0) = eps * (x1 - x0)) by (now rewrite Q); unfold t in M; replace ((u - x0) / (x1 - x0) * (x1 - x0)) with (u - x0) in M by (field; lra); lra).
    assert (T1 : t <> 1 - eps) by (intro Q; apply N1; assert (M : t * (x1 - x0) = (1 - eps) * (x1 - x0)) by (now rewrite Q); unfold t in M; replace ((u - x0) / (x1 - x0) * (x1 - x0)) with (u - x0) in M by (field; lra); lra).
    clearbody t. clear -E T0 T1. unfold switch_primal_prog. cbv zeta. sides t eps; [branch true; exact I|]. branch false. sides t (1 - eps); [|branch true; exact I]. branch false.
    assert (VS : value (Where (Or (Less X (Const eps)) (Less (Const (1 - eps)) X)) (Const 0.5) X) (fun _ => t) = Some t) by val.
    assert (SS : stable (Where (Or (Less X (Const eps)) (Less (Const (1 - eps)) X)) (Const 0.5) X) (fun _ => t)) by (branch false; exact I).
    set (s := Where _ (Const 0.5) X) in *. clearbody s. assert (VE : value (switch_exp_prog s) (fun _ => t) = Some (exp (smooth_switch_slope * (1 / t - 1 / (1 - t))))).
    { unfold switch_exp_prog. cbn [value obind binary_value unary_value]. rewrite VS. val. }
    assert (SX : stable (switch_exp_prog s) (fun _ => t)).
    { unfold switch_exp_prog. apply st_un with (smooth_switch_slope * (1 / t - 1 / (1 - t))); [|cbn [value obind binary_value unary_value]; rewrite VS; val|exact I].
      apply st_bin; [discriminate|exact I|]. apply st_bin; [discriminate| |]; [apply st_div with t; [exact I|exact SS|exact VS|lra]|]. apply st_div with (1 - t); [exact I|apply st_bin; [discriminate|exact I|exact SS]|cbn; now rewrite VS|lra]. }
    set (w := switch_exp_prog s) in *. clearbody w. pose proof (exp_pos (smooth_switch_slope * (1 / t - 1 / (1 - t)))) as EP. eapply st_div; [exact I|apply st_bin; [discriminate|exact I|exact SX]|cbn; rewrite VE; reflexivity|lra].
  - intros _. apply (proj1 program_approaches e (fun _ => u)); [exact SE|intros _; exact A|exact VE].
Qed.
Lemma triangular_window_computes num limit k g : (k < num)%nat -> 0 < limit -> differentiates (triangular_window_prog num limit k X) g everywhere (fun x => x = linspace0 limit num k - limit / INR num \/ x = linspace0 limit num k \/ x = linspace0 limit num k + limit / INR num) -> computes (triangular_window_prog num limit k X) g everywhere nowhere.
Proof.
  intros K L DF. apply stable_computes with (1 := DF). intros u _ _. unfold triangular_window_prog. cbv zeta. assert (W : limit / INR num <> 0) by (apply Rmult_integral_contrapositive_currified; [lra|apply Rinv_neq_0_compat, not_0_INR; lia]). stab; exact W.
Qed.
Lemma rectangular_window_computes num limit k f : differentiates (rectangular_window_prog num limit k X) f everywhere (fun x => x = linspace0 limit num k \/ x = linspace0 limit num k + limit / INR num) ->
  computes (rectangular_window_prog num limit k X) f everywhere (fun x => x = linspace0 limit num k \/ x = linspace0 limit num (k + 1)).
Proof.
  intros DF. apply stable_computes with (1 := DF). intros u _ N. unfold rectangular_window_prog. sides u (linspace0 limit num k); [branch true; exact I|exfalso; apply N; now left|]. branch false. sides u (linspace0 limit num (k + 1)); [branch false; exact I|exfalso; apply N; now right|branch true; exact I].
Qed.
Lemma sin_multiple k : sin (PI * INR k) = 0.
Proof. apply sin_eq_0_1. exists (Z.of_nat k). rewrite <- INR_IZR_INZ. ring. Qed.
Lemma sinc_computes limit k f : 0 < limit -> differentiates (sinc_prog limit k X) f everywhere (fun x => x = limit) -> computes (sinc_prog limit k X) f everywhere nowhere.
Proof.
  intros L DF. apply stable_computes with (1 := DF). intros u _ _. unfold sinc_prog. cbv zeta. assert (S : stable (X /! Const limit) (fun _ => u)) by (stab; lra). assert (V : value (X /! Const limit) (fun _ => u) = Some (u / limit)) by val.
  set (x := X /! Const limit) in *. clearbody x. assert (SB : stable (Un Sinc (Const (INR (k + 1)) *! x)) (fun _ => u)) by (apply st_un with (INR (k + 1) * (u / limit)); [apply st_bin; [discriminate|exact I|exact S]|cbn; now rewrite V|exact I]).
  destruct (Req_dec (u / limit) 1) as [E|E].
  - apply st_equal; [now split|exact SB|exact I|]. cbn. rewrite V, E. cbn. f_equal. rewrite Rmult_1_r. unfold sinc1. destruct (Req_EM_T (INR (k + 1)) 0) as [Z|Z]; [exfalso; revert Z; apply not_0_INR; lia|]. rewrite sin_multiple. unfold Rdiv. apply Rmult_0_l.
  - eapply st_where; [now split|cbn; rewrite V; congruence|cbn [holds value obind]; rewrite V; reflexivity|]. destruct (Rleb (u / limit) 1); [exact SB|exact I].
Qed.
Lemma gaussian_stable num k a r : stable a r -> (exists u, value a r = Some u) -> stable (gaussian_prog num k a) r.
Proof. intros S (u & V). unfold gaussian_prog. cbv zeta. eapply st_un; [|cbn [value obind binary_value unary_value]; rewrite V; cbn; reflexivity|exact I]. apply st_bin; [discriminate|exact I|]. eapply st_un; [apply st_bin; [discriminate|exact S|exact I]|cbn; rewrite V; reflexivity|exact I]. Qed.
Lemma fourier_stable k a r : stable a r -> (exists u, value a r = Some u) -> stable (fourier_prog k a) r.
Proof. intros S (u & V). unfold fourier_prog. eapply st_un; [apply st_bin; [discriminate|exact I|exact S]|cbn; rewrite V; reflexivity|exact I]. Qed.
Lemma chebyshev_stable eps num n a r u : 0 < eps < 1 / 2 -> stable a r -> value a r = Some u -> Rabs u <> 1 - eps -> stable (chebyshev_prog eps num n a) r.
Proof.
  intros E S V N. unfold chebyshev_prog. destruct (num =? 1)%nat; [exact I|]. cbv zeta.
  assert (N0 : u <> - (1 - eps)) by (intro Q; apply N; rewrite Q, Rabs_Ropp, Rabs_right; lra). assert (N1 : u <> 1 - eps) by (intro Q; apply N; rewrite Q, Rabs_right; lra).
  destruct (stable_less a (Const (- (1 - eps))) r u (- (1 - eps)) S I V eq_refl N0) as (A0 & B0 & H0). destruct (stable_less (Const (1 - eps)) a r (1 - eps) u I S eq_refl V (not_eq_sym N1)) as (A1 & B1 & H1).
  eapply st_where; [exact A0|exact B0|exact H0|]. unfold Rltb in *. destruct (Rlt_dec u (- (1 - eps))); [repeat (apply st_bin; [discriminate| |]); try exact I; exact S|].
  eapply st_where; [exact A1|exact B1|exact H1|]. destruct (Rlt_dec (1 - eps) u); [repeat (apply st_bin; [discriminate| |]); try exact I; exact S|].
  assert (HO : holds (Or (Less a (Const (- (1 - eps)))) (Less (Const (1 - eps)) a)) r = Some false) by (cbn [holds]; cbn [holds] in H0, H1; rewrite H0, H1; reflexivity).
  assert (VS : value (Where (Or (Less a (Const (- (1 - eps)))) (Less (Const (1 - eps)) a)) (Const 0) a) r = Some u) by (cbn [value]; rewrite HO; exact V).
  assert (SS : stable (Where (Or (Less a (Const (- (1 - eps)))) (Less (Const (1 - eps)) a)) (Const 0) a) r) by (eapply st_where; [split; [exact A0|exact A1]|split; [exact B0|exact B1]|exact HO|exact S]).
  set (s := Where _ (Const 0) a) in *. clearbody s. assert (VA : value (Un Arccos s) r = Some (acos u)).
  { cbn. rewrite VS. cbn. unfold Rleb. destruct (Rle_dec (-1) u); [|lra]. destruct (Rle_dec u 1); [reflexivity|lra]. }
  eapply st_un; [apply st_bin; [discriminate|exact I|]|cbn [value obind]; cbn [value] in VA; rewrite VA; reflexivity|exact I]. apply st_un with u; [exact SS|exact VS|lra].
Qed.
Lemma inner_stable eps f num k mapping r u e : 0 < eps < 1 / 2 -> f <> "bernstein"%string -> stable mapping r -> value mapping r = Some u -> ~ (f = "chebyshev"%string /\ Rabs (2 * u - 1) = 1 - eps) ->
  inner_prog eps f num k mapping = Ok e -> stable e r.
Proof.
  intros E NB S V N. unfold inner_prog. destruct (String.eqb_spec f "bernstein"); [contradiction|]. destruct (String.eqb_spec f "chebyshev") as [->|_].
  - intro Q. injection Q as <-. apply chebyshev_stable with (2 * u - 1); [exact E| |cbn; now rewrite V|intro Q; now apply N]. repeat (apply st_bin; [discriminate| |]); try exact I; exact S.
  - assert (S1 : stable (Const 1 -! mapping) r) by (apply st_bin; [discriminate|exact I|exact S]). assert (V1 : exists t, value (Const 1 -! mapping) r = Some t) by (eexists; cbn; rewrite V; reflexivity).
    destruct (String.eqb f "gaussian"); [intro Q; injection Q as <-; now apply gaussian_stable|]. destruct (String.eqb f "fourier"); [intro Q; injection Q as <-; now apply fourier_stable|discriminate].
Qed.
Lemma weighted_stable w mapping e r : stable mapping r -> stable e r -> stable (weighted_prog w mapping e) r.
Proof. intros A B. destruct w; [|exact B]. apply st_bin; [discriminate|exact B|exact A]. Qed.

Lemma basic_chebyshev_stable eps num limit n u : 0 < eps < 1 / 2 -> 0 < limit -> (n < num)%nat -> Rabs (2 * u / limit - 1) <> 1 - eps -> stable (basic_chebyshev_prog eps num limit n X) (fun _ => u).
Proof.
  intros E L K N. unfold basic_chebyshev_prog. cbv zeta. set (t := 2 * u / limit - 1) in *. assert (S : stable (Const 2 *! X /! Const limit -! Const 1) (fun _ => u)) by (stab; lra).
  assert (V : value (Const 2 *! X /! Const limit -! Const 1) (fun _ => u) = Some t) by (val; unfold t; f_equal; field; lra). set (x := Const 2 *! X /! Const limit -! Const 1) in *. clearbody x t.
  assert (SC : stable (chebyshev_prog eps num n x) (fun _ => u)) by (apply chebyshev_stable with t; assumption).
  assert (SS : t <> 0 -> stable (Un (IntegerPow n) (Un Sign x)) (fun _ => u)).
  { intro Z. eapply st_un; [apply st_un with t; [exact S|exact V|exact Z]|cbn; rewrite V; reflexivity|exact I]. }
  assert (SA : stable (Un Abs x) (fun _ => u)) by now apply st_un with t. assert (VA : value (Un Abs x) (fun _ => u) = Some (Rabs t)) by (cbn; now rewrite V).
  destruct (Req_dec (Rabs t) 1) as [Q|Q].
  - apply st_equal; [now split|exact SC|apply SS; intros ->; rewrite Rabs_R0 in Q; lra|]. unfold chebyshev_prog.
    assert (T : t = 1 \/ t = -1) by (unfold Rabs in Q; destruct (Rcase_abs t); lra). destruct (Nat.eqb_spec num 1) as [->|NN].
    + replace n with 0%nat by lia. cbn. rewrite V. reflexivity.
    + cbv zeta. cbn [value holds obind unary_value binary_value]. rewrite V. cbn [obind unary_value binary_value]. unfold Rltb. destruct T as [->| ->].
      * destruct (Rlt_dec 1 (- (1 - eps))); [lra|]. destruct (Rlt_dec (1 - eps) 1); [|lra]. cbn [obind]. f_equal. unfold jsign, Rltb, Reqb. decide_in. rewrite pow1. ring.
      * destruct (Rlt_dec (-1) (- (1 - eps))); [|lra]. cbn [obind]. f_equal. unfold jsign, Rltb, Reqb. decide_in. ring.
  - eapply st_where; [now split|cbn [decided]; rewrite VA; cbn; congruence|cbn [holds]; rewrite VA; reflexivity|]. unfold Rleb. destruct (Rle_dec (Rabs t) 1) as [LE|LE]; [exact SC|apply SS; intros ->; rewrite Rabs_R0 in LE; lra].
Qed.
Lemma bernstein_stable eps n v u : 0 < eps < 1 / 2 -> u <> eps -> u <> 1 - eps -> stable (bernstein_primal_prog eps n v) (fun _ => u).
Proof.
  intros E N0 N1. unfold bernstein_primal_prog. destruct (n =? 0)%nat; [exact I|]. cbv zeta. set (mask := Or _ _).
  destruct (stable_less X (Const eps) (fun _ => u) u eps I I eq_refl eq_refl N0) as (A0 & B0 & H0). destruct (stable_less (Const (1 - eps)) X (fun _ => u) (1 - eps) u I I eq_refl eq_refl (not_eq_sym N1)) as (A1 & B1 & H1).
  assert (HM : holds mask (fun _ => u) = Some (Rltb u eps || Rltb (1 - eps) u)%bool) by reflexivity. assert (AM : stable_condition mask (fun _ => u)) by now split. assert (BM : decided mask (fun _ => u)) by now split.
  assert (SI : stable (Where mask (Const 0) (Un Exp (Const (binomln n v) +! Const (INR v) *! Un Log (Where mask (Const 0.5) X) +! Const (INR (n - v)) *! Un Log1p (Un Neg (Where mask (Const 0.5) X))))) (fun _ => u)).
  { eapply st_where; [exact AM|exact BM|exact HM|]. unfold Rltb in HM |- *. destruct (Rlt_dec u eps); [exact I|]. destruct (Rlt_dec (1 - eps) u); [exact I|]. cbn [orb] in *.
    assert (SS : stable (Where mask (Const 0.5) X) (fun _ => u)) by (eapply st_where; [exact AM|exact BM|exact HM|exact I]). assert (VS : value (Where mask (Const 0.5) X) (fun _ => u) = Some u) by (cbn [value]; rewrite HM; reflexivity).
    set (s := Where mask (Const 0.5) X) in *. clearbody s. eapply st_un; [| |exact I].
    - apply st_bin; [discriminate|apply st_bin; [discriminate|exact I|]|]; (apply st_bin; [discriminate|exact I|]); [apply st_un with u; [exact SS|exact VS|lra]|]. apply st_un with (- u); [apply st_un with u; [exact SS|exact VS|exact I]|cbn; now rewrite VS|lra].
    - cbn [value obind]. rewrite VS. cbn [obind unary_value]. unfold Rltb. destruct (Rlt_dec 0 u); [|exfalso; lra]. destruct (Rlt_dec 0 (1 + - u)); [|exfalso; lra]. cbn [obind binary_value]. reflexivity. }
  set (y := Where mask (Const 0) _) in *. clearbody y. clearbody mask.
  assert (SY : stable (if (v =? 0)%nat then Where (Less X (Const eps)) (Const 1) y else y) (fun _ => u)) by (destruct (v =? 0)%nat; [eapply st_where; [exact A0|exact B0|exact H0|destruct (Rltb u eps); [exact I|exact SI]]|exact SI]).
  destruct (v =? n)%nat; [|exact SY]. eapply st_where; [exact A1|exact B1|exact H1|]. destruct (Rltb (1 - eps) u); [exact I|exact SY].
Qed.

(** Cutoffs, damping, mappings, windows, switches and sinc functions.  Entry [k] of an array has its own program. *)
Theorem C94_radial : forall eps c gamma cuspless, 0 < eps < 1 / 2 -> 0 < c -> 0 < gamma ->
  (exists f, (forall x, cosine_cutoff x c = Ok (f x)) /\ computes (cosine_cutoff_prog c X) f everywhere nowhere) /\
  (exists f, (forall x, smooth_cutoff x c = Ok (f x)) /\ computes (smooth_cutoff_prog c X) f (fun x => - c < x) (fun x => x = c)) /\
  computes (smooth_damping_prog gamma X) (fun x => smooth_damping x gamma) everywhere (fun x => x = 0) /\
  (forall kind, (kind = "shifted" \/ kind = "damped" \/ kind = "cuspless")%string ->
     exists e f, reciprocal_mapping_prog eps kind X = Ok e /\ (forall x, reciprocal_mapping eps x kind = Ok (f x)) /\
       computes e f (fun x => -1 < x) (fun x => kind = "damped"%string /\ x = eps)) /\
  computes (exponential_mapping_prog gamma cuspless X) (fun x => exponential_mapping x gamma cuspless) everywhere nowhere /\
  (forall num k, (k < num)%nat ->
     (exists f, entry (fun x => rectangular_window x num c) k f /\ computes (rectangular_window_prog num c k X) f everywhere (fun x => x = linspace0 c num k \/ x = linspace0 c num (k + 1))) /\
     (exists f, entry (fun x => triangular_window x num c) k f /\ computes (triangular_window_prog num c k X) f everywhere nowhere) /\
     (exists f, entry (fun x => sinc x (Z.of_nat num) c) k f /\ computes (sinc_prog c k X) f everywhere nowhere)) /\
  (forall x0 x1, x0 < x1 -> exists f, (forall x, smooth_switch eps x x0 x1 = Ok (f x)) /\
     forall (a : machine -> option R) u, u <> x0 + eps * (x1 - x0) -> u <> x1 - eps * (x1 - x0) -> approaches a u ->
       approaches (fun m => float_smooth_switch eps x0 x1 m (a m)) (f u)).
Proof.
  intros eps c gamma cuspless E C G. destruct (C81_cutoffs c C) as (f & g & F & DF & GG & DG).
  split; [exists g; split; [exact GG|now apply cosine_cutoff_computes]|]. split; [exists f; split; [exact F|now apply smooth_cutoff_computes]|]. split; [now apply smooth_damping_computes|].
  split; [intros kind K; apply reciprocal_mapping_computes; [lra|exact K]|]. split; [apply exponential_mapping_computes|]. split.
  - intros num k K. destruct (C81_windows eps num c k E K C) as (w & t & s & W & DW & T & DT & _). destruct (C81_sinc num k c K C) as (h & H & DH).
    split; [exists w; split; [exact W|now apply rectangular_window_computes]|]. split; [exists t; split; [exact T|now apply triangular_window_computes]|]. exists h. split; [exact H|now apply sinc_computes].
  - intros x0 x1 L. now apply smooth_switch_computes.
Qed.
Print Assumptions C94_radial.

(** The basis functions.  Bernstein polynomials are stated at their argument. *)
Theorem C94_basis : forall eps f num k, 0 < eps < 1 / 2 -> known f -> (k < num)%nat ->
  (f = "bernstein"%string -> exists g, entry_ok (fun u => bernstein eps u (Z.of_nat num)) k g /\
     forall (a : machine -> option R) u, u <> eps -> u <> 1 - eps -> approaches a u -> approaches (fun m => float_bernstein_function eps (num - 1) k m (a m)) (g u)) /\
  (f <> "bernstein"%string ->
     (forall limit, 0 < limit -> exists e g, basic_prog eps f num k limit X = Ok e /\ entry_ok (basic_array eps f num limit) k g /\
        computes e g everywhere (fun x => f = "chebyshev"%string /\ Rabs (2 * x / limit - 1) = 1 - eps)) /\
     (forall kind weighting, (kind = "shifted" \/ kind = "damped" \/ kind = "cuspless")%string ->
        exists e g m, reciprocal_prog eps f num k kind weighting X = Ok e /\ entry_ok (reciprocal_array eps f num kind weighting) k g /\
          (forall x, reciprocal_mapping eps x kind = Ok (m x)) /\
          computes e g (fun x => -1 < x) (fun x => (kind = "damped"%string /\ x = eps) \/ (f = "chebyshev"%string /\ Rabs (2 * m x - 1) = 1 - eps))) /\
     (forall gamma cuspless weighting, exists e g, exponential_prog eps f num k gamma cuspless weighting X = Ok e /\
        entry_ok (exponential_array eps f num gamma cuspless weighting) k g /\
        computes e g everywhere (fun x => f = "chebyshev"%string /\ Rabs (2 * exponential_mapping x gamma cuspless - 1) = 1 - eps))).
Proof.
  intros eps f num k E F K. split.
  - intros _. exists (bernstein_fun eps (num - 1) k). split; [intro u; now apply bernstein_array|]. intros a u N0 N1 A. unfold float_bernstein_function.
    apply (proj1 program_approaches (bernstein_primal_prog eps (num - 1) k) (fun _ => u)); [now apply bernstein_stable|intros _; exact A|now apply bernstein_primal_value].
  - intro NB. split; [|split].
    + intros limit L. destruct (C81_basic_basis eps f num k limit E F K L) as (e & g & P & GG & DF). exists e, g. split; [exact P|]. split; [exact GG|]. apply stable_computes with (1 := DF). intros u _ N.
      assert (S1 : stable (X /! Const limit) (fun _ => u)) by (stab; lra). assert (V1 : exists t, value (X /! Const limit) (fun _ => u) = Some t) by (eexists; val).
      destruct F as [->|[->|[->| ->]]]; [contradiction| | |]; cbn in P; injection P as <-; [|now apply gaussian_stable|now apply fourier_stable]. apply basic_chebyshev_stable; try assumption. intro Q. now apply N.
    + intros kind w Kd. destruct (C81_reciprocal_basis eps f num k kind w E F K Kd) as (e & g & m & P & GG & M & DF). exists e, g, m. split; [exact P|]. split; [exact GG|]. split; [exact M|]. apply stable_computes with (1 := DF). intros u D N.
      destruct (C81_reciprocal_mapping eps kind ltac:(lra) Kd) as (e1 & f1 & P1 & F1 & DF1). unfold reciprocal_prog in P. rewrite P1 in P. cbn [bind] in P. destruct (inner_prog eps f num k e1) as [e2|] eqn:P2; [|discriminate]. cbn in P. injection P as <-.
      assert (S1 : stable e1 (fun _ => u)) by (apply reciprocal_mapping_stable with eps kind; auto; lra). apply weighted_stable; [exact S1|]. apply (inner_stable eps f num k e1 (fun _ => u) (f1 u) e2 E NB S1); [exact (proj1 (DF1 (fun _ => u) D))| |exact P2].
      intros [Q Q']. apply N. right. split; [exact Q|]. assert (Z : m u = f1 u) by (specialize (M u); rewrite F1 in M; now injection M). now rewrite Z.
    + intros gamma cuspless w. destruct (C81_exponential_basis eps f num k gamma cuspless w E F K) as (e & g & P & GG & DF). exists e, g. split; [exact P|]. split; [exact GG|]. apply stable_computes with (1 := DF). intros u D N.
      unfold exponential_prog in P. cbv zeta in P. pose proof (exponential_mapping_stable gamma cuspless u) as S1. destruct (inner_prog eps f num k _) as [e2|] eqn:P2; [|discriminate]. cbn in P. injection P as <-. apply weighted_stable; [exact S1|].
      apply (inner_stable eps f num k _ (fun _ => u) (exponential_mapping u gamma cuspless) e2 E NB S1); [exact (proj1 (C81_exponential_mapping gamma cuspless (fun _ => u) I))|exact N|exact P2].
Qed.
Print Assumptions C94_basis.

(** * The exceptions are needed *)
(** There are inputs that approach zero for which the gate of relu does not approach its value at zero: the results stay at one. *)
Theorem C94_jump : ~ computes relu_prog relu_gate everywhere nowhere /\
  exists x : machine -> option R, approaches x 0 /\ approaches (fun m => float_value m relu_prog (fun _ => x m)) 1 /\ relu_gate 0 = 0.
Proof.
  set (x := fun m : machine => Some (/ (1 + Rabs (m_huge m)))).
  assert (POS : forall m, 0 < / (1 + Rabs (m_huge m))) by (intro m; apply Rinv_0_lt_compat; pose proof (Rabs_pos (m_huge m)); lra).
  assert (A : approaches x 0).
  { intros eps E. exists 1, (/ eps). split; [lra|]. intros m (B & _). eexists. split; [reflexivity|]. rewrite Rminus_0_r, Rabs_right by (apply Rle_ge, Rlt_le, POS). pose proof (Rinv_0_lt_compat eps E). rewrite <- (Rinv_inv eps). apply Rinv_lt_contravar; [apply Rmult_lt_0_compat; [lra|pose proof (Rabs_pos (m_huge m)); lra]|]. pose proof (Rle_abs (m_huge m)). lra. }
  assert (C0 : approaches (fun m => float_value m (Const 0) (fun _ => x m)) 0) by (apply (proj1 program_approaches (Const 0) (fun _ => 0)); [exact I|intros _; exact A|reflexivity]).
  assert (ONE : approaches (fun m => float_value m relu_prog (fun _ => x m)) 1).
  { intros eps E. destruct (C0 1 ltac:(lra)) as (d & b & D & H). exists d, b. split; [exact D|]. intros m P. destruct (H m P) as (y & Y & L). exists 1. split; [|rewrite Rminus_diag_eq, Rabs_R0 by reflexivity; exact E].
    unfold relu_prog. cbn [float_value] in Y |- *. rewrite Y. cbn [obind x float_unary unary_value float_binary binary_value]. pose proof (POS m). unfold jsign, Rltb, Reqb. destruct (Rlt_dec _ 0); [lra|]. destruct (Req_EM_T _ 0); [lra|]. f_equal.
    unfold Rmax. destruct (Rle_dec 1 y) as [Q|Q]; [|reflexivity]. rewrite Rminus_0_r in L. pose proof (Rle_abs y). lra. }
  assert (Z : relu_gate 0 = 0) by (pose proof (proj1 (relu_diff (fun _ => 0) I)) as V; cbn in V; unfold jsign, Rltb, Reqb in V; destruct (Rlt_dec 0 0); [lra|]; destruct (Req_EM_T 0 0); [|lra]; injection V as <-; apply Rmax_left; lra).
  split; [|exists x; auto]. intro Q. specialize (Q x 0 I (fun N => N) A). rewrite Z in Q. destruct (Q (1 / 2) ltac:(lra)) as (d1 & b1 & D1 & H1). destruct (ONE (1 / 2) ltac:(lra)) as (d2 & b2 & D2 & H2).
  destruct (C94_precise_machines (Rmin d1 d2) (Rmax b1 b2)) as (emin & prec & huge & P); [now apply Rmin_glb_lt|].
  destruct (H1 _ (precise_weaken _ _ _ _ _ (Rmin_l _ _) (Rmax_l _ _) P)) as (y1 & Y1 & L1). destruct (H2 _ (precise_weaken _ _ _ _ _ (Rmin_r _ _) (Rmax_r _ _) P)) as (y2 & Y2 & L2). rewrite Y1 in Y2. injection Y2 as <-. unfold Rabs in *. destruct (Rcase_abs _), (Rcase_abs _); lra.
Qed.
Print Assumptions C94_jump.

(** Non-vacuity: rounded inputs approach the input, and the theorems apply to them. *)
Example C94_nonvacuous_input : forall u, approaches (fun m => fl (m_round m) (m_huge m) u) u.
Proof. intro u. apply (proj1 program_approaches (Const u) (fun _ => 0) (fun _ _ => Some 0)); [exact I| |reflexivity]. intros _ eps E. exists 1, 0. split; [lra|]. intros m _. exists 0. split; [reflexivity|]. now rewrite Rminus_diag_eq, Rabs_R0. Qed.
Example C94_nonvacuous_silu : approaches (fun m => float_value m silu_prog (fun _ => fl (m_round m) (m_huge m) 1.5)) (expit 1.5).
Proof. apply (silu_computes (fun m => fl (m_round m) (m_huge m) 1.5) 1.5 I (fun N => N)). apply C94_nonvacuous_input. Qed.
Example C94_nonvacuous_celu : approaches (fun m => float_value m (celu_prog 0.1 1.3) (fun _ => fl (m_round m) (m_huge m) 0)) 1.
Proof.
  assert (Z : celu_gate 0.1 1.3 0 = 1). { pose proof (proj1 (celu_diff 0.1 1.3 ltac:(lra) ltac:(lra) (fun _ => 0) I)) as V. revert V. unfold celu_prog. cbv zeta. pose proof Rabs_R0. val. intro V. injection V as V. rewrite <- V. field; lra. }
  rewrite <- Z. apply (celu_computes 0.1 1.3 ltac:(lra) ltac:(lra) (fun m => fl (m_round m) (m_huge m) 0) 0 I ltac:(lra)). apply C94_nonvacuous_input.
Qed.
Example C94_nonvacuous_cutoff : exists f, (forall x, smooth_cutoff x 5 = Ok (f x)) /\ approaches (fun m => float_value m (smooth_cutoff_prog 5 X) (fun _ => fl (m_round m) (m_huge m) 3)) (f 3).
Proof.
  destruct (C94_radial (1 / 4) 5 1 true ltac:(lra) ltac:(lra) ltac:(lra)) as (_ & (f & F & C) & _). exists f. split; [exact F|]. apply (C (fun m => fl (m_round m) (m_huge m) 3) 3); [lra|lra|apply C94_nonvacuous_input].
Qed.
