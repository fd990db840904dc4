(** Proofs about programs on precise machines. *)
Require Import List Reals ZArith Bool Lra Lia.
Require Import Verif.Base Verif.Radial_Model Verif.Activations_Model Verif.AutoDiff_Model Verif.AutoDiff_Spec Verif.AutoDiff_Proofs Verif.Float_Model Verif.Float_Program_Model Verif.Float_Program_Spec.
Import ListNotations.
Open Scope R_scope.

Lemma precise_weaken d d' H H' m : d' <= d -> H <= H' -> precise d' H' m -> precise d H m.
Proof.
  intros D B (P1 & P2 & P3 & P4 & P5). assert (W : forall v y, within d' v y -> within d v y). { intros v y Q. unfold within in *. pose proof (Rabs_pos v). apply Rle_trans with (1 := Q). apply Rmult_le_compat_r; lra. }
  split; [lra|]. split; [intro x; apply W, P2|]. split; [|split].
  - intros op x v E V L. destruct (P3 op x v E V ltac:(lra)) as (y & Y & Q). exists y. split; [exact Y|now apply W].
  - intros a b v V L. destruct (P4 a b v V ltac:(lra)) as (y & Y & Q). exists y. split; [exact Y|now apply W].
  - intros a b c L. destruct (P5 a b c ltac:(lra)) as (y & Y & Q). exists y. split; [exact Y|now apply W].
Qed.

Lemma eventually_and P Q : eventually P -> eventually Q -> eventually (fun m => P m /\ Q m).
Proof.
  intros (d & H & D & A) (d' & H' & D' & A'). exists (Rmin d d'), (Rmax H H'). split; [now apply Rmin_glb_lt|]. intros m PM.
  split; [apply A|apply A']; eapply precise_weaken; [apply Rmin_l|apply Rmax_l|exact PM|apply Rmin_r|apply Rmax_r|exact PM].
Qed.
Lemma eventually_mono (P Q : machine -> Prop) : (forall m, P m -> Q m) -> eventually P -> eventually Q.
Proof. intros S (d & H & D & A). exists d, H. split; [exact D|]. intros m PM. now apply S, A. Qed.
Lemma eventually_all (P : machine -> Prop) : (forall m, P m) -> eventually P.
Proof. intro S. exists 1, 0. split; [lra|]. intros m _. apply S. Qed.
Lemma eventually_precise d H : 0 < d -> eventually (precise d H).
Proof. intro D. exists d, H. split; [exact D|auto]. Qed.

(** * Results that approach a number *)
Lemma approaches_ext x y v : (forall m, x m = y m) -> approaches x v -> approaches y v.
Proof. intros E A eps P. apply eventually_mono with (2 := A eps P). intros m. now rewrite E. Qed.
Lemma approaches_constant v : approaches (fun _ => Some v) v.
Proof. intros eps P. apply eventually_all. intros _. exists v. split; [reflexivity|]. rewrite Rminus_diag_eq, Rabs_R0; lra. Qed.

Lemma approaches_one x u (F : machine -> R -> option R) w : approaches x u ->
  (forall eps, 0 < eps -> exists d, 0 < d /\ eventually (fun m => forall t, Rabs (t - u) < d -> exists y, F m t = Some y /\ Rabs (y - w) < eps)) ->
  approaches (fun m => obind (x m) (F m)) w.
Proof.
  intros A C eps P. destruct (C eps P) as (d & D & E). apply eventually_mono with (2 := eventually_and _ _ (A d D) E). intros m ((t & X & T) & Q). rewrite X. cbn. now apply Q.
Qed.
Lemma approaches_two x y u v (F : machine -> R -> R -> option R) w : approaches x u -> approaches y v ->
  (forall eps, 0 < eps -> exists d, 0 < d /\ eventually (fun m => forall s t, Rabs (s - u) < d -> Rabs (t - v) < d -> exists z, F m s t = Some z /\ Rabs (z - w) < eps)) ->
  approaches (fun m => obind (x m) (fun s => obind (y m) (F m s))) w.
Proof.
  intros A B C eps P. destruct (C eps P) as (d & D & E). apply eventually_mono with (2 := eventually_and _ _ (eventually_and _ _ (A d D) (B d D)) E). intros m (((s & X & S) & (t & Y & T)) & Q). rewrite X. cbn. rewrite Y. cbn. now apply Q.
Qed.

(** An operation that is accurate on precise machines, near a number where the exact operation is continuous. *)
Lemma accurate_near v eps : 0 < eps -> exists d H e, 0 < d /\ 0 < e /\ forall w y, Rabs (w - v) < e -> within d w y -> Rabs w <= H /\ Rabs (y - v) < eps /\ Rabs y < H.
Proof.
  intro P. pose proof (Rabs_pos v) as V. set (d := eps / (4 * (Rabs v + eps + 1))). assert (DP : 0 < d) by (apply Rdiv_lt_0_compat; lra). assert (DE : d * (Rabs v + eps + 1) = eps / 4) by (unfold d; field; lra).
  exists d, (Rabs v + 2 * eps), (eps / 2). split; [exact DP|]. split; [lra|]. intros w y W Y. unfold within in Y.
  assert (WV : Rabs w <= Rabs v + eps / 2). { replace w with (v + (w - v)) by ring. pose proof (Rabs_triang v (w - v)). lra. }
  assert (B : d * (Rabs w + 1) <= eps / 4). { rewrite <- DE. apply Rmult_le_compat_l; lra. }
  assert (YV : Rabs (y - v) < eps). { replace (y - v) with ((y - w) + (w - v)) by ring. pose proof (Rabs_triang (y - w) (w - v)). lra. }
  split; [lra|]. split; [exact YV|]. replace y with (v + (y - v)) by ring. pose proof (Rabs_triang v (y - v)). lra.
Qed.

Lemma fl_near v eps : 0 < eps -> exists e, 0 < e /\ eventually (fun m => forall w, Rabs (w - v) < e -> exists y, fl (m_round m) (m_huge m) w = Some y /\ Rabs (y - v) < eps).
Proof.
  intro P. destruct (accurate_near v eps P) as (d & H & e & D & E & Q). exists e. split; [exact E|]. apply eventually_mono with (2 := eventually_precise d H D). intros m (P1 & P2 & _) w W.
  destruct (Q w (m_round m w) W (P2 w)) as (_ & C & B). exists (m_round m w). split; [|exact C]. unfold fl, Rltb. destruct (Rlt_dec (Rabs (m_round m w)) (m_huge m)) as [|N]; [reflexivity|exfalso; lra].
Qed.

(** Continuity of functions of one and two numbers. *)
Definition tends1 (f : R -> option R) (u v : R) : Prop := forall eps, 0 < eps -> exists d, 0 < d /\ forall t, Rabs (t - u) < d -> exists y, f t = Some y /\ Rabs (y - v) < eps.
Definition tends2 (f : R -> R -> option R) (u v w : R) : Prop :=
  forall eps, 0 < eps -> exists d, 0 < d /\ forall s t, Rabs (s - u) < d -> Rabs (t - v) < d -> exists y, f s t = Some y /\ Rabs (y - w) < eps.

Lemma tends_continuous f u : continuity_pt f u -> tends1 (fun t => Some (f t)) u (f u).
Proof.
  intros C eps P. destruct (C eps P) as (a & A & Q). exists a. split; [exact A|]. intros t T. exists (f t). split; [reflexivity|]. destruct (Req_dec t u) as [->|N]; [rewrite Rminus_diag_eq, Rabs_R0; lra|].
  apply (Q t). split; [|exact T]. split; [exact I|now apply not_eq_sym].
Qed.
Lemma tends_derivative F u d : has_derivative F u d -> exists v, F u = Some v /\ tends1 F u v.
Proof.
  intros (f & a & A & E & D). exists (f u). split; [apply E; rewrite Rminus_diag_eq, Rabs_R0; lra|]. assert (C : continuity_pt f u) by (apply derivable_continuous_pt; exists d; exact D).
  intros eps P. destruct (tends_continuous f u C eps P) as (b & B & Q). exists (Rmin a b). split; [now apply Rmin_glb_lt|]. intros t T. pose proof (Rmin_l a b). pose proof (Rmin_r a b). rewrite E by lra. apply Q. lra.
Qed.

(** The exact operations are continuous where programs are stable. *)
Lemma unary_tends op u : match op with Sign => u <> 0 | Log | Sqrt => 0 < u | Log1p => -1 < u | Arccos => -1 < u < 1 | Custom f _ => continuous_at f u | _ => True end ->
  exists v, unary_value op u = Some v /\ tends1 (unary_value op) u v.
Proof.
  intro C. assert (RULE : forall d, unary_partial op u = Some d -> match op with Abs | Sign => u <> 0 | Custom f df => forall d, df u = Some d -> has_derivative f u d | _ => True end -> exists v, unary_value op u = Some v /\ tends1 (unary_value op) u v).
  { intros d E S. apply tends_derivative with d. now apply unary_rule. }
  destruct op; cbn [unary_partial] in RULE; try (eapply RULE; [reflexivity|exact I]).
  - eapply RULE; [|exact I]. unfold Rltb. destruct (Rlt_dec 0 u); [reflexivity|lra].
  - eapply RULE; [|exact I]. unfold Rltb. destruct (Rlt_dec 0 (1 + u)); [reflexivity|lra].
  - eapply RULE; [|exact I]. unfold Rltb. destruct (Rlt_dec 0 u); [reflexivity|lra].
  - eapply RULE; [|exact I]. unfold Rltb. destruct (Rlt_dec (-1) u); [|exfalso; lra]. destruct (Rlt_dec u 1); [reflexivity|exfalso; lra].
  - exists (Rabs u). split; [reflexivity|]. apply tends_continuous, Rcontinuity_abs.
  - eapply RULE; [reflexivity|exact C].
  - destruct C as (v & E & T). exists v. split; [exact E|exact T].
Qed.

(** Near a number, sums, differences, products, quotients and maxima are near the result. *)
Lemma add_tends u v : tends2 (binary_value Add) u v (u + v).
Proof. intros eps P. exists (eps / 2). split; [lra|]. intros s t S T. exists (s + t). split; [reflexivity|]. replace (s + t - (u + v)) with ((s - u) + (t - v)) by ring. pose proof (Rabs_triang (s - u) (t - v)). lra. Qed.
Lemma sub_tends u v : tends2 (binary_value Sub) u v (u - v).
Proof. intros eps P. exists (eps / 2). split; [lra|]. intros s t S T. exists (s - t). split; [reflexivity|]. replace (s - t - (u - v)) with ((s - u) + - (t - v)) by ring. pose proof (Rabs_triang (s - u) (- (t - v))). rewrite Rabs_Ropp in *. lra. Qed.
Lemma mul_near u v eps : 0 < eps -> exists d, 0 < d /\ forall s t, Rabs (s - u) < d -> Rabs (t - v) < d -> Rabs (s * t - u * v) < eps.
Proof.
  intro P. pose proof (Rabs_pos u). pose proof (Rabs_pos v). set (k := Rabs u + Rabs v + 1). set (d := Rmin 1 (eps / (2 * k))). assert (K : 1 <= k) by (unfold k; lra). assert (D : 0 < d) by (apply Rmin_glb_lt; [lra|apply Rdiv_lt_0_compat; lra]).
  assert (D1 : d <= 1) by apply Rmin_l. assert (D2 : d * k <= eps / 2). { replace (eps / 2) with (eps / (2 * k) * k) by (field; lra). apply Rmult_le_compat_r; [lra|apply Rmin_r]. }
  exists d. split; [exact D|]. intros s t S T. replace (s * t - u * v) with ((s - u) * (t - v) + ((s - u) * v + u * (t - v))) by ring.
  pose proof (Rabs_triang ((s - u) * (t - v)) ((s - u) * v + u * (t - v))). pose proof (Rabs_triang ((s - u) * v) (u * (t - v))). rewrite !Rabs_mult in *.
  assert (Rabs (s - u) * Rabs (t - v) <= d * 1) by (apply Rmult_le_compat; try apply Rabs_pos; lra). assert (Rabs (s - u) * Rabs v <= d * Rabs v) by (apply Rmult_le_compat_r; lra). assert (Rabs u * Rabs (t - v) <= Rabs u * d) by (apply Rmult_le_compat_l; lra).
  assert (d * k = d * 1 + d * Rabs v + Rabs u * d) by (unfold k; ring). lra.
Qed.
Lemma mul_tends u v : tends2 (binary_value Mul) u v (u * v).
Proof. intros eps P. destruct (mul_near u v eps P) as (d & D & Q). exists d. split; [exact D|]. intros s t S T. exists (s * t). split; [reflexivity|now apply Q]. Qed.
Lemma inv_near v eps : v <> 0 -> 0 < eps -> exists d, 0 < d /\ forall t, Rabs (t - v) < d -> t <> 0 /\ Rabs (/ t - / v) < eps.
Proof.
  intros V P. assert (AV : 0 < Rabs v) by now apply Rabs_pos_lt. assert (C : continuity_pt (fun x => / x) v) by (apply continuity_pt_inv; [apply derivable_continuous_pt, derivable_pt_id|exact V]).
  destruct (tends_continuous _ v C eps P) as (d & D & Q). exists (Rmin d (Rabs v)). split; [now apply Rmin_glb_lt|]. intros t T. pose proof (Rmin_l d (Rabs v)). pose proof (Rmin_r d (Rabs v)).
  split. { intros ->. rewrite Rminus_0_l, Rabs_Ropp in T. lra. } destruct (Q t ltac:(lra)) as (y & E & B). injection E as <-. exact B.
Qed.
Lemma div_tends u v : v <> 0 -> tends2 (binary_value Div) u v (u / v).
Proof.
  intros V eps P. destruct (mul_near u (/ v) eps P) as (d & D & Q). destruct (inv_near v d V D) as (d' & D' & Q'). exists (Rmin d d'). split; [now apply Rmin_glb_lt|]. intros s t S T. pose proof (Rmin_l d d'). pose proof (Rmin_r d d').
  destruct (Q' t ltac:(lra)) as (N & B). exists (s / t). split; [cbn; unfold Reqb; destruct (Req_EM_T t 0); [contradiction|reflexivity]|]. unfold Rdiv. apply Q; lra.
Qed.
Lemma max_near s t u v d : Rabs (s - u) < d -> Rabs (t - v) < d -> Rabs (Rmax s t - Rmax u v) < d.
Proof. intros S T. apply Rabs_def2 in S. apply Rabs_def2 in T. apply Rabs_def1; unfold Rmax; destruct (Rle_dec s t), (Rle_dec u v); lra. Qed.
Lemma min_near s t u v d : Rabs (s - u) < d -> Rabs (t - v) < d -> Rabs (Rmin s t - Rmin u v) < d.
Proof. intros S T. apply Rabs_def2 in S. apply Rabs_def2 in T. apply Rabs_def1; unfold Rmin; destruct (Rle_dec s t), (Rle_dec u v); lra. Qed.
Lemma logaddexp_tends u v : tends2 (binary_value LogAddExp) u v (logaddexp u v).
Proof.
  intros eps P. pose proof (exp_pos u). pose proof (exp_pos v). assert (CE : forall x, continuity_pt exp x) by (intro x; apply derivable_continuous_pt, derivable_pt_exp).
  assert (CL : continuity_pt ln (exp u + exp v)) by (apply derivable_continuous_pt; exists (/ (exp u + exp v)); apply derivable_pt_lim_ln; lra).
  destruct (tends_continuous _ _ CL eps P) as (a & A & QA). destruct (tends_continuous _ _ (CE u) (a / 2) ltac:(lra)) as (b & B & QB). destruct (tends_continuous _ _ (CE v) (a / 2) ltac:(lra)) as (c & C & QC).
  exists (Rmin b c). split; [now apply Rmin_glb_lt|]. intros s t S T. pose proof (Rmin_l b c). pose proof (Rmin_r b c). destruct (QB s ltac:(lra)) as (y & E & Y). injection E as <-. destruct (QC t ltac:(lra)) as (z & E & Z). injection E as <-.
  destruct (QA (exp s + exp t)) as (w & E & W); [|injection E as <-; exists (logaddexp s t); split; [reflexivity|exact W]].
  replace (exp s + exp t - (exp u + exp v)) with ((exp s - exp u) + (exp t - exp v)) by ring. pose proof (Rabs_triang (exp s - exp u) (exp t - exp v)). lra.
Qed.

(** * One operation on a precise machine *)
Lemma rounded_two (f : R -> R -> option R) u v w eps : 0 < eps -> tends2 f u v w -> exists d, 0 < d /\ eventually (fun m => forall s t, Rabs (s - u) < d -> Rabs (t - v) < d ->
  exists z, (match f s t with Some y => fl (m_round m) (m_huge m) y | None => None end) = Some z /\ Rabs (z - w) < eps).
Proof.
  intros P T. destruct (fl_near w eps P) as (e & E & Q). destruct (T e E) as (d & D & B). exists d. split; [exact D|]. apply eventually_mono with (2 := Q). intros m M s t S S'. destruct (B s t S S') as (y & -> & Y). now apply M.
Qed.

Lemma library_one op u v eps : elementary op -> 0 < eps -> tends1 (unary_value op) u v -> exists d, 0 < d /\ eventually (fun m => forall t, Rabs (t - u) < d -> exists y, m_unary m op t = Some y /\ Rabs (y - v) < eps).
Proof.
  intros EL P T. destruct (accurate_near v eps P) as (d & H & e & D & E & Q). destruct (T e E) as (b & B & C). exists b. split; [exact B|]. apply eventually_mono with (2 := eventually_precise d H D). intros m (_ & _ & P3 & _) t TT. destruct (C t TT) as (w & W & Wv).
  assert (WH : Rabs w <= H). { apply (Q w w Wv). unfold within. rewrite Rminus_diag_eq, Rabs_R0 by reflexivity. pose proof (Rabs_pos w). apply Rmult_le_pos; lra. }
  destruct (P3 op t w EL W WH) as (y & Y & I). exists y. split; [exact Y|]. now apply (Q w y Wv).
Qed.

Lemma float_unary_near op u v eps : match op with Sign => u <> 0 | Log | Sqrt => 0 < u | Log1p => -1 < u | Arccos => -1 < u < 1 | Custom f _ => continuous_at f u | _ => True end ->
  unary_value op u = Some v -> 0 < eps -> exists d, 0 < d /\ eventually (fun m => forall t, Rabs (t - u) < d -> exists y, float_unary m op t = Some y /\ Rabs (y - v) < eps).
Proof.
  intros C V P. destruct (unary_tends op u C) as (v' & E & T). rewrite V in E. injection E as <-.
  assert (EX : forall w, (forall m t, float_unary m w t = unary_value op t) -> exists d, 0 < d /\ eventually (fun m => forall t, Rabs (t - u) < d -> exists y, float_unary m w t = Some y /\ Rabs (y - v) < eps)).
  { intros w E. destruct (T eps P) as (d & D & Q). exists d. split; [exact D|]. apply eventually_all. intros m t TT. rewrite E. now apply Q. }
  destruct op; try (apply EX; reflexivity); try (apply library_one; [exact I|exact P|exact T]).
  (* square root *)
  destruct (fl_near v eps P) as (e & E & Q). destruct (T e E) as (d & D & B). exists d. split; [exact D|]. apply eventually_mono with (2 := Q). intros m M t TT. destruct (B t TT) as (y & Y & YV). cbn [unary_value float_unary] in Y |- *. unfold fsqrt, Rleb in *. destruct (Rle_dec 0 t); [|discriminate Y]. injection Y as <-. now apply M.
Qed.

Lemma float_binary_near op u v w eps : match op with Div => v <> 0 | _ => True end -> binary_value op u v = Some w -> 0 < eps ->
  exists d, 0 < d /\ eventually (fun m => forall s t, Rabs (s - u) < d -> Rabs (t - v) < d -> exists z, float_binary m op s t = Some z /\ Rabs (z - w) < eps).
Proof.
  intros C W P. destruct op; cbn [binary_value] in W; try injection W as <-.
  - destruct (rounded_two _ u v _ eps P (add_tends u v)) as (d & D & Q). now exists d.
  - destruct (rounded_two _ u v _ eps P (sub_tends u v)) as (d & D & Q). now exists d.
  - destruct (rounded_two _ u v _ eps P (mul_tends u v)) as (d & D & Q). now exists d.
  - unfold Reqb in W. destruct (Req_EM_T v 0) as [|N]; [contradiction|]. injection W as <-. destruct (rounded_two _ u v _ eps P (div_tends u v N)) as (d & D & Q). exists d. split; [exact D|]. apply eventually_mono with (2 := Q). intros m M s t S T. destruct (M s t S T) as (z & Z & B). exists z. split; [|exact B].
    cbn [float_binary binary_value] in Z |- *. unfold fdiv, Reqb in *. destruct (Req_EM_T t 0); [discriminate|exact Z].
  - exists eps. split; [exact P|]. apply eventually_all. intros m s t S T. exists (Rmax s t). split; [reflexivity|now apply max_near].
  - exists eps. split; [exact P|]. apply eventually_all. intros m s t S T. exists (Rmin s t). split; [reflexivity|now apply min_near].
  - destruct (accurate_near (logaddexp u v) eps P) as (d & H & e & D & E & Q). destruct (logaddexp_tends u v e E) as (b & B & T). exists b. split; [exact B|]. apply eventually_mono with (2 := eventually_precise d H D). intros m (_ & _ & _ & P4 & _) s t S S'. destruct (T s t S S') as (y & Y & YV).
    assert (YH : Rabs y <= H). { apply (Q y y YV). unfold within. rewrite Rminus_diag_eq, Rabs_R0 by reflexivity. pose proof (Rabs_pos y). apply Rmult_le_pos; lra. }
    destruct (P4 s t y Y YH) as (z & Z & I). exists z. split; [exact Z|]. now apply (Q y z YV).
Qed.

Lemma norm_near a b c eps : 0 < eps -> exists d, 0 < d /\ forall x y z, Rabs (x - a) < d -> Rabs (y - b) < d -> Rabs (z - c) < d -> Rabs (norm3 x y z - norm3 a b c) < eps.
Proof.
  intro P. set (n := norm3 a b c). assert (C : continuity_pt sqrt (a * a + b * b + c * c)) by (apply continuity_pt_sqrt; pose proof (Rle_0_sqr a); pose proof (Rle_0_sqr b); pose proof (Rle_0_sqr c); unfold Rsqr in *; lra).
  destruct (tends_continuous _ _ C eps P) as (e & E & Q). destruct (mul_near a a (e / 3) ltac:(lra)) as (d1 & D1 & Q1). destruct (mul_near b b (e / 3) ltac:(lra)) as (d2 & D2 & Q2). destruct (mul_near c c (e / 3) ltac:(lra)) as (d3 & D3 & Q3).
  exists (Rmin d1 (Rmin d2 d3)). split; [repeat apply Rmin_glb_lt; assumption|]. intros x y z X Y Z. pose proof (Rmin_l d1 (Rmin d2 d3)). pose proof (Rmin_r d1 (Rmin d2 d3)). pose proof (Rmin_l d2 d3). pose proof (Rmin_r d2 d3).
  pose proof (Q1 x x ltac:(lra) ltac:(lra)). pose proof (Q2 y y ltac:(lra) ltac:(lra)). pose proof (Q3 z z ltac:(lra) ltac:(lra)). destruct (Q (x * x + y * y + z * z)) as (w & W & B); [|injection W as <-; exact B].
  replace (x * x + y * y + z * z - (a * a + b * b + c * c)) with ((x * x - a * a) + ((y * y - b * b) + (z * z - c * c))) by ring. pose proof (Rabs_triang (x * x - a * a) ((y * y - b * b) + (z * z - c * c))). pose proof (Rabs_triang (y * y - b * b) (z * z - c * c)). lra.
Qed.

(** * Programs *)
Scheme expr_cond := Induction for AutoDiff_Model.expr Sort Prop with cond_expr := Induction for AutoDiff_Model.cond Sort Prop.
Combined Scheme program_ind from expr_cond, cond_expr.

Lemma stable_value : (forall e r, stable e r -> exists v, value e r = Some v) /\ (forall c r, stable_condition c r -> exists t, holds c r = Some t).
Proof.
  apply program_ind; cbn [stable stable_condition value holds].
  - intros k r _. eexists. reflexivity.
  - intros c r _. eexists. reflexivity.
  - intros op a IH r (SA & u & E & C). destruct (unary_tends op u C) as (v & V & _). exists v. now rewrite E.
  - intros op a IHa b IHb r (SA & SB & C). destruct (IHa r SA) as (u & U). destruct (IHb r SB) as (v & V). rewrite U, V in *. cbn [obind]. destruct op; try (eexists; reflexivity). cbn. unfold Reqb. destruct (Req_EM_T v 0) as [->|]; [now contradiction C|]. eexists. reflexivity.
  - intros a IHa b IHb c IHc r (SA & SB & SC). destruct (IHa r SA) as (x & ->). destruct (IHb r SB) as (y & ->). destruct (IHc r SC) as (z & ->). eexists. reflexivity.
  - intros c IHc a IHa b IHb r (SC & H). destruct (IHc r SC) as (t & E). rewrite E. cbn. destruct H as [(_ & A & B)|(A & B & V)]; [destruct t; [apply IHa, A, E|apply IHb, B, E]|]. destruct (IHa r A) as (v & EA). exists v. destruct t; congruence.
  - intros a IHa b IHb r (SA & SB). destruct (IHa r SA) as (u & ->). destruct (IHb r SB) as (v & ->). eexists. reflexivity.
  - intros a IHa b IHb r (SA & SB). destruct (IHa r SA) as (u & ->). destruct (IHb r SB) as (v & ->). eexists. reflexivity.
  - intros c IHc d IHd r (SC & SD). destruct (IHc r SC) as (s & ->). destruct (IHd r SD) as (t & ->). eexists. reflexivity.
Qed.

(** The numbers are on the same sides of each other on precise machines. *)
Lemma apart x y u v : approaches x u -> approaches y v -> u <> v -> eventually (fun m => exists s t, x m = Some s /\ y m = Some t /\ s <> t /\ (s < t <-> u < v)).
Proof.
  intros A B N. assert (D : 0 < Rabs (u - v) / 2) by (assert (0 < Rabs (u - v)) by (apply Rabs_pos_lt; lra); lra). apply eventually_mono with (2 := eventually_and _ _ (A _ D) (B _ D)). intros m ((s & X & S) & (t & Y & T)). exists s, t. split; [exact X|]. split; [exact Y|].
  apply Rabs_def2 in S. apply Rabs_def2 in T. destruct (Rle_lt_dec u v) as [L|L]; [rewrite (Rabs_left1 (u - v)) in S, T by lra; assert (u < v) by (destruct L; [assumption|contradiction])|rewrite (Rabs_right (u - v)) in S, T by lra]; split; try (split; intro); lra.
Qed.

Lemma float_value_where m c a b x : float_value m (Where c a b) x = obind (float_holds m c x) (fun t => if t then float_value m a x else float_value m b x).
Proof. reflexivity. Qed.
Lemma float_value_norm m a b c x : float_value m (Norm a b c) x = obind (float_value m a x) (fun u => obind (float_value m b x) (fun v => obind (float_value m c x) (fun w => m_norm m u v w))).
Proof. reflexivity. Qed.
Lemma float_holds_less m a b x : float_holds m (Less a b) x = obind (float_value m a x) (fun u => obind (float_value m b x) (fun v => Some (Rltb u v))).
Proof. reflexivity. Qed.
Lemma float_holds_lesseq m a b x : float_holds m (LessEq a b) x = obind (float_value m a x) (fun u => obind (float_value m b x) (fun v => Some (Rleb u v))).
Proof. reflexivity. Qed.
Lemma float_holds_or m c d x : float_holds m (Or c d) x = obind (float_holds m c x) (fun s => obind (float_holds m d x) (fun t => Some (s || t)%bool)).
Proof. reflexivity. Qed.

Lemma program_approaches : (forall e r (x : machine -> nat -> option R) v, stable e r -> (forall k, approaches (fun m => x m k) (r k)) -> value e r = Some v -> approaches (fun m => float_value m e (x m)) v)
  /\ (forall c r (x : machine -> nat -> option R) t, stable_condition c r -> (forall k, approaches (fun m => x m k) (r k)) -> holds c r = Some t ->
      (exists d H, 0 < d /\ forall m, precise d H m -> exists t', float_holds m c (x m) = Some t') /\ (decided c r -> eventually (fun m => float_holds m c (x m) = Some t))).
Proof.
  apply program_ind.
  - intros k r x v _ A E. cbn in E. injection E as <-. apply A.
  - intros c r x v _ A E. cbn in E. injection E as <-. intros eps P. destruct (fl_near c eps P) as (e & EP & Q). apply eventually_mono with (2 := Q). intros m M. cbn. apply M. rewrite Rminus_diag_eq, Rabs_R0; lra.
  - intros op a IH r x v (SA & u & EU & C) A E. cbn [value] in E. rewrite EU in E. cbn [obind] in E. cbn [float_value]. apply approaches_one with u; [now apply IH with r|]. intros eps P. exact (float_unary_near op u v eps C E P).
  - intros op a IHa b IHb r x w (SA & SB & C) A E. cbn [value] in E. destruct (proj1 stable_value a r SA) as (u & U). destruct (proj1 stable_value b r SB) as (v & V). rewrite U, V in E. cbn [obind] in E. cbn [float_value].
    apply approaches_two with u v; [now apply IHa with r|now apply IHb with r|]. intros eps P. apply float_binary_near; [|exact E|exact P]. destruct op; try exact I. rewrite V in C. congruence.
  - intros a IHa b IHb c IHc r x w (SA & SB & SC) A E. cbn [value] in E. destruct (proj1 stable_value a r SA) as (u & U). destruct (proj1 stable_value b r SB) as (v & V). destruct (proj1 stable_value c r SC) as (z & Z). rewrite U, V, Z in E. cbn [obind] in E. injection E as <-.
    intros eps P. destruct (accurate_near (norm3 u v z) eps P) as (d & H & e & D & EP & Q). destruct (norm_near u v z e EP) as (b' & B & N).
    apply eventually_mono with (2 := eventually_and _ _ (eventually_and _ _ (IHa r x u SA A U b' B) (IHb r x v SB A V b' B)) (eventually_and _ _ (IHc r x z SC A Z b' B) (eventually_precise d H D))).
    intros m (((s1 & X1 & S1) & (s2 & X2 & S2)) & ((s3 & X3 & S3) & (_ & _ & _ & _ & P5))). rewrite float_value_norm, X1. cbn [obind]. rewrite X2. cbn [obind]. rewrite X3. cbn [obind]. pose proof (N s1 s2 s3 S1 S2 S3) as NN.
    assert (WH : Rabs (norm3 s1 s2 s3) <= H). { apply (Q _ (norm3 s1 s2 s3) NN). unfold within. rewrite Rminus_diag_eq, Rabs_R0 by reflexivity. pose proof (Rabs_pos (norm3 s1 s2 s3)). apply Rmult_le_pos; lra. }
    destruct (P5 s1 s2 s3 ltac:(pose proof (Rle_abs (norm3 s1 s2 s3)); lra)) as (y & Y & I). exists y. split; [exact Y|]. now apply (Q _ y NN).
  - intros c IHc a IHa b IHb r x v (SC & S) A E. cbn [value] in E. destruct (proj2 stable_value c r SC) as (t & T). rewrite T in E. cbn [obind] in E. destruct (IHc r x t SC A T) as (FIN & DEC). intros eps P. destruct S as [(DC & SA & SB)|(SA & SB & EV)].
    + assert (AP : approaches (fun m => if t then float_value m a (x m) else float_value m b (x m)) v) by (destruct t; [apply IHa with r|apply IHb with r]; auto).
      apply eventually_mono with (2 := eventually_and _ _ (DEC DC) (AP eps P)). intros m (HH & Q). rewrite float_value_where, HH. cbn [obind]. destruct t; exact Q.
    + assert (VA : value a r = Some v) by (destruct t; congruence). assert (VB : value b r = Some v) by congruence.
      apply eventually_mono with (2 := eventually_and _ _ FIN (eventually_and _ _ (IHa r x v SA A VA eps P) (IHb r x v SB A VB eps P))). intros m ((t' & HH) & (QA & QB)). rewrite float_value_where, HH. cbn [obind]. now destruct t'.
  - intros a IHa b IHb r x t (SA & SB) A E. cbn [holds] in E. destruct (proj1 stable_value a r SA) as (u & U). destruct (proj1 stable_value b r SB) as (v & V). rewrite U, V in E. cbn [obind] in E. injection E as <-. pose proof (IHa r x u SA A U) as AA. pose proof (IHb r x v SB A V) as AB. split.
    + apply eventually_mono with (2 := eventually_and _ _ (AA 1 ltac:(lra)) (AB 1 ltac:(lra))). intros m ((s & X & _) & (s' & X' & _)). rewrite float_holds_less, X. cbn [obind]. rewrite X'. eexists. reflexivity.
    + intro DC. cbn [decided] in DC. rewrite U, V in DC. apply eventually_mono with (2 := apart _ _ u v AA AB ltac:(congruence)). intros m (s & s' & X & X' & N & I). rewrite float_holds_less, X. cbn [obind]. rewrite X'. cbn. f_equal. unfold Rltb. destruct (Rlt_dec s s'), (Rlt_dec u v); tauto.
  - intros a IHa b IHb r x t (SA & SB) A E. cbn [holds] in E. destruct (proj1 stable_value a r SA) as (u & U). destruct (proj1 stable_value b r SB) as (v & V). rewrite U, V in E. cbn [obind] in E. injection E as <-. pose proof (IHa r x u SA A U) as AA. pose proof (IHb r x v SB A V) as AB. split.
    + apply eventually_mono with (2 := eventually_and _ _ (AA 1 ltac:(lra)) (AB 1 ltac:(lra))). intros m ((s & X & _) & (s' & X' & _)). rewrite float_holds_lesseq, X. cbn [obind]. rewrite X'. eexists. reflexivity.
    + intro DC. cbn [decided] in DC. rewrite U, V in DC. apply eventually_mono with (2 := apart _ _ u v AA AB ltac:(congruence)). intros m (s & s' & X & X' & N & I). rewrite float_holds_lesseq, X. cbn [obind]. rewrite X'. cbn. f_equal. assert (u <> v) by congruence. unfold Rleb. destruct (Rle_dec s s'), (Rle_dec u v); try reflexivity; exfalso; destruct I as [I1 I2]; [assert (s < s') by lra; specialize (I1 H0); lra|assert (u < v) by lra; specialize (I2 H0); lra].
  - intros c IHc d IHd r x t (SC & SD) A E. cbn [holds] in E. destruct (proj2 stable_value c r SC) as (t1 & T1). destruct (proj2 stable_value d r SD) as (t2 & T2). rewrite T1, T2 in E. cbn [obind] in E. injection E as <-. destruct (IHc r x t1 SC A T1) as (F1 & D1). destruct (IHd r x t2 SD A T2) as (F2 & D2). split.
    + apply eventually_mono with (2 := eventually_and _ _ F1 F2). intros m ((s & X) & (s' & X')). rewrite float_holds_or, X. cbn [obind]. rewrite X'. eexists. reflexivity.
    + intros (DC & DD). apply eventually_mono with (2 := eventually_and _ _ (D1 DC) (D2 DD)). intros m (X & X'). rewrite float_holds_or, X. cbn [obind]. now rewrite X'.
Qed.
