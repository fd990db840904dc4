(** Property C90: Dense and Tensor layers in floating point arithmetic, and their equivariance up to rounding errors. *)
Require Import List Reals Lra Lia Permutation ZArith Bool.
From Flocq Require Import Core.
Require Import Verif.Base Verif.RSum Verif.Features_Model Verif.Features_Spec Verif.Features_Proofs Verif.Modules_Model Verif.Modules_Spec Verif.Modules_Proofs Verif.Modules_Props Verif.Equivariance_Spec Verif.Equivariance_Props Verif.Radial_Model Verif.Float_Model Verif.Float_Spec Verif.Float_Proofs Verif.Float_Formats Verif.Float_Einsum_Model Verif.Float_Einsum_Spec Verif.Float_Einsum_Proofs.
Import ListNotations.
Open Scope R_scope.

(** Any evaluation of a sum of products is finite and accurate. *)
Theorem C90_evaluation u tiny huge rnd V (env : V -> R) e ts : rounding u tiny rnd -> evaluates e ts -> in_range u tiny huge env e ->
  magnitude 0 env e = sum_of_products (fun v => Rabs (env v)) ts /\
  exists f, float_eval rnd huge env e = Some f /\ Rabs (f - sum_of_products env ts) <= evaluation_error u tiny env e.
Proof.
  intros H EV IR. split; [rewrite magnitude_eval; now apply evaluates_value|]. rewrite <- (evaluates_value V env e ts EV). now apply (float_eval_accurate u tiny huge rnd V env e H).
Qed.
Print Assumptions C90_evaluation.

(** Hence two evaluations (two devices, two versions of the compiler, ...) agree up to twice the error. *)
Theorem C90_two_evaluations u tiny huge rnd V (env : V -> R) e e' ts : rounding u tiny rnd -> evaluates e ts -> evaluates e' ts -> in_range u tiny huge env e -> in_range u tiny huge env e' ->
  exists f f', float_eval rnd huge env e = Some f /\ float_eval rnd huge env e' = Some f' /\ Rabs (f - f') <= evaluation_error u tiny env e + evaluation_error u tiny env e'.
Proof.
  intros H EV EV' IR IR'. destruct (C90_evaluation u tiny huge rnd V env e ts H EV IR) as (_ & f & E & B). destruct (C90_evaluation u tiny huge rnd V env e' ts H EV' IR') as (_ & f' & E' & B').
  exists f, f'. split; [exact E|]. split; [exact E'|]. apply Rabs_le_inv in B. apply Rabs_le_inv in B'. apply Rabs_le. lra.
Qed.
Print Assumptions C90_two_evaluations.

(** Sums over index ranges. *)
Lemma sop_map V (env : V -> R) (g : nat -> list V) n : sum_of_products env (map g (seq 0 n)) = rsum n (fun i => fold_right Rmult 1 (map env (g i))).
Proof. induction n as [|n IH]; [reflexivity|]. rewrite seq_S, map_app, sop_app, IH. cbn [rsum]. f_equal. unfold sum_of_products. cbn [map fold_right plus]. lra. Qed.
Lemma sop_flat_map V (env : V -> R) (g : nat -> list (list V)) n : sum_of_products env (flat_map g (seq 0 n)) = rsum n (fun i => sum_of_products env (g i)).
Proof. induction n as [|n IH]; [reflexivity|]. rewrite seq_S, flat_map_app, sop_app, IH. cbn [rsum flat_map plus]. now rewrite app_nil_r. Qed.

(** ** Dense *)
Definition dense_plan (F : nat) (E : list nat -> nat -> nat -> nat -> expr dense_operand) : Prop := forall i s d f, evaluates (E i s d f) (dense_terms F).

(** The layer accepts the same inputs as without rounding; every entry whose evaluation is in range is finite and accurate. *)
Theorem C90_dense u tiny huge rnd features use_bias P E x : rounding u tiny rnd -> dense_plan (fF x) E ->
  match dense features use_bias P x with
  | Ok y => exists w, float_dense rnd huge features use_bias P E x = Ok w /\ flB w = fB y /\ flS w = fS y /\ flD w = fD y /\ flF w = fF y /\
      forall i s d f, (s < fS y)%nat -> (d < fD y)%nat -> let env := dense_operands P x i s d f in let e := dense_expr use_bias s d (E i s d f) in
        in_range u tiny huge env e -> exists v, flv w i s d f = Some v /\ Rabs (v - fv y i s d f) <= evaluation_error u tiny env e
  | Err _ => exists e, float_dense rnd huge features use_bias P E x = Err e
  end.
Proof.
  intros H PL. destruct (dense features use_bias P x) as [y|e] eqn:ED.
  - destruct (dense_ok_inv features use_bias P x y ED) as (n & V & NP). destruct (dense_comp n x features use_bias P V NP) as (y' & E' & VY & B & S & F & T & C). rewrite ED in E'. injection E' as <-.
    unfold float_dense. rewrite (extract_valid x n V). cbn [bind]. destruct (Z.ltb_spec (Z.of_nat n - 1) 0); [lia|].
    assert (SS : ((fS x =? 2) || (fS x =? 1))%nat = true) by (destruct V as [[-> | ->] _]; reflexivity). rewrite SS. eexists. split; [reflexivity|]. cbn [flB flS flD flF flv].
    split; [now rewrite B|]. split; [now rewrite S|]. split; [destruct V as [_ ->], VY as [_ ->]; reflexivity|]. split; [now rewrite F|]. intros i s d f HS HD IR. set (env := dense_operands P x i s d f) in *. set (e := dense_expr use_bias s d (E i s d f)) in *.
    destruct (float_eval_accurate u tiny huge rnd _ env e H IR) as (v & EV & BV). exists v. split; [exact EV|].
    replace (fv y i s d f) with (eval env e); [exact BV|].
    set (l := Nat.sqrt d) in *. set (k := (d - l * l)%nat). pose proof (Nat.sqrt_spec d ltac:(lia)) as [Q1 Q2]. fold l in Q1, Q2. cbn in Q2. assert (DD : d = (l * l + k)%nat) by (unfold k; lia). assert (K : (k < 2 * l + 1)%nat) by (unfold k; lia).
    destruct VY as [VS VD]. assert (LN : ((l + 1) * (l + 1) <= fD y)%nat).
    { rewrite VD in HD |- *. assert (l < n)%nat. { destruct (Nat.lt_ge_cases l n) as [|G]; [assumption|]. pose proof (Nat.mul_le_mono n l n l G G). lia. } apply Nat.mul_le_mono; lia. }
    set (p := if (fS x =? 2)%nat then s else (l mod 2)%nat). assert (P2 : (p < 2)%nat). { unfold p. destruct (Nat.eqb_spec (fS x) 2) as [X2|X2]; [rewrite S, X2 in HS; exact HS|apply Nat.mod_upper_bound; lia]. }
    assert (HSL : has_slot y p l). { split; [exact LN|]. destruct V as [[X1|X2] _]; [right|left; congruence]. split; [congruence|]. unfold p. now rewrite X1. }
    specialize (C i p l k f P2 K HSL). unfold comp in C. rewrite S in C. assert (DX : fD x = fD y) by (destruct V as [_ ->]; now rewrite VD). rewrite DX in C. destruct (Nat.leb_spec ((l + 1) * (l + 1)) (fD y)); [|lia]. rewrite <- DD in C.
    assert (BASE : eval env (E i s d f) = rsum (fF x) (fun a => fv x i s d a * dk P l p a f)).
    { rewrite (evaluates_value _ env _ _ (PL i s d f)). unfold dense_terms. rewrite sop_map. apply rsum_ext. intros a _. cbn. unfold env, dense_operands. cbn. fold l p. ring. }
    assert (BIAS : eval env e = rsum (fF x) (fun a => fv x i s d a * dk P l p a f) + bias_at use_bias (db P) p l f).
    { unfold e, dense_expr, bias_at. fold l. destruct use_bias; cbn [andb]; [|rewrite BASE; lra]. destruct (Nat.eqb_spec l 0) as [L0|L0]; cbn [andb]; [|rewrite BASE; lra].
      assert (PS : p = s). { unfold p. destruct (Nat.eqb_spec (fS x) 2) as [X2|X2]; [reflexivity|]. destruct V as [[X1|X1] _]; [|contradiction]. rewrite S, X1 in HS. rewrite L0. cbn. lia. }
      rewrite PS in *. destruct (Nat.eqb_spec s 0); [|rewrite BASE; lra]. cbn [eval]. rewrite BASE. unfold env, dense_operands. cbn. reflexivity. }
    rewrite BIAS. unfold p in C |- *. destruct (Nat.eqb_spec (fS x) 2) as [X2|X2].
    + symmetry. exact C.
    + rewrite Nat.eqb_refl in C. assert (S0 : s = 0%nat). { destruct V as [[X1|X1] _]; [|contradiction]. rewrite S, X1 in HS. lia. } rewrite S0 in *. symmetry. exact C.
  - unfold float_dense. unfold dense in ED. destruct (extract_max_degree_and_check_shape (shape_of x)) as [L|er] eqn:EX; [|now exists er]. cbn [bind] in *.
    destruct (Z.ltb_spec L 0); [now eexists|]. destruct (fS x =? 2)%nat; [|destruct (fS x =? 1)%nat; [|now eexists]]; exfalso.
    + replace (seq 0 (Z.to_nat (L + 1))) with (0%nat :: seq 1 (Z.to_nat L)) in ED by (replace (Z.to_nat (L + 1)) with (S (Z.to_nat L)) by lia; reflexivity). cbn in ED. discriminate.
    + replace (seq 0 (Z.to_nat (L + 1))) with (0%nat :: seq 1 (Z.to_nat L)) in ED by (replace (Z.to_nat (L + 1)) with (S (Z.to_nat L)) by lia; reflexivity). cbn in ED. discriminate.
Qed.
Print Assumptions C90_dense.

(** ** Tensor *)
Definition tensor_plan (mixed : bool) (x1 x2 : feat) (E E' : list nat -> nat -> nat -> nat -> expr tensor_operand) : Prop :=
  forall i r n f, evaluates (E i r n f) (first_terms mixed (fS x1) (fD x1) (fS x2) (fD x2) r) /\ (mixed = false -> evaluates (E' i r n f) (second_terms (fD x1) (fD x2) r)).

Theorem C90_tensor u tiny huge rnd cgf max_degree include K E E' x1 x2 : rounding u tiny rnd ->
  match tensor cgf max_degree include K x1 x2 with
  | Ok z => exists t, prepare_tensor cgf max_degree include K x1 x2 = Ok t /\ (tensor_plan (tmixed t) x1 x2 E E' ->
      exists w, float_tensor rnd huge cgf max_degree include K E E' x1 x2 = Ok w /\ flB w = fB z /\ flS w = fS z /\ flD w = fD z /\ flF w = fF z /\
      forall i r n f, (r < fS z)%nat -> (n < fD z)%nat -> let env := toperands t i r n f in let e := tensor_expr (tmixed t) E E' i r n f in
        in_range u tiny huge env e -> exists v, flv w i r n f = Some v /\ Rabs (v - fv z i r n f) <= evaluation_error u tiny env e)
  | Err e => float_tensor rnd huge cgf max_degree include K E E' x1 x2 = Err e
  end.
Proof.
  intro H. unfold float_tensor. unfold tensor, prepare_tensor.
  destruct (extract_max_degree_and_check_shape (shape_of x1)) as [L1|]; [|reflexivity]. cbn [bind]. destruct (extract_max_degree_and_check_shape (shape_of x2)) as [L2|]; [|reflexivity]. cbn [bind].
  destruct (L1 + L2 <? output_degree max_degree L1 L2)%Z; [reflexivity|]. destruct (negb (fF x1 =? fF x2)%nat); [reflexivity|]. destruct (cgf L1 L2 (output_degree max_degree L1 L2)) as [cg|]; [|reflexivity]. cbn [bind].
  destruct (broadcast_shapes (fB x1) (fB x2)) as [B|]; [|reflexivity]. cbn [bind].
  set (S3 := if output_pseudotensors include (fS x1) (fS x2) L1 L2 (output_degree max_degree L1 L2) then 2%nat else 1%nat).
  destruct (negb ((fS x1 =? 2)%nat && (fS x2 =? 2)%nat && (S3 =? 2)%nat)) eqn:MX.
  - eexists. split; [reflexivity|]. cbn [tmixed]. intro PL. eexists. split; [reflexivity|]. cbn [flB flS flD flF flv tB tS tD tmixed toperands fB fS fD fF fv]. repeat (split; [reflexivity|]).
    intros i r n f _ _ IR. destruct (float_eval_accurate u tiny huge rnd _ _ _ H IR) as (v & EV & BV). exists v. split; [exact EV|]. cbn [tensor_expr] in BV |- *.
    match type of BV with Rabs (_ - ?q) <= _ => match goal with |- Rabs (_ - ?q') <= _ => replace q' with q; [exact BV|] end end.
    rewrite (evaluates_value _ _ _ _ (proj1 (PL i r n f))). cbn [first_terms]. unfold tensor_terms. rewrite sop_flat_map. apply rsum_ext. intros p _. rewrite sop_flat_map. apply rsum_ext. intros l _. rewrite sop_flat_map. apply rsum_ext. intros q _. rewrite sop_map. apply rsum_ext. intros m _. cbn. ring.
  - eexists. split; [reflexivity|]. cbn [tmixed]. intro PL. eexists. split; [reflexivity|]. cbn [flB flS flD flF flv tB tS tD tmixed toperands fB fS fD fF fv].
    apply negb_false_iff, andb_true_iff in MX. destruct MX as [_ MX]. apply Nat.eqb_eq in MX. repeat (split; [assumption || reflexivity|]).
    intros i r n f HR _ IR. destruct (float_eval_accurate u tiny huge rnd _ _ _ H IR) as (v & EV & BV). exists v. split; [exact EV|]. cbn [tensor_expr eval] in BV |- *.
    match type of BV with Rabs (_ - ?q) <= _ => match goal with |- Rabs (_ - ?q') <= _ => replace q' with q; [exact BV|] end end.
    rewrite (evaluates_value _ _ _ _ (proj1 (PL i r n f))), (evaluates_value _ _ _ _ (proj2 (PL i r n f) eq_refl)). cbn [first_terms]. unfold second_terms.
    destruct (Nat.eqb_spec r 0) as [R0|R0]; [subst r|replace r with 1%nat by lia]; (f_equal; unfold coupling_terms; rewrite sop_flat_map; apply rsum_ext; intros l _; rewrite sop_map; apply rsum_ext; intros m _; cbn; ring).
Qed.
Print Assumptions C90_tensor.

(** ** Equivariance *)
(** Values that are close to a feature array and to its transformed copy are transformed copies up to the errors. *)
Lemma rotated_close s D z z' i p l k f v v' err err' : s * s = 1 -> transformed s D z z' -> (p < 2)%nat -> (k < 2 * l + 1)%nat ->
  (forall k', (k' < 2 * l + 1)%nat -> Rabs (v k' - comp z i p l k' f) <= err k') -> Rabs (v' - comp z' i p l k f) <= err' ->
  Rabs (v' - parity_sign s p * rsum (2 * l + 1) (fun k' => v k' * D i (l * l + k')%nat (l * l + k)%nat)) <= err' + rsum (2 * l + 1) (fun k' => Rabs (D i (l * l + k')%nat (l * l + k)%nat) * err k').
Proof.
  intros SS (_ & _ & _ & _ & _ & T) P K EV EV'. specialize (T i p l k f P K). rewrite T in EV'. clear T.
  assert (SG : Rabs (parity_sign s p) = 1). { unfold parity_sign. destruct (p =? 1)%nat; [|apply Rabs_R1]. assert (Q : (s - 1) * (s + 1) = 0) by lra. apply Rmult_integral in Q. destruct Q as [Q|Q]; [replace s with 1 by lra; apply Rabs_R1|replace s with (-1) by lra; rewrite Rabs_left; lra]. }
  set (g := parity_sign s p) in *.
  assert (A : Rabs (rsum (2 * l + 1) (fun k' => v k' * D i (l * l + k')%nat (l * l + k)%nat) - rsum (2 * l + 1) (fun k' => comp z i p l k' f * D i (l * l + k')%nat (l * l + k)%nat)) <= rsum (2 * l + 1) (fun k' => Rabs (D i (l * l + k')%nat (l * l + k)%nat) * err k')).
  { rewrite <- rsum_minus. generalize (2 * l + 1)%nat EV. clear. intros n EV. induction n as [|n IH]; [cbn; rewrite Rabs_R0; lra|]. cbn [rsum]. eapply Rle_trans; [apply Rabs_triang|]. apply Rplus_le_compat; [apply IH; intros k' K'; apply EV; lia|].
    rewrite <- Rmult_minus_distr_r, Rabs_mult, Rmult_comm. apply Rmult_le_compat_l; [apply Rabs_pos|]. apply EV. lia. }
  set (a := rsum _ (fun k' => v k' * _)) in *. set (b := rsum _ (fun k' => comp z i p l k' f * _)) in *. replace (v' - g * a) with ((v' - g * b) + - (g * (a - b))) by ring. eapply Rle_trans; [apply Rabs_triang|]. rewrite Rabs_Ropp, Rabs_mult, SG. lra.
Qed.

(** Component [k] of degree [l] and parity [p] of an array of floating point numbers that has a slot for it. *)
Definition float_comp (w : float_feat) (i : list nat) (p l k f : nat) : option R := flv w i (if (flS w =? 2)%nat then p else 0%nat) (l * l + k)%nat f.

Theorem C90_dense_equivariant u tiny huge rnd s D features use_bias P E Er x xr y : rounding u tiny rnd -> s * s = 1 -> keeps_scalars D -> transformed s D x xr ->
  dense features use_bias P x = Ok y -> dense_plan (fF x) E -> dense_plan (fF x) Er ->
  exists w wr, float_dense rnd huge features use_bias P E x = Ok w /\ float_dense rnd huge features use_bias P Er xr = Ok wr /\
  forall i p l k f, (p < 2)%nat -> (k < 2 * l + 1)%nat -> has_slot y p l ->
    let c := if (fS y =? 2)%nat then p else 0%nat in
    let env k := dense_operands P x i c (l * l + k) f in let e k := dense_expr use_bias c (l * l + k) (E i c (l * l + k)%nat f) in
    let envr := dense_operands P xr i c (l * l + k) f in let er := dense_expr use_bias c (l * l + k) (Er i c (l * l + k)%nat f) in
    (forall k', (k' < 2 * l + 1)%nat -> in_range u tiny huge (env k') (e k')) -> in_range u tiny huge envr er ->
    exists v vr, (forall k', (k' < 2 * l + 1)%nat -> float_comp w i p l k' f = Some (v k')) /\ float_comp wr i p l k f = Some vr /\
      Rabs (vr - parity_sign s p * rsum (2 * l + 1) (fun k' => v k' * D i (l * l + k')%nat (l * l + k)%nat))
      <= evaluation_error u tiny envr er + rsum (2 * l + 1) (fun k' => Rabs (D i (l * l + k')%nat (l * l + k)%nat) * evaluation_error u tiny (env k') (e k')).
Proof.
  intros H SS KS T EY PL PLr. destruct (C35_dense_equivariant s D features use_bias P x xr y KS T EY) as (yr & EYr & TY). pose proof T as (_ & _ & _ & FX & _).
  pose proof (C90_dense u tiny huge rnd features use_bias P E x H PL) as A. rewrite EY in A. destruct A as (w & EW & _ & SW & _ & _ & CW).
  pose proof (C90_dense u tiny huge rnd features use_bias P Er xr H ltac:(now rewrite FX)) as A. rewrite EYr in A. destruct A as (wr & EWr & _ & SWr & _ & _ & CWr).
  exists w, wr. split; [exact EW|]. split; [exact EWr|]. intros i p l k f P2 K HS c env e envr er IR IRr. pose proof TY as (_ & TS & TD & _).
  assert (CS : (c < fS y)%nat). { unfold c. destruct (Nat.eqb_spec (fS y) 2) as [->|N]; [exact P2|]. destruct HS as [_ [Q|[Q _]]]; [contradiction|]. rewrite Q. lia. }
  assert (DL : forall k', (k' < 2 * l + 1)%nat -> (l * l + k' < fD y)%nat) by (intros k' K'; destruct HS as [HD _]; lia).
  assert (CE : forall k', (k' < 2 * l + 1)%nat -> comp y i p l k' f = fv y i c (l * l + k') f).
  { intros k' K'. unfold comp, c. destruct HS as [HD HSS]. destruct (Nat.leb_spec ((l + 1) * (l + 1)) (fD y)); [|lia]. destruct (Nat.eqb_spec (fS y) 2); [reflexivity|]. destruct HSS as [Q|[_ ->]]; [contradiction|]. now rewrite Nat.eqb_refl. }
  assert (CEr : comp yr i p l k f = fv yr i c (l * l + k) f).
  { unfold comp, c. rewrite TS, TD. destruct HS as [HD HSS]. destruct (Nat.leb_spec ((l + 1) * (l + 1)) (fD y)); [|lia]. destruct (Nat.eqb_spec (fS y) 2); [reflexivity|]. destruct HSS as [Q|[_ ->]]; [contradiction|]. now rewrite Nat.eqb_refl. }
  destruct (CWr i c (l * l + k)%nat f ltac:(now rewrite TS) ltac:(rewrite TD; now apply DL) IRr) as (vr & EV & BV).
  exists (fun k' => match flv w i c (l * l + k')%nat f with Some q => q | None => 0 end), vr. unfold float_comp. rewrite SW, SWr, TS. fold c.
  split; [|split; [exact EV|]].
  - intros k' K'. destruct (CW i c (l * l + k')%nat f CS (DL k' K') (IR k' K')) as (q & EQ & _). now rewrite EQ.
  - apply (rotated_close s D y yr i p l k f); try assumption; [|rewrite CEr; exact BV]. intros k' K'. destruct (CW i c (l * l + k')%nat f CS (DL k' K') (IR k' K')) as (q & EQ & BQ). rewrite EQ, CE by exact K'. exact BQ.
Qed.
Print Assumptions C90_dense_equivariant.

(** With the package's own Clebsch-Gordan coefficients and Wigner-D matrices. *)
Theorem C90_tensor_equivariant u tiny huge rnd cartesian cgf m D s Dx Dy max_degree include K E E' Er Er' x y xr yr z :
  rounding u tiny rnd -> uses_package cartesian cgf -> rotations cartesian m D -> s * s = 1 ->
  (forall B i, broadcast_shapes (fB x) (fB y) = Ok B -> Dx (bidx (fB x) B i) = D i /\ Dy (bidx (fB y) B i) = D i) ->
  transformed s Dx x xr -> transformed s Dy y yr -> tensor cgf max_degree include K x y = Ok z ->
  exists t tr, prepare_tensor cgf max_degree include K x y = Ok t /\ prepare_tensor cgf max_degree include K xr yr = Ok tr /\
  (tensor_plan (tmixed t) x y E E' -> tensor_plan (tmixed tr) xr yr Er Er' ->
  exists w wr, float_tensor rnd huge cgf max_degree include K E E' x y = Ok w /\ float_tensor rnd huge cgf max_degree include K Er Er' xr yr = Ok wr /\
  forall i p l k f, (p < 2)%nat -> (k < 2 * l + 1)%nat -> has_slot z p l ->
    let c := if (fS z =? 2)%nat then p else 0%nat in
    let env k := toperands t i c (l * l + k) f in let e k := tensor_expr (tmixed t) E E' i c (l * l + k)%nat f in
    let envr := toperands tr i c (l * l + k) f in let er := tensor_expr (tmixed tr) Er Er' i c (l * l + k)%nat f in
    (forall k', (k' < 2 * l + 1)%nat -> in_range u tiny huge (env k') (e k')) -> in_range u tiny huge envr er ->
    exists v vr, (forall k', (k' < 2 * l + 1)%nat -> float_comp w i p l k' f = Some (v k')) /\ float_comp wr i p l k f = Some vr /\
      Rabs (vr - parity_sign s p * rsum (2 * l + 1) (fun k' => v k' * D i (l * l + k')%nat (l * l + k)%nat))
      <= evaluation_error u tiny envr er + rsum (2 * l + 1) (fun k' => Rabs (D i (l * l + k')%nat (l * l + k)%nat) * evaluation_error u tiny (env k') (e k'))).
Proof.
  intros H UP RO SS DD TX TY EZ. destruct (C67_tensor cartesian cgf m D UP RO s Dx Dy max_degree include K x y xr yr z SS DD TX TY EZ) as (zr & EZr & TZ).
  pose proof (C90_tensor u tiny huge rnd cgf max_degree include K E E' x y H) as A. rewrite EZ in A. destruct A as (t & ET & A).
  pose proof (C90_tensor u tiny huge rnd cgf max_degree include K Er Er' xr yr H) as Ar. rewrite EZr in Ar. destruct Ar as (tr & ETr & Ar).
  exists t, tr. split; [exact ET|]. split; [exact ETr|]. intros PL PLr. destruct (A PL) as (w & EW & _ & SW & _ & _ & CW). destruct (Ar PLr) as (wr & EWr & _ & SWr & _ & _ & CWr).
  exists w, wr. split; [exact EW|]. split; [exact EWr|]. intros i p l k f P2 Hk HS c env e envr er IR IRr. pose proof TZ as (_ & TS & TD & _).
  assert (CS : (c < fS z)%nat). { unfold c. destruct (Nat.eqb_spec (fS z) 2) as [->|N]; [exact P2|]. destruct HS as [_ [Q|[Q _]]]; [contradiction|]. rewrite Q. lia. }
  assert (DL : forall k', (k' < 2 * l + 1)%nat -> (l * l + k' < fD z)%nat) by (intros k' K'; destruct HS as [HD _]; lia).
  assert (CE : forall k', (k' < 2 * l + 1)%nat -> comp z i p l k' f = fv z i c (l * l + k') f).
  { intros k' K'. unfold comp, c. destruct HS as [HD HSS]. destruct (Nat.leb_spec ((l + 1) * (l + 1)) (fD z)); [|lia]. destruct (Nat.eqb_spec (fS z) 2); [reflexivity|]. destruct HSS as [Q|[_ ->]]; [contradiction|]. now rewrite Nat.eqb_refl. }
  assert (CEr : comp zr i p l k f = fv zr i c (l * l + k) f).
  { unfold comp, c. rewrite TS, TD. destruct HS as [HD HSS]. destruct (Nat.leb_spec ((l + 1) * (l + 1)) (fD z)); [|lia]. destruct (Nat.eqb_spec (fS z) 2); [reflexivity|]. destruct HSS as [Q|[_ ->]]; [contradiction|]. now rewrite Nat.eqb_refl. }
  destruct (CWr i c (l * l + k)%nat f ltac:(now rewrite TS) ltac:(rewrite TD; now apply DL) IRr) as (vr & EV & BV).
  exists (fun k' => match flv w i c (l * l + k')%nat f with Some q => q | None => 0 end), vr. unfold float_comp. rewrite SW, SWr, TS. fold c.
  split; [|split; [exact EV|]].
  - intros k' K'. destruct (CW i c (l * l + k')%nat f CS (DL k' K') (IR k' K')) as (q & EQ & _). now rewrite EQ.
  - apply (rotated_close s D z zr i p l k f); try assumption; [|rewrite CEr; exact BV]. intros k' K'. destruct (CW i c (l * l + k')%nat f CS (DL k' K') (IR k' K')) as (q & EQ & BQ). rewrite EQ, CE by exact K'. exact BQ.
Qed.
Print Assumptions C90_tensor_equivariant.

(** ** Evaluations exist *)
(** Term by term. *)
Fixpoint chain {V : Type} (t : list V) : expr V :=
  match t with [] => Nothing | [v] => Operand v | v :: t' => Product (Operand v) (chain t') end.
Definition direct {V : Type} (ts : list (list V)) : expr V := fold_right (fun t e => Sum (chain t) e) Nothing ts.
Lemma chain_expansion V (t : list V) : t <> [] -> expansion (chain t) = [t].
Proof.
  induction t as [|v t IH]; [congruence|]. intros _. destruct t as [|w t]; [reflexivity|]. change (chain (v :: w :: t)) with (Product (Operand v) (chain (w :: t))). cbn [expansion]. rewrite IH by discriminate. reflexivity.
Qed.
Lemma evaluates_refl V (e : expr V) ts : expansion e = ts -> evaluates e ts.
Proof. intros <-. exists (expansion e). split; [apply Permutation_refl|]. induction (expansion e); constructor; [apply Permutation_refl|assumption]. Qed.
Theorem C90_direct V (ts : list (list V)) : (forall t, In t ts -> t <> []) -> evaluates (direct ts) ts.
Proof.
  intro N. apply evaluates_refl. induction ts as [|t ts IH]; [reflexivity|]. cbn [direct fold_right expansion]. rewrite chain_expansion by (apply N; now left). cbn [app]. f_equal. apply IH. intros t' I. apply N. now right.
Qed.
Print Assumptions C90_direct.

(** Contracting one operand after the other: the weights with the coefficients first, then the second factor, then the first. *)
Definition sum_over {V : Type} (n : nat) (g : nat -> expr V) : expr V := fold_right (fun i e => Sum (g i) e) Nothing (seq 0 n).
Definition contracted (D1 D2 p q : nat) : expr tensor_operand :=
  sum_over D1 (fun l => Product (Operand (First p l)) (sum_over D2 (fun m => Product (Operand (Second q m)) (Product (Operand (Kernel p l q m)) (Operand (Coefficient l m)))))).
Lemma sum_over_expansion V n (g : nat -> expr V) : expansion (sum_over n g) = flat_map (fun i => expansion (g i)) (seq 0 n).
Proof. unfold sum_over. induction (seq 0 n) as [|i l IH]; [reflexivity|]. cbn [fold_right expansion flat_map]. now rewrite IH. Qed.
Theorem C90_contracted D1 D2 p q : evaluates (contracted D1 D2 p q) (coupling_terms D1 D2 p q).
Proof.
  apply evaluates_refl. unfold contracted, coupling_terms. rewrite sum_over_expansion. apply flat_map_ext. intro l. cbn [expansion flat_map]. rewrite app_nil_r, sum_over_expansion.
  induction (seq 0 D2) as [|m s IH]; [reflexivity|]. cbn [flat_map map expansion app] in *. now rewrite IH.
Qed.
Print Assumptions C90_contracted.

(** Every layer has plans of both kinds. *)
Theorem C90_plans x1 x2 : dense_plan (fF x1) (fun _ _ _ _ => direct (dense_terms (fF x1))) /\
  (forall mixed, tensor_plan mixed x1 x2 (fun _ r _ _ => direct (first_terms mixed (fS x1) (fD x1) (fS x2) (fD x2) r)) (fun _ r _ _ => direct (second_terms (fD x1) (fD x2) r))) /\
  tensor_plan false x1 x2 (fun _ r _ _ => contracted (fD x1) (fD x2) 0 (if (r =? 0)%nat then 0 else 1)) (fun _ r _ _ => contracted (fD x1) (fD x2) 1 (if (r =? 0)%nat then 1 else 0)).
Proof.
  assert (CT : forall D1 D2 p q t, In t (coupling_terms D1 D2 p q) -> t <> []). { intros D1 D2 p q t I. unfold coupling_terms in I. apply in_flat_map in I. destruct I as (l & _ & I). apply in_map_iff in I. destruct I as (m & <- & _). discriminate. }
  split; [|split].
  - intros i s d f. apply C90_direct. intros t I. unfold dense_terms in I. apply in_map_iff in I. destruct I as (a & <- & _). discriminate.
  - intros mixed i r n f. split.
    + apply C90_direct. intros t I. unfold first_terms in I. destruct mixed; [|destruct (r =? 0)%nat; now apply CT in I]. unfold tensor_terms in I. apply in_flat_map in I. destruct I as (p & _ & I). apply in_flat_map in I. destruct I as (l & _ & I). apply in_flat_map in I. destruct I as (q & _ & I). apply in_map_iff in I. destruct I as (m & <- & _). discriminate.
    + intros _. apply C90_direct. intros t I. unfold second_terms in I. destruct (r =? 0)%nat; now apply CT in I.
  - intros i r n f. unfold first_terms, second_terms. split; [|intros _]; destruct (r =? 0)%nat; apply C90_contracted.
Qed.
Print Assumptions C90_plans.

(** An instance: a Dense layer with two input features in float32. *)
Example C90_instance : let rnd := rounded (-149) 24 in let huge := bpow radix2 128 in forall x w : nat -> R, (forall a, Rabs (x a) <= 1 /\ Rabs (w a) <= 1) ->
  exists f, float_eval rnd huge (dense_env x w 0) (direct (dense_terms 2)) = Some f /\ Rabs (f - (x 0%nat * w 0%nat + x 1%nat * w 1%nat)) <= 1 / 500000.
Proof.
  intros rnd huge x w XW. pose proof rounding_float32 as H. fold rnd in H. assert (T : 0 < bpow radix2 (-126) <= / 1073741824) by (split; [apply bpow_gt_0|apply Rle_trans with (bpow radix2 (-30)); [apply bpow_le; lia|cbn; lra]]). assert (UV : bpow radix2 (-24) = / 16777216) by (cbn; lra). assert (HH : 1000 <= huge) by (apply Rle_trans with (bpow radix2 10); [cbn; lra|apply bpow_le; lia]).
  destruct (XW 0%nat) as [X0 W0]. destruct (XW 1%nat) as [X1 W1]. set (env := dense_env x w 0). set (e := direct (dense_terms 2)). set (tiny := bpow radix2 (-126)) in *.
  pose proof (Rabs_pos (x 0%nat)). pose proof (Rabs_pos (x 1%nat)). pose proof (Rabs_pos (w 0%nat)). pose proof (Rabs_pos (w 1%nat)).
  assert (PR : forall a b, 0 <= a <= 1 -> 0 <= b <= 1 -> 0 <= a * b <= 1 /\ a * b <= (a + tiny) * (b + tiny) <= a * b + 3 * tiny).
  { intros a b A B. assert (0 <= a * b <= 1 * 1) by (split; [apply Rmult_le_pos; lra|apply Rmult_le_compat; lra]). assert (0 <= a * tiny <= 1 * tiny) by (split; [apply Rmult_le_pos; lra|apply Rmult_le_compat_r; lra]). assert (0 <= b * tiny <= 1 * tiny) by (split; [apply Rmult_le_pos; lra|apply Rmult_le_compat_r; lra]). assert (0 <= tiny * tiny <= 1 * tiny) by (split; [apply Rmult_le_pos; lra|apply Rmult_le_compat_r; lra]). lra. }
  destruct (PR (Rabs (x 0%nat)) (Rabs (w 0%nat)) ltac:(lra) ltac:(lra)) as [P0 Q0]. destruct (PR (Rabs (x 1%nat)) (Rabs (w 1%nat)) ltac:(lra) ltac:(lra)) as [P1 Q1].
  assert (M0 : magnitude 0 env e = Rabs (x 0%nat) * Rabs (w 0%nat) + Rabs (x 1%nat) * Rabs (w 1%nat)) by (cbn; ring).
  assert (MT : magnitude tiny env e = (Rabs (x 0%nat) + tiny) * (Rabs (w 0%nat) + tiny) + (Rabs (x 1%nat) + tiny) * (Rabs (w 1%nat) + tiny) + 4 * tiny) by (cbn; ring).
  assert (RN : INR (roundings e) = 5) by (cbn; lra).
  destruct (C90_evaluation (bpow radix2 (-24)) tiny huge rnd _ env e (dense_terms 2) H) as (_ & f & E & B).
  - apply C90_direct. intros t [<-|[<-|[]]]; discriminate.
  - split; [rewrite RN, UV; lra|]. assert (PK : peak tiny env e <= 10); [|lra]. cbn. repeat apply Rmax_lub; lra.
  - exists f. split; [exact E|]. unfold evaluation_error in B. rewrite RN, M0, MT, UV in B. replace (sum_of_products env (dense_terms 2)) with (x 0%nat * w 0%nat + x 1%nat * w 1%nat) in B by (cbn; ring). lra.
Qed.
