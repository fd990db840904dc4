(** Rounding errors of sums of products. *)
Require Import List Reals Lra Lia Permutation ZArith Bool.
Require Import Verif.Base Verif.RSum Verif.Features_Model Verif.Modules_Model Verif.Radial_Model Verif.Float_Model Verif.Float_Spec Verif.Float_Proofs Verif.Float_Einsum_Model Verif.Float_Einsum_Spec.
Import ListNotations.
Open Scope R_scope.

Fixpoint eval {V : Type} (env : V -> R) (e : expr V) : R :=
  match e with
  | Nothing => 0
  | Operand v => env v
  | Sum a b => eval env a + eval env b
  | Product a b => eval env a * eval env b
  end.

Lemma sop_app V (env : V -> R) a b : sum_of_products env (a ++ b) = sum_of_products env a + sum_of_products env b.
Proof. unfold sum_of_products. induction a as [|t a IH]; cbn; [lra|]. rewrite IH. lra. Qed.
Lemma product_app V (env : V -> R) s t : fold_right Rmult 1 (map env (s ++ t)) = fold_right Rmult 1 (map env s) * fold_right Rmult 1 (map env t).
Proof. induction s as [|v s IH]; cbn; [lra|]. rewrite IH. lra. Qed.
Lemma eval_expansion V (env : V -> R) e : eval env e = sum_of_products env (expansion e).
Proof.
  induction e as [|v|a IHa b IHb|a IHa b IHb]; cbn [eval expansion].
  - reflexivity.
  - unfold sum_of_products. cbn. lra.
  - now rewrite sop_app, IHa, IHb.
  - rewrite IHa, IHb. clear. induction (expansion a) as [|s l IH]; cbn [flat_map]; [unfold sum_of_products; cbn; lra|]. rewrite sop_app, <- IH. change (sum_of_products env (s :: l)) with (fold_right Rmult 1 (map env s) + sum_of_products env l).
    rewrite Rmult_plus_distr_r. f_equal. clear. induction (expansion b) as [|t m IH]; cbn [map]; [unfold sum_of_products; cbn; lra|].
    change (sum_of_products env (t :: m)) with (fold_right Rmult 1 (map env t) + sum_of_products env m). change (sum_of_products env ((s ++ t) :: map (fun t0 => s ++ t0) m)) with (fold_right Rmult 1 (map env (s ++ t)) + sum_of_products env (map (fun t0 => s ++ t0) m)).
    rewrite <- IH, product_app. ring.
Qed.
Lemma product_perm V (env : V -> R) s t : Permutation s t -> fold_right Rmult 1 (map env s) = fold_right Rmult 1 (map env t).
Proof. induction 1; cbn; try lra. now rewrite IHPermutation. Qed.
Lemma sop_perm V (env : V -> R) a b : Permutation a b -> sum_of_products env a = sum_of_products env b.
Proof. unfold sum_of_products. induction 1; cbn; lra. Qed.
Lemma evaluates_value V (env : V -> R) e ts : evaluates e ts -> eval env e = sum_of_products env ts.
Proof.
  intros (l & P & F). rewrite eval_expansion, (sop_perm _ _ _ _ P). clear P. induction F as [|s t l ts P F IH]; [reflexivity|]. unfold sum_of_products in *. cbn. now rewrite IH, (product_perm _ env _ _ P).
Qed.
Lemma magnitude_eval V (env : V -> R) e : magnitude 0 env e = eval (fun v => Rabs (env v)) e.
Proof. induction e as [|v|a IHa b IHb|a IHa b IHb]; cbn; try lra; rewrite IHa, IHb; lra. Qed.
Lemma magnitude_pos V tiny (env : V -> R) e : 0 <= tiny -> 0 <= magnitude tiny env e.
Proof.
  intro T. induction e as [|v|a IHa b IHb|a IHa b IHb]; cbn; try lra; [pose proof (Rabs_pos (env v)); lra|]. pose proof (Rmult_le_pos _ _ IHa IHb). lra.
Qed.
Lemma eval_abs V (env : V -> R) e : Rabs (eval env e) <= magnitude 0 env e.
Proof.
  induction e as [|v|a IHa b IHb|a IHa b IHb]; cbn.
  - rewrite Rabs_R0. lra.
  - lra.
  - eapply Rle_trans; [apply Rabs_triang|]. lra.
  - rewrite Rabs_mult, Rplus_0_r. apply Rmult_le_compat; try apply Rabs_pos; assumption.
Qed.
Lemma magnitude_le V tiny (env : V -> R) e : 0 <= tiny -> magnitude 0 env e <= magnitude tiny env e.
Proof.
  intro T. induction e as [|v|a IHa b IHb|a IHa b IHb]; cbn; try lra. assert (magnitude 0 env a * magnitude 0 env b <= magnitude tiny env a * magnitude tiny env b); [|lra]. apply Rmult_le_compat; try assumption; apply magnitude_pos; lra.
Qed.
Lemma peak_ge V tiny (env : V -> R) e : magnitude tiny env e <= peak tiny env e.
Proof. destruct e; cbn [peak]; try apply Rle_refl; apply Rmax_l. Qed.

(** The number of roundings when operand [v] has gone through [k v] roundings. *)
Fixpoint passes {V : Type} (k : V -> nat) (e : expr V) : nat :=
  match e with
  | Nothing => 0
  | Operand v => k v
  | Sum a b => S (Nat.max (passes k a) (passes k b))
  | Product a b => S (passes k a + passes k b)
  end.
Lemma passes_one V (e : expr V) : passes (fun _ => 1%nat) e = roundings e.
Proof. induction e as [|v|a IHa b IHb|a IHa b IHb]; cbn; congruence. Qed.

(** The invariant, for operands [env'] that are close to [env]. *)
Lemma float_eval_general u tiny tau huge rnd V (env env' : V -> R) (k : V -> nat) e : rounding u tiny rnd -> tiny <= tau ->
  (forall v, INR (k v) * u <= 1 / 64 -> 2 * (Rabs (env v) + tau) < huge -> exists f, fl rnd huge (env' v) = Some f /\ Rabs (f - env v) <= (1 + u) ^ k v * (Rabs (env v) + tau) - Rabs (env v)) ->
  INR (passes k e) * u <= 1 / 64 -> 2 * peak tau env e < huge ->
  exists f, float_eval rnd huge env' e = Some f /\ Rabs (f - eval env e) <= (1 + u) ^ passes k e * magnitude tau env e - magnitude 0 env e.
Proof.
  intros H TT OP. pose proof (unit_bounds _ _ _ H) as [U0 U1]. pose proof (tiny_bounds _ _ _ H) as [T0 T1].
  assert (FIN : forall z x m n, INR n * u <= 1 / 64 -> 0 <= m -> 2 * m < huge -> Rabs x <= z -> (1 + u) * z + tiny <= (1 + u) ^ n * m -> exists f, fl rnd huge x = Some f /\ Rabs (f - x) <= u * z + tiny).
  { intros z x m n K M MH XZ ZM. exists (rnd x). pose proof (rnd_any u tiny rnd H x) as RA. assert (UX : u * Rabs x <= u * z) by (apply Rmult_le_compat_l; lra). split; [|lra]. apply fl_some.
    pose proof (power_small u n ltac:(lra) K) as PS. assert (((1 + u) ^ n) * m <= 2 * m) by (apply Rmult_le_compat_r; lra).
    replace (rnd x) with ((rnd x - x) + x) by ring. eapply Rle_lt_trans; [apply Rabs_triang|]. lra. }
  induction e as [|v|a IHa b IHb|a IHa b IHb]; intros K P.
  - exists 0. split; [reflexivity|]. cbn. rewrite Rminus_0_r, Rabs_R0. lra.
  - cbn [passes peak magnitude float_eval eval] in *. destruct (OP v K P) as (f & E & B). exists f. split; [exact E|]. rewrite Rplus_0_r. exact B.
  - cbn [peak] in P. pose proof (Rmax_l (magnitude tau env (Sum a b)) (Rmax (peak tau env a) (peak tau env b))) as P1. pose proof (Rmax_r (magnitude tau env (Sum a b)) (Rmax (peak tau env a) (peak tau env b))) as P2. pose proof (Rmax_l (peak tau env a) (peak tau env b)) as P3. pose proof (Rmax_r (peak tau env a) (peak tau env b)) as P4.
    set (d := Nat.max (passes k a) (passes k b)) in *. assert (KA : INR (passes k a) <= INR (S d)) by (apply le_INR; unfold d; lia). assert (KB : INR (passes k b) <= INR (S d)) by (apply le_INR; unfold d; lia).
    change (passes k (Sum a b)) with (S d) in *. assert (KA' : INR (passes k a) * u <= INR (S d) * u) by (apply Rmult_le_compat_r; lra). assert (KB' : INR (passes k b) * u <= INR (S d) * u) by (apply Rmult_le_compat_r; lra).
    destruct (IHa ltac:(lra) ltac:(lra)) as (x & EX & BX). destruct (IHb ltac:(lra) ltac:(lra)) as (y & EY & BY). cbn [float_eval eval]. rewrite EX, EY. cbn [fbind]. unfold fadd.
    pose proof (magnitude_pos V tau env a ltac:(lra)) as NA. pose proof (magnitude_pos V tau env b ltac:(lra)) as NB. pose proof (eval_abs V env a) as AA. pose proof (eval_abs V env b) as AB.
    cbn [magnitude] in *. set (na := magnitude tau env a) in *. set (nb := magnitude tau env b) in *. set (ma := magnitude 0 env a) in *. set (mb := magnitude 0 env b) in *.
    assert (QA : (1 + u) ^ passes k a * na <= (1 + u) ^ d * na) by (apply Rmult_le_compat_r; [exact NA|]; apply Rle_pow; [lra|unfold d; lia]).
    assert (QB : (1 + u) ^ passes k b * nb <= (1 + u) ^ d * nb) by (apply Rmult_le_compat_r; [exact NB|]; apply Rle_pow; [lra|unfold d; lia]).
    set (q := (1 + u) ^ d) in *. assert (Q1 : 1 <= q) by (apply pow_R1_Rle; lra).
    assert (D : Rabs ((x + y) - (eval env a + eval env b)) <= q * (na + nb) - (ma + mb)). { replace ((x + y) - (eval env a + eval env b)) with ((x - eval env a) + (y - eval env b)) by ring. eapply Rle_trans; [apply Rabs_triang|]. lra. }
    assert (SB : Rabs (x + y) <= q * (na + nb)). { replace (x + y) with ((x + y - (eval env a + eval env b)) + (eval env a + eval env b)) by ring. eapply Rle_trans; [apply Rabs_triang|]. pose proof (Rabs_triang (eval env a) (eval env b)). lra. }
    assert (UQ : 1 * tau <= (1 + u) * q * tau). { apply Rmult_le_compat_r; [lra|]. assert (1 * 1 <= (1 + u) * q) by (apply Rmult_le_compat; lra). lra. }
    assert (TOT : (1 + u) * (q * (na + nb)) + tiny <= (1 + u) ^ S d * (na + nb + tau)). { change ((1 + u) ^ S d) with ((1 + u) * q). lra. }
    destruct (FIN (q * (na + nb)) (x + y) (na + nb + tau) (S d) K ltac:(lra) ltac:(lra) SB TOT) as (f & E & B). exists f. split; [exact E|].
    replace (f - (eval env a + eval env b)) with ((f - (x + y)) + ((x + y) - (eval env a + eval env b))) by ring. eapply Rle_trans; [apply Rabs_triang|]. lra.
  - cbn [peak] in P. pose proof (Rmax_l (magnitude tau env (Product a b)) (Rmax (peak tau env a) (peak tau env b))) as P1. pose proof (Rmax_r (magnitude tau env (Product a b)) (Rmax (peak tau env a) (peak tau env b))) as P2. pose proof (Rmax_l (peak tau env a) (peak tau env b)) as P3. pose proof (Rmax_r (peak tau env a) (peak tau env b)) as P4.
    set (d := (passes k a + passes k b)%nat) in *. assert (KA : INR (passes k a) <= INR (S d)) by (apply le_INR; unfold d; lia). assert (KB : INR (passes k b) <= INR (S d)) by (apply le_INR; unfold d; lia).
    change (passes k (Product a b)) with (S d) in *. assert (KA' : INR (passes k a) * u <= INR (S d) * u) by (apply Rmult_le_compat_r; lra). assert (KB' : INR (passes k b) * u <= INR (S d) * u) by (apply Rmult_le_compat_r; lra).
    destruct (IHa ltac:(lra) ltac:(lra)) as (x & EX & BX). destruct (IHb ltac:(lra) ltac:(lra)) as (y & EY & BY). cbn [float_eval eval]. rewrite EX, EY. cbn [fbind]. unfold fmul.
    pose proof (magnitude_pos V tau env a ltac:(lra)) as NA. pose proof (magnitude_pos V tau env b ltac:(lra)) as NB. pose proof (magnitude_pos V 0 env a ltac:(lra)) as MA. pose proof (magnitude_pos V 0 env b ltac:(lra)) as MB. pose proof (eval_abs V env a) as AA. pose proof (eval_abs V env b) as AB.
    cbn [magnitude] in *. set (na := magnitude tau env a) in *. set (nb := magnitude tau env b) in *. set (ma := magnitude 0 env a) in *. set (mb := magnitude 0 env b) in *.
    assert (PQ : (1 + u) ^ passes k a * na * ((1 + u) ^ passes k b * nb) = (1 + u) ^ d * (na * nb)) by (unfold d; rewrite pow_add; ring).
    set (xa := (1 + u) ^ passes k a * na) in *. set (yb := (1 + u) ^ passes k b * nb) in *.
    set (q := (1 + u) ^ d) in *. assert (Q1 : 1 <= q) by (apply pow_R1_Rle; lra).
    assert (XA : Rabs x <= xa). { replace x with ((x - eval env a) + eval env a) by ring. eapply Rle_trans; [apply Rabs_triang|]. lra. }
    assert (YB : Rabs y <= yb). { replace y with ((y - eval env b) + eval env b) by ring. eapply Rle_trans; [apply Rabs_triang|]. lra. }
    assert (D : Rabs (x * y - eval env a * eval env b) <= xa * yb - ma * mb).
    { replace (x * y - eval env a * eval env b) with ((x - eval env a) * y + eval env a * (y - eval env b)) by ring. eapply Rle_trans; [apply Rabs_triang|]. rewrite !Rabs_mult.
      apply Rle_trans with ((xa - ma) * yb + ma * (yb - mb)); [|lra]. apply Rplus_le_compat; apply Rmult_le_compat; try apply Rabs_pos; assumption. }
    assert (SB : Rabs (x * y) <= q * (na * nb)). { rewrite Rabs_mult, <- PQ. apply Rmult_le_compat; try apply Rabs_pos; assumption. }
    assert (UQ : 1 * tau <= (1 + u) * q * tau). { apply Rmult_le_compat_r; [lra|]. assert (1 * 1 <= (1 + u) * q) by (apply Rmult_le_compat; lra). lra. }
    assert (NN : 0 <= na * nb) by now apply Rmult_le_pos.
    assert (TOT : (1 + u) * (q * (na * nb)) + tiny <= (1 + u) ^ S d * (na * nb + tau)). { change ((1 + u) ^ S d) with ((1 + u) * q). lra. }
    destruct (FIN (q * (na * nb)) (x * y) (na * nb + tau) (S d) K ltac:(lra) ltac:(lra) SB TOT) as (f & E & B). exists f. split; [exact E|].
    replace (f - eval env a * eval env b) with ((f - x * y) + (x * y - eval env a * eval env b)) by ring. eapply Rle_trans; [apply Rabs_triang|]. lra.
Qed.

Lemma float_eval_error u tiny huge rnd V (env : V -> R) e : rounding u tiny rnd -> INR (roundings e) * u <= 1 / 64 -> 2 * peak tiny env e < huge ->
  exists f, float_eval rnd huge env e = Some f /\ Rabs (f - eval env e) <= (1 + u) ^ roundings e * magnitude tiny env e - magnitude 0 env e.
Proof.
  intros H. rewrite <- passes_one. apply (float_eval_general u tiny); [exact H|lra|]. pose proof (unit_bounds _ _ _ H) as [U0 U1]. pose proof (tiny_bounds _ _ _ H) as [T0 T1].
  intros v _ P. pose proof (Rabs_pos (env v)) as VP. pose proof (rnd_any u tiny rnd H (env v)) as RA. assert (UV : u * Rabs (env v) <= 1 / 64 * Rabs (env v)) by (apply Rmult_le_compat_r; lra). assert (0 <= u * tiny) by (apply Rmult_le_pos; lra).
  exists (rnd (env v)). split; [|cbn; lra]. apply fl_some. replace (rnd (env v)) with ((rnd (env v) - env v) + env v) by ring. eapply Rle_lt_trans; [apply Rabs_triang|]. lra.
Qed.

(** Operands with an error of [k v] units, which are rounded once more. *)
Lemma float_eval_inexact u tiny huge rnd V (env env' : V -> R) (k : V -> nat) e : rounding u tiny rnd ->
  (forall v, Rabs (env' v - env v) <= INR (k v) * u * Rabs (env v) + tiny) ->
  INR (passes (fun v => S (k v)) e) * u <= 1 / 64 -> 2 * peak (3 * tiny) env e < huge ->
  exists f, float_eval rnd huge env' e = Some f /\
    Rabs (f - eval env e) <= 2 * (INR (passes (fun v => S (k v)) e) * u) * magnitude 0 env e + 2 * (magnitude (3 * tiny) env e - magnitude 0 env e).
Proof.
  intros H A K P. pose proof (unit_bounds _ _ _ H) as [U0 U1]. pose proof (tiny_bounds _ _ _ H) as [T0 T1].
  destruct (float_eval_general u tiny (3 * tiny) huge rnd V env env' (fun v => S (k v)) e H ltac:(lra)) as (f & E & B); [|exact K|exact P|].
  - intros v KV PV. pose proof (Rabs_pos (env v)) as VP. set (a := Rabs (env v)) in *. set (kv := INR (k v) * u) in *.
    assert (KP : 0 <= kv) by (apply Rmult_le_pos; [apply pos_INR|lra]). assert (BE : 1 + kv <= (1 + u) ^ k v).
    { unfold kv. generalize (k v). clear - U0. intro n. induction n as [|n IH]; [cbn; lra|]. rewrite S_INR. cbn [pow]. assert (0 <= INR n * u) by (apply Rmult_le_pos; [apply pos_INR|lra]). assert (0 <= u * (INR n * u)) by (apply Rmult_le_pos; lra). assert ((1 + u) * (1 + INR n * u) <= (1 + u) * (1 + u) ^ n) by (apply Rmult_le_compat_l; lra). lra. }
    pose proof (rnd_any u tiny rnd H (env' v)) as RA. specialize (A v). fold a in A. fold kv in A.
    assert (EA : Rabs (env' v) <= (1 + kv) * a + tiny). { replace (env' v) with ((env' v - env v) + env v) by ring. eapply Rle_trans; [apply Rabs_triang|]. fold a. lra. }
    assert (UE : u * Rabs (env' v) <= u * ((1 + kv) * a + tiny)) by (apply Rmult_le_compat_l; lra).
    assert (Q : (1 + u) * (1 + kv) * a <= (1 + u) * (1 + u) ^ k v * a). { apply Rmult_le_compat_r; [exact VP|]. apply Rmult_le_compat_l; lra. }
    assert (Q1 : 1 <= (1 + u) * (1 + u) ^ k v). { assert (1 * 1 <= (1 + u) * (1 + u) ^ k v) by (apply Rmult_le_compat; lra). lra. }
    assert (QT : 1 * (3 * tiny) <= (1 + u) * (1 + u) ^ k v * (3 * tiny)) by (apply Rmult_le_compat_r; lra). assert (UT : u * tiny <= 1 / 64 * tiny) by (apply Rmult_le_compat_r; lra).
    assert (D : Rabs (rnd (env' v) - env v) <= (1 + u) ^ S (k v) * (a + 3 * tiny) - a).
    { replace (rnd (env' v) - env v) with ((rnd (env' v) - env' v) + (env' v - env v)) by ring. eapply Rle_trans; [apply Rabs_triang|]. cbn [pow]. lra. }
    exists (rnd (env' v)). split; [|exact D]. apply fl_some. pose proof (power_small u (S (k v)) ltac:(lra) KV) as PS. assert ((1 + u) ^ S (k v) * (a + 3 * tiny) <= 2 * (a + 3 * tiny)) by (apply Rmult_le_compat_r; lra).
    replace (rnd (env' v)) with ((rnd (env' v) - env v) + env v) by ring. eapply Rle_lt_trans; [apply Rabs_triang|]. fold a. lra.
  - exists f. split; [exact E|]. eapply Rle_trans; [exact B|]. set (n := passes (fun v => S (k v)) e) in *.
    pose proof (power_small u n ltac:(lra) K) as PS. pose proof (magnitude_le V (3 * tiny) env e ltac:(lra)) as ML. pose proof (magnitude_pos V 0 env e ltac:(lra)) as MP.
    set (M := magnitude 0 env e) in *. set (N := magnitude (3 * tiny) env e) in *. assert (KU : 0 <= INR n * u) by (apply Rmult_le_pos; [apply pos_INR|lra]).
    assert (A' : ((1 + u) ^ n - 1) * M <= 2 * (INR n * u) * M) by (apply Rmult_le_compat_r; lra). assert (B' : (1 + u) ^ n * (N - M) <= 2 * (N - M)) by (apply Rmult_le_compat_r; lra). lra.
Qed.

Lemma float_eval_accurate u tiny huge rnd V (env : V -> R) e : rounding u tiny rnd -> in_range u tiny huge env e ->
  exists f, float_eval rnd huge env e = Some f /\ Rabs (f - eval env e) <= evaluation_error u tiny env e.
Proof.
  intros H [K P]. destruct (float_eval_error u tiny huge rnd V env e H K P) as (f & E & B). exists f. split; [exact E|]. eapply Rle_trans; [exact B|]. unfold evaluation_error.
  pose proof (unit_bounds _ _ _ H) as [U0 U1]. pose proof (tiny_bounds _ _ _ H) as [T0 T1]. pose proof (power_small u (roundings e) ltac:(lra) K) as PS. pose proof (magnitude_le V tiny env e ltac:(lra)) as ML. pose proof (magnitude_pos V 0 env e ltac:(lra)) as MP.
  set (M := magnitude 0 env e) in *. set (N := magnitude tiny env e) in *. set (q := (1 + u) ^ roundings e) in *. set (k := INR (roundings e)) in *. assert (KU : 0 <= k * u) by (apply Rmult_le_pos; [apply pos_INR|lra]).
  assert (A : (q - 1) * M <= 2 * (k * u) * M) by (apply Rmult_le_compat_r; lra). assert (B' : q * (N - M) <= 2 * (N - M)) by (apply Rmult_le_compat_r; lra). lra.
Qed.
