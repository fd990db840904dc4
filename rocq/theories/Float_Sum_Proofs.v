(** Sums of numbers of either sign in floating point arithmetic, for C85 and C86. *)
Require Import List Reals Lra Lia Permutation ZArith.
Require Import Verif.Base Verif.Indexed_Spec Verif.Float_Model Verif.Float_Spec Verif.Float_Proofs.
Import ListNotations.
Open Scope R_scope.

Lemma total_abs x l : Rabs (total x l) <= total (fun i => Rabs (x i)) l.
Proof.
  unfold total. induction l as [|i l IH]; cbn; [rewrite Rabs_R0; lra|]. eapply Rle_trans; [apply Rabs_triang|]. lra.
Qed.

Lemma reduce_signed u tiny huge rnd (q : nat -> option R) (x : nat -> R) t : rounding u tiny rnd ->
  (forall i, In i (entries t) -> q i = Some (x i)) ->
  INR (summands t) * u <= 1 / 64 -> 2 * total (fun i => Rabs (x i)) (entries t) + 4 * (INR (summands t) * tiny) < huge ->
  exists s, reduce rnd huge q t = Some s /\
    Rabs (s - total x (entries t)) <= ((1 + u) ^ summands t - 1) * total (fun i => Rabs (x i)) (entries t) + (INR (summands t) - 1) * ((1 + u) ^ summands t * tiny).
Proof.
  intros H Q. pose proof (unit_bounds _ _ _ H) as [U0 U1]. pose proof (tiny_bounds _ _ _ H) as [T0 T1].
  set (p := fun i => Rabs (x i)). assert (P0 : forall i, 0 <= p i) by (intro i; apply Rabs_pos).
  induction t as [|i|l IHl r IHr]; intros MU MH.
  - exists 0. split; [reflexivity|]. cbn. rewrite Rminus_eq_0, Rabs_R0. lra.
  - exists (x i). split; [apply Q; now left|]. cbn. rewrite !Rplus_0_r, Rminus_eq_0, Rabs_R0. specialize (P0 i). nra.
  - cbn [entries summands] in *. rewrite plus_INR in *.
    pose proof (le_INR _ _ (summands_pos l)) as L1. pose proof (le_INR _ _ (summands_pos r)) as R1. cbn [INR] in L1, R1.
    rewrite total_app in MH. pose proof (total_nonneg p (entries l) P0) as A0. pose proof (total_nonneg p (entries r) P0) as B0.
    assert (TL : 0 <= INR (summands l) * tiny) by (apply Rmult_le_pos; lra). assert (TR : 0 <= INR (summands r) * tiny) by (apply Rmult_le_pos; lra).
    assert (UL : 0 <= INR (summands l) * u) by (apply Rmult_le_pos; lra). assert (UR : 0 <= INR (summands r) * u) by (apply Rmult_le_pos; lra).
    destruct IHl as (xl & EX & X1); [intros i Hi; apply Q, in_or_app; now left|lra|lra|].
    destruct IHr as (xr & EY & Y1); [intros i Hi; apply Q, in_or_app; now right|lra|lra|].
    set (m := (summands l + summands r)%nat). assert (EM : INR m = INR (summands l) + INR (summands r)) by apply plus_INR.
    assert (ML : (1 + u) * (1 + u) ^ summands l <= (1 + u) ^ m).
    { change ((1 + u) ^ S (summands l) <= (1 + u) ^ m). apply Rle_pow; [lra|]. pose proof (summands_pos r). unfold m. lia. }
    assert (MR : (1 + u) * (1 + u) ^ summands r <= (1 + u) ^ m).
    { change ((1 + u) ^ S (summands r) <= (1 + u) ^ m). apply Rle_pow; [lra|]. pose proof (summands_pos l). unfold m. lia. }
    destruct (power_bound u m ltac:(lra) ltac:(rewrite EM; lra)) as [_ M1]. pose proof (power_small u m ltac:(lra) ltac:(rewrite EM; lra)) as M2. rewrite EM in M2.
    pose proof (total_abs x (entries l)) as XA. pose proof (total_abs x (entries r)) as XB. fold p in XA, XB.
    rewrite !total_app. set (a := total p (entries l)) in *. set (b := total p (entries r)) in *. set (ml := INR (summands l)) in *. set (mr := INR (summands r)) in *.
    set (va := total x (entries l)) in *. set (vb := total x (entries r)) in *.
    set (el := (1 + u) ^ summands l) in *. set (er := (1 + u) ^ summands r) in *. set (e := (1 + u) ^ m) in *.
    assert (E1 : 1 <= el) by (apply pow_R1_Rle; lra). assert (E2 : 1 <= er) by (apply pow_R1_Rle; lra).
    clearbody a b va vb ml mr el er e.
    assert (DX : (1 + u) * ((el - 1) * a + (ml - 1) * (el * tiny)) <= (e - 1 - u) * a + (ml - 1) * (e * tiny)).
    { assert (Z1 : ((1 + u) * el) * a <= e * a) by (apply Rmult_le_compat_r; lra).
      assert (Z2 : ((1 + u) * el) * ((ml - 1) * tiny) <= e * ((ml - 1) * tiny)) by (apply Rmult_le_compat_r; [apply Rmult_le_pos; lra|lra]).
      lra. }
    assert (DY : (1 + u) * ((er - 1) * b + (mr - 1) * (er * tiny)) <= (e - 1 - u) * b + (mr - 1) * (e * tiny)).
    { assert (Z1 : ((1 + u) * er) * b <= e * b) by (apply Rmult_le_compat_r; lra).
      assert (Z2 : ((1 + u) * er) * ((mr - 1) * tiny) <= e * ((mr - 1) * tiny)) by (apply Rmult_le_compat_r; [apply Rmult_le_pos; lra|lra]).
      lra. }
    set (dx := (el - 1) * a + (ml - 1) * (el * tiny)) in *. set (dy := (er - 1) * b + (mr - 1) * (er * tiny)) in *. clearbody dx dy.
    assert (ET : 1 * tiny <= e * tiny) by (apply Rmult_le_compat_r; lra).
    pose proof (rnd_any u tiny rnd H (xl + xr)) as RA.
    assert (SA : Rabs (xl + xr) <= a + b + dx + dy).
    { replace (xl + xr) with ((xl - va) + (xr - vb) + (va + vb)) by ring. eapply Rle_trans; [apply Rabs_triang|].
      pose proof (Rabs_triang (xl - va) (xr - vb)). pose proof (Rabs_triang va vb). lra. }
    assert (US : u * Rabs (xl + xr) <= u * (a + b + dx + dy)) by (apply Rmult_le_compat_l; lra).
    assert (BOUND : Rabs (rnd (xl + xr) - (va + vb)) <= (e - 1) * (a + b) + (ml + mr - 1) * (e * tiny)).
    { replace (rnd (xl + xr) - (va + vb)) with ((rnd (xl + xr) - (xl + xr)) + ((xl - va) + (xr - vb))) by ring.
      eapply Rle_trans; [apply Rabs_triang|]. pose proof (Rabs_triang (xl - va) (xr - vb)). lra. }
    exists (rnd (xl + xr)). split; [|exact BOUND].
    cbn [reduce]. rewrite EX, EY. cbn [fbind]. unfold fadd. apply fl_some.
    assert (TRI : Rabs (rnd (xl + xr)) <= Rabs (va + vb) + Rabs (rnd (xl + xr) - (va + vb))).
    { replace (rnd (xl + xr)) with ((va + vb) + (rnd (xl + xr) - (va + vb))) at 1 by ring. apply Rabs_triang. }
    pose proof (Rabs_triang va vb) as VT.
    assert (EE : e <= 65 / 63) by lra.
    assert (Z1 : (e - 1) * (a + b) <= 2 / 63 * (a + b)) by (apply Rmult_le_compat_r; lra).
    assert (Z2 : (ml + mr - 1) * (e * tiny) <= (ml + mr) * (65 / 63 * tiny)) by (apply Rmult_le_compat; try lra; apply Rmult_le_compat_r; lra).
    lra.
Qed.

(** With simpler constants. *)
Lemma reduce_signed_simple u tiny huge rnd (q : nat -> option R) (x : nat -> R) t : rounding u tiny rnd ->
  (forall i, In i (entries t) -> q i = Some (x i)) ->
  let m := INR (summands t) in let size := total (fun i => Rabs (x i)) (entries t) in
  m * u <= 1 / 64 -> 2 * size + 4 * (m * tiny) < huge ->
  exists s, reduce rnd huge q t = Some s /\ Rabs (s - total x (entries t)) <= 2 * (m * u * size + m * tiny).
Proof.
  intros H Q m size MU MH. pose proof (unit_bounds _ _ _ H) as [U0 U1]. pose proof (tiny_bounds _ _ _ H) as [T0 T1].
  destruct (reduce_signed u tiny huge rnd q x t H Q MU MH) as (s & E & B). exists s. split; [exact E|]. fold m size in B.
  pose proof (power_small u (summands t) ltac:(lra) MU) as PW. destruct (power_bound u (summands t) ltac:(lra) MU) as [_ P1]. fold m in PW.
  set (e := (1 + u) ^ summands t) in *. clearbody e.
  assert (S0 : 0 <= size) by (apply total_nonneg; intro; apply Rabs_pos).
  assert (M1 : 1 <= m) by (pose proof (le_INR _ _ (summands_pos t)) as Z; exact Z).
  assert (Z1 : (e - 1) * size <= 64 / 63 * (m * u) * size) by (apply Rmult_le_compat_r; lra).
  assert (Z2 : (m - 1) * (e * tiny) <= m * (2 * tiny)) by (apply Rmult_le_compat; try lra; [apply Rmult_le_pos; lra|apply Rmult_le_compat_r; lra]).
  assert (Z3 : 0 <= m * u * size) by (apply Rmult_le_pos; [apply Rmult_le_pos; lra|lra]). lra.
Qed.

(** The entries of one segment. *)
Lemma segment_total (f : R -> R) s dst vals : length dst = length vals ->
  total (fun i => f (nth i vals 0)) (filter (fun i => (nth i dst 0 =? s)%Z) (seq 0 (length dst))) = list_sum (map f (values_at s (combine dst vals))).
Proof.
  intro L. enough (G : forall k (g : nat -> R) (d : nat -> Z), (forall i, (i < length dst)%nat -> g (k + i)%nat = f (nth i vals 0) /\ d (k + i)%nat = nth i dst 0%Z) ->
    total g (filter (fun i => (d i =? s)%Z) (seq k (length dst))) = list_sum (map f (values_at s (combine dst vals)))).
  { rewrite <- (G 0%nat (fun i => f (nth i vals 0)) (fun i => nth i dst 0%Z)); [reflexivity|]. intros i _. split; reflexivity. }
  revert vals L. induction dst as [|d0 dst IH]; intros [|v vals] L k g d G; try discriminate; [reflexivity|].
  cbn [length seq filter combine]. destruct (G 0%nat ltac:(cbn; lia)) as [G1 G2]. rewrite Nat.add_0_r in G1, G2. cbn in G1, G2. rewrite G2.
  unfold values_at in *. cbn [filter fst].
  assert (T : total g (filter (fun i => (d i =? s)%Z) (seq (S k) (length dst))) = list_sum (map f (map snd (filter (fun e => (fst e =? s)%Z) (combine dst vals))))).
  { apply IH; [now injection L|]. intros i Hi. specialize (G (S i) ltac:(cbn; lia)). cbn in G. now rewrite Nat.add_succ_r in G. }
  destruct (d0 =? s)%Z; [|exact T]. cbn [map list_sum snd]. rewrite <- T, <- G1. reflexivity.
Qed.
